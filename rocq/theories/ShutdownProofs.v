(** Proofs for C86: following the live set owner by owner. *)
From Coq Require Import ZArith List Bool String Lia.
From Verif Require Import Types BBox Grid Setup Media Medium Waveform Source PlaneWave Observer Front Program Shutdown SpecShutdown.
Import ListNotations.
Open Scope string_scope.
Open Scope list_scope.

Definition Live := string -> nat -> string -> Prop.
Definition holds (D : Live) (L : list Res) := forall r, In r L <-> D (r_of r) (r_num r) (r_part r).
Definition good (D : Live) (es : list Ev) (D' : Live) := forall L, holds D L -> exists L', checker L es = Some L' /\ holds D' L'.
Definition upd (D : Live) (o : string) (X : nat -> string -> Prop) : Live := fun o' => if String.eqb o' o then X else D o'.
Definition same (D D' : Live) := forall o n p, D o n p <-> D' o n p.

Lemma upd_eq D o X : upd D o X o = X. Proof. unfold upd. rewrite String.eqb_refl. reflexivity. Qed.
Lemma good_nil D : good D [] D.
Proof. intros L H. exists L. split; [reflexivity|exact H]. Qed.
Lemma checker_app a : forall L b, checker L (a ++ b) = match checker L a with Some L' => checker L' b | None => None end.
Proof. induction a as [|[r|r|r] a IH]; intros L b; cbn [app checker]; [reflexivity|destruct (in_dec res_dec r L); auto..]. Qed.
Lemma good_app D a D1 b D2 : good D a D1 -> good D1 b D2 -> good D (a ++ b) D2.
Proof. intros A B L H. destruct (A L H) as (L1 & E & H1). destruct (B L1 H1) as (L2 & E2 & H2). exists L2. rewrite checker_app, E. auto. Qed.
Lemma good_cons D e D1 es D2 : good D [e] D1 -> good D1 es D2 -> good D (e :: es) D2.
Proof. exact (good_app D [e] D1 es D2). Qed.
Lemma good_ext D1 D es D' D1' : good D1 es D1' -> same D D1 -> same D1' D' -> good D es D'.
Proof.
  intros G A B L H. destruct (G L) as (L' & E & H'). { intros r. rewrite <- (A (r_of r)). apply H. }
  exists L'. split; [exact E|]. intros r. rewrite <- (B (r_of r)). apply H'.
Qed.
Lemma good_to D es D1' D' : good D es D1' -> same D1' D' -> good D es D'.
Proof. intros G S. apply (good_ext D D es D' D1' G); [intros o n p; reflexivity|exact S]. Qed.
Lemma good_alloc (D : Live) o n p : ~ D o n p -> good D [Alloc (mkRes o n p)] (upd D o (fun m q => D o m q \/ (m = n /\ q = p))).
Proof.
  intros N L H. exists (mkRes o n p :: L). split.
  - cbn. destruct (in_dec _ _ L) as [I|_]; [|reflexivity]. apply H in I. destruct (N I).
  - intros [o' m q]. cbn [In r_of r_num r_part]. unfold upd. destruct (String.eqb_spec o' o) as [->|Q].
    + rewrite (H (mkRes o m q)). cbn [r_of r_num r_part]. split; [intros [X|X]; [injection X as -> ->; auto|auto]|intros [X|[-> ->]]; auto].
    + rewrite (H (mkRes o' m q)). cbn [r_of r_num r_part]. split; [intros [X|X]; [injection X as -> _ _; congruence|exact X]|auto].
Qed.
Lemma good_use (D : Live) o n p : D o n p -> good D [Use (mkRes o n p)] D.
Proof. intros N L H. exists L. split; [|exact H]. cbn. destruct (in_dec _ _ L) as [I|X]; [reflexivity|]. exfalso. apply X, H. exact N. Qed.
Lemma good_free (D : Live) o n p : D o n p -> good D [Free (mkRes o n p)] (upd D o (fun m q => D o m q /\ ~ (m = n /\ q = p))).
Proof.
  intros N L H. exists (remove res_dec (mkRes o n p) L). split.
  - cbn. destruct (in_dec _ _ L) as [I|X]; [reflexivity|]. exfalso. apply X, H. exact N.
  - intros [o' m q]. cbn [r_of r_num r_part].
    assert (E : In (mkRes o' m q) (remove res_dec (mkRes o n p) L) <-> In (mkRes o' m q) L /\ mkRes o' m q <> mkRes o n p).
    { split; [apply in_remove|intros [A B]; apply in_in_remove; auto]. }
    rewrite E, (H (mkRes o' m q)). cbn [r_of r_num r_part]. unfold upd. destruct (String.eqb_spec o' o) as [->|Q].
    + split; intros [A B]; (split; [exact A|]); [intros [-> ->]; apply B; reflexivity|intros X; injection X as -> ->; apply B; auto].
    + split; [intros [A _]; exact A|intros A; split; [exact A|congruence]].
Qed.
Lemma same_refl D : same D D. Proof. intros o n p; reflexivity. Qed.
Lemma same_upd (D : Live) o (X Y : nat -> string -> Prop) : (forall n p, X n p <-> Y n p) -> same (upd D o X) (upd D o Y).
Proof. intros E o' n p. unfold upd. destruct (String.eqb o' o); [apply E|reflexivity]. Qed.
Lemma same_upd2 (D : Live) o (X Y Z : nat -> string -> Prop) : (forall n p, Y n p <-> Z n p) -> same (upd (upd D o X) o Y) (upd D o Z).
Proof. intros E o' n p. unfold upd. destruct (String.eqb o' o); [apply E|reflexivity]. Qed.
Lemma same_own (D : Live) o (X : nat -> string -> Prop) : (forall n p, X n p <-> D o n p) -> same (upd D o X) D.
Proof. intros E o' n p. unfold upd. destruct (String.eqb_spec o' o) as [->|]; [apply E|reflexivity]. Qed.
Lemma same_sym D D' : same D D' -> same D' D. Proof. intros E o n p. symmetry. apply E. Qed.
Lemma same_trans A B C : same A B -> same B C -> same A C. Proof. intros X Y o n p. rewrite (X o n p). apply Y. Qed.

Lemma good_allocs o n : forall l (D : Live), NoDup l -> (forall p, In p l -> ~ D o n p) ->
  good D (map Alloc (parts o n l)) (upd D o (fun m q => D o m q \/ (m = n /\ In q l))).
Proof.
  induction l as [|a l IH]; intros D ND N; cbn [parts map].
  - apply (good_to _ _ D); [apply good_nil|]. apply same_sym, same_own. intros m q. cbn. tauto.
  - inversion ND as [|? ? NA ND']; subst. eapply good_cons; [apply good_alloc, N; left; reflexivity|].
    eapply good_to; [apply IH; [exact ND'|]|].
    + intros p I. rewrite upd_eq. intros [X|[_ ->]]; [exact (N p (or_intror I) X)|exact (NA I)].
    + apply same_upd2. intros m q. rewrite upd_eq. cbn [In]. split; [intros [[X|[-> ->]]|[-> X]]; auto|intros [X|[-> [<-|X]]]; auto].
Qed.
Lemma good_frees o n : forall l (D : Live), NoDup l -> (forall p, In p l -> D o n p) ->
  good D (map Free (parts o n l)) (upd D o (fun m q => D o m q /\ ~ (m = n /\ In q l))).
Proof.
  induction l as [|a l IH]; intros D ND N; cbn [parts map].
  - apply (good_to _ _ D); [apply good_nil|]. apply same_sym, same_own. intros m q. cbn. tauto.
  - inversion ND as [|? ? NA ND']; subst. eapply good_cons; [apply good_free, N; left; reflexivity|].
    eapply good_to; [apply IH; [exact ND'|]|].
    + intros p I. rewrite upd_eq. split; [apply N; right; exact I|]. intros [_ ->]. exact (NA I).
    + apply same_upd2. intros m q. rewrite upd_eq. cbn [In]. split.
      * intros [[X A] B]. split; [exact X|]. intros [-> [<-|C]]; auto.
      * intros [X A]. repeat split; auto; intros [-> C]; apply A; auto.
Qed.
Lemma good_uses (D : Live) l : (forall r, In r l -> D (r_of r) (r_num r) (r_part r)) -> good D (map Use l) D.
Proof.
  induction l as [|[o n p] l IH]; intros N; cbn [map]; [apply good_nil|].
  eapply good_cons; [apply good_use, (N (mkRes o n p)); left; reflexivity|apply IH; intros r I; apply N; right; exact I].
Qed.
Lemma good_usep (D : Live) o n l : (forall p, In p l -> D o n p) -> good D (map Use (parts o n l)) D.
Proof. intros N. apply good_uses. intros r I. apply in_map_iff in I as (p & <- & I). cbn. exact (N p I). Qed.

Lemma good_each {A} (l : list A) (f : nat -> A -> list Ev) (I : nat -> Live) :
  (forall n x, nth_error l n = Some x -> good (I n) (f n x) (I (S n))) -> good (I O) (each l f) (I (List.length l)).
Proof.
  intros N. unfold each.
  assert (X : forall k m, (m + k)%nat = List.length l ->
    good (I m) (flat_map (fun n => match nth_error l n with Some x => f n x | None => [] end) (seq m k)) (I (List.length l))).
  { induction k as [|k IH]; intros m E; cbn [seq flat_map].
    - rewrite <- E, Nat.add_0_r. apply good_nil.
    - destruct (nth_error l m) as [x|] eqn:Q; [|apply nth_error_None in Q; lia].
      eapply good_app; [apply N; exact Q|]. apply IH. lia. }
  apply X. reflexivity.
Qed.
Lemma good_each_uses {A} (l : list A) (f : nat -> A -> list Ev) D :
  (forall n x, nth_error l n = Some x -> good D (f n x) D) -> good D (each l f) D.
Proof. exact (good_each l f (fun _ => D)). Qed.
Lemma nth_lt {A} (l : list A) n x : nth_error l n = Some x -> (n < List.length l)%nat.
Proof. intros E. apply nth_error_Some. congruence. Qed.

(** ** segments, each about the owners it touches *)
Definition none : nat -> string -> Prop := fun _ _ => False.
Definition some_items (k : nat) : nat -> string -> Prop := fun n p => (n < k)%nat /\ p = "".
Definition one : nat -> string -> Prop := fun n p => n = 0%nat /\ p = "".
(** item [n] with its parts [X] *)
Definition fam {A} (l : list A) (X : nat -> A -> list string) : nat -> string -> Prop :=
  fun n p => exists x, nth_error l n = Some x /\ In p (X n x).

Lemma seg_glob_alloc (D : Live) s : (forall n p, ~ D s n p) -> good D [Alloc (glob s)] (upd D s one).
Proof. intros N. eapply good_to; [apply good_alloc, N|]. apply same_upd. intros n p. unfold one. specialize (N n p). tauto. Qed.
Lemma seg_glob_free (D : Live) s : (forall n p, D s n p <-> one n p) -> good D [Free (glob s)] (upd D s none).
Proof. intros N. eapply good_to; [apply good_free, N; split; reflexivity|]. apply same_upd. intros n p. rewrite N. unfold one, none. tauto. Qed.

(** all the events of an item: it allocates [Y n x], a set the state has none of *)
Lemma seg_alloc {A} (l : list A) (f : nat -> A -> list Ev) (o : string) (X Y : nat -> A -> list string) (D : Live) :
  (forall n p, D o n p <-> fam l X n p) ->
  (forall n x p, nth_error l n = Some x -> In p (Y n x) -> ~ In p (X n x)) ->
  (forall n x D', nth_error l n = Some x -> (forall o', o' <> o -> D' o' = D o') -> (forall p, D' o n p <-> In p (X n x)) ->
     good D' (f n x) (upd D' o (fun m q => D' o m q \/ (m = n /\ In q (Y n x))))) ->
  good D (each l f) (upd D o (fam l (fun n x => X n x ++ Y n x))).
Proof.
  intros H DJ N.
  set (I := fun k => upd D o (fun n p => exists x, nth_error l n = Some x /\ (In p (X n x) \/ ((n < k)%nat /\ In p (Y n x))))).
  apply (good_ext (I O) _ _ _ (I (List.length l))).
  - apply good_each. intros n x E. eapply good_to; [apply (N n x); [exact E| |]|].
    + intros o' Q. unfold I, upd. destruct (String.eqb_spec o' o); [contradiction|reflexivity].
    + intros p. unfold I. rewrite upd_eq. split; [intros (y & E' & [Z|[Z _]]); [|lia]; congruence|intros Z; exists x; auto].
    + apply same_upd2. intros m q. unfold I. rewrite upd_eq. split.
      * intros [(y & E' & Z)|[-> Z]]; [exists y; split; [exact E'|]; destruct Z as [Z|[Z Z']]; [auto|right; split; [lia|auto]]|exists x; split; [exact E|right; split; [lia|auto]]].
      * intros (y & E' & [Z|[Z Z']]); [left; exists y; auto|]. destruct (Nat.eq_dec m n) as [->|]; [right; split; [auto|congruence]|left; exists y; split; [exact E'|right; split; [lia|auto]]].
  - apply same_sym, same_own. intros n p. rewrite H. unfold fam. split; intros (x & E & Z); exists x; (split; [exact E|]); [destruct Z as [Z|[Z _]]; [exact Z|lia]|auto].
  - apply same_upd. intros n p. unfold fam. split; intros (x & E & Z); exists x; (split; [exact E|]); [apply in_or_app; destruct Z as [Z|[_ Z]]; auto|].
    apply in_app_or in Z. destruct Z as [Z|Z]; [auto|right; split; [exact (nth_lt _ _ _ E)|exact Z]].
Qed.
(** it releases [Y n x] of the set [X n x] it has *)
Lemma seg_free {A} (l : list A) (f : nat -> A -> list Ev) (o : string) (X Y : nat -> A -> list string) (Z : nat -> string -> Prop) (D : Live) :
  (forall n p, D o n p <-> fam l X n p) ->
  (forall n x D', nth_error l n = Some x -> (forall o', o' <> o -> D' o' = D o') -> (forall p, D' o n p <-> In p (X n x)) ->
     good D' (f n x) (upd D' o (fun m q => D' o m q /\ ~ (m = n /\ In q (Y n x))))) ->
  (forall n p, Z n p <-> exists x, nth_error l n = Some x /\ In p (X n x) /\ ~ In p (Y n x)) ->
  good D (each l f) (upd D o Z).
Proof.
  intros H N HZ.
  set (I := fun k => upd D o (fun n p => exists x, nth_error l n = Some x /\ In p (X n x) /\ ~ ((n < k)%nat /\ In p (Y n x)))).
  apply (good_ext (I O) _ _ _ (I (List.length l))).
  - apply good_each. intros n x E. eapply good_to; [apply (N n x); [exact E| |]|].
    + intros o' Q. unfold I, upd. destruct (String.eqb_spec o' o); [contradiction|reflexivity].
    + intros p. unfold I. rewrite upd_eq. split; [intros (y & E' & V & _); congruence|intros V; exists x; repeat split; auto; intros [W _]; lia].
    + apply same_upd2. intros m q. unfold I. rewrite upd_eq. split.
      * intros [(y & E' & V & W) B]. exists y. repeat split; auto. intros [C C']. destruct (Nat.eq_dec m n) as [->|]; [apply B; split; [auto|congruence]|apply W; split; [lia|auto]].
      * intros (y & E' & V & W). split; [exists y; repeat split; auto; intros [C C']; apply W; split; [lia|auto]|].
        intros [-> C]. apply W. split; [lia|congruence].
  - apply same_sym, same_own. intros n p. rewrite H. unfold fam. split; intros (x & E & V); exists x; [tauto|repeat split; auto; intros [C _]; lia].
  - apply same_upd. intros n p. rewrite HZ. split; intros (x & E & V & W); exists x; repeat split; auto; [intros C; apply W; split; [exact (nth_lt _ _ _ E)|exact C]|intros [_ C]; auto].
Qed.
Lemma fam_nil {A} (l : list A) n p : fam l (fun _ _ => []) n p <-> False.
Proof. unfold fam. split; [intros (x & _ & [])|intros []]. Qed.
Lemma seg_allocItems {A} (l : list A) o (D : Live) : (forall n p, ~ D o n p) -> good D (allocItems o l) (upd D o (fam l (fun _ _ => [""]))).
Proof.
  intros N. eapply good_to; [apply (seg_alloc l _ o (fun _ _ => []) (fun _ _ => [""]))|apply same_refl].
  - intros n p. rewrite fam_nil. specialize (N n p). tauto.
  - intros n x p _ _ [].
  - intros n x D' _ _ E. apply (good_allocs o n [""]); [repeat constructor; intros []|]. intros p _ Q. exact (proj1 (E p) Q).
Qed.
Lemma seg_freeItems {A} (l : list A) o (D : Live) : (forall n p, D o n p <-> fam l (fun _ _ => [""]) n p) -> good D (freeItems o l) (upd D o none).
Proof.
  intros N. apply (seg_free l _ o (fun _ _ => [""]) (fun _ _ => [""])); [exact N| |].
  - intros n x D' _ _ E. eapply good_cons; [apply good_use, E; left; reflexivity|].
    apply (good_frees o n [""]); [repeat constructor; intros []|]. intros p Q. apply E. exact Q.
  - intros n p. unfold none. split; [intros []|]. intros (x & _ & A1 & A2). auto.
Qed.

Ltac nodup := repeat (constructor; [cbn; intuition discriminate|]); constructor.
Ltac ins := cbn [In app]; intuition (subst; try discriminate; auto).
Lemma fam_items {A} (l : list A) n p : fam l (fun _ _ => [""]) n p <-> some_items (List.length l) n p.
Proof.
  unfold fam, some_items. split.
  - intros (x & E & [<-|[]]). split; [exact (nth_lt _ _ _ E)|reflexivity].
  - intros [L ->]. destruct (nth_error l n) as [x|] eqn:E; [exists x; split; [reflexivity|left; reflexivity]|apply nth_error_None in E; lia].
Qed.
Lemma seg_seq o : forall j k (D : Live), (forall n p, D o n p <-> some_items k n p) ->
  good D (map (fun n => Alloc (item o n)) (seq k j)) (upd D o (some_items (k + j))).
Proof.
  induction j as [|j IH]; intros k D H; cbn [seq map].
  - apply (good_to _ _ D); [apply good_nil|]. apply same_sym, same_own. intros n p. rewrite H. unfold some_items. rewrite Nat.add_0_r. reflexivity.
  - eapply good_cons; [apply good_alloc; rewrite H; unfold some_items; lia|].
    eapply good_to; [apply (IH (S k))|].
    + intros n p. rewrite upd_eq, H. unfold some_items. split; [intros [[A B]|[A B]]; split; auto; lia|]. intros [A B]. destruct (Nat.eq_dec n k); [right; auto|left; split; [lia|exact B]].
    + apply same_upd2. intros n p. unfold some_items. replace (S k + j)%nat with (k + S j)%nat by lia. reflexivity.
Qed.
(** one item: what it uses of its own, then what it allocates *)
Lemma item_alloc (D : Live) o n us l : (forall p, In p us -> D o n p) -> NoDup l -> (forall p, In p l -> ~ D o n p) ->
  good D (map Use (parts o n us) ++ map Alloc (parts o n l)) (upd D o (fun m q => D o m q \/ (m = n /\ In q l))).
Proof. intros U ND N. eapply good_app; [apply good_usep; exact U|apply good_allocs; assumption]. Qed.
Lemma item_free (D : Live) o n us l : (forall p, In p us -> D o n p) -> NoDup l -> (forall p, In p l -> D o n p) ->
  good D (map Use (parts o n us) ++ map Free (parts o n l)) (upd D o (fun m q => D o m q /\ ~ (m = n /\ In q l))).
Proof. intros U ND N. eapply good_app; [apply good_usep; exact U|apply good_frees; assumption]. Qed.

(** *** media *)
Definition ofDebye (it : Item MParam) (l : list string) : list string := match m_type (idata it) with MT_DEBYE => l | _ => [] end.
Definition mediumRead (_ : nat) (it : Item MParam) := "" :: ofDebye it ["residues"; "poles"].
Definition mediumMade (_ : nat) (it : Item MParam) := ("" :: ofDebye it ["residues"; "poles"]) ++ ofDebye it ["dalpha"; "dbeta"].
Lemma seg_mediaRead h (D : Live) : (forall n p, ~ D "medium" n p) ->
  good D (each (h_media h) (fun n it => Alloc (item "medium" n) ::
       match m_type (idata it) with MT_DEBYE => map Alloc (parts "medium" n ["residues"; "poles"]) | _ => [] end)) (upd D "medium" (fam (h_media h) mediumRead)).
Proof.
  intros N. apply (seg_alloc (h_media h) _ "medium" (fun _ _ => []) mediumRead).
  - intros n p. rewrite fam_nil. specialize (N n p). tauto.
  - intros n x p _ _ [].
  - intros n x D' _ _ E. replace (Alloc (item "medium" n) :: _) with (map Alloc (parts "medium" n (mediumRead n x))) by (unfold mediumRead, ofDebye; destruct (m_type (idata x)); reflexivity).
    apply (good_allocs "medium" n _ D'); [unfold mediumRead, ofDebye; destruct (m_type (idata x)); nodup|]. intros p _ Q. exact (proj1 (E p) Q).
Qed.
Lemma seg_mediaInit h (D : Live) : (forall n p, D "medium" n p <-> fam (h_media h) mediumRead n p) -> (forall n p, ~ D "mediumArray" n p) ->
  good D (initMediaEvents h) (upd (upd D "mediumArray" one) "medium" (fam (h_media h) mediumMade)).
Proof.
  intros H N. unfold initMediaEvents. eapply good_cons; [apply seg_glob_alloc; exact N|].
  apply (seg_alloc (h_media h) _ "medium" mediumRead (fun _ it => ofDebye it ["dalpha"; "dbeta"])).
  - exact H.
  - intros n x p _. unfold mediumRead, ofDebye. destruct (m_type (idata x)); ins.
  - intros n x D' _ _ E. eapply good_cons; [apply good_use, E; left; reflexivity|].
    unfold mediumRead, ofDebye in *. destruct (m_type (idata x)); cbv iota.
    + apply (good_to _ _ D'); [apply good_nil|]. apply same_sym, same_own. intros m q. ins.
    + apply (good_to _ _ D'); [apply good_nil|]. apply same_sym, same_own. intros m q. ins.
    + apply (good_to _ _ D'); [apply good_nil|]. apply same_sym, same_own. intros m q. ins.
    + eapply good_app; [apply good_allocs; [nodup|intros p I; rewrite E; revert I; ins]|].
      apply good_usep. intros p I. rewrite upd_eq. cbn [In] in I. destruct I as [<-|[<-|[<-|[<-|[]]]]]; [left; apply E; ins..|right; ins|right; ins].
Qed.
Lemma seg_mediaFree h (D : Live) : (forall n p, D "medium" n p <-> fam (h_media h) mediumMade n p) -> (forall n p, D "mediumArray" n p <-> one n p) ->
  good D (deallocMedia h) (upd (upd D "mediumArray" none) "medium" none).
Proof.
  intros H N. unfold deallocMedia. eapply good_cons; [apply seg_glob_free; exact N|].
  apply (seg_free (h_media h) _ "medium" mediumMade mediumMade).
  - exact H.
  - intros n x D' _ _ E. eapply good_cons; [apply good_use, E; left; reflexivity|].
    replace ((match m_type (idata x) with MT_DEBYE => map Free (parts "medium" n ["residues"; "poles"; "dalpha"; "dbeta"]) | _ => [] end) ++ [Free (item "medium" n)])
      with (map Free (parts "medium" n (ofDebye x ["residues"; "poles"; "dalpha"; "dbeta"] ++ [""]))) by (unfold ofDebye; destruct (m_type (idata x)); reflexivity).
    eapply good_to; [apply good_frees|].
    + unfold ofDebye; destruct (m_type (idata x)); cbn [app]; nodup.
    + intros p. rewrite E. unfold mediumMade, ofDebye. destruct (m_type (idata x)); ins.
    + apply same_upd. intros m q. unfold mediumMade, ofDebye. destruct (m_type (idata x)); cbn [app In]; tauto.
  - intros n p. unfold none. split; [intros []|]. intros (x & _ & A1 & A2). auto.
Qed.

(** *** the boundaries *)
Definition ofSibc (it : Item BData) (l : list string) : list string := match btype (idata it) with BT_SIBC => l | _ => [] end.
Definition boundMade (_ : nat) (it : Item BData) := [""] ++ ofSibc it ["prm"; "rcm"].
Lemma seg_boundInit h (D : Live) : (forall n p, D "boundary" n p <-> some_items (List.length (allBounds h)) n p) ->
  good D (initBoundaryEvents h) (upd D "boundary" (fam (allBounds h) boundMade)).
Proof.
  intros H. unfold initBoundaryEvents. apply (seg_alloc (allBounds h) _ "boundary" (fun _ _ => [""]) (fun _ it => ofSibc it ["prm"; "rcm"])).
  - intros n p. rewrite fam_items. apply H.
  - intros n x p _. unfold ofSibc. destruct (btype (idata x)); ins.
  - intros n x D' _ _ E. unfold ofSibc. destruct (btype (idata x)); cbv iota;
      try (apply (good_to _ _ D'); [apply good_nil|]; apply same_sym, same_own; intros m q; ins).
    apply (item_alloc D' "boundary" n [""] ["prm"; "rcm"]); [intros p I; apply E; exact I|nodup|intros p I; rewrite E; revert I; ins].
Qed.
Lemma seg_boundFree h (D : Live) : (forall n p, D "boundary" n p <-> fam (allBounds h) boundMade n p) -> good D (deallocBoundaries h) (upd D "boundary" none).
Proof.
  intros H. unfold deallocBoundaries. apply (seg_free (allBounds h) _ "boundary" boundMade boundMade).
  - exact H.
  - intros n x D' _ _ E. eapply good_cons; [apply good_use, E; left; reflexivity|].
    replace ((match btype (idata x) with BT_SIBC => map Free (parts "boundary" n ["rcm"; "prm"]) | _ => [] end) ++ [Free (item "boundary" n)])
      with (map Free (parts "boundary" n (ofSibc x ["rcm"; "prm"] ++ [""]))) by (unfold ofSibc; destruct (btype (idata x)); reflexivity).
    eapply good_to; [apply good_frees|].
    + unfold ofSibc; destruct (btype (idata x)); cbn [app]; nodup.
    + intros p. rewrite E. unfold boundMade, ofSibc. destruct (btype (idata x)); ins.
    + apply same_upd. intros m q. unfold boundMade, ofSibc. destruct (btype (idata x)); cbn [app In]; tauto.
  - intros n p. unfold none. split; [intros []|]. intros (x & _ & A1 & A2). auto.
Qed.

(** *** Debye blocks *)
Lemma debye_medium h m : In m (debyeMedia h) -> exists it, nth_error (h_media h) m = Some it.
Proof.
  unfold debyeMedia. intros I. apply in_flat_map in I as (b & _ & I). unfold medOf in I.
  destruct (nth_error (h_media h) (medium_b b)) as [it|] eqn:E; [|destruct I]. exists it. cbn in I.
  destruct (m_type (idata it)); cbn in I; try destruct I as [<-|[]]; try destruct I; exact E.
Qed.
Lemma medium_live h m : In m (debyeMedia h) -> fam (h_media h) mediumMade m "".
Proof. intros I. destruct (debye_medium h m I) as (it & E). exists it. split; [exact E|left; reflexivity]. Qed.
Lemma seg_blockInit h (D : Live) : (forall n p, ~ D "debyeArray" n p) -> (forall n p, ~ D "debye" n p) ->
  (forall n p, D "medium" n p <-> fam (h_media h) mediumMade n p) -> (forall n p, D "mediumArray" n p <-> one n p) ->
  good D (initBlockEvents h) (upd (upd D "debyeArray" one) "debye" (fam (debyeMedia h) (fun _ _ => debyeArrays))).
Proof.
  intros N1 N2 M MA. unfold initBlockEvents. eapply good_cons; [apply seg_glob_alloc; exact N1|].
  apply (seg_alloc (debyeMedia h) _ "debye" (fun _ _ => []) (fun _ _ => debyeArrays)).
  - intros n p. rewrite fam_nil. change (upd D "debyeArray" one "debye" n p) with (D "debye" n p). specialize (N2 n p). tauto.
  - intros n x p _ _ [].
  - intros n x D' EX O E. apply nth_error_In in EX.
    eapply good_cons; [apply good_use; rewrite (O "mediumArray") by discriminate; apply (MA 0%nat ""); split; reflexivity|].
    eapply good_cons; [apply good_use; rewrite (O "medium") by discriminate; apply (M x ""), medium_live; exact EX|].
    apply good_allocs; [unfold debyeArrays; nodup|]. intros p _ Q. exact (proj1 (E p) Q).
Qed.
Lemma seg_blockFree h (D : Live) : (forall n p, D "debyeArray" n p <-> one n p) -> (forall n p, D "debye" n p <-> fam (debyeMedia h) (fun _ _ => debyeArrays) n p) ->
  (forall n p, D "medium" n p <-> fam (h_media h) mediumMade n p) -> (forall n p, D "block" n p <-> fam (h_blocks h) (fun _ _ => [""]) n p) ->
  good D (deallocBlocks h) (upd (upd (upd D "debye" none) "debyeArray" none) "block" none).
Proof.
  intros N1 N2 M B. unfold deallocBlocks. apply (good_app _ _ (upd D "debye" none)); [|eapply good_cons; [apply seg_glob_free; exact N1|apply seg_freeItems; exact B]].
  apply (seg_free (debyeMedia h) _ "debye" (fun _ _ => debyeArrays) (fun _ _ => debyeArrays)).
  - exact N2.
  - intros n x D' EX O E. apply nth_error_In in EX.
    eapply good_cons; [apply good_use; rewrite (O "debyeArray") by discriminate; apply (N1 0%nat ""); split; reflexivity|].
    eapply good_cons; [apply good_use; rewrite (O "medium") by discriminate; apply (M x ""), medium_live; exact EX|].
    apply good_frees; [unfold debyeArrays; nodup|]. intros p Q. apply E. exact Q.
  - intros n p. unfold none. split; [intros []|]. intros (x & _ & A1 & A2). auto.
Qed.

(** *** SIBC surfaces *)
Lemma sibc_bound h b : In b (sibcBounds h) -> exists it, nth_error (h_breg h) b = Some it /\ btype (idata it) = BT_SIBC.
Proof.
  unfold sibcBounds. intros I. apply in_flat_map in I as (x & _ & I). unfold boundOf, typeAt, getItem in I.
  destruct (nth_error (h_breg h) (boundary_s (fst x))) as [it|] eqn:E; [|destruct I]. cbn in I. exists it.
  destruct (btype (idata it)) eqn:T; cbn in I; try destruct I as [<-|[]]; try destruct I; auto.
Qed.
Lemma complete_prefix fs : forall reg, exists extra, fst (completeFaces reg fs) = reg ++ extra.
Proof.
  induction fs as [|f fs IH]; intros reg; cbn [completeFaces]; [exists []; symmetry; apply app_nil_r|].
  set (reg1 := match findName reg (FACE f) with Some _ => reg | None => addItem reg (FACE f) (mkB BT_PML pmlDefaultLayers) end).
  destruct (IH reg1) as (ex & E). destruct (completeFaces reg1 fs) as [r2 l]. cbn [fst] in *.
  rewrite E. unfold reg1. destruct (findName reg (FACE f)); [exists ex; reflexivity|]. unfold addItem. rewrite <- app_assoc. eexists. reflexivity.
Qed.
Lemma findName_lt {A} (reg : Registry A) nm n : findName reg nm = Some n -> (n < List.length reg)%nat.
Proof.
  revert n. induction reg as [|it reg IH]; intros n; cbn [findName]; [discriminate|].
  destruct (findName reg nm) as [k|]; [intros E; injection E as <-; specialize (IH k eq_refl); cbn; lia|].
  destruct (String.eqb (iname it) nm); [|discriminate]. intros E; injection E as <-. cbn. lia.
Qed.
Lemma findName_new {A} (reg : Registry A) nm d : exists n, findName (reg ++ [mkItem nm d]) nm = Some n.
Proof.
  induction reg as [|it reg (n & E)]; cbn [app findName iname]; [rewrite String.eqb_refl; eexists; reflexivity|]. rewrite E. eexists. reflexivity.
Qed.
Lemma complete_bound fs : forall reg f n, In (f, n) (snd (completeFaces reg fs)) -> (n < List.length (fst (completeFaces reg fs)))%nat.
Proof.
  induction fs as [|g fs IH]; intros reg f n; cbn [completeFaces]; [intros []|].
  set (reg1 := match findName reg (FACE g) with Some _ => reg | None => addItem reg (FACE g) (mkB BT_PML pmlDefaultLayers) end).
  destruct (complete_prefix fs reg1) as (ex & EX). specialize (IH reg1 f n).
  destruct (completeFaces reg1 fs) as [r2 l] eqn:CF. cbn [fst snd] in *. intros [I|I]; [|exact (IH I)]. injection I as <- <-. rewrite EX, app_length.
  assert (L1 : exists k, findName reg1 (FACE g) = Some k).
  { unfold reg1. destruct (findName reg (FACE g)) as [k|] eqn:F; [exists k; exact F|apply findName_new]. }
  destruct L1 as (k & F). rewrite F. apply findName_lt in F. lia.
Qed.
Lemma complete_faces fs : forall reg, map fst (snd (completeFaces reg fs)) = fs.
Proof.
  induction fs as [|g fs IH]; intros reg; cbn [completeFaces]; [reflexivity|].
  set (reg1 := match findName reg (FACE g) with Some _ => reg | None => addItem reg (FACE g) (mkB BT_PML pmlDefaultLayers) end).
  specialize (IH reg1). destruct (completeFaces reg1 fs) as [r2 l]. cbn [snd map fst] in *. rewrite IH. reflexivity.
Qed.
Lemma all_prefix h n it : nth_error (h_breg h) n = Some it -> nth_error (allBounds h) n = Some it.
Proof.
  intros E. unfold allBounds. destruct (complete_prefix faces (h_breg h)) as (ex & ->). rewrite nth_error_app1; [exact E|exact (nth_lt _ _ _ E)].
Qed.
Lemma all_longer h : (List.length (h_breg h) <= List.length (allBounds h))%nat.
Proof. unfold allBounds. destruct (complete_prefix faces (h_breg h)) as (ex & ->). rewrite app_length. lia. Qed.
Lemma face_live h f : fam (allBounds h) boundMade (faceBound h f) "".
Proof.
  assert (L : (faceBound h f < List.length (allBounds h))%nat).
  { unfold faceBound, lookupFace. destruct (find _ _) as [[g n]|] eqn:F.
    - apply find_some in F as [F _]. exact (complete_bound _ _ _ _ F).
    - exfalso. assert (I : In f (map fst (snd (completeFaces (h_breg h) faces)))) by (rewrite complete_faces; destruct f; cbn; tauto).
      apply in_map_iff in I as (x & E & I). pose proof (find_none _ _ F x I) as Q. cbv beta in Q. rewrite E in Q. destruct f; discriminate Q. }
  destruct (nth_error (allBounds h) (faceBound h f)) as [it|] eqn:E; [|apply nth_error_None in E; lia]. exists it. split; [exact E|left; reflexivity].
Qed.
Definition sibcMade : list string := ["rcm_s"; "Etan"; "isAdjA"; "isAdjB"; "states"].
Lemma seg_surfInit h (D : Live) : (forall n p, ~ D "sibcArray" n p) -> (forall n p, ~ D "isSibcFace" n p) -> (forall n p, ~ D "sibc" n p) ->
  (forall n p, D "boundary" n p <-> fam (allBounds h) boundMade n p) ->
  good D (initInternalSurfaceEvents h) (upd (upd (upd (upd D "sibcArray" one) "isSibcFace" one) "sibc" (fam (sibcBounds h) (fun _ _ => sibcMade))) "isSibcFace" none).
Proof.
  intros N1 N2 N3 B. unfold initInternalSurfaceEvents. eapply good_cons; [apply seg_glob_alloc; exact N1|].
  eapply good_cons; [apply seg_glob_alloc; exact N2|].
  eapply good_app; [|apply seg_glob_free; intros n p; reflexivity].
  apply (seg_alloc (sibcBounds h) _ "sibc" (fun _ _ => []) (fun _ _ => sibcMade)).
  - intros n p. rewrite fam_nil. change (D "sibc" n p <-> False). specialize (N3 n p). tauto.
  - intros n x p _ _ [].
  - intros n x D' EX O E. apply nth_error_In in EX.
    eapply good_app; [apply good_allocs; [nodup|intros p _ Q; exact (proj1 (E p) Q)]|].
    eapply good_cons; [apply good_use|].
    { change (D' "boundary" x "rcm"). rewrite (O "boundary") by discriminate. apply (B x "rcm"). destruct (sibc_bound h x EX) as (it & E1 & E2).
      exists it. split; [apply all_prefix; exact E1|]. unfold boundMade, ofSibc. rewrite E2. ins. }
    eapply good_cons; [apply good_alloc; rewrite upd_eq; rewrite (E "states"); ins|].
    eapply good_to; [apply good_use; change (D' "isSibcFace" 0%nat ""); rewrite (O "isSibcFace") by discriminate; split; reflexivity|].
    apply same_upd2. intros m q. rewrite upd_eq. unfold sibcMade. cbn [In]. intuition congruence.
Qed.
Lemma seg_surfFree h (D : Live) : (forall n p, D "sibcArray" n p <-> one n p) -> (forall n p, D "sibc" n p <-> fam (sibcBounds h) (fun _ _ => sibcMade) n p) ->
  (forall n p, D "surface" n p <-> fam (h_surfs h) (fun _ _ => [""]) n p) ->
  good D (deallocInternalSurfaces h) (upd (upd (upd D "surface" none) "sibc" none) "sibcArray" none).
Proof.
  intros N1 N2 B. unfold deallocInternalSurfaces. eapply good_app; [apply seg_freeItems; exact B|].
  apply (good_app _ _ (upd (upd D "surface" none) "sibc" none)); [|apply seg_glob_free; exact N1].
  apply (seg_free (sibcBounds h) _ "sibc" (fun _ _ => sibcMade) (fun _ _ => sibcMade)).
  - exact N2.
  - intros n x D' EX O E.
    eapply good_cons; [apply good_use; change (D' "sibcArray" 0%nat ""); rewrite (O "sibcArray") by discriminate; apply (N1 0%nat ""); split; reflexivity|].
    eapply good_cons; [apply good_use; apply E; unfold sibcMade; ins|].
    eapply good_to; [apply good_frees; [nodup|intros p I; apply E; revert I; unfold sibcMade; ins]|].
    apply same_upd. intros m q. unfold sibcMade. cbn [In]. tauto.
  - intros n p. unfold none. split; [intros []|]. intros (x & _ & A1 & A2). auto.
Qed.

(** *** PML *)
Definition pmlLive (c : Cfg) (fs : list Face) : nat -> string -> Prop :=
  fun n p => exists f, In f fs /\ outerSurfaceType c f = BT_PML /\ n = faceNo f /\ In p pmlRegionArrays.
Lemma faceNo_inj f g : faceNo f = faceNo g -> f = g.
Proof. destruct f, g; intros E; try reflexivity; vm_compute in E; discriminate. Qed.
Lemma region_nodup : NoDup pmlRegionArrays. Proof. unfold pmlRegionArrays. nodup. Qed.
Lemma axis_nodup : NoDup pmlArrays. Proof. unfold pmlArrays. nodup. Qed.
Lemma seg_pmlInit c h (D : Live) : (forall n p, ~ D "pml" n p) -> (forall n p, ~ D "pmlArrays" n p) ->
  (forall n p, D "boundary" n p <-> fam (allBounds h) boundMade n p) ->
  good D (initExternalSurfaceEvents c h) (upd (upd D "pml" (pmlLive c faces)) "pmlArrays" (fun n p => n = 0%nat /\ In p pmlArrays)).
Proof.
  intros N1 N2 B. unfold initExternalSurfaceEvents.
  apply (good_app _ _ (upd D "pml" (pmlLive c faces))).
  - assert (X : forall fs done, NoDup fs -> (forall f, In f fs -> ~ In f done) -> good (upd D "pml" (pmlLive c done))
      (flat_map (fun f => Use (item "boundary" (faceBound h f)) :: match outerSurfaceType c f with BT_PML => map Alloc (parts "pml" (faceNo f) pmlRegionArrays) | _ => [] end) fs)
      (upd D "pml" (pmlLive c (fs ++ done)))).
    { induction fs as [|f fs IH]; intros dn ND DJ; cbn [flat_map app]; [apply good_nil|].
      inversion ND as [|? ? NA ND']; subst. eapply good_cons; [apply good_use; apply (B (faceBound h f) ""), face_live|].
      apply (good_app _ _ (upd D "pml" (pmlLive c (f :: dn)))).
      - destruct (btype_dec (outerSurfaceType c f) BT_PML) as [T|T].
        + rewrite T. eapply good_to; [apply good_allocs; [exact region_nodup|]|].
          * intros p _ Q. rewrite upd_eq in Q. destruct Q as (g & I & _ & Q & _). apply faceNo_inj in Q. subst g. exact (DJ f (or_introl eq_refl) I).
          * apply same_upd2. intros n p. rewrite upd_eq. unfold pmlLive. split.
            -- intros [(g & I & Q)|[-> I]]; [exists g; split; [right; exact I|exact Q]|exists f; repeat split; auto; left; reflexivity].
            -- intros (g & [<-|I] & Q1 & Q2 & Q3); [right; auto|left; exists g; auto].
        + replace (match outerSurfaceType c f with BT_PML => map Alloc (parts "pml" (faceNo f) pmlRegionArrays) | _ => [] end) with (@nil Ev) by (destruct (outerSurfaceType c f); congruence).
          apply (good_to _ _ _ _ (good_nil _)). apply same_upd. intros n p. unfold pmlLive. split; intros (g & I & Q); exists g; [split; [right; exact I|exact Q]|].
          destruct I as [<-|I]; [destruct Q; congruence|auto].
      - eapply good_to; [apply (IH (f :: dn)); [exact ND'|]|].
        + intros g I [<-|J]; [exact (NA I)|exact (DJ g (or_intror I) J)].
        + apply same_upd. intros n p. unfold pmlLive. split; intros (g & I & Q); exists g; (split; [|exact Q]);
            [apply in_app_or in I; cbn in I|apply in_or_app; cbn]; cbn [In] in *; rewrite ?in_app_iff in *; tauto. }
    eapply good_ext; [apply (X faces [])| |].
    + unfold faces. repeat (constructor; [cbn; intuition discriminate|]). constructor.
    + intros f _ [].
    + apply same_sym, same_own. intros n p. unfold pmlLive. specialize (N1 n p). split; [intros (f & [] & _)|intros Y; destruct (N1 Y)].
    + apply same_upd. intros n p. rewrite app_nil_r. reflexivity.
  - eapply good_to; [apply good_allocs; [exact axis_nodup|intros p _; apply N2]|]. apply same_upd. intros n p. change (upd D "pml" (pmlLive c faces) "pmlArrays" n p) with (D "pmlArrays" n p). specialize (N2 n p). tauto.
Qed.
Lemma seg_pmlFree c h (D : Live) : (forall n p, D "pml" n p <-> pmlLive c faces n p) -> (forall n p, D "pmlArrays" n p <-> n = 0%nat /\ In p pmlArrays) ->
  (forall n p, D "boundary" n p <-> fam (allBounds h) boundMade n p) ->
  good D (deallocExternalSurfaces c h) (upd (upd D "pml" none) "pmlArrays" none).
Proof.
  intros N1 N2 B. unfold deallocExternalSurfaces.
  eapply good_app.
  { replace (map (fun f => Use (item "boundary" (faceBound h f))) faces) with (map Use (map (fun f => item "boundary" (faceBound h f)) faces)) by (rewrite map_map; reflexivity).
    apply good_uses. intros r I. apply in_map_iff in I as (f & <- & _). apply (B (faceBound h f) ""), face_live. }
  apply (good_app _ _ (upd D "pml" none)).
  - assert (X : forall fs, NoDup fs -> good (upd D "pml" (pmlLive c fs))
      (flat_map (fun f => Use (item "boundary" (faceBound h f)) :: match outerSurfaceType c f with BT_PML => map Free (parts "pml" (faceNo f) pmlRegionArrays) | _ => [] end) fs)
      (upd D "pml" none)).
    { induction fs as [|f fs IH]; intros ND; cbn [flat_map].
      - apply (good_to _ _ _ _ (good_nil _)). apply same_upd. intros n p. unfold pmlLive, none. split; [intros (f & [] & _)|intros []].
      - inversion ND as [|? ? NA ND']; subst. eapply good_cons; [apply good_use; apply (B (faceBound h f) ""), face_live|].
        apply (good_app _ _ (upd D "pml" (pmlLive c fs))); [|exact (IH ND')].
        destruct (btype_dec (outerSurfaceType c f) BT_PML) as [T|T].
        + rewrite T. eapply good_to; [apply good_frees; [exact region_nodup|]|].
          * intros p I. rewrite upd_eq. exists f. repeat split; auto. left; reflexivity.
          * apply same_upd2. intros n p. rewrite upd_eq. unfold pmlLive. split.
            -- intros [(g & [<-|I] & Q1 & Q2 & Q3) X]; [destruct X; auto|exists g; auto].
            -- intros (g & I & Q1 & Q2 & Q3). split; [exists g; repeat split; auto; right; exact I|]. intros [-> _]. apply faceNo_inj in Q2. subst g. exact (NA I).
        + replace (match outerSurfaceType c f with BT_PML => map Free (parts "pml" (faceNo f) pmlRegionArrays) | _ => [] end) with (@nil Ev) by (destruct (outerSurfaceType c f); congruence).
          apply (good_to _ _ _ _ (good_nil _)). apply same_upd. intros n p. unfold pmlLive. split; intros (g & I & Q); exists g; [|split; [right; exact I|exact Q]].
          destruct I as [<-|I]; [destruct Q; congruence|auto]. }
    eapply good_ext; [apply (X faces)| |apply same_refl].
    + unfold faces. repeat (constructor; [cbn; intuition discriminate|]). constructor.
    + apply same_sym, same_own. intros n p. rewrite N1. reflexivity.
  - eapply good_to; [apply good_frees; [exact axis_nodup|intros p I; apply (N2 0%nat p); auto]|]. apply same_upd. intros n p. change (upd D "pml" none "pmlArrays" n p) with (D "pmlArrays" n p). rewrite N2. unfold none. tauto.
Qed.

(** *** waveforms and plane waves *)
Definition ofTable (w : WfItem) : list string := match wType w with EXTERNAL => ["table"] | _ => [] end.
Definition waveMade (_ : nat) (w : WfItem) := [""] ++ ofTable w.
Lemma seg_waveInit h (D : Live) : (forall n p, D "waveform" n p <-> fam (h_wfs h) (fun _ _ => [""]) n p) ->
  good D (initWaveformEvents h) (upd D "waveform" (fam (h_wfs h) waveMade)).
Proof.
  intros H. unfold initWaveformEvents. apply (seg_alloc (h_wfs h) _ "waveform" (fun _ _ => [""]) (fun _ w => ofTable w)); [exact H| |].
  - intros n x p _. unfold ofTable. destruct (wType x); ins.
  - intros n x D' _ _ E.
    replace (Use (item "waveform" n) :: _) with (map Use (parts "waveform" n [""]) ++ map Alloc (parts "waveform" n (ofTable x))) by (unfold ofTable; destruct (wType x); reflexivity).
    apply item_alloc; [intros p I; apply E; exact I|unfold ofTable; destruct (wType x); nodup|]. intros p I. rewrite E. revert I. unfold ofTable. destruct (wType x); ins.
Qed.
Lemma seg_waveFree h (D : Live) : (forall n p, D "waveform" n p <-> fam (h_wfs h) waveMade n p) ->
  good D (deallocWaveforms h) (upd (upd D "waveform" (fam (h_wfs h) (fun _ _ => [""]))) "waveform" none).
Proof.
  intros H. unfold deallocWaveforms. eapply good_app; [|apply seg_freeItems; intros n p; rewrite upd_eq; reflexivity].
  apply (seg_free (h_wfs h) _ "waveform" waveMade (fun _ w => ofTable w)); [exact H| |].
  - intros n x D' _ _ E.
    replace (Use (item "waveform" n) :: _) with (map Use (parts "waveform" n [""]) ++ map Free (parts "waveform" n (ofTable x))) by (unfold ofTable; destruct (wType x); reflexivity).
    apply item_free; [intros p I; apply E; apply in_or_app; left; exact I|unfold ofTable; destruct (wType x); nodup|]. intros p I. apply E. apply in_or_app. right. exact I.
  - intros n p. unfold fam, waveMade. split; intros (x & E & I); exists x; (split; [exact E|]); revert I; unfold ofTable; destruct (wType x); ins.
Qed.
Definition ofAux (aux : bool) (l : list string) : list string := if aux then l else [].
Lemma seg_pwInit aux h (D : Live) : (forall n p, D "planewave" n p <-> fam (h_pws h) (fun _ _ => [""]) n p) ->
  good D (initPlaneWaveEvents aux h) (upd D "planewave" (fam (h_pws h) (fun _ _ => [""] ++ ofAux aux auxArrays))).
Proof.
  intros H. unfold initPlaneWaveEvents. apply (seg_alloc (h_pws h) _ "planewave" (fun _ _ => [""]) (fun _ _ => ofAux aux auxArrays)); [exact H| |].
  - intros n x p _. unfold ofAux, auxArrays. destruct aux; ins.
  - intros n x D' _ _ E.
    replace (Use (item "planewave" n) :: _) with (map Use (parts "planewave" n [""]) ++ map Alloc (parts "planewave" n (ofAux aux auxArrays))) by (destruct aux; reflexivity).
    apply item_alloc; [intros p I; apply E; exact I|unfold ofAux, auxArrays; destruct aux; nodup|]. intros p I. rewrite E. revert I. unfold ofAux, auxArrays. destruct aux; ins.
Qed.
Lemma seg_pwFree aux h (D : Live) : (forall n p, D "planewave" n p <-> fam (h_pws h) (fun _ _ => [""] ++ ofAux aux auxArrays) n p) ->
  good D (deallocPlaneWaves aux h) (upd D "planewave" (fam (h_pws h) (fun _ _ => ofAux aux ["ahx"; "bhx"]))).
Proof.
  intros H. unfold deallocPlaneWaves. apply (seg_free (h_pws h) _ "planewave" (fun _ _ => [""] ++ ofAux aux auxArrays) (fun _ _ => ofAux aux auxArraysFreed ++ [""])); [exact H| |].
  - intros n x D' _ _ E.
    replace (Use (item "planewave" n) :: _) with (map Use (parts "planewave" n [""]) ++ map Free (parts "planewave" n (ofAux aux auxArraysFreed ++ [""]))) by (destruct aux; reflexivity).
    apply item_free; [intros p I; apply E; apply in_or_app; left; exact I|unfold ofAux, auxArraysFreed; destruct aux; nodup|]. intros p I. apply E. revert I. unfold ofAux, auxArrays, auxArraysFreed. destruct aux; ins.
  - intros n p. unfold fam. split; intros (x & E & I); exists x; (split; [exact E|]); revert I; unfold ofAux, auxArrays, auxArraysFreed; destruct aux; cbn [app In]; [|tauto| |tauto].
    + intros [<-|[<-|[]]]; (split; [tauto|intuition discriminate]).
    + tauto.
Qed.

(** *** observers *)
Definition obsMade (_ : nat) (o : Obs) := [""] ++ asciiParts o.
Definition binFiles (h : MeshData) (D : Live) (s : string) : Prop := forall n p, D s n p <-> thereAreBinary h = true /\ one n p.
Lemma ascii_nodup o : NoDup (asciiParts o). Proof. unfold asciiParts. destruct (o_format o), (o_domain o); nodup. Qed.
Lemma seg_obsInit h (D : Live) : (forall n p, D "observer" n p <-> fam (h_obs h) (fun _ _ => [""]) n p) ->
  (forall n p, ~ D "waveformObserverFreqList" n p) -> (forall n p, ~ D "omega" n p) -> (forall n p, ~ D "exciteFile" n p) -> (forall n p, ~ D "processFile" n p) -> (forall n p, ~ D "impulseDatFile" n p) ->
  exists D', good D (initObserverEvents h) D' /\ (forall n p, D' "observer" n p <-> fam (allObs h) obsMade n p) /\
    (forall n p, D' "omega" n p <-> one n p) /\ binFiles h D' "exciteFile" /\ binFiles h D' "impulseDatFile" /\
    forall o, ~ In o ["observer"; "omega"; "exciteFile"; "impulseDatFile"] -> forall n p, D' o n p <-> D o n p.
Proof.
  intros H N1 N2 N3 N4 N5.
  set (D1 := upd (upd D "waveformObserverFreqList" one) "observer" (fam (allObs h) obsMade)).
  set (D2 := upd (upd D1 "waveformObserverFreqList" none) "omega" one).
  assert (G : good D (Alloc (glob "waveformObserverFreqList") ::
    map (fun n => Alloc (item "observer" n)) (seq (List.length (h_obs h)) (List.length (internalObs (h_wfs h))))
    ++ each (allObs h) (fun n o => Use (item "observer" n) :: map Alloc (parts "observer" n (asciiParts o)))
    ++ Free (glob "waveformObserverFreqList") :: [Alloc (glob "omega")]) D2).
  { eapply good_cons; [apply seg_glob_alloc; exact N1|].
    eapply good_app; [apply seg_seq; intros n p; rewrite <- fam_items; apply H|].
    apply (good_app _ _ D1).
    - eapply good_to; [apply (seg_alloc (allObs h) _ "observer" (fun _ _ => [""]) (fun _ o => asciiParts o))|].
      + intros n p. rewrite upd_eq, fam_items. unfold allObs. rewrite app_length. reflexivity.
      + intros n x p _. unfold asciiParts. destruct (o_format x), (o_domain x); ins.
      + intros n x D' _ _ E. apply (item_alloc D' "observer" n [""] (asciiParts x)); [intros p I; apply E; exact I|apply ascii_nodup|].
        intros p I. rewrite E. revert I. unfold asciiParts. destruct (o_format x), (o_domain x); ins.
      + apply same_upd2. intros n p. reflexivity.
    - eapply good_cons; [apply seg_glob_free; intros n p; reflexivity|]. apply seg_glob_alloc. exact N2. }
  destruct (thereAreBinary h) eqn:TB.
  - exists (upd (upd (upd (upd D2 "exciteFile" one) "processFile" one) "processFile" none) "impulseDatFile" one). split.
    + unfold initObserverEvents. rewrite TB.
      replace (Alloc (glob "waveformObserverFreqList") :: _) with ((Alloc (glob "waveformObserverFreqList") ::
        map (fun n => Alloc (item "observer" n)) (seq (List.length (h_obs h)) (List.length (internalObs (h_wfs h))))
        ++ each (allObs h) (fun n o => Use (item "observer" n) :: map Alloc (parts "observer" n (asciiParts o)))
        ++ Free (glob "waveformObserverFreqList") :: [Alloc (glob "omega")]) ++ [Alloc (glob "exciteFile"); Alloc (glob "processFile"); Free (glob "processFile"); Alloc (glob "impulseDatFile")])
        by (cbn [app]; rewrite <- !app_assoc; reflexivity).
      eapply good_app; [exact G|].
      eapply good_cons; [apply seg_glob_alloc; exact N3|]. eapply good_cons; [apply seg_glob_alloc; exact N4|].
      eapply good_cons; [apply seg_glob_free; intros n p; reflexivity|]. apply seg_glob_alloc. exact N5.
    + split; [intros n p; reflexivity|]. split; [intros n p; reflexivity|]. unfold binFiles. rewrite TB.
      split; [intros n p; change (one n p <-> true = true /\ one n p); tauto|]. split; [intros n p; change (one n p <-> true = true /\ one n p); tauto|].
      intros o NI n p. unfold D2, D1, upd.
      repeat match goal with |- context [String.eqb o ?s] => destruct (String.eqb_spec o s) as [->|]; [first [exfalso; apply NI; cbn; tauto | unfold none; specialize (N4 n p); specialize (N1 n p); tauto]|] end. reflexivity.
  - exists D2. split.
    + unfold initObserverEvents. rewrite TB. exact G.
    + split; [intros n p; reflexivity|]. split; [intros n p; reflexivity|]. unfold binFiles. rewrite TB.
      split; [intros n p; change (D "exciteFile" n p <-> false = true /\ one n p); specialize (N3 n p); intuition discriminate|].
      split; [intros n p; change (D "impulseDatFile" n p <-> false = true /\ one n p); specialize (N5 n p); intuition discriminate|].
      intros o NI n p. unfold D2, D1, upd.
      repeat match goal with |- context [String.eqb o ?s] => destruct (String.eqb_spec o s) as [->|]; [first [exfalso; apply NI; cbn; tauto | unfold none; specialize (N1 n p); tauto]|] end. reflexivity.
Qed.
Lemma nth_flat2 {A B} (f : A -> list B) l n x i b : (forall a, List.length (f a) = 2%nat) -> nth_error l n = Some x -> nth_error (f x) i = Some b ->
  nth_error (flat_map f l) (2 * n + i) = Some b.
Proof.
  intros T. revert n. induction l as [|a l IH]; intros [|n]; cbn [nth_error flat_map]; try discriminate; intros E F.
  - injection E as ->. rewrite nth_error_app1; [exact F|exact (nth_lt _ _ _ F)].
  - rewrite nth_error_app2; [|rewrite T; lia]. rewrite T. replace (2 * S n + i - 2)%nat with (2 * n + i)%nat by lia. exact (IH n E F).
Qed.
Lemma reference_is h n : (n < List.length (h_wfs h))%nat -> exists o, nth_error (allObs h) (wfFreqIndex (List.length (h_obs h)) n) = Some o /\ o_format o = OF_ASCII /\ o_domain o = OD_FREQ.
Proof.
  intros L. unfold allObs, wfFreqIndex. rewrite nth_error_app2 by lia.
  replace (List.length (h_obs h) + 2 * n + 1 - List.length (h_obs h))%nat with (2 * n + 1)%nat by lia. unfold internalObs.
  eexists. split; [eapply nth_flat2|].
  - intros a. reflexivity.
  - apply (nth_error_nth' _ 0%nat). rewrite seq_length. exact L.
  - rewrite seq_nth by exact L. reflexivity.
  - split; reflexivity.
Qed.
Lemma internal_quantity h o : In o (internalObs (h_wfs h)) -> o_quantity o = OQ_WF.
Proof. unfold internalObs. intros I. apply in_flat_map in I as (n & _ & [<-|[<-|[]]]); reflexivity. Qed.
Lemma seg_flush h (D : Live) : (forall n p, D "observer" n p <-> fam (allObs h) obsMade n p) ->
  (forall o, In o (h_obs h) -> (o_wf o < List.length (h_wfs h))%nat) -> good D (each (allObs h) (flushEvents h)) D.
Proof.
  intros H W. apply good_each_uses. intros n o E. unfold flushEvents. destruct (o_format o) eqn:F; [|apply good_nil]. destruct (o_domain o) eqn:DM; [apply good_nil|].
  assert (L : forall m q, nth_error (allObs h) m = Some q -> o_format q = OF_ASCII -> o_domain q = OD_FREQ -> forall p, In p ["dft_real"; "dft_imag"; "outputFile"; ""] -> D "observer" m p).
  { intros m q E' F' D' p I. apply H. exists q. split; [exact E'|]. unfold obsMade, asciiParts. rewrite F', D'. cbn [app In] in *. intuition. }
  eapply good_cons; [apply good_use, (L n o E F DM); ins|]. eapply good_app.
  - destruct (o_quantity o) eqn:Q; [apply good_nil|].
    assert (IO : In o (h_obs h)).
    { apply nth_error_In in E. unfold allObs in E. apply in_app_or in E as [E|E]; [exact E|]. apply internal_quantity in E. congruence. }
    destruct (reference_is h (o_wf o) (W o IO)) as (q & E' & F' & D').
    eapply good_cons; [apply good_use, (L _ q E' F' D'); ins|]. apply good_usep. intros p I. apply (L _ q E' F' D'). cbn [In] in *. tauto.
  - apply good_usep. intros p I. apply (L n o E F DM). cbn [In] in *. tauto.
Qed.
Lemma seg_obsFree h (D : Live) : (forall n p, D "observer" n p <-> fam (allObs h) obsMade n p) -> (forall n p, D "omega" n p <-> one n p) ->
  binFiles h D "exciteFile" -> binFiles h D "impulseDatFile" -> (forall o, In o (h_obs h) -> (o_wf o < List.length (h_wfs h))%nat) ->
  good D (deallocObservers h) (upd (upd (upd (upd D "observer" none) "omega" none) "exciteFile" none) "impulseDatFile" none).
Proof.
  intros H OM B1 B2 W. unfold deallocObservers. eapply good_app; [apply seg_flush; assumption|].
  apply (good_app _ _ (upd D "observer" none)).
  - apply (seg_free (allObs h) _ "observer" obsMade (fun _ o => asciiParts o ++ [""])); [exact H| |].
    + intros n x D' _ _ E.
      replace (Use (item "observer" n) :: _) with (map Use (parts "observer" n [""]) ++ map Free (parts "observer" n (asciiParts x ++ [""])))
        by (unfold parts; rewrite !map_app; reflexivity).
      apply item_free; [intros p I; apply E; apply in_or_app; left; exact I| |].
      * unfold asciiParts. destruct (o_format x), (o_domain x); nodup.
      * intros p I. apply E. unfold obsMade. apply in_or_app. apply in_app_or in I. tauto.
    + intros n p. unfold none, obsMade. split; [intros []|]. intros (x & _ & A1 & A2). apply A2. apply in_or_app. apply in_app_or in A1. tauto.
  - eapply good_cons; [apply seg_glob_free; exact OM|]. destruct (thereAreBinary h) eqn:TB.
    + eapply good_cons; apply seg_glob_free; intros n p; [change (D "exciteFile" n p <-> one n p); rewrite (B1 n p)|change (D "impulseDatFile" n p <-> one n p); rewrite (B2 n p)]; rewrite TB; tauto.
    + apply (good_to _ _ _ _ (good_nil _)). eapply same_trans; [apply same_sym, (same_own _ "exciteFile" none)|].
      * intros n p. change (False <-> D "exciteFile" n p). rewrite (B1 n p), TB. intuition discriminate.
      * apply same_sym, same_own. intros n p. change (False <-> D "impulseDatFile" n p). rewrite (B2 n p), TB. intuition discriminate.
Qed.
Definition gridAll : list string := edgeArrays ++ fieldArrays ++ coefArrays.
Lemma seg_step h (D : Live) : (forall n p, D "observer" n p <-> fam (allObs h) obsMade n p) -> (forall n p, D "omega" n p <-> one n p) ->
  binFiles h D "exciteFile" -> binFiles h D "impulseDatFile" -> (forall n p, D "grid" n p <-> n = 0%nat /\ In p gridAll) -> good D (stepEvents h) D.
Proof.
  intros H OM B1 B2 G. unfold stepEvents. eapply good_app; [apply good_usep; intros p I; apply G; split; [reflexivity|apply in_or_app; right; exact I]|].
  eapply good_app.
  - apply good_each_uses. intros n o E.
    assert (L : forall p, In p (obsMade n o) -> D "observer" n p) by (intros p I; apply H; exists o; auto).
    eapply good_cons; [apply good_use, L; left; reflexivity|].
    unfold obsMade, asciiParts in L. destruct (o_format o) eqn:F; [destruct (o_domain o) eqn:DM|].
    + apply good_use, L. ins.
    + eapply good_cons; [apply good_use, OM; split; reflexivity|]. apply good_usep. intros p I. apply L. cbn [app In] in *. tauto.
    + apply good_use, B2. split; [|split; reflexivity]. unfold thereAreBinary. apply existsb_exists. exists o. split; [|unfold isBinary; rewrite F; reflexivity].
      apply nth_error_In in E. unfold allObs in E. apply in_app_or in E as [E|E]; [exact E|]. unfold internalObs in E. apply in_flat_map in E as (k & _ & [<-|[<-|[]]]); discriminate F.
  - destruct (thereAreBinary h) eqn:TB; [|apply good_nil]. apply good_use, B1. split; [exact TB|split; reflexivity].
Qed.
Lemma good_repeat (D : Live) es k : good D es D -> good D (List.concat (repeat es k)) D.
Proof. intros G. induction k as [|k IH]; cbn [repeat List.concat]; [apply good_nil|]. eapply good_app; [exact G|exact IH]. Qed.
Lemma lines_nodup h : NoDup (lineArrays h).
Proof. unfold lineArrays. cbn [flat_map]. destruct (h_mesh h XDIR), (h_mesh h YDIR), (h_mesh h ZDIR); cbn [app]; nodup. Qed.

(** ** the whole life of the program *)
Definition leftOver (aux : bool) (h : MeshData) : Live :=
  upd (upd (fun _ => none) "wire" (fam (h_wires h) (fun _ _ => [""]))) "planewave" (fam (h_pws h) (fun _ _ => ofAux aux ["ahx"; "bhx"])).
Ltac new := let n := fresh in let p := fresh in intros n p Q; exact Q.
Ltac asis := let n := fresh in let p := fresh in intros n p; reflexivity.
Lemma seg_read h (D0 : Live) : (forall o, ~ In o ["programName"; "logFile"] -> forall n p, ~ D0 o n p) -> good D0 (readEvents h)
  (upd (upd (upd (upd (upd (upd (upd (upd (upd (upd (upd (upd (upd D0 "meshFile" one) "boundary" (fam (h_breg h) (fun _ _ => [""])))
    "medium" (fam (h_media h) mediumRead)) "wire" (fam (h_wires h) (fun _ _ => [""]))) "lines" (fun n p => n = 0%nat /\ In p (lineArrays h)))
    "block" (fam (h_blocks h) (fun _ _ => [""]))) "line" (fam (h_lines h) (fun _ _ => [""]))) "surface" (fam (h_surfs h) (fun _ _ => [""])))
    "waveform" (fam (h_wfs h) (fun _ _ => [""]))) "source" (fam (h_srcs h) (fun _ _ => [""]))) "planewave" (fam (h_pws h) (fun _ _ => [""])))
    "observer" (fam (h_obs h) (fun _ _ => [""]))) "meshFile" none).
Proof.
  intros N. unfold readEvents.
  eapply good_app; [apply seg_glob_alloc; intros n p; apply N; cbn; intuition discriminate|].
  eapply good_app; [apply seg_allocItems; intros n p; apply N; cbn; intuition discriminate|].
  eapply good_app; [apply seg_mediaRead; intros n p; apply N; cbn; intuition discriminate|].
  eapply good_app; [apply seg_allocItems; intros n p; apply N; cbn; intuition discriminate|].
  eapply good_app; [eapply good_to; [apply good_allocs; [apply lines_nodup|intros p _; apply N; cbn; intuition discriminate]|apply (same_upd _ _ _ (fun n p => n = 0%nat /\ In p (lineArrays h))); intros n p]|].
  { split; [intros [Q|Q]; [destruct (N "lines" ltac:(cbn; intuition discriminate) _ _ Q)|exact Q]|auto]. }
  do 7 (eapply good_app; [apply seg_allocItems; intros n p; apply N; cbn; intuition discriminate|]).
  apply seg_glob_free. asis.
Qed.

Lemma seg_obsInit' h (D : Live) : (forall n p, D "observer" n p <-> fam (h_obs h) (fun _ _ => [""]) n p) ->
  (forall n p, ~ D "waveformObserverFreqList" n p) -> (forall n p, ~ D "omega" n p) -> (forall n p, ~ D "exciteFile" n p) -> (forall n p, ~ D "processFile" n p) -> (forall n p, ~ D "impulseDatFile" n p) ->
  let bin := fun n p => thereAreBinary h = true /\ one n p in
  good D (initObserverEvents h) (upd (upd (upd (upd D "observer" (fam (allObs h) obsMade)) "omega" one) "exciteFile" bin) "impulseDatFile" bin).
Proof.
  intros H N1 N2 N3 N4 N5 bin. destruct (seg_obsInit h D H N1 N2 N3 N4 N5) as (D' & G & A1 & A2 & A3 & A4 & A5).
  apply (good_to _ _ _ _ G). intros o n p. unfold upd.
  destruct (String.eqb_spec o "impulseDatFile") as [->|]; [apply A4|]. destruct (String.eqb_spec o "exciteFile") as [->|]; [apply A3|].
  destruct (String.eqb_spec o "omega") as [->|]; [apply A2|]. destruct (String.eqb_spec o "observer") as [->|]; [apply A1|].
  apply A5. cbn. intuition congruence.
Qed.
Lemma seg_grid h (D : Live) : (forall n p, D "boundary" n p <-> fam (h_breg h) (fun _ _ => [""]) n p) -> (forall n p, ~ D "grid" n p) ->
  good D (initGridEvents h) (upd (upd D "boundary" (some_items (List.length (allBounds h)))) "grid" (fun n p => n = 0%nat /\ In p gridAll)).
Proof.
  intros H N. unfold initGridEvents. eapply good_app; [apply seg_seq; intros n p; rewrite <- fam_items; apply H|].
  pose proof (all_longer h). replace (List.length (h_breg h) + (List.length (allBounds h) - List.length (h_breg h)))%nat with (List.length (allBounds h)) by lia.
  eapply good_to; [apply good_allocs; [unfold edgeArrays, fieldArrays, coefArrays; cbn [app]; nodup|intros p _; apply N]|].
  apply same_upd. intros n p. change (D "grid" n p \/ n = 0%nat /\ In p gridAll <-> n = 0%nat /\ In p gridAll). specialize (N n p). tauto.
Qed.
Lemma seg_gridFree h (D : Live) : (forall n p, D "grid" n p <-> n = 0%nat /\ In p gridAll) -> (forall n p, D "lines" n p <-> n = 0%nat /\ In p (lineArrays h)) ->
  good D (deallocGridArrays h) (upd (upd D "grid" none) "lines" none).
Proof.
  intros H N. unfold deallocGridArrays. apply (good_app _ _ (upd D "grid" none)).
  - eapply good_to; [apply good_frees; [unfold edgeArraysFreed, fieldArrays, coefArrays; cbn [app]; nodup|]|].
    + intros p I. apply H. split; [reflexivity|]. unfold gridAll. rewrite !in_app_iff in *. unfold edgeArrays, edgeArraysFreed in *. cbn [In] in *. tauto.
    + apply same_upd. intros n p. rewrite H. unfold none, gridAll. rewrite !in_app_iff. unfold edgeArrays, edgeArraysFreed. cbn [In]. tauto.
  - eapply good_to; [apply good_frees; [apply lines_nodup|intros p I; apply (N 0%nat p); auto]|]. apply same_upd. intros n p. change (upd D "grid" none "lines" n p) with (D "lines" n p). rewrite N. unfold none. tauto.
Qed.
Theorem life_good aux c h steps : (forall o, In o (h_obs h) -> (o_wf o < List.length (h_wfs h))%nat) ->
  good (fun _ => none) (lifetime aux c h steps) (leftOver aux h).
Proof.
  intros W. unfold lifetime.
  assert (S1 : good (fun _ => none) startMessaging (upd (upd (fun _ => none) "programName" one) "logFile" one)).
  { unfold startMessaging. eapply good_cons; [apply seg_glob_alloc; new|apply seg_glob_alloc; new]. }
  eapply good_app.
  { unfold startUp. eapply good_app; [exact S1|].
    eapply good_app; [apply seg_read|].
    { intros o NI n p. unfold upd. destruct (String.eqb_spec o "logFile") as [->|]; [exfalso; apply NI; cbn; tauto|].
      destruct (String.eqb_spec o "programName") as [->|]; [exfalso; apply NI; cbn; tauto|]. intros []. }
    eapply good_app; [apply seg_grid; [asis|new]|].
    eapply good_app; [apply seg_boundInit; asis|].
    eapply good_app; [apply seg_mediaInit; [asis|new]|].
    eapply good_app; [apply seg_blockInit; [new|new|asis|asis]|].
    eapply good_app; [apply seg_surfInit; [new|new|new|asis]|].
    eapply good_app; [apply seg_pmlInit; [new|new|asis]|].
    eapply good_app; [apply seg_waveInit; asis|].
    eapply good_app; [apply seg_pwInit; asis|].
    apply seg_obsInit'; [asis|new..]. }
  eapply good_app; [apply good_repeat, seg_step; [asis|asis|asis|asis|asis]|].
  unfold tidyUp.
  eapply good_app; [apply seg_obsFree; [asis|asis|asis|asis|exact W]|].
  eapply good_app; [apply seg_pwFree; asis|].
  eapply good_app; [apply seg_freeItems; asis|].
  eapply good_app; [apply seg_waveFree; asis|].
  eapply good_app; [apply seg_pmlFree; [asis|asis|asis]|].
  eapply good_app; [apply seg_surfFree; [asis|asis|asis]|].
  eapply good_app; [apply seg_boundFree; asis|].
  eapply good_app; [apply seg_freeItems; asis|].
  eapply good_app; [apply seg_blockFree; [asis|asis|asis|asis]|].
  eapply good_app; [apply seg_mediaFree; [asis|asis]|].
  eapply good_app; [apply seg_gridFree; [asis|asis]|].
  unfold stopMessaging. eapply good_cons; [apply seg_glob_free; asis|]. eapply good_cons; [apply good_use; split; reflexivity|].
  eapply good_to; [apply seg_glob_free; asis|].
  intros o n p. unfold leftOver, upd.
  repeat match goal with |- context [String.eqb o ?s] => destruct (String.eqb_spec o s) as [->|]; [reflexivity|] end. reflexivity.
Qed.
