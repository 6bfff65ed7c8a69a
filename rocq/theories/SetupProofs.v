(** Proofs about Setup.v and the grid extents. *)
From Coq Require Import ZArith List Bool String Lia.
From Verif Require Import Types BBox Grid Setup SpecGrid SpecGeom BBoxProofs.
Import ListNotations.
Open Scope Z_scope.

(** ** Registries *)
Section Reg.
Context {A : Type}.
Implicit Type reg : Registry A.

Lemma findName_none reg n : findName reg n = None <-> ~ In n (map iname reg).
Proof.
  induction reg as [|it reg IH]; simpl; [tauto|].
  destruct (findName reg n) eqn:E.
  - split; [discriminate|]. intros H. exfalso. apply H. right.
    destruct (in_dec string_dec n (map iname reg)); auto. apply IH in n1; discriminate.
  - destruct (String.eqb_spec (iname it) n); split; intros H; try discriminate; auto.
    + exfalso; apply H; auto.
    + intros [H1|H1]; auto. apply IH in H1; auto.
Qed.

Lemma findName_some reg n k : findName reg n = Some k ->
  exists it, nth_error reg k = Some it /\ iname it = n.
Proof.
  revert k; induction reg as [|it reg IH]; simpl; intros k H; [discriminate|].
  destruct (findName reg n) eqn:E.
  - injection H as <-. simpl. apply IH; auto.
  - destruct (String.eqb_spec (iname it) n); [|discriminate].
    injection H as <-. simpl. eauto.
Qed.

Lemma findName_app reg reg' n :
  findName (reg ++ reg') n =
  match findName reg' n with Some k => Some (List.length reg + k)%nat | None => findName reg n end.
Proof.
  induction reg as [|it reg IH]; simpl.
  - destruct (findName reg' n); auto.
  - rewrite IH. destruct (findName reg' n) eqn:E; auto.
Qed.

Lemma findName_unique reg n k it : NoDup (map iname reg) ->
  nth_error reg k = Some it -> iname it = n -> findName reg n = Some k.
Proof.
  revert k. induction reg as [|i0 reg IH]; intros k ND H Hn; [destruct k; discriminate|].
  simpl in ND. inversion ND as [|? ? Hnin ND']; subst.
  destruct k as [|k]; simpl in H.
  - injection H as ->. simpl. apply findName_none in Hnin. rewrite Hnin, String.eqb_refl. auto.
  - simpl. rewrite (IH k); auto.
Qed.

Lemma declares_spec cards : forall reg reg', NoDup (map iname reg) ->
  declares reg cards = Some reg' ->
  NoDup (map iname reg') /\ reg' = reg ++ map (fun c => mkItem (fst c) (snd c)) cards.
Proof.
  induction cards as [|[n d] cs IH]; simpl; intros reg reg' ND H.
  - injection H as <-. rewrite app_nil_r. auto.
  - unfold declare in H. destruct (findName reg n) eqn:E; [discriminate|].
    apply IH in H.
    + destruct H as [ND' ->]. split; [exact ND'|]. unfold addItem. rewrite <- app_assoc. reflexivity.
    + unfold addItem. rewrite map_app. simpl. apply findName_none in E.
      rewrite <- (rev_involutive (map iname reg ++ [n])). apply NoDup_rev.
      rewrite rev_app_distr. simpl. constructor; [rewrite <- in_rev; auto|]. apply NoDup_rev; auto.
Qed.

Lemma declares_dup cards reg : NoDup (map iname reg) ->
  declares reg cards = None <-> ~ NoDup (map iname reg ++ map fst cards).
Proof.
  revert reg. induction cards as [|[n d] cs IH]; simpl; intros reg ND.
  - rewrite app_nil_r. split; [discriminate|tauto].
  - unfold declare. destruct (findName reg n) eqn:E.
    + split; auto. intros _ H. apply findName_some in E. destruct E as (it & E & <-).
      apply nth_error_In in E. apply (in_map iname) in E.
      apply NoDup_remove_2 in H. apply H. apply in_or_app. auto.
    + apply findName_none in E. rewrite IH.
      * unfold addItem. rewrite map_app. simpl. rewrite <- app_assoc. simpl. tauto.
      * unfold addItem. rewrite map_app. simpl.
        rewrite <- (rev_involutive (map iname reg ++ [n])). apply NoDup_rev.
        rewrite rev_app_distr. simpl. constructor; [rewrite <- in_rev; auto|]. apply NoDup_rev; auto.
Qed.
End Reg.

(** ** setLayers *)
Lemma setLayers_some reg n l : (n < List.length reg)%nat -> exists reg', setLayers reg n l = Some reg'.
Proof.
  revert n; induction reg as [|it reg IH]; intros n H; simpl in *; [lia|].
  destruct n; eauto. destruct (IH n) as [r' E]; [lia|]. rewrite E. eauto.
Qed.
Lemma setLayers_nth reg n l reg' : setLayers reg n l = Some reg' -> forall k,
  nth_error reg' k = if Nat.eqb k n
    then option_map (fun it => mkItem (iname it) (mkB (btype (idata it)) l)) (nth_error reg k)
    else nth_error reg k.
Proof.
  revert n reg'; induction reg as [|it reg IH]; intros n reg' H k; simpl in *; [discriminate|].
  destruct n.
  - injection H as <-. destruct k; reflexivity.
  - destruct (setLayers reg n l) eqn:E; [|discriminate]. injection H as <-.
    destruct k; simpl; auto.
Qed.
Lemma setLayers_names reg n l reg' : setLayers reg n l = Some reg' -> map iname reg' = map iname reg.
Proof.
  revert n reg'; induction reg as [|it reg IH]; intros n reg' H; simpl in *; [discriminate|].
  destruct n.
  - injection H as <-. reflexivity.
  - destruct (setLayers reg n l) eqn:E; [|discriminate]. injection H as <-. simpl. f_equal. eauto.
Qed.
Lemma typeAt_setLayers reg n l reg' k : setLayers reg n l = Some reg' -> typeAt reg' k = typeAt reg k.
Proof.
  intro H. unfold typeAt, getItem. rewrite (setLayers_nth _ _ _ _ H).
  destruct (Nat.eqb_spec k n); auto. destruct (nth_error reg k); reflexivity.
Qed.
Lemma layersAt_setLayers reg n l reg' k : setLayers reg n l = Some reg' ->
  layersAt reg' k = if Nat.eqb k n then option_map (fun _ => l) (layersAt reg k) else layersAt reg k.
Proof.
  intro H. unfold layersAt, getItem. rewrite (setLayers_nth _ _ _ _ H).
  destruct (Nat.eqb_spec k n); auto. destruct (nth_error reg k); reflexivity.
Qed.

(** ** completeFaces: every face gets the number of an item of its name *)
Lemma FACE_inj f g : FACE f = FACE g -> f = g.
Proof. destruct f, g; simpl; congruence. Qed.

Lemma completeFaces_spec fs : forall reg reg' l, NoDup fs ->
  completeFaces reg fs = (reg', l) ->
  map fst l = fs /\
  (exists extra, reg' = reg ++ extra) /\
  forall f n, In (f, n) l ->
    (findName reg (FACE f) = Some n \/
     findName reg (FACE f) = None /\ (List.length reg <= n)%nat /\
       nth_error reg' n = Some (mkItem (FACE f) (mkB BT_PML 6))) .
Proof.
  induction fs as [|f fs IH]; simpl; intros reg reg' l ND H.
  - injection H as <- <-. split; auto. split; [exists []; rewrite app_nil_r; auto|]. contradiction.
  - inversion ND as [|? ? Hnin ND']; subst.
    remember (match findName reg (FACE f) with
              | Some _ => reg | None => addItem reg (FACE f) (mkB BT_PML pmlDefaultLayers) end) as reg1.
    destruct (completeFaces reg1 fs) as [reg2 l2] eqn:E. injection H as <- <-.
    destruct (IH _ _ _ ND' E) as (M & (ex & X) & I).
    assert (R1 : exists e1, reg1 = reg ++ e1).
    { rewrite Heqreg1. destruct (findName reg (FACE f)); [exists []; rewrite app_nil_r; auto|].
      exists [mkItem (FACE f) (mkB BT_PML 6)]. reflexivity. }
    split; [simpl; congruence|]. split.
    { destruct R1 as [e1 R1]. exists (e1 ++ ex). rewrite X, R1, app_assoc. reflexivity. }
    intros g n [G|G].
    + injection G as <- Gn. destruct (findName reg (FACE f)) eqn:F.
      * left. rewrite Heqreg1, F in Gn. congruence.
      * right. split; auto. rewrite Heqreg1 in Gn. unfold addItem in Gn.
        rewrite findName_app in Gn. simpl in Gn. rewrite String.eqb_refl in Gn. subst n.
        rewrite Nat.add_0_r. split; [lia|].
        rewrite X, Heqreg1. unfold addItem. rewrite <- app_assoc. simpl.
        rewrite nth_error_app2, Nat.sub_diag by lia. reflexivity.
    + specialize (I _ _ G). destruct (findName reg (FACE f)) eqn:F.
      * subst reg1. exact I.
      * assert (g <> f) by (intros ->; apply Hnin; rewrite <- M; apply (in_map fst) in G; exact G).
        rewrite Heqreg1 in I. unfold addItem in I. rewrite findName_app in I. simpl in I.
        destruct (String.eqb_spec (FACE f) (FACE g)) as [e|e]; [apply FACE_inj in e; congruence|].
        destruct I as [I|(I1 & I2 & I3)]; [left; auto|right].
        rewrite app_length in I2. simpl in I2. repeat split; auto; lia.
Qed.

Lemma NoDup_faces : NoDup faces.
Proof. unfold faces. repeat constructor; simpl; intuition congruence. Qed.
Lemma in_faces f : In f faces. Proof. destruct f; simpl; auto 10. Qed.

Lemma lookupFace_in l f : In f (map fst l) -> In (f, lookupFace l f) l.
Proof.
  intro H. unfold lookupFace. destruct (find _ l) as [[g n]|] eqn:E.
  - apply find_some in E. destruct E as [E1 E2]. simpl in E2. apply face_eqb_spec in E2. subst. exact E1.
  - apply in_map_iff in H. destruct H as ([g n] & <- & H). apply (find_none _ _ E) in H.
    simpl in H. assert (face_eqb g g = true) by (apply face_eqb_spec; auto). congruence.
Qed.

(** ** validation *)
Lemma face_of_num_opposite f : face_of_num (oppositeNum (face_num f)) = Some (opposite f).
Proof. destruct f; reflexivity. Qed.

Definition okType (t : BType) : bool :=
  match t with BT_FREE_SPACE | BT_SIBC => false | _ => true end.

Section Validate.
Variable num : Face -> nat.
Hypothesis num_inj : forall f g, num f = num g -> f = g.

Lemma validateFace_spec reg f reg' : validateFace num reg f = Some reg' ->
  (forall k, typeAt reg' k = typeAt reg k) /\
  (forall g, g <> f -> layersAt reg' (num g) = layersAt reg (num g)) /\
  exists t n, typeAt reg (num f) = Some t /\ layersAt reg (num f) = Some n /\ okType t = true /\
    layersAt reg' (num f) = Some (if btype_eqb t BT_PML then n else 0) /\
    (t = BT_PML -> 1 <= n) /\
    (t = BT_PERIODIC -> typeAt reg (num (opposite f)) = Some BT_PERIODIC).
Proof.
  unfold validateFace.
  destruct (typeAt reg (num f)) as [t|] eqn:T; [|discriminate].
  destruct (layersAt reg (num f)) as [n|] eqn:N; [|discriminate].
  rewrite face_of_num_opposite.
  assert (Z : forall r, (if negb (n =? 0) then setLayers reg (num f) 0 else Some reg) = Some r ->
     (forall k, typeAt r k = typeAt reg k) /\
     (forall g, g <> f -> layersAt r (num g) = layersAt reg (num g)) /\
     layersAt r (num f) = Some 0).
  { intros r. destruct (Z.eqb_spec n 0); simpl; intro H.
    - injection H as <-. subst n. auto.
    - repeat split.
      + intros; eapply typeAt_setLayers; eauto.
      + intros g Hg. rewrite (layersAt_setLayers _ _ _ _ _ H).
        destruct (Nat.eqb_spec (num g) (num f)) as [e|e]; auto. apply num_inj in e; congruence.
      + rewrite (layersAt_setLayers _ _ _ _ _ H), Nat.eqb_refl, N. reflexivity. }
  destruct t; intro H; try discriminate;
  try (destruct (Z _ H) as (Z1 & Z2 & Z3); split; [auto|split; [auto|]];
       eexists _, n; repeat split; eauto; discriminate).
  - destruct (Z.ltb_spec n 1); [discriminate|]. injection H as <-.
    split; auto. split; auto. exists BT_PML, n. repeat split; auto. discriminate.
  - destruct (if negb (n =? 0) then setLayers reg (num f) 0 else Some reg) as [r|] eqn:E; [|discriminate].
    destruct (Z _ eq_refl) as (Z1 & Z2 & Z3).
    destruct (typeAt r (num (opposite f))) as [ot|] eqn:O; [|discriminate].
    destruct ot; try discriminate. injection H as <-.
    split; auto. split; auto. exists BT_PERIODIC, n. repeat split; auto; try discriminate.
    intros _. rewrite <- Z1. exact O.
Qed.

Lemma validateFaces_spec fs : forall reg reg', NoDup fs -> validateFaces num reg fs = Some reg' ->
  (forall k, typeAt reg' k = typeAt reg k) /\
  (forall g, ~ In g fs -> layersAt reg' (num g) = layersAt reg (num g)) /\
  forall f, In f fs -> 
   exists t n, typeAt reg (num f) = Some t /\ layersAt reg (num f) = Some n /\ okType t = true /\
    layersAt reg' (num f) = Some (if btype_eqb t BT_PML then n else 0) /\
    (t = BT_PML -> 1 <= n) /\
    (t = BT_PERIODIC -> typeAt reg (num (opposite f)) = Some BT_PERIODIC).
Proof.
  induction fs as [|f fs IH]; simpl; intros reg reg' ND H.
  - injection H as <-. repeat split; auto. contradiction.
  - inversion ND as [|? ? Hnin ND']; subst.
    destruct (validateFace num reg f) as [r|] eqn:E; [|discriminate].
    destruct (validateFace_spec _ _ _ E) as (A1 & A2 & A3).
    destruct (IH _ _ ND' H) as (B1 & B2 & B3).
    split; [intro k; rewrite B1; auto|]. split.
    { intros g Hg. rewrite B2, A2; auto; intro; apply Hg; auto. }
    intros g [->|G].
    + destruct A3 as (t & n & C1 & C2 & C3 & C4 & C5 & C6). exists t, n.
      rewrite (B2 g Hnin). repeat split; auto.
    + destruct (B3 g G) as (t & n & C1 & C2 & C3 & C4 & C5 & C6). exists t, n.
      assert (g <> f) by congruence.
      rewrite <- A1, <- (A2 g) by auto. repeat split; auto. rewrite <- A1. auto.
Qed.

(** Failure: a face is the reason. *)
Lemma validateFace_none (reg : BReg) f : (num f < List.length reg)%nat -> (num (opposite f) < List.length reg)%nat ->
  validateFace num reg f = None ->
  exists t n, typeAt reg (num f) = Some t /\ layersAt reg (num f) = Some n /\
   (okType t = false \/ (t = BT_PML /\ n < 1) \/
    (t = BT_PERIODIC /\ typeAt reg (num (opposite f)) <> Some BT_PERIODIC)).
Proof.
  intros L1 L2. unfold validateFace. rewrite face_of_num_opposite.
  assert (X : exists t n, typeAt reg (num f) = Some t /\ layersAt reg (num f) = Some n).
  { unfold typeAt, layersAt, getItem. destruct (nth_error reg (num f)) eqn:E; [simpl; eauto|].
    apply nth_error_None in E. lia. }
  destruct X as (t & n & T & N). rewrite T, N. cbv zeta.
  destruct (if negb (n =? 0) then setLayers reg (num f) 0 else Some reg) as [r|] eqn:E.
  2:{ exfalso. destruct (negb (n =? 0)); [|discriminate].
      destruct (setLayers_some reg (num f) 0 L1) as [r R]. congruence. }
  assert (R : typeAt r (num (opposite f)) = typeAt reg (num (opposite f))).
  { destruct (negb (n =? 0)); [eapply typeAt_setLayers; eauto|injection E as <-; auto]. }
  intro H. exists t, n. split; auto. split; auto.
  destruct t; try discriminate H; auto.
  - revert H; destruct (Z.ltb_spec n 1); [intros _|discriminate]. right; left; auto.
  - right; right. split; auto. intro Y. rewrite R, Y in H. discriminate.
Qed.
End Validate.

From Verif Require Import SpecSetup.

Lemma findName_rev_find {A} (reg : Registry A) n :
  option_map (fun it => it) (find (fun it => String.eqb (iname it) n) (rev reg)) =
  match findName reg n with Some k => nth_error reg k | None => None end.
Proof.
  induction reg as [|it reg IH]; simpl; auto.
  assert (FA : forall (p : Item A -> bool) l x, find p (l ++ [x]) =
            match find p l with Some y => Some y | None => if p x then Some x else None end).
  { intros p l x. induction l as [|y l IHl]; simpl; [reflexivity|]. destruct (p y); auto. }
  rewrite FA. destruct (findName reg n) as [k|] eqn:E.
  - destruct (find _ (rev reg)) eqn:F; simpl in *; auto.
    exfalso. apply findName_some in E. destruct E as (it' & E & _). congruence.
  - destruct (find _ (rev reg)) eqn:F; simpl in *; [discriminate|].
    destruct (String.eqb (iname it) n); reflexivity.
Qed.

Lemma declared_findName reg f :
  declared reg f = match findName reg (FACE f) with
                   | Some k => option_map idata (getItem reg k) | None => None end.
Proof.
  unfold declared. pose proof (findName_rev_find reg (FACE f)) as H.
  assert (H' : find (fun it => (iname it =? FACE f)%string) (rev reg) =
    match findName reg (FACE f) with Some k => nth_error reg k | None => None end).
  { rewrite <- H. destruct (find _ _); reflexivity. }
  rewrite H'. destruct (findName reg (FACE f)); reflexivity.
Qed.

Lemma nth_error_app_some {A} (l l' : list A) n x : nth_error l n = Some x -> nth_error (l ++ l') n = Some x.
Proof. intro H. rewrite nth_error_app1; auto. apply nth_error_Some. congruence. Qed.

Lemma complete_wanted reg reg1 l : completeFaces reg faces = (reg1, l) ->
  forall f, exists it, nth_error reg1 (lookupFace l f) = Some it /\ iname it = FACE f /\ idata it = wanted reg f.
Proof.
  intros H f. destruct (completeFaces_spec _ _ _ _ NoDup_faces H) as (M & (ex & X) & I).
  assert (In (f, lookupFace l f) l) as G by (apply lookupFace_in; rewrite M; apply in_faces).
  unfold wanted. rewrite declared_findName.
  destruct (I _ _ G) as [J|(J1 & J2 & J3)].
  - rewrite J. destruct (findName_some _ _ _ J) as (it & K1 & K2). exists it.
    unfold getItem. rewrite K1. subst reg1. split; [apply nth_error_app_some; auto|]. auto.
  - rewrite J1. eexists; split; [exact J3|]. auto.
Qed.

Lemma complete_inj reg reg1 l : completeFaces reg faces = (reg1, l) ->
  forall f g, lookupFace l f = lookupFace l g -> f = g.
Proof.
  intros H f g E. destruct (complete_wanted _ _ _ H f) as (i1 & A1 & A2 & _).
  destruct (complete_wanted _ _ _ H g) as (i2 & B1 & B2 & _). rewrite E in A1.
  apply FACE_inj. congruence.
Qed.

Lemma setup_ok reg reg' num : initExternalSurfaceParameters reg = Some (reg', num) -> forall f,
  typeAt reg' (num f) = Some (btype (wanted reg f)) /\
  layersAt reg' (num f) = Some (if btype_eqb (btype (wanted reg f)) BT_PML then blayers (wanted reg f) else 0) /\
  ~ bad_face reg f.
Proof.
  unfold initExternalSurfaceParameters. destruct (completeFaces reg faces) as [reg1 l] eqn:C.
  destruct (validateFaces (lookupFace l) reg1 faces) as [r|] eqn:V; [|discriminate].
  intros H f. injection H as <- <-.
  destruct (validateFaces_spec _ (complete_inj _ _ _ C) _ _ _ NoDup_faces V) as (A & _ & B).
  destruct (B f (in_faces f)) as (t & n & T & N & O & L & P & Q).
  destruct (complete_wanted _ _ _ C f) as (it & I1 & I2 & I3).
  destruct (complete_wanted _ _ _ C (opposite f)) as (it' & I1' & I2' & I3').
  unfold typeAt, layersAt, getItem in T, N. rewrite I1 in T, N. simpl in T, N. rewrite I3 in T, N.
  injection T as <-. injection N as <-.
  split; [rewrite A; unfold typeAt, getItem; rewrite I1; simpl; congruence|].
  split; [exact L|].
  unfold bad_face. intros [E|[E|[[E E']|[E E']]]].
  - rewrite E in O; discriminate.
  - rewrite E in O; discriminate.
  - specialize (P E). lia.
  - specialize (Q E). unfold typeAt, getItem in Q. rewrite I1' in Q. simpl in Q. congruence.
Qed.

Lemma validateFaces_none num (num_inj : forall f g, num f = num g -> f = g) fs :
  forall reg, NoDup fs -> (forall f, exists it, nth_error reg (num f) = Some it) ->
  validateFaces num reg fs = None ->
  exists f t n, typeAt reg (num f) = Some t /\ layersAt reg (num f) = Some n /\
   (okType t = false \/ (t = BT_PML /\ n < 1) \/
    (t = BT_PERIODIC /\ typeAt reg (num (opposite f)) <> Some BT_PERIODIC)) /\ In f fs.
Proof.
  induction fs as [|f fs IH]; simpl; intros reg ND EX H; [discriminate|].
  inversion ND as [|? ? Hnin ND']; subst.
  assert (LT : forall g, (num g < List.length reg)%nat).
  { intro g. destruct (EX g) as [it E]. apply nth_error_Some. congruence. }
  destruct (validateFace num reg f) as [r|] eqn:E.
  - destruct (validateFace_spec _ num_inj _ _ _ E) as (A1 & A2 & A3).
    assert (EX' : forall g, exists it, nth_error r (num g) = Some it).
    { intro g. destruct (EX g) as [it G]. specialize (A1 (num g)). unfold typeAt, getItem in A1.
      rewrite G in A1. destruct (nth_error r (num g)); eauto. discriminate. }
    destruct (IH r ND' EX' H) as (g & t & n & B1 & B2 & B3 & B4).
    assert (g <> f) by congruence.
    exists g, t, n. rewrite <- A1, <- (A2 g) by auto. rewrite <- A1. auto.
  - destruct (validateFace_none _ _ _ (LT f) (LT (opposite f)) E) as (t & n & B1 & B2 & B3).
    exists f, t, n. auto.
Qed.

Lemma setup_fail reg : initExternalSurfaceParameters reg = None <-> exists f, bad_face reg f.
Proof.
  split.
  - unfold initExternalSurfaceParameters. destruct (completeFaces reg faces) as [reg1 l] eqn:C.
    destruct (validateFaces (lookupFace l) reg1 faces) as [r|] eqn:V; [discriminate|]. intros _.
    destruct (validateFaces_none _ (complete_inj _ _ _ C) faces reg1 NoDup_faces) as (f & t & n & T & N & B & _); auto.
    { intro f. destruct (complete_wanted _ _ _ C f) as (it & I & _). eauto. }
    exists f. unfold bad_face.
    destruct (complete_wanted _ _ _ C f) as (it & I1 & I2 & I3).
    destruct (complete_wanted _ _ _ C (opposite f)) as (it' & I1' & I2' & I3').
    unfold typeAt, layersAt, getItem in T, N, B. rewrite I1 in T, N. rewrite I1' in B.
    simpl in T, N, B. rewrite I3 in T, N. rewrite I3' in B. injection T as <-. injection N as <-.
    destruct B as [B|[B|[B B']]]; auto.
    + destruct (btype (wanted reg f)); try discriminate; auto.
    + right; right; right. split; auto. congruence.
  - intros [f B]. destruct (initExternalSurfaceParameters reg) as [[reg' num]|] eqn:E; auto.
    exfalso. apply (proj2 (proj2 (setup_ok _ _ _ E f))). exact B.
Qed.

Lemma setup_wf nx ny nz reg c : setupCfg nx ny nz reg = Some c -> wf c.
Proof.
  unfold setupCfg, parseDM.
  destruct (Z.ltb_spec nx 1); simpl; [discriminate|].
  destruct (Z.ltb_spec ny 1); simpl; [discriminate|].
  destruct (Z.ltb_spec nz 1); simpl; [discriminate|].
  destruct (initExternalSurfaceParameters reg) as [[reg' num]|] eqn:E; [|discriminate].
  intro H2. injection H2 as <-. pose proof (setup_ok _ _ _ E) as S. unfold cfgOf.
  constructor; simpl.
  - intros []; lia.
  - intros f. destruct (S f) as (A & B & C). rewrite A, B. intros T. rewrite T. cbn [btype_eqb].
    unfold bad_face in C.
    destruct (Z_lt_le_dec (blayers (wanted reg f)) 1); auto. exfalso; apply C; auto.
  - intros f. destruct (S f) as (A & B & C). rewrite A, B. intros D.
    destruct (btype (wanted reg f)); simpl; auto; congruence.
  - intros f. destruct (S f) as (A & B & C). rewrite A. unfold bad_face in C.
    destruct (btype (wanted reg f)); auto 10; exfalso; apply C; auto.
  - intros f. destruct (S f) as (A & B & C). destruct (S (opposite f)) as (A' & _). rewrite A, A'.
    intro D. unfold bad_face in C.
    destruct (btype_dec (btype (wanted reg (opposite f))) BT_PERIODIC); auto.
    exfalso; apply C; auto 10.
Qed.

Lemma setup_cfg nx ny nz reg c : setupCfg nx ny nz reg = Some c -> forall f,
  outerSurfaceType c f = btype (wanted reg f) /\
  outerSurfaceNumLayers c f = (if btype_eqb (btype (wanted reg f)) BT_PML then blayers (wanted reg f) else 0).
Proof.
  unfold setupCfg. destruct (parseDM nx ny nz) as [[mb nl]|]; [|discriminate].
  destruct (initExternalSurfaceParameters reg) as [[reg' num]|] eqn:E; [|discriminate].
  intros H f. injection H as <-. destruct (setup_ok _ _ _ E f) as (A & B & _).
  simpl. rewrite A, B. auto.
Qed.

(** ** Grid extents *)
Section Extents.
Variable c : Cfg.
Hypothesis W : wf c.

Lemma layers_nonneg f : 0 <= outerSurfaceNumLayers c f.
Proof.
  destruct (btype_dec (outerSurfaceType c f) BT_PML) as [e|e].
  - pose proof (wf_pml c W f e). lia.
  - rewrite (wf_nopml c W f e). lia.
Qed.
Lemma extents a :
  gibox c (face_lo a) = 1 + outerSurfaceNumLayers c (face_lo a) /\
  gibox c (face_hi a) = gibox c (face_lo a) + (numLines c a - 1) /\
  gobox c (face_lo a) = 1 /\
  gobox c (face_hi a) = gibox c (face_hi a) + outerSurfaceNumLayers c (face_hi a) /\
  ggbox c (face_lo a) = 0 /\ ggbox c (face_hi a) = gobox c (face_hi a) + 1 /\
  numCells c a = gobox c (face_hi a) + 1.
Proof. unfold numCells. destruct a; cbn [gibox gobox ggbox face_lo face_hi]; unfold NUM_GHOST_CELLS; lia. Qed.
End Extents.
