(** Mesh file structure (C20) and text (C21). *)
From Coq Require Import ZArith List Bool Lia Arith String.
From Verif Require Import CArr CStr SpecText TextProofs Mesh SpecMesh MeshProofs.
Import ListNotations.
Local Notation length := List.length.
Local Open Scope nat_scope.

(** ** Text of a line *)
Lemma blank_app a b : blank (a ++ b) <-> blank a /\ blank b.
Proof. apply Forall_app. Qed.

(** C21 comments: what is left is the text before the first '#', in the same buffer. *)
Theorem C21_comments b : terminated b ->
  exists b', removeComments b = Some b' /\ length b' = length b /\ terminated b' /\ cstr b' = before_hash (cstr b).
Proof.
  intros T. destruct (terminated_split b T) as (s & rest & -> & NS & ->).
  destruct (removeComments_spec s rest NS) as (b' & r' & E & -> & L).
  eexists. split; [exact E|]. split; [exact L|]. split; [apply in_or_app; right; left; reflexivity|].
  apply cstr_app. apply before_hash_nz. exact NS.
Qed.

(** C21 trimming: exactly the white space around the text is removed, in the same buffer. *)
Theorem C21_trim_partial b : terminated b -> (cstr b = [] \/ exists x, In x (cstr b) /\ isspace x = false) ->
  exists b', strtrim b = Some b' /\ length b' = length b /\ terminated b' /\ trimmed (cstr b) (cstr b').
Proof.
  intros T D. destruct (terminated_split b T) as (s & rest & -> & NS & Es). rewrite Es in *.
  destruct D as [->|D].
  - exists (0%Z :: rest). cbn. repeat split; auto. exists [], []. repeat split; try constructor. reflexivity.
  - destruct (trim_split s D) as (a & t & c & -> & BA & BC & NE & SD).
    destruct (strtrim_dark a t c rest BA BC NE SD NS) as (r' & E & L).
    exists (t ++ 0%Z :: r'). split; [exact E|]. split; [exact L|]. split; [apply in_or_app; right; left; reflexivity|].
    apply nz_app in NS as (_ & NS). apply nz_app in NS as (NS & _). rewrite cstr_app by exact NS.
    exists a, c. auto.
Qed.

(** The trimmed text of a string is unique, so the two theorems above fix the result. *)
Lemma trimmed_unique s t u : trimmed s t -> trimmed s u -> t = u.
Proof.
  assert (LE : forall a t b a' u b', a ++ t ++ b = a' ++ u ++ b' -> blank a -> blank b -> blank a' -> blank b' ->
      starts_ends_dark t -> starts_ends_dark u -> length a <= length a' -> t = u).
  { intros a t0 b a' u0 b' E Ba Bb Ba' Bb' S S' L.
    assert (exists w, a' = a ++ w) as (w & ->).
    { exists (skipn (length a) a'). rewrite <- (firstn_skipn (length a) a') at 1. f_equal.
      assert (Q : firstn (length a) (a ++ t0 ++ b) = firstn (length a) (a' ++ u0 ++ b')) by (rewrite E; reflexivity).
      rewrite firstn_app, Nat.sub_diag in Q. cbn in Q. rewrite firstn_all, app_nil_r in Q.
      rewrite firstn_app in Q. replace (length a - length a') with 0 in Q by lia. cbn in Q. rewrite app_nil_r in Q. symmetry. exact Q. }
    rewrite <- app_assoc in E. apply app_inv_head in E. apply blank_app in Ba' as (_ & Bw).
    destruct S as [->|((x & tx & ETx & X) & (ty & y & ETy & Y))].
    - cbn in E. subst b. destruct S' as [->|((x & ux & -> & X) & _)]; [reflexivity|].
      apply blank_app in Bb as (_ & Bb). inversion Bb. congruence.
    - destruct w as [|c w].
      2:{ rewrite ETx in E. cbn in E. injection E as <- _. inversion Bw. congruence. }
      cbn [app] in E. destruct S' as [->|((x' & ux & EU & X') & (uy & y' & EUy & Y'))].
      { rewrite ETx in E. cbn in E. rewrite <- E in Bb'. inversion Bb'. congruence. }
      clear ETx EU.
      rewrite ETy in *. rewrite EUy in *. rewrite <- !app_assoc in E. cbn [app] in E.
      assert (Q : rev b ++ y :: rev ty = rev b' ++ y' :: rev uy).
      { pose proof (f_equal (@rev Z) E) as Q. rewrite !rev_app_distr in Q. cbn [rev] in Q. rewrite <- !app_assoc in Q. exact Q. }
      assert (G : forall p q y y' r r', p ++ y :: r = q ++ y' :: r' -> blank p -> blank q -> isspace y = false -> isspace y' = false -> y :: r = y' :: r').
      { clear. induction p as [|c p IH]; intros q y y' r r' E Bp Bq Y Y'.
        - destruct q as [|d q]; [exact E|]. cbn in E. injection E as <- _. inversion Bq. congruence.
        - destruct q as [|d q]; [cbn in E; injection E as -> _; inversion Bp; congruence|].
          cbn in E. injection E as _ E. inversion Bp; inversion Bq; subst. eapply IH; eauto. }
      assert (R : y :: rev ty = y' :: rev uy) by (eapply G; [exact Q|apply Forall_rev; assumption|apply Forall_rev; assumption|assumption|assumption]).
      apply (f_equal (@rev Z)) in R. cbn [rev] in R. rewrite !rev_involutive in R. exact R. }
  intros (a & b & E & Ba & Bb & S) (a' & b' & E' & Ba' & Bb' & S').
  destruct (le_ge_dec (length a) (length a')).
  - eapply LE; [rewrite <- E; exact E'|..]; eauto.
  - symmetry. eapply LE; [rewrite <- E'; exact E|..]; eauto; lia.
Qed.

(** C21 trimming is idempotent. *)
Theorem C21_idempotent b b' : terminated b -> strtrim b = Some b' ->
  exists b'', strtrim b' = Some b'' /\ cstr b'' = cstr b'.
Proof.
  intros T E.
  assert (D : cstr b = [] \/ exists x, In x (cstr b) /\ isspace x = false).
  { destruct (terminated_split b T) as (s & rest & -> & NS & Es). rewrite Es.
    destruct (Exists_dec (fun x => isspace x = false) s) as [I|I].
    - intros x. destruct (isspace x); [right; discriminate|left; reflexivity].
    - right. apply Exists_exists in I. exact I.
    - destruct s as [|c s]; [left; reflexivity|]. rewrite strtrim_blank in E; [discriminate| |discriminate|exact NS].
      apply Forall_forall. intros x Ix. destruct (isspace x) eqn:X; [reflexivity|]. exfalso. apply I. apply Exists_exists. eauto. }
  destruct (C21_trim_partial b T D) as (b1 & E1 & _ & T1 & R1). rewrite E in E1. injection E1 as <-.
  assert (D' : cstr b' = [] \/ exists x, In x (cstr b') /\ isspace x = false).
  { destruct R1 as (p & q & _ & _ & _ & [H|((x & t & H & X) & _)]); [left; exact H|].
    right. exists x. rewrite H. split; [left; reflexivity|exact X]. }
  destruct (C21_trim_partial b' T1 D') as (b2 & E2 & _ & T2 & R2). exists b2. split; [exact E2|].
  eapply trimmed_unique; [exact R2|]. destruct R1 as (p & q & _ & _ & _ & S).
  exists [], []. rewrite app_nil_r. split; [reflexivity|]. split; [constructor|]. split; [constructor|exact S].
Qed.

(** C21 is not true of every line: a line of white space only, as every blank
    line of a file is, makes strtrim read the byte in front of the buffer. *)
Theorem C21_blank_line_refuted s rest : blank s -> s <> [] -> Forall (fun c => c <> 0%Z) s ->
  strtrim (s ++ 0%Z :: rest) = None.
Proof. intros. apply strtrim_blank; assumption. Qed.

(** ** From files to texts *)
Lemma fgets_line l rest n : Forall (fun c => c <> 0%Z /\ c <> 10%Z) l -> length l < n -> fgets n (l ++ 10%Z :: rest) = (l ++ [10%Z], rest).
Proof.
  revert n. induction l as [|c l IH]; intros n P L; (destruct n; [cbn in L; lia|]); [reflexivity|].
  inversion P as [|? ? (A & B) P']; subst. cbn [app fgets]. destruct (Z.eqb_spec c 10); [contradiction|].
  rewrite IH; [reflexivity|exact P'|cbn in L; lia].
Qed.
Lemma cstr_nz s : nz s -> cstr s = s.
Proof. induction 1; [reflexivity|]. cbn. destruct (Z.eqb_spec x 0); [contradiction|]. f_equal. assumption. Qed.
Lemma lineBuffer_line l : plain l -> exists rest, lineBuffer (l ++ [10%Z]) = (l ++ [10%Z]) ++ 0%Z :: rest /\ nz (l ++ [10%Z]).
Proof.
  intros (P & L). assert (NZ : nz (l ++ [10%Z])).
  { apply nz_app. split; [eapply Forall_impl; [|exact P]; intros ? (Q & _); exact Q|repeat constructor; discriminate]. }
  unfold lineBuffer. rewrite (cstr_nz _ NZ).
  exists (repeat 0%Z (BUFFER_LENGTH - length (l ++ [10%Z]) - 1)). split; [|exact NZ].
  replace (BUFFER_LENGTH - length (l ++ [10%Z])) with (S (BUFFER_LENGTH - length (l ++ [10%Z]) - 1)) at 1.
  - reflexivity.
  - rewrite app_length. cbn [length]. unfold BUFFER_LENGTH. lia.
Qed.
Lemma before_hash_nl l : before_hash (l ++ [10%Z]) = before_hash l \/ before_hash (l ++ [10%Z]) = before_hash l ++ [10%Z].
Proof. induction l as [|c l IH]; [right; reflexivity|]. cbn. destruct (Z.eqb_spec c HASH); [left; reflexivity|]. destruct IH as [-> | ->]; auto. Qed.

Lemma line_text l o : plain l -> meaning l o ->
  exists b, obind (removeComments (lineBuffer (l ++ [10%Z]))) strtrim = Some b /\ cstr b = match o with Some t => t | None => [] end.
Proof.
  intros P M. destruct (lineBuffer_line l P) as (rest & -> & NZ).
  destruct (removeComments_spec _ rest NZ) as (b & r & -> & -> & _). cbn [obind].
  destruct M as [t E|t TR NE].
  - subst l. cbn [app before_hash]. change (HASH =? HASH)%Z with true. cbn. eexists. split; reflexivity.
  - assert (exists a c, before_hash (l ++ [10%Z]) = a ++ t ++ c /\ blank a /\ blank c /\ starts_ends_dark t) as (a & c & E & Ba & Bc & S).
    { destruct TR as (a & c & E & Ba & Bc & S). destruct (before_hash_nl l) as [H|H]; rewrite H.
      - exists a, c. auto.
      - exists a, (c ++ [10%Z]). rewrite E, !app_assoc. repeat split; auto. apply blank_app. split; [exact Bc|]. repeat constructor. }
    pose proof (before_hash_nz _ NZ) as NB. rewrite E in *.
    destruct (strtrim_dark a t c r Ba Bc NE S NB) as (r' & E' & _). exists (t ++ 0%Z :: r'). split; [exact E'|].
    apply cstr_app. apply nz_app in NB as (_ & NB). apply nz_app in NB as (NB & _). exact NB.
Qed.

(** Which card a text is *)
Lemma prefixb_app p t : prefixb p t = true <-> exists arg, t = p ++ arg.
Proof.
  revert t. induction p as [|x p IH]; intros t; cbn [prefixb app].
  - split; [intros _; exists t; reflexivity|reflexivity].
  - destruct t as [|y t]; [split; [discriminate|intros (? & E); discriminate]|].
    rewrite andb_true_iff, IH. split.
    + intros (E & arg & ->). apply Z.eqb_eq in E. subst. exists arg. reflexivity.
    + intros (arg & E). injection E as -> ->. split; [apply Z.eqb_refl|exists arg; reflexivity].
Qed.
Lemma card_chars_len c : length (chars (CT_STRING c)) = 2. Proof. destruct c; reflexivity. Qed.
Lemma card_chars_inj c d : chars (CT_STRING c) = chars (CT_STRING d) -> c = d.
Proof. destruct c, d; intros E; try reflexivity; vm_compute in E; discriminate E. Qed.
Lemma getCardType_some t c : getCardType t = Some c <-> is_card c t.
Proof.
  unfold getCardType, is_card. split.
  - destruct (_ <? 2)%Z; [discriminate|]. intros F. apply find_some in F as (_ & F). apply prefixb_app. exact F.
  - intros (arg & ->). destruct (Z.ltb_spec (Z.of_nat (length (chars (CT_STRING c) ++ arg))) 2) as [L|L].
    { rewrite app_length, card_chars_len in L. lia. }
    destruct (find _ cards) as [d|] eqn:F.
    + apply find_some in F as (_ & F). apply prefixb_app in F as (arg' & E).
      f_equal. symmetry. apply card_chars_inj.
      pose proof (f_equal (firstn 2) E) as Q. rewrite !firstn_app, !card_chars_len in Q. cbn [Nat.sub] in Q.
      rewrite !firstn_O, !app_nil_r in Q. rewrite <- (card_chars_len c) in Q at 1. rewrite firstn_all in Q.
      rewrite <- (card_chars_len d) in Q. rewrite firstn_all in Q. exact Q.
    + exfalso. eapply find_none in F; [|instantiate (1 := c); destruct c; cbn; tauto].
      assert (T : prefixb (chars (CT_STRING c)) (chars (CT_STRING c) ++ arg) = true) by (apply prefixb_app; eauto). congruence.
Qed.

Section Files.
Context {H : Type}.
(** Handlers that look only at their own line (all but the multi-line
    coordinate lists of XL, YL, ZL). *)
Variable hdl0 : H -> Card -> list Z -> option H.
Let hdl : H -> Card -> list Z -> list Z -> option (H * nat) :=
  fun h c arg _ => option_map (fun h' => (h', 0)) (hdl0 h c arg).
Fixpoint runText (ts : list (list Z)) (st : MState) (h : H) (tr : list Card) : outc (MState * H * list Card) :=
  match ts with
  | [] => Acc (st, h, tr)
  | t :: ts' =>
      match getCardType t with
      | None => Rej
      | Some c => obnd (stepCard hdl st h c (skipn 2 t) []) (fun r => runText ts' (fst (fst r)) (snd (fst r)) (tr ++ [c]))
      end
  end.
Lemma stepCard_used st h c arg rest s : stepCard hdl st h c arg rest = Acc s -> snd s = 0.
Proof.
  unfold stepCard. destruct (checkCard st c); [|discriminate|discriminate]. cbn [obnd].
  unfold hdl. destruct (hasFunc c).
  - destruct (hdl0 h c arg); [|discriminate]. cbn [option_map obnd]. destruct (special _ c); [|discriminate|discriminate]. cbn [obnd].
    destruct (endSection _ c); [|discriminate|discriminate]. intros [= <-]. reflexivity.
  - cbn [obnd]. destruct (special _ c); [|discriminate|discriminate]. cbn [obnd].
    destruct (endSection _ c); [|discriminate|discriminate]. intros [= <-]. reflexivity.
Qed.
Lemma readLoop_text lines ts : contents lines ts -> Forall plain lines -> forall n st h tr,
  length (file_of lines) <= n -> readLoop hdl n (file_of lines) st h tr = runText ts st h tr.
Proof.
  induction 1 as [|l ls ts M C IH|l t ls ts M C IH]; intros P n st h tr L.
  - destruct n; reflexivity.
  - inversion P as [|? ? Pl P']; subst.
    change (file_of (l :: ls)) with ((l ++ [10%Z]) ++ file_of ls) in *. rewrite <- app_assoc in *. cbn [app] in *.
    rewrite app_length in L. cbn [length] in L. destruct n; [lia|]. cbn [readLoop].
    destruct (l ++ 10%Z :: file_of ls) eqn:EL; [destruct l; discriminate|]. rewrite <- EL. clear EL.
    rewrite fgets_line; [|apply Pl|destruct Pl as (_ & Pl); unfold BUFFER_LENGTH; lia].
    destruct (line_text l None Pl M) as (b & E & Eb). unfold buf in *. rewrite E. rewrite Eb. cbn [length Z.of_nat Z.eqb]. apply IH; [exact P'|lia].
  - inversion P as [|? ? Pl P']; subst.
    change (file_of (l :: ls)) with ((l ++ [10%Z]) ++ file_of ls) in *. rewrite <- app_assoc in *. cbn [app] in *.
    rewrite app_length in L. cbn [length] in L. destruct n; [lia|]. cbn [readLoop runText].
    destruct (l ++ 10%Z :: file_of ls) eqn:EL; [destruct l; discriminate|]. rewrite <- EL. clear EL.
    rewrite fgets_line; [|apply Pl|destruct Pl as (_ & Pl); unfold BUFFER_LENGTH; lia].
    destruct (line_text l (Some t) Pl M) as (b & E & Eb). unfold buf in *. rewrite E. rewrite Eb.
    assert (NE : t <> []) by (inversion M; assumption).
    destruct (Z.eqb_spec (Z.of_nat (length t)) 0) as [Z0|_]; [destruct t; [contradiction|cbn in Z0; lia]|].
    destruct (getCardType t) as [c|]; [|reflexivity].
    assert (SE : stepCard hdl st h c (skipn 2 t) (file_of ls) = stepCard hdl st h c (skipn 2 t) []) by reflexivity.
    rewrite SE. destruct (stepCard hdl st h c (skipn 2 t) []) as [s| |] eqn:S; [|reflexivity|reflexivity].
    cbn [obnd]. rewrite (surjective_pairing s), (surjective_pairing (fst s)). rewrite (stepCard_used _ _ _ _ _ _ S). cbn [fst snd skipn].
    apply IH; [exact P'|lia].
Qed.
Lemma readMesh_text lines ts h : contents lines ts -> Forall plain lines -> readMesh hdl (file_of lines) h = runText ts initM h [].
Proof. intros C P. unfold readMesh. apply readLoop_text; auto. Qed.

(** C21 for whole files: comments, blanks around the text and comment lines
    never change what is read. *)
Theorem C21_layout_irrelevant_partial lines lines' ts h : Forall plain lines -> Forall plain lines' ->
  contents lines ts -> contents lines' ts ->
  readMesh hdl (file_of lines) h = readMesh hdl (file_of lines') h.
Proof. intros P P' C C'. rewrite (readMesh_text lines ts), (readMesh_text lines' ts) by assumption. reflexivity. Qed.

Lemma runText_cards ts : forall cs st h tr, (forall h c arg, hdl0 h c arg <> None) -> Forall2 is_card cs ts ->
  match runC cs st with
  | Acc st' => exists h', runText ts st h tr = Acc (st', h', tr ++ cs)
  | Rej => runText ts st h tr = Rej
  | UB => runText ts st h tr = UB
  end.
Proof.
  intros cs st h tr A F. revert st h tr. induction F as [|c t cs ts I F IH]; intros st h tr.
  - cbn. exists h. rewrite app_nil_r. reflexivity.
  - cbn [runC runText]. apply getCardType_some in I. rewrite I.
    assert (SC : match stepC st c with Acc st' => exists h', stepCard hdl st h c (skipn 2 t) [] = Acc (st', h', 0)
        | Rej => stepCard hdl st h c (skipn 2 t) [] = Rej | UB => stepCard hdl st h c (skipn 2 t) [] = UB end).
    { unfold stepC, stepCard. destruct (checkCard st c); [|reflexivity|reflexivity]. cbn [obnd].
      assert (exists h', (if hasFunc c then match hdl h c (skipn 2 t) [] with Some r => Acc r | None => Rej end else Acc (h, 0)) = Acc (h', 0)) as (h' & ->).
      { destruct (hasFunc c); [|eauto]. unfold hdl. specialize (A h c (skipn 2 t)). destruct (hdl0 h c (skipn 2 t)); [eexists; reflexivity|congruence]. }
      cbn [obnd]. destruct (special _ c) as [s| |]; [|reflexivity|reflexivity]. cbn [obnd].
      destruct (endSection s c); [|reflexivity|reflexivity]. cbn [obnd fst snd]. eauto. }
    destruct (stepC st c) as [s| |]; [|rewrite SC; reflexivity|rewrite SC; reflexivity].
    destruct SC as (h' & ->). cbn [obnd fst snd]. specialize (IH s h' (tr ++ [c])).
    rewrite <- app_assoc in IH. exact IH.
Qed.

(** C20: with handlers that accept their cards, a file is accepted exactly when
    its cards are an initial part of a complete mesh description; then these are
    the cards processed, and the reader has seen EN exactly when they are all. *)
Theorem C20_accepted_iff_partial lines ts cs h : (forall h c arg, hdl0 h c arg <> None) ->
  Forall plain lines -> contents lines ts -> Forall2 is_card cs ts ->
  ((exists st h', readMesh hdl (file_of lines) h = Acc (st, h', cs)) <-> exists rest, complete_mesh (cs ++ rest)).
Proof.
  intros A P C F. rewrite (readMesh_text lines ts h C P).
  pose proof (runText_cards ts cs initM h [] A F) as R. split.
  - intros (st & h' & E). destruct (runC cs initM) as [s| |] eqn:RC; [|congruence|congruence].
    destruct (runC_shape _ _ RC) as (_ & SH). destruct (shape_extends _ _ SH) as (rest & CM & _). eauto.
  - intros (rest & CM). destruct (accept4 _ CM) as (st & RC & _). rewrite runC_app in RC.
    destruct (runC cs initM) as [s| |]; [|discriminate|discriminate]. destruct R as (h' & R). eauto.
Qed.
(** C20: a text that is not a card stops the reader with an error (or the
    reader has gone wrong before). *)
Theorem C20_unknown_card_rejected lines ts t h : Forall plain lines -> contents lines ts ->
  In t ts -> (forall c, ~ is_card c t) -> forall st h' tr, readMesh hdl (file_of lines) h <> Acc (st, h', tr).
Proof.
  intros P C I N. rewrite (readMesh_text lines ts h C P).
  assert (G : forall ts, In t ts -> forall st h tr st' h' tr', runText ts st h tr <> Acc (st', h', tr')).
  { clear - N. induction ts as [|x ts IH]; intros I st h tr st' h' tr'; [destruct I|]. cbn [runText].
    destruct I as [->|I].
    - destruct (getCardType t) as [c|] eqn:G; [|discriminate]. apply getCardType_some in G. exfalso. eapply N; eauto.
    - destruct (getCardType x) as [c|]; [|discriminate]. destruct (stepCard _ _ _ _ _ _); [|discriminate|discriminate]. cbn [obnd]. apply IH. exact I. }
  intros. apply G. exact I.
Qed.
(** Any text after EN makes the reader index past the section table. *)
Theorem C20_card_after_EN_refuted lines ts cs c t h : (forall h c arg, hdl0 h c arg <> None) ->
  Forall plain lines -> contents lines (ts ++ [t]) -> Forall2 is_card cs ts -> is_card c t -> complete_mesh cs ->
  readMesh hdl (file_of lines) h = UB.
Proof.
  intros A P C F I CM. rewrite (readMesh_text _ _ h C P).
  pose proof (runText_cards (ts ++ [t]) (cs ++ [c]) initM h [] A (Forall2_app F (Forall2_cons _ _ I (Forall2_nil _)))) as R.
  destruct (accept4 _ CM) as (st & RC & SN). rewrite runC_snoc, RC in R. cbn [obnd] in R.
  unfold stepC, checkCard in R. rewrite SN in R. cbn in R. exact R.
Qed.
End Files.

(** C20 for every file and every handler (also multi-line ones): what was
    processed is always an initial part of a complete mesh description. *)
Theorem C20_accepted_is_initial_part {H} (hdl : H -> Card -> list Z -> list Z -> option (H * nat)) file h st h' tr :
  readMesh hdl file h = Acc (st, h', tr) ->
  exists rest, complete_mesh (tr ++ rest) /\ (In EN tr -> rest = []).
Proof.
  intros E. unfold readMesh in E. apply (readLoop_runC hdl _ _ initM h []) in E; [|reflexivity].
  destruct (runC_shape _ _ E) as (_ & SH). destruct (shape_extends _ _ SH) as (rest & CM & EN4).
  exists rest. split; [exact CM|]. intros IE. apply EN4.
  inversion SH as [E0|s1 E0 P1|s1 s2 E0 P1 P2|s1 s2 s3 E0 P1 P2 P3|]; [..|reflexivity]; exfalso; subst tr.
  - destruct IE.
  - destruct IE as [D|IE]; [discriminate D|]. destruct P1 as (P1 & _). rewrite Forall_forall in P1. apply P1 in IE. revert IE. fin.
  - destruct IE as [D|IE]; [discriminate D|]. apply in_app_or in IE as [IE|[D|IE]]; [|discriminate D|].
    + destruct P1 as (P1 & _). rewrite Forall_forall in P1. apply P1 in IE. revert IE. fin.
    + unfold partial2 in P2. rewrite Forall_forall in P2. apply P2 in IE. revert IE. fin.
  - destruct IE as [D|IE]; [discriminate D|]. apply in_app_or in IE as [IE|[D|IE]]; [|discriminate D|].
    + destruct P1 as (P1 & _). rewrite Forall_forall in P1. apply P1 in IE. revert IE. fin.
    + apply in_app_or in IE as [IE|[D|IE]]; [|discriminate D|].
      * destruct P2 as (P2 & _). rewrite Forall_forall in P2. apply P2 in IE. revert IE. fin.
      * destruct P3 as (P3 & _). rewrite Forall_forall in P3. apply P3 in IE. revert IE. fin.
Qed.
(** ... but not always all of it: the empty file is accepted, and so is every
    file cut off anywhere before EN. *)
Theorem C20_truncated_accepted_refuted :
  (forall (H : Type) (hdl : H -> Card -> list Z -> list Z -> option (H * nat)) h, readMesh hdl [] h = Acc (initM, h, [])) /\
  exists lines cs, Forall plain lines /\ ~ complete_mesh cs /\
    exists st h', readMesh (fun h c arg rest => Some (h, 0)) (file_of lines) tt = Acc (st, h', cs) /\ cs = [VM; DM].
Proof.
  split; [reflexivity|].
  exists [chars "VM 1.0.0"%string; chars "DM 4 4 4"%string], [VM; DM]. split.
  { repeat (apply Forall_cons; [split; [repeat constructor; discriminate|cbn; lia]|]). apply Forall_nil. }
  split.
  { intros (s1 & s2 & s3 & E & _). apply (f_equal (@length Card)) in E. cbn in E. rewrite !app_length in E. cbn in E. rewrite !app_length in E. cbn in E. rewrite !app_length in E. cbn in E. lia. }
  eexists. eexists. split; [vm_compute; reflexivity|reflexivity].
Qed.
(** A comment longer than the line buffer is not a comment: its tail is read
    as a card. *)
Definition long_comment : list Z := repeat HASH 1022 ++ chars "VM 1.0.0"%string.
Theorem C21_long_line_refuted : exists st h', meaning long_comment None /\
  readMesh (fun h c arg rest => Some (h, 0)) (file_of [long_comment]) tt = Acc (st, h', [VM]).
Proof.
  eexists. eexists. split; [apply a_comment with (t := repeat HASH 1021 ++ chars "VM 1.0.0"%string); reflexivity|].
  vm_compute. reflexivity.
Qed.

(** A small complete file, with comments and blanks, meets the hypotheses. *)
Definition demo_file : list (list Z) := map chars
  ["# demo"; "VM 1.0.0 # version"; "  DM 4 4 4"; "GS"; "EX a b c "; "GE#"; "NT 10"; "MS 0.1 0.1 0.1"; "EN"]%string.
Definition demo_texts : list (list Z) := map chars
  ["VM 1.0.0"; "DM 4 4 4"; "GS"; "EX a b c"; "GE"; "NT 10"; "MS 0.1 0.1 0.1"; "EN"]%string.
Lemma trimmed_ex s t a b : s = a ++ t ++ b -> blank a -> blank b ->
  match t, rev t with x :: _, y :: _ => isspace x = false /\ isspace y = false | _, _ => False end -> trimmed s t.
Proof.
  intros E A B D. exists a, b. repeat split; auto. right.
  destruct t as [|x t]; [destruct D|]. destruct (rev (x :: t)) as [|y r] eqn:R; [destruct D|]. destruct D as (X & Y).
  split; [exists x, t; auto|]. exists (rev r), y. split; [|exact Y].
  rewrite <- (rev_involutive (x :: t)), R. reflexivity.
Qed.
Lemma C20_nonvacuous : Forall plain demo_file /\ contents demo_file demo_texts /\
  Forall2 is_card [VM; DM; GS; EX; GE; NT; MS; EN] demo_texts /\ complete_mesh [VM; DM; GS; EX; GE; NT; MS; EN].
Proof.
  split; [repeat (apply Forall_cons; [split; [repeat constructor; discriminate|cbn; lia]|]); apply Forall_nil|].
  split.
  - unfold demo_file, demo_texts. cbn [map].
    Ltac txt u v := apply cont_text; [apply a_text; [apply (trimmed_ex _ _ u v); [reflexivity|repeat constructor|repeat constructor|cbn; auto]|discriminate]|].
    apply cont_skip; [eapply a_comment; reflexivity|].
    txt (@nil Z) [32%Z]. txt [32%Z; 32%Z] (@nil Z). txt (@nil Z) (@nil Z). txt (@nil Z) [32%Z]. txt (@nil Z) (@nil Z). txt (@nil Z) (@nil Z). txt (@nil Z) (@nil Z). txt (@nil Z) (@nil Z).
    constructor.
  - split.
    + repeat (apply Forall2_cons; [eexists; reflexivity|]). apply Forall2_nil.
    + exists [DM], [EX], [NT; MS]. split; [reflexivity|]. split; [|split].
      * split; [repeat (apply Forall_cons; [in_list|]); apply Forall_nil|]. cnt. lia.
      * split; [repeat (apply Forall_cons; [in_list|]); apply Forall_nil|]. left; in_list.
      * split; [repeat (apply Forall_cons; [in_list|]); apply Forall_nil|]. cnt. lia.
Qed.
