From Coq Require Import ZArith List Bool Reals Lra Lia.
From Verif Require Import Types Lang LangProofs BBox Grid Setup StepShape Media Medium SpecMedium MediumProofs Debye.
Import ListNotations.
Open Scope R_scope.

Section D.
Variables eps0 dt : R.
Variable beta : Fld -> Z -> Z -> Z -> R.
Notation body := (debyeBody eps0 dt beta).

Lemma at4_same {T} f i j k (v : T) g : at4 f i j k v g f i j k = v.
Proof. unfold at4. rewrite (proj2 (fld_eqb_spec f f) eq_refl), !Z.eqb_refl. reflexivity. Qed.
Lemma at4_other {T} f i j k (v : T) g f' i' j' k' : (f', i', j', k') <> (f, i, j, k) -> at4 f i j k v g f' i' j' k' = g f' i' j' k'.
Proof.
  intros N. unfold at4. destruct (fld_eqb f' f) eqn:E; cbn [andb]; [|reflexivity]. apply fld_eqb_spec in E.
  destruct (Z.eqb_spec i' i); cbn [andb]; [|reflexivity]. destruct (Z.eqb_spec j' j); cbn [andb]; [|reflexivity].
  destruct (Z.eqb_spec k' k); cbn [andb]; [|reflexivity]. exfalso. apply N. congruence.
Qed.
Lemma atB_same {T} b (v : T) g : atB b v g b = v.
Proof. unfold atB. rewrite Nat.eqb_refl. reflexivity. Qed.
Lemma atB_other {T} b (v : T) g b' : b' <> b -> atB b v g b' = g b'.
Proof. intros N. unfold atB. destruct (Nat.eqb_spec b' b); [contradiction|reflexivity]. Qed.

Definition same_at (f : Fld) (i j k : Z) (s s' : DState) : Prop :=
  sE s' f i j k = sE s f i j k /\ (forall b, sJ s' b f i j k = sJ s b f i j k /\ sL s' b f i j k = sL s b f i j k).
Lemma body_frame b blk st f i j k p : p <> (f, i, j, k) -> same_at f i j k st (body b blk st p).
Proof.
  destruct p as [[[f' i'] j'] k']. intros N. unfold debyeBody, same_at. cbn [sE sJ sL].
  rewrite at4_other by congruence. split; [reflexivity|]. intros b'.
  destruct (Nat.eq_dec b' b) as [->|NB].
  - rewrite !atB_same, !at4_other by congruence. auto.
  - rewrite !atB_other by auto. auto.
Qed.
Lemma fold_frame b blk ps f i j k : forall st, ~ In (f, i, j, k) ps -> same_at f i j k st (fold_left (body b blk) ps st).
Proof.
  induction ps as [|p ps IH]; intros st N; cbn [fold_left].
  - unfold same_at. auto.
  - pose proof (body_frame b blk st f i j k p) as [H1 H2]; [intros X; apply N; simpl; auto|].
    destruct (IH (body b blk st p)) as [H3 H4]; [intros X; apply N; simpl; auto|].
    unfold same_at. split; [congruence|]. intros b'. destruct (H2 b'), (H4 b'). split; congruence.
Qed.

(** effect of one body at its own point *)
Definition newE (blk : DBlock) (b : nat) (st : DState) f i j k : R :=
  sE st f i j k - beta f i j k * re (Jsum dt (db_poles blk) (sJ st b f i j k)).
Definition newJ (blk : DBlock) (b : nat) (st : DState) f i j k : list Cx :=
  map (fun pj => cadd (cmul (dalpha dt (fst pj)) (snd pj))
     (cmul (dbeta eps0 dt (fst pj)) (cxR (newE blk b st f i j k - sL st b f i j k)))) (combine (db_poles blk) (sJ st b f i j k)).
Definition upd_at b blk f i j k (s s' : DState) : Prop :=
  sE s' f i j k = newE blk b s f i j k /\ sJ s' b f i j k = newJ blk b s f i j k /\ sL s' b f i j k = newE blk b s f i j k /\
  (forall b', b' <> b -> sJ s' b' f i j k = sJ s b' f i j k /\ sL s' b' f i j k = sL s b' f i j k).
Lemma body_at b blk st f i j k : upd_at b blk f i j k st (body b blk st (f, i, j, k)).
Proof.
  unfold upd_at, debyeBody. cbn [sE sJ sL]. rewrite !atB_same, !at4_same. repeat split; rewrite atB_other by auto; reflexivity.
Qed.
Lemma fold_at b blk ps f i j k : forall st, NoDup ps -> In (f, i, j, k) ps -> upd_at b blk f i j k st (fold_left (body b blk) ps st).
Proof.
  induction ps as [|p ps IH]; intros st N I; [destruct I|]. inversion N as [|? ? N1 N2]; subst. cbn [fold_left].
  destruct I as [->|I].
  - destruct (fold_frame b blk ps f i j k (body b blk st (f, i, j, k)) N1) as [H1 H2].
    destruct (body_at b blk st f i j k) as (B1 & B2 & B3 & B4). unfold upd_at.
    destruct (H2 b) as [H3 H4]. rewrite H1, H3, H4. repeat split; auto; destruct (H2 b') as [X Y]; rewrite ?X, ?Y; apply B4; auto.
  - assert (NP : p <> (f, i, j, k)) by (intros ->; contradiction).
    destruct (body_frame b blk st f i j k p NP) as [F1 F2].
    destruct (IH (body b blk st p) N2 I) as (B1 & B2 & B3 & B4).
    destruct (F2 b) as [F3 F4]. unfold upd_at, newJ, newE in *. rewrite F1, F3 in *. rewrite F4 in *.
    repeat split; auto; destruct (B4 b' H) as [X Y]; destruct (F2 b') as [X' Y']; congruence.
Qed.

Lemma in_blockPoints blk f i j k : In (f, i, j, k) (blockPoints blk) <-> is_E f = true /\ inl (db_lim blk f) i j k.
Proof.
  unfold blockPoints, for_, inl. rewrite in_flat_map. split.
  - intros (g & G & H). apply in_flat_map in H. destruct H as (i' & I & H). apply in_flat_map in H. destruct H as (j' & J & H).
    apply in_flat_map in H. destruct H as (k' & K & [H|[]]). injection H as -> -> -> ->.
    apply in_zrange in I, J, K. split; [cbn in G; intuition (subst; reflexivity)|auto].
  - intros (E & I & J & K). exists f. split; [destruct f; try discriminate E; simpl; auto|].
    apply in_flat_map. exists i. split; [apply in_zrange; auto|]. apply in_flat_map. exists j. split; [apply in_zrange; auto|].
    apply in_flat_map. exists k. split; [apply in_zrange; auto|simpl; auto].
Qed.
Lemma NoDup_flat {X Y} (g : X -> list Y) l : NoDup l -> (forall x, In x l -> NoDup (g x)) ->
  (forall x x' y, In x l -> In x' l -> In y (g x) -> In y (g x') -> x = x') -> NoDup (flat_map g l).
Proof.
  induction l as [|a l IH]; intros N H1 H2; cbn [flat_map]; [constructor|]. inversion N; subst.
  apply NoDup_app_remove_l || idtac.
  assert (A : NoDup (flat_map g l)) by (apply IH; auto; [intros; apply H1; simpl; auto|intros; eapply H2; simpl; eauto]).
  assert (B : NoDup (g a)) by (apply H1; simpl; auto).
  assert (C : forall y, In y (g a) -> ~ In y (flat_map g l)).
  { intros y Y1 Y2. apply in_flat_map in Y2. destruct Y2 as (x & X1 & X2). assert (a = x) by (eapply H2; simpl; eauto). subst. contradiction. }
  clear - A B C. induction (g a) as [|y ys IHy]; [exact A|]. cbn [app]. inversion B; subst. constructor.
  - rewrite in_app_iff. intros [X1|X1]; [contradiction|]. apply (C y); simpl; auto.
  - apply IHy; auto. intros; apply C; simpl; auto.
Qed.
Lemma NoDup_blockPoints blk : NoDup (blockPoints blk).
Proof.
  unfold blockPoints, for_. apply NoDup_flat.
  - repeat constructor; simpl; intuition congruence.
  - intros f _. apply NoDup_flat; [apply NoDup_zrange| |].
    + intros i _. apply NoDup_flat; [apply NoDup_zrange| |].
      * intros j _. apply NoDup_flat; [apply NoDup_zrange| |].
        -- intros. repeat constructor. intros [].
        -- intros x x' y _ _ [<-|[]] [H|[]]. congruence.
      * intros x x' y _ _ H H'. apply in_flat_map in H, H'. destruct H as (? & _ & [<-|[]]), H' as (? & _ & [H'|[]]). congruence.
    + intros x x' y _ _ H H'. apply in_flat_map in H, H'. destruct H as (? & _ & H), H' as (? & _ & H').
      apply in_flat_map in H, H'. destruct H as (? & _ & [<-|[]]), H' as (? & _ & [H'|[]]). congruence.
  - intros x x' y _ _ H H'. apply in_flat_map in H, H'. destruct H as (? & _ & H), H' as (? & _ & H').
    apply in_flat_map in H, H'. destruct H as (? & _ & H), H' as (? & _ & H').
    apply in_flat_map in H, H'. destruct H as (? & _ & [<-|[]]), H' as (? & _ & [H'|[]]). congruence.
Qed.

Definition coveredBy (f : Fld) (i j k : Z) (blk : DBlock) : Prop := is_E f = true /\ inl (db_lim blk f) i j k.
Lemma from_frame f i j k : forall blks b st, (forall blk, In blk blks -> ~ coveredBy f i j k blk) ->
  same_at f i j k st (updateDebyeFrom eps0 dt beta b blks st).
Proof.
  induction blks as [|blk blks IH]; intros b st H; cbn [updateDebyeFrom]; [unfold same_at; auto|].
  destruct (fold_frame b blk (blockPoints blk) f i j k st) as [H1 H2].
  { intros X. apply in_blockPoints in X. apply (H blk); simpl; auto. }
  destruct (IH (S b) (updateBlock eps0 dt beta b blk st)) as [H3 H4]; [intros; apply H; simpl; auto|].
  unfold same_at, updateBlock in *. split; [congruence|]. intros b'. destruct (H2 b'), (H4 b'). split; congruence.
Qed.
(** A point of exactly one Debye block, number [n]. *)
Definition only (f : Fld) (i j k : Z) (blks : list DBlock) (n : nat) (blk : DBlock) : Prop :=
  nth_error blks n = Some blk /\ coveredBy f i j k blk /\
  (forall n' blk', nth_error blks n' = Some blk' -> coveredBy f i j k blk' -> n' = n).
Lemma from_at f i j k : forall blks b n blk st, only f i j k blks n blk ->
  upd_at (b + n) blk f i j k st (updateDebyeFrom eps0 dt beta b blks st).
Proof.
  induction blks as [|blk0 blks IH]; intros b n blk st (H1 & H2 & H3); [destruct n; discriminate H1|].
  cbn [updateDebyeFrom]. destruct n as [|n].
  - cbn in H1. injection H1 as ->. rewrite Nat.add_0_r.
    destruct (fold_at b blk (blockPoints blk) f i j k st (NoDup_blockPoints blk)) as (B1 & B2 & B3 & B4); [apply in_blockPoints; exact H2|].
    destruct (from_frame f i j k blks (S b) (updateBlock eps0 dt beta b blk st)) as [F1 F2].
    { intros blk' I C. apply In_nth_error in I. destruct I as [n' I]. specialize (H3 (S n') blk' I C). discriminate H3. }
    unfold upd_at, updateBlock in *. destruct (F2 b) as [F3 F4]. rewrite F1, F3, F4.
    repeat split; auto; destruct (F2 b') as [X Y]; rewrite ?X, ?Y; apply B4; auto.
  - cbn in H1. destruct (fold_frame b blk0 (blockPoints blk0) f i j k st) as [F1 F2].
    { intros X. apply in_blockPoints in X. specialize (H3 0%nat blk0 eq_refl X). discriminate H3. }
    assert (O : only f i j k blks n blk).
    { split; [exact H1|]. split; [exact H2|]. intros n' blk' I C. specialize (H3 (S n') blk' I C). lia. }
    destruct (IH (S b) n blk (updateBlock eps0 dt beta b blk0 st) O) as (B1 & B2 & B3 & B4).
    replace (S b + n)%nat with (b + S n)%nat in * by lia. unfold upd_at, newJ, newE, updateBlock in *.
    destruct (F2 (b + S n)%nat) as [F3 F4]. rewrite F1, F3 in *. rewrite F4 in *.
    repeat split; auto; destruct (B4 b' H) as [X Y]; destruct (F2 b') as [X' Y']; congruence.
Qed.

(** ** Algebra of one point *)
Lemma re_Jsum_acc ps : forall js acc, re (fold_left (fun s pj => cadd s (cmul (cadd (cxR 1) (dalpha dt (fst pj))) (snd pj))) (combine ps js) acc)
  = re acc + re (fold_left (fun s pj => cadd s (cmul (cadd (cxR 1) (dalpha dt (fst pj))) (snd pj))) (combine ps js) (cxR 0)).
Proof.
  induction ps as [|p ps IH]; intros [|z js] acc; cbn [combine fold_left]; try (cbn; lra).
  rewrite IH. rewrite (IH js (cadd (cxR 0) _)). cbn. lra.
Qed.
Lemma dsum_acc ps : forall a, fold_left (fun sum p => sum + re (dbeta eps0 dt p)) ps a = a + dsum eps0 dt ps.
Proof.
  unfold dsum. induction ps as [|p ps IH]; intros a; cbn [fold_left]; [lra|]. rewrite IH, (IH (0 + _)). lra.
Qed.
Definition nextJ (ps : list Pole) (js : list Cx) (d : R) : list Cx :=
  map (fun pj => cadd (cmul (dalpha dt (fst pj)) (snd pj)) (cmul (dbeta eps0 dt (fst pj)) (cxR d))) (combine ps js).
Lemma current_sum d : forall ps js, length ps = length js ->
  pair_current js + pair_current (nextJ ps js d) = 2 * (re (Jsum dt ps js) + dsum eps0 dt ps * d).
Proof.
  induction ps as [|p ps IH]; intros [|z js] HL; try discriminate HL.
  - unfold pair_current, Jsum, dsum. cbn. lra.
  - injection HL as HL. specialize (IH js HL).
    unfold Jsum in *. cbn [combine fold_left nextJ map pair_current fold_right fst snd].
    rewrite re_Jsum_acc. unfold dsum. cbn [fold_left]. rewrite dsum_acc.
    unfold pair_current, nextJ in IH.
    replace (re (cadd (cxR 0) (cmul (cadd (cxR 1) (dalpha dt p)) z))) with (re z + re (cmul (dalpha dt p) z)) by (cbn; ring).
    replace (re (cadd (cmul (dalpha dt p) z) (cmul (dbeta eps0 dt p) (cxR d)))) with (re (cmul (dalpha dt p) z) + re (dbeta eps0 dt p) * d) by (cbn; ring).
    lra.
Qed.
Lemma nextJ_length ps js d : length ps = length js -> length (nextJ ps js d) = length ps.
Proof. intros H. unfold nextJ. rewrite map_length, combine_length. lia. Qed.

Lemma pole_law_next p z d E E' : pden dt p <> 0 -> dt <> 0 -> d = E' - E ->
  pole_law eps0 dt p z (cadd (cmul (dalpha dt p) z) (cmul (dbeta eps0 dt p) (cxR d))) E E'.
Proof.
  intros N T ->. unfold pole_law, dalpha, dbeta, cdiv. fold (pden dt p).
  destruct p as [[r s] [a b]], z as [x y]. unfold pden, cnorm2 in *. cbn [p_residue p_pole re im cadd csub cmul cxR] in *.
  replace 0.5 with (/2) in * by lra.
  set (D := (1 - (/2 * dt * a - 0 * b)) * (1 - (/2 * dt * a - 0 * b)) + (0 - (/2 * dt * b + 0 * a)) * (0 - (/2 * dt * b + 0 * a))) in *.
  assert (DD : D = 1 - dt * a + dt * dt * a * a / 4 + dt * dt * b * b / 4) by (unfold D; field).
  clearbody D. unfold cmul, csub, cadd, cxR; cbn [re im].
  f_equal.
  - apply (Rmult_eq_reg_r (dt * D)); [|apply Rmult_integral_contrapositive_currified; auto].
    field_simplify; auto. rewrite DD. field.
  - apply (Rmult_eq_reg_r (dt * D)); [|apply Rmult_integral_contrapositive_currified; auto].
    field_simplify; auto. rewrite DD. field.
Qed.
End D.
