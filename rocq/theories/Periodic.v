(** Periodic faces: proofs. *)
From Coq Require Import ZArith List Bool Lia.
From Verif Require Import Types Lang LangProofs BBox Grid SpecGrid Pml Mur Ghost Step StepShape StepBounds StepCount StepOnce
  SpecCone StepValue GhostValue StepClosed SpecWalls.
Import ListNotations.
Open Scope Z_scope.
Local Arguments Z.mul : simpl never.
Local Arguments Z.add : simpl never.
Local Arguments Z.sub : simpl never.

Section Per.
Context {V : Type} (A : Arith V).
Variable c : Cfg.
Hypothesis W : wf c.
Hypothesis NL : forall F, active (outerSurfaceType c F) = true.
Variable a : Axis.
Hypothesis PLO : outerSurfaceType c (face_lo a) = BT_PERIODIC.
Hypothesis PHI : outerSurfaceType c (face_hi a) = BT_PERIODIC.
Notation lo := (gobox c (face_lo a)). Notation hi := (gobox c (face_hi a)).

Lemma wa_setc x b n l : wa x (setc b n l) = setc b n (wa x l).
Proof. destruct b; reflexivity. Qed.
Lemma coord_wa x b l : coord b (wa x l) = coord b l.
Proof. destruct b; reflexivity. Qed.
Lemma wa_wa x y l : wa x (wa y l) = wa x l. Proof. reflexivity. Qed.

Lemma face_cases b : face_axis (face_lo b) = b /\ face_axis (face_hi b) = b.
Proof. destruct b; split; reflexivity. Qed.
Lemma hi_gt b : gobox c (face_lo b) + 1 <= gobox c (face_hi b).
Proof. pose proof (extents_arith c b). pose proof (wf_lines c W b). pose proof (layers_ge0 c (face_lo b) W). pose proof (layers_ge0 c (face_hi b) W). lia. Qed.
Lemma src_inside F : gobox c (face_lo (face_axis F)) <= srcIdx c F <= gobox c (face_hi (face_axis F)) - 1.
Proof.
  pose proof (hi_gt (face_axis F)). unfold srcIdx, wrapIdx, insideIdx.
  destruct F; cbn [is_lo face_axis face_lo face_hi] in *; match goal with |- context [outerSurfaceType c ?x] => destruct (outerSurfaceType c x) end; lia.
Qed.
Lemma ghostIdx_lo b : ghostIdx c (face_lo b) = gobox c (face_lo b) - 1.
Proof. destruct b; reflexivity. Qed.
Lemma ghostIdx_hi b : ghostIdx c (face_hi b) = gobox c (face_hi b).
Proof. destruct b; reflexivity. Qed.
Lemma carriedH b F l : b <> face_axis F -> carried false F (wa (AF (Hfld b)) l).
Proof. intros N. exists (Hfld b). repeat split; destruct b; try reflexivity; destruct F; reflexivity || (exfalso; apply N; reflexivity). Qed.

(** the planes of the normal H agree on the ghost cells too *)
Lemma ghost_ext m b (P : Loc -> Prop) : pstate A c a m -> b <> a ->
  (forall l, P l -> forall d, d <> b -> gobox c (face_lo d) - 1 <= coord d l <= gobox c (face_hi d)) ->
  (forall l n, P l -> P (setc b n l)) ->
  (forall l, P l -> gobox c (face_lo b) <= coord b l <= gobox c (face_hi b) - 1 ->
     m (wa (AF (Hfld a)) (setc a lo l)) = m (wa (AF (Hfld a)) (setc a hi l))) ->
  forall l, P l -> gobox c (face_lo b) - 1 <= coord b l <= gobox c (face_hi b) ->
     m (wa (AF (Hfld a)) (setc a lo l)) = m (wa (AF (Hfld a)) (setc a hi l)).
Proof.
  intros PS NB HR HS H l Pl Hl.
  destruct (face_cases b) as [A1 A2].
  assert (GO : forall F, face_axis F = b -> coord b l = ghostIdx c F -> 
     m (wa (AF (Hfld a)) (setc a lo l)) = m (wa (AF (Hfld a)) (setc a hi l))).
  { intros F AF_ CG.
    assert (X : forall n, gobox c (face_lo a) - 1 <= n <= gobox c (face_hi a) ->
       m (wa (AF (Hfld a)) (setc a n l)) = sgn A (outerSurfaceType c F) (m (wa (AF (Hfld a)) (setc a n (setc b (srcIdx c F) l))))).
    { intros n Hn. pose proof (ps_g A c a m PS F (NL F) (wa (AF (Hfld a)) (setc a n l))) as R.
      rewrite AF_ in R. rewrite <- !wa_setc in R. 
      rewrite !(setc_comm b a _ _ l NB) in R. rewrite <- CG, setc_same in R. apply R.
      - apply carriedH. congruence.
      - intros d Nd. rewrite coord_wa. destruct (axis_dec d a) as [->|Nda]; [rewrite coord_setc; exact Hn|].
        rewrite coord_setc_other by auto. apply HR; auto. }
    pose proof (hi_gt a). rewrite !X by lia. f_equal. apply H; [apply HS; auto|].
    rewrite coord_setc. pose proof (src_inside F). rewrite AF_ in *. lia. }
  destruct (Z.eq_dec (coord b l) (gobox c (face_lo b) - 1)) as [E|N1].
  { apply (GO (face_lo b)); auto. rewrite ghostIdx_lo. exact E. }
  destruct (Z.eq_dec (coord b l) (gobox c (face_hi b))) as [E|N2].
  { apply (GO (face_hi b)); auto. rewrite ghostIdx_hi. exact E. }
  apply H; auto. lia.
Qed.

Lemma other_axis b d : b <> a -> d <> a -> d <> b -> forall e, e <> a -> e = b \/ e = d.
Proof. destruct a, b, d; try congruence; intros _ _ _ []; auto; congruence. Qed.

Lemma planeH m l : pstate A c a m -> (forall d, d <> a -> gobox c (face_lo d) - 1 <= coord d l <= gobox c (face_hi d)) ->
  m (wa (AF (Hfld a)) (setc a lo l)) = m (wa (AF (Hfld a)) (setc a hi l)).
Proof.
  intros PS HR. pose proof (hi_gt a) as HG.
  (* replace the coordinate along a by lo: it does not matter *)
  rewrite <- (setc_setc a lo lo l), <- (setc_setc a hi lo l).
  assert (HR' : forall d, gobox c (face_lo d) - 1 <= coord d (setc a lo l) <= gobox c (face_hi d)).
  { intros d. destruct (axis_dec d a) as [->|N]; [rewrite coord_setc; lia|rewrite coord_setc_other by auto; auto]. }
  clear HR. revert HR'. generalize (setc a lo l). clear l. intros l HR.
  set (b := nx a). set (d := nx b).
  assert (N1 : b <> a) by (destruct a; discriminate). assert (N2 : d <> a) by (destruct a; discriminate).
  assert (N3 : d <> b) by (destruct a; discriminate).
  pose proof (hi_gt b) as HB. pose proof (hi_gt d) as HD.
  apply (ghost_ext m d (fun l => forall e, e <> d -> gobox c (face_lo e) - 1 <= coord e l <= gobox c (face_hi e))); auto.
  { intros l0 n H0 e Ne. rewrite coord_setc_other by auto. auto. }
  intros l0 H0 Hd.
  apply (ghost_ext m b (fun l => (forall e, e <> b -> gobox c (face_lo e) - 1 <= coord e l <= gobox c (face_hi e)) /\
      gobox c (face_lo d) <= coord d l <= gobox c (face_hi d) - 1)); auto.
  - intros l1 [H1 _]. exact H1.
  - intros l1 n [H1 H1']. split; [intros e Ne; rewrite coord_setc_other by auto; auto|]. rewrite coord_setc_other by auto; auto.
  - intros l1 [_ H1] H2. apply (ps_H A c a m PS). intros e Ne. destruct (other_axis b d N1 N2 N3 e Ne) as [->| ->]; auto.
  - split; [|exact Hd]. intros e Ne. destruct (axis_dec e d) as [->|Ned]; [lia|auto].
Qed.

Notation stp := (step A c).
Lemma inp_E b l : (forall d, gobox c (face_lo d) <= coord d l <= gobox c (face_hi d) - (if axis_eqb d b then 1 else 0)) ->
  inp (gfolim c (Efld b)) l.
Proof.
  intros H. pose proof (H XDIR) as HX1. pose proof (H YDIR) as HY1. pose proof (H ZDIR) as HZ1.
  unfold inp, inl, gfolim, setFieldLimits.
  destruct b; cbn [Efld fieldIsInBoundary axis_eqb coord face_lo face_hi] in *; lia.
Qed.
Lemma inp_H b l : (forall d, gobox c (face_lo d) <= coord d l <= gobox c (face_hi d) - (if axis_eqb d b then 0 else 1)) ->
  inp (gfolim c (Hfld b)) l.
Proof.
  intros H. pose proof (H XDIR) as HX1. pose proof (H YDIR) as HY1. pose proof (H ZDIR) as HZ1.
  unfold inp, inl, gfolim, setFieldLimits.
  destruct b; cbn [Hfld fieldIsInBoundary axis_eqb coord face_lo face_hi] in *; lia.
Qed.
Lemma axis_eqb_refl b : axis_eqb b b = true. Proof. destruct b; reflexivity. Qed.
Lemma axis_eqb_ne b d : b <> d -> axis_eqb b d = false. Proof. destruct b, d; congruence || reflexivity. Qed.

(** tangential H on the two sides of the wrapped planes *)
Lemma wrapH m b l : pstate A c a m -> b <> a -> (forall d, d <> a -> gobox c (face_lo d) - 1 <= coord d l <= gobox c (face_hi d)) ->
  m (wa (AF (Hfld b)) (setc a (lo - 1) l)) = m (wa (AF (Hfld b)) (setc a (hi - 1) l)) /\
  m (wa (AF (Hfld b)) (setc a hi l)) = m (wa (AF (Hfld b)) (setc a lo l)).
Proof.
  intros PS NB HR. destruct (face_cases a) as [A1 A2]. split.
  - pose proof (ps_g A c a m PS (face_lo a)) as R. unfold rel, srcIdx, wrapIdx in R. rewrite PLO, A1, ghostIdx_lo in R.
    specialize (R eq_refl (wa (AF (Hfld b)) l)). rewrite <- !wa_setc in R.
    replace (is_lo (face_lo a)) with true in R by (destruct a; reflexivity). apply R.
    + apply carriedH. congruence.
    + intros d Nd. rewrite coord_wa. auto.
  - pose proof (ps_g A c a m PS (face_hi a)) as R. unfold rel, srcIdx, wrapIdx in R. rewrite PHI, A2, ghostIdx_hi in R.
    specialize (R eq_refl (wa (AF (Hfld b)) l)). rewrite <- !wa_setc in R.
    replace (is_lo (face_hi a)) with false in R by (destruct a; reflexivity). apply R.
    + apply carriedH. congruence.
    + intros d Nd. rewrite coord_wa. auto.
Qed.

Lemma per_step m : pdata c a m -> pstate A c a m -> pdata c a (stp m) /\ pstate A c a (stp m).
Proof.
  intros PD PS. pose proof (hi_gt a) as HG.
  assert (DT : forall l, kind l = None -> stp m l = m l) by (intros; apply step_data; auto).
  split.
  { destruct PD as [D1 D2 D3 D4]. constructor; intros; rewrite !DT by reflexivity; auto. }
  assert (PE : forall b l, b <> a -> inE c a b l -> stp m (wa (AF (Efld b)) (setc a lo l)) = stp m (wa (AF (Efld b)) (setc a hi l))).
  { intros b l NB HI.
    assert (IN : forall n, n = lo \/ n = hi -> inp (gfolim c (Efld b)) (setc a n l)).
    { intros n Hn. apply inp_E. intros d. destruct (axis_dec d a) as [->|Nd].
      - rewrite coord_setc, (axis_eqb_ne a b) by congruence. lia.
      - rewrite coord_setc_other by auto. apply HI; auto. }
    rewrite !(stc_E A c W NL) by (apply IN; auto).
    rewrite (pd_a c a m PD), (pd_b c a m PD), (ps_E A c a m PS) by auto. f_equal. f_equal.
    set (b1 := nx b). set (d1 := nx b1).
    assert (EX1 : a = b1 \/ a = d1) by (destruct a, b; try congruence; cbn; auto).
    assert (RNG : forall d, d <> a -> gobox c (face_lo d) - 1 <= coord d l <= gobox c (face_hi d)).
    { intros d Nd. specialize (HI d Nd). destruct (axis_eqb d b); lia. }
    assert (RNGD : forall e, e <> b -> e <> a -> forall d, d <> a -> gobox c (face_lo d) - 1 <= coord d (dec e l) <= gobox c (face_hi d)).
    { intros e Neb Nea d Nd. unfold dec. destruct (axis_dec d e) as [->|N].
      - rewrite coord_setc. specialize (HI e Nea). rewrite axis_eqb_ne in HI by auto. lia.
      - rewrite coord_setc_other by auto. auto. }
    unfold curlH. fold b1. fold d1.
    assert (NB1 : b1 <> b) by (destruct b; discriminate). assert (ND1 : d1 <> b) by (destruct b; discriminate).
    assert (NBD : d1 <> b1) by (destruct b; discriminate).
    assert (DECA : forall n, dec a (setc a n l) = setc a (n - 1) l) by (intros; unfold dec; rewrite coord_setc, setc_setc; reflexivity).
    assert (DECO : forall e n, e <> a -> dec e (setc a n l) = setc a n (dec e l))
      by (intros e n Ne; unfold dec; rewrite coord_setc_other by auto; apply setc_comm; auto).
    destruct EX1 as [Ea|Ea].
    - rewrite <- Ea in *. rewrite !coord_setc, !DECA, !(DECO d1) by auto.
      rewrite !(coord_setc_other d1 a) by auto.
      destruct (wrapH m d1 l PS ltac:(auto) RNG) as [R1 R2].
      rewrite R1, R2. rewrite (planeH m l PS RNG). rewrite (planeH m (dec d1 l) PS) by (apply RNGD; auto).
      rewrite (pd_d c a m PD). reflexivity.
    - rewrite <- Ea in *. rewrite !coord_setc, !DECA, !(DECO b1) by auto.
      rewrite !(coord_setc_other b1 a) by auto.
      destruct (wrapH m b1 l PS ltac:(auto) RNG) as [R1 R2].
      rewrite R1, R2. rewrite (planeH m l PS RNG). rewrite (planeH m (dec b1 l) PS) by (apply RNGD; auto).
      rewrite (pd_d c a m PD). reflexivity. }
  constructor; [exact PE| |intros F; apply stc_rel; auto].
  intros l HI.
  set (b := nx a). set (d := nx b).
  assert (N1 : b <> a) by (destruct a; discriminate). assert (N2 : d <> a) by (destruct a; discriminate).
  assert (N3 : d <> b) by (destruct a; discriminate).
  assert (IN : forall n, n = lo \/ n = hi -> inp (gfolim c (Hfld a)) (setc a n l)).
  { intros n Hn. apply inp_H. intros e. destruct (axis_dec e a) as [->|Ne].
    - rewrite coord_setc, axis_eqb_refl. lia.
    - rewrite coord_setc_other, axis_eqb_ne by auto. apply HI; auto. }
  rewrite !(stc_H A c W NL) by (apply IN; auto).
  rewrite (ps_H A c a m PS), (pd_g c a m PD) by auto. f_equal. f_equal. unfold curlE. fold b. fold d.
  rewrite !(coord_setc_other b a), !(coord_setc_other d a) by auto.
  assert (INCO : forall e n, e <> a -> inc e (setc a n l) = setc a n (inc e l))
      by (intros e n Ne; unfold inc; rewrite coord_setc_other by auto; apply setc_comm; auto).
  rewrite !(INCO b), !(INCO d) by auto.
  assert (R1 : forall e, e <> a -> inE c a e l).
  { intros e Ne x Nx. specialize (HI x Nx). destruct (axis_eqb x e); lia. }
  assert (R2 : forall e x, e <> a -> x <> a -> x <> e -> inE c a e (inc x l)).
  { intros e x Ne Nx Nxe y Ny. unfold inc. destruct (axis_dec y x) as [->|Nyx].
    - rewrite coord_setc, axis_eqb_ne by auto. specialize (HI x Nx). lia.
    - rewrite coord_setc_other by auto. specialize (HI y Ny). destruct (axis_eqb y e); lia. }
  rewrite (PE b l), (PE d l), (PE b (inc d l)), (PE d (inc b l)) by auto. reflexivity.
Qed.
End Per.
