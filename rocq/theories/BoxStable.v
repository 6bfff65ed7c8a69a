(** Stability of the time stepping in a closed passive box: proofs. *)
From Coq Require Import ZArith List Bool Lia Reals Lra.
From Verif Require Import Types Lang LangProofs BBox Grid SpecGrid Ghost Step StepShape StepBounds StepCount StepOnce
  SpecCone StepValue SpecPhys SpecEnergy Energy Stable SpecStable StableStep GhostValue StepClosed PmlValue SpecPeriodic PeriodicAll
  SpecBox BoxEnergy BoxCurl.
Import ListNotations.
Open Scope R_scope.
Local Arguments Z.mul : simpl never.
Local Arguments Z.add : simpl never.
Local Arguments Z.sub : simpl never.
Notation curlH := StableStep.curlH. Notation curlE := StableStep.curlE.

(** [g] at (i,j,k) with the coordinate along [a] replaced by [n] *)
Definition put (g : Z -> Z -> Z -> R) (a : Axis) (n i j k : Z) : R :=
  match a with XDIR => g n j k | YDIR => g i n k | ZDIR => g i j n end.
Definition crd (a : Axis) (i j k : Z) : Z := match a with XDIR => i | YDIR => j | ZDIR => k end.
(** fields that fit the walls *)
Record fits (c : Cfg) (e : FF) : Prop := {
  ft_pec : forall F f i j k, outerSurfaceType c F = BT_PEC -> is_E f = true -> inl (gfolim c f) i j k -> in_wall c F f i j k -> e f i j k = 0;
  ft_per : forall a f i j k, outerSurfaceType c (face_lo a) = BT_PERIODIC -> is_E f = true -> fld_axis f <> a -> sample c a f (L (AF f) i j k) ->
    put (e f) a (gobox c (face_lo a)) i j k = put (e f) a (gobox c (face_hi a)) i j k }.
(** continuation of a normal component by one cell *)
Definition extn (c : Cfg) (a : Axis) (g : Z -> R) (n : Z) : R :=
  let lo := gobox c (face_lo a) in let hi := gobox c (face_hi a) in
  if (n =? lo - 1)%Z then match outerSurfaceType c (face_lo a) with BT_PMC => - g lo | BT_PERIODIC => g (hi - 1)%Z | _ => g lo end
  else if (n =? hi)%Z then match outerSurfaceType c (face_hi a) with BT_PMC => - g (hi - 1)%Z | BT_PERIODIC => g lo | _ => g (hi - 1)%Z end
  else g n.
Definition ext (c : Cfg) (e : FF) (f : Fld) (i j k : Z) : R :=
  extn c (fld_axis f) (fun n => put (e f) (fld_axis f) n i j k) (crd (fld_axis f) i j k).
Lemma extn_in c a g n : (gobox c (face_lo a) <= n < gobox c (face_hi a))%Z -> extn c a g n = g n.
Proof.
  intros H. unfold extn. replace (n =? gobox c (face_lo a) - 1)%Z with false by (symmetry; apply Z.eqb_neq; lia).
  replace (n =? gobox c (face_hi a))%Z with false by (symmetry; apply Z.eqb_neq; lia). reflexivity.
Qed.

Section BoxStable.
Variable c : Cfg.
Hypothesis W : wf c.
Hypothesis CL : forall F, outerSurfaceType c F = BT_PEC \/ outerSurfaceType c F = BT_PMC \/ outerSurfaceType c F = BT_PERIODIC.
Notation stp := (step rArith c).

Lemma same_boxvol m m' f i j k : same_data m m' -> boxvol c m' f i j k = boxvol c m f i j k.
Proof. intros S. unfold boxvol, din, de, dh. destruct f; cbn [is_E axis_eqb fld_axis]; rewrite !S by reflexivity; reflexivity. Qed.
Lemma same_stp m : same_data m (stp m). Proof. apply same_step. Qed.

Lemma din_eq m a n : din c m a n = wt (gobox c (face_lo a)) (gobox c (face_hi a)) n * dh m a n.
Proof. unfold din, wt. destruct (_ || _)%bool; lra. Qed.

Lemma per_hi a : outerSurfaceType c (face_lo a) = BT_PERIODIC -> outerSurfaceType c (face_hi a) = BT_PERIODIC.
Proof. intros P. pose proof (wf_periodic c W _ P) as Q. destruct a; exact Q. Qed.
Lemma per_lo a : outerSurfaceType c (face_hi a) = BT_PERIODIC -> outerSurfaceType c (face_lo a) = BT_PERIODIC.
Proof. intros P. pose proof (wf_periodic c W _ P) as Q. destruct a; exact Q. Qed.

(** a sample of [f], tangential to the faces of [a], placed in one of them *)
Lemma pec_put e a F f i j k : fits c e -> face_axis F = a -> outerSurfaceType c F = BT_PEC -> is_E f = true -> fld_axis f <> a ->
  sample c a f (L (AF f) i j k) -> put (e f) a (gobox c F) i j k = 0.
Proof.
  intros FT FA T E N SA. pose proof (bx_ge c W CL a) as G.
  assert (X : forall i j k, inl (gfolim c f) i j k -> in_wall c F f i j k -> e f i j k = 0) by (intros; eapply ft_pec; eauto).
  unfold sample, inp, inl, gfolim, setFieldLimits in SA. unfold put.
  destruct a; apply X; try (split; [rewrite FA; exact N|rewrite FA; reflexivity]);
  unfold inl, gfolim, setFieldLimits; destruct F; try discriminate FA; destruct f; try discriminate E; cbn [fld_axis] in N; try congruence;
  cbn [setc li lj lk fieldIsInBoundary face_lo face_hi] in *; lia.
Qed.
(** a product of a tangential E and the sum of a quantity on the two sides of the wall *)
Lemma wall_prod e a f i j k (h : Z -> R) : fits c e -> is_E f = true -> fld_axis f <> a -> sample c a f (L (AF f) i j k) ->
  let lo := gobox c (face_lo a) in let hi := gobox c (face_hi a) in
  (outerSurfaceType c (face_lo a) = BT_PMC -> h (lo - 1)%Z = - h lo) -> (outerSurfaceType c (face_hi a) = BT_PMC -> h hi = - h (hi - 1)%Z) ->
  (outerSurfaceType c (face_lo a) = BT_PERIODIC -> h (lo - 1)%Z = h (hi - 1)%Z /\ h hi = h lo) ->
  put (e f) a hi i j k * (h hi + h (hi - 1)%Z) = put (e f) a lo i j k * (h lo + h (lo - 1)%Z).
Proof.
  intros FT E N SA lo hi M1 M2 M3.
  assert (FA : face_axis (face_lo a) = a /\ face_axis (face_hi a) = a) by (destruct a; auto). destruct FA as [FL FH].
  destruct (CL (face_lo a)) as [T|[T|T]].
  1,2: assert (Z1 : put (e f) a lo i j k * (h lo + h (lo - 1)%Z) = 0) by
    first [unfold lo; rewrite (pec_put e a (face_lo a) f i j k) by auto; ring|rewrite (M1 T); ring]; rewrite Z1;
    (destruct (CL (face_hi a)) as [S|[S|S]];
      [unfold hi; rewrite (pec_put e a (face_hi a) f i j k) by auto; ring|rewrite (M2 S); ring|apply per_lo in S; congruence]).
  destruct (M3 T) as [-> ->]. pose proof (ft_per c e FT a f i j k T E N SA) as Q. fold lo hi in Q. rewrite Q. ring.
Qed.

Lemma fit_line m e a f g i j k : passive_box c m -> fits c e -> is_E f = true -> fld_axis f <> a ->
  is_E g = false -> fld_axis g <> a -> sample c a f (L (AF f) i j k) ->
  let lo := gobox c (face_lo a) in let hi := gobox c (face_hi a) in
  put (e f) a hi i j k * (put (fld m g) a hi i j k + put (fld m g) a (hi - 1) i j k) =
  put (e f) a lo i j k * (put (fld m g) a lo i j k + put (fld m g) a (lo - 1) i j k).
Proof.
  intros B1 FT E NF EG NG SA lo hi.
  assert (FA : face_axis (face_lo a) = a /\ face_axis (face_hi a) = a) by (destruct a; auto). destruct FA as [FL FH].
  assert (LH : is_lo (face_lo a) = true /\ is_lo (face_hi a) = false) by (destruct a; auto). destruct LH as [LO HI].
  assert (OK : okr c a (L (AF g) i j k)).
  { clear -SA E NF. intros b Nb. unfold sample, inp, inl, gfolim, setFieldLimits in SA.
    destruct a, b; try congruence; cbn [setc li lj lk coord face_lo face_hi] in *;
    repeat match type of SA with context [if ?x then _ else _] => destruct x end; lia. }
  assert (CA : forall F, face_axis F = a -> carried false F (L (AF g) i j k)).
  { intros F <-. exists g. repeat split; auto. destruct g, F; try discriminate EG; cbn [fld_axis face_axis] in NG; try congruence; reflexivity. }
  set (h := fun n => put (fld m g) a n i j k).
  assert (HE : forall n, m (setc a n (L (AF g) i j k)) = h n) by (intros; unfold h, put, fld; destruct a; reflexivity).
  assert (G : forall F, face_axis F = a -> h (ghostIdx c F) = sgn rArith (outerSurfaceType c F) (h (srcIdx c F))).
  { intros F <-. rewrite <- !HE. apply (pb_ghost c m B1 F (bx_act c CL F)); auto. }
  pose proof (G _ FL) as G1. pose proof (G _ FH) as G2. unfold ghostIdx, srcIdx, wrapIdx, insideIdx in G1, G2.
  rewrite FL, LO in G1. rewrite FH, HI in G2. fold lo hi in G1, G2.
  apply (wall_prod e a f i j k h FT E NF SA); fold lo hi.
  - intros T. rewrite T in G1. exact G1.
  - intros T. rewrite T in G2. exact G2.
  - intros T. rewrite T in G1. rewrite (per_hi a T) in G2. auto.
Qed.
Lemma sample_at a f i j k : (forall b, b <> a -> (gobox c (face_lo b) <= crd b i j k <=
     gobox c (face_hi b) - (if axis_eqb b (fld_axis f) then 1 else 0))%Z) -> is_E f = true -> fld_axis f <> a -> sample c a f (L (AF f) i j k).
Proof.
  intros HB E N. unfold sample, inp, inl, gfolim, setFieldLimits. pose proof (bx_ge c W CL a) as GE.
  pose proof (HB XDIR) as BX. pose proof (HB YDIR) as BY. pose proof (HB ZDIR) as BZ.
  destruct a, f; try discriminate E; cbn [fld_axis axis_eqb face_lo face_hi setc li lj lk fieldIsInBoundary crd] in *; try congruence;
  repeat match goal with H : ?x <> ?x -> _ |- _ => clear H | H : _ <> _ -> _ |- _ => specialize (H ltac:(discriminate)) end; lia.
Qed.

Lemma b_adjoint m (e : FF) : passive_box c m -> fits c e ->
  sumE c (fun f i j k => boxvol c m f i j k * (e f i j k * curlH m (fld m) f i j k)) +
  sumH c (fun f i j k => boxvol c m f i j k * (fld m f i j k * curlE m e f i j k)) = 0.
Proof.
  intros PC FT.
  assert (SA : forall a f i j k, (forall b, b <> a -> (gobox c (face_lo b) <= crd b i j k <=
     gobox c (face_hi b) - (if axis_eqb b (fld_axis f) then 1 else 0))%Z) -> is_E f = true -> fld_axis f <> a -> sample c a f (L (AF f) i j k)) by (apply sample_at).
  rewrite <- (box_adj c W CL m (fun a n Hn => proj2 (pb_de c m PC a n Hn)) (fun a n Hn => proj2 (pb_dh c m PC a n Hn))
    (e EX) (e EY) (e EZ) (fld m HX) (fld m HY) (fld m HZ)
    (fun i k Hi Hk => fit_line m e YDIR EX HZ i 0%Z k PC FT eq_refl ltac:(discriminate) eq_refl ltac:(discriminate) (SA YDIR EX i 0%Z k ltac:(intros [] Nb; try congruence; cbn [face_lo face_hi fld_axis axis_eqb crd]; lia) eq_refl ltac:(discriminate)))
    (fun i j Hi Hj => fit_line m e ZDIR EX HY i j 0%Z PC FT eq_refl ltac:(discriminate) eq_refl ltac:(discriminate) (SA ZDIR EX i j 0%Z ltac:(intros [] Nb; try congruence; cbn [face_lo face_hi fld_axis axis_eqb crd]; lia) eq_refl ltac:(discriminate)))
    (fun i j Hi Hj => fit_line m e ZDIR EY HX i j 0%Z PC FT eq_refl ltac:(discriminate) eq_refl ltac:(discriminate) (SA ZDIR EY i j 0%Z ltac:(intros [] Nb; try congruence; cbn [face_lo face_hi fld_axis axis_eqb crd]; lia) eq_refl ltac:(discriminate)))
    (fun j k Hj Hk => fit_line m e XDIR EY HZ 0%Z j k PC FT eq_refl ltac:(discriminate) eq_refl ltac:(discriminate) (SA XDIR EY 0%Z j k ltac:(intros [] Nb; try congruence; cbn [face_lo face_hi fld_axis axis_eqb crd]; lia) eq_refl ltac:(discriminate)))
    (fun j k Hj Hk => fit_line m e XDIR EZ HY 0%Z j k PC FT eq_refl ltac:(discriminate) eq_refl ltac:(discriminate) (SA XDIR EZ 0%Z j k ltac:(intros [] Nb; try congruence; cbn [face_lo face_hi fld_axis axis_eqb crd]; lia) eq_refl ltac:(discriminate)))
    (fun i k Hi Hk => fit_line m e YDIR EZ HX i 0%Z k PC FT eq_refl ltac:(discriminate) eq_refl ltac:(discriminate) (SA YDIR EZ i 0%Z k ltac:(intros [] Nb; try congruence; cbn [face_lo face_hi fld_axis axis_eqb crd]; lia) eq_refl ltac:(discriminate)))).
  unfold sumE, sumH. rewrite <- !Rplus_assoc.
  repeat match goal with |- _ + _ = _ + _ => apply f_equal2 end;
  match goal with |- sum3 ?l ?f = _ => change (sum3 l f) with (S3 (l XLO) (l XHI) (l YLO) (l YHI) (l ZLO) (l ZHI) f) end;
  unfold gfolim, setFieldLimits; cbn [fieldIsInBoundary]; reflexivity.
Qed.

Lemma boxvol_pos m f i j k : passive_box c m -> inl (gfolim c f) i j k -> 0 < boxvol c m f i j k.
Proof.
  intros PC H. pose proof (pb_de c m PC) as D. pose proof (pb_dh c m PC) as DH.
  assert (A : forall a n, (gobox c (face_lo a) <= n < gobox c (face_hi a))%Z -> 0 < de m a n) by (intros; apply D; auto).
  assert (B : forall a n, (gobox c (face_lo a) <= n <= gobox c (face_hi a))%Z -> 0 < din c m a n).
  { intros a n Hn. rewrite din_eq. apply Rmult_lt_0_compat; [apply wt_pos|apply DH; auto]. }
  unfold inl, gfolim, setFieldLimits in H.
  unfold boxvol. destruct f; cbn [is_E axis_eqb fld_axis]; cbn [fieldIsInBoundary] in H;
  repeat match goal with |- 0 < _ * _ => apply Rmult_lt_0_compat end; first [apply A; cbn [face_lo face_hi]; lia|apply B; cbn [face_lo face_hi]; lia].
Qed.
Lemma fits_fld m : passive_box c m -> fits c (fld m).
Proof.
  intros PC. constructor.
  - intros F f i j k T E H O. destruct (pb_E c m PC f i j k E H) as [(_ & _ & N)|[_ Z0]]; [destruct (N F T O)|exact Z0].
  - intros a f i j k P E N SA. destruct (pb_per c m PC a P) as [_ AG].
    assert (IF : in_face a f) by (unfold in_face; rewrite E; exact N).
    pose proof (AG f (L (AF f) i j k) IF SA) as Q. revert Q. unfold on, wa, put, fld. destruct a; cbn [setc li lj lk arr]; auto.
Qed.
Lemma fits_plus e e' : fits c e -> fits c e' -> fits c (fun f i j k => e f i j k + e' f i j k).
Proof.
  intros F1 F2. constructor.
  - intros F f i j k T E H O. rewrite (ft_pec c e F1 F), (ft_pec c e' F2 F) by auto. ring.
  - intros a f i j k P E N SA. pose proof (ft_per c e F1 a f i j k P E N SA) as Q1. pose proof (ft_per c e' F2 a f i j k P E N SA) as Q2.
    revert Q1 Q2. unfold put. destruct a; intros -> ->; reflexivity.
Qed.

Lemma pbox_step m : passive_box c m -> passive_box c (stp m).
Proof.
  intros [C1 C2 C3 C4 C5 C6 C7 C8 C9]. constructor; auto.
  - intros f i j k E H. destruct (same_coef m (stp m) f i j k (same_step c m)) as (-> & -> & _).
    destruct (C2 f i j k E H) as [X|[B Z0]]; [left; exact X|]. right. split; [exact B|].
    rewrite (bx_E c W CL) by auto. rewrite B, Z0. ring.
  - intros f i j k E H. destruct (same_coef m (stp m) f i j k (same_step c m)) as (_ & _ & ->). apply C3; auto.
  - intros. unfold de, ide. rewrite !bx_data by reflexivity. apply C4; auto.
  - intros. unfold dh, idh. rewrite !bx_data by reflexivity. apply C5; auto.
  - intros. unfold dh, de. rewrite !bx_data by reflexivity. apply C6; auto.
  - intros. unfold dh, de. rewrite !bx_data by reflexivity. apply C7; auto.
  - intros a P. destruct (C8 a P) as [PD FA]. pose proof (per_hi a P) as P2.
    destruct (per_step_all rArith c W a P P2 [] [] ltac:(intros s []) ltac:(intros s []) ltac:(intros s []) ltac:(intros s []) m PD
      (bx_pstate c CL m a FA C9)) as [PD' PS']. split; [exact PD'|]. apply PS'.
  - intros F. apply bx_ghost; auto.
Qed.
(** the electric and the magnetic part of the energy of arbitrary fields *)
Definition b_nE (m : mem R) (e : FF) : R := sumE c (fun f i j k => boxvol c m f i j k * eps_dt m f i j k * (e f i j k * e f i j k)).
Definition b_nH (m : mem R) (h : FF) : R := sumH c (fun f i j k => boxvol c m f i j k * mu_dt m f i j k * (h f i j k * h f i j k)).
(** the energy held by a state, seen between steps: minus <H, dt/mu curl E> *)
Definition b_stored (m : mem R) : R :=
  b_nE m (fld m) + b_nH m (fld m) - sumH c (fun f i j k => boxvol c m f i j k * (fld m f i j k * curlE m (fld m) f i j k)).
(** the energy lost in a step *)
Definition b_loss (m m' : mem R) : R := sumE c (fun f i j k => boxvol c m f i j k * sigma_half m f i j k *
  ((fld m f i j k + fld m' f i j k) * (fld m f i j k + fld m' f i j k))).
Lemma b_step_H m f i j k : is_E f = false -> inl (gfolim c f) i j k ->
  fld (stp m) f i j k = fld m f i j k + gamma m f i j k * curlE m (fld (stp m)) f i j k.
Proof.
  intros E H. rewrite (bx_H c W CL m f i j k E H) at 1. f_equal. f_equal. rewrite eval_curlE by auto.
  unfold curlE, ide. destruct f; try discriminate E; rewrite !bx_data by reflexivity; reflexivity.
Qed.
Lemma b_stored_step m : passive_box c m -> b_stored (stp m) = b_stored m - b_loss m (stp m).
Proof.
  intros PC. pose proof (pbox_step m PC) as PC1.
  set (m1 := stp m) in *. assert (S1 : same_data m m1) by apply (same_step c).
  pose proof (b_adjoint m (fun f i j k => fld m f i j k + fld m1 f i j k) PC (fits_plus _ _ (fits_fld m PC) (fits_fld m1 PC1))) as AD.
  cbn beta in AD.
  assert (X : b_nE m1 (fld m1) = b_nE m (fld m) +
    sumE c (fun f i j k => boxvol c m f i j k * ((fld m f i j k + fld m1 f i j k) * curlH m (fld m) f i j k)) + - b_loss m m1).
  { unfold b_nE, b_loss. rewrite <- sumE_opp, <- !sumE_plus. apply sumE_ext. intros f i j k E H.
    rewrite (same_boxvol m m1), (same_eps m m1) by auto.
    pose proof (bx_E c W CL m f i j k E H) as U. fold m1 in U. rewrite (eval_curlH m f i j k E) in U.
    destruct (same_coef m m1 f i j k S1) as (A1 & B1 & _).
    set (K := curlH m (fld m) f i j k) in *. set (x := fld m f i j k) in *. set (y := fld m1 f i j k) in *.
    destruct (pb_E c m PC f i j k E H) as [(A & B & _)|[B Z0]].
    - unfold eps_dt, sigma_half. set (al := alpha m f i j k) in *. set (be := beta m f i j k) in *. set (v := boxvol c m f i j k) in *.
      assert (K0 : K = (y - al * x) / be) by (rewrite U; field; lra). rewrite K0. field. lra.
    - rewrite U, B. replace x with 0 by (symmetry; exact Z0). ring. }
  assert (Y : b_nH m1 (fld m1) - sumH c (fun f i j k => boxvol c m1 f i j k * (fld m1 f i j k * curlE m1 (fld m1) f i j k)) =
    b_nH m (fld m) - sumH c (fun f i j k => boxvol c m f i j k * (fld m f i j k * curlE m (fld m) f i j k)) +
    sumH c (fun f i j k => boxvol c m f i j k * (fld m f i j k * curlE m (fun f i j k => fld m f i j k + fld m1 f i j k) f i j k))).
  { unfold Rminus, b_nH. rewrite <- !sumH_opp, <- !sumH_plus. apply sumH_ext. intros f i j k E H.
    rewrite (same_boxvol m m1), (same_mu m m1), (curlE_same m m1) by auto.
    pose proof (b_step_H m f i j k E H) as U. fold m1 in U.
    assert (CC : curlE m (fun f i j k => fld m f i j k + fld m1 f i j k) f i j k = curlE m (fld m) f i j k + curlE m (fld m1) f i j k).
    { unfold curlE. destruct f; try discriminate E; ring. }
    rewrite CC. unfold mu_dt. set (g := gamma m f i j k) in *. assert (G : 0 < g) by (apply (pb_H c m PC); auto).
    set (K1 := curlE m (fld m1) f i j k) in *. set (K0 := curlE m (fld m) f i j k) in *.
    rewrite U. field. lra. }
  unfold b_stored. unfold Rminus in *. rewrite X. rewrite Rplus_assoc, Y. lra.
Qed.
Lemma b_loss_nonneg m m' : passive_box c m -> same_data m m' -> passive_box c m' -> 0 <= b_loss m m'.
Proof.
  intros PC S PC'. apply sumE_nonneg. intros f i j k E H. pose proof (boxvol_pos m f i j k PC H) as V.
  destruct (pb_E c m PC f i j k E H) as [(A & B & _)|[B Z0]].
  - apply Rmult_le_pos; [|apply Rle_0_sqr]. apply Rmult_le_pos; [lra|]. unfold sigma_half, Rdiv. apply Rmult_le_pos; [lra|]. left. apply Rinv_0_lt_compat. lra.
  - destruct (pb_E c m' PC' f i j k E H) as [(_ & B' & _)|[_ Z1]].
    + destruct (same_coef m m' f i j k S) as (_ & Q & _). rewrite Q in B'. lra.
    + rewrite Z0, Z1. lra.
Qed.
(** between two steps: the product of H before and after *)
Lemma b_stored_leap m : passive_box c m -> b_stored (stp m) = boxLeapEnergy c m (stp m).
Proof.
  intros PC. set (m1 := stp m). assert (S1 : same_data m m1) by apply (same_step c).
  unfold b_stored, boxLeapEnergy. unfold Rminus. rewrite Rplus_assoc. apply f_equal2.
  - apply sumE_ext. intros f i j k E H. rewrite (same_boxvol m m1), (same_eps m m1) by auto. reflexivity.
  - unfold b_nH. rewrite <- sumH_opp, <- sumH_plus. apply sumH_ext. intros f i j k E H.
    rewrite (same_boxvol m m1), (same_mu m m1), (curlE_same m m1) by auto.
    pose proof (b_step_H m f i j k E H) as U. fold m1 in U. pose proof (pb_H c m PC f i j k E H) as G. unfold mu_dt.
    set (h := fld m1 f i j k) in *. set (K := curlE m (fld m1) f i j k) in *. replace (fld m f i j k) with (h - gamma m f i j k * K) by lra. field. lra.
Qed.

(** ** The Courant condition bounds the curl *)
Section Courant.
Variables (m : mem R) (q dt e0 u0 : R) (mn : Axis -> R).
Hypothesis PC : passive_box c m.
Hypothesis CO : courant_ok c m q dt e0 u0 mn.

Lemma wall_ext (e : FF) a t g i j k i' j' k' : fits c e -> is_E t = true -> is_E g = true -> fld_axis t <> a -> fld_axis g = a ->
  (forall b, b <> a -> (gobox c (face_lo b) - (if axis_eqb b (fld_axis t) then 1 else 0) <= crd b i j k <= gobox c (face_hi b))%Z) ->
  let lo := gobox c (face_lo a) in let hi := gobox c (face_hi a) in
  put (ext c e t) a hi i j k * (put (ext c e g) a hi i' j' k' + put (ext c e g) a (hi-1) i' j' k') =
  put (ext c e t) a lo i j k * (put (ext c e g) a lo i' j' k' + put (ext c e g) a (lo-1) i' j' k').
Proof.
  intros FT Et Eg Nt Ng RG lo hi. pose proof (bx_ge c W CL a) as GE. fold lo hi in GE.
  set (h := fun n => put (ext c e g) a n i' j' k').
  set (gg := fun n => put (e g) a n i' j' k').
  assert (HE : forall n, h n = extn c a gg n).
  { intros n. unfold h, gg, ext, put, crd. rewrite Ng. destruct a; reflexivity. }
  assert (M1 : outerSurfaceType c (face_lo a) = BT_PMC -> h (lo - 1)%Z = - h lo).
  { intros T. rewrite !HE. rewrite (extn_in c a gg lo) by (fold lo hi; lia). unfold extn. fold lo. rewrite Z.eqb_refl, T. reflexivity. }
  assert (M2 : outerSurfaceType c (face_hi a) = BT_PMC -> h hi = - h (hi - 1)%Z).
  { intros T. rewrite !HE. rewrite (extn_in c a gg (hi-1)) by (fold lo hi; lia). unfold extn. fold lo hi. rewrite Z.eqb_refl, T.
    replace (hi =? lo - 1)%Z with false by (symmetry; apply Z.eqb_neq; lia). reflexivity. }
  assert (M3 : outerSurfaceType c (face_lo a) = BT_PERIODIC -> h (lo - 1)%Z = h (hi - 1)%Z /\ h hi = h lo).
  { intros T. rewrite !HE. rewrite (extn_in c a gg (hi-1)), (extn_in c a gg lo) by (fold lo hi; lia). unfold extn. fold lo hi. rewrite !Z.eqb_refl, T, (per_hi a T).
    replace (hi =? lo - 1)%Z with false by (symmetry; apply Z.eqb_neq; lia). auto. }
  (* the continued tangential component is plus or minus the component at a sample *)

  pose proof (bx_ge c W CL (fld_axis t)) as GT.
  assert (PT : exists s x y z, (s = 1 \/ s = -1) /\ sample c a t (L (AF t) x y z) /\ forall n, put (ext c e t) a n i j k = s * put (e t) a n x y z).
  { set (b := fld_axis t) in *. pose proof (RG b Nt) as RB. unfold b in RB at 2. assert (AB : axis_eqb b (fld_axis t) = true) by (unfold b; destruct (fld_axis t); reflexivity).
    fold b in RB. replace (axis_eqb b b) with true in RB by (destruct b; reflexivity).
    set (n0 := crd b i j k) in *.
    assert (Q : exists s n', (s = 1 \/ s = -1) /\ (gobox c (face_lo b) <= n' < gobox c (face_hi b))%Z /\ forall g, extn c b g n0 = s * g n').
    { unfold extn. destruct (Z.eqb_spec n0 (gobox c (face_lo b) - 1)) as [E1|E1]; [|destruct (Z.eqb_spec n0 (gobox c (face_hi b))) as [E2|E2]].
      - destruct (outerSurfaceType c (face_lo b)); first
        [exists 1, (gobox c (face_lo b)); split; [auto|split; [lia|intros; ring]]
        |exists (-1), (gobox c (face_lo b)); split; [auto|split; [lia|intros; ring]]
        |exists 1, (gobox c (face_hi b) - 1)%Z; split; [auto|split; [lia|intros; ring]]].
      - destruct (outerSurfaceType c (face_hi b)); first
        [exists 1, (gobox c (face_hi b) - 1)%Z; split; [auto|split; [lia|intros; ring]]
        |exists (-1), (gobox c (face_hi b) - 1)%Z; split; [auto|split; [lia|intros; ring]]
        |exists 1, (gobox c (face_lo b)); split; [auto|split; [lia|intros; ring]]].
      - exists 1, n0. split; [auto|split; [lia|intros; ring]]. }
    destruct Q as (s & n' & S1 & N1 & Q).
    exists s, (if axis_eqb b XDIR then n' else i), (if axis_eqb b YDIR then n' else j), (if axis_eqb b ZDIR then n' else k).
    split; [exact S1|]. split.
    - apply sample_at; [|exact Et|exact Nt]. intros b' Nb'. pose proof (RG b' Nb') as RB'. fold b in RB' |- *. 
      clear - N1 RB' Nb'. destruct b, b'; cbn [axis_eqb crd] in *; lia.
    - intros n. unfold ext, put. fold b. destruct a, b; try congruence; cbn [axis_eqb crd] in *; unfold n0 in Q; rewrite Q; reflexivity. }
  destruct PT as (s & x & y & z & S1 & SA & PT). rewrite !PT.
  pose proof (wall_prod e a t x y z h FT Et Nt SA M1 M2 M3) as Q. cbv zeta in Q. fold lo hi in Q. unfold h in Q.
  transitivity (s * (put (e t) a hi x y z * (put (ext c e g) a hi i' j' k' + put (ext c e g) a (hi - 1) i' j' k'))); [ring|]. rewrite Q. ring.
Qed.
Lemma ends_ext (e : FF) a g i j k : is_E g = true -> fld_axis g = a ->
  let lo := gobox c (face_lo a) in let hi := gobox c (face_hi a) in let h n := put (ext c e g) a n i j k in
  sq (h lo - h (lo-1)%Z) + sq (h hi - h (hi-1)%Z) <= 4 * (sq (h lo) + sq (h (hi-1)%Z)).
Proof.
  intros Eg Ng lo hi h. pose proof (bx_ge c W CL a) as GE. fold lo hi in GE.
  set (gg := fun n => put (e g) a n i j k).
  assert (HE : forall n, h n = extn c a gg n).
  { intros n. unfold h, gg, ext, put, crd. rewrite Ng. destruct a; reflexivity. }
  rewrite !HE. rewrite (extn_in c a gg (hi-1)), (extn_in c a gg lo) by (fold lo hi; lia). unfold extn. fold lo hi. rewrite !Z.eqb_refl.
  replace (hi =? lo - 1)%Z with false by (symmetry; apply Z.eqb_neq; lia).
  set (x := gg lo). set (y := gg (hi-1)%Z). clearbody x y. unfold sq.
  pose proof (Rle_0_sqr (x + y)) as S1. pose proof (Rle_0_sqr x) as S2. pose proof (Rle_0_sqr y) as S3. unfold Rsqr in *.
  destruct (CL (face_lo a)) as [T|[T|T]]; [| |rewrite T, (per_hi a T); lra]; rewrite T;
  (destruct (CL (face_hi a)) as [S|[S|S]]; [| |apply per_lo in S; congruence]; rewrite S; lra).
Qed.
Lemma ext_in (e : FF) f i j k : is_E f = true -> (gobox c (face_lo (fld_axis f)) <= crd (fld_axis f) i j k < gobox c (face_hi (fld_axis f)))%Z -> ext c e f i j k = e f i j k.
Proof. intros E H. unfold ext. rewrite extn_in by exact H. unfold put, crd. destruct (fld_axis f); reflexivity. Qed.

Lemma b_curl_norm (e : FF) : fits c e ->
  sumH c (fun f i j k => boxvol c m f i j k * (curlE m e f i j k * curlE m e f i j k)) <=
  (4 * / (mn XDIR * mn XDIR) + 4 * / (mn YDIR * mn YDIR) + 4 * / (mn ZDIR * mn ZDIR)) *
  sumE c (fun f i j k => boxvol c m f i j k * (e f i j k * e f i j k)).
Proof.
  intros FT. destruct (co_pos _ _ _ _ _ _ _ CO) as (_ & _ & _ & MP).
  pose proof (co_de _ _ _ _ _ _ _ CO) as DM. pose proof (pb_mid c m PC) as MID. pose proof (pb_ends c m PC) as EN.
  pose proof (pb_de c m PC) as D. pose proof (pb_dh c m PC) as DH.
  pose proof (fun a => bx_ge c W CL a) as G.
  pose proof (G XDIR) as GX. pose proof (G YDIR) as GY. pose proof (G ZDIR) as GZ. cbn [face_lo face_hi] in GX, GY, GZ.
  pose proof (box_curl_bound (gobox c XLO) (gobox c XHI) (gobox c YLO) (gobox c YHI) (gobox c ZLO) (gobox c ZHI) ltac:(lia) ltac:(lia) ltac:(lia)
    (de m XDIR) (de m YDIR) (de m ZDIR) (dh m XDIR) (dh m YDIR) (dh m ZDIR) (mn XDIR) (mn YDIR) (mn ZDIR) (MP XDIR) (MP YDIR) (MP ZDIR)
    (DM XDIR) (DM YDIR) (DM ZDIR) (MID XDIR) (MID YDIR) (MID ZDIR)
    (proj1 (EN XDIR)) (proj2 (EN XDIR)) (proj1 (EN YDIR)) (proj2 (EN YDIR)) (proj1 (EN ZDIR)) (proj2 (EN ZDIR))
    (fun n Hn => proj1 (DH XDIR n Hn)) (fun n Hn => proj1 (DH YDIR n Hn)) (fun n Hn => proj1 (DH ZDIR n Hn)) (ext c e EX) (ext c e EY) (ext c e EZ)
    (fun j k j' k' Hj Hk _ _ => wall_ext e XDIR EY EX 0%Z j k 0%Z j' k' FT eq_refl eq_refl ltac:(discriminate) eq_refl ltac:(intros [] Nb; try congruence; cbn [face_lo face_hi fld_axis axis_eqb crd]; lia))
    (fun j k j' k' Hj Hk _ _ => wall_ext e XDIR EZ EX 0%Z j k 0%Z j' k' FT eq_refl eq_refl ltac:(discriminate) eq_refl ltac:(intros [] Nb; try congruence; cbn [face_lo face_hi fld_axis axis_eqb crd]; lia))
    (fun i k i' k' Hi Hk _ _ => wall_ext e YDIR EX EY i 0%Z k i' 0%Z k' FT eq_refl eq_refl ltac:(discriminate) eq_refl ltac:(intros [] Nb; try congruence; cbn [face_lo face_hi fld_axis axis_eqb crd]; lia))
    (fun i k i' k' Hi Hk _ _ => wall_ext e YDIR EZ EY i 0%Z k i' 0%Z k' FT eq_refl eq_refl ltac:(discriminate) eq_refl ltac:(intros [] Nb; try congruence; cbn [face_lo face_hi fld_axis axis_eqb crd]; lia))
    (fun i j i' j' Hi Hj _ _ => wall_ext e ZDIR EX EZ i j 0%Z i' j' 0%Z FT eq_refl eq_refl ltac:(discriminate) eq_refl ltac:(intros [] Nb; try congruence; cbn [face_lo face_hi fld_axis axis_eqb crd]; lia))
    (fun i j i' j' Hi Hj _ _ => wall_ext e ZDIR EY EZ i j 0%Z i' j' 0%Z FT eq_refl eq_refl ltac:(discriminate) eq_refl ltac:(intros [] Nb; try congruence; cbn [face_lo face_hi fld_axis axis_eqb crd]; lia))
    (fun j k => ends_ext e XDIR EX 0%Z j k eq_refl eq_refl) (fun i k => ends_ext e YDIR EY i 0%Z k eq_refl eq_refl) (fun i j => ends_ext e ZDIR EZ i j 0%Z eq_refl eq_refl)) as X.
  assert (ID : forall a n, (gobox c (face_lo a) <= n < gobox c (face_hi a))%Z -> ide m a n = / de m a n).
  { intros a n Hn. destruct (D a n Hn) as [P1 P2]. apply (Rmult_eq_reg_l (de m a n)); [|lra]. rewrite P2. field. lra. }
  assert (X1 : forall i j k, (gobox c XLO <= i < gobox c XHI)%Z -> ext c e EX i j k = e EX i j k) by (intros; apply ext_in; auto).
  assert (X2 : forall i j k, (gobox c YLO <= j < gobox c YHI)%Z -> ext c e EY i j k = e EY i j k) by (intros; apply ext_in; auto).
  assert (X3 : forall i j k, (gobox c ZLO <= k < gobox c ZHI)%Z -> ext c e EZ i j k = e EZ i j k) by (intros; apply ext_in; auto).
  match type of X with ?l' <= ?t * ?r' => match goal with |- ?l <= _ * ?r => replace l with l'; [replace r with r'; [exact X|]|] end end.
  - unfold sumE, bE1, bE2, bE3. repeat match goal with |- _ + _ = _ + _ => apply f_equal2 end;
    match goal with |- _ = sum3 ?l ?f => change (sum3 l f) with (S3 (l XLO) (l XHI) (l YLO) (l YHI) (l ZLO) (l ZHI) f) end;
    unfold gfolim, setFieldLimits; cbn [fieldIsInBoundary]; apply S3_ext; intros i j k Hi Hj Hk;
    unfold sq, boxvol; cbn [is_E axis_eqb fld_axis]; rewrite !din_eq; cbn [face_lo face_hi]; rewrite ?X1, ?X2, ?X3 by lia; ring.
  - unfold sumH, bC1, bC2, bC3. repeat match goal with |- _ + _ = _ + _ => apply f_equal2 end;
    match goal with |- _ = sum3 ?l ?f => change (sum3 l f) with (S3 (l XLO) (l XHI) (l YLO) (l YHI) (l ZLO) (l ZHI) f) end;
    unfold gfolim, setFieldLimits; cbn [fieldIsInBoundary]; apply S3_ext; intros i j k Hi Hj Hk;
    unfold StableStep.curlE, cu1, cu2, cu3, sq, boxvol; cbn [is_E axis_eqb fld_axis]; rewrite !din_eq; cbn [face_lo face_hi]; rewrite ?ID by (cbn [face_lo face_hi]; lia);
    rewrite ?X1, ?X2, ?X3 by lia; ring.
Qed.

Lemma b_nE_low (e : FF) : (forall f i j k, is_E f = true -> inl (gfolim c f) i j k -> beta m f i j k = 0 -> e f i j k = 0) ->
  e0 / dt * sumE c (fun f i j k => boxvol c m f i j k * (e f i j k * e f i j k)) <= b_nE m e.
Proof.
  intros Z. unfold b_nE. rewrite <- sumE_scal. apply sumE_le. intros f i j k E H.
  pose proof (boxvol_pos m f i j k PC H) as V.
  destruct (Req_dec (beta m f i j k) 0) as [B|B]; [rewrite (Z f i j k E H B); lra|].
  pose proof (co_eps _ _ _ _ _ _ _ CO f i j k E H B) as X.
  pose proof (Rle_0_sqr (e f i j k)) as S. unfold Rsqr in S.
  assert (0 <= boxvol c m f i j k * (e f i j k * e f i j k)) by (apply Rmult_le_pos; lra).
  assert (Y := Rmult_le_compat_r _ _ _ H0 X). lra.
Qed.
(** dt/mu * curl E, measured by the magnetic energy *)
Lemma b_kick (e : FF) : fits c e -> (forall f i j k, is_E f = true -> inl (gfolim c f) i j k -> beta m f i j k = 0 -> e f i j k = 0) ->
  sumH c (fun f i j k => boxvol c m f i j k * gamma m f i j k * (curlE m e f i j k * curlE m e f i j k)) <= 4 * (q * q) * b_nE m e.
Proof.
  intros Z ZB. destruct (co_pos _ _ _ _ _ _ _ CO) as (Pt & Pe & Pu & MP).
  assert (S0 : 0 <= sumE c (fun f i j k => boxvol c m f i j k * (e f i j k * e f i j k))).
  { apply sumE_nonneg. intros f i j k E H. pose proof (boxvol_pos m f i j k PC H). pose proof (Rle_0_sqr (e f i j k)). unfold Rsqr in *. apply Rmult_le_pos; lra. }
  pose proof (b_nE_low e ZB) as L. pose proof (b_curl_norm e Z) as C.
  set (sE := sumE c (fun f i j k => boxvol c m f i j k * (e f i j k * e f i j k))) in *.
  set (K := / (mn XDIR * mn XDIR) + / (mn YDIR * mn YDIR) + / (mn ZDIR * mn ZDIR)) in *.
  assert (KE : 4 * / (mn XDIR * mn XDIR) + 4 * / (mn YDIR * mn YDIR) + 4 * / (mn ZDIR * mn ZDIR) = 4 * K) by (unfold K; ring).
  rewrite KE in C. pose proof (co_lim _ _ _ _ _ _ _ CO) as LIM. fold K in LIM.
  apply Rle_trans with (dt / u0 * sumH c (fun f i j k => boxvol c m f i j k * (curlE m e f i j k * curlE m e f i j k))).
  { rewrite <- sumH_scal. apply sumH_le. intros f i j k E H.
    pose proof (boxvol_pos m f i j k PC H) as V. pose proof (Rle_0_sqr (curlE m e f i j k)) as S. unfold Rsqr in S.
    pose proof (pb_H c m PC f i j k E H) as G. pose proof (co_mu _ _ _ _ _ _ _ CO f i j k E H) as X. unfold mu_dt in X.
    assert (GG : gamma m f i j k <= dt / u0).
    { replace (gamma m f i j k) with (/ / gamma m f i j k) by (field; lra). replace (dt / u0) with (/ (u0 / dt)) by (field; lra).
      apply Rinv_le_contravar; [|exact X]. apply Rdiv_lt_0_compat; lra. }
    assert (0 <= boxvol c m f i j k * (curlE m e f i j k * curlE m e f i j k)) by (apply Rmult_le_pos; lra).
    assert (Y := Rmult_le_compat_r _ _ _ H0 GG). lra. }
  assert (PU : 0 < dt / u0) by (apply Rdiv_lt_0_compat; lra).
  apply Rle_trans with (dt / u0 * (4 * K * sE)); [apply Rmult_le_compat_l; [lra|exact C]|].
  apply Rle_trans with (4 * (q * q) * (e0 / dt * sE)).
  - replace (dt / u0 * (4 * K * sE)) with (4 * (dt * dt / (e0 * u0) * K) * (e0 / dt * sE)) by (field; lra).
    apply Rmult_le_compat_r; [|lra]. apply Rmult_le_pos; [|exact S0]. left. apply Rdiv_lt_0_compat; lra.
  - apply Rmult_le_compat_l; [|exact L]. pose proof (Rle_0_sqr q). unfold Rsqr in *. lra.
Qed.

Lemma b_nE_nonneg (e : FF) : (forall f i j k, is_E f = true -> inl (gfolim c f) i j k -> beta m f i j k = 0 -> e f i j k = 0) -> 0 <= b_nE m e.
Proof.
  intros Z. destruct (co_pos _ _ _ _ _ _ _ CO) as (Pt & Pe & Pu & MP).
  eapply Rle_trans; [|apply b_nE_low; exact Z]. apply Rmult_le_pos; [left; apply Rdiv_lt_0_compat; lra|].
  apply sumE_nonneg. intros f i j k E H. pose proof (boxvol_pos m f i j k PC H). pose proof (Rle_0_sqr (e f i j k)). unfold Rsqr in *. apply Rmult_le_pos; lra.
Qed.
Lemma b_nH_nonneg (h : FF) : 0 <= b_nH m h.
Proof.
  apply sumH_nonneg. intros f i j k E H. pose proof (boxvol_pos m f i j k PC H). pose proof (Rle_0_sqr (h f i j k)). unfold Rsqr in *.
  pose proof (pb_H c m PC f i j k E H) as G. apply Rinv_0_lt_compat in G. unfold mu_dt. apply Rmult_le_pos; [|lra]. apply Rmult_le_pos; lra.
Qed.

(** the two measures of the energy are equivalent under the Courant condition *)
Lemma b_stored_equiv : 0 < q -> Rabs (b_stored m - boxFieldEnergy c m) <= q * boxFieldEnergy c m.
Proof.
  intros Q.
  assert (ZB : forall f i j k, is_E f = true -> inl (gfolim c f) i j k -> beta m f i j k = 0 -> fld m f i j k = 0).
  { intros f i j k E H B. destruct (pb_E c m PC f i j k E H) as [(_ & N & _)|[_ Z]]; [lra|exact Z]. }
  pose proof (b_kick (fld m) (fits_fld m PC) ZB) as KK.
  set (A := sumH c _) in KK. change (boxFieldEnergy c m) with (b_nE m (fld m) + b_nH m (fld m)). unfold b_stored.
  set (X := sumH c (fun f i j k => boxvol c m f i j k * (fld m f i j k * curlE m (fld m) f i j k))).
  assert (B : forall s, s = 1 \/ s = -1 -> s * X <= q * b_nH m (fld m) + / (4 * q) * A).
  { intros s Hs. unfold X, b_nH, A. rewrite <- !sumH_scal, <- sumH_plus. apply sumH_le. intros f i j k E H.
    pose proof (boxvol_pos m f i j k PC H) as V. pose proof (pb_H c m PC f i j k E H) as g0. unfold mu_dt.
    set (g := gamma m f i j k) in *. set (K := curlE m (fld m) f i j k). set (h := fld m f i j k). set (v := boxvol c m f i j k) in *.
    assert (I : q * (v * / g * (h * h)) + / (4 * q) * (v * g * (K * K)) - s * (v * (h * K)) = v * / g * q * ((h - s * g * K / (2 * q)) * (h - s * g * K / (2 * q)))).
    { assert (SS : s * s = 1) by (destruct Hs as [-> | ->]; ring).
      replace (v * / g * q * ((h - s * g * K / (2 * q)) * (h - s * g * K / (2 * q))))
        with (q * (v * / g * (h * h)) + (s * s) * (/ (4 * q) * (v * g * (K * K))) - s * (v * (h * K))) by (field; lra).
      rewrite SS. ring. }
    assert (0 <= v * / g * q * ((h - s * g * K / (2 * q)) * (h - s * g * K / (2 * q)))).
    { apply Rmult_le_pos; [|apply Rle_0_sqr]. apply Rmult_le_pos; [|lra]. apply Rmult_le_pos; [lra|left; apply Rinv_0_lt_compat; lra]. }
    lra. }
  assert (K4 : / (4 * q) * A <= q * b_nE m (fld m)).
  { apply Rle_trans with (/ (4 * q) * (4 * (q * q) * b_nE m (fld m))); [apply Rmult_le_compat_l; [left; apply Rinv_0_lt_compat; lra|exact KK]|].
    right. field. lra. }
  pose proof (B 1 (or_introl eq_refl)) as B1. pose proof (B (-1) (or_intror eq_refl)) as B2.
  apply Rabs_le. lra.
Qed.
End Courant.
End BoxStable.
