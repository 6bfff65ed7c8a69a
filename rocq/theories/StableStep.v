(** Stability of the time stepping in a closed passive cavity: proofs. *)
From Coq Require Import ZArith List Bool Lia Reals Lra.
From Verif Require Import Types Lang LangProofs BBox Grid SpecGrid Step StepShape StepBounds StepCount StepOnce
  SpecCone StepValue SpecPhys SpecEnergy Energy Stable SpecStable.
Import ListNotations.
Open Scope R_scope.
Local Arguments Z.mul : simpl never.
Local Arguments Z.add : simpl never.
Local Arguments Z.sub : simpl never.

Definition FF := Fld -> Z -> Z -> Z -> R.
Section Sums.
Variable c : Cfg.
Lemma sumE_plus (g h : FF) : sumE c (fun f i j k => g f i j k + h f i j k) = sumE c g + sumE c h.
Proof. unfold sumE. rewrite !sum3_plus. ring. Qed.
Lemma sumH_plus (g h : FF) : sumH c (fun f i j k => g f i j k + h f i j k) = sumH c g + sumH c h.
Proof. unfold sumH. rewrite !sum3_plus. ring. Qed.
Lemma sum3_scal lim w g : sum3 lim (fun i j k => w * g i j k) = w * sum3 lim g.
Proof. apply S3_scal. Qed.
Lemma sumE_scal w (g : FF) : sumE c (fun f i j k => w * g f i j k) = w * sumE c g.
Proof. unfold sumE. rewrite !sum3_scal. ring. Qed.
Lemma sumH_scal w (g : FF) : sumH c (fun f i j k => w * g f i j k) = w * sumH c g.
Proof. unfold sumH. rewrite !sum3_scal. ring. Qed.
Lemma sum3_le lim g h : (forall i j k, inl lim i j k -> g i j k <= h i j k) -> sum3 lim g <= sum3 lim h.
Proof. intros H. apply S3_le. intros. apply H. unfold inl. auto. Qed.
Lemma sumE_le (g h : FF) : (forall f i j k, is_E f = true -> inl (gfolim c f) i j k -> g f i j k <= h f i j k) -> sumE c g <= sumE c h.
Proof. intros H. unfold sumE. repeat apply Rplus_le_compat; apply sum3_le; intros; apply H; auto. Qed.
Lemma sumH_le (g h : FF) : (forall f i j k, is_E f = false -> inl (gfolim c f) i j k -> g f i j k <= h f i j k) -> sumH c g <= sumH c h.
Proof. intros H. unfold sumH. repeat apply Rplus_le_compat; apply sum3_le; intros; apply H; auto. Qed.
Lemma sumE_ext (g h : FF) : (forall f i j k, is_E f = true -> inl (gfolim c f) i j k -> g f i j k = h f i j k) -> sumE c g = sumE c h.
Proof. intros H. apply Rle_antisym; apply sumE_le; intros; rewrite H; auto; lra. Qed.
Lemma sumH_ext (g h : FF) : (forall f i j k, is_E f = false -> inl (gfolim c f) i j k -> g f i j k = h f i j k) -> sumH c g = sumH c h.
Proof. intros H. apply Rle_antisym; apply sumH_le; intros; rewrite H; auto; lra. Qed.
Lemma sumE_nonneg (g : FF) : (forall f i j k, is_E f = true -> inl (gfolim c f) i j k -> 0 <= g f i j k) -> 0 <= sumE c g.
Proof.
  intros H. replace 0 with (0 * sumE c g) by ring. rewrite <- sumE_scal. apply sumE_le. intros. rewrite Rmult_0_l. auto.
Qed.
Lemma sumH_nonneg (g : FF) : (forall f i j k, is_E f = false -> inl (gfolim c f) i j k -> 0 <= g f i j k) -> 0 <= sumH c g.
Proof.
  intros H. replace 0 with (0 * sumH c g) by ring. rewrite <- sumH_scal. apply sumH_le. intros. rewrite Rmult_0_l. auto.
Qed.
End Sums.

(** discrete curls of arbitrary component functions *)
Definition curlH (m : mem R) (h : FF) : FF := fun f i j k =>
  match f with
  | EX => idh m YDIR j * (h HZ i j k - h HZ i (j-1)%Z k) + idh m ZDIR k * (h HY i j (k-1)%Z - h HY i j k)
  | EY => idh m ZDIR k * (h HX i j k - h HX i j (k-1)%Z) + idh m XDIR i * (h HZ (i-1)%Z j k - h HZ i j k)
  | EZ => idh m XDIR i * (h HY i j k - h HY (i-1)%Z j k) + idh m YDIR j * (h HX i (j-1)%Z k - h HX i j k)
  | _ => 0
  end.
Definition curlE (m : mem R) (e : FF) : FF := fun f i j k =>
  match f with
  | HX => ide m ZDIR k * (e EY i j (k+1)%Z - e EY i j k) + ide m YDIR j * (e EZ i j k - e EZ i (j+1)%Z k)
  | HY => ide m XDIR i * (e EZ (i+1)%Z j k - e EZ i j k) + ide m ZDIR k * (e EX i j k - e EX i j (k+1)%Z)
  | HZ => ide m YDIR j * (e EX i (j+1)%Z k - e EX i j k) + ide m XDIR i * (e EY i j k - e EY (i+1)%Z j k)
  | _ => 0
  end.
Lemma eval_curlH m f i j k : is_E f = true -> eval rArith m (cH f i j k) = curlH m (fld m) f i j k.
Proof. intros E. destruct f; try discriminate E; unfold curlH, cH, cHx, cHy, cHz, curl_Hx, curl_Hy, curl_Hz, F, idhx, idhy, idhz, fld, idh; cbn [eval rArith vadd vsub vmul]; ring. Qed.
Lemma eval_curlE m f i j k : is_E f = false -> eval rArith m (cH f i j k) = curlE m (fld m) f i j k.
Proof. intros E. destruct f; try discriminate E; unfold curlE, cH, cEx, cEy, cEz, curl_Ex, curl_Ey, curl_Ez, F, idex, idey, idez, fld, ide; cbn [eval rArith vadd vsub vmul]; ring. Qed.

Definition wall0 (c : Cfg) (e : FF) : Prop :=
  forall f i j k, is_E f = true -> inl (gfolim c f) i j k -> on_wall c f i j k -> e f i j k = 0.

Section Stable.
Variable c : Cfg.
Hypothesis W : wf c.
Hypothesis PEC : forall f, outerSurfaceType c f = BT_PEC.
Notation stp := (step rArith c).

(** two memories with the same coefficients and cell sizes *)
Definition same_data (m m' : mem R) : Prop := forall l, kind l = None -> m' l = m l.
Lemma same_step m : same_data m (stp m).
Proof. intros l K. apply stp_data; auto. Qed.
Lemma same_vol m m' f i j k : same_data m m' -> vol m' f i j k = vol m f i j k.
Proof. intros S. unfold vol, de, dh. destruct f; cbn [is_E axis_eqb fld_axis]; rewrite !S by reflexivity; reflexivity. Qed.
Lemma same_coef m m' f i j k : same_data m m' ->
  alpha m' f i j k = alpha m f i j k /\ beta m' f i j k = beta m f i j k /\ gamma m' f i j k = gamma m f i j k.
Proof. intros S. unfold alpha, beta, gamma. rewrite !S by reflexivity. auto. Qed.
Lemma same_eps m m' f i j k : same_data m m' -> eps_dt m' f i j k = eps_dt m f i j k.
Proof. intros S. unfold eps_dt. destruct (same_coef m m' f i j k S) as (-> & -> & _). reflexivity. Qed.
Lemma same_mu m m' f i j k : same_data m m' -> mu_dt m' f i j k = mu_dt m f i j k.
Proof. intros S. unfold mu_dt. destruct (same_coef m m' f i j k S) as (_ & _ & ->). reflexivity. Qed.

Lemma adjoint m (e h : FF) : passive_cavity c m -> wall0 c e ->
  sumE c (fun f i j k => vol m f i j k * (e f i j k * curlH m h f i j k)) +
  sumH c (fun f i j k => vol m f i j k * (h f i j k * curlE m e f i j k)) = 0.
Proof.
  intros PC Z.
  rewrite <- (adj_sum c W PEC m (fun a n Hn => proj2 (pc_de c m PC a n Hn)) (fun a n Hn => proj2 (pc_dh c m PC a n Hn))
    (e EX) (e EY) (e EZ) (h HX) (h HY) (h HZ) (fun i j k => Z EX i j k eq_refl) (fun i j k => Z EY i j k eq_refl) (fun i j k => Z EZ i j k eq_refl)).
  unfold sumE, sumH. rewrite <- !Rplus_assoc.
  repeat match goal with |- _ + _ = _ + _ => apply f_equal2 end;
  match goal with |- sum3 ?l ?f = _ => change (sum3 l f) with (S3 (l XLO) (l XHI) (l YLO) (l YHI) (l ZLO) (l ZHI) f) end;
  unfold gfolim, setFieldLimits; cbn [fieldIsInBoundary]; reflexivity.
Qed.

Lemma vol_pos m f i j k : passive_cavity c m -> inl (gfolim c f) i j k -> 0 < vol m f i j k.
Proof.
  intros PC H. pose proof (pc_de c m PC) as D. pose proof (pc_dh c m PC) as DH.
  assert (A : forall a n, (gobox c (face_lo a) <= n < gobox c (face_hi a))%Z -> 0 < de m a n) by (intros; apply D; auto).
  assert (B : forall a n, (gobox c (face_lo a) <= n <= gobox c (face_hi a))%Z -> 0 < dh m a n) by (intros; apply DH; auto).
  unfold inl, gfolim, setFieldLimits in H.
  unfold vol. destruct f; cbn [is_E axis_eqb fld_axis]; cbn [fieldIsInBoundary] in H;
  repeat apply Rmult_lt_0_compat; first [apply A; cbn [face_lo face_hi]; lia|apply B; cbn [face_lo face_hi]; lia].
Qed.
Lemma wall_zero' m : passive_cavity c m -> wall0 c (fld m).
Proof. intros PC f i j k E H O. destruct (pc_E c m PC f i j k E H) as [(_ & _ & N)|[_ Z0]]; tauto. Qed.

Lemma passive_step m : passive_cavity c m -> passive_cavity c (stp m).
Proof.
  intros [C1 C2 C3 C4 C5 C6]. constructor; auto.
  - intros f i j k E H. destruct (same_coef m (stp m) f i j k (same_step m)) as (-> & -> & _).
    destruct (C2 f i j k E H) as [X|[B Z0]]; [left; exact X|]. right. split; [exact B|].
    rewrite (stp_E c W PEC) by auto. rewrite B, Z0. ring.
  - intros f i j k E H. destruct (same_coef m (stp m) f i j k (same_step m)) as (_ & _ & ->). apply C3; auto.
  - intros. unfold de, ide. rewrite !stp_data by reflexivity. apply C4; auto.
  - intros. unfold dh, idh. rewrite !stp_data by reflexivity. apply C5; auto.
  - intros. unfold dh, de. rewrite !stp_data by reflexivity. apply C6; auto.
Qed.
Lemma courant_same m m' q dt e0 u0 mn : same_data m m' -> courant_ok c m q dt e0 u0 mn -> courant_ok c m' q dt e0 u0 mn.
Proof.
  intros S [C1 C2 C3 C4 C5]. constructor; auto.
  - intros f i j k E H. rewrite (same_eps m m') by auto. destruct (same_coef m m' f i j k S) as (_ & -> & _). auto.
  - intros f i j k E H. rewrite (same_mu m m') by auto. auto.
  - intros a n H. unfold de. rewrite S by reflexivity. apply C4; auto.
Qed.

(** the electric and the magnetic part of the energy of arbitrary fields *)
Definition nE (m : mem R) (e : FF) : R := sumE c (fun f i j k => vol m f i j k * eps_dt m f i j k * (e f i j k * e f i j k)).
Definition nH (m : mem R) (h : FF) : R := sumH c (fun f i j k => vol m f i j k * mu_dt m f i j k * (h f i j k * h f i j k)).
(** the energy held by a state, seen between steps: minus <H, dt/mu curl E> *)
Definition stored (m : mem R) : R :=
  nE m (fld m) + nH m (fld m) - sumH c (fun f i j k => vol m f i j k * (fld m f i j k * curlE m (fld m) f i j k)).
(** the energy lost in a step *)
Definition loss (m m' : mem R) : R := sumE c (fun f i j k => vol m f i j k * sigma_half m f i j k *
  ((fld m f i j k + fld m' f i j k) * (fld m f i j k + fld m' f i j k))).
Lemma step_H m f i j k : is_E f = false -> inl (gfolim c f) i j k ->
  fld (stp m) f i j k = fld m f i j k + gamma m f i j k * curlE m (fld (stp m)) f i j k.
Proof.
  intros E H. rewrite (stp_H c W PEC m f i j k E H) at 1. f_equal. f_equal. rewrite eval_curlE by auto.
  unfold curlE, ide. destruct f; try discriminate E; rewrite !stp_data by reflexivity; reflexivity.
Qed.
Lemma curlE_same m m' (e : FF) f i j k : same_data m m' -> curlE m' e f i j k = curlE m e f i j k.
Proof. intros S. unfold curlE, ide. destruct f; try reflexivity; rewrite !S by reflexivity; reflexivity. Qed.
Lemma sumE_opp (g : FF) : sumE c (fun f i j k => - g f i j k) = - sumE c g.
Proof. rewrite <- (Rmult_1_l (sumE c g)), <- Ropp_mult_distr_l_reverse, <- sumE_scal. apply sumE_ext. intros; ring. Qed.
Lemma sumH_opp (g : FF) : sumH c (fun f i j k => - g f i j k) = - sumH c g.
Proof. rewrite <- (Rmult_1_l (sumH c g)), <- Ropp_mult_distr_l_reverse, <- sumH_scal. apply sumH_ext. intros; ring. Qed.

Lemma stored_step m : passive_cavity c m -> stored (stp m) = stored m - loss m (stp m).
Proof.
  intros PC. pose proof (passive_step m PC) as PC1.
  set (m1 := stp m) in *. assert (S1 : same_data m m1) by apply same_step.
  pose proof (adjoint m (fun f i j k => fld m f i j k + fld m1 f i j k) (fld m) PC) as AD.
  assert (WZ : wall0 c (fun f i j k => fld m f i j k + fld m1 f i j k)).
  { intros f i j k E Hl O. rewrite (wall_zero' m), (wall_zero' m1) by auto. ring. }
  specialize (AD WZ). cbn beta in AD.
  assert (X : nE m1 (fld m1) = nE m (fld m) +
    sumE c (fun f i j k => vol m f i j k * ((fld m f i j k + fld m1 f i j k) * curlH m (fld m) f i j k)) + - loss m m1).
  { unfold nE, loss. rewrite <- sumE_opp, <- !sumE_plus. apply sumE_ext. intros f i j k E H.
    rewrite (same_vol m m1), (same_eps m m1) by auto.
    pose proof (stp_E c W PEC m f i j k E H) as U. fold m1 in U. rewrite (eval_curlH m f i j k E) in U.
    destruct (same_coef m m1 f i j k S1) as (A1 & B1 & _).
    set (K := curlH m (fld m) f i j k) in *. set (x := fld m f i j k) in *. set (y := fld m1 f i j k) in *.
    destruct (pc_E c m PC f i j k E H) as [(A & B & _)|[B Z0]].
    - unfold eps_dt, sigma_half. set (al := alpha m f i j k) in *. set (be := beta m f i j k) in *. set (v := vol m f i j k) in *.
      assert (K0 : K = (y - al * x) / be) by (rewrite U; field; lra). rewrite K0. field. lra.
    - rewrite U, B. replace x with 0 by (symmetry; exact Z0). ring. }
  assert (Y : nH m1 (fld m1) - sumH c (fun f i j k => vol m1 f i j k * (fld m1 f i j k * curlE m1 (fld m1) f i j k)) =
    nH m (fld m) - sumH c (fun f i j k => vol m f i j k * (fld m f i j k * curlE m (fld m) f i j k)) +
    sumH c (fun f i j k => vol m f i j k * (fld m f i j k * curlE m (fun f i j k => fld m f i j k + fld m1 f i j k) f i j k))).
  { unfold Rminus, nH. rewrite <- !sumH_opp, <- !sumH_plus. apply sumH_ext. intros f i j k E H.
    rewrite (same_vol m m1), (same_mu m m1), (curlE_same m m1) by auto.
    pose proof (step_H m f i j k E H) as U. fold m1 in U.
    assert (CC : curlE m (fun f i j k => fld m f i j k + fld m1 f i j k) f i j k = curlE m (fld m) f i j k + curlE m (fld m1) f i j k).
    { unfold curlE. destruct f; try discriminate E; ring. }
    rewrite CC. unfold mu_dt. set (g := gamma m f i j k) in *. assert (G : 0 < g) by (apply (pc_H c m PC); auto).
    set (K1 := curlE m (fld m1) f i j k) in *. set (K0 := curlE m (fld m) f i j k) in *.
    rewrite U. field. lra. }
  unfold stored. unfold Rminus in *. rewrite X. rewrite Rplus_assoc, Y. lra.
Qed.
Lemma loss_nonneg m m' : passive_cavity c m -> same_data m m' -> passive_cavity c m' -> 0 <= loss m m'.
Proof.
  intros PC S PC'. apply sumE_nonneg. intros f i j k E H. pose proof (vol_pos m f i j k PC H) as V.
  destruct (pc_E c m PC f i j k E H) as [(A & B & _)|[B Z0]].
  - apply Rmult_le_pos; [|apply Rle_0_sqr]. apply Rmult_le_pos; [lra|]. unfold sigma_half, Rdiv. apply Rmult_le_pos; [lra|]. left. apply Rinv_0_lt_compat. lra.
  - destruct (pc_E c m' PC' f i j k E H) as [(_ & B' & _)|[_ Z1]].
    + destruct (same_coef m m' f i j k S) as (_ & Q & _). rewrite Q in B'. lra.
    + rewrite Z0, Z1. lra.
Qed.
(** between two steps: the product of H before and after *)
Lemma stored_leap m : passive_cavity c m -> stored (stp m) = leapEnergy c m (stp m).
Proof.
  intros PC. set (m1 := stp m). assert (S1 : same_data m m1) by apply same_step.
  unfold stored, leapEnergy. unfold Rminus. rewrite Rplus_assoc. apply f_equal2.
  - apply sumE_ext. intros f i j k E H. rewrite (same_vol m m1), (same_eps m m1) by auto. reflexivity.
  - unfold nH. rewrite <- sumH_opp, <- sumH_plus. apply sumH_ext. intros f i j k E H.
    rewrite (same_vol m m1), (same_mu m m1), (curlE_same m m1) by auto.
    pose proof (step_H m f i j k E H) as U. fold m1 in U. pose proof (pc_H c m PC f i j k E H) as G. unfold mu_dt.
    set (h := fld m1 f i j k) in *. set (K := curlE m (fld m1) f i j k) in *. replace (fld m f i j k) with (h - gamma m f i j k * K) by lra. field. lra.
Qed.

(** ** The Courant condition bounds the curl *)
Section Courant.
Variables (m : mem R) (q dt e0 u0 : R) (mn : Axis -> R).
Hypothesis PC : passive_cavity c m.
Hypothesis CO : courant_ok c m q dt e0 u0 mn.

Lemma curl_norm (e : FF) : wall0 c e ->
  sumH c (fun f i j k => vol m f i j k * (curlE m e f i j k * curlE m e f i j k)) <=
  (4 * / (mn XDIR * mn XDIR) + 4 * / (mn YDIR * mn YDIR) + 4 * / (mn ZDIR * mn ZDIR)) *
  sumE c (fun f i j k => vol m f i j k * (e f i j k * e f i j k)).
Proof.
  intros Z. destruct (co_pos _ _ _ _ _ _ _ CO) as (_ & _ & _ & MP).
  pose proof (co_de _ _ _ _ _ _ _ CO) as DM. pose proof (pc_mid c m PC) as MID.
  pose proof (pc_de c m PC) as D. pose proof (pc_dh c m PC) as DH.
  pose proof (fun a => hi_ge c W PEC a) as G.
  assert (IN : forall f i j k, (if axis_eqb (fld_axis f) XDIR then gobox c XLO <= i < gobox c XHI else gobox c XLO <= i <= gobox c XHI)%Z ->
     (if axis_eqb (fld_axis f) YDIR then gobox c YLO <= j < gobox c YHI else gobox c YLO <= j <= gobox c YHI)%Z ->
     (if axis_eqb (fld_axis f) ZDIR then gobox c ZLO <= k < gobox c ZHI else gobox c ZLO <= k <= gobox c ZHI)%Z -> is_E f = true -> inl (gfolim c f) i j k).
  { intros f i j k A B C E. unfold inl, gfolim, setFieldLimits. destruct f; try discriminate E; cbn [axis_eqb fld_axis] in *; cbn [fieldIsInBoundary]; lia. }
  pose proof (G XDIR) as GX. pose proof (G YDIR) as GY. pose proof (G ZDIR) as GZ. cbn [face_lo face_hi] in GX, GY, GZ.
  pose proof (curl_bound (gobox c XLO) (gobox c XHI) (gobox c YLO) (gobox c YHI) (gobox c ZLO) (gobox c ZHI) ltac:(lia) ltac:(lia) ltac:(lia)
    (de m XDIR) (de m YDIR) (de m ZDIR) (dh m XDIR) (dh m YDIR) (dh m ZDIR) (mn XDIR) (mn YDIR) (mn ZDIR) (MP XDIR) (MP YDIR) (MP ZDIR)
    (DM XDIR) (DM YDIR) (DM ZDIR) (MID XDIR) (MID YDIR) (MID ZDIR)
    (fun n Hn => proj1 (DH XDIR n Hn)) (fun n Hn => proj1 (DH YDIR n Hn)) (fun n Hn => proj1 (DH ZDIR n Hn)) (e EX) (e EY) (e EZ)) as X.
  assert (WW : forall f i j k, inl (gfolim c f) i j k -> is_E f = true ->
     ((fld_axis f <> XDIR /\ (i = gobox c XLO \/ i = gobox c XHI)) \/ (fld_axis f <> YDIR /\ (j = gobox c YLO \/ j = gobox c YHI)) \/
      (fld_axis f <> ZDIR /\ (k = gobox c ZLO \/ k = gobox c ZHI))) -> e f i j k = 0).
  { intros. apply Z; auto. }
  assert (W1y : forall i k, (gobox c XLO <= i < gobox c XHI)%Z -> (gobox c ZLO <= k <= gobox c ZHI)%Z -> e EX i (gobox c YLO) k = 0 /\ e EX i (gobox c YHI) k = 0).
  { intros; split; apply WW; auto; try (apply IN; cbn [axis_eqb fld_axis]; first [lia|reflexivity]); right; left; split; [discriminate|auto|discriminate|auto]. }
  assert (W1z : forall i j, (gobox c XLO <= i < gobox c XHI)%Z -> (gobox c YLO <= j <= gobox c YHI)%Z -> e EX i j (gobox c ZLO) = 0 /\ e EX i j (gobox c ZHI) = 0).
  { intros; split; apply WW; auto; try (apply IN; cbn [axis_eqb fld_axis]; first [lia|reflexivity]); right; right; split; [discriminate|auto|discriminate|auto]. }
  assert (W2x : forall j k, (gobox c YLO <= j < gobox c YHI)%Z -> (gobox c ZLO <= k <= gobox c ZHI)%Z -> e EY (gobox c XLO) j k = 0 /\ e EY (gobox c XHI) j k = 0).
  { intros; split; apply WW; auto; try (apply IN; cbn [axis_eqb fld_axis]; first [lia|reflexivity]); left; split; [discriminate|auto|discriminate|auto]. }
  assert (W2z : forall i j, (gobox c XLO <= i <= gobox c XHI)%Z -> (gobox c YLO <= j < gobox c YHI)%Z -> e EY i j (gobox c ZLO) = 0 /\ e EY i j (gobox c ZHI) = 0).
  { intros; split; apply WW; auto; try (apply IN; cbn [axis_eqb fld_axis]; first [lia|reflexivity]); right; right; split; [discriminate|auto|discriminate|auto]. }
  assert (W3x : forall j k, (gobox c YLO <= j <= gobox c YHI)%Z -> (gobox c ZLO <= k < gobox c ZHI)%Z -> e EZ (gobox c XLO) j k = 0 /\ e EZ (gobox c XHI) j k = 0).
  { intros; split; apply WW; auto; try (apply IN; cbn [axis_eqb fld_axis]; first [lia|reflexivity]); left; split; [discriminate|auto|discriminate|auto]. }
  assert (W3y : forall i k, (gobox c XLO <= i <= gobox c XHI)%Z -> (gobox c ZLO <= k < gobox c ZHI)%Z -> e EZ i (gobox c YLO) k = 0 /\ e EZ i (gobox c YHI) k = 0).
  { intros; split; apply WW; auto; try (apply IN; cbn [axis_eqb fld_axis]; first [lia|reflexivity]); right; left; split; [discriminate|auto|discriminate|auto]. }
  specialize (X W1y W1z W2x W2z W3x W3y).
  assert (ID : forall a n, (gobox c (face_lo a) <= n < gobox c (face_hi a))%Z -> ide m a n = / de m a n).
  { intros a n Hn. destruct (D a n Hn) as [P1 P2]. apply (Rmult_eq_reg_l (de m a n)); [|lra]. rewrite P2. field. lra. }
  match goal with |- ?l <= ?t * ?r => replace l with (nC1 (gobox c XLO) (gobox c XHI) (gobox c YLO) (gobox c YHI) (gobox c ZLO) (gobox c ZHI) (de m YDIR) (de m ZDIR) (dh m XDIR) (e EY) (e EZ)
    + nC2 (gobox c XLO) (gobox c XHI) (gobox c YLO) (gobox c YHI) (gobox c ZLO) (gobox c ZHI) (de m XDIR) (de m ZDIR) (dh m YDIR) (e EX) (e EZ)
    + nC3 (gobox c XLO) (gobox c XHI) (gobox c YLO) (gobox c YHI) (gobox c ZLO) (gobox c ZHI) (de m XDIR) (de m YDIR) (dh m ZDIR) (e EX) (e EY));
    [replace r with (nE1 (gobox c XLO) (gobox c XHI) (gobox c YLO) (gobox c YHI) (gobox c ZLO) (gobox c ZHI) (de m XDIR) (dh m YDIR) (dh m ZDIR) (e EX)
    + nE2 (gobox c XLO) (gobox c XHI) (gobox c YLO) (gobox c YHI) (gobox c ZLO) (gobox c ZHI) (de m YDIR) (dh m XDIR) (dh m ZDIR) (e EY)
    + nE3 (gobox c XLO) (gobox c XHI) (gobox c YLO) (gobox c YHI) (gobox c ZLO) (gobox c ZHI) (de m ZDIR) (dh m XDIR) (dh m YDIR) (e EZ)); [exact X|]|] end.
  - reflexivity.
  - unfold sumH, nC1, nC2, nC3. repeat match goal with |- _ + _ = _ + _ => apply f_equal2 end;
    match goal with |- _ = sum3 ?l ?f => change (sum3 l f) with (S3 (l XLO) (l XHI) (l YLO) (l YHI) (l ZLO) (l ZHI) f) end;
    unfold gfolim, setFieldLimits; cbn [fieldIsInBoundary]; apply S3_ext; intros i j k Hi Hj Hk;
    unfold curlE, cu1, cu2, cu3, sq, vol; cbn [is_E axis_eqb fld_axis]; rewrite ?ID by (cbn [face_lo face_hi]; lia); ring.
Qed.

Lemma nE_low (e : FF) : (forall f i j k, is_E f = true -> inl (gfolim c f) i j k -> beta m f i j k = 0 -> e f i j k = 0) ->
  e0 / dt * sumE c (fun f i j k => vol m f i j k * (e f i j k * e f i j k)) <= nE m e.
Proof.
  intros Z. unfold nE. rewrite <- sumE_scal. apply sumE_le. intros f i j k E H.
  pose proof (vol_pos m f i j k PC H) as V.
  destruct (Req_dec (beta m f i j k) 0) as [B|B]; [rewrite (Z f i j k E H B); lra|].
  pose proof (co_eps _ _ _ _ _ _ _ CO f i j k E H B) as X.
  pose proof (Rle_0_sqr (e f i j k)) as S. unfold Rsqr in S.
  assert (0 <= vol m f i j k * (e f i j k * e f i j k)) by (apply Rmult_le_pos; lra).
  assert (Y := Rmult_le_compat_r _ _ _ H0 X). lra.
Qed.
(** dt/mu * curl E, measured by the magnetic energy *)
Lemma kick (e : FF) : wall0 c e -> (forall f i j k, is_E f = true -> inl (gfolim c f) i j k -> beta m f i j k = 0 -> e f i j k = 0) ->
  sumH c (fun f i j k => vol m f i j k * gamma m f i j k * (curlE m e f i j k * curlE m e f i j k)) <= 4 * (q * q) * nE m e.
Proof.
  intros Z ZB. destruct (co_pos _ _ _ _ _ _ _ CO) as (Pt & Pe & Pu & MP).
  assert (S0 : 0 <= sumE c (fun f i j k => vol m f i j k * (e f i j k * e f i j k))).
  { apply sumE_nonneg. intros f i j k E H. pose proof (vol_pos m f i j k PC H). pose proof (Rle_0_sqr (e f i j k)). unfold Rsqr in *. apply Rmult_le_pos; lra. }
  pose proof (nE_low e ZB) as L. pose proof (curl_norm e Z) as C.
  set (sE := sumE c (fun f i j k => vol m f i j k * (e f i j k * e f i j k))) in *.
  set (K := / (mn XDIR * mn XDIR) + / (mn YDIR * mn YDIR) + / (mn ZDIR * mn ZDIR)) in *.
  assert (KE : 4 * / (mn XDIR * mn XDIR) + 4 * / (mn YDIR * mn YDIR) + 4 * / (mn ZDIR * mn ZDIR) = 4 * K) by (unfold K; ring).
  rewrite KE in C. pose proof (co_lim _ _ _ _ _ _ _ CO) as LIM. fold K in LIM.
  apply Rle_trans with (dt / u0 * sumH c (fun f i j k => vol m f i j k * (curlE m e f i j k * curlE m e f i j k))).
  { rewrite <- sumH_scal. apply sumH_le. intros f i j k E H.
    pose proof (vol_pos m f i j k PC H) as V. pose proof (Rle_0_sqr (curlE m e f i j k)) as S. unfold Rsqr in S.
    pose proof (pc_H c m PC f i j k E H) as G. pose proof (co_mu _ _ _ _ _ _ _ CO f i j k E H) as X. unfold mu_dt in X.
    assert (GG : gamma m f i j k <= dt / u0).
    { replace (gamma m f i j k) with (/ / gamma m f i j k) by (field; lra). replace (dt / u0) with (/ (u0 / dt)) by (field; lra).
      apply Rinv_le_contravar; [|exact X]. apply Rdiv_lt_0_compat; lra. }
    assert (0 <= vol m f i j k * (curlE m e f i j k * curlE m e f i j k)) by (apply Rmult_le_pos; lra).
    assert (Y := Rmult_le_compat_r _ _ _ H0 GG). lra. }
  assert (PU : 0 < dt / u0) by (apply Rdiv_lt_0_compat; lra).
  apply Rle_trans with (dt / u0 * (4 * K * sE)); [apply Rmult_le_compat_l; [lra|exact C]|].
  apply Rle_trans with (4 * (q * q) * (e0 / dt * sE)).
  - replace (dt / u0 * (4 * K * sE)) with (4 * (dt * dt / (e0 * u0) * K) * (e0 / dt * sE)) by (field; lra).
    apply Rmult_le_compat_r; [|lra]. apply Rmult_le_pos; [|exact S0]. left. apply Rdiv_lt_0_compat; lra.
  - apply Rmult_le_compat_l; [|exact L]. pose proof (Rle_0_sqr q). unfold Rsqr in *. lra.
Qed.

Lemma nE_nonneg (e : FF) : (forall f i j k, is_E f = true -> inl (gfolim c f) i j k -> beta m f i j k = 0 -> e f i j k = 0) -> 0 <= nE m e.
Proof.
  intros Z. destruct (co_pos _ _ _ _ _ _ _ CO) as (Pt & Pe & Pu & MP).
  eapply Rle_trans; [|apply nE_low; exact Z]. apply Rmult_le_pos; [left; apply Rdiv_lt_0_compat; lra|].
  apply sumE_nonneg. intros f i j k E H. pose proof (vol_pos m f i j k PC H). pose proof (Rle_0_sqr (e f i j k)). unfold Rsqr in *. apply Rmult_le_pos; lra.
Qed.
Lemma nH_nonneg (h : FF) : 0 <= nH m h.
Proof.
  apply sumH_nonneg. intros f i j k E H. pose proof (vol_pos m f i j k PC H). pose proof (Rle_0_sqr (h f i j k)). unfold Rsqr in *.
  pose proof (pc_H c m PC f i j k E H) as G. apply Rinv_0_lt_compat in G. unfold mu_dt. apply Rmult_le_pos; [|lra]. apply Rmult_le_pos; lra.
Qed.

(** the two measures of the energy are equivalent under the Courant condition *)
Lemma stored_equiv : 0 < q -> Rabs (stored m - fieldEnergy c m) <= q * fieldEnergy c m.
Proof.
  intros Q.
  assert (ZB : forall f i j k, is_E f = true -> inl (gfolim c f) i j k -> beta m f i j k = 0 -> fld m f i j k = 0).
  { intros f i j k E H B. destruct (pc_E c m PC f i j k E H) as [(_ & N & _)|[_ Z]]; [lra|exact Z]. }
  pose proof (kick (fld m) (wall_zero' m PC) ZB) as KK.
  set (A := sumH c _) in KK. change (fieldEnergy c m) with (nE m (fld m) + nH m (fld m)). unfold stored.
  set (X := sumH c (fun f i j k => vol m f i j k * (fld m f i j k * curlE m (fld m) f i j k))).
  assert (B : forall s, s = 1 \/ s = -1 -> s * X <= q * nH m (fld m) + / (4 * q) * A).
  { intros s Hs. unfold X, nH, A. rewrite <- !sumH_scal, <- sumH_plus. apply sumH_le. intros f i j k E H.
    pose proof (vol_pos m f i j k PC H) as V. pose proof (pc_H c m PC f i j k E H) as g0. unfold mu_dt.
    set (g := gamma m f i j k) in *. set (K := curlE m (fld m) f i j k). set (h := fld m f i j k). set (v := vol m f i j k) in *.
    assert (I : q * (v * / g * (h * h)) + / (4 * q) * (v * g * (K * K)) - s * (v * (h * K)) = v * / g * q * ((h - s * g * K / (2 * q)) * (h - s * g * K / (2 * q)))).
    { assert (SS : s * s = 1) by (destruct Hs as [-> | ->]; ring).
      replace (v * / g * q * ((h - s * g * K / (2 * q)) * (h - s * g * K / (2 * q))))
        with (q * (v * / g * (h * h)) + (s * s) * (/ (4 * q) * (v * g * (K * K))) - s * (v * (h * K))) by (field; lra).
      rewrite SS. ring. }
    assert (0 <= v * / g * q * ((h - s * g * K / (2 * q)) * (h - s * g * K / (2 * q)))).
    { apply Rmult_le_pos; [|apply Rle_0_sqr]. apply Rmult_le_pos; [|lra]. apply Rmult_le_pos; [lra|left; apply Rinv_0_lt_compat; lra]. }
    lra. }
  assert (K4 : / (4 * q) * A <= q * nE m (fld m)).
  { apply Rle_trans with (/ (4 * q) * (4 * (q * q) * nE m (fld m))); [apply Rmult_le_compat_l; [left; apply Rinv_0_lt_compat; lra|exact KK]|].
    right. field. lra. }
  pose proof (B 1 (or_introl eq_refl)) as B1. pose proof (B (-1) (or_intror eq_refl)) as B2.
  apply Rabs_le. lra.
Qed.
End Courant.
End Stable.
