(** The Newton iteration for the numerical phase velocity of an axis-parallel
    wave on a cubic mesh. *)
From Coq Require Import ZArith List Bool Lia Reals Lra Psatz.
From Verif Require Import Types Lang BBox Edges PmlProfile PlaneWave SpecPwAxis P_Pml P_PwVectors PwAxis.
Open Scope R_scope.

Definition newton (S x : R) : R := x - (sin x * sin x - S * S) / sin (2 * x).

Lemma cos_half x : 0 <= x <= PI / 4 -> / 2 <= cos x * cos x /\ 0 < cos x.
Proof.
  intros H. pose proof PI_RGT_0. assert (C : cos (PI / 4) <= cos x) by (apply cos_decr_1; lra).
  rewrite cos_PI4 in C. pose proof (sqrt_sqrt 2 ltac:(lra)) as Q. pose proof (sqrt_lt_R0 2 ltac:(lra)) as P.
  assert (X : 0 < 1 / sqrt 2) by (apply Rdiv_lt_0_compat; lra).
  split; [|lra]. assert (Y : 1 / sqrt 2 * (1 / sqrt 2) = / 2) by (rewrite <- Q at 3; field; lra).
  rewrite <- Y. apply Rmult_le_compat; lra.
Qed.
Lemma sin_ge_xcos x : 0 < x <= PI / 2 -> x * cos x <= sin x <= x.
Proof.
  intros H. pose proof PI_RGT_0.
  destruct (MVT_cor2 sin cos 0 x ltac:(lra)) as (q & E & Q).
  { intros t _. apply derivable_pt_lim_sin. }
  rewrite sin_0 in E. assert (C1 : cos x <= cos q) by (apply cos_decr_1; lra). pose proof (COS_bound q).
  split; nra.
Qed.
(** sin^2 lies above its tangents on [0, PI/4] *)
Lemma sin2_tangent x y : 0 <= x <= PI / 4 -> 0 <= y <= PI / 4 -> sin x * sin x + sin (2 * x) * (y - x) <= sin y * sin y.
Proof.
  intros Hx Hy. pose proof PI_RGT_0.
  assert (D : forall t, derivable_pt_lim (fun t => sin t * sin t) t (sin (2 * t))).
  { intros t. rewrite sin_2a. replace (2 * sin t * cos t) with (cos t * sin t + sin t * cos t) by ring.
    apply (derivable_pt_lim_mult sin sin); apply derivable_pt_lim_sin. }
  destruct (Rtotal_order x y) as [L|[->|L]]; [| lra |].
  - destruct (MVT_cor2 (fun t => sin t * sin t) (fun t => sin (2 * t)) x y L) as (q & E & Q); [intros; apply D|]. cbv beta in E.
    assert (sin (2 * x) <= sin (2 * q)) by (apply sin_incr_1; lra). nra.
  - destruct (MVT_cor2 (fun t => sin t * sin t) (fun t => sin (2 * t)) y x L) as (q & E & Q); [intros; apply D|]. cbv beta in E.
    assert (sin (2 * q) <= sin (2 * x)) by (apply sin_incr_1; lra). nra.
Qed.
Lemma sin2x_ge x : 0 < x <= PI / 4 -> x <= sin (2 * x) /\ sin x * sin x <= x * sin (2 * x).
Proof.
  intros H. pose proof PI_RGT_0. destruct (cos_half x ltac:(lra)) as [C1 C2]. destruct (sin_ge_xcos x ltac:(lra)) as [S1 S2].
  assert (SP : 0 < sin x) by (apply sin_gt_0; lra). assert (CB := COS_bound x). rewrite sin_2a. split.
  - assert (x * cos x * cos x <= sin x * cos x) by (apply Rmult_le_compat_r; lra). nra.
  - assert (/ 2 <= cos x) by nra. nra.
Qed.
Lemma newton_ge S x : 0 < x <= PI / 4 -> 0 < S -> newton S x <= PI / 4 -> 0 < newton S x /\ S * S <= sin (newton S x) * sin (newton S x).
Proof.
  intros H SP UB. destruct (sin2x_ge x H) as [P1 P2]. 
  assert (E : sin (2 * x) * (newton S x - x) = S * S - sin x * sin x) by (unfold newton; field; lra).
  assert (POS : 0 < newton S x).
  { assert (0 < newton S x * sin (2 * x)) by nra. apply (Rmult_lt_reg_r (sin (2 * x))); lra. }
  split; [exact POS|]. pose proof (sin2_tangent x (newton S x) ltac:(lra) ltac:(lra)). lra.
Qed.
Lemma newton_le S x : 0 < x <= PI / 4 -> S * S <= sin x * sin x -> newton S x <= x.
Proof.
  intros H Q. destruct (sin2x_ge x H) as [P1 P2]. unfold newton.
  assert (0 <= (sin x * sin x - S * S) / sin (2 * x)); [|lra].
  apply Rmult_le_pos; [lra|]. left. apply Rinv_0_lt_compat. lra.
Qed.
(** after the first step the iterates decrease towards the root, from above *)
Lemma newton_iter S x n : 0 < x <= PI / 8 -> 0 < S <= x ->
  0 < Nat.iter n (newton S) x <= PI / 4 /\ (n <> O -> S * S <= sin (Nat.iter n (newton S) x) * sin (Nat.iter n (newton S) x)).
Proof.
  intros H HS. pose proof PI_RGT_0. induction n as [|n [I1 I2]]; [cbn; split; [lra|congruence]|]. cbn [Nat.iter nat_rect].
  change (nat_rect _ x (fun _ => newton S) n) with (Nat.iter n (newton S) x) in *.
  set (y := Nat.iter n (newton S) x) in *.
  assert (UB : newton S y <= PI / 4).
  { destruct n as [|n].
    - subst y. cbn. unfold newton. destruct (sin2x_ge x ltac:(lra)) as [P1 P2].
      assert (Q : - (sin x * sin x - S * S) / sin (2 * x) <= x).
      { apply (Rmult_le_reg_r (sin (2 * x))); [lra|]. unfold Rdiv. rewrite Rmult_assoc, Rinv_l by lra.
        assert (0 <= sin x * sin x) by apply Rle_0_sqr. nra. }
      unfold Rdiv in *. lra.
    - pose proof (newton_le S y I1 (I2 ltac:(discriminate))). lra. }
  destruct (newton_ge S y I1 ltac:(lra) UB). split; [lra|auto].
Qed.

(** ** The iteration of the program *)
Lemma npv_step d B k : d <> 0 -> 
  k - numPhaseVelocityFunc (fun _ => d) (fun a => match a with ZDIR => / 2 * d | _ => 0 end) B k = 2 / d * newton (d * B) (d * k / 2).
Proof.
  intros D. unfold numPhaseVelocityFunc, newton.
  replace (/ 2 * d * k) with (d * k / 2) by field. replace (2 * (/ 2 * d) * k) with (2 * (d * k / 2)) by field.
  rewrite !Rmult_0_l, ?Rmult_0_r, ?Rmult_0_l, sin_0. set (s := sin (2 * (d * k / 2))).
  destruct (Req_dec s 0) as [Z|Z].
  - rewrite Z. unfold Rdiv. replace (0 * (0 * / (d * d)) + 0 + 0) with 0 by ring. rewrite !Rmult_0_r, ?Rmult_0_l, !Rplus_0_l, Rinv_0, !Rmult_0_r. field. exact D.
  - field. auto.
Qed.

Lemma npv_func_axis d B k th ph a fw : along th ph a fw ->
  let t := PI * th / 180 in let p := PI * ph / 180 in
  numPhaseVelocityFunc (fun _ => d) (fun a => match a with XDIR => / 2 * d * sin t * cos p | YDIR => / 2 * d * sin t * sin p | ZDIR => / 2 * d * cos t end) B k =
  numPhaseVelocityFunc (fun _ => d) (fun a => match a with ZDIR => / 2 * d | _ => 0 end) B k.
Proof.
  intros H t p.
  assert (T : forall x, PI * x / 180 = rad x) by (intros; unfold rad; field).
  subst t p. rewrite !T. unfold numPhaseVelocityFunc.
  destruct H; trigval; do 5 (rewrite ?Rmult_0_l, ?Rmult_0_r, ?Rmult_1_r, ?sin_0).
  - reflexivity.
  - replace (/ 2 * d * -1 * k) with (- (/ 2 * d * k)) by ring. replace (2 * (/ 2 * d * -1) * k) with (- (2 * (/ 2 * d) * k)) by ring. rewrite !sin_neg.
    apply f_equal2; unfold Rdiv; ring.
  - replace (2 * (/ 2 * d) * k) with (2 * (/ 2 * d * k)) by ring. apply f_equal2; unfold Rdiv; ring.
  - apply f_equal2; unfold Rdiv; ring.
  - replace (/ 2 * d * -1 * k) with (- (/ 2 * d * k)) by ring. replace (2 * (/ 2 * d * -1) * k) with (- (2 * (/ 2 * d) * k)) by ring. rewrite !sin_neg.
    apply f_equal2; unfold Rdiv; ring.
  - replace (/ 2 * d * -1 * k) with (- (/ 2 * d * k)) by ring. replace (2 * (/ 2 * d * -1) * k) with (- (2 * (/ 2 * d) * k)) by ring. rewrite !sin_neg.
    apply f_equal2; unfold Rdiv; ring.
Qed.
Lemma iter_ext (F G : R -> R) n x : (forall y, F y = G y) -> Nat.iter n F x = Nat.iter n G x.
Proof. intros H. induction n; cbn; [reflexivity|]. rewrite H. f_equal. exact IHn. Qed.

Lemma npv_axis d dt th ph a fw : along th ph a fw -> 
  numericalPhaseVelocity (fun _ => d) dt (PI * th / 180) (PI * ph / 180) = numericalPhaseVelocity (fun _ => d) dt 0 0.
Proof.
  intros H. unfold numericalPhaseVelocity. apply f_equal2; [reflexivity|]. apply iter_ext. intros k.
  apply f_equal2; [reflexivity|].
  rewrite (npv_func_axis d _ k th ph a fw H).
  pose proof (npv_func_axis d (sin (/ 2 * (2 * PI * (1 / dt / 23)) * dt) / (c0 * dt)) k 0 0 ZDIR true (al_zp 0 ltac:(lra))) as Q.
  cbv zeta in Q. replace (PI * 0 / 180) with 0 in Q by field. symmetry. exact Q.
Qed.

Lemma npv_iter d B k n : d <> 0 -> 
  Nat.iter n (fun k => k - numPhaseVelocityFunc (fun _ => d) (fun a => match a with ZDIR => / 2 * d | _ => 0 end) B k) k =
  2 / d * Nat.iter n (newton (d * B)) (d * k / 2).
Proof.
  intros D. induction n as [|n IH]; cbn.
  - field. exact D.
  - change (nat_rect _ ?x (fun _ => ?f) n) with (Nat.iter n f x) in *. rewrite IH, npv_step by exact D. do 2 f_equal. field. exact D.
Qed.

(** For time steps that are not too small (c0 dt >= 8/23 of the cell size) and not
    above the one-dimensional limit, the computed phase velocity is positive. *)
Lemma npv_pos d dt : 0 < d -> 0 < dt -> 8 / 23 * d <= c0 * dt -> 0 < numericalPhaseVelocity (fun _ => d) dt 0 0.
Proof.
  intros D T H. unfold numericalPhaseVelocity. pose proof PI_RGT_0 as PP.
  assert (C : 0 < c0) by (unfold c0; lra).
  set (w := 2 * PI * (1 / dt / 23)). assert (W : 0 < w).
  { unfold w. apply Rmult_lt_0_compat; [lra|]. apply Rmult_lt_0_compat; [apply Rmult_lt_0_compat; [lra|apply Rinv_0_lt_compat; lra]|lra]. }
  assert (WT : / 2 * w * dt = PI / 23) by (unfold w; field; lra). rewrite WT.
  set (B := sin (PI / 23) / (c0 * dt)).
  rewrite (iter_ext _ (fun k => k - numPhaseVelocityFunc (fun _ => d) (fun a => match a with ZDIR => / 2 * d | _ => 0 end) B k)).
  2:{ intros k. pose proof (npv_func_axis d B k 0 0 ZDIR true (al_zp 0 ltac:(lra))) as Q. cbv zeta in Q.
      replace (PI * 0 / 180) with 0 in Q by field. rewrite Q. reflexivity. }
  rewrite npv_iter by lra.
  set (r := d / (c0 * dt)). assert (CT : 0 < c0 * dt) by (apply Rmult_lt_0_compat; lra).
  assert (RR : 0 < r <= 23 / 8).
  { unfold r. split; [apply Rdiv_lt_0_compat; lra|]. apply (Rmult_le_reg_r (c0 * dt)); [lra|]. unfold Rdiv at 1. rewrite Rmult_assoc, Rinv_l by lra. lra. }
  assert (X0 : d * (w / c0) / 2 = r * (PI / 23)) by (unfold r, w; field; lra).
  assert (S0 : d * B = r * sin (PI / 23)) by (unfold B, r; field; lra).
  rewrite X0, S0.
  assert (SP : 0 < sin (PI / 23) <= PI / 23).
  { split; [apply sin_gt_0; lra|]. apply sin_ge_xcos. lra. }
  destruct (newton_iter (r * sin (PI / 23)) (r * (PI / 23)) 10) as [[P _] _].
  - split; [apply Rmult_lt_0_compat; lra|nra].
  - split; [apply Rmult_lt_0_compat; lra|]. apply Rmult_le_compat_l; lra.
  - apply Rdiv_lt_0_compat; [exact W|]. apply Rmult_lt_0_compat; [apply Rdiv_lt_0_compat; lra|exact P].
Qed.
Lemma rel_axis d dt th ph a fw : along th ph a fw -> numericalPhaseVelocity (fun _ => d) dt 0 0 <> 0 ->
  relPhaseVelocity (fun _ => d) dt th ph = 1.
Proof. intros H Z. unfold relPhaseVelocity. rewrite (npv_axis d dt th ph a fw H). field. exact Z. Qed.
