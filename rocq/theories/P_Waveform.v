(** C24 waveform shapes, C25 external waveforms, C51 documented waveforms. *)
From Coq Require Import ZArith List Bool Lia Reals Lra Psatz String.
From Verif Require Import Types Lang CArr Waveform SpecWave SplineProofs.
Import ListNotations.
Local Notation length := List.length.
Open Scope R_scope.

(** ** C25 *)
Lemma good_inc l : good_samples l -> forall i, (0 <= i < Z.of_nat (length l) - 1)%Z -> sampleT l i < sampleT l (i + 1).
Proof.
  intros (_ & H) i Hi. unfold sampleT. replace (Z.to_nat (i + 1)) with (S (Z.to_nat i)) by lia. apply H. lia.
Qed.

(** For every file with at least two samples at increasing times: the table is
    built without touching memory out of bounds; there is one function S, the
    clamped cubic spline through the samples, such that EVERY sequence of
    evaluations (any times, any delays, in any order) returns
    size * S(t - delay - waveform delay) inside the sampled range and 0
    outside, whatever happened before: no out-of-bounds access, no bisection
    failure, no dependence on the cached interval. *)
Theorem C25_external_waveform : forall l garbage, good_samples l ->
  let n := Z.of_nat (length l) in
  exists tbl S, initExternal l garbage = Some (Done tbl) /\
    clamped_spline n (sampleT l) (sampleY l) S /\
    forall w qs, exists vs, queries w tbl n qs 0 = Some (Done vs) /\
      Forall2 (fun q v => let tau := fst q - snd q - wDelay w in
        (sampleT l 0 <= tau <= sampleT l (n - 1) -> v = wSize w * S tau) /\
        (tau < sampleT l 0 \/ sampleT l (n - 1) < tau -> v = 0)) qs vs.
Proof.
  intros l g G n. pose proof (good_inc l G) as INC. destruct G as (N2 & _).
  assert (N2' : (2 <= n)%Z) by (unfold n; lia).
  destruct (createSplines_ok n (sampleT l) (sampleY l) N2' INC (loadTable l) g) as (D & E & LD & SYS); try reflexivity.
  exists (mkTable (tT (loadTable l)) (tY (loadTable l)) D), (spline n (sampleT l) (sampleY l) (adat D)).
  split; [exact E|]. split; [apply spline_clamped; auto|].
  intros w qs. cut (forall last, (0 <= last <= n - 2)%Z -> exists vs,
    queries w (mkTable (tT (loadTable l)) (tY (loadTable l)) D) n qs last = Some (Done vs) /\
      Forall2 (fun q v => let tau := fst q - snd q - wDelay w in
        (sampleT l 0 <= tau <= sampleT l (n - 1) -> v = wSize w * spline n (sampleT l) (sampleY l) (adat D) tau) /\
        (tau < sampleT l 0 \/ sampleT l (n - 1) < tau -> v = 0)) qs vs).
  { intros C. apply C. lia. }
  induction qs as [|(t & d) qs IH]; intros last HL.
  - exists []. split; [reflexivity|constructor].
  - cbn [queries]. unfold externalValue, externalWaveform. cbn [tT loadTable].
    rewrite !rd_ok by (cbn [alen]; fold n; lia). cbn [obind adat].
    change (fst (nth (Z.to_nat 0) l (0, 0))) with (sampleT l 0).
    change (fst (nth (Z.to_nat (n - 1)) l (0, 0))) with (sampleT l (n - 1)).
    set (tau := t - d - wDelay w).
    destruct (Rlt_dec tau (sampleT l 0)) as [A|A]; [|destruct (Rlt_dec (sampleT l (n - 1)) tau) as [B|B]].
    + cbn [obind]. destruct (IH last HL) as (vs & EQ & F). cbn [tT tY loadTable] in EQ. cbn [tT tY loadTable]. rewrite EQ. cbn [obind]. eexists. split; [reflexivity|].
      constructor; [|exact F]. cbv zeta. cbn [fst snd]. fold tau. split; [lra|intros; ring].
    + cbn [obind]. destruct (IH last HL) as (vs & EQ & F). cbn [tT tY loadTable] in EQ. cbn [tT tY loadTable]. rewrite EQ. cbn [obind]. eexists. split; [reflexivity|].
      constructor; [|exact F]. cbv zeta. cbn [fst snd]. fold tau. split; [lra|intros; ring].
    + destruct (evalSpline_ok n (sampleT l) (sampleY l) N2' INC (adat D) (mkTable (tT (loadTable l)) (tY (loadTable l)) D) tau last)
        as (k & EV & HK); try reflexivity; auto; [lra|].
      cbn [tT tY loadTable] in EV. cbn [tT tY loadTable]. rewrite EV. cbn [obind].
      destruct (IH k HK) as (vs & EQ & F). cbn [tT tY loadTable] in EQ. cbn [tT tY loadTable]. rewrite EQ. cbn [obind]. eexists. split; [reflexivity|].
      constructor; [|exact F]. cbv zeta. cbn [fst snd]. fold tau. split; [reflexivity|lra].
Qed.

Lemma F2_len {A B} (P : A -> B -> Prop) l l' : Forall2 P l l' -> length l = length l'.
Proof. induction 1; cbn; congruence. Qed.
(** In particular the sampled value is returned at each sample time, after any
    history. *)
Theorem C25_sample_values : forall l garbage, good_samples l ->
  exists tbl, initExternal l garbage = Some (Done tbl) /\
  forall w qs i, (i < length l)%nat ->
    let t := fst (nth i l (0, 0)) + wDelay w in
    exists vs, queries w tbl (Z.of_nat (length l)) (qs ++ [(t, 0)]) 0 = Some (Done vs) /\
      length vs = S (length qs) /\ nth (length qs) vs 0 = wSize w * snd (nth i l (0, 0)).
Proof.
  intros l g G. destruct (C25_external_waveform l g G) as (tbl & S & E & CS & Q). exists tbl. split; [exact E|].
  intros w qs i Hi t. destruct (Q w (qs ++ [(t, 0)])) as (vs & EV & F). exists vs. split; [exact EV|].
  apply Forall2_app_inv_l in F. destruct F as (v1 & v2 & F1 & F2 & ->).
  inversion F2 as [|a b c d H1 H2]; subst. inversion H2; subst. clear F2 H2.
  apply F2_len in F1. rewrite app_length. cbn [length]. split; [lia|].
  rewrite app_nth2 by lia. replace (length qs - length v1)%nat with 0%nat by lia. cbn [nth].
  cbv zeta in H1. cbn [fst snd] in H1. destruct H1 as (H1 & _).
  replace (t - 0 - wDelay w) with (sampleT l (Z.of_nat i)) in H1.
  2:{ unfold t, sampleT. rewrite Nat2Z.id. ring. }
  destruct CS as (c & _ & V & _). rewrite V in H1 by lia. unfold sampleY in H1. rewrite Nat2Z.id in H1. apply H1.
  pose proof (good_inc l G) as INC. split; eapply T_mono_le; try exact INC; lia.
Qed.

(** Files with fewer than two samples, or with times that do not increase, are
    rejected with an error. *)
Theorem C25_bad_file_rejected : forall l garbage, ~ good_samples l -> initExternal l garbage = Some Fatal.
Proof.
  intros l g NG. unfold initExternal, createSplines. set (n := Z.of_nat (length l)).
  destruct (Z.ltb_spec n 2) as [|L]; [reflexivity|].
  assert (M : monotone n (tT (loadTable l)) = Some false).
  2:{ rewrite M. reflexivity. }
  assert (X : exists i, (S i < length l)%nat /\ ~ fst (nth i l (0, 0)) < fst (nth (S i) l (0, 0))).
  { destruct (Classical_Prop.classic (exists i, (S i < length l)%nat /\ ~ fst (nth i l (0, 0)) < fst (nth (S i) l (0, 0)))) as [|C]; [assumption|].
    exfalso. apply NG. split; [unfold n in L; lia|]. intros i Hi. destruct (Rlt_dec (fst (nth i l (0, 0))) (fst (nth (S i) l (0, 0)))); [assumption|].
    exfalso. apply C. exists i. auto. }
  destruct X as (i & Hi & Bi). unfold monotone.
  destruct (cfor_inv (fun j (b : bool) => (Z.of_nat i + 1 < j)%Z -> b = false) 1 (n - 1)
    (fun b k => do x <- rd (tT (loadTable l)) k; do y <- rd (tT (loadTable l)) (k - 1); Some (b && negb (Rleb (x - y) 0))) true)
    as (b & E & I); [lia|lia| |rewrite E; f_equal; apply I; unfold n; lia].
  intros k b Hk I. cbn [tT loadTable]. rewrite !rd_ok by (cbn [alen]; fold n; lia). cbn [obind adat].
  eexists. split; [reflexivity|]. intros Hlt. destruct (Z.eq_dec k (Z.of_nat i + 1)) as [->|].
  - replace (Z.to_nat (Z.of_nat i + 1)) with (S i) by lia. replace (Z.to_nat (Z.of_nat i + 1 - 1)) with i by lia.
    unfold Rleb. destruct (Rle_dec _ 0) as [|C]; [rewrite andb_false_r; reflexivity|lra].
  - rewrite I by lia. reflexivity.
Qed.
Example C25_witness : good_samples [(0, 1); (1, 3); (4, 2)].
Proof. split; [cbn; lia|]. intros [|[|[|?]]] H; cbn in *; try lia; lra. Qed.

(** ** C24 *)
(** Gaussian pulse: the documented formula, between 0 and its size, symmetric
    about its delay, and largest there. *)
Lemma gauss_formula tau s : 0 < s -> gaussianPulse tau s = exp (- tau ^ 2 / (2 * s ^ 2)).
Proof. intros H. unfold gaussianPulse. f_equal. field. lra. Qed.
Theorem C24_gaussian : forall w d, wType w = GAUSSIAN_PULSE \/ wType w = NARROW_GAUSSIAN_PULSE -> 0 < wWidth w -> 0 <= wSize w ->
  let v t := match getWaveformValue w t d with Some x => x | None => 0 end in
  let t0 := d + wDelay w in
  (forall t, getWaveformValue w t d = Some (wSize w * exp (- (t - t0) ^ 2 / (2 * wWidth w ^ 2)))) /\
  (forall t, 0 <= v t <= wSize w) /\ v t0 = wSize w /\ (forall s, v (t0 + s) = v (t0 - s)) /\
  (forall s s', 0 <= s <= s' -> v (t0 + s') <= v (t0 + s)).
Proof.
  intros w d TY W S v t0.
  assert (F : forall t, getWaveformValue w t d = Some (wSize w * exp (- (t - t0) ^ 2 / (2 * wWidth w ^ 2)))).
  { intros t. unfold getWaveformValue. rewrite gauss_formula by exact W. unfold t0.
    replace (t - d - wDelay w) with (t - (d + wDelay w)) by ring. destruct TY as [-> | ->]; reflexivity. }
  assert (V : forall t, v t = wSize w * exp (- (t - t0) ^ 2 / (2 * wWidth w ^ 2))) by (intros t; unfold v; rewrite F; reflexivity).
  assert (P : 0 < 2 * wWidth w ^ 2) by nra.
  assert (I : 0 < / (2 * wWidth w ^ 2)) by (apply Rinv_0_lt_compat; exact P).
  assert (EX : forall a b, a <= b -> exp a <= exp b).
  { intros a b [H|H]; [left; apply exp_increasing; exact H|right; f_equal; exact H]. }
  split; [exact F|]. split; [|split; [|split]].
  - intros t. rewrite V. pose proof (exp_pos (- (t - t0) ^ 2 / (2 * wWidth w ^ 2))) as E.
    assert (E1 : exp (- (t - t0) ^ 2 / (2 * wWidth w ^ 2)) <= 1).
    { rewrite <- exp_0. apply EX. unfold Rdiv. pose proof (pow2_ge_0 (t - t0)). nra. }
    split; [nra|]. nra.
  - rewrite V. replace (- (t0 - t0) ^ 2 / (2 * wWidth w ^ 2)) with 0 by (field; lra). rewrite exp_0. ring.
  - intros s. rewrite !V. do 2 f_equal. field. lra.
  - intros s s' Hs. rewrite !V. apply Rmult_le_compat_l; [exact S|]. apply EX.
    replace (t0 + s' - t0) with s' by ring. replace (t0 + s - t0) with s by ring. unfold Rdiv.
    apply Rmult_le_compat_r; [lra|]. nra.
Qed.

(** Derivatives in the stdlib's sense. *)
Lemma dlim_eq f x l l' : derivable_pt_lim f x l -> l = l' -> derivable_pt_lim f x l'.
Proof. intros H <-. exact H. Qed.
Lemma dlim_ext_loc f g x l d : 0 < d -> (forall y, Rabs (y - x) < d -> f y = g y) -> derivable_pt_lim f x l -> derivable_pt_lim g x l.
Proof.
  intros D E H eps He. destruct (H eps He) as (del & Hd).
  assert (M : 0 < Rmin d del) by (apply Rmin_pos; [exact D|apply (cond_pos del)]).
  exists (mkposreal _ M). intros hh H0 Hh. cbn in Hh. rewrite <- !E.
  - apply Hd; [exact H0|]. eapply Rlt_le_trans; [exact Hh|apply Rmin_r].
  - rewrite Rminus_diag_eq by reflexivity. rewrite Rabs_R0. exact D.
  - replace (x + hh - x) with hh by ring. eapply Rlt_le_trans; [exact Hh|apply Rmin_l].
Qed.
(** affine pre-composition *)
Lemma dlim_affine f (a b x l : R) : derivable_pt_lim f (a * x + b) l -> derivable_pt_lim (fun t => f (a * t + b)) x (l * a).
Proof.
  intros H. apply (derivable_pt_lim_comp (fun t => a * t + b) f x a l); [|exact H].
  eapply dlim_eq.
  - apply (derivable_pt_lim_plus (fun t => a * t) (fun _ => b) x (a * 1) 0).
    + apply (derivable_pt_lim_scal id a x 1). apply derivable_pt_lim_id.
    + apply derivable_pt_lim_const.
  - ring.
Qed.
Lemma dlim_shift f t0 t l : derivable_pt_lim f (t - t0) l -> derivable_pt_lim (fun t => f (t - t0)) t l.
Proof.
  intros H. apply (dlim_ext_loc (fun t => f (1 * t + - t0)) _ t l 1); [lra|intros; f_equal; ring|].
  eapply dlim_eq; [apply dlim_affine; replace (1 * t + - t0) with (t - t0) by ring; exact H|ring].
Qed.
Lemma dlim_scale f (a x l : R) : derivable_pt_lim f x l -> derivable_pt_lim (fun t => a * f t) x (a * l).
Proof. apply derivable_pt_lim_scal. Qed.

Lemma dlim_gauss x s : 0 < s -> derivable_pt_lim (fun x => gaussianPulse x s) x (differentiatedGaussianPulse x s / s).
Proof.
  intros H. unfold gaussianPulse.
  eapply dlim_eq.
  - apply (derivable_pt_lim_comp (fun x => - / 2 * (x / s) ^ 2) exp x (- / (s * s) * x)).
    + apply (dlim_ext_loc (fun x => (- / 2 / (s * s)) * (x * x)) _ x _ 1); [lra|intros; field; lra|].
      eapply dlim_eq; [apply dlim_scale; apply (derivable_pt_lim_mult id id); apply derivable_pt_lim_id|].
      unfold id. field. lra.
    + apply derivable_pt_lim_exp.
  - unfold differentiatedGaussianPulse. field. lra.
Qed.
Lemma dlim_dgauss x s : 0 < s -> derivable_pt_lim (fun x => differentiatedGaussianPulse x s) x (- rickerWavelet x s / s).
Proof.
  intros H.
  apply (dlim_ext_loc (fun x => (- / s * x) * gaussianPulse x s) _ x _ 1); [lra| |].
  { intros. unfold differentiatedGaussianPulse, gaussianPulse. field. lra. }
  eapply dlim_eq.
  - apply (derivable_pt_lim_mult (fun x => - / s * x) (fun x => gaussianPulse x s) x (- / s * 1)).
    + apply (dlim_scale id). apply derivable_pt_lim_id.
    + apply dlim_gauss. exact H.
  - unfold differentiatedGaussianPulse, rickerWavelet, gaussianPulse. field. lra.
Qed.

Definition valueOf (w : WfItem) (d t : R) : R := match getWaveformValue w t d with Some x => x | None => 0 end.
Lemma valueOf_eq w d t x : getWaveformValue w t d = Some x -> valueOf w d t = x.
Proof. unfold valueOf. intros ->. reflexivity. Qed.
(** The derivative waveforms are derivatives: with the same parameters, the
    DIFF_GAUSSIAN_PULSE is width * d/dt GAUSSIAN_PULSE, and RICKER_WAVELET is
    minus width * d/dt DIFF_GAUSSIAN_PULSE, at every time. *)
Definition withType (w : WfItem) (ty : WfType) : WfItem := mkWf (wName w) ty (wSize w) (wDelay w) (wWidth w) (wFreq w).
Theorem C24_diff_gaussian : forall w d t, 0 < wWidth w ->
  derivable_pt_lim (valueOf (withType w GAUSSIAN_PULSE) d) t (valueOf (withType w DIFF_GAUSSIAN_PULSE) d t / wWidth w) /\
  derivable_pt_lim (valueOf (withType w DIFF_GAUSSIAN_PULSE) d) t (- valueOf (withType w RICKER_WAVELET) d t / wWidth w).
Proof.
  intros w d t W. unfold valueOf, getWaveformValue, withType. cbn [wType wSize wDelay wWidth].
  assert (SH : forall f l, derivable_pt_lim f (t - d - wDelay w) l -> derivable_pt_lim (fun t => wSize w * f (t - d - wDelay w)) t (wSize w * l)).
  { intros f l H. apply (dlim_scale (fun t => f (t - d - wDelay w))).
    apply (dlim_ext_loc (fun t => f (t - (d + wDelay w))) _ t l 1); [lra|intros; f_equal; ring|].
    apply dlim_shift. replace (t - (d + wDelay w)) with (t - d - wDelay w) by ring. exact H. }
  split.
  - eapply dlim_eq; [apply (SH (fun x => gaussianPulse x (wWidth w))); apply dlim_gauss; exact W|field; lra].
  - eapply dlim_eq; [apply (SH (fun x => differentiatedGaussianPulse x (wWidth w))); apply dlim_dgauss; exact W|field; lra].
Qed.

(** Compact pulse *)
Lemma cos2x x : cos (2 * x) = 1 - 2 * sin x ^ 2.
Proof. rewrite cos_2a. pose proof (sin2_cos2 x) as H. unfold Rsqr in H. nra. Qed.
Lemma cos4x x : cos (4 * x) = 1 - 8 * sin x ^ 2 + 8 * sin x ^ 4.
Proof. replace (4 * x) with (2 * (2 * x)) by ring. rewrite cos2x. rewrite sin_2a.
  pose proof (sin2_cos2 x) as H. unfold Rsqr in H.
  replace (1 - 2 * (2 * sin x * cos x) ^ 2) with (1 - 8 * (sin x * sin x) * (cos x * cos x)) by ring.
  replace (cos x * cos x) with (1 - sin x * sin x) by lra. ring. Qed.
Lemma cos6x x : cos (6 * x) = 1 - 18 * sin x ^ 2 + 48 * sin x ^ 4 - 32 * sin x ^ 6.
Proof.
  replace (6 * x) with (4 * x + 2 * x) by ring. rewrite cos_plus, cos4x, cos2x.
  replace (4 * x) with (2 * (2 * x)) by ring. rewrite (sin_2a (2 * x)), (sin_2a x), cos2x.
  pose proof (sin2_cos2 x) as H. unfold Rsqr in H.
  replace (2 * (2 * sin x * cos x) * (1 - 2 * sin x ^ 2) * (2 * sin x * cos x)) with
   (8 * (sin x * sin x) * (1 - 2 * sin x ^ 2) * (cos x * cos x)) by ring.
  replace (cos x * cos x) with (1 - sin x * sin x) by lra. ring.
Qed.
(** The cosine sum is a sixth power. *)
Lemma cosines_sin6 tau s : 0 < s ->
  1 / 32 * (10 - 15 * cos (PI / s * tau) + 6 * cos (2 * PI / s * tau) - cos (3 * PI / s * tau)) = sin (PI * tau / (2 * s)) ^ 6.
Proof.
  intros H. set (x := PI * tau / (2 * s)).
  replace (PI / s * tau) with (2 * x) by (unfold x; field; lra).
  replace (2 * PI / s * tau) with (4 * x) by (unfold x; field; lra).
  replace (3 * PI / s * tau) with (6 * x) by (unfold x; field; lra).
  rewrite cos2x, cos4x, cos6x. field.
Qed.
Lemma pow6_bounds x : -1 <= x <= 1 -> 0 <= x ^ 6 <= 1.
Proof.
  intros H. replace (x ^ 6) with ((x * x) ^ 3) by ring. assert (0 <= x * x <= 1) by nra.
  set (y := x * x) in *. split; [apply pow_le; lra|]. rewrite <- (pow1 3). apply pow_incr. lra.
Qed.
Lemma compact_alt tau s : 0 < s -> compactPulse tau s =
  if Rle_dec tau 0 then 0 else if Rlt_dec tau (2 * s) then sin (PI * tau / (2 * s)) ^ 6 else 0.
Proof. intros H. unfold compactPulse. rewrite cosines_sin6 by exact H. reflexivity. Qed.
Lemma compact_bounds tau s : 0 < s -> 0 <= compactPulse tau s <= 1.
Proof.
  intros H. rewrite compact_alt by exact H. destruct (Rle_dec tau 0); [lra|]. destruct (Rlt_dec tau (2 * s)); [|lra].
  apply pow6_bounds. pose proof (SIN_bound (PI * tau / (2 * s))). lra.
Qed.
Lemma compact_sym s x : 0 < s -> compactPulse (s + x) s = compactPulse (s - x) s.
Proof.
  intros H. rewrite !compact_alt by exact H.
  assert (E : sin (PI * (s + x) / (2 * s)) = sin (PI * (s - x) / (2 * s))).
  { replace (PI * (s + x) / (2 * s)) with (PI - PI * (s - x) / (2 * s)) by (field; lra). apply sin_PI_x. }
  rewrite E. destruct (Rle_dec (s + x) 0), (Rle_dec (s - x) 0), (Rlt_dec (s + x) (2 * s)), (Rlt_dec (s - x) (2 * s)); try lra.
Qed.
Theorem C24_compact : forall w d, wType w = COMPACT_PULSE -> 0 < wWidth w -> 0 <= wSize w ->
  let v := valueOf w d in let t0 := d + wDelay w in
  (forall t, t0 < t < t0 + 2 * wWidth w -> v t = wSize w * sin (PI * (t - t0) / (2 * wWidth w)) ^ 6) /\
  (forall t, t <= t0 \/ t0 + 2 * wWidth w <= t -> v t = 0) /\
  (forall t, 0 <= v t <= wSize w) /\ v (t0 + wWidth w) = wSize w /\
  (forall s, v (t0 + wWidth w + s) = v (t0 + wWidth w - s)).
Proof.
  intros w d TY W S v t0.
  assert (V : forall t, v t = wSize w * compactPulse (t - t0) (wWidth w)).
  { intros t. apply valueOf_eq. unfold getWaveformValue. rewrite TY. unfold t0. do 3 f_equal. ring. }
  split; [|split; [|split; [|split]]].
  - intros t Ht. rewrite V, compact_alt by exact W. destruct (Rle_dec (t - t0) 0); [lra|].
    destruct (Rlt_dec (t - t0) (2 * wWidth w)); [reflexivity|lra].
  - intros t Ht. rewrite V. unfold compactPulse. destruct (Rle_dec (t - t0) 0); [ring|].
    destruct (Rlt_dec (t - t0) (2 * wWidth w)); [lra|ring].
  - intros t. rewrite V. pose proof (compact_bounds (t - t0) (wWidth w) W). nra.
  - rewrite V, compact_alt by exact W. replace (t0 + wWidth w - t0) with (wWidth w) by ring.
    destruct (Rle_dec (wWidth w) 0); [lra|]. destruct (Rlt_dec (wWidth w) (2 * wWidth w)); [|lra].
    replace (PI * wWidth w / (2 * wWidth w)) with (PI / 2) by (field; lra). rewrite sin_PI2. ring.
  - intros s. rewrite !V. f_equal. replace (t0 + wWidth w + s - t0) with (wWidth w + s) by ring.
    replace (t0 + wWidth w - s - t0) with (wWidth w - s) by ring. apply compact_sym. exact W.
Qed.

(** d/dt of the compact pulse, at every time including both ends. *)
Lemma abs_sin_le x : Rabs (sin x) <= Rabs x.
Proof.
  destruct (Rle_dec 0 x) as [H|H].
  - rewrite (Rabs_pos_eq x) by lra. apply Rabs_le. split.
    + destruct (Rle_dec x PI).
      * pose proof (sin_ge_0 x H r). lra.
      * pose proof (SIN_bound x). pose proof PI2_1. lra.
    + destruct H as [H|<-]; [left; apply sin_lt_x; exact H|rewrite sin_0; lra].
  - rewrite (Rabs_left x) by lra. rewrite <- (Ropp_involutive x), sin_neg, Rabs_Ropp. rewrite Ropp_involutive.
    assert (P : 0 < - x) by lra. apply Rabs_le. split.
    + destruct (Rle_dec (- x) PI).
      * pose proof (sin_ge_0 (- x) ltac:(lra) r). lra.
      * pose proof (SIN_bound (- x)). pose proof PI2_1. lra.
    + left. apply sin_lt_x. exact P.
Qed.
Lemma flat_lim f x K : 0 <= K -> f x = 0 -> (forall e, Rabs (f (x + e)) <= K * (e * e)) -> derivable_pt_lim f x 0.
Proof.
  intros HK F0 B eps He. assert (D : 0 < eps / (K + 1)) by (apply Rdiv_lt_0_compat; lra).
  exists (mkposreal _ D). intros e E0 E1. cbn in E1. rewrite F0, !Rminus_0_r. unfold Rdiv. rewrite Rabs_mult, Rabs_inv.
  assert (PE : 0 < Rabs e) by (apply Rabs_pos_lt; exact E0).
  apply Rmult_lt_reg_r with (Rabs e); [exact PE|]. rewrite Rmult_assoc, Rinv_l by lra. rewrite Rmult_1_r.
  eapply Rle_lt_trans; [apply B|]. replace (e * e) with (Rabs e * Rabs e).
  2:{ rewrite <- Rabs_mult. apply Rabs_pos_eq. nra. }
  assert (Q : Rabs e * (K + 1) < eps).
  { apply Rmult_lt_reg_r with (/ (K + 1)); [apply Rinv_0_lt_compat; lra|]. rewrite Rmult_assoc, Rinv_r by lra. unfold Rdiv in E1. lra. }
  nra.
Qed.
Lemma dlim_compact x s : 0 < s -> derivable_pt_lim (fun x => compactPulse x s) x (PI / s * differentiatedCompactPulse x s).
Proof.
  intros H.
  (* ends *)
  assert (FLAT : forall e0, (e0 = 0 \/ e0 = 2 * s) -> derivable_pt_lim (fun x => compactPulse x s) e0 0).
  { intros e0 HE. apply flat_lim with (K := (PI / (2 * s)) ^ 2).
    - apply pow2_ge_0.
    - unfold compactPulse. destruct HE as [-> | ->].
      + destruct (Rle_dec 0 0); [reflexivity|lra].
      + destruct (Rle_dec (2 * s) 0); [reflexivity|]. destruct (Rlt_dec (2 * s) (2 * s)); [lra|reflexivity].
    - intros e. rewrite compact_alt by exact H.
      assert (Z0 : 0 <= (PI / (2 * s)) ^ 2 * (e * e)) by (pose proof (pow2_ge_0 (PI / (2 * s) * e)); nra).
      destruct (Rle_dec (e0 + e) 0); [rewrite Rabs_R0; exact Z0|].
      destruct (Rlt_dec (e0 + e) (2 * s)); [|rewrite Rabs_R0; exact Z0].
      set (z := sin (PI * (e0 + e) / (2 * s))).
      assert (AZ : Rabs z <= Rabs (PI * e / (2 * s))).
      { unfold z. destruct HE as [-> | ->].
        - replace (PI * (0 + e) / (2 * s)) with (PI * e / (2 * s)) by (field; lra). apply abs_sin_le.
        - replace (PI * (2 * s + e) / (2 * s)) with (PI * e / (2 * s) + PI) by (field; lra). rewrite neg_sin, Rabs_Ropp. apply abs_sin_le. }
      assert (ZB : -1 <= z <= 1) by (unfold z; apply SIN_bound).
      assert (Z2 : z * z <= (PI * e / (2 * s)) * (PI * e / (2 * s))).
      { apply Rsqr_le_abs_1 in AZ. exact AZ. }
      pose proof (pow6_bounds z ZB) as P6. rewrite Rabs_pos_eq by lra.
      assert (Z6 : z ^ 6 <= z * z).
      { replace (z ^ 6) with ((z * z) * ((z * z) * (z * z))) by ring. assert (ZZ : 0 <= z * z <= 1) by nra. clear - ZZ. set (q := z * z) in *. clearbody q. assert (q * q <= 1) by nra. nra. }
      replace ((PI / (2 * s)) ^ 2 * (e * e)) with ((PI * e / (2 * s)) * (PI * e / (2 * s))) by (field; lra). lra. }
  assert (DZ : forall y, y <= 0 \/ 2 * s <= y -> differentiatedCompactPulse y s = 0).
  { intros y Hy. unfold differentiatedCompactPulse. destruct (Rle_dec y 0); [reflexivity|]. destruct (Rlt_dec y (2 * s)); [exfalso; lra|reflexivity]. }
  destruct (Rtotal_order x 0) as [L|[E|L]].
  - rewrite DZ by lra. rewrite Rmult_0_r. apply (dlim_ext_loc (fun _ => 0) _ x 0 (- x)); [lra| |apply derivable_pt_lim_const].
    intros y Hy. apply Rabs_def2 in Hy. unfold compactPulse. destruct (Rle_dec y 0); [reflexivity|lra].
  - subst x. rewrite DZ by lra. rewrite Rmult_0_r. apply FLAT. auto.
  - destruct (Rtotal_order x (2 * s)) as [L2|[E|L2]].
    + apply (dlim_ext_loc (fun t => 1 / 32 * (10 - 15 * cos (PI / s * t + 0) + 6 * cos (2 * PI / s * t + 0) - cos (3 * PI / s * t + 0)))
         _ x _ (Rmin x (2 * s - x))); [apply Rmin_pos; lra| |].
      * intros y Hy. assert (Y1 : Rabs (y - x) < x) by (eapply Rlt_le_trans; [exact Hy|apply Rmin_l]).
        assert (Y2 : Rabs (y - x) < 2 * s - x) by (eapply Rlt_le_trans; [exact Hy|apply Rmin_r]).
        apply Rabs_def2 in Y1. apply Rabs_def2 in Y2. unfold compactPulse. destruct (Rle_dec y 0); [lra|]. destruct (Rlt_dec y (2 * s)); [|lra].
        rewrite !Rplus_0_r. reflexivity.
      * assert (C : forall a, derivable_pt_lim (fun t => cos (a * t + 0)) x (- sin (a * x) * a)).
        { intros a. eapply dlim_eq; [apply dlim_affine; apply derivable_pt_lim_cos|]. rewrite Rplus_0_r. reflexivity. }
        eapply dlim_eq.
        -- apply dlim_scale.
           apply (derivable_pt_lim_minus (fun t => 10 - 15 * cos (PI / s * t + 0) + 6 * cos (2 * PI / s * t + 0)) (fun t => cos (3 * PI / s * t + 0))); [|apply C].
           apply (derivable_pt_lim_plus (fun t => 10 - 15 * cos (PI / s * t + 0)) (fun t => 6 * cos (2 * PI / s * t + 0))); [|apply dlim_scale; apply C].
           apply (derivable_pt_lim_minus (fun t => 10) (fun t => 15 * cos (PI / s * t + 0))); [apply derivable_pt_lim_const|apply dlim_scale; apply C].
        -- unfold differentiatedCompactPulse. destruct (Rle_dec x 0); [lra|]. destruct (Rlt_dec x (2 * s)); [|lra]. field. lra.
    + subst x. rewrite DZ by lra. rewrite Rmult_0_r. apply FLAT. auto.
    + rewrite DZ by lra. rewrite Rmult_0_r. apply (dlim_ext_loc (fun _ => 0) _ x 0 (x - 2 * s)); [lra| |apply derivable_pt_lim_const].
      intros y Hy. apply Rabs_def2 in Hy. unfold compactPulse. destruct (Rle_dec y 0); [reflexivity|]. destruct (Rlt_dec y (2 * s)); [lra|reflexivity].
Qed.
(** DIFF_COMPACT_PULSE is (width / pi) * d/dt COMPACT_PULSE at every time. *)
Theorem C24_diff_compact : forall w d t, 0 < wWidth w ->
  derivable_pt_lim (valueOf (withType w COMPACT_PULSE) d) t (PI / wWidth w * valueOf (withType w DIFF_COMPACT_PULSE) d t).
Proof.
  intros w d t W. unfold valueOf, getWaveformValue, withType. cbn [wType wSize wDelay wWidth].
  eapply dlim_eq.
  - apply (dlim_scale (fun t => compactPulse (t - d - wDelay w) (wWidth w))).
    apply (dlim_ext_loc (fun t => compactPulse (t - (d + wDelay w)) (wWidth w)) _ t _ 1); [lra|intros; f_equal; ring|].
    apply (dlim_shift (fun x => compactPulse x (wWidth w))). apply dlim_compact. exact W.
  - replace (t - (d + wDelay w)) with (t - d - wDelay w) by ring. ring.
Qed.

(** Modulated pulses are the pulse times a sine of the waveform's own time;
    the ramped sinusoid is 0 before its start, a pure sine from [width] on, and
    in between the sine times the rising edge of the compact pulse, which is
    between 0 and 1 and non-decreasing. *)
Theorem C24_modulated : forall w d t, 0 < wWidth w ->
  let tau := t - d - wDelay w in
  valueOf (withType w MOD_GAUSSIAN_PULSE) d t = valueOf (withType w GAUSSIAN_PULSE) d t * sin (2 * PI * wFreq w * tau) /\
  valueOf (withType w MOD_COMPACT_PULSE) d t = valueOf (withType w COMPACT_PULSE) d t * sin (2 * PI * wFreq w * tau) /\
  (tau <= 0 -> valueOf (withType w RAMPED_SINUSOID) d t = 0) /\
  (0 < tau < wWidth w -> valueOf (withType w RAMPED_SINUSOID) d t = valueOf (withType w COMPACT_PULSE) d t * sin (2 * PI * wFreq w * tau)) /\
  (wWidth w <= tau -> valueOf (withType w RAMPED_SINUSOID) d t = wSize w * sin (2 * PI * wFreq w * tau)).
Proof.
  intros w d t W tau. unfold valueOf, getWaveformValue, withType. cbn [wType wSize wDelay wWidth wFreq]. fold tau.
  split; [unfold modulatedGaussianPulse, gaussianPulse; ring|].
  split; [unfold modulatedCompactPulse, compactPulse; cbv zeta; ring|].
  unfold rampedSinusoid, compactPulse. cbv zeta. split; [|split]; intros HT.
  - destruct (Rle_dec tau 0); [ring|lra].
  - destruct (Rle_dec tau 0); [lra|]. destruct (Rlt_dec tau (1 * wWidth w)); [|lra]. destruct (Rlt_dec tau (2 * wWidth w)); [ring|lra].
  - destruct (Rle_dec tau 0); [lra|]. destruct (Rlt_dec tau (1 * wWidth w)); [lra|]. ring.
Qed.
Theorem C24_ramp_monotone : forall w d t t', wType w = COMPACT_PULSE -> 0 < wWidth w -> 0 <= wSize w ->
  let t0 := d + wDelay w in t0 <= t <= t' -> t' <= t0 + wWidth w -> valueOf w d t <= valueOf w d t'.
Proof.
  intros w d t t' TY W S t0 H1 H2. unfold valueOf, getWaveformValue. rewrite TY. apply Rmult_le_compat_l; [exact S|].
  replace (t - d - wDelay w) with (t - t0) by (unfold t0; ring). replace (t' - d - wDelay w) with (t' - t0) by (unfold t0; ring).
  rewrite !compact_alt by exact W. set (s := wWidth w) in *.
  destruct (Rle_dec (t - t0) 0).
  - destruct (Rle_dec (t' - t0) 0); [lra|]. destruct (Rlt_dec (t' - t0) (2 * s)); [|lra]. apply pow6_bounds. apply SIN_bound.
  - destruct (Rle_dec (t' - t0) 0); [lra|]. destruct (Rlt_dec (t - t0) (2 * s)); [|lra]. destruct (Rlt_dec (t' - t0) (2 * s)); [|lra].
    assert (A : forall y, 0 <= y <= s -> 0 <= PI * y / (2 * s) <= PI / 2).
    { intros y Hy. pose proof PI_RGT_0. replace (PI * y / (2 * s)) with (PI / 2 * (y / s)) by (field; lra).
      assert (0 <= y / s <= 1).
      { split; [apply Rmult_le_pos; [lra|left; apply Rinv_0_lt_compat; lra]|].
        apply Rmult_le_reg_r with s; [lra|]. unfold Rdiv. rewrite Rmult_assoc, Rinv_l by lra. lra. }
      nra. }
    pose proof (A (t - t0) ltac:(lra)) as A1. pose proof (A (t' - t0) ltac:(lra)) as A2. pose proof PI_RGT_0 as PP.
    apply pow_incr. split.
    + apply sin_ge_0; lra.
    + apply sin_incr_1; try lra. unfold Rdiv. apply Rmult_le_compat_r; [left; apply Rinv_0_lt_compat; lra|]. nra.
Qed.

(** ** C51 *)
(** A WF card of a built-in type, other than NARROW_GAUSSIAN_PULSE without a
    width, gives a waveform with exactly the parameters on the card, and the
    documented defaults for those left out - provided a given delay is not
    negative. *)
Theorem C51_parameters_partial : forall l name ty args l' dt def, 0 < dt ->
  parseWF l name ty args = Some l' -> manual_defaults ty dt = Some def -> (length args <= 4)%nat ->
  (forall d, nth_error args 1 = Some d -> 0 <= d) ->
  (ty = "NARROW_GAUSSIAN_PULSE"%string -> (3 <= length args)%nat) ->
  let '(s0, d0, w0, f0) := def in
  exists it, l' = l ++ [it] /\ wName it = name /\
    let it' := initWaveform dt it in
    wName it' = name /\ findWfType ty = Some (wType it') /\
    wSize it' = or_default args 0 s0 /\ wDelay it' = or_default args 1 d0 /\ wWidth it' = or_default args 2 w0 /\
    (ty = "MOD_GAUSSIAN_PULSE" \/ ty = "MOD_COMPACT_PULSE" \/ ty = "RAMPED_SINUSOID" -> wFreq it' = or_default args 3 f0)%string.
Proof.
  intros l name ty args l' dt def DT P MD LA ND NW. unfold parseWF in P.
  destruct (isWaveform l name); [discriminate|].
  assert (SP : (given args 0 && Rltb (arg args 0) 0 = false -> forall d, dflt (arg args 0) d = or_default args 0 d)).
  { intros H d. unfold dflt, or_default, arg in *. destruct args as [|a args]; cbn in *.
    - destruct (Rlt_dec (-1) 0); [reflexivity|lra].
    - unfold Rltb in H. destruct (Rlt_dec a 0); [discriminate|reflexivity]. }
  assert (DP : forall d, dflt (arg args 1) d = or_default args 1 d).
  { intros d. unfold dflt, or_default, arg. destruct args as [|a [|b args]]; cbn in *; try (destruct (Rlt_dec (-1) 0); [reflexivity|lra]).
    specialize (ND b eq_refl). destruct (Rlt_dec b 0); [lra|reflexivity]. }
  assert (GP : forall i, (given args i && Rleb (arg args i) 0 = false -> forall d, dflt (arg args i) d = or_default args i d)).
  { intros i H d. unfold dflt, or_default, arg, given in *. destruct (Nat.ltb_spec i (length args)) as [L|L].
    - rewrite (nth_indep args d (-1)) by exact L. cbn [andb] in H. unfold Rleb in H. destruct (Rle_dec (nth i args (-1)) 0); [discriminate|].
      destruct (Rlt_dec (nth i args (-1)) 0); [lra|reflexivity].
    - rewrite !nth_overflow by lia. destruct (Rlt_dec (-1) 0); [reflexivity|lra]. }
  assert (FR : 5 / 100 / dt = 1 / (20 * dt)) by (field; lra).
  assert (MAIN : forall T, findWfType ty = Some T -> T <> EXTERNAL ->
     exists it, l' = l ++ [it] /\ it = mkWf name T (arg args 0) (arg args 1) (arg args 2) (arg args 3) /\
       given args 0 && Rltb (arg args 0) 0 = false /\ given args 2 && Rleb (arg args 2) 0 = false /\ given args 3 && Rleb (arg args 3) 0 = false).
  { intros T F NE. rewrite F in P.
    destruct (given args 0 && Rltb (arg args 0) 0), (given args 2 && Rleb (arg args 2) 0), (given args 3 && Rleb (arg args 3) 0);
      destruct T; try discriminate; try congruence; injection P as <-; eexists; repeat split. }
  unfold manual_defaults in MD.
  Ltac c51 MAIN SP DP GP FR DT :=
    let it := fresh in let H1 := fresh in let H2 := fresh in let A := fresh in let B := fresh in let C := fresh in
    destruct (MAIN _ eq_refl ltac:(discriminate)) as (it & H1 & H2 & A & B & C); exists it; split; [exact H1|]; subst it;
    cbn [wName]; split; [reflexivity|]; unfold initWaveform; cbn [wType wName wSize wDelay wWidth wFreq snd];
    repeat split; auto; try (rewrite ?FR; apply GP; assumption); try (intros [?|[?|?]]; discriminate); try (intros _; rewrite FR; apply GP; assumption).
  destruct (String.eqb_spec ty "GAUSSIAN_PULSE") as [->|_]; [solve [injection MD as <-; c51 MAIN SP DP GP FR DT]|].
  destruct (String.eqb_spec ty "NARROW_GAUSSIAN_PULSE") as [->|_].
  { injection MD as <-. specialize (NW eq_refl).
    destruct (MAIN _ eq_refl ltac:(discriminate)) as (it & H1 & H2 & A & B & C); exists it; split; [exact H1|]; subst it.
    cbn [wName]; split; [reflexivity|]; unfold initWaveform; cbn [wType wName wSize wDelay wWidth wFreq snd].
    repeat split; auto; try (intros [?|[?|?]]; discriminate).
    rewrite GP by assumption. unfold or_default. apply nth_indep. lia. }
  destruct (String.eqb_spec ty "DIFF_GAUSSIAN_PULSE") as [->|_]; [solve [injection MD as <-; c51 MAIN SP DP GP FR DT]|].
  destruct (String.eqb_spec ty "RICKER_WAVELET") as [->|_]; [solve [injection MD as <-; c51 MAIN SP DP GP FR DT]|].
  destruct (String.eqb_spec ty "COMPACT_PULSE") as [->|_]; [solve [injection MD as <-; c51 MAIN SP DP GP FR DT]|].
  destruct (String.eqb_spec ty "DIFF_COMPACT_PULSE") as [->|_]; [solve [injection MD as <-; c51 MAIN SP DP GP FR DT]|].
  destruct (String.eqb_spec ty "RAMPED_SINUSOID") as [->|_]; [solve [injection MD as <-; c51 MAIN SP DP GP FR DT]|].
  destruct (String.eqb_spec ty "MOD_GAUSSIAN_PULSE") as [->|_]; [solve [injection MD as <-; c51 MAIN SP DP GP FR DT]|].
  destruct (String.eqb_spec ty "MOD_COMPACT_PULSE") as [->|_]; [solve [injection MD as <-; c51 MAIN SP DP GP FR DT]|].
  discriminate.
Qed.

(** The unrestricted statement "parameters on the card are used, others take
    the documented default" is false: a negative delay is accepted but replaced
    by the default... *)
Theorem C51_negative_delay_refuted : forall dt, 0 < dt ->
  exists l', parseWF [] "w" "GAUSSIAN_PULSE" [1; -5] = Some l' /\
    map (fun it => wDelay (initWaveform dt it)) l' = [40 * dt] /\ 40 * dt <> -5.
Proof.
  intros dt DT. unfold parseWF. cbn. unfold Rltb. destruct (Rlt_dec 1 0); [lra|]. eexists. split; [reflexivity|].
  cbn. unfold dflt. destruct (Rlt_dec (-5) 0); [|lra]. split; [reflexivity|lra].
Qed.
(** ... and the default width of NARROW_GAUSSIAN_PULSE is 8 dt, not 2 dt. *)
Theorem C51_narrow_width_refuted : forall dt, 0 < dt ->
  exists l', parseWF [] "w" "NARROW_GAUSSIAN_PULSE" [] = Some l' /\
    manual_defaults "NARROW_GAUSSIAN_PULSE" dt = Some (1, 12 * dt, 2 * dt, 0) /\
    map (fun it => wWidth (initWaveform dt it)) l' = [8 * dt] /\ 8 * dt <> 2 * dt.
Proof.
  intros dt DT. eexists. split; [reflexivity|]. split; [reflexivity|]. cbn. unfold dflt. destruct (Rlt_dec (-1) 0); [split; [reflexivity|lra]|lra].
Qed.
(** The documented RICKER_WAVELET is width * d/dt DIFF_GAUSSIAN_PULSE; the code
    returns the opposite sign (see C24_diff_gaussian). *)
Theorem C51_ricker_sign_refuted : ~ (forall w d t, 0 < wWidth w -> 0 < wSize w ->
  derivable_pt_lim (valueOf (withType w DIFF_GAUSSIAN_PULSE) d) t (valueOf (withType w RICKER_WAVELET) d t / wWidth w)).
Proof.
  intros H. set (w := mkWf "w" GAUSSIAN_PULSE 1 0 1 0).
  specialize (H w 0 0 ltac:(cbn; lra) ltac:(cbn; lra)). destruct (C24_diff_gaussian w 0 0 ltac:(cbn; lra)) as (_ & Q).
  pose proof (uniqueness_limite _ _ _ _ H Q) as U. unfold valueOf, getWaveformValue, withType, w in U. cbn [wType wSize wDelay wWidth] in U.
  unfold rickerWavelet in U. replace ((0 - 0 - 0) / 1) with 0 in U by field. replace (- / 2 * 0 ^ 2) with 0 in U by ring.
  rewrite exp_0 in U. lra.
Qed.
(** The documented DIFF_COMPACT_PULSE is width * d/dt COMPACT_PULSE; the code
    returns 1/pi of that (see C24_diff_compact). *)
Theorem C51_diff_compact_factor_refuted : ~ (forall w d t, 0 < wWidth w -> 0 < wSize w ->
  derivable_pt_lim (valueOf (withType w COMPACT_PULSE) d) t (valueOf (withType w DIFF_COMPACT_PULSE) d t / wWidth w)).
Proof.
  intros H. set (w := mkWf "w" GAUSSIAN_PULSE 1 0 1 0).
  specialize (H w 0 (1 / 2) ltac:(cbn; lra) ltac:(cbn; lra)). pose proof (C24_diff_compact w 0 (1 / 2) ltac:(cbn; lra)) as Q.
  pose proof (uniqueness_limite _ _ _ _ H Q) as U. unfold valueOf, getWaveformValue, withType, w in U. cbn [wType wSize wDelay wWidth] in U.
  assert (V : differentiatedCompactPulse (1 / 2 - 0 - 0) 1 = 12 / 32).
  { unfold differentiatedCompactPulse. replace (1 / 2 - 0 - 0) with (1 / 2) by ring. destruct (Rle_dec (1 / 2) 0); [lra|]. destruct (Rlt_dec (1 / 2) (2 * 1)); [|lra].
    replace (PI / 1 * (1 / 2)) with (PI / 2) by field. replace (2 * PI / 1 * (1 / 2)) with PI by field.
    replace (3 * PI / 1 * (1 / 2)) with (3 * (PI / 2)) by field. rewrite sin_PI2, sin_PI, sin_3PI2. field. }
  rewrite V in U. pose proof PI2_1. lra.
Qed.
