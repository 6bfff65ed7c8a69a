(** The discrete curl is bounded by the Courant limit also when fields do not
    vanish at the walls: end nodes of a line count half.  Proofs. *)
From Coq Require Import ZArith List Bool Lia Reals Lra.
From Verif Require Import Types Lang LangProofs BBox Grid SpecGrid SpecPhys SpecEnergy Energy Stable BoxEnergy.
Import ListNotations.
Open Scope R_scope.
Local Arguments Z.mul : simpl never.
Local Arguments Z.add : simpl never.
Local Arguments Z.sub : simpl never.

Lemma wt_pos lo hi n : 0 < wt lo hi n. Proof. unfold wt. destruct (_ || _)%bool; lra. Qed.
Lemma wt_lo lo hi : wt lo hi lo = / 2. Proof. unfold wt. rewrite Z.eqb_refl. reflexivity. Qed.
Lemma wt_hi lo hi : wt lo hi hi = / 2. Proof. unfold wt. rewrite Z.eqb_refl, orb_true_r. reflexivity. Qed.
Lemma wt_in lo hi n : (lo < n < hi)%Z -> wt lo hi n = 1.
Proof.
  intros H. unfold wt. replace (n =? lo)%Z with false by (symmetry; apply Z.eqb_neq; lia).
  replace (n =? hi)%Z with false by (symmetry; apply Z.eqb_neq; lia). reflexivity.
Qed.

(** ** One line of the mesh *)
Section Line.
Variables (lo hi : Z) (d h : Z -> R) (mn : R).
Hypothesis LT : (lo < hi)%Z.
Hypothesis M0 : 0 < mn.
Hypothesis D : forall n, (lo <= n < hi)%Z -> mn <= d n.
Hypothesis HI : forall n, (lo < n < hi)%Z -> h n = (d (n - 1)%Z + d n) / 2.
Hypothesis HL : h lo = d lo.
Hypothesis HH : h hi = d (hi - 1)%Z.

Lemma half_end a : mn <= a -> 2 * / a <= 4 * / (mn * mn) * (/ 2 * a).
Proof.
  intros A. pose proof (inv2 mn M0 a a A A) as X. lra.
Qed.
Lemma wedge_aux (u : Z -> R) n : (lo + 1 + Z.of_nat n <= hi)%Z ->
  sumZ lo (lo + Z.of_nat n) (fun k => 2 * (u (k+1)%Z * u (k+1)%Z) * / d k + 2 * (u k * u k) * / d k)
  <= 4 * / (mn * mn) * sumZ lo (lo + Z.of_nat n) (fun k => wt lo hi k * h k * (u k * u k))
     + 2 * (u (lo + Z.of_nat n + 1)%Z * u (lo + Z.of_nat n + 1)%Z) * / d (lo + Z.of_nat n)%Z.
Proof.
  induction n; intros L.
  - replace (lo + Z.of_nat 0)%Z with lo by lia. do 2 rewrite (sumZ_snoc lo lo) by lia. do 2 rewrite (sumZ_empty lo (lo-1)) by lia.
    rewrite wt_lo, HL. pose proof (half_end (d lo) (D lo ltac:(lia))) as I. pose proof (sq_nn (u lo)) as P. set (s := u lo * u lo) in *.
    assert (Y := Rmult_le_compat_r s _ _ P I). lra.
  - specialize (IHn ltac:(lia)).
    replace (lo + Z.of_nat (S n))%Z with (lo + Z.of_nat n + 1)%Z by lia.
    set (q := (lo + Z.of_nat n)%Z) in *.
    rewrite (sumZ_snoc lo (q + 1)), (sumZ_snoc lo (q + 1) (fun k => wt lo hi k * h k * (u k * u k))) by lia. replace (q + 1 - 1)%Z with q by lia.
    pose proof (inv2 mn M0 (d q) (d (q + 1)%Z) (D q ltac:(lia)) (D (q+1)%Z ltac:(lia))) as I.
    rewrite (wt_in lo hi (q+1)%Z) by lia.
    rewrite (HI (q + 1)%Z) by lia. replace (q + 1 - 1)%Z with q by lia.
    pose proof (sq_nn (u (q+1)%Z)) as P. set (s := u (q+1)%Z * u (q+1)%Z) in *.
    assert (Y := Rmult_le_compat_r s _ _ P I). lra.
Qed.
Lemma wedge_diff (u : Z -> R) :
  sumZ lo (hi - 1) (fun k => (u (k+1)%Z - u k) * (u (k+1)%Z - u k) * / d k)
  <= 4 * / (mn * mn) * sumZ lo hi (fun k => wt lo hi k * h k * (u k * u k)).
Proof.
  rewrite (sumZ_snoc lo hi) by lia. rewrite wt_hi, HH.
  pose proof (wedge_aux u (Z.to_nat (hi - lo - 1)) ltac:(lia)) as X.
  replace (lo + Z.of_nat (Z.to_nat (hi - lo - 1)))%Z with (hi - 1)%Z in X by lia.
  replace (hi - 1 + 1)%Z with hi in X by lia.
  pose proof (half_end (d (hi-1)%Z) (D (hi-1)%Z ltac:(lia))) as I. pose proof (sq_nn (u hi)) as P. 
  assert (Y := Rmult_le_compat_r _ _ _ P I).
  eapply Rle_trans; [|eapply Rle_trans; [exact X|]]; [|lra].
  apply sumZ_le. intros k Hk. assert (0 < / d k). { apply Rinv_0_lt_compat. assert (mn <= d k) by (apply D; lia). lra. }
  pose proof (sq_sub (u (k+1)%Z) (u k)). nra.
Qed.
Lemma wnode_aux (u : Z -> R) n : (lo + Z.of_nat n < hi)%Z ->
  sumZ (lo + 1) (lo + Z.of_nat n) (fun k => (u k - u (k-1)%Z) * (u k - u (k-1)%Z) * / h k)
  + 2 * / (mn * mn) * (d lo * (u lo * u lo))
  + 2 * / (mn * mn) * (d (lo + Z.of_nat n)%Z * (u (lo + Z.of_nat n)%Z * u (lo + Z.of_nat n)%Z))
  <= 4 * / (mn * mn) * sumZ lo (lo + Z.of_nat n) (fun k => d k * (u k * u k)).
Proof.
  assert (M2 : 0 < / (mn * mn)) by (apply Rinv_0_lt_compat; nra).
  induction n; intros L.
  - replace (lo + Z.of_nat 0)%Z with lo by lia. rewrite sumZ_empty by lia. rewrite sumZ_snoc by lia. rewrite sumZ_empty by lia. lra.
  - specialize (IHn ltac:(lia)).
    replace (lo + Z.of_nat (S n))%Z with (lo + Z.of_nat n + 1)%Z by lia.
    set (q := (lo + Z.of_nat n)%Z) in *.
    rewrite (sumZ_snoc (lo + 1) (q + 1)), (sumZ_snoc lo (q + 1)) by lia. replace (q + 1 - 1)%Z with q by lia.
    set (A := sumZ _ _ _) in *. set (B := sumZ _ _ _) in *. clearbody A B.
    rewrite (HI (q + 1)%Z) by lia. replace (q + 1 - 1)%Z with q by lia.
    pose proof (D q ltac:(lia)) as D1. pose proof (D (q+1)%Z ltac:(lia)) as D2.
    set (a := d q) in *. set (b := d (q+1)%Z) in *. set (x := u q) in *. set (y := u (q+1)%Z) in *.
    assert (K : (y - x) * (y - x) * / ((a + b) / 2) <= 2 * / (mn * mn) * (a * (x * x)) + 2 * / (mn * mn) * (b * (y * y))).
    { apply Rle_trans with ((2 * (y * y) + 2 * (x * x)) * / mn).
      - apply Rmult_le_compat; [apply sq_nn| |apply sq_sub|apply Rinv_le_contravar; lra]. left. apply Rinv_0_lt_compat. lra.
      - replace (/ mn) with (/ (mn * mn) * mn) by (field; lra). pose proof (sq_nn x). pose proof (sq_nn y).
        assert (mn * (x * x) <= a * (x * x)) by (apply Rmult_le_compat_r; lra).
        assert (mn * (y * y) <= b * (y * y)) by (apply Rmult_le_compat_r; lra).
        set (I := / (mn * mn)) in *. nra. }
    lra.
Qed.
Lemma wnode_diff (u : Z -> R) :
  (u lo - u (lo-1)%Z) * (u lo - u (lo-1)%Z) + (u hi - u (hi-1)%Z) * (u hi - u (hi-1)%Z) <= 4 * (u lo * u lo + u (hi-1)%Z * u (hi-1)%Z) ->
  sumZ lo hi (fun k => wt lo hi k * ((u k - u (k-1)%Z) * (u k - u (k-1)%Z) * / h k))
  <= 4 * / (mn * mn) * sumZ lo (hi - 1) (fun k => d k * (u k * u k)).
Proof.
  intros EN. assert (M2 : 0 < / (mn * mn)) by (apply Rinv_0_lt_compat; nra).
  pose proof (wnode_aux u (Z.to_nat (hi - 1 - lo)) ltac:(lia)) as X.
  replace (lo + Z.of_nat (Z.to_nat (hi - 1 - lo)))%Z with (hi - 1)%Z in X by lia.
  rewrite (sumZ_snoc lo hi), (Stable.sumZ_cons lo (hi-1) (fun k => wt lo hi k * _)) by lia. rewrite wt_lo, wt_hi, HL, HH.
  rewrite (sumZ_ext (lo+1) (hi-1) _ (fun k => (u k - u (k-1)%Z) * (u k - u (k-1)%Z) * / h k)).
  2:{ intros x Hx. rewrite wt_in by lia. ring. }
  pose proof (D lo ltac:(lia)) as D1. pose proof (D (hi-1)%Z ltac:(lia)) as D2.
  set (a := d lo) in *. set (b := d (hi-1)%Z) in *.
  set (p := (u lo - u (lo-1)%Z) * (u lo - u (lo-1)%Z)) in *. set (r := (u hi - u (hi-1)%Z) * (u hi - u (hi-1)%Z)) in *.
  assert (P0 : 0 <= p) by apply sq_nn. assert (R0 : 0 <= r) by apply sq_nn.
  assert (IA : / a <= / mn) by (apply Rinv_le_contravar; lra). assert (IB : / b <= / mn) by (apply Rinv_le_contravar; lra).
  assert (E1 : / 2 * (p * / a) + / 2 * (r * / b) <= / 2 * (4 * (u lo * u lo + u (hi-1)%Z * u (hi-1)%Z)) * / mn).
  { assert (p * / a <= p * / mn) by (apply Rmult_le_compat_l; lra). assert (r * / b <= r * / mn) by (apply Rmult_le_compat_l; lra).
    assert (Q : 0 < / mn) by (apply Rinv_0_lt_compat; lra). assert (Y := Rmult_le_compat_r (/ mn) _ _ (Rlt_le _ _ Q) EN). lra. }
  assert (E2 : / 2 * (4 * (u lo * u lo + u (hi-1)%Z * u (hi-1)%Z)) * / mn <=
    2 * / (mn * mn) * (a * (u lo * u lo)) + 2 * / (mn * mn) * (b * (u (hi-1)%Z * u (hi-1)%Z))).
  { replace (/ mn) with (/ (mn * mn) * mn) by (field; lra). pose proof (sq_nn (u lo)) as S1. pose proof (sq_nn (u (hi-1)%Z)) as S2.
    set (s := u lo * u lo) in *. set (t := u (hi-1)%Z * u (hi-1)%Z) in *.
    assert (mn * s <= a * s) by (apply Rmult_le_compat_r; lra). assert (mn * t <= b * t) by (apply Rmult_le_compat_r; lra).
    set (I := / (mn * mn)) in *. nra. }
  lra.
Qed.
End Line.

(** ** The mixed term *)
Lemma wmixed lo1 hi1 lo2 hi2 (u v : Z -> Z -> R) : (lo1 < hi1)%Z -> (lo2 < hi2)%Z ->
  (forall j, (lo1 <= j < hi1)%Z -> u j hi2 * ((v (j+1)%Z hi2 - v j hi2) + (v (j+1)%Z (hi2-1)%Z - v j (hi2-1)%Z))
     = u j lo2 * ((v (j+1)%Z lo2 - v j lo2) + (v (j+1)%Z (lo2-1)%Z - v j (lo2-1)%Z))) ->
  (forall k, (lo2 <= k <= hi2)%Z -> (v hi1 k - v hi1 (k-1)%Z) * (u hi1 k + u (hi1-1)%Z k) = (v lo1 k - v lo1 (k-1)%Z) * (u lo1 k + u (lo1-1)%Z k)) ->
  sumZ lo1 (hi1 - 1) (fun j => sumZ lo2 (hi2 - 1) (fun k => (u j (k+1)%Z - u j k) * (v (j+1)%Z k - v j k)))
  = sumZ lo1 hi1 (fun j => wt lo1 hi1 j * sumZ lo2 hi2 (fun k => wt lo2 hi2 k * ((u j k - u (j-1)%Z k) * (v j k - v j (k-1)%Z)))).
Proof.
  intros L1 L2 A B.
  transitivity (sumZ lo1 (hi1 - 1) (fun j => sumZ lo2 hi2 (fun k =>
     wt lo2 hi2 k * (- (u j k * ((v (j+1)%Z k - v (j+1)%Z (k-1)%Z) - (v j k - v j (k-1)%Z))))))).
  { apply sumZ_ext. intros j Hj.
    pose proof (sbpw lo2 hi2 (fun k => u j k) (fun k => v (j+1)%Z k - v j k) L2 (A j ltac:(lia))) as X. cbn beta in X.
    rewrite (sumZ_ext lo2 (hi2-1) _ (fun k => (v (j+1)%Z k - v j k) * (u j (k+1)%Z - u j k))) by (intros; ring).
    rewrite (sumZ_ext lo2 hi2 _ (fun k => - (wt lo2 hi2 k * (u j k * (v (j+1)%Z k - v j k - (v (j+1)%Z (k-1)%Z - v j (k-1)%Z)))))) by (intros; ring).
    rewrite sumZ_opp. lra. }
  rewrite (sumZ_swap lo1). 
  rewrite (sumZ_ext lo1 hi1 _ (fun j => sumZ lo2 hi2 (fun k => wt lo2 hi2 k * (wt lo1 hi1 j * ((v j k - v j (k-1)%Z) * (u j k - u (j-1)%Z k)))))).
  2:{ intros j Hj. rewrite <- sumZ_scal. apply sumZ_ext. intros; ring. }
  rewrite (sumZ_swap lo1). apply sumZ_ext. intros k Hk. rewrite !sumZ_scal. f_equal.
  pose proof (sbpw lo1 hi1 (fun j => v j k - v j (k-1)%Z) (fun j => u j k) L1 (B k Hk)) as X. cbn beta in X.
  rewrite sumZ_opp. lra.
Qed.

Section Curl.
Variables xl xh yl yh zl zh : Z.
Hypothesis LX : (xl < xh)%Z. Hypothesis LY : (yl < yh)%Z. Hypothesis LZ : (zl < zh)%Z.
Variables dx dy dz hx hy hz : Z -> R.
Variables mx my mz : R.
Hypothesis MX : 0 < mx. Hypothesis MY : 0 < my. Hypothesis MZ : 0 < mz.
Hypothesis DX : forall n, (xl <= n < xh)%Z -> mx <= dx n.
Hypothesis DY : forall n, (yl <= n < yh)%Z -> my <= dy n.
Hypothesis DZ : forall n, (zl <= n < zh)%Z -> mz <= dz n.
Hypothesis HX' : forall n, (xl < n < xh)%Z -> hx n = (dx (n - 1)%Z + dx n) / 2.
Hypothesis HY' : forall n, (yl < n < yh)%Z -> hy n = (dy (n - 1)%Z + dy n) / 2.
Hypothesis HZ' : forall n, (zl < n < zh)%Z -> hz n = (dz (n - 1)%Z + dz n) / 2.
Hypothesis EX1 : hx xl = dx xl. Hypothesis EX2 : hx xh = dx (xh-1)%Z.
Hypothesis EY1 : hy yl = dy yl. Hypothesis EY2 : hy yh = dy (yh-1)%Z.
Hypothesis EZ1 : hz zl = dz zl. Hypothesis EZ2 : hz zh = dz (zh-1)%Z.
Hypothesis PX : forall n, (xl <= n <= xh)%Z -> 0 < hx n.
Hypothesis PY : forall n, (yl <= n <= yh)%Z -> 0 < hy n.
Hypothesis PZ : forall n, (zl <= n <= zh)%Z -> 0 < hz n.
(** E components, each continued by one cell beyond the two walls it points at *)
Variables e1 e2 e3 : Z -> Z -> Z -> R.
Hypothesis X2 : forall j k j' k', (yl-1 <= j <= yh)%Z -> (zl <= k <= zh)%Z -> (yl <= j' <= yh)%Z -> (zl <= k' <= zh)%Z ->
  e2 xh j k * (e1 xh j' k' + e1 (xh-1)%Z j' k') = e2 xl j k * (e1 xl j' k' + e1 (xl-1)%Z j' k').
Hypothesis X3 : forall j k j' k', (yl <= j <= yh)%Z -> (zl-1 <= k <= zh)%Z -> (yl <= j' <= yh)%Z -> (zl <= k' <= zh)%Z ->
  e3 xh j k * (e1 xh j' k' + e1 (xh-1)%Z j' k') = e3 xl j k * (e1 xl j' k' + e1 (xl-1)%Z j' k').
Hypothesis Y1 : forall i k i' k', (xl-1 <= i <= xh)%Z -> (zl <= k <= zh)%Z -> (xl <= i' <= xh)%Z -> (zl <= k' <= zh)%Z ->
  e1 i yh k * (e2 i' yh k' + e2 i' (yh-1)%Z k') = e1 i yl k * (e2 i' yl k' + e2 i' (yl-1)%Z k').
Hypothesis Y3 : forall i k i' k', (xl <= i <= xh)%Z -> (zl-1 <= k <= zh)%Z -> (xl <= i' <= xh)%Z -> (zl <= k' <= zh)%Z ->
  e3 i yh k * (e2 i' yh k' + e2 i' (yh-1)%Z k') = e3 i yl k * (e2 i' yl k' + e2 i' (yl-1)%Z k').
Hypothesis Z1 : forall i j i' j', (xl-1 <= i <= xh)%Z -> (yl <= j <= yh)%Z -> (xl <= i' <= xh)%Z -> (yl <= j' <= yh)%Z ->
  e1 i j zh * (e3 i' j' zh + e3 i' j' (zh-1)%Z) = e1 i j zl * (e3 i' j' zl + e3 i' j' (zl-1)%Z).
Hypothesis Z2 : forall i j i' j', (xl <= i <= xh)%Z -> (yl-1 <= j <= yh)%Z -> (xl <= i' <= xh)%Z -> (yl <= j' <= yh)%Z ->
  e2 i j zh * (e3 i' j' zh + e3 i' j' (zh-1)%Z) = e2 i j zl * (e3 i' j' zl + e3 i' j' (zl-1)%Z).
Notation sq := Stable.sq.
Hypothesis N1 : forall j k, sq (e1 xl j k - e1 (xl-1)%Z j k) + sq (e1 xh j k - e1 (xh-1)%Z j k) <= 4 * (sq (e1 xl j k) + sq (e1 (xh-1)%Z j k)).
Hypothesis N2 : forall i k, sq (e2 i yl k - e2 i (yl-1)%Z k) + sq (e2 i yh k - e2 i (yh-1)%Z k) <= 4 * (sq (e2 i yl k) + sq (e2 i (yh-1)%Z k)).
Hypothesis N3 : forall i j, sq (e3 i j zl - e3 i j (zl-1)%Z) + sq (e3 i j zh - e3 i j (zh-1)%Z) <= 4 * (sq (e3 i j zl) + sq (e3 i j (zh-1)%Z)).

Notation wx := (wt xl xh). Notation wy := (wt yl yh). Notation wz := (wt zl zh).
Notation cx n := (wx n * hx n). Notation cy n := (wy n * hy n). Notation cz n := (wz n * hz n).
Definition bE1 := S3 xl (xh-1) yl yh zl zh (fun i j k => dx i * cy j * cz k * sq (e1 i j k)).
Definition bE2 := S3 xl xh yl (yh-1) zl zh (fun i j k => cx i * dy j * cz k * sq (e2 i j k)).
Definition bE3 := S3 xl xh yl yh zl (zh-1) (fun i j k => cx i * cy j * dz k * sq (e3 i j k)).
Notation cu1 := (cu1 dy dz e2 e3). Notation cu2 := (cu2 dx dz e1 e3). Notation cu3 := (cu3 dx dy e1 e2).
Definition bC1 := S3 xl xh yl (yh-1) zl (zh-1) (fun i j k => cx i * dy j * dz k * sq (cu1 i j k)).
Definition bC2 := S3 xl (xh-1) yl yh zl (zh-1) (fun i j k => dx i * cy j * dz k * sq (cu2 i j k)).
Definition bC3 := S3 xl (xh-1) yl (yh-1) zl zh (fun i j k => dx i * dy j * cz k * sq (cu3 i j k)).
Notation T m := (4 * / (m * m)).

Ltac dpos := repeat match goal with
  | H : (xl <= ?n <= xh - 1)%Z |- _ => lazymatch goal with _ : mx <= dx n |- _ => fail | _ => pose proof (DX n ltac:(lia)) end
  | H : (yl <= ?n <= yh - 1)%Z |- _ => lazymatch goal with _ : my <= dy n |- _ => fail | _ => pose proof (DY n ltac:(lia)) end
  | H : (zl <= ?n <= zh - 1)%Z |- _ => lazymatch goal with _ : mz <= dz n |- _ => fail | _ => pose proof (DZ n ltac:(lia)) end
  end.
Ltac wpos := dpos; repeat first [apply sq_nonneg | match goal with |- 0 <= _ * _ => apply Rmult_le_pos end];
  try (left; first [apply wt_pos|apply PX; lia|apply PY; lia|apply PZ; lia]); try lra.

Lemma bb1y : S3 xl (xh-1) yl (yh-1) zl zh (fun i j k => dx i * cz k * (sq (e1 i (j+1)%Z k - e1 i j k) * / dy j)) <= T my * bE1.
Proof.
  unfold bE1. rewrite !S3_ylast, <- sumZ_scal. apply sumZ_le; intros i Hi. rewrite <- sumZ_scal. apply sumZ_le; intros k Hk.
  rewrite sumZ_scal. rewrite (sumZ_ext yl yh _ (fun j => dx i * cz k * (cy j * (e1 i j k * e1 i j k)))) by (intros; unfold sq; ring).
  rewrite sumZ_scal.
  pose proof (wedge_diff yl yh dy hy my LY MY DY HY' EY1 EY2 (fun j => e1 i j k)) as X. cbn beta in X.
  assert (0 <= dx i * cz k) by wpos. unfold sq. nra.
Qed.
Lemma bb1z : S3 xl (xh-1) yl yh zl (zh-1) (fun i j k => dx i * cy j * (sq (e1 i j (k+1)%Z - e1 i j k) * / dz k)) <= T mz * bE1.
Proof.
  unfold bE1, S3. rewrite <- sumZ_scal. apply sumZ_le; intros i Hi. rewrite <- sumZ_scal. apply sumZ_le; intros j Hj.
  rewrite sumZ_scal. rewrite (sumZ_ext zl zh _ (fun k => dx i * cy j * (cz k * (e1 i j k * e1 i j k)))) by (intros; unfold sq; ring).
  rewrite sumZ_scal.
  pose proof (wedge_diff zl zh dz hz mz LZ MZ DZ HZ' EZ1 EZ2 (fun k => e1 i j k)) as X. cbn beta in X.
  assert (0 <= dx i * cy j) by wpos. unfold sq. nra.
Qed.
Lemma bb2x : S3 xl (xh-1) yl (yh-1) zl zh (fun i j k => dy j * cz k * (sq (e2 (i+1)%Z j k - e2 i j k) * / dx i)) <= T mx * bE2.
Proof.
  unfold bE2. rewrite !S3_xlast, <- sumZ_scal. apply sumZ_le; intros j Hj. rewrite <- sumZ_scal. apply sumZ_le; intros k Hk.
  rewrite sumZ_scal. rewrite (sumZ_ext xl xh _ (fun i => dy j * cz k * (cx i * (e2 i j k * e2 i j k)))) by (intros; unfold sq; ring).
  rewrite sumZ_scal.
  pose proof (wedge_diff xl xh dx hx mx LX MX DX HX' EX1 EX2 (fun i => e2 i j k)) as X. cbn beta in X.
  assert (0 <= dy j * cz k) by wpos. unfold sq. nra.
Qed.
Lemma bb2z : S3 xl xh yl (yh-1) zl (zh-1) (fun i j k => cx i * dy j * (sq (e2 i j (k+1)%Z - e2 i j k) * / dz k)) <= T mz * bE2.
Proof.
  unfold bE2, S3. rewrite <- sumZ_scal. apply sumZ_le; intros i Hi. rewrite <- sumZ_scal. apply sumZ_le; intros j Hj.
  rewrite sumZ_scal. rewrite (sumZ_ext zl zh _ (fun k => cx i * dy j * (cz k * (e2 i j k * e2 i j k)))) by (intros; unfold sq; ring).
  rewrite sumZ_scal.
  pose proof (wedge_diff zl zh dz hz mz LZ MZ DZ HZ' EZ1 EZ2 (fun k => e2 i j k)) as X. cbn beta in X.
  assert (0 <= cx i * dy j) by wpos. unfold sq. nra.
Qed.
Lemma bb3x : S3 xl (xh-1) yl yh zl (zh-1) (fun i j k => cy j * dz k * (sq (e3 (i+1)%Z j k - e3 i j k) * / dx i)) <= T mx * bE3.
Proof.
  unfold bE3. rewrite !S3_xlast, <- sumZ_scal. apply sumZ_le; intros j Hj. rewrite <- sumZ_scal. apply sumZ_le; intros k Hk.
  rewrite sumZ_scal. rewrite (sumZ_ext xl xh _ (fun i => cy j * dz k * (cx i * (e3 i j k * e3 i j k)))) by (intros; unfold sq; ring).
  rewrite sumZ_scal.
  pose proof (wedge_diff xl xh dx hx mx LX MX DX HX' EX1 EX2 (fun i => e3 i j k)) as X. cbn beta in X.
  assert (0 <= cy j * dz k) by wpos. unfold sq. nra.
Qed.
Lemma bb3y : S3 xl xh yl (yh-1) zl (zh-1) (fun i j k => cx i * dz k * (sq (e3 i (j+1)%Z k - e3 i j k) * / dy j)) <= T my * bE3.
Proof.
  unfold bE3. rewrite !S3_ylast, <- sumZ_scal. apply sumZ_le; intros i Hi. rewrite <- sumZ_scal. apply sumZ_le; intros k Hk.
  rewrite sumZ_scal. rewrite (sumZ_ext yl yh _ (fun j => cx i * dz k * (cy j * (e3 i j k * e3 i j k)))) by (intros; unfold sq; ring).
  rewrite sumZ_scal.
  pose proof (wedge_diff yl yh dy hy my LY MY DY HY' EY1 EY2 (fun j => e3 i j k)) as X. cbn beta in X.
  assert (0 <= cx i * dz k) by wpos. unfold sq. nra.
Qed.
(** the three node-difference norms; sums over all nodes *)
Notation NN := (S3 xl xh yl yh zl zh).
Lemma bn1 : NN (fun i j k => cy j * cz k * (wx i * (sq (e1 i j k - e1 (i-1)%Z j k) * / hx i))) <= T mx * bE1.
Proof.
  unfold bE1. rewrite !S3_xlast. rewrite <- sumZ_scal. apply sumZ_le; intros j Hj. rewrite <- sumZ_scal. apply sumZ_le; intros k Hk.
  rewrite sumZ_scal. rewrite (sumZ_ext xl (xh-1) _ (fun i => cy j * cz k * (dx i * (e1 i j k * e1 i j k)))) by (intros; unfold sq; ring).
  rewrite sumZ_scal. pose proof (wnode_diff xl xh dx hx mx LX MX DX HX' EX1 EX2 (fun i => e1 i j k) (N1 j k)) as X. cbn beta in X.
  assert (0 <= cy j * cz k) by wpos. unfold sq. nra.
Qed.
Lemma bn2 : NN (fun i j k => cx i * cz k * (wy j * (sq (e2 i j k - e2 i (j-1)%Z k) * / hy j))) <= T my * bE2.
Proof.
  unfold bE2. rewrite !S3_ylast. rewrite <- sumZ_scal. apply sumZ_le; intros i Hi. rewrite <- sumZ_scal. apply sumZ_le; intros k Hk.
  rewrite sumZ_scal. rewrite (sumZ_ext yl (yh-1) _ (fun j => cx i * cz k * (dy j * (e2 i j k * e2 i j k)))) by (intros; unfold sq; ring).
  rewrite sumZ_scal. pose proof (wnode_diff yl yh dy hy my LY MY DY HY' EY1 EY2 (fun j => e2 i j k) (N2 i k)) as X. cbn beta in X.
  assert (0 <= cx i * cz k) by wpos. unfold sq. nra.
Qed.
Lemma bn3 : NN (fun i j k => cx i * cy j * (wz k * (sq (e3 i j k - e3 i j (k-1)%Z) * / hz k))) <= T mz * bE3.
Proof.
  unfold bE3, S3. rewrite <- sumZ_scal. apply sumZ_le; intros i Hi. rewrite <- sumZ_scal. apply sumZ_le; intros j Hj.
  rewrite sumZ_scal. rewrite (sumZ_ext zl (zh-1) _ (fun k => cx i * cy j * (dz k * (e3 i j k * e3 i j k)))) by (intros; unfold sq; ring).
  rewrite sumZ_scal. pose proof (wnode_diff zl zh dz hz mz LZ MZ DZ HZ' EZ1 EZ2 (fun k => e3 i j k) (N3 i j)) as X. cbn beta in X.
  assert (0 <= cx i * cy j) by wpos. unfold sq. nra.
Qed.
(** the three mixed terms *)
Lemma bx1 : S3 xl xh yl (yh-1) zl (zh-1) (fun i j k => cx i * ((e2 i j (k+1)%Z - e2 i j k) * (e3 i (j+1)%Z k - e3 i j k)))
  = NN (fun i j k => cx i * (wy j * (wz k * ((e2 i j k - e2 i (j-1)%Z k) * (e3 i j k - e3 i j (k-1)%Z))))).
Proof.
  unfold S3. apply sumZ_ext. intros i Hi.
  rewrite (sumZ_ext yl (yh-1) _ (fun j => cx i * sumZ zl (zh-1) (fun k => (e2 i j (k+1)%Z - e2 i j k) * (e3 i (j+1)%Z k - e3 i j k)))) by (intros; apply sumZ_scal).
  rewrite (sumZ_ext yl yh _ (fun j => cx i * (wy j * sumZ zl zh (fun k => wz k * ((e2 i j k - e2 i (j-1)%Z k) * (e3 i j k - e3 i j (k-1)%Z)))))) by (intros; rewrite <- !sumZ_scal; apply sumZ_ext; intros; ring).
  rewrite !sumZ_scal. f_equal. apply (wmixed yl yh zl zh (fun j k => e2 i j k) (fun j k => e3 i j k)); auto.
  - intros j Hj. pose proof (Z2 i j i (j+1)%Z Hi ltac:(lia) Hi ltac:(lia)). pose proof (Z2 i j i j Hi ltac:(lia) Hi ltac:(lia)). lra.
  - intros k Hk. pose proof (Y3 i k i k Hi ltac:(lia) Hi ltac:(lia)). pose proof (Y3 i (k-1)%Z i k Hi ltac:(lia) Hi ltac:(lia)). lra.
Qed.
Lemma bx2 : S3 xl (xh-1) yl yh zl (zh-1) (fun i j k => cy j * ((e3 (i+1)%Z j k - e3 i j k) * (e1 i j (k+1)%Z - e1 i j k)))
  = NN (fun i j k => cy j * (wx i * (wz k * ((e1 i j k - e1 (i-1)%Z j k) * (e3 i j k - e3 i j (k-1)%Z))))).
Proof.
  unfold S3. rewrite (sumZ_swap xl (xh-1)), (sumZ_swap xl xh). apply sumZ_ext. intros j Hj.
  rewrite (sumZ_ext xl (xh-1) _ (fun i => cy j * sumZ zl (zh-1) (fun k => (e1 i j (k+1)%Z - e1 i j k) * (e3 (i+1)%Z j k - e3 i j k)))) by (intros; rewrite <- sumZ_scal; apply sumZ_ext; intros; ring).
  rewrite (sumZ_ext xl xh _ (fun i => cy j * (wx i * sumZ zl zh (fun k => wz k * ((e1 i j k - e1 (i-1)%Z j k) * (e3 i j k - e3 i j (k-1)%Z)))))) by (intros; rewrite <- !sumZ_scal; apply sumZ_ext; intros; ring).
  rewrite !sumZ_scal. f_equal. apply (wmixed xl xh zl zh (fun i k => e1 i j k) (fun i k => e3 i j k)); auto.
  - intros i Hi. pose proof (Z1 i j (i+1)%Z j ltac:(lia) Hj ltac:(lia) Hj). pose proof (Z1 i j i j ltac:(lia) Hj ltac:(lia) Hj). lra.
  - intros k Hk. pose proof (X3 j k j k Hj ltac:(lia) Hj ltac:(lia)). pose proof (X3 j (k-1)%Z j k Hj ltac:(lia) Hj ltac:(lia)). lra.
Qed.
Lemma bx3 : S3 xl (xh-1) yl (yh-1) zl zh (fun i j k => cz k * ((e1 i (j+1)%Z k - e1 i j k) * (e2 (i+1)%Z j k - e2 i j k)))
  = NN (fun i j k => cz k * (wx i * (wy j * ((e1 i j k - e1 (i-1)%Z j k) * (e2 i j k - e2 i (j-1)%Z k))))).
Proof.
  unfold S3.
  transitivity (sumZ zl zh (fun k => sumZ xl (xh-1) (fun i => sumZ yl (yh-1) (fun j => cz k * ((e1 i (j+1)%Z k - e1 i j k) * (e2 (i+1)%Z j k - e2 i j k)))))).
  { rewrite (sumZ_swap zl zh). apply sumZ_ext; intros. apply sumZ_swap. }
  transitivity (sumZ zl zh (fun k => sumZ xl xh (fun i => sumZ yl yh (fun j => cz k * (wx i * (wy j * ((e1 i j k - e1 (i-1)%Z j k) * (e2 i j k - e2 i (j-1)%Z k)))))))).
  2:{ rewrite (sumZ_swap zl). apply sumZ_ext; intros. apply sumZ_swap. }
  apply sumZ_ext. intros k Hk. 
  rewrite (sumZ_ext xl (xh-1) _ (fun i => cz k * sumZ yl (yh-1) (fun j => (e1 i (j+1)%Z k - e1 i j k) * (e2 (i+1)%Z j k - e2 i j k)))) by (intros; apply sumZ_scal).
  rewrite (sumZ_ext xl xh _ (fun i => cz k * (wx i * sumZ yl yh (fun j => wy j * ((e1 i j k - e1 (i-1)%Z j k) * (e2 i j k - e2 i (j-1)%Z k)))))) by (intros; rewrite <- !sumZ_scal; apply sumZ_ext; intros; ring).
  rewrite !sumZ_scal. f_equal. apply (wmixed xl xh yl yh (fun i j => e1 i j k) (fun i j => e2 i j k)); auto.
  - intros i Hi. pose proof (Y1 i k (i+1)%Z k ltac:(lia) Hk ltac:(lia) Hk). pose proof (Y1 i k i k ltac:(lia) Hk ltac:(lia) Hk). lra.
  - intros j Hj. pose proof (X2 j k j k ltac:(lia) Hk ltac:(lia) Hk). pose proof (X2 (j-1)%Z k j k ltac:(lia) Hk ltac:(lia) Hk). lra.
Qed.
(** squares of the curls, split *)
Lemma bs1 : bC1 = S3 xl xh yl (yh-1) zl (zh-1) (fun i j k => cx i * dy j * (sq (e2 i j (k+1)%Z - e2 i j k) * / dz k))
  + S3 xl xh yl (yh-1) zl (zh-1) (fun i j k => cx i * dz k * (sq (e3 i (j+1)%Z k - e3 i j k) * / dy j))
  - 2 * S3 xl xh yl (yh-1) zl (zh-1) (fun i j k => cx i * ((e2 i j (k+1)%Z - e2 i j k) * (e3 i (j+1)%Z k - e3 i j k))).
Proof.
  unfold bC1. unfold Rminus. rewrite <- S3_scal, <- S3_opp, <- !S3_plus. apply S3_ext. intros i j k Hi Hj Hk.
  unfold Stable.cu1, sq. dpos. field. split; lra.
Qed.
Lemma bs2 : bC2 = S3 xl (xh-1) yl yh zl (zh-1) (fun i j k => cy j * dz k * (sq (e3 (i+1)%Z j k - e3 i j k) * / dx i))
  + S3 xl (xh-1) yl yh zl (zh-1) (fun i j k => dx i * cy j * (sq (e1 i j (k+1)%Z - e1 i j k) * / dz k))
  - 2 * S3 xl (xh-1) yl yh zl (zh-1) (fun i j k => cy j * ((e3 (i+1)%Z j k - e3 i j k) * (e1 i j (k+1)%Z - e1 i j k))).
Proof.
  unfold bC2. unfold Rminus. rewrite <- S3_scal, <- S3_opp, <- !S3_plus. apply S3_ext. intros i j k Hi Hj Hk.
  unfold Stable.cu2, sq. dpos. field. split; lra.
Qed.
Lemma bs3 : bC3 = S3 xl (xh-1) yl (yh-1) zl zh (fun i j k => dx i * cz k * (sq (e1 i (j+1)%Z k - e1 i j k) * / dy j))
  + S3 xl (xh-1) yl (yh-1) zl zh (fun i j k => dy j * cz k * (sq (e2 (i+1)%Z j k - e2 i j k) * / dx i))
  - 2 * S3 xl (xh-1) yl (yh-1) zl zh (fun i j k => cz k * ((e1 i (j+1)%Z k - e1 i j k) * (e2 (i+1)%Z j k - e2 i j k))).
Proof.
  unfold bC3. unfold Rminus. rewrite <- S3_scal, <- S3_opp, <- !S3_plus. apply S3_ext. intros i j k Hi Hj Hk.
  unfold Stable.cu3, sq. dpos. field. split; lra.
Qed.
Lemma bnodes : - 2 * NN (fun i j k => cx i * (wy j * (wz k * ((e2 i j k - e2 i (j-1)%Z k) * (e3 i j k - e3 i j (k-1)%Z)))))
  - 2 * NN (fun i j k => cy j * (wx i * (wz k * ((e1 i j k - e1 (i-1)%Z j k) * (e3 i j k - e3 i j (k-1)%Z)))))
  - 2 * NN (fun i j k => cz k * (wx i * (wy j * ((e1 i j k - e1 (i-1)%Z j k) * (e2 i j k - e2 i (j-1)%Z k)))))
  <= NN (fun i j k => cy j * cz k * (wx i * (sq (e1 i j k - e1 (i-1)%Z j k) * / hx i)))
   + NN (fun i j k => cx i * cz k * (wy j * (sq (e2 i j k - e2 i (j-1)%Z k) * / hy j)))
   + NN (fun i j k => cx i * cy j * (wz k * (sq (e3 i j k - e3 i j (k-1)%Z) * / hz k))).
Proof.
  match goal with |- - 2 * ?a - 2 * ?b - 2 * ?d <= _ => replace (- 2 * a - 2 * b - 2 * d) with (- 2 * a + - 2 * b + - 2 * d) by ring end.
  rewrite <- !S3_scal, <- !S3_plus. apply S3_le. intros i j k Hi Hj Hk.
  pose proof (PX i ltac:(lia)) as A. pose proof (PY j ltac:(lia)) as B. pose proof (PZ k ltac:(lia)) as C.
  pose proof (wt_pos xl xh i) as A1. pose proof (wt_pos yl yh j) as B1. pose proof (wt_pos zl zh k) as C1.
  set (p := e1 i j k - e1 (i-1)%Z j k). set (q := e2 i j k - e2 i (j-1)%Z k). set (r := e3 i j k - e3 i j (k-1)%Z).
  set (u := hx i) in *. set (v := hy j) in *. set (w := hz k) in *.
  set (a := wx i) in *. set (b := wy j) in *. set (g := wz k) in *.
  assert (0 <= a * b * g * (u * v * w) * sq (p * / u + q * / v + r * / w)).
  { apply Rmult_le_pos; [|apply sq_nonneg]. repeat apply Rmult_le_pos; lra. }
  assert (X : a * b * g * (u * v * w) * sq (p * / u + q * / v + r * / w) =
    b * v * (g * w) * (a * (sq p * / u)) + a * u * (g * w) * (b * (sq q * / v)) + a * u * (b * v) * (g * (sq r * / w))
    + 2 * (a * u * (b * (g * (q * r)))) + 2 * (b * v * (a * (g * (p * r)))) + 2 * (g * w * (a * (b * (p * q))))).
  { unfold sq. field. repeat split; lra. }
  lra.
Qed.
Theorem box_curl_bound : bC1 + bC2 + bC3 <= (T mx + T my + T mz) * (bE1 + bE2 + bE3).
Proof.
  rewrite bs1, bs2, bs3, bx1, bx2, bx3.
  pose proof bb1y. pose proof bb1z. pose proof bb2x. pose proof bb2z. pose proof bb3x. pose proof bb3y.
  pose proof bn1. pose proof bn2. pose proof bn3. pose proof bnodes. lra.
Qed.
End Curl.
