(** Stability: the discrete curl is bounded by the Courant limit.  Proofs. *)
From Coq Require Import ZArith List Bool Lia Reals Lra.
From Verif Require Import Types Lang LangProofs BBox Grid SpecGrid SpecPhys SpecEnergy Energy.
Import ListNotations.
Open Scope R_scope.
Local Arguments Z.mul : simpl never.
Local Arguments Z.add : simpl never.
Local Arguments Z.sub : simpl never.

Lemma sumZ_le lo hi f g : (forall x, (lo <= x <= hi)%Z -> f x <= g x) -> sumZ lo hi f <= sumZ lo hi g.
Proof.
  intros H. unfold sumZ.
  assert (X : forall l, (forall x, In x l -> (lo <= x <= hi)%Z) -> fold_right Rplus 0 (map f l) <= fold_right Rplus 0 (map g l)).
  { induction l; intros Hl; cbn [map fold_right]; [lra|]. apply Rplus_le_compat; [apply H, Hl; left; reflexivity|apply IHl; intros; apply Hl; right; auto]. }
  apply X. intros x Hx. apply in_zrange in Hx; auto.
Qed.
Lemma sumZ_nonneg lo hi f : (forall x, (lo <= x <= hi)%Z -> 0 <= f x) -> 0 <= sumZ lo hi f.
Proof. intros H. rewrite <- (sumZ_zero lo hi). apply sumZ_le. exact H. Qed.
Lemma sumZ_opp lo hi f : sumZ lo hi (fun x => - f x) = - sumZ lo hi f.
Proof. rewrite <- (Rmult_1_l (sumZ lo hi f)), <- Ropp_mult_distr_l_reverse, <- sumZ_scal. apply sumZ_ext. intros; ring. Qed.
Lemma sumZ_cons lo hi f : (lo <= hi)%Z -> sumZ lo hi f = f lo + sumZ (lo + 1) hi f.
Proof.
  intros H. replace hi with (lo + Z.of_nat (Z.to_nat (hi - lo)))%Z by lia.
  induction (Z.to_nat (hi - lo)) as [|n IH].
  - replace (lo + Z.of_nat 0)%Z with lo by lia. rewrite sumZ_snoc by lia. rewrite !sumZ_empty by lia. lra.
  - rewrite sumZ_snoc by lia. rewrite (sumZ_snoc (lo+1)) by lia.
    replace (lo + Z.of_nat (S n) - 1)%Z with (lo + Z.of_nat n)%Z by lia. rewrite IH. lra.
Qed.
(** drop the two ends *)
Lemma sumZ_interior lo hi f : (lo < hi)%Z -> f lo = 0 -> f hi = 0 -> sumZ lo hi f = sumZ (lo + 1) (hi - 1) f.
Proof.
  intros H A B. rewrite sumZ_snoc by lia. rewrite B. rewrite sumZ_cons by lia. rewrite A. lra.
Qed.
Lemma sumZ_widen lo hi f : (lo < hi)%Z -> (forall x, (lo <= x <= hi)%Z -> 0 <= f x) ->
  sumZ (lo + 1) (hi - 1) f <= sumZ lo hi f.
Proof.
  intros H P. rewrite (sumZ_snoc lo hi) by lia. rewrite (sumZ_cons lo) by lia.
  pose proof (P lo ltac:(lia)). pose proof (P hi ltac:(lia)). lra.
Qed.

(** ** One line of the mesh.  [d]: primary edges, [h]: secondary edges. *)
Section Line.
Variables (lo hi : Z) (d h : Z -> R) (mn : R).
Hypothesis LT : (lo < hi)%Z.
Hypothesis M0 : 0 < mn.
Hypothesis D : forall n, (lo <= n < hi)%Z -> mn <= d n.
Hypothesis HI : forall n, (lo < n < hi)%Z -> h n = (d (n - 1)%Z + d n) / 2.
Hypothesis HP : forall n, (lo <= n <= hi)%Z -> 0 < h n.

Lemma inv2 a b : mn <= a -> mn <= b -> 2 * (/ a + / b) <= 4 * / (mn * mn) * ((a + b) / 2).
Proof.
  intros A B.
  assert (X : / a + / b = (a + b) * / (a * b)) by (field; lra). rewrite X.
  assert (Y : / (a * b) <= / (mn * mn)). { apply Rinv_le_contravar; [nra|]. apply Rmult_le_compat; lra. }
  assert (0 <= a + b) by lra. nra.
Qed.
Lemma sq_sub a b : (a - b) * (a - b) <= 2 * (a * a) + 2 * (b * b).
Proof. pose proof (Rle_0_sqr (a + b)). unfold Rsqr in *. lra. Qed.
Lemma sq_nn a : 0 <= a * a. Proof. apply Rle_0_sqr. Qed.

(** differences over primary edges of node values that vanish at the ends *)
Lemma edge_diff_aux (u : Z -> R) n : u lo = 0 -> (lo + 1 + Z.of_nat n <= hi)%Z ->
  sumZ lo (lo + Z.of_nat n) (fun k => 2 * (u (k+1)%Z * u (k+1)%Z) * / d k + 2 * (u k * u k) * / d k)
  <= 4 * / (mn * mn) * sumZ lo (lo + Z.of_nat n) (fun k => h k * (u k * u k))
     + 2 * (u (lo + Z.of_nat n + 1)%Z * u (lo + Z.of_nat n + 1)%Z) * / d (lo + Z.of_nat n)%Z.
Proof.
  intros U. induction n; intros L.
  - replace (lo + Z.of_nat 0)%Z with lo by lia. do 2 rewrite (sumZ_snoc lo lo) by lia. do 2 rewrite (sumZ_empty lo (lo-1)) by lia. rewrite U. lra.
  - specialize (IHn ltac:(lia)).
    replace (lo + Z.of_nat (S n))%Z with (lo + Z.of_nat n + 1)%Z by lia.
    set (q := (lo + Z.of_nat n)%Z) in *.
    rewrite (sumZ_snoc lo (q + 1)), (sumZ_snoc lo (q + 1) (fun k => h k * (u k * u k))) by lia. replace (q + 1 - 1)%Z with q by lia.
    pose proof (inv2 (d q) (d (q + 1)%Z) (D q ltac:(lia)) (D (q+1)%Z ltac:(lia))) as I.
    rewrite (HI (q + 1)%Z) by lia. replace (q + 1 - 1)%Z with q by lia.
    pose proof (sq_nn (u (q+1)%Z)) as P. set (s := u (q+1)%Z * u (q+1)%Z) in *.
    assert (Y := Rmult_le_compat_r s _ _ P I). lra.
Qed.
Lemma edge_diff (u : Z -> R) : u lo = 0 -> u hi = 0 ->
  sumZ lo (hi - 1) (fun k => (u (k+1)%Z - u k) * (u (k+1)%Z - u k) * / d k)
  <= 4 * / (mn * mn) * sumZ lo hi (fun k => h k * (u k * u k)).
Proof.
  intros U1 U2. rewrite (sumZ_snoc lo hi) by lia. rewrite U2.
  pose proof (edge_diff_aux u (Z.to_nat (hi - lo - 1)) U1 ltac:(lia)) as X.
  replace (lo + Z.of_nat (Z.to_nat (hi - lo - 1)))%Z with (hi - 1)%Z in X by lia.
  replace (hi - 1 + 1)%Z with hi in X by lia. rewrite U2 in X.
  eapply Rle_trans; [|eapply Rle_trans; [exact X|]]; [|lra].
  apply sumZ_le. intros k Hk. assert (0 < / d k). { apply Rinv_0_lt_compat. pose proof (D k). assert (mn <= d k) by (apply D; lia). lra. }
  pose proof (sq_sub (u (k+1)%Z) (u k)). nra.
Qed.
(** differences over secondary edges of edge values, interior nodes *)
Lemma node_diff_aux (u : Z -> R) n : (lo + Z.of_nat n < hi)%Z ->
  sumZ (lo + 1) (lo + Z.of_nat n) (fun k => (u k - u (k-1)%Z) * (u k - u (k-1)%Z) * / h k)
  + 2 * / (mn * mn) * (d (lo + Z.of_nat n)%Z * (u (lo + Z.of_nat n)%Z * u (lo + Z.of_nat n)%Z))
  <= 4 * / (mn * mn) * sumZ lo (lo + Z.of_nat n) (fun k => d k * (u k * u k)).
Proof.
  assert (M2 : 0 < / (mn * mn)) by (apply Rinv_0_lt_compat; nra).
  induction n; intros L.
  - replace (lo + Z.of_nat 0)%Z with lo by lia. rewrite sumZ_empty by lia. rewrite sumZ_snoc by lia. rewrite sumZ_empty by lia.
    pose proof (D lo ltac:(lia)). pose proof (sq_nn (u lo)). assert (0 <= d lo * (u lo * u lo)) by nra. nra.
  - specialize (IHn ltac:(lia)).
    replace (lo + Z.of_nat (S n))%Z with (lo + Z.of_nat n + 1)%Z by lia.
    set (q := (lo + Z.of_nat n)%Z) in *.
    rewrite (sumZ_snoc (lo + 1) (q + 1)), (sumZ_snoc lo (q + 1)) by lia. replace (q + 1 - 1)%Z with q by lia.
    set (A := sumZ _ _ _) in *. set (B := sumZ _ _ _) in *. clearbody A B.
    rewrite (HI (q + 1)%Z) by lia. replace (q + 1 - 1)%Z with q by lia.
    pose proof (D q ltac:(lia)) as D1. pose proof (D (q+1)%Z ltac:(lia)) as D2.
    set (a := d q) in *. set (b := d (q+1)%Z) in *. set (x := u q) in *. set (y := u (q+1)%Z) in *.
    assert (K : (y - x) * (y - x) * / ((a + b) / 2) <= 2 * / (mn * mn) * (a * (x * x)) + 2 * / (mn * mn) * (b * (y * y))).
    { apply Rle_trans with ((2 * (y * y) + 2 * (x * x)) * / mn).
      - apply Rmult_le_compat; [apply sq_nn| |apply sq_sub|apply Rinv_le_contravar; lra]. left. apply Rinv_0_lt_compat. lra.
      - replace (/ mn) with (/ (mn * mn) * mn) by (field; lra). pose proof (sq_nn x). pose proof (sq_nn y).
        assert (mn * (x * x) <= a * (x * x)) by (apply Rmult_le_compat_r; lra).
        assert (mn * (y * y) <= b * (y * y)) by (apply Rmult_le_compat_r; lra).
        set (I := / (mn * mn)) in *. nra. }
    lra.
Qed.
Lemma node_diff (u : Z -> R) :
  sumZ (lo + 1) (hi - 1) (fun k => (u k - u (k-1)%Z) * (u k - u (k-1)%Z) * / h k)
  <= 4 * / (mn * mn) * sumZ lo (hi - 1) (fun k => d k * (u k * u k)).
Proof.
  assert (M2 : 0 < / (mn * mn)) by (apply Rinv_0_lt_compat; nra).
  pose proof (node_diff_aux u (Z.to_nat (hi - 1 - lo)) ltac:(lia)) as X.
  replace (lo + Z.of_nat (Z.to_nat (hi - 1 - lo)))%Z with (hi - 1)%Z in X by lia.
  pose proof (D (hi-1)%Z ltac:(lia)). pose proof (sq_nn (u (hi-1)%Z)).
  assert (0 <= d (hi-1)%Z * (u (hi-1)%Z * u (hi-1)%Z)) by nra. nra.
Qed.
End Line.

(** ** The mixed term: differences on a plaquette against differences at a node *)
Lemma mixed lo1 hi1 lo2 hi2 (u v : Z -> Z -> R) : (lo1 < hi1)%Z -> (lo2 < hi2)%Z ->
  (forall j, (lo1 <= j < hi1)%Z -> u j lo2 = 0 /\ u j hi2 = 0) ->
  (forall k, (lo2 <= k < hi2)%Z -> v lo1 k = 0 /\ v hi1 k = 0) ->
  sumZ lo1 (hi1 - 1) (fun j => sumZ lo2 (hi2 - 1) (fun k => (u j (k+1)%Z - u j k) * (v (j+1)%Z k - v j k)))
  = sumZ (lo1 + 1) (hi1 - 1) (fun j => sumZ (lo2 + 1) (hi2 - 1) (fun k => (u j k - u (j-1)%Z k) * (v j k - v j (k-1)%Z))).
Proof.
  intros L1 L2 U V.
  transitivity (sumZ lo1 (hi1 - 1) (fun j => sumZ (lo2 + 1) (hi2 - 1) (fun k =>
     - (u j k * ((v (j+1)%Z k - v (j+1)%Z (k-1)%Z) - (v j k - v j (k-1)%Z)))))).
  { apply sumZ_ext. intros j Hj. destruct (U j ltac:(lia)) as [U1 U2].
    pose proof (sbp0 lo2 hi2 (fun k => u j k) (fun k => v (j+1)%Z k - v j k) ltac:(lia) U1 U2) as X. cbn beta in X.
    rewrite sumZ_opp. rewrite (sumZ_interior lo2 hi2) in X by (cbn beta; rewrite ?U1, ?U2; first [lia|ring]).
    rewrite (sumZ_ext lo2 (hi2-1) _ (fun k => (v (j+1)%Z k - v j k) * (u j (k+1)%Z - u j k))) by (intros; ring).
    rewrite (sumZ_ext (lo2+1) (hi2-1) _ (fun k => u j k * (v (j+1)%Z k - v j k - (v (j+1)%Z (k-1)%Z - v j (k-1)%Z)))) by (intros; ring).
    lra. }
  rewrite (sumZ_swap lo1), (sumZ_swap (lo1+1)). apply sumZ_ext. intros k Hk.
  destruct (V k ltac:(lia)) as [V1 V2]. destruct (V (k-1)%Z ltac:(lia)) as [V3 V4].
  pose proof (sbp0 lo1 hi1 (fun j => v j k - v j (k-1)%Z) (fun j => u j k) ltac:(lia) ltac:(cbn beta; lra) ltac:(cbn beta; lra)) as X. cbn beta in X.
  rewrite sumZ_opp. rewrite (sumZ_interior lo1 hi1) in X by (cbn beta; rewrite ?V1, ?V2, ?V3, ?V4; first [lia|ring]).
  rewrite (sumZ_ext (lo1+1) (hi1-1) _ (fun j => (v j k - v j (k-1)%Z) * (u j k - u (j-1)%Z k))) by (intros; ring).
  lra.
Qed.

(** ** Three dimensions *)
Lemma S3_le a b c d e f g h : (forall i j k, (a <= i <= b)%Z -> (c <= j <= d)%Z -> (e <= k <= f)%Z -> g i j k <= h i j k) ->
  S3 a b c d e f g <= S3 a b c d e f h.
Proof. intros H. apply sumZ_le; intros; apply sumZ_le; intros; apply sumZ_le; intros; auto. Qed.
Lemma S3_nonneg a b c d e f g : (forall i j k, (a <= i <= b)%Z -> (c <= j <= d)%Z -> (e <= k <= f)%Z -> 0 <= g i j k) ->
  0 <= S3 a b c d e f g.
Proof. intros H. apply sumZ_nonneg; intros; apply sumZ_nonneg; intros; apply sumZ_nonneg; intros; auto. Qed.
Lemma S3_scal a b c d e f w g : S3 a b c d e f (fun i j k => w * g i j k) = w * S3 a b c d e f g.
Proof. unfold S3. rewrite <- sumZ_scal. apply sumZ_ext; intros. rewrite <- sumZ_scal. apply sumZ_ext; intros. apply sumZ_scal. Qed.
Lemma S3_opp a b c d e f g : S3 a b c d e f (fun i j k => - g i j k) = - S3 a b c d e f g.
Proof.
  rewrite <- (Rmult_1_l (S3 _ _ _ _ _ _ g)), <- Ropp_mult_distr_l_reverse, <- S3_scal. apply S3_ext. intros; ring.
Qed.
(** reorderings of the sums *)
Lemma S3_xlast a b c d e f g : S3 a b c d e f g = sumZ c d (fun j => sumZ e f (fun k => sumZ a b (fun i => g i j k))).
Proof. unfold S3. rewrite sumZ_swap. apply sumZ_ext; intros. apply sumZ_swap. Qed.
Lemma S3_ylast a b c d e f g : S3 a b c d e f g = sumZ a b (fun i => sumZ e f (fun k => sumZ c d (fun j => g i j k))).
Proof. unfold S3. apply sumZ_ext; intros. apply sumZ_swap. Qed.

Section Curl.
Variables xl xh yl yh zl zh : Z.
Hypothesis LX : (xl < xh)%Z. Hypothesis LY : (yl < yh)%Z. Hypothesis LZ : (zl < zh)%Z.
Variables dx dy dz hx hy hz : Z -> R.
Variables mx my mz : R.
Hypothesis MX : 0 < mx. Hypothesis MY : 0 < my. Hypothesis MZ : 0 < mz.
Hypothesis DX : forall n, (xl <= n < xh)%Z -> mx <= dx n.
Hypothesis DY : forall n, (yl <= n < yh)%Z -> my <= dy n.
Hypothesis DZ : forall n, (zl <= n < zh)%Z -> mz <= dz n.
Hypothesis HX' : forall n, (xl < n < xh)%Z -> hx n = (dx (n - 1)%Z + dx n) / 2.
Hypothesis HY' : forall n, (yl < n < yh)%Z -> hy n = (dy (n - 1)%Z + dy n) / 2.
Hypothesis HZ' : forall n, (zl < n < zh)%Z -> hz n = (dz (n - 1)%Z + dz n) / 2.
Hypothesis PX : forall n, (xl <= n <= xh)%Z -> 0 < hx n.
Hypothesis PY : forall n, (yl <= n <= yh)%Z -> 0 < hy n.
Hypothesis PZ : forall n, (zl <= n <= zh)%Z -> 0 < hz n.
Variables e1 e2 e3 : Z -> Z -> Z -> R.
Hypothesis W1y : forall i k, (xl <= i < xh)%Z -> (zl <= k <= zh)%Z -> e1 i yl k = 0 /\ e1 i yh k = 0.
Hypothesis W1z : forall i j, (xl <= i < xh)%Z -> (yl <= j <= yh)%Z -> e1 i j zl = 0 /\ e1 i j zh = 0.
Hypothesis W2x : forall j k, (yl <= j < yh)%Z -> (zl <= k <= zh)%Z -> e2 xl j k = 0 /\ e2 xh j k = 0.
Hypothesis W2z : forall i j, (xl <= i <= xh)%Z -> (yl <= j < yh)%Z -> e2 i j zl = 0 /\ e2 i j zh = 0.
Hypothesis W3x : forall j k, (yl <= j <= yh)%Z -> (zl <= k < zh)%Z -> e3 xl j k = 0 /\ e3 xh j k = 0.
Hypothesis W3y : forall i k, (xl <= i <= xh)%Z -> (zl <= k < zh)%Z -> e3 i yl k = 0 /\ e3 i yh k = 0.

Definition sq (x : R) : R := x * x.
Definition nE1 := S3 xl (xh-1) yl yh zl zh (fun i j k => dx i * hy j * hz k * sq (e1 i j k)).
Definition nE2 := S3 xl xh yl (yh-1) zl zh (fun i j k => hx i * dy j * hz k * sq (e2 i j k)).
Definition nE3 := S3 xl xh yl yh zl (zh-1) (fun i j k => hx i * hy j * dz k * sq (e3 i j k)).
Definition cu1 i j k := (e2 i j (k+1)%Z - e2 i j k) * / dz k - (e3 i (j+1)%Z k - e3 i j k) * / dy j.
Definition cu2 i j k := (e3 (i+1)%Z j k - e3 i j k) * / dx i - (e1 i j (k+1)%Z - e1 i j k) * / dz k.
Definition cu3 i j k := (e1 i (j+1)%Z k - e1 i j k) * / dy j - (e2 (i+1)%Z j k - e2 i j k) * / dx i.
Definition nC1 := S3 xl xh yl (yh-1) zl (zh-1) (fun i j k => hx i * dy j * dz k * sq (cu1 i j k)).
Definition nC2 := S3 xl (xh-1) yl yh zl (zh-1) (fun i j k => dx i * hy j * dz k * sq (cu2 i j k)).
Definition nC3 := S3 xl (xh-1) yl (yh-1) zl zh (fun i j k => dx i * dy j * hz k * sq (cu3 i j k)).
Notation T m := (4 * / (m * m)).

Ltac dpos := repeat match goal with
  | H : (xl <= ?n <= xh - 1)%Z |- _ => lazymatch goal with _ : mx <= dx n |- _ => fail | _ => pose proof (DX n ltac:(lia)) end
  | H : (yl <= ?n <= yh - 1)%Z |- _ => lazymatch goal with _ : my <= dy n |- _ => fail | _ => pose proof (DY n ltac:(lia)) end
  | H : (zl <= ?n <= zh - 1)%Z |- _ => lazymatch goal with _ : mz <= dz n |- _ => fail | _ => pose proof (DZ n ltac:(lia)) end
  end.
Lemma sq_nonneg x : 0 <= sq x. Proof. apply Rle_0_sqr. Qed.
Ltac wpos := dpos; repeat first [apply sq_nonneg | match goal with |- 0 <= _ * _ => apply Rmult_le_pos end];
  try (left; first [apply PX; lia|apply PY; lia|apply PZ; lia]); try lra.

(** the six edge-difference norms *)
Lemma b1y : S3 xl (xh-1) yl (yh-1) zl zh (fun i j k => dx i * hz k * (sq (e1 i (j+1)%Z k - e1 i j k) * / dy j)) <= T my * nE1.
Proof.
  unfold nE1. rewrite !S3_ylast, <- sumZ_scal. apply sumZ_le; intros i Hi. rewrite <- sumZ_scal. apply sumZ_le; intros k Hk.
  rewrite sumZ_scal. rewrite (sumZ_ext yl yh _ (fun j => dx i * hz k * (hy j * (e1 i j k * e1 i j k)))) by (intros; unfold sq; ring).
  rewrite sumZ_scal. destruct (W1y i k ltac:(lia) Hk) as [A B].
  pose proof (edge_diff yl yh dy hy my LY MY DY HY' (fun j => e1 i j k) A B) as X. cbn beta in X.
  assert (0 <= dx i * hz k) by wpos. unfold sq. nra.
Qed.
Lemma b1z : S3 xl (xh-1) yl yh zl (zh-1) (fun i j k => dx i * hy j * (sq (e1 i j (k+1)%Z - e1 i j k) * / dz k)) <= T mz * nE1.
Proof.
  unfold nE1, S3. rewrite <- sumZ_scal. apply sumZ_le; intros i Hi. rewrite <- sumZ_scal. apply sumZ_le; intros j Hj.
  rewrite sumZ_scal. rewrite (sumZ_ext zl zh _ (fun k => dx i * hy j * (hz k * (e1 i j k * e1 i j k)))) by (intros; unfold sq; ring).
  rewrite sumZ_scal. destruct (W1z i j ltac:(lia) Hj) as [A B].
  pose proof (edge_diff zl zh dz hz mz LZ MZ DZ HZ' (fun k => e1 i j k) A B) as X. cbn beta in X.
  assert (0 <= dx i * hy j) by wpos. unfold sq. nra.
Qed.
Lemma b2x : S3 xl (xh-1) yl (yh-1) zl zh (fun i j k => dy j * hz k * (sq (e2 (i+1)%Z j k - e2 i j k) * / dx i)) <= T mx * nE2.
Proof.
  unfold nE2. rewrite !S3_xlast, <- sumZ_scal. apply sumZ_le; intros j Hj. rewrite <- sumZ_scal. apply sumZ_le; intros k Hk.
  rewrite sumZ_scal. rewrite (sumZ_ext xl xh _ (fun i => dy j * hz k * (hx i * (e2 i j k * e2 i j k)))) by (intros; unfold sq; ring).
  rewrite sumZ_scal. destruct (W2x j k ltac:(lia) Hk) as [A B].
  pose proof (edge_diff xl xh dx hx mx LX MX DX HX' (fun i => e2 i j k) A B) as X. cbn beta in X.
  assert (0 <= dy j * hz k) by wpos. unfold sq. nra.
Qed.
Lemma b2z : S3 xl xh yl (yh-1) zl (zh-1) (fun i j k => hx i * dy j * (sq (e2 i j (k+1)%Z - e2 i j k) * / dz k)) <= T mz * nE2.
Proof.
  unfold nE2, S3. rewrite <- sumZ_scal. apply sumZ_le; intros i Hi. rewrite <- sumZ_scal. apply sumZ_le; intros j Hj.
  rewrite sumZ_scal. rewrite (sumZ_ext zl zh _ (fun k => hx i * dy j * (hz k * (e2 i j k * e2 i j k)))) by (intros; unfold sq; ring).
  rewrite sumZ_scal. destruct (W2z i j ltac:(lia) ltac:(lia)) as [A B].
  pose proof (edge_diff zl zh dz hz mz LZ MZ DZ HZ' (fun k => e2 i j k) A B) as X. cbn beta in X.
  assert (0 <= hx i * dy j) by wpos. unfold sq. nra.
Qed.
Lemma b3x : S3 xl (xh-1) yl yh zl (zh-1) (fun i j k => hy j * dz k * (sq (e3 (i+1)%Z j k - e3 i j k) * / dx i)) <= T mx * nE3.
Proof.
  unfold nE3. rewrite !S3_xlast, <- sumZ_scal. apply sumZ_le; intros j Hj. rewrite <- sumZ_scal. apply sumZ_le; intros k Hk.
  rewrite sumZ_scal. rewrite (sumZ_ext xl xh _ (fun i => hy j * dz k * (hx i * (e3 i j k * e3 i j k)))) by (intros; unfold sq; ring).
  rewrite sumZ_scal. destruct (W3x j k ltac:(lia) ltac:(lia)) as [A B].
  pose proof (edge_diff xl xh dx hx mx LX MX DX HX' (fun i => e3 i j k) A B) as X. cbn beta in X.
  assert (0 <= hy j * dz k) by wpos. unfold sq. nra.
Qed.
Lemma b3y : S3 xl xh yl (yh-1) zl (zh-1) (fun i j k => hx i * dz k * (sq (e3 i (j+1)%Z k - e3 i j k) * / dy j)) <= T my * nE3.
Proof.
  unfold nE3. rewrite !S3_ylast, <- sumZ_scal. apply sumZ_le; intros i Hi. rewrite <- sumZ_scal. apply sumZ_le; intros k Hk.
  rewrite sumZ_scal. rewrite (sumZ_ext yl yh _ (fun j => hx i * dz k * (hy j * (e3 i j k * e3 i j k)))) by (intros; unfold sq; ring).
  rewrite sumZ_scal. destruct (W3y i k ltac:(lia) ltac:(lia)) as [A B].
  pose proof (edge_diff yl yh dy hy my LY MY DY HY' (fun j => e3 i j k) A B) as X. cbn beta in X.
  assert (0 <= hx i * dz k) by wpos. unfold sq. nra.
Qed.
(** the three node-difference norms; sums over interior nodes *)
Notation N3 := (S3 (xl+1) (xh-1) (yl+1) (yh-1) (zl+1) (zh-1)).
Lemma n1 : N3 (fun i j k => hy j * hz k * (sq (e1 i j k - e1 (i-1)%Z j k) * / hx i)) <= T mx * nE1.
Proof.
  assert (M2 : 0 < / (mx * mx)) by (apply Rinv_0_lt_compat; nra).
  unfold nE1. rewrite !S3_xlast.
  eapply Rle_trans with (T mx * sumZ (yl+1) (yh-1) (fun j => sumZ (zl+1) (zh-1) (fun k => sumZ xl (xh-1) (fun i => dx i * hy j * hz k * sq (e1 i j k))))).
  - rewrite <- sumZ_scal. apply sumZ_le; intros j Hj. rewrite <- sumZ_scal. apply sumZ_le; intros k Hk.
    rewrite sumZ_scal. rewrite (sumZ_ext xl (xh-1) _ (fun i => hy j * hz k * (dx i * (e1 i j k * e1 i j k)))) by (intros; unfold sq; ring).
    rewrite sumZ_scal. pose proof (node_diff xl xh dx hx mx LX MX DX HX' (fun i => e1 i j k)) as X. cbn beta in X.
    assert (0 <= hy j * hz k) by wpos. unfold sq. nra.
  - apply Rmult_le_compat_l; [lra|].
    eapply Rle_trans; [|apply sumZ_widen; [exact LY|]].
    + apply sumZ_le; intros j Hj. apply sumZ_widen; [exact LZ|]. intros k Hk. apply sumZ_nonneg. intros i Hi. wpos.
    + intros j Hj. apply sumZ_nonneg. intros k Hk. apply sumZ_nonneg. intros i Hi. wpos.
Qed.
Lemma n2 : N3 (fun i j k => hx i * hz k * (sq (e2 i j k - e2 i (j-1)%Z k) * / hy j)) <= T my * nE2.
Proof.
  assert (M2 : 0 < / (my * my)) by (apply Rinv_0_lt_compat; nra).
  unfold nE2. rewrite !S3_ylast.
  eapply Rle_trans with (T my * sumZ (xl+1) (xh-1) (fun i => sumZ (zl+1) (zh-1) (fun k => sumZ yl (yh-1) (fun j => hx i * dy j * hz k * sq (e2 i j k))))).
  - rewrite <- sumZ_scal. apply sumZ_le; intros i Hi. rewrite <- sumZ_scal. apply sumZ_le; intros k Hk.
    rewrite sumZ_scal. rewrite (sumZ_ext yl (yh-1) _ (fun j => hx i * hz k * (dy j * (e2 i j k * e2 i j k)))) by (intros; unfold sq; ring).
    rewrite sumZ_scal. pose proof (node_diff yl yh dy hy my LY MY DY HY' (fun j => e2 i j k)) as X. cbn beta in X.
    assert (0 <= hx i * hz k) by wpos. unfold sq. nra.
  - apply Rmult_le_compat_l; [lra|].
    eapply Rle_trans; [|apply sumZ_widen; [exact LX|]].
    + apply sumZ_le; intros i Hi. apply sumZ_widen; [exact LZ|]. intros k Hk. apply sumZ_nonneg. intros j Hj. wpos.
    + intros i Hi. apply sumZ_nonneg. intros k Hk. apply sumZ_nonneg. intros j Hj. wpos.
Qed.
Lemma n3 : N3 (fun i j k => hx i * hy j * (sq (e3 i j k - e3 i j (k-1)%Z) * / hz k)) <= T mz * nE3.
Proof.
  assert (M2 : 0 < / (mz * mz)) by (apply Rinv_0_lt_compat; nra).
  unfold nE3, S3.
  eapply Rle_trans with (T mz * sumZ (xl+1) (xh-1) (fun i => sumZ (yl+1) (yh-1) (fun j => sumZ zl (zh-1) (fun k => hx i * hy j * dz k * sq (e3 i j k))))).
  - rewrite <- sumZ_scal. apply sumZ_le; intros i Hi. rewrite <- sumZ_scal. apply sumZ_le; intros j Hj.
    rewrite sumZ_scal. rewrite (sumZ_ext zl (zh-1) _ (fun k => hx i * hy j * (dz k * (e3 i j k * e3 i j k)))) by (intros; unfold sq; ring).
    rewrite sumZ_scal. pose proof (node_diff zl zh dz hz mz LZ MZ DZ HZ' (fun k => e3 i j k)) as X. cbn beta in X.
    assert (0 <= hx i * hy j) by wpos. unfold sq. nra.
  - apply Rmult_le_compat_l; [lra|].
    eapply Rle_trans; [|apply sumZ_widen; [exact LX|]].
    + apply sumZ_le; intros i Hi. apply sumZ_widen; [exact LY|]. intros j Hj. apply sumZ_nonneg. intros k Hk. wpos.
    + intros i Hi. apply sumZ_nonneg. intros j Hj. apply sumZ_nonneg. intros k Hk. wpos.
Qed.
(** the three mixed terms *)
Lemma x1 : S3 xl xh yl (yh-1) zl (zh-1) (fun i j k => hx i * ((e2 i j (k+1)%Z - e2 i j k) * (e3 i (j+1)%Z k - e3 i j k)))
  = N3 (fun i j k => hx i * ((e2 i j k - e2 i (j-1)%Z k) * (e3 i j k - e3 i j (k-1)%Z))).
Proof.
  unfold S3. rewrite (sumZ_interior xl xh).
  - apply sumZ_ext. intros i Hi. 
    rewrite (sumZ_ext yl (yh-1) _ (fun j => hx i * sumZ zl (zh-1) (fun k => (e2 i j (k+1)%Z - e2 i j k) * (e3 i (j+1)%Z k - e3 i j k)))) by (intros; apply sumZ_scal).
    rewrite (sumZ_ext (yl+1) (yh-1) _ (fun j => hx i * sumZ (zl+1) (zh-1) (fun k => (e2 i j k - e2 i (j-1)%Z k) * (e3 i j k - e3 i j (k-1)%Z)))) by (intros; apply sumZ_scal).
    rewrite !sumZ_scal. f_equal. apply (mixed yl yh zl zh (fun j k => e2 i j k) (fun j k => e3 i j k)); auto; intros; [apply W2z|apply W3y]; lia.
  - exact LX.
  - rewrite <- (sumZ_zero yl (yh-1)). apply sumZ_ext. intros j Hj. rewrite <- (sumZ_zero zl (zh-1)). apply sumZ_ext. intros k Hk.
    destruct (W2x j k ltac:(lia) ltac:(lia)) as [-> _]. destruct (W2x j (k+1) ltac:(lia) ltac:(lia)) as [-> _]. ring.
  - rewrite <- (sumZ_zero yl (yh-1)). apply sumZ_ext. intros j Hj. rewrite <- (sumZ_zero zl (zh-1)). apply sumZ_ext. intros k Hk.
    destruct (W2x j k ltac:(lia) ltac:(lia)) as [_ ->]. destruct (W2x j (k+1) ltac:(lia) ltac:(lia)) as [_ ->]. ring.
Qed.
Lemma x2 : S3 xl (xh-1) yl yh zl (zh-1) (fun i j k => hy j * ((e3 (i+1)%Z j k - e3 i j k) * (e1 i j (k+1)%Z - e1 i j k)))
  = N3 (fun i j k => hy j * ((e1 i j k - e1 (i-1)%Z j k) * (e3 i j k - e3 i j (k-1)%Z))).
Proof.
  unfold S3. rewrite (sumZ_swap xl), (sumZ_swap (xl+1)). rewrite (sumZ_interior yl yh).
  - apply sumZ_ext. intros j Hj. 
    rewrite (sumZ_ext xl (xh-1) _ (fun i => hy j * sumZ zl (zh-1) (fun k => (e1 i j (k+1)%Z - e1 i j k) * (e3 (i+1)%Z j k - e3 i j k)))) by (intros; rewrite <- sumZ_scal; apply sumZ_ext; intros; ring).
    rewrite (sumZ_ext (xl+1) (xh-1) _ (fun i => hy j * sumZ (zl+1) (zh-1) (fun k => (e1 i j k - e1 (i-1)%Z j k) * (e3 i j k - e3 i j (k-1)%Z)))) by (intros; apply sumZ_scal).
    rewrite !sumZ_scal. f_equal. apply (mixed xl xh zl zh (fun i k => e1 i j k) (fun i k => e3 i j k)); auto; intros; [apply W1z|apply W3x]; lia.
  - exact LY.
  - rewrite <- (sumZ_zero xl (xh-1)). apply sumZ_ext. intros i Hi. rewrite <- (sumZ_zero zl (zh-1)). apply sumZ_ext. intros k Hk.
    destruct (W1y i k ltac:(lia) ltac:(lia)) as [-> _]. destruct (W1y i (k+1) ltac:(lia) ltac:(lia)) as [-> _]. ring.
  - rewrite <- (sumZ_zero xl (xh-1)). apply sumZ_ext. intros i Hi. rewrite <- (sumZ_zero zl (zh-1)). apply sumZ_ext. intros k Hk.
    destruct (W1y i k ltac:(lia) ltac:(lia)) as [_ ->]. destruct (W1y i (k+1) ltac:(lia) ltac:(lia)) as [_ ->]. ring.
Qed.
Lemma x3 : S3 xl (xh-1) yl (yh-1) zl zh (fun i j k => hz k * ((e1 i (j+1)%Z k - e1 i j k) * (e2 (i+1)%Z j k - e2 i j k)))
  = N3 (fun i j k => hz k * ((e1 i j k - e1 (i-1)%Z j k) * (e2 i j k - e2 i (j-1)%Z k))).
Proof.
  unfold S3.
  transitivity (sumZ zl zh (fun k => sumZ xl (xh-1) (fun i => sumZ yl (yh-1) (fun j => hz k * ((e1 i (j+1)%Z k - e1 i j k) * (e2 (i+1)%Z j k - e2 i j k)))))).
  { rewrite (sumZ_swap zl zh). apply sumZ_ext; intros. apply sumZ_swap. }
  transitivity (sumZ (zl+1) (zh-1) (fun k => sumZ (xl+1) (xh-1) (fun i => sumZ (yl+1) (yh-1) (fun j => hz k * ((e1 i j k - e1 (i-1)%Z j k) * (e2 i j k - e2 i (j-1)%Z k)))))).
  2:{ rewrite (sumZ_swap (zl+1)). apply sumZ_ext; intros. apply sumZ_swap. }
  rewrite (sumZ_interior zl zh).
  - apply sumZ_ext. intros k Hk. 
    rewrite (sumZ_ext xl (xh-1) _ (fun i => hz k * sumZ yl (yh-1) (fun j => (e1 i (j+1)%Z k - e1 i j k) * (e2 (i+1)%Z j k - e2 i j k)))) by (intros; apply sumZ_scal).
    rewrite (sumZ_ext (xl+1) (xh-1) _ (fun i => hz k * sumZ (yl+1) (yh-1) (fun j => (e1 i j k - e1 (i-1)%Z j k) * (e2 i j k - e2 i (j-1)%Z k)))) by (intros; apply sumZ_scal).
    rewrite !sumZ_scal. f_equal. apply (mixed xl xh yl yh (fun i j => e1 i j k) (fun i j => e2 i j k)); auto; intros; [apply W1y|apply W2x]; lia.
  - exact LZ.
  - rewrite <- (sumZ_zero xl (xh-1)). apply sumZ_ext. intros i Hi. rewrite <- (sumZ_zero yl (yh-1)). apply sumZ_ext. intros j Hj.
    destruct (W1z i j ltac:(lia) ltac:(lia)) as [-> _]. destruct (W1z i (j+1) ltac:(lia) ltac:(lia)) as [-> _]. ring.
  - rewrite <- (sumZ_zero xl (xh-1)). apply sumZ_ext. intros i Hi. rewrite <- (sumZ_zero yl (yh-1)). apply sumZ_ext. intros j Hj.
    destruct (W1z i j ltac:(lia) ltac:(lia)) as [_ ->]. destruct (W1z i (j+1) ltac:(lia) ltac:(lia)) as [_ ->]. ring.
Qed.
(** squares of the curls, split *)
Lemma s1 : nC1 = S3 xl xh yl (yh-1) zl (zh-1) (fun i j k => hx i * dy j * (sq (e2 i j (k+1)%Z - e2 i j k) * / dz k))
  + S3 xl xh yl (yh-1) zl (zh-1) (fun i j k => hx i * dz k * (sq (e3 i (j+1)%Z k - e3 i j k) * / dy j))
  - 2 * S3 xl xh yl (yh-1) zl (zh-1) (fun i j k => hx i * ((e2 i j (k+1)%Z - e2 i j k) * (e3 i (j+1)%Z k - e3 i j k))).
Proof.
  unfold nC1. set (s := S3 _ _ _ _ _ _ (fun i j k => hx i * ((e2 i j (k+1)%Z - e2 i j k) * _))).
  replace (- 2 * s) with (- (2 * s)) by ring. unfold Rminus. unfold s. rewrite <- S3_scal, <- S3_opp, <- !S3_plus. clear s. apply S3_ext. intros i j k Hi Hj Hk.
  unfold cu1, sq. dpos. field. split; lra.
Qed.
Lemma s2 : nC2 = S3 xl (xh-1) yl yh zl (zh-1) (fun i j k => hy j * dz k * (sq (e3 (i+1)%Z j k - e3 i j k) * / dx i))
  + S3 xl (xh-1) yl yh zl (zh-1) (fun i j k => dx i * hy j * (sq (e1 i j (k+1)%Z - e1 i j k) * / dz k))
  - 2 * S3 xl (xh-1) yl yh zl (zh-1) (fun i j k => hy j * ((e3 (i+1)%Z j k - e3 i j k) * (e1 i j (k+1)%Z - e1 i j k))).
Proof.
  unfold nC2. unfold Rminus. rewrite <- S3_scal, <- S3_opp, <- !S3_plus. apply S3_ext. intros i j k Hi Hj Hk.
  unfold cu2, sq. dpos. field. split; lra.
Qed.
Lemma s3 : nC3 = S3 xl (xh-1) yl (yh-1) zl zh (fun i j k => dx i * hz k * (sq (e1 i (j+1)%Z k - e1 i j k) * / dy j))
  + S3 xl (xh-1) yl (yh-1) zl zh (fun i j k => dy j * hz k * (sq (e2 (i+1)%Z j k - e2 i j k) * / dx i))
  - 2 * S3 xl (xh-1) yl (yh-1) zl zh (fun i j k => hz k * ((e1 i (j+1)%Z k - e1 i j k) * (e2 (i+1)%Z j k - e2 i j k))).
Proof.
  unfold nC3. unfold Rminus. rewrite <- S3_scal, <- S3_opp, <- !S3_plus. apply S3_ext. intros i j k Hi Hj Hk.
  unfold cu3, sq. dpos. field. split; lra.
Qed.
(** -2(pq+pr+qr) <= p^2+q^2+r^2 at every interior node *)
Lemma nodes : - 2 * N3 (fun i j k => hx i * ((e2 i j k - e2 i (j-1)%Z k) * (e3 i j k - e3 i j (k-1)%Z)))
  - 2 * N3 (fun i j k => hy j * ((e1 i j k - e1 (i-1)%Z j k) * (e3 i j k - e3 i j (k-1)%Z)))
  - 2 * N3 (fun i j k => hz k * ((e1 i j k - e1 (i-1)%Z j k) * (e2 i j k - e2 i (j-1)%Z k)))
  <= N3 (fun i j k => hy j * hz k * (sq (e1 i j k - e1 (i-1)%Z j k) * / hx i))
   + N3 (fun i j k => hx i * hz k * (sq (e2 i j k - e2 i (j-1)%Z k) * / hy j))
   + N3 (fun i j k => hx i * hy j * (sq (e3 i j k - e3 i j (k-1)%Z) * / hz k)).
Proof.
  match goal with |- - 2 * ?a - 2 * ?b - 2 * ?d <= _ => replace (- 2 * a - 2 * b - 2 * d) with (- 2 * a + - 2 * b + - 2 * d) by ring end.
  rewrite <- !S3_scal, <- !S3_plus. apply S3_le. intros i j k Hi Hj Hk.
  pose proof (PX i ltac:(lia)) as A. pose proof (PY j ltac:(lia)) as B. pose proof (PZ k ltac:(lia)) as C.
  set (p := e1 i j k - e1 (i-1)%Z j k). set (q := e2 i j k - e2 i (j-1)%Z k). set (r := e3 i j k - e3 i j (k-1)%Z).
  set (u := hx i) in *. set (v := hy j) in *. set (w := hz k) in *.
  assert (0 <= u * v * w * sq (p * / u + q * / v + r * / w)).
  { apply Rmult_le_pos; [|apply sq_nonneg]. repeat apply Rmult_le_pos; lra. }
  assert (X : u * v * w * sq (p * / u + q * / v + r * / w) =
    v * w * (sq p * / u) + u * w * (sq q * / v) + u * v * (sq r * / w) + 2 * (u * (q * r)) + 2 * (v * (p * r)) + 2 * (w * (p * q))).
  { unfold sq. field. repeat split; lra. }
  lra.
Qed.
Theorem curl_bound : nC1 + nC2 + nC3 <= (T mx + T my + T mz) * (nE1 + nE2 + nE3).
Proof.
  rewrite s1, s2, s3, x1, x2, x3.
  pose proof b1y. pose proof b1z. pose proof b2x. pose proof b2z. pose proof b3x. pose proof b3y.
  pose proof n1. pose proof n2. pose proof n3. pose proof nodes. lra.
Qed.
End Curl.
