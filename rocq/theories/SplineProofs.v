(** Proofs about external waveforms (createSplines, evalSpline). *)
From Coq Require Import ZArith List Bool Lia Reals Lra Psatz.
From Verif Require Import Types Lang CArr Waveform SpecWave.
Import ListNotations.
Open Scope R_scope.

Section Spline.
Variables (n : Z) (T Y : Z -> R).
Hypothesis N2 : (2 <= n)%Z.
Hypothesis INC : forall i, (0 <= i < n - 1)%Z -> T i < T (i + 1)%Z.

Lemma T_mono i j : (0 <= i)%Z -> (i < j)%Z -> (j < n)%Z -> T i < T j.
Proof using INC.
  intros H0 H1 H2. remember (Z.to_nat (j - i - 1)) as k eqn:E. revert j H1 H2 E.
  induction k; intros.
  - replace j with (i + 1)%Z by lia. apply INC. lia.
  - apply Rlt_trans with (T (j - 1)%Z); [apply IHk; lia|].
    replace (T j) with (T ((j - 1) + 1)%Z) by (f_equal; lia). apply INC. lia.
Qed.
Lemma T_mono_le i j : (0 <= i)%Z -> (i <= j)%Z -> (j < n)%Z -> T i <= T j.
Proof using INC.
  intros. destruct (Z.eq_dec i j) as [->|]; [lra|]. left. apply T_mono; lia.
Qed.

(** ** createSplines *)
Definition h (i : Z) : R := T (i + 1)%Z - T i.
Definition sl (i : Z) : R := (Y (i + 1)%Z - Y i) / h i.
Lemma h_pos i : (0 <= i < n - 1)%Z -> 0 < h i.
Proof using INC. intros. unfold h. pose proof (INC i H). lra. Qed.

(** Values produced by the forward sweep. *)
Definition sweep_inv (i : Z) (s : carr R * carr R) : Prop :=
  let '(D, u) := s in
  alen D = n /\ alen u = (n - 1)%Z /\
  (forall j, (0 <= j < i)%Z -> -1 <= adat D j <= 0) /\
  adat D 0 = - / 2 /\ adat u 0 = 3 / h 0 * sl 0 /\
  (forall j, (1 <= j < i)%Z -> exists p,
     let sg := h (j - 1) / (h (j - 1) + h j) in
     p = sg * adat D (j - 1) + 2 /\ 1 <= p /\ adat D j = (sg - 1) / p /\
     adat u j = (6 * (sl j - sl (j - 1)) / (h (j - 1) + h j) - sg * adat u (j - 1)) / p).

Lemma monotone_true a : alen a = n -> (forall i, (0 <= i < n)%Z -> adat a i = T i) -> monotone n a = Some true.
Proof using N2 INC.
  intros L V. unfold monotone.
  destruct (cfor_inv (fun _ (b : bool) => b = true) 1 (n - 1)
    (fun b i => do x <- rd a i; do y <- rd a (i - 1); Some (b && negb (Rleb (x - y) 0))) true) as (s & E & ->); auto; [lia|].
  intros i t Hi ->. rewrite !rd_ok by lia. cbn [obind]. eexists. split; [reflexivity|].
  rewrite !V by lia. unfold Rleb. pose proof (INC (i - 1) ltac:(lia)) as P. replace (i - 1 + 1)%Z with i in P by lia.
  destruct (Rle_dec (T i - T (i - 1)%Z) 0); [lra|reflexivity].
Qed.

Lemma sweepPt_ok (Ta Ya : carr R) i D u :
  alen Ta = n -> alen Ya = n -> (forall j, (0 <= j < n)%Z -> adat Ta j = T j) -> (forall j, (0 <= j < n)%Z -> adat Ya j = Y j) ->
  (1 <= i <= n - 2)%Z -> sweep_inv i (D, u) ->
  exists s', sweepPt Ta Ya (D, u) i = Some s' /\ sweep_inv (i + 1) s'.
Proof using N2 INC.
  intros LT LY VT VY Hi (LD & LU & B & D0 & U0 & RR). unfold sweepPt.
  rewrite !(rd_ok Ta), !(rd_ok Ya), !(rd_ok D) by lia. cbn [obind].
  rewrite wr_ok by lia. cbn [obind]. rewrite (wr_ok u) by lia. cbn [obind].
  rewrite !rd_ok by (cbn [alen]; lia). cbn [obind].
  rewrite wr_ok by (cbn [alen]; lia). cbn [obind]. eexists. split; [reflexivity|].
  cbn [alen adat]. rewrite Z.eqb_refl. destruct (Z.eqb_spec (i - 1) i) as [|_]; [lia|].
  rewrite !VT, !VY by lia.
  pose proof (h_pos (i - 1) ltac:(lia)) as P1. pose proof (h_pos i ltac:(lia)) as P2.
  assert (E1 : T i - T (i - 1)%Z = h (i - 1)) by (unfold h; do 2 f_equal; lia).
  assert (E2 : T (i + 1)%Z - T (i - 1)%Z = h (i - 1) + h i).
  { unfold h. replace (i - 1 + 1)%Z with i by lia. ring. }
  assert (E3 : T (i + 1)%Z - T i = h i) by reflexivity.
  rewrite E1, E2, E3.
  assert (E4 : (Y (i + 1)%Z - Y i) / h i = sl i) by reflexivity.
  assert (E5 : (Y i - Y (i - 1)%Z) / h (i - 1) = sl (i - 1)).
  { unfold sl. do 3 f_equal; lia. }
  rewrite E4, E5.
  set (sg := h (i - 1) / (h (i - 1) + h i)).
  assert (SG : 0 < sg < 1).
  { unfold sg. split; [apply Rdiv_lt_0_compat; lra|]. apply Rmult_lt_reg_r with (h (i - 1) + h i); [lra|].
    unfold Rdiv. rewrite Rmult_assoc, Rinv_l by lra. lra. }
  pose proof (B (i - 1)%Z ltac:(lia)) as Bi.
  set (p := sg * adat D (i - 1) + 2).
  assert (P : 1 <= p) by (unfold p; nra).
  assert (DI : -1 <= (sg - 1) / p <= 0).
  { split.
    - apply Rmult_le_reg_r with p; [lra|]. unfold Rdiv. rewrite Rmult_assoc, Rinv_l by lra. lra.
    - apply Rmult_le_reg_r with p; [lra|]. unfold Rdiv. rewrite Rmult_assoc, Rinv_l by lra. lra. }
  unfold sweep_inv. cbn [alen adat].
  split; [exact LD|]. split; [exact LU|].
  split. { intros j Hj. destruct (Z.eqb_spec j i) as [->|]; [exact DI|]. apply B. lia. }
  split. { destruct (Z.eqb_spec 0 i); [lia|exact D0]. }
  split. { destruct (Z.eqb_spec 0 i); [lia|exact U0]. }
  intros j Hj. destruct (Z.eqb_spec j i) as [->|].
  - exists p. cbv zeta. destruct (Z.eqb_spec (i - 1) i) as [|_]; [lia|].
    split; [reflexivity|]. split; [exact P|]. split; [reflexivity|]. reflexivity.
  - destruct (RR j ltac:(lia)) as (q & Q). exists q. cbv zeta in *.
    destruct (Z.eqb_spec (j - 1) i) as [|_]; [lia|]. exact Q.
Qed.

(** The equations the second derivatives M satisfy. *)
Definition spline_system (M : Z -> R) : Prop :=
  2 * M 0%Z + M 1%Z = 6 / h 0 * sl 0 /\
  (forall i, (1 <= i <= n - 2)%Z ->
     h (i - 1) * M (i - 1)%Z + 2 * (h (i - 1) + h i) * M i + h i * M (i + 1)%Z = 6 * (sl i - sl (i - 1))) /\
  M (n - 2)%Z + 2 * M (n - 1)%Z = - (6 / h (n - 2) * sl (n - 2)).

Lemma createSplines_ok (t : Table) garbage :
  alen (tT t) = n -> alen (tY t) = n -> alen (tD t) = n ->
  (forall j, (0 <= j < n)%Z -> adat (tT t) j = T j) -> (forall j, (0 <= j < n)%Z -> adat (tY t) j = Y j) ->
  exists D, createSplines t n 0 0 garbage = Some (Done (mkTable (tT t) (tY t) D)) /\ alen D = n /\ spline_system (adat D).
Proof using N2 INC.
  intros LT LY LD VT VY. unfold createSplines.
  destruct (Z.ltb_spec n 2) as [|_]; [lia|].
  rewrite (monotone_true _ LT VT). cbn [obind negb].
  rewrite !(rd_ok (tT t)), !(rd_ok (tY t)) by lia. cbn [obind].
  assert (BIG : 0 < 99 / 100 * 10 ^ 30) by (apply Rmult_lt_0_compat; [lra|apply pow_lt; lra]).
  destruct (Rlt_dec (99 / 100 * 10 ^ 30) 0) as [C|_]; [exfalso; lra|].
  rewrite (wr_ok (tD t)) by lia. cbn [obind]. rewrite wr_ok by (cbn [alen]; lia). cbn [obind].
  match goal with |- context [cfor 1 (n - 2) _ ?s0] => set (s := s0) end.
  destruct (cfor_inv sweep_inv 1 (n - 2) (sweepPt (tT t) (tY t)) s) as ([D u] & E & I); [lia| | |].
  { subst s. unfold sweep_inv. cbn [alen adat]. rewrite !Z.eqb_refl.
    split; [exact LD|]. split; [reflexivity|]. split.
    { intros j Hj. replace j with 0%Z by lia. rewrite Z.eqb_refl. lra. }
    split; [reflexivity|]. split; [|intros; lia].
    rewrite !VT, !VY by lia. unfold sl, h. cbn. rewrite Rminus_0_r. reflexivity. }
  { intros i [D u] Hi HI. eapply sweepPt_ok; eauto. }
  rewrite E. cbn [obind]. destruct I as (LD' & LU & B & D0 & U0 & RR). replace (n - 2 + 1)%Z with (n - 1)%Z in * by lia.
  rewrite (rd_ok u), (rd_ok D) by lia. cbn [obind].
  rewrite (wr_ok D) by lia. cbn [obind].
  set (last := (3 / (adat (tT t) (n - 1) - adat (tT t) (n - 2)) *
      (0 - (adat (tY t) (n - 1) - adat (tY t) (n - 2)) / (adat (tT t) (n - 1) - adat (tT t) (n - 2))) - / 2 * adat u (n - 2)) /
      (/ 2 * adat D (n - 2) + 1)).
  set (D1 := mkArr (alen D) (fun j => if (j =? n - 1)%Z then last else adat D j)).
  destruct (cfor_inv (fun j (A : carr R) => alen A = n /\
      (forall k, (0 <= k < n - 1 - j)%Z -> adat A k = adat D k) /\ adat A (n - 1) = last /\
      (forall k, (n - 1 - j <= k < n - 1)%Z -> adat A k = adat D k * adat A (k + 1)%Z + adat u k))
      0 (n - 2) (backPt n u) D1) as (A & EA & LA & _ & AL & AR); [lia| | |].
  { subst D1. cbn [alen adat]. split; [exact LD'|]. split.
    - intros k Hk. destruct (Z.eqb_spec k (n - 1)); [lia|reflexivity].
    - split; [rewrite Z.eqb_refl; reflexivity|intros; lia]. }
  { intros j A Hj (LA & A1 & A2 & A3). unfold backPt.
    rewrite !(rd_ok A), (rd_ok u) by lia. cbn [obind]. rewrite wr_ok by lia. eexists. split; [reflexivity|].
    cbn [alen adat]. split; [exact LA|]. split; [|split].
    - intros k Hk. destruct (Z.eqb_spec k (n - 2 - j)); [lia|]. apply A1. lia.
    - destruct (Z.eqb_spec (n - 1) (n - 2 - j)); [lia|]. exact A2.
    - intros k Hk. destruct (Z.eqb_spec (k + 1) (n - 2 - j)); [lia|].
      destruct (Z.eqb_spec k (n - 2 - j)) as [->|]; [rewrite A1 by lia; reflexivity|]. apply A3. lia. }
  rewrite EA. cbn [obind]. exists A. split; [reflexivity|]. split; [exact LA|].
  replace (n - 2 + 1)%Z with (n - 1)%Z in AR by lia.
  assert (M : forall k, (0 <= k < n - 1)%Z -> adat A k = adat D k * adat A (k + 1)%Z + adat u k) by (intros; apply AR; lia).
  clear AR.
  pose proof (h_pos 0 ltac:(lia)) as P0.
  split; [|split].
  - rewrite (M 0%Z) by lia. cbn [Z.add]. rewrite D0, U0. field. lra.
  - intros i Hi. destruct (RR i ltac:(lia)) as (p & Ep & P1 & Di & Ui). cbv zeta in *.
    pose proof (h_pos (i - 1) ltac:(lia)) as H1. pose proof (h_pos i ltac:(lia)) as H2.
    pose proof (M i ltac:(lia)) as Mi. pose proof (M (i - 1)%Z ltac:(lia)) as Mj. replace (i - 1 + 1)%Z with i in Mj by lia.
    rewrite Di, Ui in Mi.
    set (sg := h (i - 1) / (h (i - 1) + h i)) in *.
    assert (S1 : h (i - 1) = sg * (h (i - 1) + h i)) by (unfold sg; field; lra).
    assert (S2 : h i = (1 - sg) * (h (i - 1) + h i)) by (unfold sg; field; lra).
    assert (PM : p * adat A i = (sg - 1) * adat A (i + 1)%Z + (6 * (sl i - sl (i - 1)) / (h (i - 1) + h i) - sg * adat u (i - 1))).
    { rewrite Mi at 1. field. split; lra. }
    set (H := h (i - 1) + h i) in *.
    assert (PH : 6 * (sl i - sl (i - 1)) = H * (6 * (sl i - sl (i - 1)) / H)) by (field; lra).
    set (dd := 6 * (sl i - sl (i - 1)) / H) in *. rewrite PH, S1, S2, Mj. rewrite Ep in PM.
    clearbody sg H dd. clear - PM.
    replace (sg * H * (adat D (i - 1) * adat A i + adat u (i - 1)) + 2 * H * adat A i + (1 - sg) * H * adat A (i + 1)%Z)
      with (H * ((sg * adat D (i - 1) + 2) * adat A i + sg * adat u (i - 1) + (1 - sg) * adat A (i + 1)%Z)) by ring.
    rewrite PM. ring.
  - pose proof (h_pos (n - 2) ltac:(lia)) as Pn.
    rewrite (M (n - 2)%Z) by lia. replace (n - 2 + 1)%Z with (n - 1)%Z by lia.
    pose proof (B (n - 2)%Z ltac:(lia)) as Bn.
    assert (Q : (/ 2 * adat D (n - 2) + 1) * last = 3 / h (n - 2) * - sl (n - 2) - / 2 * adat u (n - 2)).
    { unfold last. rewrite !VT, !VY by lia. unfold sl, h. replace (n - 2 + 1)%Z with (n - 1)%Z by lia.
      unfold h in Pn. replace (n - 2 + 1)%Z with (n - 1)%Z in Pn by lia. field. split; lra. }
    rewrite AL. 
    replace (adat D (n - 2) * last + adat u (n - 2) + 2 * last) with
      (2 * ((/ 2 * adat D (n - 2) + 1) * last) + adat u (n - 2)) by field. rewrite Q. field. lra.
Qed.

(** ** evalSpline *)
Variable M : Z -> R.
(** The cubic of interval i. *)
Definition piece (i : Z) (x : R) : R :=
  let a := (T (i + 1)%Z - x) / h i in let b := (x - T i) / h i in
  a * Y i + b * Y (i + 1)%Z + ((a * a * a - a) * M i + (b * b * b - b) * M (i + 1)%Z) * (h i * h i) / 6.

Lemma piece_lo i : (0 <= i < n - 1)%Z -> piece i (T i) = Y i.
Proof using INC. intros Hi. pose proof (h_pos i Hi). unfold piece. replace (T (i + 1)%Z - T i) with (h i) by reflexivity.
  cbv zeta. field. lra. Qed.
Lemma piece_hi i : (0 <= i < n - 1)%Z -> piece i (T (i + 1)%Z) = Y (i + 1)%Z.
Proof using INC. intros Hi. pose proof (h_pos i Hi). unfold piece. replace (T (i + 1)%Z - T i) with (h i) by reflexivity.
  cbv zeta. field. lra. Qed.

Lemma piece_unique i j x : (0 <= i < n - 1)%Z -> (0 <= j < n - 1)%Z ->
  T i <= x <= T (i + 1)%Z -> T j <= x <= T (j + 1)%Z -> piece i x = piece j x.
Proof using N2 INC.
  intros Hi Hj Xi Xj.
  assert (G : forall a b, (0 <= a)%Z -> (a < b)%Z -> (b < n - 1)%Z -> T a <= x <= T (a + 1)%Z -> T b <= x <= T (b + 1)%Z -> piece a x = piece b x).
  { intros a b Ha Hab Hb Xa Xb. pose proof (T_mono_le (a + 1) b ltac:(lia) ltac:(lia) ltac:(lia)) as L.
    assert (x = T b) by lra. assert (EQ : T (a + 1)%Z = T b) by lra.
    destruct (Z.eq_dec (a + 1) b) as [<-|].
    - subst x. rewrite piece_hi, piece_lo by lia. reflexivity.
    - pose proof (T_mono (a + 1) b ltac:(lia) ltac:(lia) ltac:(lia)). lra. }
  destruct (Z.lt_trichotomy i j) as [|[->|]]; [apply G; auto; lia|reflexivity|symmetry; apply G; auto; lia].
Qed.

(** Which interval contains x (specification-level search). *)
Fixpoint seek (k : nat) (x : R) : Z :=
  match k with O => 0%Z | S k' => if Rle_dec (T (Z.of_nat k)) x then Z.of_nat k else seek k' x end.
Definition spline (x : R) : R := piece (seek (Z.to_nat (n - 2)) x) x.

Lemma seek_ok k x : (Z.of_nat k <= n - 2)%Z -> T 0%Z <= x <= T (Z.of_nat k + 1)%Z ->
  let i := seek k x in (0 <= i <= Z.of_nat k)%Z /\ T i <= x <= T (i + 1)%Z.
Proof using.
  induction k; intros Hk X; cbn [seek].
  - cbn in *. lia || (split; [lia|exact X]).
  - destruct (Rle_dec (T (Z.of_nat (S k))) x) as [L|L].
    + cbv zeta. split; [lia|]. split; [exact L|]. apply X.
    + destruct IHk as (A & B); [lia| |split; [lia|exact B]].
      split; [apply X|]. replace (Z.of_nat k + 1)%Z with (Z.of_nat (S k)) by lia. lra.
Qed.
Lemma spline_piece i x : (0 <= i < n - 1)%Z -> T i <= x <= T (i + 1)%Z -> spline x = piece i x.
Proof using N2 INC.
  intros Hi X. unfold spline.
  assert (X0 : T 0%Z <= x <= T (n - 2 + 1)%Z).
  { pose proof (T_mono_le 0 i ltac:(lia) ltac:(lia) ltac:(lia)). pose proof (T_mono_le (i + 1) (n - 2 + 1) ltac:(lia) ltac:(lia) ltac:(lia)). lra. }
  destruct (seek_ok (Z.to_nat (n - 2)) x) as (A & B); [lia|rewrite Z2Nat.id by lia; exact X0|].
  apply piece_unique; auto. lia.
Qed.

Lemma bisect_ok fuel (Ta : carr R) x klo khi :
  alen Ta = n -> (forall j, (0 <= j < n)%Z -> adat Ta j = T j) ->
  (0 <= klo)%Z -> (klo < khi)%Z -> (khi < n)%Z -> (khi - klo <= Z.of_nat fuel)%Z ->
  T klo <= x <= T khi ->
  exists k, bisect fuel Ta x klo khi = Some (k, (k + 1)%Z) /\ (0 <= k < n - 1)%Z /\ T k <= x <= T (k + 1)%Z.
Proof using.
  intros LT VT. revert klo khi. induction fuel; intros klo khi H0 H1 H2 F X; [lia|]. cbn [bisect].
  destruct (Z.ltb_spec 1 (khi - klo)) as [L|L].
  - rewrite Z.shiftr_div_pow2 by lia. change (2 ^ 1)%Z with 2%Z.
    set (k := ((khi + klo) / 2)%Z). assert (K : (klo < k < khi)%Z).
    { unfold k. split; [apply Z.lt_le_trans with (klo + 1)%Z; [lia|apply Z.div_le_lower_bound; lia]|apply Z.div_lt_upper_bound; lia]. }
    rewrite rd_ok by lia. cbn [obind]. rewrite VT by lia.
    destruct (Rlt_dec x (T k)).
    + apply IHfuel; try lia. lra.
    + apply IHfuel; try lia. lra.
  - exists klo. replace khi with (klo + 1)%Z in * by lia. split; [reflexivity|]. split; [lia|exact X].
Qed.

Lemma evalSpline_ok (t : Table) x last :
  alen (tT t) = n -> alen (tY t) = n -> alen (tD t) = n ->
  (forall j, (0 <= j < n)%Z -> adat (tT t) j = T j) -> (forall j, (0 <= j < n)%Z -> adat (tY t) j = Y j) ->
  (forall j, (0 <= j < n)%Z -> adat (tD t) j = M j) ->
  (0 <= last <= n - 2)%Z -> T 0%Z <= x <= T (n - 1)%Z ->
  exists k, evalSpline t n x last = Some (Done (spline x, k)) /\ (0 <= k <= n - 2)%Z.
Proof using N2 INC.
  intros LT LY LD VT VY VD HL X. unfold evalSpline.
  destruct (Z.leb_spec (n - 1) last) as [|_]; [lia|].
  rewrite !rd_ok by lia. cbn [obind]. rewrite !VT by lia.
  assert (Q : exists k, (if Rlt_dec x (T last) then bisect (Z.to_nat n) (tT t) x 0 (n - 1)
            else if Rlt_dec (T (last + 1)%Z) x then bisect (Z.to_nat n) (tT t) x 0 (n - 1)
            else Some (last, (last + 1)%Z)) = Some (k, (k + 1)%Z) /\ (0 <= k < n - 1)%Z /\ T k <= x <= T (k + 1)%Z).
  { assert (BS : exists k, bisect (Z.to_nat n) (tT t) x 0 (n - 1) = Some (k, (k + 1)%Z) /\ (0 <= k < n - 1)%Z /\ T k <= x <= T (k + 1)%Z).
    { apply bisect_ok; auto; lia. }
    destruct (Rlt_dec x (T last)); [exact BS|]. destruct (Rlt_dec (T (last + 1)%Z) x); [exact BS|].
    exists last. split; [reflexivity|]. split; [lia|lra]. }
  destruct Q as (k & -> & Hk & Xk). cbn [obind].
  rewrite !(rd_ok (tT t)) by lia. cbn [obind]. rewrite !VT by lia.
  pose proof (h_pos k ltac:(lia)) as Pk. change (T (k + 1)%Z - T k) with (h k).
  destruct (Rle_dec (h k) 0); [lra|].
  rewrite !(rd_ok (tY t)), !(rd_ok (tD t)) by lia. cbn [obind]. rewrite !VY, !VD by lia.
  exists k. split; [|lia]. rewrite (spline_piece k x) by (auto; lia). reflexivity.
Qed.

(** The spline is the clamped cubic spline. *)
Definition pcoef (i : Z) : R * R * R * R :=
  let t0 := T i in let t1 := T (i + 1)%Z in let hh := h i in
  let m0 := M i in let m1 := M (i + 1)%Z in let y0 := Y i in let y1 := Y (i + 1)%Z in
  ( (t1 * y0 - t0 * y1) / hh + m0 * (t1 ^ 3 - t1 * hh ^ 2) / (6 * hh) - m1 * (t0 ^ 3 - t0 * hh ^ 2) / (6 * hh),
    (y1 - y0) / hh + m0 * (- 3 * t1 ^ 2 + hh ^ 2) / (6 * hh) + m1 * (3 * t0 ^ 2 - hh ^ 2) / (6 * hh),
    (m0 * t1 - m1 * t0) / (2 * hh),
    (m1 - m0) / (6 * hh) ).
Lemma piece_poly i x : (0 <= i < n - 1)%Z -> piece i x = poly (pcoef i) x.
Proof using INC.
  intros Hi. pose proof (h_pos i Hi). unfold piece, poly, pcoef. field. lra.
Qed.
Lemma poly'_lo i : (0 <= i < n - 1)%Z -> poly' (pcoef i) (T i) = sl i - h i / 6 * (2 * M i + M (i + 1)%Z).
Proof using INC.
  intros Hi. pose proof (h_pos i Hi). unfold poly', pcoef, sl. assert (E : T (i + 1)%Z = T i + h i) by (unfold h; ring).
  rewrite E. field. lra.
Qed.
Lemma poly'_hi i : (0 <= i < n - 1)%Z -> poly' (pcoef i) (T (i + 1)%Z) = sl i + h i / 6 * (M i + 2 * M (i + 1)%Z).
Proof using INC.
  intros Hi. pose proof (h_pos i Hi). unfold poly', pcoef, sl. assert (E : T i = T (i + 1)%Z - h i) by (unfold h; ring).
  rewrite E. field. lra.
Qed.
Lemma poly''_lo i : (0 <= i < n - 1)%Z -> poly'' (pcoef i) (T i) = M i.
Proof using INC.
  intros Hi. pose proof (h_pos i Hi). unfold poly'', pcoef. assert (E : T (i + 1)%Z = T i + h i) by (unfold h; ring).
  rewrite E. field. lra.
Qed.
Lemma poly''_hi i : (0 <= i < n - 1)%Z -> poly'' (pcoef i) (T (i + 1)%Z) = M (i + 1)%Z.
Proof using INC.
  intros Hi. pose proof (h_pos i Hi). unfold poly'', pcoef. assert (E : T i = T (i + 1)%Z - h i) by (unfold h; ring).
  rewrite E. field. lra.
Qed.

Lemma spline_clamped : spline_system M -> clamped_spline n T Y spline.
Proof using N2 INC.
  intros (S0 & SI & SN). exists pcoef. split; [|split; [|split; [|split]]].
  - intros i x Hi X. rewrite (spline_piece i x Hi X). apply piece_poly. exact Hi.
  - intros i Hi. destruct (Z.eq_dec i (n - 1)) as [->|].
    + replace (T (n - 1)%Z) with (T (n - 2 + 1)%Z) by (f_equal; lia).
      rewrite (spline_piece (n - 2)); [|lia|]. { rewrite piece_hi by lia. f_equal; lia. }
      pose proof (INC (n - 2) ltac:(lia)). lra.
    + rewrite (spline_piece i); [apply piece_lo; lia|lia|]. pose proof (INC i ltac:(lia)). lra.
  - intros i Hi. rewrite poly'_hi, poly''_hi, poly'_lo, poly''_lo by lia. split; [|reflexivity].
    specialize (SI (i + 1)%Z ltac:(lia)). replace (i + 1 - 1)%Z with i in SI by lia. lra.
  - rewrite poly'_lo by lia. cbn [Z.add]. rewrite S0. pose proof (h_pos 0 ltac:(lia)). field. lra.
  - replace (T (n - 1)%Z) with (T (n - 2 + 1)%Z) by (f_equal; lia). rewrite poly'_hi by lia.
    replace (n - 2 + 1)%Z with (n - 1)%Z by lia. rewrite SN. pose proof (h_pos (n - 2) ltac:(lia)). field. lra.
Qed.
End Spline.
