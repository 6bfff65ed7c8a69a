(** The auxiliary grid of a plane wave with its absorbing layer: values of one
    update, energy. *)
From Coq Require Import ZArith List Bool Lia Reals Lra.
From Verif Require Import Types Lang LangProofs BBox Grid CArr Edges PmlProfile PlaneWave SpecPhys SpecEnergy SpecPw Energy Stable PwAux P_PwAux.
Import ListNotations.
Open Scope R_scope.
Local Arguments Z.mul : simpl never.
Local Arguments Z.add : simpl never.
Local Arguments Z.sub : simpl never.

Notation e_ x i := (adat (Eyi x) i).
Notation h_ x i := (adat (Hzi x) i).
(** coefficients at cell i: 1 outside the layer *)
Definition aE_ g x i : R := if (i <? auxXb g)%Z then 1 else adat (adx x) (i - auxXb g)%Z.
Definition bE_ g x i : R := if (i <? auxXb g)%Z then 1 else adat (bdx x) (i - auxXb g)%Z.
Definition aH_ g x i : R := if (i <? auxXb g)%Z then 1 else adat (ahx x) (i - auxXb g)%Z.
Definition bH_ g x i : R := if (i <? auxXb g)%Z then 1 else adat (bhx x) (i - auxXb g)%Z.
Definition same_coefs (x x' : Aux) : Prop :=
  betaEyi x' = betaEyi x /\ gammaHzi x' = gammaHzi x /\ adx x' = adx x /\ bdx x' = bdx x /\ ahx x' = ahx x /\ bhx x' = bhx x.
Lemma same_refl x : same_coefs x x.
Proof. repeat split. Qed.

Lemma auxE_full g w x x' : aux_ok g x -> updateAuxE g w x = Some x' ->
  Hzi x' = Hzi x /\ Bzi x' = Bzi x /\ same_coefs x x' /\ e_ x' 0%Z = w /\ e_ x' (auxNx g) = e_ x (auxNx g) /\
  forall i, (1 <= i < auxNx g)%Z -> e_ x' i = aE_ g x i * e_ x i + bE_ g x i * (betaEyi x * (h_ x (i-1)%Z - h_ x i)).
Proof.
  intros OK HX0. pose proof (nx_diag g) as N. pose proof (xb_diag g) as X. pose proof (diagF_ge0 g) as D.
  unfold updateAuxE in HX0.
  destruct (cfor_inv (fun i t => aux_ok g t /\ Hzi t = Hzi x /\ Bzi t = Bzi x /\ same_coefs x t /\
     (forall j, (i <= j)%Z -> e_ t j = e_ x j) /\
     (forall j, (1 <= j < i)%Z -> e_ t j = e_ x j + betaEyi x * (h_ x (j-1)%Z - h_ x j)))
     1 (auxXb g - 1) auxE1 x) as (x1 & E1 & O1 & H1 & B1 & G1 & F1 & V1).
  - lia.
  - repeat split; auto; try apply OK. intros; lia.
  - intros i t Hi (Ot & Ht & Bt & (Gt & Gt') & Ft & Vt). unfold auxE1.
    rewrite rd_ok by (rewrite (ok_E g t Ot); lia). cbn [obind].
    rewrite rd_ok by (rewrite (ok_H g t Ot); lia). cbn [obind].
    rewrite rd_ok by (rewrite (ok_H g t Ot); lia). cbn [obind].
    rewrite wr_ok by (rewrite (ok_E g t Ot); lia). cbn [obind].
    eexists. split; [reflexivity|]. unfold setEyi, same_coefs. cbn [Eyi Hzi Bzi betaEyi gammaHzi adx bdx ahx bhx alen adat].
    split; [destruct Ot; split; auto|]. split; [auto|]. split; [auto|]. split; [auto|]. split.
    + intros j Hj. destruct (Z.eqb_spec j i); [lia|]. apply Ft. lia.
    + intros j Hj. destruct (Z.eqb_spec j i); [subst; rewrite Ft, Ht, Gt by lia; reflexivity|apply Vt; lia].
  - rewrite E1 in HX0. cbn [obind] in HX0.
    destruct (cfor_inv (fun i t => aux_ok g t /\ Hzi t = Hzi x /\ Bzi t = Bzi x /\ same_coefs x t /\
       (forall j, (j < auxXb g)%Z \/ (i <= j)%Z -> e_ t j = e_ x1 j) /\
       (forall j, (auxXb g <= j < i)%Z -> e_ t j = aE_ g x j * e_ x j + bE_ g x j * (betaEyi x * (h_ x (j-1)%Z - h_ x j))))
       (auxXb g) (auxNx g - 1) (auxE2 (auxXb g)) x1) as (x2 & E2 & O2 & H2 & B2 & G2 & F2 & V2).
    + lia.
    + repeat split; auto; try apply O1; try apply G1. intros; lia.
    + intros i t Hi (Ot & Ht & Bt & (Gt & Gt1 & Gt2 & Gt3 & Gt4 & Gt5) & Ft & Vt). unfold auxE2. unfold npml in *.
      rewrite rd_ok by (rewrite (ok_PP g t Ot); unfold npml; lia). cbn [obind].
      rewrite rd_ok by (rewrite (ok_H g t Ot); lia). cbn [obind].
      rewrite rd_ok by (rewrite (ok_H g t Ot); lia). cbn [obind].
      rewrite wr_ok by (rewrite (ok_PP g t Ot); unfold npml; lia). cbn [obind].
      unfold setPPyi. cbn [Pyi PPyi].
      rewrite rd_ok by (rewrite (ok_P g t Ot); unfold npml; lia). cbn [obind].
      rewrite rd_ok by (cbn [alen]; rewrite (ok_PP g t Ot); unfold npml; lia). cbn [obind].
      rewrite wr_ok by (rewrite (ok_P g t Ot); unfold npml; lia). cbn [obind].
      unfold setPyi. cbn [adx bdx Eyi Pyi PPyi].
      rewrite rd_ok by (rewrite (ok_ad g t Ot); unfold npml; lia). cbn [obind].
      rewrite rd_ok by (rewrite (ok_E g t Ot); lia). cbn [obind].
      rewrite rd_ok by (rewrite (ok_bd g t Ot); unfold npml; lia). cbn [obind].
      rewrite rd_ok by (cbn [alen]; rewrite (ok_P g t Ot); unfold npml; lia). cbn [obind].
      rewrite wr_ok by (rewrite (ok_E g t Ot); lia). cbn [obind].
      eexists. split; [reflexivity|]. unfold setEyi, same_coefs. cbn [Eyi Hzi Bzi betaEyi gammaHzi adx bdx ahx bhx alen adat].
      split; [destruct Ot; split; auto|]. split; [auto|]. split; [auto|]. split; [tauto|]. split.
      * intros j Hj. destruct (Z.eqb_spec j i); [lia|]. apply Ft. lia.
      * intros j Hj. rewrite !Z.eqb_refl. destruct (Z.eqb_spec j i) as [->|]; [|apply Vt; lia].
        unfold aE_, bE_. destruct (Z.ltb_spec i (auxXb g)); [lia|]. rewrite Ft, F1, Ht, Gt, Gt2, Gt3 by lia. ring.
    + rewrite E2 in HX0. cbn [obind] in HX0. rewrite wr_ok in HX0 by (rewrite (ok_E g x2 O2); unfold m0; lia). cbn [obind] in HX0.
      injection HX0 as <-. unfold setEyi, same_coefs in *. cbn [Eyi Hzi Bzi betaEyi gammaHzi adx bdx ahx bhx alen adat] in *.
      split; [auto|]. split; [auto|]. split; [auto|]. split; [reflexivity|]. unfold m0. split.
      * destruct (Z.eqb_spec (auxNx g) (2 - 2)); [lia|]. rewrite F2, F1 by lia. reflexivity.
      * intros i Hi. destruct (Z.eqb_spec i (2 - 2)); [lia|]. destruct (Z_lt_ge_dec i (auxXb g)).
        { rewrite F2, V1 by lia. unfold aE_, bE_. destruct (Z.ltb_spec i (auxXb g)); [|lia]. ring. }
        { apply V2. lia. }
Qed.

Lemma auxH_full g x x' : aux_ok g x -> updateAuxH g x = Some x' -> (forall L, (0 <= L < npml)%Z -> adat (Bzi x) L = h_ x (auxXb g + L)%Z) ->
  Eyi x' = Eyi x /\ same_coefs x x' /\ (forall L, (0 <= L < npml)%Z -> adat (Bzi x') L = h_ x' (auxXb g + L)%Z) /\
  forall i, (0 <= i < auxNx g)%Z -> h_ x' i = aH_ g x i * h_ x i + bH_ g x i * (gammaHzi x * (e_ x i - e_ x (i+1)%Z)).
Proof.
  intros OK HX0 BH. pose proof (nx_diag g) as N. pose proof (xb_diag g) as X. pose proof (diagF_ge0 g) as D.
  unfold updateAuxH in HX0.
  destruct (cfor_inv (fun i t => aux_ok g t /\ Eyi t = Eyi x /\ Bzi t = Bzi x /\ same_coefs x t /\
     (forall j, (i <= j)%Z -> h_ t j = h_ x j) /\
     (forall j, (0 <= j < i)%Z -> h_ t j = h_ x j + gammaHzi x * (e_ x j - e_ x (j+1)%Z)))
     0 (auxXb g - 1) auxH1 x) as (x1 & E1 & O1 & H1 & B1 & G1 & F1 & V1).
  - lia.
  - repeat split; auto; try apply OK. intros; lia.
  - intros i t Hi (Ot & Ht & Bt & (Gt & Gt1 & Gt') & Ft & Vt). unfold auxH1.
    rewrite rd_ok by (rewrite (ok_H g t Ot); lia). cbn [obind].
    rewrite rd_ok by (rewrite (ok_E g t Ot); lia). cbn [obind].
    rewrite rd_ok by (rewrite (ok_E g t Ot); lia). cbn [obind].
    rewrite wr_ok by (rewrite (ok_H g t Ot); lia). cbn [obind].
    eexists. split; [reflexivity|]. unfold setHzi, same_coefs. cbn [Eyi Hzi Bzi betaEyi gammaHzi adx bdx ahx bhx alen adat].
    split; [destruct Ot; split; auto|]. split; [auto|]. split; [auto|]. split; [auto|]. split.
    + intros j Hj. destruct (Z.eqb_spec j i); [lia|]. apply Ft. lia.
    + intros j Hj. destruct (Z.eqb_spec j i); [subst; rewrite Ft, Ht, Gt1 by lia; reflexivity|apply Vt; lia].
  - rewrite E1 in HX0. cbn [obind] in HX0.
    destruct (cfor_inv (fun i t => aux_ok g t /\ Eyi t = Eyi x /\ same_coefs x t /\
       (forall j, (j < auxXb g)%Z \/ (i <= j)%Z -> h_ t j = h_ x1 j) /\
       (forall L, (i <= auxXb g + L)%Z -> adat (Bzi t) L = adat (Bzi x) L) /\
       (forall j, (auxXb g <= j < i)%Z -> h_ t j = aH_ g x j * h_ x j + bH_ g x j * (gammaHzi x * (e_ x j - e_ x (j+1)%Z))) /\
       (forall j, (auxXb g <= j < i)%Z -> adat (Bzi t) (j - auxXb g)%Z = h_ t j))
       (auxXb g) (auxNx g - 1) (auxH2 (auxXb g)) x1) as (x2 & E2 & O2 & H2 & G2 & F2 & FB2 & V2 & VB2).
    + lia.
    + repeat split; auto; try apply O1; try apply G1; try (intros; lia). intros L HL. rewrite B1. reflexivity.
    + intros i t Hi (Ot & Ht & (Gt & Gt1 & Gt2 & Gt3 & Gt4 & Gt5) & Ft & FBt & Vt & VBt). unfold auxH2.
      rewrite rd_ok by (rewrite (ok_B g t Ot); unfold npml; lia). cbn [obind].
      rewrite rd_ok by (rewrite (ok_ah g t Ot); unfold npml; lia). cbn [obind].
      rewrite rd_ok by (rewrite (ok_bh g t Ot); unfold npml; lia). cbn [obind].
      rewrite rd_ok by (rewrite (ok_E g t Ot); lia). cbn [obind].
      rewrite rd_ok by (rewrite (ok_E g t Ot); lia). cbn [obind].
      rewrite wr_ok by (rewrite (ok_B g t Ot); unfold npml; lia). cbn [obind].
      unfold setBzi. cbn [Bzi Hzi].
      rewrite rd_ok by (rewrite (ok_H g t Ot); lia). cbn [obind].
      rewrite rd_ok by (cbn [alen]; rewrite (ok_B g t Ot); unfold npml; lia). cbn [obind].
      rewrite wr_ok by (rewrite (ok_H g t Ot); lia). cbn [obind].
      eexists. split; [reflexivity|]. unfold setHzi, same_coefs. cbn [Eyi Hzi Bzi betaEyi gammaHzi adx bdx ahx bhx alen adat].
      split; [destruct Ot; split; auto|]. split; [auto|]. split; [tauto|]. split.
      { intros j Hj. destruct (Z.eqb_spec j i); [lia|]. apply Ft. lia. } split.
      { intros L HL. destruct (Z.eqb_spec L (i - auxXb g)); [lia|]. apply FBt. lia. }
      assert (BI : adat (Bzi t) (i - auxXb g)%Z = h_ x i).
      { rewrite FBt by lia. rewrite BH by (unfold npml; lia). f_equal. lia. } split.
      * intros j Hj. rewrite !Z.eqb_refl. destruct (Z.eqb_spec j i) as [->|]; [|apply Vt; lia].
        unfold aH_, bH_. destruct (Z.ltb_spec i (auxXb g)); [lia|]. rewrite BI, Ft, F1, Ht, Gt1, Gt4, Gt5 by lia. ring.
      * intros j Hj. destruct (Z.eqb_spec j i) as [->|Q].
        { rewrite !Z.eqb_refl, BI, Ft, F1 by lia. ring. }
        { destruct (Z.eqb_spec (j - auxXb g) (i - auxXb g)); [lia|]. apply VBt. lia. }
    + rewrite E2 in HX0. injection HX0 as <-. split; [auto|]. split; [auto|]. split.
      * intros L HL. unfold npml in HL. rewrite <- (VB2 (auxXb g + L)%Z) by lia. f_equal. lia.
      * intros i Hi. destruct (Z_lt_ge_dec i (auxXb g)).
        { rewrite F2, V1 by lia. unfold aH_, bH_. destruct (Z.ltb_spec i (auxXb g)); [|lia]. ring. }
        { apply V2. lia. }
Qed.

(** ** Energy *)
Record aux_passive (g : BBox) (x : Aux) : Prop := {
  ap_ok : aux_ok g x;
  ap_pos : 0 < betaEyi x /\ 0 < gammaHzi x;
  ap_E : forall i, (1 <= i < auxNx g)%Z -> exists s, 0 <= s /\ aE_ g x i = (1 - s) / (1 + s) /\ bE_ g x i = 1 / (1 + s);
  ap_H : forall i, (0 <= i < auxNx g)%Z -> exists s, 0 <= s /\ aH_ g x i = (1 - s) / (1 + s) /\ bH_ g x i = 1 / (1 + s);
  ap_B : forall L, (0 <= L < npml)%Z -> adat (Bzi x) L = h_ x (auxXb g + L)%Z;
  ap_end : e_ x (auxNx g) = 0 }.

Definition e2 g x : R := / betaEyi x * sumZ 0 (auxNx g) (fun i => e_ x i * e_ x i).
Definition h2 g x : R := / gammaHzi x * sumZ 0 (auxNx g - 1) (fun i => h_ x i * h_ x i).
Definition cross_ g x : R := sumZ 0 (auxNx g - 1) (fun i => h_ x i * (e_ x i - e_ x (i+1)%Z)).
Definition stored1 g x : R := e2 g x + h2 g x - cross_ g x.

Lemma auxStep_passive g w x : aux_passive g x -> exists x', auxStep g w x = Some x' /\ aux_passive g x' /\ same_coefs x x' /\ e_ x' 0%Z = w /\
  (forall i, (1 <= i < auxNx g)%Z -> e_ x' i = aE_ g x i * e_ x i + bE_ g x i * (betaEyi x * (h_ x (i-1)%Z - h_ x i))) /\
  (forall i, (0 <= i < auxNx g)%Z -> h_ x' i = aH_ g x i * h_ x i + bH_ g x i * (gammaHzi x * (e_ x' i - e_ x' (i+1)%Z))).
Proof.
  intros P. pose proof (ap_ok g x P) as OK.
  destruct (auxE_ok g w x OK) as (x1 & E1 & O1 & _). destruct (auxH_ok g x1 O1) as (x2 & E2 & O2 & _).
  destruct (auxE_full g w x x1 OK E1) as (H1 & B1 & (C1 & C2 & C3 & C4 & C5 & C6) & S1 & L1 & V1).
  destruct (auxH_full g x1 x2 O1 E2) as (H2 & (D1 & D2 & D3 & D4 & D5 & D6) & B2 & V2).
  { intros L HL. rewrite B1, H1. apply (ap_B g x P). exact HL. }
  exists x2. unfold auxStep. rewrite E1. cbn [obind]. rewrite E2. split; [reflexivity|].
  assert (SC : same_coefs x x2) by (unfold same_coefs; repeat split; congruence).
  destruct SC as (S1' & S2' & S3' & S4' & S5' & S6'). split; [|split; [repeat split; assumption|split; [rewrite H2; exact S1|split]]].
  - constructor; auto.
    + rewrite S1', S2'. apply P.
    + unfold aE_, bE_. rewrite S3', S4'. apply P.
    + unfold aH_, bH_. rewrite S5', S6'. apply P.
    + rewrite H2, L1. apply P.
  - intros i Hi. rewrite H2. apply V1. exact Hi.
  - intros i Hi. rewrite H2. rewrite V2 by exact Hi. unfold aH_, bH_. rewrite C5, C6, C2, H1. reflexivity.
Qed.

Lemma sumZ_plus' lo hi f g : sumZ lo hi f + sumZ lo hi g = sumZ lo hi (fun i => f i + g i).
Proof. symmetry. apply sumZ_plus. Qed.

Lemma stored1_step g x x' : aux_passive g x -> auxStep g 0 x = Some x' -> e_ x 0%Z = 0 -> stored1 g x' <= stored1 g x.
Proof.
  intros P ST E0. destruct (auxStep_passive g 0 x P) as (x2 & E2 & P2 & (C1 & C2 & _) & S2 & VE & VH).
  rewrite ST in E2. injection E2 as <-. destruct (ap_pos g x P) as [PB PG].
  pose proof (nx_diag g) as N. pose proof (diagF_ge0 g) as D. set (n := auxNx g) in *.
  pose proof (ap_end g x P) as EN. pose proof (ap_end g x' P2) as EN'. fold n in EN, EN'.
  pose proof (sbp0 0 n (fun j => e_ x j + e_ x' j) (fun j => h_ x j) ltac:(lia) ltac:(cbn beta; rewrite E0, S2; ring) ltac:(cbn beta; rewrite EN, EN'; ring)) as AD.
  cbn beta in AD.
  assert (X : e2 g x' <= e2 g x - sumZ 0 n (fun j => (e_ x j + e_ x' j) * (h_ x j - h_ x (j-1)%Z))).
  { unfold e2. fold n. rewrite C1. unfold Rminus. rewrite <- sumZ_opp, <- !sumZ_scal, sumZ_plus'. apply sumZ_le. intros i Hi.
    destruct (Z.eq_dec i 0) as [->|N0]; [rewrite E0, S2; lra|]. destruct (Z.eq_dec i n) as [->|N1]; [rewrite EN, EN'; lra|].
    pose proof (VE i ltac:(lia)) as U. destruct (ap_E g x P i ltac:(lia)) as (s & S0 & A & B). rewrite A, B in U.
    set (u := e_ x i) in *. set (v := e_ x' i) in *. set (K := h_ x (i-1)%Z) in *. set (h := h_ x i) in *. set (be := betaEyi x) in *.
    assert (K0 : K - h = ((1 + s) * v - (1 - s) * u) / be) by (rewrite U; field; lra).
    replace (h + - K) with (- (K - h)) by ring. rewrite K0.
    assert (I : / be * (u * u) + - ((u + v) * - (((1 + s) * v - (1 - s) * u) / be)) = / be * (v * v) + / be * s * ((u + v) * (u + v))) by (field; lra).
    rewrite I. assert (0 <= / be * s * ((u + v) * (u + v))).
    { apply Rmult_le_pos; [|apply Rle_0_sqr]. apply Rmult_le_pos; [left; apply Rinv_0_lt_compat; exact PB|exact S0]. }
    lra. }
  assert (Y : h2 g x' - cross_ g x' <= h2 g x - cross_ g x + - sumZ 0 (n - 1) (fun j => h_ x j * (e_ x (j+1)%Z + e_ x' (j+1)%Z - (e_ x j + e_ x' j)))).
  { unfold h2, cross_. fold n. rewrite C2. unfold Rminus. rewrite <- !sumZ_opp, <- !sumZ_scal, !sumZ_plus'. apply sumZ_le. intros i Hi.
    pose proof (VH i ltac:(lia)) as U. destruct (ap_H g x P i ltac:(lia)) as (s & S0 & A & B). rewrite A, B in U.
    set (u := h_ x i) in *. set (v := h_ x' i) in *. set (ga := gammaHzi x) in *.
    set (a := e_ x i) in *. set (b := e_ x (i+1)%Z) in *. set (a' := e_ x' i) in *. set (b' := e_ x' (i+1)%Z) in *.
    assert (K0 : a' = b' + ((1 + s) * v - (1 - s) * u) / ga) by (rewrite U; field; lra).
    assert (I : / ga * (u * u) + - (u * (a + - b)) + - (u * (b + b' + - (a + a'))) = / ga * (v * v) + - (v * (a' + - b')) + / ga * s * ((u + v) * (u + v))) by (rewrite K0; field; lra).
    rewrite I. assert (0 <= / ga * s * ((u + v) * (u + v))).
    { apply Rmult_le_pos; [|apply Rle_0_sqr]. apply Rmult_le_pos; [left; apply Rinv_0_lt_compat; exact PG|exact S0]. }
    lra. }
  unfold stored1. lra.
Qed.

Lemma diff_bound (e : Z -> R) (n : nat) : sumZ 0 (Z.of_nat n - 1) (fun i => (e i - e (i+1)%Z) * (e i - e (i+1)%Z)) <=
  4 * sumZ 0 (Z.of_nat n) (fun i => e i * e i) - 2 * (e 0%Z * e 0%Z) - 2 * (e (Z.of_nat n) * e (Z.of_nat n)).
Proof.
  induction n.
  - change (Z.of_nat 0) with 0%Z. rewrite (sumZ_empty 0 (0 - 1)) by lia. rewrite (sumZ_snoc 0 0) by lia. rewrite (sumZ_empty 0 (0 - 1)) by lia. lra.
  - rewrite Nat2Z.inj_succ. unfold Z.succ. replace (Z.of_nat n + 1 - 1)%Z with (Z.of_nat n) by lia.
    rewrite (sumZ_snoc 0 (Z.of_nat n) (fun i => (e i - e (i+1)%Z) * (e i - e (i+1)%Z))) by lia.
    rewrite (sumZ_snoc 0 (Z.of_nat n + 1)) by lia. replace (Z.of_nat n + 1 - 1)%Z with (Z.of_nat n) by lia.
    pose proof (Rle_0_sqr (e (Z.of_nat n) + e (Z.of_nat n + 1)%Z)) as Q. unfold Rsqr in Q. lra.
Qed.
Lemma stored1_equiv g x q : aux_passive g x -> 0 < q -> betaEyi x * gammaHzi x <= q * q -> Rabs (stored1 g x - (e2 g x + h2 g x)) <= q * (e2 g x + h2 g x).
Proof.
  intros P Q BG. destruct (ap_pos g x P) as [PB PG]. pose proof (nx_diag g) as N. pose proof (diagF_ge0 g) as D.
  assert (DB := diff_bound (fun i => e_ x i) (Z.to_nat (auxNx g))). rewrite Z2Nat.id in DB by lia. cbn beta in DB.
  set (A := sumZ 0 (auxNx g - 1) (fun i => (e_ x i - e_ x (i+1)%Z) * (e_ x i - e_ x (i+1)%Z))) in *.
  set (n := auxNx g) in *. set (S := sumZ 0 n (fun i => e_ x i * e_ x i)) in *.
  assert (S0 : 0 <= S) by (apply sumZ_nonneg; intros; apply Rle_0_sqr).
  assert (A4 : A <= 4 * S). { pose proof (Rle_0_sqr (e_ x 0%Z)). pose proof (Rle_0_sqr (e_ x n)). unfold Rsqr in *. lra. }
  assert (B : forall s, s = 1 \/ s = -1 -> s * cross_ g x <= q * h2 g x + gammaHzi x / (4 * q) * A).
  { intros s Hs. unfold cross_, h2, A. fold n. rewrite <- !sumZ_scal, sumZ_plus'. apply sumZ_le. intros i Hi.
    set (ga := gammaHzi x) in *. set (h := h_ x i). set (K := e_ x i - e_ x (i+1)%Z).
    assert (I : q * (/ ga * (h * h)) + ga / (4 * q) * (K * K) - s * (h * K) = / ga * q * ((h - s * ga * K / (2 * q)) * (h - s * ga * K / (2 * q)))).
    { assert (SS : s * s = 1) by (destruct Hs as [-> | ->]; ring).
      replace (/ ga * q * ((h - s * ga * K / (2 * q)) * (h - s * ga * K / (2 * q))))
        with (q * (/ ga * (h * h)) + (s * s) * (ga / (4 * q) * (K * K)) - s * (h * K)) by (field; lra).
      rewrite SS. ring. }
    assert (0 <= / ga * q * ((h - s * ga * K / (2 * q)) * (h - s * ga * K / (2 * q)))).
    { apply Rmult_le_pos; [|apply Rle_0_sqr]. apply Rmult_le_pos; [left; apply Rinv_0_lt_compat; lra|lra]. }
    lra. }
  assert (K4 : gammaHzi x / (4 * q) * A <= q * e2 g x).
  { apply Rle_trans with (gammaHzi x / (4 * q) * (4 * S)); [apply Rmult_le_compat_l; [left; apply Rdiv_lt_0_compat; lra|exact A4]|].
    unfold e2. fold n S. replace (gammaHzi x / (4 * q) * (4 * S)) with (betaEyi x * gammaHzi x * (S / (q * betaEyi x))) by (field; lra).
    replace (q * (/ betaEyi x * S)) with (q * q * (S / (q * betaEyi x))) by (field; lra).
    apply Rmult_le_compat_r; [|exact BG]. apply Rmult_le_pos; [exact S0|]. left. apply Rinv_0_lt_compat. apply Rmult_lt_0_compat; lra. }
  pose proof (B 1 (or_introl eq_refl)) as B1. pose proof (B (-1) (or_intror eq_refl)) as B2.
  apply Rabs_le. unfold stored1. lra.
Qed.

Lemma init_passive g dt d0 rel : 0 < dt -> 0 < d0 -> 0 < rel -> aux_passive g (initAux g dt d0 rel).
Proof.
  intros A B C. assert (M : 0 < mu0) by (unfold mu0; pose proof PI_RGT_0; lra). assert (CC : 0 < c0) by (unfold c0; lra).
  assert (E : 0 < eps0).
  { unfold eps0. apply Rdiv_lt_0_compat; [lra|]. assert (X : 0 < mu0 * c0) by (apply Rmult_lt_0_compat; [exact M|exact CC]).
    revert X CC. generalize c0. intros y X C'. apply Rmult_lt_0_compat; [exact X|exact C']. }
  assert (ETA : 0 < eta0).
  { unfold eta0. apply sqrt_lt_R0. revert M E. generalize eps0, mu0. intros ep mu M E. apply Rdiv_lt_0_compat; assumption. }
  assert (SG : forall d, 0 <= auxSigma dt d0 d).
  { intros d. unfold auxSigma. revert E ETA. generalize eps0, eta0. intros ep et E ETA.
    assert (0 < / 2 * dt / ep) by (apply Rdiv_lt_0_compat; lra).
    assert (0 <= (if Rlt_dec 0 d then Rpower d (377 / 100) else 0)). { destruct (Rlt_dec 0 d); [left; apply exp_pos|lra]. }
    unfold Rdiv. apply Rmult_le_pos; [|left; apply Rinv_0_lt_compat; lra]. apply Rmult_le_pos; [|left; apply Rinv_0_lt_compat; lra].
    apply Rmult_le_pos; [|lra]. apply Rmult_le_pos; [unfold Rdiv in *; lra|assumption]. }
  constructor.
  - apply init_ok.
  - cbn [initAux betaEyi gammaHzi]. revert M E. generalize eps0, mu0. intros ep mu M E. split; (apply Rdiv_lt_0_compat; [|lra]; apply Rdiv_lt_0_compat; [lra|apply Rmult_lt_0_compat; lra]).
  - intros i Hi. unfold aE_, bE_, initAux. cbn [adx bdx adat]. destruct (i <? auxXb g)%Z; [exists 0; repeat split; lra|]. eexists. split; [apply SG|]. split; reflexivity.
  - intros i Hi. unfold aH_, bH_, initAux. cbn [ahx bhx adat]. destruct (i <? auxXb g)%Z; [exists 0; repeat split; lra|]. eexists. split; [apply SG|]. split; reflexivity.
  - reflexivity.
  - reflexivity.
Qed.
