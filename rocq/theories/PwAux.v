(** Proofs about the auxiliary grid of a plane wave. *)
From Coq Require Import ZArith List Bool Lia Reals Lra Psatz.
From Verif Require Import Types Lang BBox Grid CArr Edges PmlProfile PlaneWave SpecYee SpecPw P_Grid P_PwVectors.
Import ListNotations.
Open Scope R_scope.
Local Arguments Z.mul : simpl never.
Local Arguments Z.add : simpl never.
Local Arguments Z.sub : simpl never.

(** arrays as allocated by initAuxGrid *)
Record aux_ok (g : BBox) (x : Aux) : Prop := {
  ok_E : alen (Eyi x) = (auxNx g + 1)%Z; ok_H : alen (Hzi x) = (auxNx g + 1)%Z;
  ok_P : alen (Pyi x) = npml; ok_PP : alen (PPyi x) = npml; ok_B : alen (Bzi x) = npml;
  ok_ad : alen (adx x) = npml; ok_bd : alen (bdx x) = npml; ok_ah : alen (ahx x) = npml; ok_bh : alen (bhx x) = npml }.
Lemma init_ok g dt d0 r : aux_ok g (initAux g dt d0 r).
Proof. split; reflexivity. Qed.

Definition diag2 (g : BBox) : Z := ((g XHI - g XLO) * (g XHI - g XLO) + (g YHI - g YLO) * (g YHI - g YLO) + (g ZHI - g ZLO) * (g ZHI - g ZLO))%Z.
Definition diagF (g : BBox) : Z := rfloor (sqrt (IZR (diag2 g))).
Lemma nx_diag g : auxNx g = (16 + diagF g)%Z.
Proof.
  unfold auxNx. fold (diag2 g). apply floor_int. unfold diagF. pose proof (floor_spec (sqrt (IZR (diag2 g)))).
  unfold npml. rewrite plus_IZR. replace (6 + 10)%Z with 16%Z by lia. lra.
Qed.
Lemma xb_diag g : auxXb g = (6 + diagF g)%Z.
Proof. unfold auxXb. rewrite nx_diag. unfold npml. lia. Qed.
Lemma diagF_ge0 g : (0 <= diagF g)%Z.
Proof.
  unfold diagF. pose proof (floor_spec (sqrt (IZR (diag2 g)))). pose proof (sqrt_pos (IZR (diag2 g))).
  assert (IZR (-1) < IZR (rfloor (sqrt (IZR (diag2 g))))) by lra. apply lt_IZR in H1. lia.
Qed.

(** ** The updates: inside the arrays, and the leapfrog equations up to the
    absorber. *)
Lemma auxE_ok g w x : aux_ok g x -> exists x', updateAuxE g w x = Some x' /\ aux_ok g x' /\
  Hzi x' = Hzi x /\ betaEyi x' = betaEyi x /\ gammaHzi x' = gammaHzi x /\ adat (Eyi x') 0%Z = w /\
  forall i, (1 <= i < auxXb g)%Z -> adat (Eyi x') i = adat (Eyi x) i + betaEyi x * (adat (Hzi x) (i-1)%Z - adat (Hzi x) i).
Proof.
  intros OK. pose proof (nx_diag g) as N. pose proof (xb_diag g) as X. pose proof (diagF_ge0 g) as D.
  unfold updateAuxE.
  destruct (cfor_inv (fun i t => aux_ok g t /\ Hzi t = Hzi x /\ betaEyi t = betaEyi x /\ gammaHzi t = gammaHzi x /\
     (forall j, (i <= j)%Z -> adat (Eyi t) j = adat (Eyi x) j) /\
     (forall j, (1 <= j < i)%Z -> adat (Eyi t) j = adat (Eyi x) j + betaEyi x * (adat (Hzi x) (j-1)%Z - adat (Hzi x) j)))
     1 (auxXb g - 1) auxE1 x) as (x1 & E1 & O1 & H1 & B1 & G1 & F1 & V1).
  - lia.
  - repeat split; auto; try apply OK. intros; lia.
  - intros i t Hi (Ot & Ht & Bt & Gt & Ft & Vt). unfold auxE1.
    rewrite rd_ok by (rewrite (ok_E g t Ot); lia). cbn [obind].
    rewrite rd_ok by (rewrite (ok_H g t Ot); lia). cbn [obind].
    rewrite rd_ok by (rewrite (ok_H g t Ot); lia). cbn [obind].
    rewrite wr_ok by (rewrite (ok_E g t Ot); lia). cbn [obind].
    eexists. split; [reflexivity|]. unfold setEyi. cbn [Eyi Hzi betaEyi gammaHzi alen adat].
    split; [destruct Ot; split; auto|]. split; [auto|]. split; [auto|]. split; [auto|]. split.
    + intros j Hj. destruct (Z.eqb_spec j i); [lia|]. apply Ft. lia.
    + intros j Hj. destruct (Z.eqb_spec j i); [subst; rewrite Ft, Ht, Bt by lia; reflexivity|apply Vt; lia].
  - rewrite E1. cbn [obind].
    destruct (cfor_inv (fun i t => aux_ok g t /\ Hzi t = Hzi x /\ betaEyi t = betaEyi x /\ gammaHzi t = gammaHzi x /\
       (forall j, (j < auxXb g)%Z -> adat (Eyi t) j = adat (Eyi x1) j))
       (auxXb g) (auxNx g - 1) (auxE2 (auxXb g)) x1) as (x2 & E2 & O2 & H2 & B2 & G2 & F2).
    + lia.
    + repeat split; auto; try apply O1.
    + intros i t Hi (Ot & Ht & Bt & Gt & Ft). unfold auxE2. unfold npml in *.
      rewrite rd_ok by (rewrite (ok_PP g t Ot); unfold npml; lia). cbn [obind].
      rewrite rd_ok by (rewrite (ok_H g t Ot); lia). cbn [obind].
      rewrite rd_ok by (rewrite (ok_H g t Ot); lia). cbn [obind].
      rewrite wr_ok by (rewrite (ok_PP g t Ot); unfold npml; lia). cbn [obind].
      unfold setPPyi. cbn [Pyi PPyi].
      rewrite rd_ok by (rewrite (ok_P g t Ot); unfold npml; lia). cbn [obind].
      rewrite rd_ok by (cbn [alen]; rewrite (ok_PP g t Ot); unfold npml; lia). cbn [obind].
      rewrite wr_ok by (rewrite (ok_P g t Ot); unfold npml; lia). cbn [obind].
      unfold setPyi. cbn [adx bdx Eyi Pyi PPyi].
      rewrite rd_ok by (rewrite (ok_ad g t Ot); unfold npml; lia). cbn [obind].
      rewrite rd_ok by (rewrite (ok_E g t Ot); lia). cbn [obind].
      rewrite rd_ok by (rewrite (ok_bd g t Ot); unfold npml; lia). cbn [obind].
      rewrite rd_ok by (cbn [alen]; rewrite (ok_P g t Ot); unfold npml; lia). cbn [obind].
      rewrite wr_ok by (rewrite (ok_E g t Ot); lia). cbn [obind].
      eexists. split; [reflexivity|]. unfold setEyi. cbn [Eyi Hzi betaEyi gammaHzi alen adat].
      split; [destruct Ot; split; auto|]. split; [auto|]. split; [auto|]. split; [auto|].
      intros j Hj. destruct (Z.eqb_spec j i); [lia|]. auto.
    + rewrite E2. cbn [obind]. rewrite wr_ok by (rewrite (ok_E g x2 O2); unfold m0; lia). cbn [obind].
      eexists. split; [reflexivity|]. unfold setEyi. cbn [Eyi Hzi betaEyi gammaHzi alen adat].
      split; [destruct O2; split; auto|]. split; [auto|]. split; [auto|]. split; [auto|]. split; [reflexivity|].
      intros i Hi. unfold m0. destruct (Z.eqb_spec i (2 - 2)); [lia|]. rewrite F2, V1 by lia. reflexivity.
Qed.
Lemma auxH_ok g x : aux_ok g x -> exists x', updateAuxH g x = Some x' /\ aux_ok g x' /\
  Eyi x' = Eyi x /\ betaEyi x' = betaEyi x /\ gammaHzi x' = gammaHzi x /\
  forall i, (0 <= i < auxXb g)%Z -> adat (Hzi x') i = adat (Hzi x) i + gammaHzi x * (adat (Eyi x) i - adat (Eyi x) (i+1)%Z).
Proof.
  intros OK. pose proof (nx_diag g) as N. pose proof (xb_diag g) as X. pose proof (diagF_ge0 g) as D.
  unfold updateAuxH.
  destruct (cfor_inv (fun i t => aux_ok g t /\ Eyi t = Eyi x /\ betaEyi t = betaEyi x /\ gammaHzi t = gammaHzi x /\
     (forall j, (i <= j)%Z -> adat (Hzi t) j = adat (Hzi x) j) /\
     (forall j, (0 <= j < i)%Z -> adat (Hzi t) j = adat (Hzi x) j + gammaHzi x * (adat (Eyi x) j - adat (Eyi x) (j+1)%Z)))
     0 (auxXb g - 1) auxH1 x) as (x1 & E1 & O1 & H1 & B1 & G1 & F1 & V1).
  - lia.
  - repeat split; auto; try apply OK. intros; lia.
  - intros i t Hi (Ot & Ht & Bt & Gt & Ft & Vt). unfold auxH1.
    rewrite rd_ok by (rewrite (ok_H g t Ot); lia). cbn [obind].
    rewrite rd_ok by (rewrite (ok_E g t Ot); lia). cbn [obind].
    rewrite rd_ok by (rewrite (ok_E g t Ot); lia). cbn [obind].
    rewrite wr_ok by (rewrite (ok_H g t Ot); lia). cbn [obind].
    eexists. split; [reflexivity|]. unfold setHzi. cbn [Eyi Hzi betaEyi gammaHzi alen adat].
    split; [destruct Ot; split; auto|]. split; [auto|]. split; [auto|]. split; [auto|]. split.
    + intros j Hj. destruct (Z.eqb_spec j i); [lia|]. apply Ft. lia.
    + intros j Hj. destruct (Z.eqb_spec j i); [subst; rewrite Ft, Ht, Gt by lia; reflexivity|apply Vt; lia].
  - rewrite E1. cbn [obind].
    destruct (cfor_inv (fun i t => aux_ok g t /\ Eyi t = Eyi x /\ betaEyi t = betaEyi x /\ gammaHzi t = gammaHzi x /\
       (forall j, (j < auxXb g)%Z -> adat (Hzi t) j = adat (Hzi x1) j))
       (auxXb g) (auxNx g - 1) (auxH2 (auxXb g)) x1) as (x2 & E2 & O2 & H2 & B2 & G2 & F2).
    + lia.
    + repeat split; auto; try apply O1.
    + intros i t Hi (Ot & Ht & Bt & Gt & Ft). unfold auxH2.
      rewrite rd_ok by (rewrite (ok_B g t Ot); unfold npml; lia). cbn [obind].
      rewrite rd_ok by (rewrite (ok_ah g t Ot); unfold npml; lia). cbn [obind].
      rewrite rd_ok by (rewrite (ok_bh g t Ot); unfold npml; lia). cbn [obind].
      rewrite rd_ok by (rewrite (ok_E g t Ot); lia). cbn [obind].
      rewrite rd_ok by (rewrite (ok_E g t Ot); lia). cbn [obind].
      rewrite wr_ok by (rewrite (ok_B g t Ot); unfold npml; lia). cbn [obind].
      unfold setBzi. cbn [Bzi Hzi].
      rewrite rd_ok by (rewrite (ok_H g t Ot); lia). cbn [obind].
      rewrite rd_ok by (cbn [alen]; rewrite (ok_B g t Ot); unfold npml; lia). cbn [obind].
      rewrite wr_ok by (rewrite (ok_H g t Ot); lia). cbn [obind].
      eexists. split; [reflexivity|]. unfold setHzi. cbn [Eyi Hzi betaEyi gammaHzi alen adat].
      split; [destruct Ot; split; auto|]. split; [auto|]. split; [auto|]. split; [auto|].
      intros j Hj. destruct (Z.eqb_spec j i); [lia|]. auto.
    + rewrite E2. eexists. split; [reflexivity|]. split; [auto|]. split; [auto|]. split; [auto|]. split; [auto|].
      intros i Hi. rewrite F2, V1 by lia. reflexivity.
Qed.

(** ** Distance of a sample along the direction of propagation *)
Lemma dist_position kv o f i j k :
  auxDist kv o f i j k = dot kv (fun a => position f i j k a - IZR (o a)).
Proof.
  unfold auxDist, dot. assert (P : forall a, fieldIndexLocation1 f a (idx3 i j k a) = position f i j k a).
  { intros a. unfold fieldIndexLocation1, position, half, offset. rewrite plus_IZR, mult_IZR.
    destruct a, f; cbn [is_E fld_axis axis_eqb negb xorb idx3 ind]; lra. }
  rewrite !P. reflexivity.
Qed.
Lemma cauchy (k v : Axis -> R) : dot k k = 1 -> dot k v * dot k v <= dot v v.
Proof.
  intros H. assert (E : dot v v = dot k v * dot k v + (
     (k XDIR * v YDIR - k YDIR * v XDIR) * (k XDIR * v YDIR - k YDIR * v XDIR) +
     (k YDIR * v ZDIR - k ZDIR * v YDIR) * (k YDIR * v ZDIR - k ZDIR * v YDIR) +
     (k ZDIR * v XDIR - k XDIR * v ZDIR) * (k ZDIR * v XDIR - k XDIR * v ZDIR))).
  { transitivity (dot k k * dot v v); [rewrite H; ring|]. unfold dot. ring. }
  rewrite E. set (x := k XDIR * v YDIR - k YDIR * v XDIR). set (y := k YDIR * v ZDIR - k ZDIR * v YDIR). set (z := k ZDIR * v XDIR - k XDIR * v ZDIR).
  pose proof (Rle_0_sqr x). pose proof (Rle_0_sqr y). pose proof (Rle_0_sqr z). unfold Rsqr in *. lra.
Qed.
Lemma clamp_split lo hi x s : 0 <= s -> lo <= hi -> lo - s <= x <= hi + s ->
  exists y, lo <= y <= hi /\ - s <= x - y <= s.
Proof.
  intros S L H. destruct (Rlt_dec x lo); [exists lo; lra|]. destruct (Rlt_dec hi x); [exists hi; lra|exists x; lra].
Qed.
Lemma near_dist g th ph o f i j k : (forall a, g (face_lo a) <= g (face_hi a))%Z -> 0 <= th <= 180 -> 0 <= ph < 360 ->
  origin g th ph = Some o -> 
  (inBox g f i j k -> 0 <= auxDist (kinc th ph) o f i j k <= sqrt (IZR (diag2 g))) /\
  (near g f i j k -> - / 2 <= auxDist (kinc th ph) o f i j k <= sqrt (IZR (diag2 g)) + / 2).
Proof.
  intros N HT HP HO. destruct (C28_origin g th ph HT HP) as (o' & HO' & CO & PO). rewrite HO in HO'. injection HO' as <-.
  destruct (C28_vectors 1 th ph 0) as (_ & _ & KK & _).
  set (kv := kinc th ph) in *.
  assert (B0 : forall r, pt_in g r -> 0 <= dot kv (fun a => r a - IZR (o a)) <= sqrt (IZR (diag2 g))).
  { intros r HR. split; [auto|]. set (v := fun a => r a - IZR (o a)).
    pose proof (cauchy kv v KK) as C. apply Rsqr_incr_0_var; [|apply sqrt_pos].
    unfold Rsqr. rewrite sqrt_sqrt.
    2:{ apply IZR_le. unfold diag2. pose proof (Z.square_nonneg (g XHI - g XLO)). pose proof (Z.square_nonneg (g YHI - g YLO)). pose proof (Z.square_nonneg (g ZHI - g ZLO)). lia. }
    eapply Rle_trans; [exact C|]. unfold diag2. rewrite !plus_IZR, !mult_IZR, !minus_IZR.
    assert (V : forall a, v a * v a <= (IZR (g (face_hi a)) - IZR (g (face_lo a))) * (IZR (g (face_hi a)) - IZR (g (face_lo a)))).
    { intros a. unfold v. specialize (HR a). destruct (CO a) as [-> | ->]; nra. }
    pose proof (V XDIR); pose proof (V YDIR); pose proof (V ZDIR). unfold dot. cbn [face_lo face_hi] in *. lra. }
  rewrite dist_position. split.
  - intros B. apply B0. intros a. specialize (B a). unfold position. destruct B as [B1 B2].
    apply IZR_le in B1, B2. rewrite mult_IZR in B1, B2. lra.
  - intros (a0 & B).
    assert (PA : forall a, IZR (g (face_lo a)) - (if axis_eqb a a0 then / 2 else 0) <= position f i j k a <= IZR (g (face_hi a)) + (if axis_eqb a a0 then / 2 else 0)).
    { intros a. specialize (B a). cbv zeta in B. unfold position. destruct B as [B1 B2].
      set (q := (2 * ind i j k a + offset f a)%Z) in *. clearbody q.
      apply IZR_le in B1, B2. rewrite minus_IZR, mult_IZR in B1. rewrite plus_IZR, mult_IZR in B2.
      destruct (axis_eqb a a0); lra. }
    assert (SP : exists r, pt_in g r /\ (forall a, a <> a0 -> r a = position f i j k a) /\ - / 2 <= position f i j k a0 - r a0 <= / 2).
    { destruct (clamp_split (IZR (g (face_lo a0))) (IZR (g (face_hi a0))) (position f i j k a0) (/ 2)) as (y & Y1 & Y2).
      - lra. - apply IZR_le. apply N.
      - specialize (PA a0). destruct a0; cbn [axis_eqb] in PA; lra.
      - exists (fun a => if axis_eqb a a0 then y else position f i j k a). split; [|split].
        + intros a. specialize (PA a). destruct (axis_eqb a a0) eqn:Q; [|lra]. apply axis_eqb_spec in Q. subst a. exact Y1.
        + intros a Ha. destruct (axis_eqb a a0) eqn:Q; auto. apply axis_eqb_spec in Q. congruence.
        + destruct a0; cbn [axis_eqb]; lra. }
    destruct SP as (r & R1 & R2 & R3). specialize (B0 r R1).
    assert (KB : -1 <= kv a0 <= 1).
    { assert (kv a0 * kv a0 <= 1).
      { rewrite <- KK. unfold dot. pose proof (Rle_0_sqr (kv XDIR)). pose proof (Rle_0_sqr (kv YDIR)). pose proof (Rle_0_sqr (kv ZDIR)).
        unfold Rsqr in *. destruct a0; lra. }
      split; nra. }
    assert (D : dot kv (fun a => position f i j k a - IZR (o a)) = dot kv (fun a => r a - IZR (o a)) + kv a0 * (position f i j k a0 - r a0)).
    { unfold dot. destruct a0; [rewrite (R2 YDIR), (R2 ZDIR) by discriminate|rewrite (R2 XDIR), (R2 ZDIR) by discriminate|rewrite (R2 XDIR), (R2 YDIR) by discriminate]; ring. }
    rewrite D. assert (- / 2 <= kv a0 * (position f i j k a0 - r a0) <= / 2) by (split; nra). lra.
Qed.

(** ** Look-ups *)
Definition auxArr (x : Aux) (f : Fld) (n : Z) : R := if is_E f then adat (Eyi x) n else eta0 * adat (Hzi x) n.
Lemma lookup_ok g x f d d' : aux_ok g x -> - 1 <= d' - d <= 1 ->
  (if is_E f then 0 <= d <= sqrt (IZR (diag2 g)) else - / 2 <= d <= sqrt (IZR (diag2 g)) + / 2) ->
  exists n s, (0 <= n /\ n + 1 < auxXb g)%Z /\ 0 <= s < 1 /\
  auxLookup x f d' = Some ((1 - s) * auxArr x f n + s * auxArr x f (n + 1)%Z).
Proof.
  intros OK E B. unfold auxLookup, auxArr. pose proof (floor_spec (sqrt (IZR (diag2 g)))) as FD. fold (diagF g) in FD.
  pose proof (nx_diag g) as N. pose proof (xb_diag g) as X. pose proof (diagF_ge0 g) as D.
  destruct (is_E f).
  - pose proof (floor_spec d') as F. set (id := rfloor d') in *.
    assert (I1 : (-1 <= id)%Z).
    { assert (IZR (-2) < IZR id) by lra. apply lt_IZR in H. lia. }
    assert (I2 : (id <= diagF g + 1)%Z).
    { assert (IZR id < IZR (diagF g + 2)) by (rewrite plus_IZR; lra). apply lt_IZR in H. lia. }
    exists (m0 + id)%Z, (d' - IZR id). unfold m0. split; [lia|]. split; [lra|].
    rewrite rd_ok by (rewrite (ok_E g x OK); lia). cbn [obind]. rewrite rd_ok by (rewrite (ok_E g x OK); lia). reflexivity.
  - pose proof (floor_spec (d' + / 2)) as F. set (id := rfloor (d' + / 2)) in *.
    assert (I1 : (-1 <= id)%Z).
    { assert (IZR (-2) < IZR id) by lra. apply lt_IZR in H. lia. }
    assert (I2 : (id <= diagF g + 2)%Z).
    { assert (IZR id < IZR (diagF g + 3)) by (rewrite plus_IZR; lra). apply lt_IZR in H. lia. }
    exists (m0 - 1 + id)%Z, (d' + / 2 - IZR id). unfold m0. split; [lia|]. split; [lra|].
    rewrite rd_ok by (rewrite (ok_H g x OK); lia). cbn [obind]. rewrite rd_ok by (rewrite (ok_H g x OK); lia). cbn [obind].
    f_equal. replace (2 - 1 + id + 1)%Z with (2 + id)%Z by lia. ring.
Qed.
