(** C28: the analytic incident wave; C63: the auxiliary grid is stable. *)
From Coq Require Import ZArith List Bool Lia Reals Lra.
From Verif Require Import Types Lang LangProofs BBox Grid Setup SpecGrid SetupProofs StepBounds CArr Edges SpecEdges EdgesProofs SpecGeom PmlProfile PlaneWave PwProofs
  SpecPhys SpecEnergy SpecPw SpecPwWave Energy Stable P_Grid P_PwVectors PwAux P_PwAux PwStable.
Import ListNotations.
Open Scope R_scope.
Local Arguments Z.mul : simpl never.
Local Arguments Z.add : simpl never.
Local Arguments Z.sub : simpl never.

(** The incident field is the waveform delayed by the time the wave takes from
    the reference node to the sample, at every sample of the mesh. *)
Theorem C28_travels : forall nx ny nz reg c, setupCfg nx ny nz reg = Some c ->
  forall lines garbage cn e dt, has_lines c lines -> initCellEdges c lines garbage cn = Some (e, dt) ->
  forall f i j k, (forall a, gibox c (face_lo a) <= ind i j k a < gibox c (face_hi a))%Z ->
  forall o, (forall a, gibox c (face_lo a) <= o a <= gibox c (face_hi a))%Z ->
  forall fi kv vp wv t,
  incidentFieldAnalytic c lines (fun a => eDe (e a)) fi kv o vp wv f i j k t = Some (fi * wv (t - travel c lines kv o f i j k / vp)).
Proof.
  intros nx ny nz reg c H lines gb cn e dt HL HE f i j k HI o HO fi kv vp wv t.
  assert (LOC : forall a, fieldLocation1 c (lines a) (eDe (e a)) f a (idx3 i j k a) = Some (sampleAt c lines f i j k a)).
  { intros a. destruct (C42_field_position nx ny nz reg c H lines gb cn e dt HL HE f a (ind i j k a) (HI a)) as (x & E1 & _ & E3).
    replace (idx3 i j k a) with (ind i j k a) by (destruct a; reflexivity). rewrite E1. unfold sampleAt. rewrite E3. reflexivity. }
  pose proof H as W. apply setup_wf in W.
  assert (NODE : forall a, nodeLocation c lines o a = Some (nodeAt c lines o a)).
  { intros a. unfold nodeLocation. rewrite rd_ok; [reflexivity|]. rewrite HL. specialize (HO a). cfg_facts c W. destruct a; cbn [face_lo face_hi] in *; lia. }
  unfold incidentFieldAnalytic. cbn beta zeta. rewrite !LOC, !NODE. cbn [obind].
  reflexivity.
Qed.

(** Nothing arrives early: in an accepted box with the reference node chosen by
    the program, the delay of every sample is non-negative, and the incident
    field is zero there until the wave front has had time to reach it. *)
Lemma lines_le c lines a m n : increasing c lines -> (0 <= m <= n)%Z -> (n <= numLines c a - 1)%Z -> line lines a m <= line lines a n.
Proof.
  intros IN Hm Hn.
  assert (G : forall q : nat, (m + Z.of_nat q <= numLines c a - 1)%Z -> line lines a m <= line lines a (m + Z.of_nat q)%Z).
  { induction q as [|q IH]; intros Hq; [rewrite Z.add_0_r; lra|].
    rewrite Nat2Z.inj_succ in *. unfold Z.succ in *. rewrite Z.add_assoc in *.
    pose proof (IN a (m + Z.of_nat q)%Z ltac:(lia)). specialize (IH ltac:(lia)). lra. }
  specialize (G (Z.to_nat (n - m))). rewrite Z2Nat.id in G by lia. replace (m + (n - m))%Z with n in G by lia. apply G. exact Hn.
Qed.
Theorem C28_causal : forall nx ny nz reg c, setupCfg nx ny nz reg = Some c ->
  forall lines garbage cn e dt, has_lines c lines -> increasing c lines -> initCellEdges c lines garbage cn = Some (e, dt) ->
  forall b th ph, (forall a, gibox c (face_lo a) <= b (face_lo a) <= b (face_hi a) /\ b (face_hi a) <= gibox c (face_hi a))%Z ->
  0 <= th <= 180 -> 0 <= ph < 360 -> exists o, origin b th ph = Some o /\
  forall f i j k, inBox b f i j k -> (forall a, ind i j k a < gibox c (face_hi a))%Z ->
  0 <= travel c lines (kinc th ph) o f i j k /\
  forall fi vp wv t, 0 < vp -> (forall t, t < 0 -> wv t = 0) -> t < travel c lines (kinc th ph) o f i j k / vp ->
  incidentFieldAnalytic c lines (fun a => eDe (e a)) fi (kinc th ph) o vp wv f i j k t = Some 0.
Proof.
  intros nx ny nz reg c H lines gb cn e dt HL IN HE b th ph HB HT HP.
  destruct (C28_origin b th ph HT HP) as (o & HO & OC & OD). exists o. split; [exact HO|].
  pose proof H as W. apply setup_wf in W.
  intros f i j k BX HI.
  assert (T0 : 0 <= travel c lines (kinc th ph) o f i j k).
  { assert (Q : forall a, 0 <= kinc th ph a * (sampleAt c lines f i j k a - nodeAt c lines o a)).
    { intros a.
      assert (RR : forall s, IZR (b (face_lo a)) <= s <= IZR (b (face_hi a)) -> 0 <= kinc th ph a * (s - IZR (o a))).
      { intros s Hs. assert (PT : pt_in b (fun x => if axis_eqb x a then s else IZR (o x))).
        { intros x. destruct (axis_eqb x a) eqn:E; [apply axis_eqb_spec in E; subst; exact Hs|].
          destruct (HB x) as [H1 H2]. destruct (OC x) as [-> | ->]; split; apply IZR_le; lia. }
        specialize (OD _ PT). unfold dot in OD. destruct a; cbn [axis_eqb] in OD; lra. }
      assert (POS : line lines a (b (face_lo a) - gibox c (face_lo a)) <= sampleAt c lines f i j k a <= line lines a (b (face_hi a) - gibox c (face_lo a))).
      { specialize (BX a). specialize (HI a). destruct (HB a) as [H1 H2]. unfold sampleAt.
        assert (NLn : (numLines c a = gibox c (face_hi a) - gibox c (face_lo a) + 1)%Z) by (cfg_facts c W; destruct a; cbn [face_lo face_hi] in *; lia).
        unfold offset in BX. unfold staggered. destruct (is_E f), (axis_eqb (fld_axis f) a); cbn [negb];
        set (n := ind i j k a) in *;
        repeat split;
        try (apply lines_le with c; auto; lia);
        assert (P1 : line lines a (b (face_lo a) - gibox c (face_lo a)) <= line lines a (n - gibox c (face_lo a))) by (apply lines_le with c; auto; lia);
        assert (P2 : line lines a (n - gibox c (face_lo a) + 1) <= line lines a (b (face_hi a) - gibox c (face_lo a))) by (apply lines_le with c; auto; lia);
        assert (P3 : line lines a (n - gibox c (face_lo a)) <= line lines a (n - gibox c (face_lo a) + 1)) by (apply lines_le with c; auto; lia); lra. }
      destruct (HB a) as [H1 H2]. set (sa := sampleAt c lines f i j k a) in *. unfold nodeAt.
      destruct (Z.eq_dec (b (face_lo a)) (b (face_hi a))) as [E|E].
      - replace (o a) with (b (face_lo a)) by (destruct (OC a); lia). rewrite <- E in POS. replace (sa - _) with 0 by lra. lra.
      - assert (0 < IZR (b (face_hi a)) - IZR (b (face_lo a))) by (rewrite <- minus_IZR; apply IZR_lt; lia).
        destruct (OC a) as [X|X]; rewrite X in *.
        + pose proof (RR (IZR (b (face_hi a))) ltac:(split; apply IZR_le; lia)) as S.
          assert (0 <= kinc th ph a) by nra. apply Rmult_le_pos; lra.
        + pose proof (RR (IZR (b (face_lo a))) ltac:(split; apply IZR_le; lia)) as S.
          assert (0 <= - kinc th ph a) by nra.
          match goal with |- 0 <= _ * (_ - ?l) => replace (kinc th ph a * (sa - l)) with (- kinc th ph a * (l - sa)) by ring; apply Rmult_le_pos; lra end. }
    unfold travel, dot. pose proof (Q XDIR). pose proof (Q YDIR). pose proof (Q ZDIR). lra. }
  split; [exact T0|]. intros fi vp wv t VP WZ TN.
  rewrite (C28_travels nx ny nz reg c H lines gb cn e dt HL HE).
  - rewrite WZ; [rewrite Rmult_0_r; reflexivity|lra].
  - intros a. split; [|apply HI]. specialize (BX a). destruct (HB a). unfold offset in BX. destruct (is_E f), (axis_eqb (fld_axis f) a); lia.
  - intros a. destruct (HB a). destruct (OC a) as [-> | ->]; lia.
Qed.
Example C28_causal_nonvacuous : exists c e dt, setupCfg 6 6 6 initBoundaryReg = Some c /\
  let lines := fun _ : Axis => mkArr 7 (fun i => IZR (i * i)) in
  has_lines c lines /\ increasing c lines /\ initCellEdges c lines (fun _ => 0) (1/2) = Some (e, dt) /\
  let b := mkbox 9 11 8 11 9 12 in
  (forall a, gibox c (face_lo a) <= b (face_lo a) <= b (face_hi a) /\ b (face_hi a) <= gibox c (face_hi a))%Z /\
  inBox b HX 9 8 10 /\ (forall a, ind 9 8 10 a < gibox c (face_hi a))%Z.
Proof.
  destruct (setupCfg 6 6 6 initBoundaryReg) as [c|] eqn:HC; [|discriminate HC].
  pose (lines := fun _ : Axis => mkArr 7 (fun i => IZR (i * i))).
  assert (NL : forall a, numLines c a = 7%Z) by (injection HC as <-; intros []; reflexivity).
  assert (HL : has_lines c lines) by (intros a; rewrite NL; reflexivity).
  destruct (C23_edge_lengths _ _ _ _ _ HC lines (fun _ => 0) (1/2) HL) as (e & dt & HE & _).
  exists c, e, dt. split; [reflexivity|]. cbv zeta. split; [exact HL|]. split.
  { intros a i Hi. rewrite NL in Hi. unfold line. cbn [adat]. apply IZR_lt. lia. }
  split; [exact HE|]. injection HC as <-. split; [|split].
  - intros []; vm_compute; intuition discriminate.
  - intros []; unfold offset; cbn [ind is_E fld_axis axis_eqb face_lo face_hi mkbox]; lia.
  - intros []; vm_compute; reflexivity.
Qed.

(** ** C63 *)
Lemma aux_energy_scale g dt d0 rel x : 0 < dt -> 0 < d0 -> 0 < rel -> same_coefs (initAux g dt d0 rel) x ->
  e2 g x + h2 g x = d0 * rel / dt * auxEnergy g x.
Proof.
  intros A B C (S1 & S2 & _). unfold e2, h2, auxEnergy. rewrite S1, S2. cbn [initAux betaEyi gammaHzi].
  assert (M : 0 < mu0) by (unfold mu0; pose proof PI_RGT_0; lra).
  destruct (ap_pos g _ (init_passive g dt d0 rel A B C)) as [P1 P2]. cbn [initAux betaEyi gammaHzi] in P1, P2.
  assert (E : eps0 <> 0). { intros Z. rewrite Z in P1. unfold Rdiv in P1. rewrite Rmult_0_l, Rinv_0, Rmult_0_r, Rmult_0_l in P1. lra. }
  rewrite !sumZ_scal. revert M E. generalize eps0, mu0. intros ep mu M E. field. repeat split; lra.
Qed.
Lemma auxRun_passive g w n x : aux_passive g x -> exists x', auxRun g w n x = Some x' /\ aux_passive g x' /\ same_coefs x x' /\
  forall n', n = S n' -> adat (Eyi x') 0%Z = w n'.
Proof.
  intros P. induction n as [|n (x1 & E & O & S1 & _)]; [exists x; repeat split; auto; try apply P; discriminate|]. cbn [auxRun]. rewrite E. cbn [obind].
  destruct (auxStep_passive g (w n) x1 O) as (x2 & E2 & O2 & S2 & V & _). exists x2. split; [exact E2|]. split; [exact O2|]. split.
  - unfold same_coefs in *. intuition congruence.
  - intros n' Q. injection Q as <-. exact V.
Qed.
(** Once the waveform is zero the energy of the auxiliary grid, with its
    absorbing layer, stays below a fixed multiple of what it was, for ever: the
    layer neither generates nor stores up energy. *)
Theorem C63_bounded : forall g dt d0 rel, 0 < dt -> 0 < d0 -> 0 < rel -> c0 * dt < rel * d0 ->
  let q := c0 * dt / (rel * d0) in
  forall w N, (forall n, (N <= n)%nat -> w n = 0) -> forall n,
  exists x x', auxRun g w (S N) (initAux g dt d0 rel) = Some x /\ auxRun g w (S N + n) (initAux g dt d0 rel) = Some x' /\
  auxEnergy g x' <= (1 + q) / (1 - q) * auxEnergy g x.
Proof.
  intros g dt d0 rel A B C Q q w N WZ n. pose proof (init_passive g dt d0 rel A B C) as P0.
  set (x0 := initAux g dt d0 rel) in *.
  destruct (auxRun_passive g w (S N) x0 P0) as (x & E & P & SC & V). exists x.
  specialize (V N eq_refl). rewrite (WZ N) in V by lia.
  assert (G : exists x', auxRun g w (S N + n) x0 = Some x' /\ aux_passive g x' /\ same_coefs x0 x' /\ adat (Eyi x') 0%Z = 0 /\ stored1 g x' <= stored1 g x).
  { induction n as [|n (x1 & E1 & P1 & S1 & Z1 & D1)].
    - exists x. rewrite Nat.add_0_r. repeat split; auto; try apply P; try apply SC; lra.
    - rewrite Nat.add_succ_r. cbn [auxRun]. rewrite E1. cbn [obind]. rewrite (WZ (S N + n)%nat) by lia.
      destruct (auxStep_passive g 0 x1 P1) as (x2 & E2 & P2 & S2 & V2 & _). exists x2. split; [exact E2|]. split; [exact P2|]. split.
      + unfold same_coefs in *. intuition congruence.
      + split; [exact V2|]. pose proof (stored1_step g x1 x2 P1 E2 Z1). lra. }
  destruct G as (x' & E' & P' & S' & _ & D). exists x'. split; [exact E|]. split; [exact E'|].
  assert (C0 : 0 < c0) by (unfold c0; lra).
  assert (DD : 0 < rel * d0) by (apply Rmult_lt_0_compat; lra). assert (CT : 0 < c0 * dt) by (apply Rmult_lt_0_compat; lra).
  assert (Q0 : 0 < q) by (apply Rdiv_lt_0_compat; assumption).
  assert (Q1 : q < 1). { unfold q. apply (Rmult_lt_reg_r (rel * d0)); [exact DD|]. unfold Rdiv. rewrite Rmult_assoc, Rinv_l, Rmult_1_r, Rmult_1_l by lra. exact Q. }
  assert (BG : betaEyi x0 * gammaHzi x0 = q * q).
  { destruct (ap_pos g _ P0) as [B1 B2]. unfold x0 in *. cbn [initAux betaEyi gammaHzi] in *. unfold q, eps0.
    assert (M : 0 < mu0) by (unfold mu0; pose proof PI_RGT_0; lra). revert M C0. generalize mu0, c0. intros mu cc M C0. field. repeat split; lra. }
  assert (BX : forall y, same_coefs x0 y -> betaEyi y * gammaHzi y <= q * q) by (intros y (Y1 & Y2 & _); rewrite Y1, Y2, BG; lra).
  pose proof (stored1_equiv g x q P Q0 (BX x SC)) as Q2. pose proof (stored1_equiv g x' q P' Q0 (BX x' S')) as Q3.
  rewrite (aux_energy_scale g dt d0 rel x A B C SC) in Q2. rewrite (aux_energy_scale g dt d0 rel x' A B C S') in Q3.
  set (u := auxEnergy g x) in *. set (v := auxEnergy g x') in *. set (s := d0 * rel / dt) in *.
  assert (S0 : 0 < s) by (apply Rdiv_lt_0_compat; [apply Rmult_lt_0_compat; lra|lra]).
  pose proof (Rle_abs (stored1 g x - s * u)) as A0.
  pose proof (Rle_abs (- (stored1 g x' - s * v))) as A1. rewrite Rabs_Ropp in A1.
  apply (Rmult_le_reg_l (s * (1 - q))); [apply Rmult_lt_0_compat; lra|].
  replace (s * (1 - q) * ((1 + q) / (1 - q) * u)) with ((1 + q) * (s * u)) by (field; lra). lra.
Qed.
Example C63_nonvacuous : exists dt d0 rel (w : nat -> R), 0 < dt /\ 0 < d0 /\ 0 < rel /\ c0 * dt < rel * d0 /\ w 0%nat = 1 /\ forall n, (1 <= n)%nat -> w n = 0.
Proof.
  exists (1 / c0), 2, 1, (fun n => match n with O => 1 | _ => 0 end).
  assert (C0 : 0 < c0) by (unfold c0; lra). split; [apply Rdiv_lt_0_compat; lra|]. split; [lra|]. split; [lra|]. split.
  - replace (c0 * (1 / c0)) with 1 by (field; lra). lra.
  - split; [reflexivity|]. intros [|n] H; [lia|reflexivity].
Qed.
Print Assumptions C28_travels.
Print Assumptions C28_causal.
Print Assumptions C63_bounded.
