(** C80: energy and stability in boxes with PEC, PMC and periodic walls. *)
From Coq Require Import ZArith List Bool Lia Reals Lra String.
From Verif Require Import Types Lang LangProofs BBox Grid Setup SpecGrid SetupProofs Ghost Step StepShape StepBounds
  SpecCone StepValue SpecPhys SpecEnergy Energy SpecGeom SpecStable Stable StableStep GhostValue StepClosed SpecPeriodic SpecBox BoxEnergy BoxStable
  CArr Edges SpecEdges EdgesProofs
  Medium SpecMedium MediumProofs PmlProfile Media MediaProofs SpecMedia P_Setup P_Step P_Energy P_Medium P_Grid P_Media P_Stable.
Import ListNotations.
Open Scope R_scope.

(** ** Lossless media *)
(** For every mesh size, spacing, mixture of PEC, PMC and periodic walls,
    distribution of lossless media and internal perfect conductors, every
    initial field that fits the walls and every number of steps: the energy
    inside the mesh at step n+1 is the energy at step 1, exactly. *)
Theorem C80_energy_conserved : forall nx ny nz reg c, setupCfg nx ny nz reg = Some c ->
  forall m, closed_box c m -> forall n,
  box_energy c (after c n m) (after c (S n) m) = box_energy c m (after c 1 m).
Proof.
  intros nx ny nz reg c H m CV n. apply setup_wf in H. pose proof (cb_walls c m CV) as P. revert m CV.
  induction n; intros m CV; [reflexivity|].
  rewrite (after_S c n m), (after_S c (S n) m). rewrite IHn by (apply (box_step c H P); exact CV).
  rewrite !after_S. apply (box_energy_step c H P m CV).
Qed.

(** ** Lossy media *)
Lemma after_pbox c (W : wf c) m n : passive_box c m -> passive_box c (after c n m) /\ same_data m (after c n m).
Proof.
  intros PC. pose proof (pb_walls c m PC) as P. revert m PC. induction n; intros m PC.
  - split; [exact PC|]. intros l _. reflexivity.
  - rewrite after_S. destruct (IHn (step rArith c m)) as (A & B); [apply (pbox_step c W P); exact PC|].
    split; [exact A|]. intros l K. rewrite B by exact K. apply same_step. exact K.
Qed.

(** Energy balance: what a step removes from the energy between steps is exactly
    the power dissipated in the conductivity; the walls neither absorb nor
    supply any. *)
Theorem C80_balance : forall nx ny nz reg c, setupCfg nx ny nz reg = Some c ->
  forall m, passive_box c m -> forall n,
  boxLeapEnergy c (after c (S n) m) (after c (S (S n)) m) = boxLeapEnergy c (after c n m) (after c (S n) m)
    - boxDissipated c (after c (S n) m) (after c (S (S n)) m) /\
  0 <= boxDissipated c (after c (S n) m) (after c (S (S n)) m).
Proof.
  intros nx ny nz reg c H m PC n. apply setup_wf in H. rename H into W. pose proof (pb_walls c m PC) as P.
  destruct (after_pbox c W m n PC) as (P0 & _). destruct (after_pbox c W m (S n) PC) as (P1 & _). destruct (after_pbox c W m (S (S n)) PC) as (P2 & _).
  pose proof (b_stored_leap c W P _ P0) as L0. rewrite <- after_step in L0.
  pose proof (b_stored_leap c W P _ P1) as L1. rewrite <- after_step in L1.
  pose proof (b_stored_step c W P _ P1) as S. rewrite <- after_step in S. split.
  - rewrite <- L0, <- L1. exact S.
  - apply (b_loss_nonneg c _ _ P1); [rewrite (after_step c (Datatypes.S n)); apply same_step|exact P2].
Qed.

(** The energy of the fields stays below a fixed multiple of its initial value
    if the Courant number is below 1. *)
Theorem C80_bounded : forall nx ny nz reg c, setupCfg nx ny nz reg = Some c ->
  forall m q dt e0 u0 mn, passive_box c m -> courant_ok c m q dt e0 u0 mn -> 0 < q < 1 ->
  0 <= boxFieldEnergy c m /\ forall n, boxFieldEnergy c (after c n m) <= (1 + q) / (1 - q) * boxFieldEnergy c m.
Proof.
  intros nx ny nz reg c H m q dt e0 u0 mn PC CO Q. apply setup_wf in H. rename H into W. pose proof (pb_walls c m PC) as P.
  assert (F0 : 0 <= boxFieldEnergy c m).
  { change (boxFieldEnergy c m) with (b_nE c m (fld m) + b_nH c m (fld m)). apply Rplus_le_le_0_compat.
    - eapply b_nE_nonneg; eauto. intros f i j k E Hl B. destruct (pb_E c m PC f i j k E Hl) as [(_ & N & _)|[_ Z]]; [lra|exact Z].
    - eapply b_nH_nonneg; eauto. }
  split; [exact F0|]. intros n.
  assert (D : b_stored c (after c n m) <= b_stored c m).
  { induction n; [apply Rle_refl|]. rewrite after_step. destruct (after_pbox c W m n PC) as (PN & SN).
    pose proof (b_stored_step c W P _ PN) as X.
    pose proof (b_loss_nonneg c _ _ PN (same_step c (after c n m)) (pbox_step c W P _ PN)). lra. }
  destruct (after_pbox c W m n PC) as (PN & SN).
  pose proof (b_stored_equiv c W P _ q dt e0 u0 mn PN (courant_same c _ _ q dt e0 u0 mn SN CO) ltac:(lra)) as B1.
  pose proof (b_stored_equiv c W P m q dt e0 u0 mn PC CO ltac:(lra)) as B0.
  pose proof (Rle_abs (b_stored c m - boxFieldEnergy c m)) as A0.
  pose proof (Rle_abs (- (b_stored c (after c n m) - boxFieldEnergy c (after c n m)))) as A1. rewrite Rabs_Ropp in A1.
  apply (Rmult_le_reg_l (1 - q)); [lra|].
  replace ((1 - q) * ((1 + q) / (1 - q) * boxFieldEnergy c m)) with ((1 + q) * boxFieldEnergy c m) by (field; lra). lra.
Qed.

(** ** Single values *)
Lemma box_terms c (W : wf c) m : passive_box c m -> forall f i j k, inl (gfolim c f) i j k ->
  0 <= boxvol c m f i j k * (if is_E f then eps_dt m f i j k else mu_dt m f i j k) * (fld m f i j k * fld m f i j k).
Proof.
  intros PC f i j k Hl. pose proof (boxvol_pos c m f i j k PC Hl) as V. pose proof (Rle_0_sqr (fld m f i j k)) as Q. unfold Rsqr in Q.
  destruct (is_E f) eqn:E.
  - destruct (pb_E c m PC f i j k E Hl) as [(A & B & _)|[_ Z]]; [|rewrite Z; lra].
    apply Rmult_le_pos; [|exact Q]. apply Rmult_le_pos; [lra|]. unfold eps_dt. apply Rlt_le, Rdiv_lt_0_compat; lra.
  - apply Rmult_le_pos; [|exact Q]. apply Rmult_le_pos; [lra|]. unfold mu_dt. apply Rlt_le, Rinv_0_lt_compat. apply (pb_H c m PC); auto.
Qed.
Lemma box_single c (W : wf c) m : passive_box c m -> forall f i j k, inl (gfolim c f) i j k ->
  boxvol c m f i j k * (if is_E f then eps_dt m f i j k else mu_dt m f i j k) * (fld m f i j k * fld m f i j k) <= boxFieldEnergy c m.
Proof.
  intros PC f i j k Hl. pose proof (box_terms c W m PC) as T.
  assert (N : forall f, 0 <= sum3 (gfolim c f) (fun i j k => boxvol c m f i j k * (if is_E f then eps_dt m f i j k else mu_dt m f i j k) * (fld m f i j k * fld m f i j k))).
  { intros g. apply sumZ_nonneg; intros. apply sumZ_nonneg; intros. apply sumZ_nonneg; intros. apply T. unfold inl; auto. }
  pose proof (sum3_single (gfolim c f) _ i j k (T f) Hl) as S. cbn beta in S.
  pose proof (N EX) as N1. pose proof (N EY) as N2. pose proof (N EZ) as N3. pose proof (N HX) as N4. pose proof (N HY) as N5. pose proof (N HZ) as N6.
  cbn [is_E] in N1, N2, N3, N4, N5, N6. unfold boxFieldEnergy, sumE, sumH.
  destruct f; cbn [is_E] in *; lra.
Qed.
Lemma box_value_bounded c (W : wf c) m K : passive_box c m -> (forall n, boxFieldEnergy c (after c n m) <= K) ->
  forall f i j k, inl (gfolim c f) i j k -> exists B, forall n, Rabs (fld (after c n m) f i j k) <= B.
Proof.
  intros PC HK f i j k Hl.
  set (w := boxvol c m f i j k * (if is_E f then eps_dt m f i j k else mu_dt m f i j k)).
  assert (CASE : 0 < w \/ (is_E f = true /\ beta m f i j k = 0)).
  { pose proof (boxvol_pos c m f i j k PC Hl) as V. unfold w. destruct (is_E f) eqn:E.
    - destruct (pb_E c m PC f i j k E Hl) as [(A & B & _)|[Z _]]; [|right; auto]. left.
      apply Rmult_lt_0_compat; [exact V|]. unfold eps_dt. apply Rdiv_lt_0_compat; lra.
    - left. apply Rmult_lt_0_compat; [exact V|]. unfold mu_dt. apply Rinv_0_lt_compat. apply (pb_H c m PC); auto. }
  destruct CASE as [WP|(E & BZ)].
  - exists (K / w + 1). intros n. destruct (after_pbox c W m n PC) as (PN & SD).
    pose proof (box_single c W _ PN f i j k Hl) as S. rewrite (same_boxvol c _ _ _ _ _ _ SD), (same_eps _ _ _ _ _ _ SD), (same_mu _ _ _ _ _ _ SD) in S.
    fold w in S. set (x := fld (after c n m) f i j k) in *.
    assert (X : x * x <= K / w).
    { apply Rmult_le_reg_l with w; [exact WP|]. replace (w * (K / w)) with K by (field; lra). pose proof (HK n). lra. }
    assert (A : Rabs x * Rabs x = x * x) by (rewrite <- Rabs_mult; apply Rabs_pos_eq, Rle_0_sqr).
    pose proof (Rle_0_sqr (Rabs x - 1 / 2)) as Y. unfold Rsqr in Y.
    pose proof (Rle_0_sqr (Rabs x - 1)) as Y2. unfold Rsqr in Y2. lra.
  - exists 0. intros n. destruct (after_pbox c W m n PC) as (PN & SD).
    destruct (pb_E c _ PN f i j k E Hl) as [(_ & B & _)|[_ Z]].
    + destruct (same_coef _ _ f i j k SD) as (_ & Q & _). rewrite Q, BZ in B. lra.
    + rewrite Z, Rabs_R0. lra.
Qed.

(** ** From the cards of a mesh *)
Definition box_walls (c : Cfg) : Prop :=
  forall F, outerSurfaceType c F = BT_PEC \/ outerSurfaceType c F = BT_PMC \/ outerSurfaceType c F = BT_PERIODIC.
Section Cards.
Variables (nx ny nz : Z) (reg : BReg) (c : Cfg).
Hypothesis H : setupCfg nx ny nz reg = Some c.
Hypothesis CL : box_walls c.
Variables (mreg : MReg) (sc : Scene).
Hypothesis HA : scene_ok c sc.
Variables (wt : nat -> WType) (bt : nat -> BType) (dt : R) (m0 m : mem R).
Hypothesis DT : 0 < dt.
Hypothesis MC : forall l, coefLoc l -> m l = run rArith (mediaProgPml (initMedia eps0 mu0 dt mreg) c wt bt sc) m0 l.

Let W : wf c := setup_wf _ _ _ _ _ H.

Lemma box_coef_at f i j k : inl (gfolim c f) i j k ->
  exists n, let co := initMedia eps0 mu0 dt mreg n in
  (forall F, outerSurfaceType c F = BT_PEC -> in_wall c F f i j k -> is_E f = true -> n = 1%nat) /\
  if is_E f then alpha m f i j k = calpha co /\ beta m f i j k = cbeta co else gamma m f i j k = cgamma co.
Proof.
  intros Hl.
  assert (NP : forall F, outerSurfaceType c F <> BT_PML) by (intros F; destruct (CL F) as [->|[->| ->]]; discriminate).
  assert (GG : forall f, gibox c f = gobox c f) by (intros; apply (bx_gibox c W CL); auto).
  assert (RG : forall a, (mesh_lo c a <= SpecGeom.coord i j k a <= mesh_hi c f a)%Z).
  { intros a. unfold mesh_lo, mesh_hi. unfold inl, gfolim, setFieldLimits in Hl.
    destruct f, a; cbn [SpecGeom.coord staggered is_E fld_axis axis_eqb negb face_lo face_hi fieldIsInBoundary] in *; rewrite !GG; lia. }
  assert (NE : forall a n, (mesh_lo c a <= n <= mesh_hi c f a)%Z -> nearest c f a n = n) by (intros; unfold nearest; lia).
  pose proof (RG XDIR) as RX. pose proof (RG YDIR) as RY. pose proof (RG ZDIR) as RZ. cbn [SpecGeom.coord] in RX, RY, RZ.
  destruct (continued_scene nx ny nz reg c H (fun a => or_intror (NP (face_lo a)))
    sc HA R rArith (initMedia eps0 mu0 dt mreg) wt bt m0 f i j k Hl (or_introl RX) (or_introl RY) (or_introl RZ)
    (fun a => or_intror (proj1 (RG a)))) as (r & LP & V).
  rewrite !NE in LP by assumption. cbv zeta in V.
  exists (match r with Some n => n | None => 0%nat end). cbv zeta. split.
  - intros F T (N & O) E.
    assert (OF : on_face c F f i j k) by (split; [exact E|split; [exact N|destruct F; exact O]]).
    pose proof (wall_painted c wt bt sc F f i j k W (or_introl T) OF Hl) as LW.
    rewrite (C18_last_paint_unique _ _ _ _ _ _ _ LP LW). reflexivity.
  - unfold alpha, beta, gamma. destruct (is_E f) eqn:E.
    + rewrite !MC by exact I. exact V.
    + rewrite !MC by exact I. exact V.
Qed.
End Cards.

Definition box_coefs (c : Cfg) (dt : R) (m : mem R) : Prop := forall f i j k, inl (gfolim c f) i j k ->
  exists co, good_coef dt co /\ (forall F, outerSurfaceType c F = BT_PEC -> in_wall c F f i j k -> is_E f = true -> cbeta co = 0) /\
  if is_E f then alpha m f i j k = calpha co /\ beta m f i j k = cbeta co else gamma m f i j k = cgamma co.
(** initial fields that fit the walls: zero on conductors, equal on the two
    faces of a periodic axis (as are media and cell sizes across), and ghost
    cells as a time step leaves them *)
Record fits_box (c : Cfg) (m : mem R) : Prop := {
  fb_zero : forall f i j k, is_E f = true -> inl (gfolim c f) i j k -> beta m f i j k = 0 -> fld m f i j k = 0;
  fb_per : forall a, outerSurfaceType c (face_lo a) = BT_PERIODIC -> per_data c a m /\ faces_agree c a m;
  fb_ghost : forall F, rel rArith c false F m }.

Lemma box_stable_coefs : forall nx ny nz reg c, setupCfg nx ny nz reg = Some c -> box_walls c ->
  forall lines garbage card cn e dt, has_lines c lines -> increasing c lines -> courantOf card = Some cn -> 0 < cn ->
  initCellEdges c lines garbage cn = Some (e, dt) ->
  0 < dt /\ forall m, box_coefs c dt m -> edges_in c e m -> fits_box c m ->
  cn < 1 /\
  (forall n, boxFieldEnergy c (after c n m) <= (1 + cn) / (1 - cn) * boxFieldEnergy c m) /\
  (forall f i j k, inl (gfolim c f) i j k -> exists B, forall n, Rabs (fld (after c n m) f i j k) <= B).
Proof.
  intros nx ny nz reg c H CL lines garbage card cn e dt HL IN HC Pcn HE.
  pose proof H as W. apply setup_wf in W. destruct eps0_mu0 as (E0 & M0 & EM).
  assert (C1 : cn < 1).
  { unfold courantOf, parseCN, initSimulation in HC. destruct card as [x|].
    - destruct (Rge_dec x 1); [discriminate|]. injection HC as <-. lra.
    - destruct (Rlt_dec (-1) 0); [|lra]. injection HC as <-.
      pose proof (sqrt_lt_1 3 4). replace (sqrt 4) with 2 in *; [lra|]. symmetry. apply sqrt_lem_1; lra. }
  destruct (edges_run c lines garbage cn W HL) as (e' & dt' & E' & Edt & EA).
  rewrite E' in HE. injection HE as -> ->.
  assert (PM : forall a, 0 < eMin (e a)). { intros a. apply (axis_pos c lines garbage a (e a) W HL IN (EA a)). }
  rewrite (timeStep_limit cn _ PM) in Edt. unfold courant_limit in Edt.
  set (S := / (eMin (e XDIR) * eMin (e XDIR)) + / (eMin (e YDIR) * eMin (e YDIR)) + / (eMin (e ZDIR) * eMin (e ZDIR))) in *.
  assert (SP : 0 < S) by (apply lim_pos; apply PM). pose proof (sqrt_lt_R0 S SP) as SS.
  assert (CP : 0 < c0) by (unfold c0; lra).
  assert (DT : 0 < dt). { rewrite Edt. apply Rmult_lt_0_compat; [exact Pcn|]. apply Rdiv_lt_0_compat; [lra|]. apply Rmult_lt_0_compat; lra. }
  split; [exact DT|]. intros m CA ED [ZB FP FG].
  destruct (C23_edge_lengths nx ny nz reg c H lines garbage cn HL) as (e2 & dt2 & E2 & CE).
  rewrite E' in E2. injection E2 as <- <-.
  assert (GG : forall f, gibox c f = gobox c f) by (intros; apply (bx_gibox c W CL); auto).
  assert (RN : forall a, (1 <= gobox c (face_lo a) /\ gobox c (face_lo a) < gobox c (face_hi a) /\ gobox c (face_hi a) < numCells c a)%Z).
  { intros a. pose proof (bx_ge c W CL a). cfg_facts c W. destruct a; cbn [face_lo face_hi] in *; unfold NUM_GHOST_CELLS in *; lia. }
  assert (NL : forall a, numLines c a = (gobox c (face_hi a) - gobox c (face_lo a) + 1)%Z).
  { intros a. rewrite <- !GG. cfg_facts c W. destruct a; cbn [face_lo face_hi] in *; unfold NUM_GHOST_CELLS in *; lia. }
  assert (PC : passive_box c m).
  { constructor.
    - exact CL.
    - intros f i j k E Hl. destruct (CA f i j k Hl) as (co & GC & OW & V). rewrite E in V. destruct V as (-> & BE).
      destruct GC as ([N|(A & B & _)] & _).
      + right. rewrite BE. split; [exact N|]. apply ZB; auto. rewrite BE. exact N.
      + left. rewrite BE. split; [exact A|]. split; [exact B|]. intros F T O. rewrite (OW F T O E) in B. lra.
    - intros f i j k E Hl. destruct (CA f i j k Hl) as (co & GC & OW & V). rewrite E in V. rewrite V. apply GC.
    - intros a n Hn. pose proof (RN a). destruct (CE a) as (_ & _ & _ & _ & _ & PP & _).
      destruct (ED a n ltac:(lia)) as (-> & -> & _). destruct (PP IN n ltac:(lia)) as (P1 & P2 & P3 & P4). auto.
    - intros a n Hn. pose proof (RN a). destruct (CE a) as (_ & _ & _ & _ & _ & PP & _).
      destruct (ED a n ltac:(lia)) as (_ & _ & -> & ->). destruct (PP IN n ltac:(lia)) as (P1 & P2 & P3 & P4). auto.
    - intros a n Hn. pose proof (RN a). destruct (CE a) as (_ & _ & _ & _ & MID & _).
      destruct (ED a n ltac:(lia)) as (-> & _ & -> & _). destruct (ED a (n-1)%Z ltac:(lia)) as (-> & _). apply MID. lia.
    - intros a. pose proof (RN a) as RA. pose proof (NL a) as NA. destruct (CE a) as (_ & DE & DL & DU & MID & _). rewrite !GG in *.
      destruct (ED a (gobox c (face_lo a)) ltac:(lia)) as (-> & _ & -> & _).
      destruct (ED a (gobox c (face_hi a)) ltac:(lia)) as (_ & _ & -> & _).
      destruct (ED a (gobox c (face_hi a) - 1)%Z ltac:(lia)) as (-> & _).
      rewrite !MID by lia. rewrite (DL (gobox c (face_lo a) - 1)%Z), (DU (gobox c (face_hi a))) by lia.
      rewrite (DE (gobox c (face_lo a))), (DE (gobox c (face_hi a) - 1)%Z) by lia. unfold cell.
      replace (gobox c (face_lo a) - gobox c (face_lo a) + 1)%Z with (0 + 1)%Z by lia.
      replace (gobox c (face_lo a) - gobox c (face_lo a))%Z with 0%Z by lia.
      replace (gobox c (face_hi a) - 1 - gobox c (face_lo a) + 1)%Z with (numLines c a - 2 + 1)%Z by lia.
      replace (gobox c (face_hi a) - 1 - gobox c (face_lo a))%Z with (numLines c a - 2)%Z by lia. split; field.
    - exact FP.
    - exact FG. }
  assert (CO : courant_ok c m cn dt eps0 mu0 (fun a => eMin (e a))).
  { constructor.
    - auto.
    - intros f i j k E Hl NB. destruct (CA f i j k Hl) as (co & GC & _ & V). rewrite E in V. destruct V as (AL & BE). unfold eps_dt. rewrite AL, BE in *.
      destruct GC as ([N|(_ & _ & X)] & _); [exfalso; apply NB; exact N|exact X].
    - intros f i j k E Hl. destruct (CA f i j k Hl) as (co & GC & _ & V). rewrite E in V. unfold mu_dt. rewrite V. apply GC.
    - intros a n Hn. pose proof (RN a). destruct (CE a) as (_ & _ & _ & _ & _ & _ & MM). destruct (ED a n ltac:(lia)) as (-> & _). apply MM. lia.
    - fold S. rewrite EM. right. rewrite Edt.
      transitivity (cn * cn * (S / (sqrt S * sqrt S))); [field; split; lra|]. rewrite sqrt_sqrt by lra. field. lra. }
  destruct (C80_bounded nx ny nz reg c H m cn dt eps0 mu0 _ PC CO (conj Pcn C1)) as (F0 & BND).
  split; [exact C1|]. split; [exact BND|].
  apply (box_value_bounded c W m _ PC BND).
Qed.
Lemma box_media_coefs nx ny nz reg c : setupCfg nx ny nz reg = Some c -> box_walls c ->
  forall mreg sc, scene_ok c sc -> forall wt bt dt m0 m,
  (forall l, coefLoc l -> m l = run rArith (mediaProgPml (initMedia eps0 mu0 dt mreg) c wt bt sc) m0 l) ->
  good_media mreg -> 0 < dt -> (forall k it, getItem mreg k = Some it -> m_type (idata it) <> MT_DEBYE) -> box_coefs c dt m.
Proof.
  intros H CL mreg sc HA wt bt dt m0 m MC HPm DT ND f i j k Hl.
  destruct (box_coef_at nx ny nz reg c H CL mreg sc HA wt bt dt m0 m MC f i j k Hl) as (n & OW & V). cbv zeta in V.
  exists (initMedia eps0 mu0 dt mreg n). destruct (medium_ok mreg dt n HPm DT ND) as (A & Z1 & B).
  split; [|split; [intros F T O E; apply Z1; exact (OW F T O E)|exact V]]. split; [|exact B]. destruct A as [N|A]; [left; exact (Z1 N)|right; exact A].
Qed.

(** For every mesh whose outer walls are PEC, PMC or periodic, in any mixture,
    every set of mesh lines, every accepted Courant number, every list of media
    other than DEBYE ones, and every scene of blocks, wires and surfaces:
    whatever the fields are at some time (fitting the walls), from then on,
    without sources, their energy never exceeds (1+CN)/(1-CN) times its value at
    that time, and every single field value stays bounded for ever. *)
Theorem C80_stable : forall nx ny nz reg c, setupCfg nx ny nz reg = Some c -> box_walls c ->
  forall lines garbage card cn e dt, has_lines c lines -> increasing c lines -> courantOf card = Some cn -> 0 < cn ->
  initCellEdges c lines garbage cn = Some (e, dt) ->
  forall cards mreg, parseMTs initMedReg cards = Some mreg -> (forall k it, getItem mreg k = Some it -> m_type (idata it) <> MT_DEBYE) ->
  forall M2 M3 (wires : Registry M2) (bounds : Registry M3) sc, accepted c mreg wires bounds sc ->
  forall wt bt m0 m,
  (forall l, coefLoc l -> m l = run rArith (mediaProgPml (initMedia eps0 mu0 dt mreg) c wt bt sc) m0 l) -> edges_in c e m -> fits_box c m ->
  cn < 1 /\
  (forall n, boxFieldEnergy c (after c n m) <= (1 + cn) / (1 - cn) * boxFieldEnergy c m) /\
  (forall f i j k, inl (gfolim c f) i j k -> exists B, forall n, Rabs (fld (after c n m) f i j k) <= B).
Proof.
  intros nx ny nz reg c H CL lines garbage card cn e dt HL IN HC Pcn HE cards mreg HPm ND M2 M3 wires bounds sc HA wt bt m0 m MC ED FB.
  destruct (box_stable_coefs nx ny nz reg c H CL lines garbage card cn e dt HL IN HC Pcn HE) as (DT & ST). apply ST; auto.
  apply (box_media_coefs nx ny nz reg c H CL mreg sc (accepted_ok _ _ _ _ _ HA) wt bt dt m0 m MC (fun n it => reg_params cards mreg n it HPm) DT ND).
Qed.

(** ** The hypotheses can be met *)
(** PMC walls across x, periodic across y, PEC across z *)
Definition boxReg : BReg := initBoundaryReg ++
  map (fun f => mkItem (FACE f) (mkB (match f with XLO | XHI => BT_PMC | YLO | YHI => BT_PERIODIC | _ => BT_PEC end) 0)) faces.
(** a field that fits these walls, around a conductor, in unequal cells *)
Definition boxMem : mem R := fun l =>
  let cond f := match f with EX | EY => (lk l =? 1) || (lk l =? 4) | EZ => (li l =? 2) && (lj l =? 2) | _ => false end%Z in
  match arr l with
  | AF f => match f with HX => 1 | HY => 0 | HZ => if ((li l =? 0) || (li l =? 4))%Z then -1 else 1 | _ => if cond f then 0 else 1 end
  | ABeta f => if cond f then 0 else 2
  | ADe XDIR => if (li l =? 2)%Z then 2 else 1
  | AIde XDIR => if (li l =? 2)%Z then / 2 else 1
  | _ => 1
  end.
Definition boxCfg : Cfg := match setupCfg 3 3 3 boxReg with Some c => c | None => murCfg end.
Example C80_closed_nonvacuous : exists c, setupCfg 3 3 3 boxReg = Some c /\ closed_box c boxMem /\
  outerSurfaceType c XLO = BT_PMC /\ outerSurfaceType c YHI = BT_PERIODIC /\ outerSurfaceType c ZLO = BT_PEC /\
  inl (gfolim c EZ) 1 4 2 /\ fld boxMem EZ 1 4 2 = 1 /\ boxvol c boxMem EZ 1 4 2 = / 4.
Proof.
  exists boxCfg. split; [reflexivity|].
  assert (G : forall f, gobox boxCfg f = (match f with XLO | YLO | ZLO => 1 | _ => 4 end)%Z) by (intros []; vm_compute; reflexivity).
  assert (T : forall f, outerSurfaceType boxCfg f = match f with XLO | XHI => BT_PMC | YLO | YHI => BT_PERIODIC | _ => BT_PEC end) by (intros []; reflexivity).
  split.
  - constructor.
    + intros F. rewrite T. destruct F; auto.
    + intros f i j k E Hl. unfold alpha, beta, fld, boxMem. cbn [arr li lj lk].
      destruct f; try discriminate E.
      1,2: destruct ((k =? 1) || (k =? 4))%Z eqn:B; [right; split; reflexivity|left];
        apply orb_false_iff in B; destruct B as [B1 B2]; apply Z.eqb_neq in B1, B2;
        (split; [reflexivity|split; [lra|]]); intros F TF (N & O); rewrite T in TF; rewrite G in O; destruct F; try discriminate TF; cbn [face_axis] in O; lia.
      destruct ((i =? 2) && (j =? 2))%Z; [right; split; reflexivity|left].
      split; [reflexivity|split; [lra|]]. intros F TF (N & O). rewrite T in TF. destruct F; try discriminate TF; cbn [face_axis fld_axis] in N; congruence.
    + intros f i j k E _. unfold gamma, boxMem. cbn [arr]. lra.
    + intros a n _. unfold de, ide, boxMem. cbn [arr li]. destruct a; [destruct (n =? 2)%Z; lra|lra|lra].
    + intros a n _. unfold dh, idh, boxMem. cbn [arr li]. lra.
    + intros a P. rewrite T in P. destruct a; try discriminate P. split.
      * constructor; [|intros; reflexivity|reflexivity].
        intros X f l [->|[->| ->]] IF SA; [reflexivity| |reflexivity].
        unfold on, wa, boxMem. destruct f; reflexivity.
      * intros f l IF SA.
        replace (gobox boxCfg (face_lo YDIR)) with 1%Z by (symmetry; apply (G YLO)). replace (gobox boxCfg (face_hi YDIR)) with 4%Z by (symmetry; apply (G YHI)).
        unfold on, wa, boxMem. destruct f; reflexivity.
    + intros F _ l (f & Ef & E & IB) OK. unfold boxMem. rewrite !arr_setc, Ef, T. unfold sgn, srcIdx, ghostIdx, wrapIdx, insideIdx. rewrite T.
      destruct F, f; try discriminate E; try discriminate IB; cbn [face_axis setc li lj lk is_lo vneg rArith]; rewrite ?G; try reflexivity; cbn; lra.
  - do 3 (split; [reflexivity|]). split; [vm_compute; intuition congruence|]. split; [reflexivity|].
    unfold boxvol, din, dh, de. cbn [is_E axis_eqb fld_axis]. rewrite !G. cbn [Z.eqb Pos.eqb orb face_lo face_hi]. unfold boxMem. cbn [arr li lj lk]. lra.
Qed.

Definition c80lines : Axis -> carr R := fun a => mkArr 3 (fun i => match a with YDIR => IZR i | _ => IZR (i * i) end).
Lemma c80_media c (co : nat -> Coef R) : setupCfg 2 2 2 boxReg = Some c ->
  forall X f l, X = AAlpha \/ X = ABeta \/ X = AGamma -> in_face YDIR f -> sample c YDIR f l ->
  let r := run rArith (mediaProgPml co c (fun _ => TW_PEC) (fun _ => BT_PEC) c62scene) (fun _ => 0) in
  r (on YDIR (X f) (gobox c YLO) l) = r (on YDIR (X f) (gobox c YHI) l).
Proof.
  intros H X f l HX' IF SA. injection H as <-.
  unfold sample, inp, inl in SA. unfold on, wa in *. cbn [setc li lj lk] in *.
  destruct f; cbn [in_face is_E fld_axis] in IF; try congruence; try discriminate IF;
  match type of SA with (?a <= _ <= ?b)%Z /\ _ /\ (?c <= _ <= ?d)%Z =>
    let a' := eval vm_compute in a in let b' := eval vm_compute in b in let c' := eval vm_compute in c in let d' := eval vm_compute in d in
    change a with a' in SA; change b with b' in SA; change c with c' in SA; change d with d' in SA end;
  destruct SA as (SX & _ & SZ); destruct l as [x i j k]; cbn [li lj lk arr] in *.
  all: assert (HI : (i = 1 \/ i = 2 \/ i = 3)%Z) by lia; assert (HK : (k = 1 \/ k = 2 \/ k = 3)%Z) by lia;
    clear SX SZ; destruct HI as [->|[->| ->]]; destruct HK as [->|[->| ->]];
    destruct HX' as [->|[->| ->]]; vm_compute; reflexivity.
Qed.
Lemma c80_idh nx ny nz reg c lines garbage cn e dt : setupCfg nx ny nz reg = Some c ->
  gibox c YLO = 1%Z -> gibox c YHI = 3%Z -> gobox c YLO = 1%Z -> gobox c YHI = 3%Z -> numCells c YDIR = 4%Z -> numLines c YDIR = 3%Z ->
  has_lines c lines -> increasing c lines -> cell lines YDIR 0 = cell lines YDIR 1 -> initCellEdges c lines garbage cn = Some (e, dt) ->
  adat (eIdh (e YDIR)) (gobox c YLO) = adat (eIdh (e YDIR)) (gobox c YHI).
Proof.
  intros H G1 G2 G3 G4 NC NL HL IN CC HE.
  destruct (C23_edge_lengths _ _ _ _ _ H lines garbage cn HL) as (e2 & dt2 & HE2 & CE). rewrite HE in HE2. injection HE2 as <- <-.
  destruct (CE YDIR) as (_ & D1 & D2 & D3 & MID & PP & _). cbn [face_lo face_hi] in *.
  rewrite G1, G2, NC, NL in *. rewrite G3, G4.
  destruct (PP IN 1%Z ltac:(lia)) as (_ & P1 & _ & I1). destruct (PP IN 3%Z ltac:(lia)) as (_ & P3 & _ & I3).
  assert (Q : adat (eDh (e YDIR)) 1 = adat (eDh (e YDIR)) 3).
  { rewrite !MID by lia. rewrite (D2 (1 - 1)%Z), (D1 1%Z), (D1 (3 - 1)%Z), (D3 3%Z) by lia.
    unfold cell in *. repeat match goal with |- context [line lines YDIR ?x] => let y := eval vm_compute in x in progress change (line lines YDIR x) with (line lines YDIR y) end.
    repeat match type of CC with context [line lines YDIR ?x] => let y := eval vm_compute in x in progress change (line lines YDIR x) with (line lines YDIR y) in CC end. lra. }
  rewrite Q in I1. apply (Rmult_eq_reg_l (adat (eDh (e YDIR)) 3)); lra.
Qed.
(** electric field values 1 outside conductors, no magnetic field *)
Lemma c80_mem c e (r : mem R) :
  (forall f, outerSurfaceType c f = match f with XLO | XHI => BT_PMC | YLO | YHI => BT_PERIODIC | _ => BT_PEC end) ->
  adat (eIdh (e YDIR)) (gobox c YLO) = adat (eIdh (e YDIR)) (gobox c YHI) ->
  (forall X f l, X = AAlpha \/ X = ABeta \/ X = AGamma -> in_face YDIR f -> sample c YDIR f l ->
    r (on YDIR (X f) (gobox c YLO) l) = r (on YDIR (X f) (gobox c YHI) l)) ->
  exists m, (forall l, coefLoc l -> m l = r l) /\ edges_in c e m /\ fits_box c m /\
  forall f i j k, is_E f = true -> beta m f i j k <> 0 -> fld m f i j k = 1.
Proof.
  intros T ID PD.
  exists (fun l => match arr l with
       | AAlpha _ | ABeta _ | AGamma _ => r l
       | AF f => if is_E f then if Req_EM_T (r (L (ABeta f) (li l) (lj l) (lk l))) 0 then 0 else 1 else 0
       | ADe a => adat (eDe (e a)) (li l) | AIde a => adat (eIde (e a)) (li l)
       | ADh a => adat (eDh (e a)) (li l) | AIdh a => adat (eIdh (e a)) (li l)
       | _ => 0 end).
  split. { intros l; unfold coefLoc; destruct (arr l); tauto. }
  split. { intros a n Hn. repeat split; reflexivity. }
  split.
  - constructor.
    + intros f i j k E _ B. unfold fld, beta in *. cbn [arr li lj lk] in *. rewrite E. destruct (Req_EM_T _ 0); [reflexivity|contradiction].
    + intros a P. rewrite T in P. destruct a; try discriminate P. split.
      * constructor.
        -- intros X f l HX' IF SA. pose proof (PD X f l HX' IF SA) as Q.
           destruct HX' as [->|[->| ->]]; exact Q.
        -- reflexivity.
        -- exact ID.
      * intros f l IF SA. unfold on, wa. cbn [arr]. destruct (is_E f) eqn:E; [|reflexivity].
        pose proof (PD ABeta f l (or_intror (or_introl eq_refl)) IF SA) as Q. unfold on, wa in Q. cbn [li lj lk setc face_lo face_hi] in *.
        rewrite Q. reflexivity.
    + intros F _ l (f & Ef & E & _) _.
      assert (X : forall n, arr (setc (face_axis F) n l) = AF f) by (intros; rewrite arr_setc; exact Ef).
      rewrite !X, E, T. unfold sgn. destruct F; cbn; lra.
  - intros f i j k E N. unfold fld, beta in *. cbn [arr li lj lk] in *. rewrite E. destruct (Req_EM_T _ 0); [contradiction|reflexivity].
Qed.
Example C80_nonvacuous : exists c, setupCfg 2 2 2 boxReg = Some c /\ box_walls c /\
  has_lines c c80lines /\ increasing c c80lines /\ courantOf (Some (1/2)) = Some (1/2) /\
  exists e dt mreg, initCellEdges c c80lines (fun _ => 0) (1/2) = Some (e, dt) /\
  parseMTs initMedReg c62cards = Some mreg /\ (forall k it, getItem mreg k = Some it -> m_type (idata it) <> MT_DEBYE) /\
  accepted c mreg initWireReg initBoundaryReg c62scene /\
  exists m, (forall l, coefLoc l -> m l = run rArith (mediaProgPml (initMedia eps0 mu0 dt mreg) c (fun _ => TW_PEC) (fun _ => BT_PEC) c62scene) (fun _ => 0) l) /\
  edges_in c e m /\ fits_box c m /\
  (forall f i j k, is_E f = true -> beta m f i j k <> 0 -> fld m f i j k = 1) /\ inl (gfolim c EZ) 3 3 2.
Proof.
  eexists. split; [reflexivity|]. match goal with |- context [has_lines ?x _] => set (c := x) end.
  assert (H : setupCfg 2 2 2 boxReg = Some c) by reflexivity.
  assert (T : forall f, outerSurfaceType c f = match f with XLO | XHI => BT_PMC | YLO | YHI => BT_PERIODIC | _ => BT_PEC end) by (intros []; reflexivity).
  assert (HL : has_lines c c80lines) by (intros []; reflexivity).
  split; [intros F; rewrite T; destruct F; auto|]. split; [exact HL|].
  assert (INC : increasing c c80lines).
  { intros a i Hi. unfold line, c80lines. cbn [adat]. assert (numLines c a = 3)%Z as E by (destruct a; reflexivity). rewrite E in Hi.
    pose proof (Z.square_nonneg i). destruct a; apply IZR_lt; lia. }
  split; [exact INC|].
  split. { unfold courantOf, parseCN, initSimulation. destruct (Rge_dec (1/2) 1); [lra|reflexivity]. }
  destruct (C23_edge_lengths _ _ _ _ _ H c80lines (fun _ => 0) (1/2) HL) as (e & dt & HE & CE).
  exists e, dt. eexists. split; [exact HE|]. split.
  { unfold c62cards. cbn [parseMTs mt_name mt_type mt_vals mt_file parseMT mtypeOf String.eqb Ascii.eqb Bool.eqb].
    unfold simpleOk, ltb. cbn [nthR nth List.length Nat.leb andb].
    destruct (Rlt_dec 4 1); [lra|]. destruct (Rlt_dec (1/2) 0); [lra|]. cbn [orb negb]. reflexivity. }
  split. { intros [|[|[|k]]] it G; try (injection G as <-; discriminate). destruct k; discriminate G. }
  split. { split; [|split; intros ? []]. intros b [<-|[]]. exists "glass"%string, (list_ascii_of_string "111111"). split; [discriminate|reflexivity]. }
  match goal with |- exists m, (forall l, coefLoc l -> m l = ?r l) /\ _ => destruct (c80_mem c e r T) as (m & A & B & D & F) end.
  - exact (c80_idh _ _ _ _ c c80lines (fun _ => 0) (1/2) e dt H eq_refl eq_refl eq_refl eq_refl eq_refl eq_refl HL INC ltac:(unfold cell, line, c80lines; cbn [adat]; repeat match goal with |- context [IZR ?x] => let y := eval vm_compute in x in progress change (IZR x) with (IZR y) end; lra) HE).
  - intros X f l. apply (c80_media c (initMedia eps0 mu0 dt _) H X f l).
  - exists m. split; [exact A|]. split; [exact B|]. split; [exact D|]. split; [exact F|]. vm_compute; repeat split; congruence.
Qed.
Print Assumptions C80_energy_conserved.
Print Assumptions C80_balance.
Print Assumptions C80_bounded.
Print Assumptions C80_stable.
