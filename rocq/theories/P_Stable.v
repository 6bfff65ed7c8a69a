(** C62: the time stepping is stable in every closed passive cavity. *)
From Coq Require Import ZArith List Bool Lia Reals Lra String.
From Verif Require Import Types Lang LangProofs BBox Grid Setup SpecGrid SetupProofs Step StepShape StepBounds
  SpecCone StepValue SpecPhys SpecEnergy Energy SpecGeom SpecStable Stable StableStep CArr Edges SpecEdges EdgesProofs
  Medium SpecMedium MediumProofs PmlProfile Media MediaProofs SpecMedia P_Setup P_Step P_Energy P_Medium P_Grid P_Media.
Import ListNotations.
Open Scope R_scope.

Lemma after_passive c (W : wf c) m n : passive_cavity c m -> passive_cavity c (after c n m) /\ same_data m (after c n m).
Proof.
  intros PC. pose proof (pc_walls c m PC) as P. revert m PC. induction n; intros m PC.
  - split; [exact PC|]. intros l _. reflexivity.
  - rewrite after_S. destruct (IHn (step rArith c m)) as (A & B); [apply (passive_step c W P); exact PC|].
    split; [exact A|]. intros l K. rewrite B by exact K. apply same_step. exact K.
Qed.
Lemma after_step c n m : after c (S n) m = step rArith c (after c n m).
Proof.
  revert m. induction n; intros m; [rewrite after_S; reflexivity|].
  rewrite (after_S c (S n) m), IHn, <- (after_S c n m). reflexivity.
Qed.

(** The energy of the fields stays below a fixed multiple of its initial value,
    for every mesh size and spacing, every distribution of passive media and
    perfect conductors, every initial field and every number of steps, if the
    Courant number is below 1. *)
Theorem C62_bounded : forall nx ny nz reg c, setupCfg nx ny nz reg = Some c ->
  forall m q dt e0 u0 mn, passive_cavity c m -> courant_ok c m q dt e0 u0 mn -> 0 < q < 1 ->
  0 <= fieldEnergy c m /\ forall n, fieldEnergy c (after c n m) <= (1 + q) / (1 - q) * fieldEnergy c m.
Proof.
  intros nx ny nz reg c H m q dt e0 u0 mn PC CO Q. apply setup_wf in H. rename H into W. pose proof (pc_walls c m PC) as P.
  assert (F0 : 0 <= fieldEnergy c m).
  { change (fieldEnergy c m) with (nE c m (fld m) + nH c m (fld m)). apply Rplus_le_le_0_compat.
    - eapply nE_nonneg; eauto. intros f i j k E Hl B. destruct (pc_E c m PC f i j k E Hl) as [(_ & N & _)|[_ Z]]; [lra|exact Z].
    - eapply nH_nonneg; eauto. }
  split; [exact F0|]. intros n.
  assert (D : stored c (after c n m) <= stored c m).
  { induction n; [apply Rle_refl|]. rewrite after_step. destruct (after_passive c W m n PC) as (PN & SN).
    pose proof (stored_step c W P _ PN) as X.
    pose proof (loss_nonneg c _ _ PN (same_step c (after c n m)) (passive_step c W P _ PN)). lra. }
  destruct (after_passive c W m n PC) as (PN & SN).
  pose proof (stored_equiv c W P _ q dt e0 u0 mn PN (courant_same c _ _ q dt e0 u0 mn SN CO) ltac:(lra)) as B1.
  pose proof (stored_equiv c W P m q dt e0 u0 mn PC CO ltac:(lra)) as B0.
  pose proof (Rle_abs (stored c m - fieldEnergy c m)) as A0.
  pose proof (Rle_abs (- (stored c (after c n m) - fieldEnergy c (after c n m)))) as A1. rewrite Rabs_Ropp in A1.
  apply (Rmult_le_reg_l (1 - q)); [lra|].
  replace ((1 - q) * ((1 + q) / (1 - q) * fieldEnergy c m)) with ((1 + q) * fieldEnergy c m) by (field; lra). lra.
Qed.

(** Energy balance: what a step removes from the energy between steps is exactly
    the power dissipated in the conductivity, sigma E^2 with E averaged over the
    step.  Without losses this is C13. *)
Theorem C62_balance : forall nx ny nz reg c, setupCfg nx ny nz reg = Some c ->
  forall m, passive_cavity c m -> forall n,
  leapEnergy c (after c (S n) m) (after c (S (S n)) m) = leapEnergy c (after c n m) (after c (S n) m)
    - dissipated c (after c (S n) m) (after c (S (S n)) m) /\
  0 <= dissipated c (after c (S n) m) (after c (S (S n)) m).
Proof.
  intros nx ny nz reg c H m PC n. apply setup_wf in H. rename H into W. pose proof (pc_walls c m PC) as P.
  destruct (after_passive c W m n PC) as (P0 & _). destruct (after_passive c W m (S n) PC) as (P1 & _). destruct (after_passive c W m (S (S n)) PC) as (P2 & _).
  pose proof (stored_leap c W P _ P0) as L0. rewrite <- after_step in L0.
  pose proof (stored_leap c W P _ P1) as L1. rewrite <- after_step in L1.
  pose proof (stored_step c W P _ P1) as S. rewrite <- after_step in S. split.
  - rewrite <- L0, <- L1. exact S.
  - apply (loss_nonneg c _ _ P1); [rewrite (after_step c (Datatypes.S n)); apply same_step|exact P2].
Qed.

(** ** Single values *)
Lemma sumZ_single lo hi f x : (forall x, (lo <= x <= hi)%Z -> 0 <= f x) -> (lo <= x <= hi)%Z -> f x <= sumZ lo hi f.
Proof.
  intros P Hx. unfold sumZ. assert (I : In x (zrange lo hi)) by (apply in_zrange; exact Hx).
  assert (P' : forall y, In y (zrange lo hi) -> 0 <= f y) by (intros y Hy; apply P; apply in_zrange in Hy; exact Hy).
  clear P Hx. induction (zrange lo hi) as [|y l IH]; [destruct I|]. cbn [map fold_right].
  assert (0 <= fold_right Rplus 0 (map f l)).
  { clear - P'. induction l as [|z l IH]; cbn [map fold_right]; [lra|]. pose proof (P' z (or_intror (or_introl eq_refl))).
    assert (0 <= fold_right Rplus 0 (map f l)); [|lra]. apply IH. intros w [->|Hw]; apply P'; [left|right; right]; auto. }
  destruct I as [->|I]; [lra|]. pose proof (P' y (or_introl eq_refl)). pose proof (IH I (fun z Hz => P' z (or_intror Hz))). lra.
Qed.
Lemma sum3_single lim g i j k : (forall i j k, inl lim i j k -> 0 <= g i j k) -> inl lim i j k -> g i j k <= sum3 lim g.
Proof.
  intros P (A & B & C). unfold sum3.
  refine (Rle_trans _ _ _ _ (sumZ_single _ _ (fun i => sumZ _ _ (fun j => sumZ _ _ (fun k => g i j k))) i _ A)).
  - refine (Rle_trans _ _ _ _ (sumZ_single _ _ (fun j => sumZ _ _ (fun k => g i j k)) j _ B)).
    + apply (sumZ_single _ _ (fun k => g i j k) k); [|exact C]. intros; apply P; unfold inl; auto.
    + intros. apply sumZ_nonneg. intros. apply P; unfold inl; auto.
  - intros. apply sumZ_nonneg. intros. apply sumZ_nonneg. intros. apply P; unfold inl; auto.
Qed.
Lemma energy_terms c (W : wf c) m : passive_cavity c m -> forall f i j k, inl (gfolim c f) i j k ->
  0 <= vol m f i j k * (if is_E f then eps_dt m f i j k else mu_dt m f i j k) * (fld m f i j k * fld m f i j k).
Proof.
  intros PC f i j k Hl. pose proof (vol_pos c m f i j k PC Hl) as V. pose proof (Rle_0_sqr (fld m f i j k)) as Q. unfold Rsqr in Q.
  destruct (is_E f) eqn:E.
  - destruct (pc_E c m PC f i j k E Hl) as [(A & B & _)|[_ Z]]; [|rewrite Z; lra].
    apply Rmult_le_pos; [|exact Q]. apply Rmult_le_pos; [lra|]. unfold eps_dt. apply Rlt_le, Rdiv_lt_0_compat; lra.
  - apply Rmult_le_pos; [|exact Q]. apply Rmult_le_pos; [lra|]. unfold mu_dt. apply Rlt_le, Rinv_0_lt_compat. apply (pc_H c m PC); auto.
Qed.
Lemma energy_single c (W : wf c) m : passive_cavity c m -> forall f i j k, inl (gfolim c f) i j k ->
  vol m f i j k * (if is_E f then eps_dt m f i j k else mu_dt m f i j k) * (fld m f i j k * fld m f i j k) <= fieldEnergy c m.
Proof.
  intros PC f i j k Hl. pose proof (energy_terms c W m PC) as T.
  assert (N : forall f, 0 <= sum3 (gfolim c f) (fun i j k => vol m f i j k * (if is_E f then eps_dt m f i j k else mu_dt m f i j k) * (fld m f i j k * fld m f i j k))).
  { intros g. apply sumZ_nonneg; intros. apply sumZ_nonneg; intros. apply sumZ_nonneg; intros. apply T. unfold inl; auto. }
  pose proof (sum3_single (gfolim c f) _ i j k (T f) Hl) as S. cbn beta in S.
  pose proof (N EX) as N1. pose proof (N EY) as N2. pose proof (N EZ) as N3. pose proof (N HX) as N4. pose proof (N HY) as N5. pose proof (N HZ) as N6.
  cbn [is_E] in N1, N2, N3, N4, N5, N6. unfold fieldEnergy, sumE, sumH.
  destruct f; cbn [is_E] in *; lra.
Qed.
(** bounded energy bounds every single value *)
Lemma value_bounded c (W : wf c) m K : passive_cavity c m -> (forall n, fieldEnergy c (after c n m) <= K) ->
  forall f i j k, inl (gfolim c f) i j k -> exists B, forall n, Rabs (fld (after c n m) f i j k) <= B.
Proof.
  intros PC HK f i j k Hl.
  set (w := vol m f i j k * (if is_E f then eps_dt m f i j k else mu_dt m f i j k)).
  assert (CASE : 0 < w \/ (is_E f = true /\ beta m f i j k = 0)).
  { pose proof (vol_pos c m f i j k PC Hl) as V. unfold w. destruct (is_E f) eqn:E.
    - destruct (pc_E c m PC f i j k E Hl) as [(A & B & _)|[Z _]]; [|right; auto]. left.
      apply Rmult_lt_0_compat; [exact V|]. unfold eps_dt. apply Rdiv_lt_0_compat; lra.
    - left. apply Rmult_lt_0_compat; [exact V|]. unfold mu_dt. apply Rinv_0_lt_compat. apply (pc_H c m PC); auto. }
  destruct CASE as [WP|(E & BZ)].
  - exists (K / w + 1). intros n. destruct (after_passive c W m n PC) as (PN & SD).
    pose proof (energy_single c W _ PN f i j k Hl) as S. rewrite (same_vol _ _ _ _ _ _ SD), (same_eps _ _ _ _ _ _ SD), (same_mu _ _ _ _ _ _ SD) in S.
    fold w in S. set (x := fld (after c n m) f i j k) in *.
    assert (X : x * x <= K / w).
    { apply Rmult_le_reg_l with w; [exact WP|]. replace (w * (K / w)) with K by (field; lra). pose proof (HK n). lra. }
    assert (A : Rabs x * Rabs x = x * x) by (rewrite <- Rabs_mult; apply Rabs_pos_eq, Rle_0_sqr).
    pose proof (Rle_0_sqr (Rabs x - 1 / 2)) as Y. unfold Rsqr in Y.
    pose proof (Rle_0_sqr (Rabs x - 1)) as Y2. unfold Rsqr in Y2. lra.
  - exists 0. intros n. destruct (after_passive c W m n PC) as (PN & SD).
    destruct (pc_E c _ PN f i j k E Hl) as [(_ & B & _)|[_ Z]].
    + destruct (same_coef _ _ f i j k SD) as (_ & Q & _). rewrite Q, BZ in B. lra.
    + rewrite Z, Rabs_R0. lra.
Qed.

(** ** From the cards of a mesh *)
Definition coefLoc (l : Loc) : Prop := match arr l with AAlpha _ | ABeta _ | AGamma _ => True | _ => False end.

Lemma eps0_mu0 : 0 < eps0 /\ 0 < mu0 /\ eps0 * mu0 = / (c0 * c0).
Proof.
  assert (M : 0 < mu0) by (unfold mu0; pose proof PI_RGT_0; lra).
  assert (C : 0 < c0) by (unfold c0; lra).
  unfold eps0. split; [|split; [exact M|]].
  - apply Rdiv_lt_0_compat; [lra|]. assert (X : 0 < mu0 * c0) by (apply Rmult_lt_0_compat; [exact M|exact C]). revert X C. generalize c0. intros y X C. apply Rmult_lt_0_compat; [exact X|exact C].
  - field. split; lra.
Qed.

(** coefficients of every medium a scene can use *)
Definition good_media (mreg : MReg) : Prop := forall n it, nth_error mreg n = Some it ->
  n = 0%nat \/ n = 1%nat \/ (n <> 0%nat /\ n <> 1%nat /\ paramOk (idata it) /\ (m_type (idata it) <> MT_DEBYE -> m_poles (idata it) = [])).
Lemma medium_ok mreg dt n : good_media mreg -> 0 < dt ->
  (forall k it, getItem mreg k = Some it -> m_type (idata it) <> MT_DEBYE) ->
  let co := initMedia eps0 mu0 dt mreg n in
  (n = 1%nat \/ (-1 < calpha co <= 1 /\ 0 < cbeta co /\ eps0 / dt <= (1 + calpha co) / (2 * cbeta co))) /\
  (n = 1%nat -> cbeta co = 0) /\
  0 < cgamma co /\ mu0 / dt <= / cgamma co.
Proof.
  intros HP DT ND co. destruct eps0_mu0 as (E0 & M0 & _).
  assert (FS : co = mkCoef 1 (dt / eps0) (dt / mu0) -> (-1 < calpha co <= 1 /\ 0 < cbeta co /\ eps0 / dt <= (1 + calpha co) / (2 * cbeta co)) /\ 0 < cgamma co /\ mu0 / dt <= / cgamma co).
  { intros ->. cbn [calpha cbeta cgamma]. assert (0 < dt / eps0) by (apply Rdiv_lt_0_compat; lra). assert (0 < dt / mu0) by (apply Rdiv_lt_0_compat; lra).
    repeat split; try lra; right; field; lra. }
  destruct n as [|[|n]].
  - destruct (FS eq_refl) as (A & B & C). repeat split; try tauto. intros; discriminate.
  - split; [left; reflexivity|]. split; [reflexivity|]. unfold co. cbn [initMedia cgamma].
    assert (0 < dt / mu0) by (apply Rdiv_lt_0_compat; lra). split; [lra|]. right; field; lra.
  - destruct (nth_error mreg (S (S n))) as [it|] eqn:N.
    2:{ destruct FS as (A & B & C); [unfold co, initMedia; rewrite N; reflexivity|]. repeat split; try tauto. intros; discriminate. }
    destruct (HP _ _ N) as [X|[X|(_ & _ & PO & NP)]]; try discriminate X.
    specialize (NP (ND _ _ N)).
    assert (CO : co = calcCoeffFromParam eps0 mu0 dt (idata it)) by (unfold co, initMedia; rewrite N; reflexivity).
    pose proof (simple_coef eps0 mu0 dt E0 M0 DT (idata it) NP PO) as S. cbv zeta in S. rewrite <- CO in S.
    destruct S as (A & B & G & _). destruct PO as (P1 & P2 & P3).
    split; [right; split; [exact A|split; [exact B|]]|split; [intros; discriminate|split; [exact G|]]].
    + rewrite CO. unfold calcCoeffFromParam. rewrite NP. cbn [dsum fold_left calpha cbeta].
      set (e := m_eps (idata it)) in *. set (s := m_sigma (idata it)) in *.
      assert (DD : 0 < 2 * e * eps0 + 2 * 0 * dt + dt * s).
      { assert (0 < e * eps0) by (apply Rmult_lt_0_compat; lra). assert (0 <= dt * s) by (apply Rmult_le_pos; lra). lra. }
      replace 2.0 with 2 by lra.
      clearbody e s. clear - P1 P2 DD E0 DT. revert E0 DD. generalize eps0. intros ep E0 DD.
      assert (X : (1 + (2 * e * ep + 2 * 0 * dt - dt * s) / (2 * e * ep + 2 * 0 * dt + dt * s)) / (2 * (2 * dt / (2 * e * ep + 2 * 0 * dt + dt * s)))
        = e * (ep / dt)).
      { set (d := 2 * e * ep + 2 * 0 * dt + dt * s) in *. replace (2 * e * ep + 2 * 0 * dt - dt * s) with (4 * e * ep - d) by (unfold d; ring).
        clearbody d. field. lra. }
      rewrite X. assert (0 < ep / dt) by (apply Rdiv_lt_0_compat; lra). nra.
    + rewrite CO. unfold calcCoeffFromParam. cbn [cgamma]. set (u := m_mu (idata it)) in *.
      replace (/ (dt / (u * mu0))) with (u * (mu0 / dt)) by (field; lra).
      assert (0 < mu0 / dt) by (apply Rdiv_lt_0_compat; lra). nra.
Qed.

Section Cards.
Variables (nx ny nz : Z) (reg : BReg) (c : Cfg).
Hypothesis H : setupCfg nx ny nz reg = Some c.
Hypothesis PEC : forall f, outerSurfaceType c f = BT_PEC.
Variables (mreg : MReg) (sc : Scene).
Hypothesis HA : scene_ok c sc.
Variables (wt : nat -> WType) (bt : nat -> BType) (dt : R) (m0 m : mem R).
Hypothesis DT : 0 < dt.
Hypothesis MC : forall l, coefLoc l -> m l = run rArith (mediaProgPml (initMedia eps0 mu0 dt mreg) c wt bt sc) m0 l.

Let W : wf c := setup_wf _ _ _ _ _ H.

Lemma coef_at f i j k : inl (gfolim c f) i j k ->
  exists n, let co := initMedia eps0 mu0 dt mreg n in
  (on_wall c f i j k -> is_E f = true -> n = 1%nat) /\
  if is_E f then alpha m f i j k = calpha co /\ beta m f i j k = cbeta co else gamma m f i j k = cgamma co.
Proof.
  intros Hl.
  assert (NL : forall f, outerSurfaceNumLayers c f = 0%Z) by (intros g; apply (wf_nopml c W); rewrite PEC; discriminate).
  assert (GG : forall f, gibox c f = gobox c f) by (intros; apply gibox_gobox; auto).
  assert (RG : forall a, (mesh_lo c a <= SpecGeom.coord i j k a <= mesh_hi c f a)%Z).
  { intros a. unfold mesh_lo, mesh_hi. unfold inl, gfolim, setFieldLimits in Hl.
    destruct f, a; cbn [SpecGeom.coord staggered is_E fld_axis axis_eqb negb face_lo face_hi fieldIsInBoundary] in *; rewrite !GG; lia. }
  assert (NE : forall a n, (mesh_lo c a <= n <= mesh_hi c f a)%Z -> nearest c f a n = n) by (intros; unfold nearest; lia).
  pose proof (RG XDIR) as RX. pose proof (RG YDIR) as RY. pose proof (RG ZDIR) as RZ. cbn [SpecGeom.coord] in RX, RY, RZ.
  destruct (continued_scene nx ny nz reg c H (fun a => or_intror (ltac:(rewrite PEC; discriminate) : outerSurfaceType c (face_lo a) <> BT_PML))
    sc HA R rArith (initMedia eps0 mu0 dt mreg) wt bt m0 f i j k Hl (or_introl RX) (or_introl RY) (or_introl RZ)
    (fun a => or_intror (proj1 (RG a)))) as (r & LP & V).
  rewrite !NE in LP by assumption. cbv zeta in V.
  exists (match r with Some n => n | None => 0%nat end). cbv zeta. split.
  - intros O E.
    assert (X : exists face, on_face c face f i j k).
    { unfold on_wall in O. unfold on_face. destruct O as [[N O]|[[N O]|[N O]]]; destruct O as [O|O];
      [exists XLO|exists XHI|exists YLO|exists YHI|exists ZLO|exists ZHI]; cbn [face_axis SpecGeom.coord]; auto. }
    destruct X as (face & OF). pose proof (wall_painted c wt bt sc face f i j k W (or_introl (PEC face)) OF Hl) as LW.
    rewrite (C18_last_paint_unique _ _ _ _ _ _ _ LP LW). reflexivity.
  - unfold alpha, beta, gamma. destruct (is_E f) eqn:E.
    + rewrite !MC by exact I. exact V.
    + rewrite !MC by exact I. exact V.
Qed.
End Cards.

(** update coefficients of a passive medium or a perfect conductor, not faster than vacuum *)
Definition good_coef (dt : R) (co : Coef R) : Prop :=
  (cbeta co = 0 \/ (-1 < calpha co <= 1 /\ 0 < cbeta co /\ eps0 / dt <= (1 + calpha co) / (2 * cbeta co))) /\
  0 < cgamma co /\ mu0 / dt <= / cgamma co.
Definition coefs_ok (c : Cfg) (dt : R) (m : mem R) : Prop := forall f i j k, inl (gfolim c f) i j k ->
  exists co, good_coef dt co /\ (on_wall c f i j k -> is_E f = true -> cbeta co = 0) /\
  if is_E f then alpha m f i j k = calpha co /\ beta m f i j k = cbeta co else gamma m f i j k = cgamma co.
Lemma stable_coefs : forall nx ny nz reg c, setupCfg nx ny nz reg = Some c -> (forall f, outerSurfaceType c f = BT_PEC) ->
  forall lines garbage card cn e dt, has_lines c lines -> increasing c lines -> courantOf card = Some cn -> 0 < cn ->
  initCellEdges c lines garbage cn = Some (e, dt) ->
  0 < dt /\ forall m, coefs_ok c dt m -> edges_in c e m ->
  (forall f i j k, is_E f = true -> inl (gfolim c f) i j k -> beta m f i j k = 0 -> fld m f i j k = 0) ->
  cn < 1 /\
  (forall n, fieldEnergy c (after c n m) <= (1 + cn) / (1 - cn) * fieldEnergy c m) /\
  (forall f i j k, inl (gfolim c f) i j k -> exists B, forall n, Rabs (fld (after c n m) f i j k) <= B).
Proof.
  intros nx ny nz reg c H PEC lines garbage card cn e dt HL IN HC Pcn HE.
  pose proof H as W. apply setup_wf in W. destruct eps0_mu0 as (E0 & M0 & EM).
  assert (C1 : cn < 1).
  { unfold courantOf, parseCN, initSimulation in HC. destruct card as [x|].
    - destruct (Rge_dec x 1); [discriminate|]. injection HC as <-. lra.
    - destruct (Rlt_dec (-1) 0); [|lra]. injection HC as <-.
      pose proof (sqrt_lt_1 3 4). replace (sqrt 4) with 2 in *; [lra|]. symmetry. apply sqrt_lem_1; lra. }
  destruct (edges_run c lines garbage cn W HL) as (e' & dt' & E' & Edt & EA).
  rewrite E' in HE. injection HE as -> ->.
  assert (PM : forall a, 0 < eMin (e a)). { intros a. apply (axis_pos c lines garbage a (e a) W HL IN (EA a)). }
  rewrite (timeStep_limit cn _ PM) in Edt. unfold courant_limit in Edt.
  set (S := / (eMin (e XDIR) * eMin (e XDIR)) + / (eMin (e YDIR) * eMin (e YDIR)) + / (eMin (e ZDIR) * eMin (e ZDIR))) in *.
  assert (SP : 0 < S) by (apply lim_pos; apply PM). pose proof (sqrt_lt_R0 S SP) as SS.
  assert (CP : 0 < c0) by (unfold c0; lra).
  assert (DT : 0 < dt). { rewrite Edt. apply Rmult_lt_0_compat; [exact Pcn|]. apply Rdiv_lt_0_compat; [lra|]. apply Rmult_lt_0_compat; lra. }
  split; [exact DT|]. intros m CA ED ZB.
  destruct (C23_edge_lengths nx ny nz reg c H lines garbage cn HL) as (e2 & dt2 & E2 & CE).
  rewrite E' in E2. injection E2 as <- <-.
  assert (GG : forall f, gibox c f = gobox c f) by (intros; apply gibox_gobox; auto).
  assert (RN : forall a, (1 <= gobox c (face_lo a) /\ gobox c (face_hi a) < numCells c a)%Z).
  { intros a. cfg_facts c W. destruct a; cbn [face_lo face_hi] in *; unfold NUM_GHOST_CELLS in *; lia. }
  assert (PC : passive_cavity c m).
  { constructor.
    - exact PEC.
    - intros f i j k E Hl. destruct (CA f i j k Hl) as (co & GC & OW & V). rewrite E in V. destruct V as (-> & BE).
      destruct GC as ([N|(A & B & _)] & _).
      + right. rewrite BE. split; [exact N|]. apply ZB; auto. rewrite BE. exact N.
      + left. rewrite BE. split; [exact A|]. split; [exact B|]. intros O. rewrite (OW O E) in B. lra.
    - intros f i j k E Hl. destruct (CA f i j k Hl) as (co & GC & OW & V). rewrite E in V. rewrite V. apply GC.
    - intros a n Hn. pose proof (RN a). destruct (CE a) as (_ & _ & _ & _ & _ & PP & _).
      destruct (ED a n ltac:(lia)) as (-> & -> & _). destruct (PP IN n ltac:(lia)) as (P1 & P2 & P3 & P4). auto.
    - intros a n Hn. pose proof (RN a). destruct (CE a) as (_ & _ & _ & _ & _ & PP & _).
      destruct (ED a n ltac:(lia)) as (_ & _ & -> & ->). destruct (PP IN n ltac:(lia)) as (P1 & P2 & P3 & P4). auto.
    - intros a n Hn. pose proof (RN a). destruct (CE a) as (_ & _ & _ & _ & MID & _).
      destruct (ED a n ltac:(lia)) as (-> & _ & -> & _). destruct (ED a (n-1)%Z ltac:(lia)) as (-> & _). apply MID. lia. }
  assert (CO : courant_ok c m cn dt eps0 mu0 (fun a => eMin (e a))).
  { constructor.
    - auto.
    - intros f i j k E Hl NB. destruct (CA f i j k Hl) as (co & GC & _ & V). rewrite E in V. destruct V as (AL & BE). unfold eps_dt. rewrite AL, BE in *.
      destruct GC as ([N|(_ & _ & X)] & _); [exfalso; apply NB; exact N|exact X].
    - intros f i j k E Hl. destruct (CA f i j k Hl) as (co & GC & _ & V). rewrite E in V. unfold mu_dt. rewrite V. apply GC.
    - intros a n Hn. pose proof (RN a). destruct (CE a) as (_ & _ & _ & _ & _ & _ & MM). destruct (ED a n ltac:(lia)) as (-> & _). apply MM. lia.
    - fold S. rewrite EM. right. rewrite Edt.
      transitivity (cn * cn * (S / (sqrt S * sqrt S))); [field; split; lra|]. rewrite sqrt_sqrt by lra. field. lra. }
  destruct (C62_bounded nx ny nz reg c H m cn dt eps0 mu0 _ PC CO (conj Pcn C1)) as (F0 & BND).
  split; [exact C1|]. split; [exact BND|].
  apply (value_bounded c W m _ PC BND).
Qed.
Lemma media_coefs nx ny nz reg c : setupCfg nx ny nz reg = Some c -> (forall f, outerSurfaceType c f = BT_PEC) ->
  forall mreg sc, scene_ok c sc -> forall wt bt dt m0 m,
  (forall l, coefLoc l -> m l = run rArith (mediaProgPml (initMedia eps0 mu0 dt mreg) c wt bt sc) m0 l) ->
  good_media mreg -> 0 < dt -> (forall k it, getItem mreg k = Some it -> m_type (idata it) <> MT_DEBYE) -> coefs_ok c dt m.
Proof.
  intros H PEC mreg sc HA wt bt dt m0 m MC HPm DT ND f i j k Hl.
  destruct (coef_at nx ny nz reg c H PEC mreg sc HA wt bt dt m0 m MC f i j k Hl) as (n & OW & V). cbv zeta in V.
  exists (initMedia eps0 mu0 dt mreg n). destruct (medium_ok mreg dt n HPm DT ND) as (A & Z1 & B).
  split; [|split; [intros O E; apply Z1; exact (OW O E)|exact V]]. split; [|exact B]. destruct A as [N|A]; [left; exact (Z1 N)|right; exact A].
Qed.
Lemma stable_media : forall nx ny nz reg c, setupCfg nx ny nz reg = Some c -> (forall f, outerSurfaceType c f = BT_PEC) ->
  forall lines garbage card cn e dt, has_lines c lines -> increasing c lines -> courantOf card = Some cn -> 0 < cn ->
  initCellEdges c lines garbage cn = Some (e, dt) ->
  forall mreg, good_media mreg -> (forall k it, getItem mreg k = Some it -> m_type (idata it) <> MT_DEBYE) ->
  forall sc, scene_ok c sc ->
  forall wt bt m0 m,
  (forall l, coefLoc l -> m l = run rArith (mediaProgPml (initMedia eps0 mu0 dt mreg) c wt bt sc) m0 l) -> edges_in c e m ->
  (forall f i j k, is_E f = true -> inl (gfolim c f) i j k -> beta m f i j k = 0 -> fld m f i j k = 0) ->
  cn < 1 /\
  (forall n, fieldEnergy c (after c n m) <= (1 + cn) / (1 - cn) * fieldEnergy c m) /\
  (forall f i j k, inl (gfolim c f) i j k -> exists B, forall n, Rabs (fld (after c n m) f i j k) <= B).
Proof.
  intros nx ny nz reg c H PEC lines garbage card cn e dt HL IN HC Pcn HE mreg HPm ND sc HA wt bt m0 m MC ED ZB.
  destruct (stable_coefs nx ny nz reg c H PEC lines garbage card cn e dt HL IN HC Pcn HE) as (DT & ST). apply ST; auto.
  apply (media_coefs nx ny nz reg c H PEC mreg sc HA wt bt dt m0 m MC HPm DT ND).
Qed.
(** For every mesh with PEC outer walls, every set of mesh lines, every accepted
    Courant number, every list of media other than DEBYE ones, and every scene of
    blocks, wires and surfaces: whatever the fields are at some time (zero on
    perfect conductors), from then on, without sources, their energy never
    exceeds (1+CN)/(1-CN) times its value at that time, and every single field
    value stays bounded for ever. *)
Theorem C62_stable : forall nx ny nz reg c, setupCfg nx ny nz reg = Some c -> (forall f, outerSurfaceType c f = BT_PEC) ->
  forall lines garbage card cn e dt, has_lines c lines -> increasing c lines -> courantOf card = Some cn -> 0 < cn ->
  initCellEdges c lines garbage cn = Some (e, dt) ->
  forall cards mreg, parseMTs initMedReg cards = Some mreg -> (forall k it, getItem mreg k = Some it -> m_type (idata it) <> MT_DEBYE) ->
  forall M2 M3 (wires : Registry M2) (bounds : Registry M3) sc, accepted c mreg wires bounds sc ->
  forall wt bt m0 m,
  (forall l, coefLoc l -> m l = run rArith (mediaProgPml (initMedia eps0 mu0 dt mreg) c wt bt sc) m0 l) -> edges_in c e m ->
  (forall f i j k, is_E f = true -> inl (gfolim c f) i j k -> beta m f i j k = 0 -> fld m f i j k = 0) ->
  cn < 1 /\
  (forall n, fieldEnergy c (after c n m) <= (1 + cn) / (1 - cn) * fieldEnergy c m) /\
  (forall f i j k, inl (gfolim c f) i j k -> exists B, forall n, Rabs (fld (after c n m) f i j k) <= B).
Proof.
  intros nx ny nz reg c H PEC lines garbage card cn e dt HL IN HC Pcn HE cards mreg HPm ND M2 M3 wires bounds sc HA.
  apply (stable_media nx ny nz reg c H PEC lines garbage card cn e dt HL IN HC Pcn HE mreg (fun n it => reg_params cards mreg n it HPm) ND sc (accepted_ok _ _ _ _ _ HA)).
Qed.

(** The hypotheses of [C62_stable] are met by a 2 x 2 x 2 mesh with unequal
    cells, half filled with a lossy medium, with all magnetic field values and
    all electric ones outside conductors equal to 1. *)
Definition c62lines : Axis -> carr R := fun _ => mkArr 3 (fun i => IZR (i * i)).
Definition c62scene : Scene := mkScene [mkBlock (mkbox 0 1 0 2 0 2) 2 63] [] [].
Definition c62cards : list MTCard := [mkMT "glass"%string "SIMPLE"%string [4; 1/2] None].
Lemma c62_mem c e (r : mem R) : exists m, (forall l, coefLoc l -> m l = r l) /\ edges_in c e m /\
  (forall f i j k, is_E f = true -> inl (gfolim c f) i j k -> beta m f i j k = 0 -> fld m f i j k = 0) /\
  forall f i j k, is_E f = false \/ beta m f i j k <> 0 -> fld m f i j k = 1.
Proof.
  exists (fun l => match arr l with
       | AAlpha _ | ABeta _ | AGamma _ => r l
       | AF f => if is_E f then if Req_EM_T (r (L (ABeta f) (li l) (lj l) (lk l))) 0 then 0 else 1 else 1
       | ADe a => adat (eDe (e a)) (li l) | AIde a => adat (eIde (e a)) (li l)
       | ADh a => adat (eDh (e a)) (li l) | AIdh a => adat (eIdh (e a)) (li l)
       | _ => 0 end).
  split. { intros l; unfold coefLoc; destruct (arr l); tauto. }
  split. { intros a n Hn. repeat split; reflexivity. }
  split. { intros f i j k E _ B. unfold fld, beta in *. cbn [arr li lj lk] in *. rewrite E. destruct (Req_EM_T _ 0); [reflexivity|contradiction]. }
  intros f i j k [E|N]; unfold fld, beta in *; cbn [arr li lj lk] in *; [rewrite E; reflexivity|].
  destruct (is_E f); [|reflexivity]. destruct (Req_EM_T _ 0); [contradiction|reflexivity].
Qed.
Example C62_nonvacuous : exists c, setupCfg 2 2 2 pecReg = Some c /\ (forall f, outerSurfaceType c f = BT_PEC) /\
  has_lines c c62lines /\ increasing c c62lines /\ courantOf (Some (1/2)) = Some (1/2) /\
  exists e dt mreg, initCellEdges c c62lines (fun _ => 0) (1/2) = Some (e, dt) /\
  parseMTs initMedReg c62cards = Some mreg /\ (forall k it, getItem mreg k = Some it -> m_type (idata it) <> MT_DEBYE) /\
  accepted c mreg initWireReg initBoundaryReg c62scene /\
  exists m, (forall l, coefLoc l -> m l = run rArith (mediaProgPml (initMedia eps0 mu0 dt mreg) c (fun _ => TW_PEC) (fun _ => BT_PEC) c62scene) (fun _ => 0) l) /\
  edges_in c e m /\
  (forall f i j k, is_E f = true -> inl (gfolim c f) i j k -> beta m f i j k = 0 -> fld m f i j k = 0) /\
  (forall f i j k, is_E f = false \/ beta m f i j k <> 0 -> fld m f i j k = 1) /\ inl (gfolim c HZ) 1 1 1.
Proof.
  eexists. split; [reflexivity|]. set (c := mkCfg _ _ _ _ _ _ _ _ _) || match goal with |- context [has_lines ?x _] => set (c := x) end.
  assert (H : setupCfg 2 2 2 pecReg = Some c) by reflexivity.
  split; [intros []; reflexivity|]. assert (HL : has_lines c c62lines) by (intros []; reflexivity). split; [exact HL|].
  split. { intros a i Hi. unfold line, c62lines. cbn [adat]. apply IZR_lt. assert (numLines c a = 3)%Z as E by (destruct a; reflexivity). rewrite E in Hi.
    pose proof (Z.square_nonneg i). lia. }
  split. { unfold courantOf, parseCN, initSimulation. destruct (Rge_dec (1/2) 1); [lra|reflexivity]. }
  destruct (C23_edge_lengths _ _ _ _ _ H c62lines (fun _ => 0) (1/2) HL) as (e & dt & HE & _).
  exists e, dt. eexists. split; [exact HE|]. split.
  { unfold c62cards. cbn [parseMTs mt_name mt_type mt_vals mt_file parseMT mtypeOf String.eqb Ascii.eqb Bool.eqb].
    unfold simpleOk, ltb. cbn [nthR nth List.length Nat.leb andb].
    destruct (Rlt_dec 4 1); [lra|]. destruct (Rlt_dec (1/2) 0); [lra|]. cbn [orb negb]. reflexivity. }
  split. { intros [|[|[|k]]] it G; try (injection G as <-; discriminate). destruct k; discriminate G. }
  split. { split; [|split; intros ? []]. intros b [<-|[]]. exists "glass"%string, (list_ascii_of_string "111111"). split; [discriminate|reflexivity]. }
  match goal with |- exists m, (forall l, coefLoc l -> m l = ?r l) /\ _ => destruct (c62_mem c e r) as (m & A & B & D & F) end.
  exists m. split; [exact A|]. split; [exact B|]. split; [exact D|]. split; [exact F|]. vm_compute; repeat split; congruence.
Qed.
Print Assumptions C62_stable.
Print Assumptions C62_bounded.
Print Assumptions C62_balance.
