(** C34: first-order Mur boundaries. *)
From Coq Require Import ZArith List Bool Reals Lra Lia.
From Verif Require Import Types Lang LangProofs BBox Grid Setup SpecGeom SpecGrid BBoxProofs SetupProofs Pml Mur Ghost Step
  StepShape StepBounds StepCount StepOnce SpecCone StepValue SpecPhys PmlValue MurValue SpecYee CArr Edges SpecEdges EdgesProofs
  MurInit SpecMur P_Setup P_Step P_Grid P_Yee P_Pml.
Import ListNotations.
Open Scope R_scope.
Local Arguments Z.mul : simpl never.
Local Arguments Z.add : simpl never.
Local Arguments Z.sub : simpl never.

(** size of the mesh cell next to a face *)
Definition face_cell (c : Cfg) (lines : Axis -> carr R) (f : Face) : R :=
  cell lines (face_axis f) (if is_lo f then 0 else numLines c (face_axis f) - 2).

(** The coefficients: computing them reads inside the arrays; on a MUR face it
    is (v dt - d)/(v dt + d) with d the size of the cell next to the face, and
    for a stable step it lies strictly between -1 and 0. *)
Theorem C34_coefficients : forall nx ny nz reg c, setupCfg nx ny nz reg = Some c ->
  forall lines garbage card cn, has_lines c lines -> increasing c lines -> courantOf card = Some cn -> 0 < cn ->
  exists e dt, initCellEdges c lines garbage cn = Some (e, dt) /\
  forall face, exists z, initZeta c (fun a => eDe (e a)) dt face = Some z /\ -1 < z < 0 /\
  (outerSurfaceType c face = BT_MUR ->
   z = (c0 * dt - face_cell c lines face) / (c0 * dt + face_cell c lines face)).
Proof.
  intros nx ny nz reg c H lines g card cn HL IN CO CP.
  destruct (C22_courant_partial _ _ _ _ _ H lines g card cn HL IN CO CP) as (e & dt & E & DT & LIM & _).
  destruct (C23_edge_lengths _ _ _ _ _ H lines g cn HL) as (e' & dt' & E' & EA). rewrite E in E'. injection E' as <- <-.
  pose proof (setup_wf _ _ _ _ _ H) as W.
  exists e, dt. split; [exact E|]. intros face. set (a := face_axis face).
  destruct (EA a) as ((LA & _) & _ & VLO & VHI & _ & POS & _). specialize (POS IN).
  assert (G : (1 <= gibox c (face_lo a) /\ gibox c (face_lo a) < gibox c (face_hi a) <= gobox c (face_hi a) /\
              numLines c a = gibox c (face_hi a) - gibox c (face_lo a) + 1 /\ gibox c (face_hi a) < numCells c a)%Z).
  { cfg_facts c W. destruct a; cbn [face_lo face_hi] in *; unfold NUM_GHOST_CELLS in *; lia. }
  assert (NC : forall b, (1 <= numCells c b)%Z) by (intros b; cfg_facts c W; destruct b; lia).
  set (ix := murboxes c face (face_lo a)).
  assert (IX : (0 <= ix < numCells c a)%Z).
  { unfold ix, murboxes, getFaceOfBoundingBox. destruct (btype_eqb _ _); [|pose proof (NC a); lia].
    destruct face; cbn [a face_axis face_lo face_hi is_lo mkbox] in *; lia. }
  assert (D : initZeta c (fun a => eDe (e a)) dt face = Some ((c0 * dt - adat (eDe (e a)) ix) / (c0 * dt + adat (eDe (e a)) ix))).
  { unfold initZeta. fold a. fold ix. rewrite rd_ok by (rewrite LA; lia). reflexivity. }
  destruct (POS ix IX) as (P0 & _). set (d := adat (eDe (e a)) ix) in *.
  assert (CD : c0 * dt < d).
  { assert (Q : forall x y z, (0 <= x < numCells c XDIR)%Z -> (0 <= y < numCells c YDIR)%Z -> (0 <= z < numCells c ZDIR)%Z -> 
       let dx := adat (eDe (e XDIR)) x in let dy := adat (eDe (e YDIR)) y in let dz := adat (eDe (e ZDIR)) z in
       c0 * dt < dx /\ c0 * dt < dy /\ c0 * dt < dz).
    { intros x y z Hx Hy Hz dx dy dz. destruct (LIM x y z Hx Hy Hz) as (_ & LT). fold dx dy dz in LT.
      destruct (EA XDIR) as (_ & _ & _ & _ & _ & PX & _). destruct (PX IN x Hx) as (PX' & _). fold dx in PX'.
      destruct (EA YDIR) as (_ & _ & _ & _ & _ & PY & _). destruct (PY IN y Hy) as (PY' & _). fold dy in PY'.
      destruct (EA ZDIR) as (_ & _ & _ & _ & _ & PZ & _). destruct (PZ IN z Hz) as (PZ' & _). fold dz in PZ'.
      unfold courant_limit in LT. set (u := / (dx * dx) + / (dy * dy) + / (dz * dz)) in *.
      assert (IX2 : forall t, 0 < t -> 0 < / (t * t)) by (intros; apply Rinv_0_lt_compat; apply Rmult_lt_0_compat; auto).
      pose proof (IX2 dx PX'). pose proof (IX2 dy PY'). pose proof (IX2 dz PZ').
      assert (U : forall t, 0 < t -> / (t * t) <= u -> c0 * dt < t).
      { intros t Ht Hu. assert (SU : / t <= sqrt u).
        { rewrite <- (sqrt_square (/ t)) by (left; apply Rinv_0_lt_compat; auto). apply sqrt_le_1_alt.
          rewrite <- Rinv_mult. exact Hu. }
        assert (IT : 0 < / t) by (apply Rinv_0_lt_compat; auto).
        assert (C0 : 0 < c0) by (unfold c0; lra).
        assert (X : c0 * dt < / sqrt u).
        { replace (/ sqrt u) with (c0 * (1 / (c0 * sqrt u))) by (field; split; lra). apply Rmult_lt_compat_l; auto. }
        eapply Rlt_le_trans; [exact X|]. rewrite <- (Rinv_inv t). apply Rinv_le_contravar; auto. }
      repeat split; apply U; auto; unfold u; lra. }
    pose proof (NC XDIR). pose proof (NC YDIR). pose proof (NC ZDIR). unfold d.
    clear - Q IX NC H0 H1 H2. destruct a.
    - apply (Q ix 0%Z 0%Z); lia.
    - apply (Q 0%Z ix 0%Z); lia.
    - apply (Q 0%Z 0%Z ix); lia. }
  assert (CT : 0 < c0 * dt) by (apply Rmult_lt_0_compat; [unfold c0; lra|auto]).
  eexists. split; [exact D|]. split; [split|].
  - apply Rmult_lt_reg_r with (c0 * dt + d); [lra|]. unfold Rdiv. rewrite Rmult_assoc, Rinv_l by lra. lra.
  - apply Rmult_lt_reg_r with (c0 * dt + d); [lra|]. unfold Rdiv. rewrite Rmult_assoc, Rinv_l by lra. lra.
  - intros T. assert (F : d = face_cell c lines face).
    { unfold d, face_cell. fold a. unfold ix, murboxes. rewrite T. cbn [btype_eqb]. unfold getFaceOfBoundingBox.
      destruct face; cbn [a face_axis face_lo face_hi is_lo mkbox] in *;
      try (apply VHI; lia);
      match goal with |- adat (eDe (e ?x)) (gibox c ?f) = _ =>
        destruct (EA x) as (_ & V1 & _); rewrite V1 by (cbn [face_lo face_hi]; lia); cbn [face_lo];
        unfold cell; f_equal; f_equal; lia end. }
    rewrite F. reflexivity.
Qed.

(** Points of a MUR face that a step updates: in the plane of the face, in the
    mesh, and on no adjacent MUR face (see C46). *)
Definition mur_point (c : Cfg) (face : Face) (f : Fld) (i j k : Z) : Prop :=
  is_E f = true /\ fld_axis f <> face_axis face /\ outerSurfaceType c face = BT_MUR /\
  SpecGeom.coord i j k (face_axis face) = gibox c face /\
  yee_in f (gibox c) (fun g => axis_eqb (face_axis g) (face_axis face) || negb (btype_eqb (outerSurfaceType c g) BT_MUR)) i j k.
(** the next point inwards *)
Definition inward (face : Face) (p : Pt) : Pt := move p (face_axis face) (if is_lo face then 1 else -1).

Lemma mur_point_lim c face f i j k : wf c -> mur_point c face f i j k -> inl (fmlim c face f) i j k.
Proof.
  intros W (E & N & T & C & Y). change (in_lim (fmlim c face f) i j k). unfold fmlim. apply setFieldLimits_spec.
  intros a. specialize (Y a). unfold murInclude, murbox, getFaceOfBoundingBox in *.
  revert Y C. destruct face, f; try discriminate E; try (exfalso; apply N; reflexivity); destruct a;
  unfold ypos, staggered; cbn [SpecGeom.coord is_E fld_axis face_axis axis_eqb face_lo face_hi mkbox is_lo negb andb orb];
  intros Y C; rewrite ?negb_involutive in *;
  destruct Y as (Y1 & Y2 & Y3); (split; [lia|]; split; intros Q; first [discriminate Q|apply Y2; exact Q|apply Y3; exact Q|
    apply Y2; destruct (btype_eqb _ _); cbn in *; congruence|apply Y3; destruct (btype_eqb _ _); cbn in *; congruence]).
Qed.

(** For every mesh with at least two cells across, every state whose Mur
    coefficients are the computed ones, and all sources that leave the two
    points alone: the new value on the face and the new value next to it
    satisfy the outgoing-wave equation at the speed of light.  In particular a
    wave that moves exactly one cell per step leaves without any reflection. *)
Theorem C34_outgoing : forall nx ny nz reg c, setupCfg nx ny nz reg = Some c ->
  forall lines garbage card cn e dt, has_lines c lines -> increasing c lines -> courantOf card = Some cn -> 0 < cn ->
  initCellEdges c lines garbage cn = Some (e, dt) ->
  forall (xE xH : list (item R)), E_source xE -> H_source xH ->
  forall m, (forall face, initZeta c (fun a => eDe (e a)) dt face = Some (m (zetaLoc face))) ->
  forall face f i j k, mur_point c face f i j k -> (3 <= numLines c (face_axis face))%Z ->
  untouched xE (L (AF f) i j k) ->
  let p := mkPt i j k in let q := inward face p in
  untouched xE (L (AF f) (ptx q) (pty q) (ptz q)) ->
  let m' := run rArith (flat (Step.timeStep c xE xH)) m in
  let d := face_cell c lines face in
  outgoing c0 dt d (val m f p) (val m f q) (val m' f p) (val m' f q) /\
  (c0 * dt = d -> val m' f p = val m f q).
Proof.
  intros nx ny nz reg c H lines g card cn e dt HL IN CO CP EE xE xH OE OH m ZT face f i j k MP NL U p q UQ m' d.
  destruct (C34_coefficients _ _ _ _ _ H lines g card cn HL IN CO CP) as (e' & dt' & EE' & ZF). rewrite EE in EE'. injection EE' as <- <-.
  destruct (C22_courant_partial _ _ _ _ _ H lines g card cn HL IN CO CP) as (e' & dt' & EE' & DT & _). rewrite EE in EE'. injection EE' as <- <-.
  pose proof (setup_wf _ _ _ _ _ H) as W.
  pose proof (mur_point_lim c face f i j k W MP) as I. destruct MP as (E & N & T & _ & _).
  assert (W2 : (2 <= gibox c (face_hi (face_axis face)) - gibox c (face_lo (face_axis face)))%Z).
  { cfg_facts c W. destruct face; cbn [face_axis face_hi face_lo] in *; lia. }
  assert (Q : ptx q = (i + inw face XDIR)%Z /\ pty q = (j + inw face YDIR)%Z /\ ptz q = (k + inw face ZDIR)%Z).
  { unfold q, inward, p, inw. destruct face; cbn [face_axis axis_eqb is_lo move ptx pty ptz]; repeat split; lia. }
  destruct Q as (Q1 & Q2 & Q3).
  destruct (mur_pt c face f i j k W E N I T W2) as (_ & IG).
  pose proof (mur_E_step rArith c W xE xH OH face f i j k m E T N W2 I (untouched_writes _ _ U)) as S. cbv zeta in S.
  rewrite Q1, Q2, Q3 in UQ.
  pose proof (grid_E_step rArith c W xE xH OH m f _ _ _ E IG (untouched_writes _ _ UQ)) as S1.
  rewrite <- Q1, <- Q2, <- Q3 in S, S1. unfold stepxx in S, S1. fold m' in S, S1.
  rewrite <- S1 in S. change (rArith.(vadd)) with Rplus in *. 
  destruct (ZF face) as (z & Z1 & Z2 & Z3). specialize (ZT face). rewrite Z1 in ZT. injection ZT as ZT. rewrite <- ZT in S.
  specialize (Z3 T). fold d in Z3.
  assert (D0 : 0 < d).
  { unfold d, face_cell, cell. apply Rlt_Rminus. apply IN. cfg_facts c W. destruct face; cbn [is_lo face_axis]; lia. }
  assert (CT : 0 < c0 * dt) by (apply Rmult_lt_0_compat; [unfold c0; lra|auto]).
  unfold val, fld. change (ptx p) with i. change (pty p) with j. change (ptz p) with k. rewrite S.
  cbn [rArith vadd vmul vsub].
  generalize (m' (L (AF f) (ptx q) (pty q) (ptz q))), (m (L (AF f) (ptx q) (pty q) (ptz q))), (m (L (AF f) i j k)).
  intros e1' e1 e0. rewrite Z3. clear - D0 CT DT. clearbody d. split.
  - unfold outgoing. assert (C0 : c0 <> 0) by (unfold c0; lra). revert CT C0. generalize c0. intros v CT C0. field. lra.
  - intros ->. replace (d - d) with 0 by ring. unfold Rdiv. ring.
Qed.
Print Assumptions C34_outgoing.
(** a mesh with a MUR face next to PML, PEC and periodic faces; the coefficients can be loaded *)
Example C34_nonvacuous : exists c e dt m, setupCfg 4 5 6 exampleReg = Some c /\ mur_point c ZLO EX 2 3 1 /\
  (3 <= numLines c ZDIR)%Z /\ has_lines c (unitLines c) /\ increasing c (unitLines c) /\ courantOf None = Some (sqrt 3 / 2) /\
  initCellEdges c (unitLines c) (fun _ => 0) (sqrt 3 / 2) = Some (e, dt) /\ 0 < sqrt 3 / 2 /\
  (forall face, initZeta c (fun a => eDe (e a)) dt face = Some (m (zetaLoc face))) /\
  untouched [Seq [Asg (L (AF EZ) 2 2 2) (Cst 1)]] (L (AF EX) 2 3 1).
Proof.
  assert (S3 : 0 < sqrt 3) by (apply sqrt_lt_R0; lra).
  assert (CC : courantOf None = Some (sqrt 3 / 2)) by (unfold courantOf, initSimulation; destruct (Rlt_dec (-1) 0); [reflexivity|lra]).
  destruct (setupCfg 4 5 6 exampleReg) as [c|] eqn:HC; [|discriminate HC].
  destruct (unit_lines c) as [HL IN].
  destruct (C34_coefficients _ _ _ _ _ HC (unitLines c) (fun _ => 0) None (sqrt 3 / 2) HL IN CC ltac:(lra)) as (e & dt & E & Z).
  set (zv := fun face => match initZeta c (fun a => eDe (e a)) dt face with Some z => z | None => 0 end).
  exists c, e, dt, (fun l => if loc_dec l (zetaLoc XLO) then zv XLO else if loc_dec l (zetaLoc XHI) then zv XHI else
     if loc_dec l (zetaLoc YLO) then zv YLO else if loc_dec l (zetaLoc YHI) then zv YHI else if loc_dec l (zetaLoc ZLO) then zv ZLO else zv ZHI).
  split; [reflexivity|]. split; [|split; [|split; [exact HL|split; [exact IN|split; [exact CC|split; [exact E|split; [lra|split]]]]]]].
  - injection HC as <-. unfold mur_point. split; [reflexivity|]. split; [discriminate|]. split; [vm_compute; reflexivity|]. split; [vm_compute; reflexivity|].
    intros a. destruct a; vm_compute; repeat split; intros; congruence.
  - injection HC as <-. vm_compute. congruence.
  - intros face. destruct (Z face) as (z & Z1 & _).
    assert (Q : zv face = z) by (unfold zv; rewrite Z1; reflexivity). rewrite Z1, <- Q. f_equal. destruct face; reflexivity.
  - intros s [<-|[]]. discriminate.
Qed.
Print Assumptions C34_coefficients.
