(** C15 PMC (and PEC) walls. *)
From Coq Require Import ZArith List Bool Lia.
From Verif Require Import Types Lang LangProofs BBox Grid Setup SpecGrid SetupProofs Pml Mur Ghost Step StepShape StepBounds
  SpecCone StepValue GhostValue StepClosed SpecWalls Periodic P_Setup P_Step.
Import ListNotations.
Open Scope Z_scope.
Local Arguments Z.mul : simpl never.
Local Arguments Z.add : simpl never.
Local Arguments Z.sub : simpl never.

Lemma last_step {V} (A : Arith V) c xE xH n : forall t m, (0 < n)%nat -> exists m1,
  run A (flat (steps c xE xH t n)) m = run A (flat (updateGhostHfield c)) m1.
Proof.
  induction n as [|n IH]; intros t m H; [lia|]. cbn [steps]. rewrite flat_app, run_app.
  destruct n as [|n].
  - cbn [steps flat flat_map run fold_left]. unfold timeStep. rewrite !flat_app, !run_app. eexists; reflexivity.
  - apply (IH (S t)). lia.
Qed.

(** ** C15.  After every time step, whatever the fields, media and sources: on a
    PMC face each tangential H just outside is exactly minus its mirror image
    just inside; on a PEC face it is exactly the mirror image.  Edges and
    corners included. *)
Theorem C15_pmc_image : forall nx ny nz reg c, setupCfg nx ny nz reg = Some c ->
  forall F, outerSurfaceType c F = BT_PMC ->
  forall V (A : Arith V) xE xH n m, (0 < n)%nat ->
  let m' := run A (flat (steps c xE xH 0 n)) m in
  forall f i j k, is_E f = false -> fld_axis f <> face_axis F -> in_plane c (face_axis F) i j k ->
  at_plane m' f (face_axis F) (cell_outside c F) i j k = vneg A (at_plane m' f (face_axis F) (cell_inside c F) i j k).
Proof.
  intros nx ny nz reg c H F T V A xE xH n m Hn m' f i j k E N HP. apply setup_wf in H.
  destruct (last_step A c xE xH n 0 m Hn) as (m1 & EQ). unfold m'. rewrite EQ.
  pose proof (rel_ghostH A c H F m1) as R. unfold rel in R. rewrite T in R. unfold at_plane.
  specialize (R eq_refl (L (AF f) i j k)). unfold srcIdx in R. rewrite T in R. apply R.
  - exists f. repeat split; auto. destruct f, F; try discriminate E; reflexivity || (exfalso; apply N; reflexivity).
  - exact HP.
Qed.
Theorem C15_pec_image : forall nx ny nz reg c, setupCfg nx ny nz reg = Some c ->
  forall F, outerSurfaceType c F = BT_PEC ->
  forall V (A : Arith V) xE xH n m, (0 < n)%nat ->
  let m' := run A (flat (steps c xE xH 0 n)) m in
  forall f i j k, is_E f = false -> fld_axis f <> face_axis F -> in_plane c (face_axis F) i j k ->
  at_plane m' f (face_axis F) (cell_outside c F) i j k = at_plane m' f (face_axis F) (cell_inside c F) i j k.
Proof.
  intros nx ny nz reg c H F T V A xE xH n m Hn m' f i j k E N HP. apply setup_wf in H.
  destruct (last_step A c xE xH n 0 m Hn) as (m1 & EQ). unfold m'. rewrite EQ.
  pose proof (rel_ghostH A c H F m1) as R. unfold rel in R. rewrite T in R. unfold at_plane.
  specialize (R eq_refl (L (AF f) i j k)). unfold srcIdx in R. rewrite T in R. apply R.
  - exists f. repeat split; auto. destruct f, F; try discriminate E; reflexivity || (exfalso; apply N; reflexivity).
  - exact HP.
Qed.

(** the situation occurs, with a corner of two PMC faces *)
Definition pmcReg : BReg := initBoundaryReg ++
  map (fun f => mkItem (FACE f) (mkB (match f with XLO | YHI => BT_PMC | XHI => BT_MUR | _ => BT_PEC end) 0)) faces.
Example C15_nonvacuous : exists c, setupCfg 4 5 6 pmcReg = Some c /\ outerSurfaceType c XLO = BT_PMC /\
  outerSurfaceType c YHI = BT_PMC /\ in_plane c XDIR 7 6 3 /\ in_plane c YDIR 0 9 3 /\
  cell_outside c XLO = 0 /\ cell_inside c XLO = 1 /\ cell_outside c YHI = 6 /\ cell_inside c YHI = 5.
Proof.
  eexists. split; [reflexivity|]. repeat split; try (vm_compute; congruence);
  destruct b; try congruence; vm_compute; congruence.
Qed.

Print Assumptions C15_pmc_image.
Print Assumptions C15_pec_image.

