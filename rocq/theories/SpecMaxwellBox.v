(** Specification of C83: the discretised Maxwell equations (SpecMaxwell) in a mesh
    whose outer walls are electric (PEC), magnetic (PMC) or periodic. *)
From Coq Require Import ZArith List Bool Reals.
From Verif Require Import Types BBox Grid CArr Setup Media Medium Debye Source PlaneWave Mesh Front Program PmlProfile Edges SpecGeom SpecMedia SpecMedium SpecEdges SpecSource SpecFile SpecBox SpecMaxwell.
Import ListNotations.
Open Scope R_scope.
Section Box.
Variables (c : Cfg) (h : MeshData) (lines : Axis -> carr R).
(** The tangential H continued by one cell beyond the walls: beyond a magnetic
    wall it is minus its mirror image, beyond a periodic wall the value at the
    opposite wall.  [across q v]: mesh index and sign for index [v] of axis [q]. *)
Definition across (q : Axis) (v : Z) : Z * R :=
  if (v <? 0)%Z then
    match outerSurfaceType c (face_lo q) with BT_PMC => ((-1 - v)%Z, -1) | BT_PERIODIC => ((v + (numLines c q - 1))%Z, 1) | _ => (v, 1) end
  else if (numLines c q - 2 <? v)%Z then
    match outerSurfaceType c (face_hi q) with BT_PMC => ((2 * (numLines c q - 1) - 1 - v)%Z, -1) | BT_PERIODIC => ((v - (numLines c q - 1))%Z, 1) | _ => (v, 1) end
  else (v, 1).
Definition beyond (H : Vec) : Vec := fun b x y z =>
  let at_ q v := if axis_eqb q b then (v, 1) else across q v in
  snd (at_ XDIR x) * snd (at_ YDIR y) * snd (at_ ZDIR z) * H b (fst (at_ XDIR x)) (fst (at_ YDIR y)) (fst (at_ ZDIR z)).

Variables (dt : R) (wE wH : nat -> Src -> R).
(** As SpecMaxwell.maxwell, with Ampere's law on the walls too. *)
Record maxwell_box (E H : nat -> Vec) : Prop := {
  mb_rest : forall a x y z, (in_mesh c (Eat a) x y z -> E 0%nat a x y z = 0) /\ (in_mesh c (Hat a) x y z -> H 0%nat a x y z = 0);
  mb_metal : forall n a x y z, in_mesh c (Eat a) x y z -> made_of (Eat a) x y z (regions c h lines) Metal ->
    (forall s, In s (h_srcs h) -> impresses_field s = true -> ~ covered (Eat a) x y z s) -> E n a x y z = 0;
  mb_ampere : forall n a x y z eps sigma mu J F, in_mesh c (Eat a) x y z -> made_of (Eat a) x y z (regions c h lines) (Simple eps sigma mu) ->
    drives c h lines (wE n) (Eat a) x y z J F ->
    ampere (eps * eps0) sigma dt (E n a x y z) (E (S n) a x y z - F) (rotH c lines (beyond (H n)) a x y z - J);
  mb_faraday : forall n a x y z mat J F, in_mesh c (Hat a) x y z -> made_of (Hat a) x y z (regions c h lines) mat -> drives c h lines (wH n) (Hat a) x y z J F ->
    faraday (match mat with Metal => mu0 | Simple _ _ mu => mu * mu0 end) dt (H n a x y z) (H (S n) a x y z - F) (- rotE lines (E (S n)) a x y z - J) }.
(** no lumped source lies in an electric wall *)
Definition loads_off : Prop := forall s f, In s (h_srcs h) -> isLumped (t_type (s_tag s)) = true -> outerSurfaceType c f = BT_PEC ->
  s_mbbox s (face_lo (face_axis f)) = s_mbbox s (face_hi (face_axis f)) -> s_mbbox s (face_lo (face_axis f)) <> meshAll c f.
(** An accepted file with such walls, as in C75 without dispersive media,
    impedance surfaces, plane waves and hard sources; cell sizes [e] and time step
    [dt] of its mesh lines. *)
Record box_problem (e : Axis -> Edges) : Prop := {
  bp_file : exists debyeFile file st cards, readMeshFile debyeFile file = Acc (st, h, cards);
  bp_cfg : cfgFor h = Some c;
  bp_walls : forall f, outerSurfaceType c f = BT_PEC \/ outerSurfaceType c f = BT_PMC \/ outerSurfaceType c f = BT_PERIODIC;
  bp_media : plain_media h; bp_sheets : no_sheets h; bp_soft : soft_sources h; bp_pec : one_conductor h; bp_srcs : sources_ok h; bp_loads : loads_off;
  bp_lines : forall a, h_mesh h a = Some (lines a); bp_inc : increasing c lines;
  bp_dt : exists cn garbage, courantOf (h_cn h) = Some cn /\ 0 < cn /\ initCellEdges c lines garbage cn = Some (e, dt) }.
End Box.
