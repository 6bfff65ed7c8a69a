(** Specification of C77: balance of electric charge and of magnetic flux in a
    run. *)
From Coq Require Import ZArith List Bool Reals.
From Verif Require Import Types BBox Grid CArr Setup Media Medium Debye Source PlaneWave Mesh Front Program PmlProfile MediaProofs Edges SpecGeom SpecMedia SpecMedium SpecEdges SpecSource SpecFile SpecMaxwell.
Import ListNotations.
Open Scope R_scope.
Section Balance.
Variables (c : Cfg) (lines : Axis -> carr R).
(** area of the secondary face pierced by edge (x,y,z) along [a], and of primary
    face (x,y,z) normal to [a] *)
Definition areaE (a : Axis) (x y z : Z) : R := dual c lines (upA a) (coord x y z (upA a)) * dual c lines (upA (upA a)) (coord x y z (upA (upA a))).
Definition areaH (a : Axis) (x y z : Z) : R := edge lines (upA a) (coord x y z (upA a)) * edge lines (upA (upA a)) (coord x y z (upA (upA a))).
(** flux of [g] out of the secondary cell around node (x,y,z): through the faces
    of the six edges that meet there *)
Definition outOfNode (g : Vec) (x y z : Z) : R :=
  (areaE XDIR x y z * g XDIR x y z - areaE XDIR (x - 1) y z * g XDIR (x - 1)%Z y z) +
  (areaE YDIR x y z * g YDIR x y z - areaE YDIR x (y - 1) z * g YDIR x (y - 1)%Z z) +
  (areaE ZDIR x y z * g ZDIR x y z - areaE ZDIR x y (z - 1) * g ZDIR x y (z - 1)%Z).
(** flux of [g] out of the primary cell (x,y,z) *)
Definition outOfCell (g : Vec) (x y z : Z) : R :=
  (areaH XDIR (x + 1) y z * g XDIR (x + 1)%Z y z - areaH XDIR x y z * g XDIR x y z) +
  (areaH YDIR x (y + 1) z * g YDIR x (y + 1)%Z z - areaH YDIR x y z * g YDIR x y z) +
  (areaH ZDIR x y (z + 1) * g ZDIR x y (z + 1)%Z - areaH ZDIR x y z * g ZDIR x y z).
(** the edges that meet in node (x,y,z), the faces of cell (x,y,z) *)
Definition meets (x y z : Z) (a : Axis) (u v w : Z) : Prop :=
  match a with XDIR => (u = x \/ u = x - 1)%Z /\ v = y /\ w = z | YDIR => u = x /\ (v = y \/ v = y - 1)%Z /\ w = z | ZDIR => u = x /\ v = y /\ (w = z \/ w = z - 1)%Z end.
Definition bounds (x y z : Z) (a : Axis) (u v w : Z) : Prop :=
  match a with XDIR => (u = x \/ u = x + 1)%Z /\ v = y /\ w = z | YDIR => u = x /\ (v = y \/ v = y + 1)%Z /\ w = z | ZDIR => u = x /\ v = y /\ (w = z \/ w = z + 1)%Z end.
Definition inner_node (x y z : Z) : Prop := forall a, (1 <= coord x y z a <= numLines c a - 2)%Z.
Definition mesh_cell (x y z : Z) : Prop := forall a, (0 <= coord x y z a <= numLines c a - 2)%Z.
Definition muOf (m : Material) : R := match m with Metal => 1 | Simple _ _ mu => mu end.
End Balance.

(** The hypotheses of C75: an accepted mesh file without dispersive media,
    impedance surfaces, plane waves and hard sources, and with any walls; its mesh
    lines give the cell sizes [e] and the time step [dt]. *)
Record plain_problem (c : Cfg) (h : MeshData) (lines : Axis -> carr R) (e : Axis -> Edges) (dt : R) : Prop := {
  pp_file : exists debyeFile file st cards, readMeshFile debyeFile file = Acc (st, h, cards);
  pp_cfg : cfgFor h = Some c; pp_wide : wide c;
  pp_media : plain_media h; pp_sheets : no_sheets h; pp_soft : soft_sources h; pp_pec : one_conductor h; pp_srcs : sources_ok h;
  pp_lines : forall a, h_mesh h a = Some (lines a); pp_inc : increasing c lines;
  pp_dt : exists cn garbage, courantOf (h_cn h) = Some cn /\ 0 < cn /\ initCellEdges c lines garbage cn = Some (e, dt) }.
