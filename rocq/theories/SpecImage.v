(** Specification of C84: half of a symmetric problem.  The half problem has a
    magnetic (PMC) or electric (PEC) wall at its lower x face; the full problem is
    the half problem together with its mirror image in that wall. *)
From Coq Require Import ZArith List Bool Reals.
From Verif Require Import Types BBox Grid CArr Setup Media Medium Source Front Program SpecGeom SpecMedia SpecEdges SpecMaxwell SpecMirror.
Import ListNotations.
Open Scope Z_scope.

Inductive Plane := MagneticPlane | ElectricPlane.
Definition planeWall (p : Plane) : BType := match p with MagneticPlane => BT_PMC | ElectricPlane => BT_PEC end.
(** the sign of the image of component [f]: in a magnetic wall E is mirrored as a
    vector and H as an axial vector, in an electric wall with the opposite signs *)
Definition imageSign (p : Plane) (f : Fld) : R := match p with MagneticPlane => sign f | ElectricPlane => (- sign f)%R end.
(** points in the plane of symmetry *)
Definition in_plane (f : Fld) (x : Z) : Prop := x = 0 /\ staggered f XDIR = false.

Section Halves.
Variables (p : Plane) (c c2 : Cfg) (h h2 : MeshData) (lines lines2 : Axis -> carr R).
(** cells of the half problem along x; the plane is mesh line [half] of the full
    problem *)
Definition half : Z := numLines c XDIR - 1.
(** Points of the half problem that are compared: all, except those in an
    electric wall, which are metal in the half problem only; there are no sources
    in that plane. *)
Definition compared (f : Fld) (x y z : Z) : Prop := in_mesh c f x y z /\ (p = ElectricPlane -> ~ in_plane f x).
(** [e]: for the electric, or the magnetic components *)
Definition same_drive (e : bool) (w w2 : Src -> R) : Prop :=
  (forall f x y z J F, is_E f = e -> compared f x y z -> drives c h lines w f x y z J F ->
     drives c2 h2 lines2 w2 f (half + x) y z J F /\
     drives c2 h2 lines2 w2 f (image (2 * half) f (half + x)) y z (imageSign p f * J) (imageSign p f * F)) /\
  (p = ElectricPlane -> forall f y z, is_E f = e -> in_plane f 0 -> in_mesh c f 0 y z -> drives c h lines w f 0 y z 0 0 /\ drives c2 h2 lines2 w2 f half y z 0 0).
Record halved (wE wH wE2 wH2 : nat -> Src -> R) : Prop := {
  ha_plane : outerSurfaceType c XLO = planeWall p;
  ha_walls : (forall f, face_axis f <> XDIR -> outerSurfaceType c2 f = outerSurfaceType c f) /\
             outerSurfaceType c2 XHI = outerSurfaceType c XHI /\ outerSurfaceType c2 XLO = outerSurfaceType c XHI /\ outerSurfaceType c XHI <> BT_PERIODIC;
  ha_cells : numLines c2 XDIR = 2 * half + 1 /\ forall a, a <> XDIR -> numLines c2 a = numLines c a;
  ha_lines : forall a i, a <> XDIR -> 0 <= i <= numLines c a - 1 -> line lines2 a i = line lines a i;
  ha_linesx : forall i, 0 <= i <= half ->
    (line lines2 XDIR (half + i) - line lines2 XDIR half = line lines XDIR i - line lines XDIR 0)%R /\
    (line lines2 XDIR half - line lines2 XDIR (half - i) = line lines XDIR i - line lines XDIR 0)%R;
  ha_cn : h_cn h2 = h_cn h;
  ha_media : forall f x y z mat, compared f x y z -> made_of f x y z (regions c h lines) mat ->
    made_of f (half + x) y z (regions c2 h2 lines2) mat /\ made_of f (image (2 * half) f (half + x)) y z (regions c2 h2 lines2) mat;
  ha_drives : forall t, same_drive true (wE t) (wE2 t) /\ same_drive false (wH t) (wH2 t) }.
End Halves.
