(** Specification of C61: what impedance sheets do to the mesh. *)
From Coq Require Import ZArith List Bool Reals.
From Verif Require Import Types Lang BBox Grid SpecPhys Sibc.
Import ListNotations.
Open Scope Z_scope.

(** mesh points, axis by axis *)
Definition Pt := Axis -> Z.
Definition at_ (m : mem R) (f : Fld) (q : Pt) : R := fld m f (q XDIR) (q YDIR) (q ZDIR).
Definition gammaAt (m : mem R) (f : Fld) (q : Pt) : R := gamma m f (q XDIR) (q YDIR) (q ZDIR).
Definition back (a : Axis) (q : Pt) : Pt := fun x => if axis_eqb x a then q x - 1 else q x.
Definition hfld (a : Axis) : Fld := match a with XDIR => HX | YDIR => HY | ZDIR => HZ end.
(** the two axes of a sheet with normal n, with t1 x t2 = n *)
Definition t1 (n : Axis) : Axis := match n with XDIR => YDIR | YDIR => ZDIR | ZDIR => XDIR end.
Definition t2 (n : Axis) : Axis := match n with XDIR => ZDIR | YDIR => XDIR | ZDIR => YDIR end.

(** q is a face of the sheet *)
Definition hasFace (s : Sheet) (q : Pt) : bool :=
  forallb (fun a => (sb_box s (face_lo a) <=? q a) && (q a <? sb_box s (face_hi a))) [XDIR; YDIR; ZDIR].
(** tangential E of face q: along t1 or t2, on side a or b; 0 off the sheet *)
Definition faceE (s : SheetState) (second sideb : bool) (q : Pt) : R :=
  let e := ss_E s (q XDIR) (q YDIR) (q ZDIR) in
  if hasFace (ss_sheet s) q
  then (if second then (if sideb then v3 e else v2 e) else (if sideb then v1 e else v0 e))%R else 0%R.
(** x is a mirror (PMC) or periodic boundary plane of the mesh: one of the two
    faces at the edge lies outside the mesh *)
Definition mirrorPlane (c : Cfg) (a : Axis) (x : Z) : Prop :=
  exists f, face_axis f = a /\ x = gibox c f /\ (outerSurfaceType c f = BT_PMC \/ outerSurfaceType c f = BT_PERIODIC).
(** the point of the sheet's plane opposite q *)
Definition opposite (s : SheetState) (n : Axis) (q : Pt) : Pt :=
  fun a => if axis_eqb a n then sb_box (ss_sheet s) (face_lo n) else q a.
(** E of the edge of the sheet opposite q, between the faces at q and q - e_t:
    the average of the two, with weight 1/2 each, or 1 on a mirror plane *)
Definition edgeE (wt : R) (s : SheetState) (n : Axis) (second sideb : bool) (t : Axis) (q : Pt) : R :=
  (wt * (faceE s second sideb (opposite s n q) + faceE s second sideb (back t (opposite s n q))))%R.
Definition isWeight (c : Cfg) (t : Axis) (q : Pt) (wt : R) : Prop :=
  (mirrorPlane c t (q t) -> wt = 1%R) /\ (~ mirrorPlane c t (q t) -> wt = (/ 2)%R).
(** A difference along the normal, of a field that is [e] on the sheet's plane
    and 0 on the next: on side a the sheet ends the cell, on side b it begins it *)
Definition slope (s : SheetState) (n : Axis) (m : mem R) (q : Pt) (ea eb : R) : R :=
  let p := sb_box (ss_sheet s) (face_lo n) in
  ((if q n =? p - 1 then ide m n (q n) * ea else 0) + (if q n =? p then ide m n (q n) * - eb else 0))%R.
Definition total {X} (l : list X) (f : X -> R) : R := fold_right Rplus 0%R (map f l).

(** the corners of the face at q with normal d: one cell wide along the two
    other axes *)
Definition corner (d : Axis) (q x : Pt) : Prop := forall a, if axis_eqb a d then x a = q a else q a <= x a <= q a + 1.
(** edge p of the face at q with normal n: low and high along t1, low and high
    along t2 *)
Definition edge (n : Axis) (q : Pt) (p : I4) (x : Pt) : Prop :=
  match p with p0 => x (t1 n) = q (t1 n) | p1 => x (t1 n) = q (t1 n) + 1 | p2 => x (t2 n) = q (t2 n) | p3 => x (t2 n) = q (t2 n) + 1 end.
Definition at3p (i j k : Z) : Pt := fun a => match a with XDIR => i | YDIR => j | ZDIR => k end.
