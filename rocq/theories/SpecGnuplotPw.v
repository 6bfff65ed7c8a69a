(** Specification of the drawing of plane waves (C72). *)
From Coq Require Import ZArith List Bool Reals.
From Verif Require Import Types BBox SpecGeom CArr SpecPw Gnuplot SpecGnuplot.
Import ListNotations.
Open Scope R_scope.

(** where the point with index [r] (not nec. whole) on axis [a] is drawn, in a mesh
    of [n] cells: at [r] itself, or in metres, by linear interpolation between mesh
    lines and extrapolation beyond the first and last *)
Definition spot (physical : bool) (lines : Axis -> carr R) (n : Axis -> Z) (a : Axis) (r v : R) : Prop :=
  if physical then
    let line := adat (lines a) in
    (forall i, (0 <= i < n a)%Z -> IZR i <= r <= IZR (i + 1) -> v = line i + (r - IZR i) * (line (i + 1)%Z - line i)) /\
    (r <= 0 -> v = line 0%Z + r * (line 1%Z - line 0%Z)) /\
    (IZR (n a) <= r -> v = line (n a) + (r - IZR (n a)) * (line (n a) - line (n a - 1)%Z))
  else v = r.
(** the point a fraction [f] of the way back from the tip of the arrow, and [w]
    lengths of the arrow to the side *)
Definition barb (base tip side : Axis -> R) (f w : R) : Rec :=
  let v a := tip a - base a in
  let len := sqrt (dot v v) in
  Pt (triple (fun a => tip a - f * v a + w * len * side a)).
Inductive HeadKind := OpenHead | ClosedHead | DoubleHead.
(** a shaft with a head a quarter of its length long, half as wide as the shaft is
    long; the head is open, closed (a triangle) or doubled by a half-size one *)
Definition arrow_recs (h : HeadKind) (base tip side : Axis -> R) : list Rec :=
  let B := barb base tip side in let T := Pt (triple tip) in
  (Pt (triple base) :: T ::
  match h with
  | OpenHead => [B (1/4) (1/4); T; B (1/4) (-(1/4))]
  | ClosedHead => [B (1/4) (1/4); B (1/4) (-(1/4)); T]
  | DoubleHead => [B (1/4) (1/4); T; B (1/4) (-(1/4)); T; B (1/2) (1/8); T; B (1/2) (-(1/8))]
  end ++ [Gap])%list.
(** an arrow from the node [o] in direction [d], [len] cells long *)
Definition arrow_from (physical : bool) (lines : Axis -> carr R) (n : Axis -> Z) (h : HeadKind) (o : Axis -> Z) (len : R) (d side : Axis -> R) (recs : list Rec) : Prop :=
  exists base tip, (forall a, base a = place physical lines a (o a)) /\
    (forall a, spot physical lines n a (IZR (o a) + len * d a) (tip a)) /\ recs = arrow_recs h base tip side.
(** the length of the shortest side of a box, in cells *)
Definition shortest_side (b : BBox) (s : R) : Prop :=
  (forall a, s <= IZR (b (face_hi a) - b (face_lo a))) /\ exists a, s = IZR (b (face_hi a) - b (face_lo a)).
(** the corner of the box that a wave travelling along [k] reaches first *)
Definition first_corner (b : BBox) (k : Axis -> R) (o : Axis -> Z) : Prop :=
  (forall a, o a = b (face_lo a) \/ o a = b (face_hi a)) /\
  forall r, pt_in b r -> 0 <= dot k (fun a => r a - IZR (o a)).
(** a wave from direction (theta, phi) polarised at angle eta, in degrees: its box
    and, at the corner it reaches first, the directions of propagation (open arrow),
    electric field (closed arrow) and magnetic field (double arrow) *)
Definition wave_drawn (physical : bool) (lines : Axis -> carr R) (n : Axis -> Z) (b : BBox) (theta phi eta : R) (recs : list Rec) : Prop :=
  let rad x := x * PI / 180 in let t := rad theta in let p := rad phi in let e := rad eta in
  let k := r_hat t p in
  let E a := - cos e * phi_hat t p a - sin e * theta_hat t p a in
  let H := cross k E in
  exists o s box mk_ me mh, first_corner b k o /\ shortest_side b s /\ recs = (box ++ mk_ ++ me ++ mh)%list /\
    wireframe (place physical lines) b box /\
    arrow_from physical lines n OpenHead o (3 / 10 * s) k E mk_ /\
    arrow_from physical lines n ClosedHead o (3 / 10 * s) E k me /\
    arrow_from physical lines n DoubleHead o (3 / 10 * s) H E mh.
