(** Specification of C72: the drawing of a box. *)
From Coq Require Import ZArith List Bool Reals.
From Verif Require Import Types BBox SpecGeom CArr Gmsh SpecGmsh Gnuplot.
Import ListNotations.
Open Scope Z_scope.

(** where mesh line [i] of axis [a] is drawn: its position in metres, or its number *)
Definition place (physical : bool) (lines : Axis -> carr R) (a : Axis) (i : Z) : R := if physical then adat (lines a) i else IZR i.
(** the node of the mesh with the given indices, as drawn *)
Definition node (u : Axis -> Z -> R) (c : Axis -> Z) : R * R * R := (u XDIR (c XDIR), u YDIR (c YDIR), u ZDIR (c ZDIR)).
(** a corner of a box: the high end on the axes where [s] is true *)
Definition corner (b : BBox) (s : Axis -> bool) : Axis -> Z := fun a => b (if s a then face_hi a else face_lo a).
(** an edge of a box joins two corners that differ on one axis, along which the
    box extends *)
Definition edge (u : Axis -> Z -> R) (b : BBox) (p q : R * R * R) : Prop :=
  exists a s s', b (face_lo a) <> b (face_hi a) /\ s a <> s' a /\ (forall c, c <> a -> s c = s' c) /\
    p = node u (corner b s) /\ q = node u (corner b s').
(** the lines gnuplot draws: between successive points, up to the next empty line *)
Fixpoint strokes (l : list Rec) : list ((R * R * R) * (R * R * R)) :=
  match l with
  | Pt p :: l' => match l' with Pt q :: _ => (p, q) :: strokes l' | _ => strokes l' end
  | Gap :: l' => strokes l'
  | [] => []
  end.
(** [recs] draws the edges of the box and nothing else *)
Definition wireframe (u : Axis -> Z -> R) (b : BBox) (recs : list Rec) : Prop :=
  (forall p q, In (p, q) (strokes recs) -> edge u b p q) /\
  (forall p q, edge u b p q -> In (p, q) (strokes recs) \/ In (q, p) (strokes recs)) /\
  (forall p, In (Pt p) recs <-> exists s, p = node u (corner b s)) /\
  exists l, recs = (l ++ [Gap])%list.
(** mesh lines of a mesh with n cells on each axis *)
Definition has_n_lines (n : Axis -> Z) (lines : Axis -> carr R) : Prop := forall a, 1 <= n a /\ alen (lines a) = n a + 1.
Definition within_mesh (n : Axis -> Z) (b : BBox) : Prop := forall a, 0 <= b (face_lo a) <= n a /\ 0 <= b (face_hi a) <= n a.
(** the mesh itself *)
Definition is_mesh (n : Axis -> Z) (b : BBox) : Prop := forall a, b (face_lo a) = 0 /\ b (face_hi a) = n a.
(** the first two blocks of every file show the extent of the mesh *)
Definition extent_first (u : Axis -> Z -> R) (mbox : BBox) (recs : list Rec) : Prop :=
  In (Pt (node u (fun a => mbox (face_lo a)))) recs /\ In (Pt (node u (fun a => mbox (face_hi a)))) recs.
(** the middle of the face of [b] at the low or high end of axis [a] *)
Definition face_middle (u : Axis -> Z -> R) (b : BBox) (a : Axis) (hi : bool) (c : Axis) : R :=
  if axis_eqb c a then u c (b (if hi then face_hi c else face_lo c)) else ((u c (b (face_lo c)) + u c (b (face_hi c))) / 2)%R.
Definition triple (f : Axis -> R) : R * R * R := (f XDIR, f YDIR, f ZDIR).
(** line [i] of axis [a], drawn along axis [c] on the surface of the mesh *)
Definition grid_line (n : Axis -> Z) (a : Axis) (i : Z) (c : Axis) (b : BBox) : Prop :=
  a <> c /\ b (face_lo a) = i /\ b (face_hi a) = i /\ b (face_lo c) = 0 /\ b (face_hi c) = n c /\
  forall d, d <> a -> d <> c -> b (face_lo d) = b (face_hi d) /\ (b (face_lo d) = 0 \/ b (face_lo d) = n d).
(** the tip of the arrow of a source on box [b] along axis [a]: the far end of the
    box, two cells on if the box has no extent along [a] *)
Definition tip (b : BBox) (a : Axis) : BBox := fun f => if axis_eqb (face_axis f) a && (b (face_lo a) =? b (face_hi a)) then match f with XHI | YHI | ZHI => b f + 2 | _ => b f end else b f.
(** an arrow from the middle of the near face to the middle of the far face, its
    head an isosceles triangle one (average) cell long and wide *)
Definition arrow (u : Axis -> Z -> R) (b : BBox) (a : Axis) (recs : list Rec) : Prop :=
  let base := face_middle u (tip b a) a false in let far := face_middle u (tip b a) a true in
  let cell := ((far a - base a) / IZR (tip b a (face_hi a) - tip b a (face_lo a)))%R in
  let barb s := fun c => if axis_eqb c a then (far a - cell)%R else (far c + s * (cell / 2))%R in
  recs = [Pt (triple base); Pt (triple far); Pt (triple (barb (-1)%R)); Pt (triple (barb 1%R)); Pt (triple far); Gap].
(** the isolated points of an observer: one for each sampled node *)
Definition samples_drawn (u : Axis -> Z -> R) (b : BBox) (step : Axis -> Z) (recs : list Rec) : Prop :=
  (forall p, In (Pt p) recs <-> exists ijk, is_sample b step ijk /\ p = node u (coord3 ijk)) /\ strokes recs = [].
(** the first command of a script: lines up to and including the first that is not
    continued; what is left of the script *)
Fixpoint command (l : list (ScriptLine * bool)) : list ScriptLine * list (ScriptLine * bool) :=
  match l with
  | [] => ([], [])
  | (x, true) :: l' => let r := command l' in (x :: fst r, snd r)
  | (x, false) :: l' => ([x], l')
  end.
