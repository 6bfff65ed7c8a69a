(** Ghost cells.  Models /repo/src/surface.c:569-812. *)
From Coq Require Import ZArith List Bool.
From Verif Require Import Types Lang BBox Grid.
Import ListNotations.
Open Scope Z_scope.

Section Ghost.
Context {V : Type}.

(** Place index [n] on axis [a], the two other coordinates being [p] and [q]
    in axis order. *)
Definition at_axis (arr : Arr) (a : Axis) (n p q : Z) : Loc :=
  match a with XDIR => L arr n p q | YDIR => L arr p n q | ZDIR => L arr p q n end.
(** The two other axes, in the nesting order of the loops. *)
Definition other1 (a : Axis) : Axis := match a with XDIR => YDIR | _ => XDIR end.
Definition other2 (a : Axis) : Axis := match a with ZDIR => YDIR | _ => ZDIR end.

(** The double loop over gobox[LO]-1 .. gobox[HI] of the two other axes. *)
Definition ghost_loop (c : Cfg) (a : Axis) (body : Z -> Z -> list (stmt V)) : list (stmt V) :=
  for_ (gobox c (face_lo (other1 a)) - 1) (gobox c (face_hi (other1 a))) (fun p =>
    for_ (gobox c (face_lo (other2 a)) - 1) (gobox c (face_hi (other2 a))) (fun q => body p q)).

(** Index of the ghost cell of a face and of the cell it is copied from:
    [src] for PEC/PMC (just inside) and for PERIODIC (other side).
    surface.c:576-589 (LO) and 591-604 (HI), and likewise for Y and Z. *)
Definition ghostIdx (c : Cfg) (f : Face) : Z :=
  if is_lo f then gobox c f - 1 else gobox c f.
Definition insideIdx (c : Cfg) (f : Face) : Z :=
  if is_lo f then gobox c f else gobox c f - 1.
Definition wrapIdx (c : Cfg) (f : Face) : Z :=
  let a := face_axis f in
  if is_lo f then gobox c (face_hi a) - 1 else gobox c (face_lo a).

Definition cp (dst src : Loc) : stmt V := Asg dst (Rd src).
Definition cpneg (dst src : Loc) : stmt V := Asg dst (Neg (Rd src)).

Definition Efld (a : Axis) : Fld := match a with XDIR => EX | YDIR => EY | ZDIR => EZ end.

(** surface.c:569-660 updateGhostEfield, one face: the normal E component. *)
Definition ghostE (c : Cfg) (f : Face) : list (stmt V) :=
  let a := face_axis f in let e := AF (Efld a) in
  match outerSurfaceType c f with
  | BT_PEC => ghost_loop c a (fun p q =>
      [cp (at_axis e a (ghostIdx c f) p q) (at_axis e a (insideIdx c f) p q)])
  | BT_PMC => ghost_loop c a (fun p q =>
      [cpneg (at_axis e a (ghostIdx c f) p q) (at_axis e a (insideIdx c f) p q)])
  | BT_PERIODIC => ghost_loop c a (fun p q =>
      [cp (at_axis e a (ghostIdx c f) p q) (at_axis e a (wrapIdx c f) p q)])
  | _ => []
  end.
Definition updateGhostEfield (c : Cfg) : list (item V) := [Seq (flat_map (ghostE c) faces)].

(** The two tangential H components in the order of the source: X faces Hy,Hz
    (surface.c:681-682), Y faces Hz,Hx (729-730), Z faces Hx,Hy (777-778). *)
Definition tangH (a : Axis) : Fld * Fld :=
  match a with XDIR => (HY, HZ) | YDIR => (HZ, HX) | ZDIR => (HX, HY) end.

(** surface.c:667-812 updateGhostHfield, one face *)
Definition ghostH (c : Cfg) (f : Face) : list (stmt V) :=
  let a := face_axis f in
  let h1 := AF (fst (tangH a)) in let h2 := AF (snd (tangH a)) in
  let both (st : Loc -> Loc -> stmt V) (src : Z) := ghost_loop c a (fun p q =>
      [st (at_axis h1 a (ghostIdx c f) p q) (at_axis h1 a src p q);
       st (at_axis h2 a (ghostIdx c f) p q) (at_axis h2 a src p q)]) in
  match outerSurfaceType c f with
  | BT_PMC => both cpneg (insideIdx c f)
  | BT_PERIODIC => both cp (wrapIdx c f)
  | BT_PEC => both cp (insideIdx c f)
  | _ => []
  end.
Definition updateGhostHfield (c : Cfg) : list (item V) := [Seq (flat_map (ghostH c) faces)].
End Ghost.
