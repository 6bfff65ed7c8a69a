(** Position of a stored value along an axis, for the light-cone theorem.

    The solver's state consists of the six fields and the auxiliary fields of
    the PML; everything else (coefficients, cell sizes) is constant data.  The
    position of a state value along an axis is its grid index.  Ghost values
    outside the staggered range 1 .. N-1 of a component are images of the
    outermost value and take its position. *)
From Coq Require Import ZArith List Bool.
From Verif Require Import Types Lang BBox Grid Pml Mur Ghost Step StepShape.
Open Scope Z_scope.

(** [Some true]: electric state, [Some false]: magnetic state, [None]: data *)
Definition kind (l : Loc) : option bool :=
  match arr l with
  | AF f => Some (is_E f)
  | APP _ _ | AP _ _ => Some true
  | AB _ _ => Some false
  | ATmp n => Some (negb (n =? 2))
  | _ => None
  end.
Definition clamp (lo hi x : Z) : Z := Z.max lo (Z.min hi x).
Definition position (c : Cfg) (a : Axis) (l : Loc) : Z :=
  let x := coord a l in
  match arr l with
  | AF f => if fieldIsInBoundary f (face_lo a) then x else clamp 1 (gobox c (face_hi a) - 1) x
  | APP r f | AP r f | AB r f => x + fplim c r f (face_lo a)   (* region-relative index *)
  | _ => x
  end.
(** On an axis with a MUR face the plane of the face counts with the first
    cell inside it, for signals travelling towards it. *)
Definition upos (c : Cfg) (a : Axis) (l : Loc) : Z :=
  if btype_eqb (outerSurfaceType c (face_hi a)) BT_MUR
  then Z.min (position c a l) (gobox c (face_hi a) - 1) else position c a l.
Definition dpos (c : Cfg) (a : Axis) (l : Loc) : Z :=
  if btype_eqb (outerSurfaceType c (face_lo a)) BT_MUR
  then Z.max (position c a l) 2 else position c a l.

(** Extra items (sources) that only touch each field value in place: the new
    value depends on constant data and on the old value only. *)
Definition in_place {V} (p : list (item V)) : Prop :=
  forall s, In s (flat p) -> kind (dst s) <> None /\
    forall l, In l (sreads s) -> l = dst s \/ kind l = None.
