(** Specification of the cell geometry. *)
From Coq Require Import ZArith List Bool Reals.
From Verif Require Import Types BBox Grid CArr.
Open Scope R_scope.

(** coordinate of mesh line [i] of an axis *)
Definition line (lines : Axis -> carr R) (a : Axis) (i : Z) : R := adat (lines a) i.
(** size of mesh cell [i], 0 <= i < numLines-1 *)
Definition cell (lines : Axis -> carr R) (a : Axis) (i : Z) : R := line lines a (i + 1) - line lines a i.
(** mesh cell next to grid cell [i] of the extended grid: clamp to the mesh *)
Definition mesh_cell (c : Cfg) (a : Axis) (i : Z) : Z :=
  Z.max 0 (Z.min (numLines c a - 2) (i - gibox c (face_lo a))).
Definition increasing (c : Cfg) (lines : Axis -> carr R) : Prop :=
  forall a i, (0 <= i < numLines c a - 1)%Z -> line lines a i < line lines a (i + 1).
Definition has_lines (c : Cfg) (lines : Axis -> carr R) : Prop :=
  forall a, alen (lines a) = numLines c a.

(** largest stable time step of a uniform mesh of dx x dy x dz cells in free
    space, 1 / ( c sqrt( 1/dx^2 + 1/dy^2 + 1/dz^2 ) ) *)
Definition courant_limit (c dx dy dz : R) : R :=
  1 / (c * sqrt (/ (dx * dx) + / (dy * dy) + / (dz * dz))).
