(** Vocabulary for the wall properties C15, C16. *)
From Coq Require Import ZArith List Bool.
From Verif Require Import Types Lang BBox Grid Ghost StepShape GhostValue StepClosed.
Open Scope Z_scope.

(** Cell index, along the axis of a face, of the cell just outside and just
    inside the outer grid at that face. *)
Definition cell_outside (c : Cfg) (F : Face) : Z := if is_lo F then gobox c F - 1 else gobox c F.
Definition cell_inside (c : Cfg) (F : Face) : Z := if is_lo F then gobox c F else gobox c F - 1.
(** [p] with its coordinate along [a] replaced by [n] is [setc a n p]. *)

(** in-plane coordinates within the outer grid and one layer of ghost cells *)
Definition in_plane (c : Cfg) (a : Axis) (i j k : Z) : Prop :=
  forall b, b <> a -> gobox c (face_lo b) - 1 <= coord b (L (AF EX) i j k) <= gobox c (face_hi b).
(** value of field [f] of [m] at (i,j,k) with the coordinate along [a] replaced *)
Definition at_plane {V} (m : mem V) (f : Fld) (a : Axis) (n i j k : Z) : V := m (setc a n (L (AF f) i j k)).

(** ** C16 *)
Section Per.
Context {V : Type} (A : Arith V).
Variables (c : Cfg) (a : Axis).   (* [a] is the periodic axis *)
Notation lo := (gobox c (face_lo a)). Notation hi := (gobox c (face_hi a)).
(** in the outer grid, along every axis other than [a] *)
Definition inE (b : Axis) (l : Loc) : Prop := (* in-plane range of E_b *)
  forall d, d <> a -> gobox c (face_lo d) <= coord d l <= gobox c (face_hi d) - (if axis_eqb d b then 1 else 0).
Definition inH (l : Loc) : Prop := (* in-plane range of H_a *)
  forall d, d <> a -> gobox c (face_lo d) <= coord d l <= gobox c (face_hi d) - 1.

(** coefficients and cell sizes agree on the two faces *)
Record pdata (m : mem V) : Prop := {
  pd_a : forall b l, b <> a -> inE b l -> m (wa (AAlpha (Efld b)) (setc a lo l)) = m (wa (AAlpha (Efld b)) (setc a hi l));
  pd_b : forall b l, b <> a -> inE b l -> m (wa (ABeta (Efld b)) (setc a lo l)) = m (wa (ABeta (Efld b)) (setc a hi l));
  pd_g : forall l, inH l -> m (wa (AGamma (Hfld a)) (setc a lo l)) = m (wa (AGamma (Hfld a)) (setc a hi l));
  pd_d : m (L (AIdh a) lo 0 0) = m (L (AIdh a) hi 0 0) }.
(** fields agree on the two faces; ghost values are those left by a step (e.g.
    all zero) *)
Record pstate (m : mem V) : Prop := {
  ps_E : forall b l, b <> a -> inE b l -> m (wa (AF (Efld b)) (setc a lo l)) = m (wa (AF (Efld b)) (setc a hi l));
  ps_H : forall l, inH l -> m (wa (AF (Hfld a)) (setc a lo l)) = m (wa (AF (Hfld a)) (setc a hi l));
  ps_g : forall F, rel A c false F m }.

End Per.
