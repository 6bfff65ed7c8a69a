(** Specification vocabulary for the physical properties: real arithmetic,
    superposition of runs, divergence and energy. *)
From Coq Require Import ZArith List Bool Reals.
From Verif Require Import Types Lang BBox Grid Step SpecGrid SpecCone.
Import ListNotations.
Open Scope R_scope.

Definition rArith : Arith R := mkArith R Rplus Rminus Rmult Ropp.

(** [l] holds constant data (coefficients, cell sizes), or state *)
Definition is_data (l : Loc) : Prop := kind l = None.
Definition is_state (l : Loc) : Prop := kind l <> None.

(** Three right-hand sides that are the same linear expression of the state,
    except that where the first two inject the source values [v1], [v2] the
    third injects [a*v1+b*v2]. *)
Inductive sup (a b : R) : expr R -> expr R -> expr R -> Prop :=
| sup_rd l : is_state l -> sup a b (Rd l) (Rd l) (Rd l)
| sup_src v1 v2 : sup a b (Cst v1) (Cst v2) (Cst (a * v1 + b * v2))
| sup_add e1 e2 e3 f1 f2 f3 : sup a b e1 e2 e3 -> sup a b f1 f2 f3 -> sup a b (Add e1 f1) (Add e2 f2) (Add e3 f3)
| sup_sub e1 e2 e3 f1 f2 f3 : sup a b e1 e2 e3 -> sup a b f1 f2 f3 -> sup a b (Sub e1 f1) (Sub e2 f2) (Sub e3 f3)
| sup_neg e1 e2 e3 : sup a b e1 e2 e3 -> sup a b (Neg e1) (Neg e2) (Neg e3)
| sup_mull d e1 e2 e3 : (forall l, In l (reads d) -> is_data l) -> sup a b e1 e2 e3 ->
    sup a b (Mul d e1) (Mul d e2) (Mul d e3)
| sup_mulr d e1 e2 e3 : (forall l, In l (reads d) -> is_data l) -> sup a b e1 e2 e3 ->
    sup a b (Mul e1 d) (Mul e2 d) (Mul e3 d).

(** Programs that are statement by statement the superposition of two others. *)
Inductive sup_prog (a b : R) : list (stmt R) -> list (stmt R) -> list (stmt R) -> Prop :=
| sp_nil : sup_prog a b [] [] []
| sp_cons d e1 e2 e3 p1 p2 p3 : is_state d -> sup a b e1 e2 e3 -> sup_prog a b p1 p2 p3 ->
    sup_prog a b (Asg d e1 :: p1) (Asg d e2 :: p2) (Asg d e3 :: p3).

(** m3 = a*m1 + b*m2 on the state, same data *)
Definition sup_mem (a b : R) (m1 m2 m3 : mem R) : Prop :=
  (forall l, is_data l -> m1 l = m3 l /\ m2 l = m3 l) /\
  (forall l, is_state l -> m3 l = a * m1 l + b * m2 l).

Definition quiet (m : mem R) : Prop := forall l, is_state l -> m l = 0.

(** Field values and cell data. *)
Section Access.
Variable m : mem R.
Definition fld (f : Fld) (i j k : Z) : R := m (L (AF f) i j k).
Definition alpha (f : Fld) (i j k : Z) : R := m (L (AAlpha f) i j k).
Definition beta (f : Fld) (i j k : Z) : R := m (L (ABeta f) i j k).
Definition gamma (f : Fld) (i j k : Z) : R := m (L (AGamma f) i j k).
Definition de (a : Axis) (n : Z) : R := m (L (ADe a) n 0 0).   (* primary edge lengths *)
Definition dh (a : Axis) (n : Z) : R := m (L (ADh a) n 0 0).   (* secondary edge lengths *)
Definition ide (a : Axis) (n : Z) : R := m (L (AIde a) n 0 0).
Definition idh (a : Axis) (n : Z) : R := m (L (AIdh a) n 0 0).

(** Magnetic flux density times 1/dt: gamma = dt/mu, so H/gamma = mu*H/dt. *)
Definition Bf (f : Fld) (i j k : Z) : R := fld f i j k / gamma f i j k.
(** Net outward magnetic flux of cell (i,j,k), times 1/dt. *)
Definition netflux (i j k : Z) : R :=
    de YDIR j * de ZDIR k * (Bf HX (i+1) j k - Bf HX i j k)
  + de XDIR i * de ZDIR k * (Bf HY i (j+1) k - Bf HY i j k)
  + de XDIR i * de YDIR j * (Bf HZ i j (k+1) - Bf HZ i j k).
End Access.
