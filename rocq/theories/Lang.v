(** A small imperative language for the solver's inner loops and its
    semantics.  A C assignment statement becomes one [stmt]; a C loop nest
    becomes the list of the statements it executes, in execution order; an
    OpenMP [parallel for] becomes a [Par] item holding one task per iteration
    of the parallelised loop.

    The arithmetic is an arbitrary record of operations without laws, so every
    theorem stated over an arbitrary [Arith] holds for IEEE single precision
    with any rounding as well as for the real numbers. *)
From Coq Require Import ZArith List Bool Lia.
From Verif Require Import Types.
Import ListNotations.
Open Scope Z_scope.

(** The C type [real] (fdtd_types.h:36 [typedef float real]) and the
    operators the update loops apply to it. *)
Record Arith (V : Type) := mkArith {
  vadd : V -> V -> V; vsub : V -> V -> V; vmul : V -> V -> V; vneg : V -> V }.
Arguments vadd {V}. Arguments vsub {V}. Arguments vmul {V}. Arguments vneg {V}.

(** Right-hand sides: array reads, constants, + - * and unary minus. *)
Inductive expr (V : Type) :=
| Rd (l : Loc) | Cst (v : V)
| Add (a b : expr V) | Sub (a b : expr V) | Mul (a b : expr V) | Neg (a : expr V).
Arguments Rd {V}. Arguments Cst {V}. Arguments Add {V}. Arguments Sub {V}.
Arguments Mul {V}. Arguments Neg {V}.

Inductive stmt (V : Type) := Asg (dst : Loc) (rhs : expr V).
Arguments Asg {V}.
Definition dst {V} (s : stmt V) : Loc := let 'Asg d _ := s in d.
Definition rhs {V} (s : stmt V) : expr V := let 'Asg _ e := s in e.

(** Locations read by an expression. *)
Fixpoint reads {V} (e : expr V) : list Loc :=
  match e with
  | Rd l => [l] | Cst _ => []
  | Add a b | Sub a b | Mul a b => reads a ++ reads b
  | Neg a => reads a
  end.
Definition sreads {V} (s : stmt V) : list Loc := reads (rhs s).

Definition mem (V : Type) := Loc -> V.
Definition upd {V} (m : mem V) (l : Loc) (v : V) : mem V :=
  fun l' => if loc_dec l' l then v else m l'.
Definition meq {V} (m m' : mem V) : Prop := forall l, m l = m' l.

Fixpoint eval {V} (A : Arith V) (m : mem V) (e : expr V) : V :=
  match e with
  | Rd l => m l
  | Cst v => v
  | Add a b => vadd A (eval A m a) (eval A m b)
  | Sub a b => vsub A (eval A m a) (eval A m b)
  | Mul a b => vmul A (eval A m a) (eval A m b)
  | Neg a => vneg A (eval A m a)
  end.

Definition run1 {V} (A : Arith V) (m : mem V) (s : stmt V) : mem V :=
  upd m (dst s) (eval A m (rhs s)).
(** Sequential execution. *)
Definition run {V} (A : Arith V) (ss : list (stmt V)) (m : mem V) : mem V :=
  fold_left (run1 A) ss m.

(** ** Undefined behaviour: an access outside an allocated array.
    [dims a = None] is a NULL array. *)
Definition Dims := Arr -> option (Z * Z * Z).
Definition inb (d : Dims) (l : Loc) : bool :=
  match d (arr l) with
  | None => false
  | Some (nx, ny, nz) =>
      (0 <=? li l) && (li l <? nx) && (0 <=? lj l) && (lj l <? ny)
      && (0 <=? lk l) && (lk l <? nz)
  end.
Definition sinb (d : Dims) {V} (s : stmt V) : bool :=
  inb d (dst s) && forallb (inb d) (sreads s).
Fixpoint runO {V} (A : Arith V) (d : Dims) (ss : list (stmt V)) (m : mem V) : option (mem V) :=
  match ss with
  | [] => Some m
  | s :: ss' => if sinb d s then runO A d ss' (run1 A m s) else None  (* UB *)
  end.

(** ** C [for( x = lo ; x <= hi ; x++ )]. *)
Definition zrange (lo hi : Z) : list Z :=
  map (fun n => lo + Z.of_nat n) (seq 0 (Z.to_nat (hi - lo + 1))).
Definition for_ {S} (lo hi : Z) (body : Z -> list S) : list S :=
  flat_map body (zrange lo hi).

(** ** Program items and their parallel semantics. *)
Inductive item (V : Type) :=
| Seq (ss : list (stmt V))
| Par (tasks : list (list (stmt V))).
Arguments Seq {V}. Arguments Par {V}.
Definition flat_item {V} (it : item V) : list (stmt V) :=
  match it with Seq ss => ss | Par ts => concat ts end.
Definition flat {V} (p : list (item V)) : list (stmt V) := flat_map flat_item p.
Definition par_for {V} (lo hi : Z) (body : Z -> list (stmt V)) : item V :=
  Par (map body (zrange lo hi)).

(** Small-step interleaving.  A micro-step of one thread reads ONE memory
    cell, or performs one write once all the reads of the statement are done.
    [red m e e'] : [e'] is [e] with one array read replaced by the value the
    memory holds now. *)
Inductive red {V} (m : mem V) : expr V -> expr V -> Prop :=
| red_rd l : red m (Rd l) (Cst (m l))
| red_addl a a' b : red m a a' -> red m (Add a b) (Add a' b)
| red_addr a b b' : red m b b' -> red m (Add a b) (Add a b')
| red_subl a a' b : red m a a' -> red m (Sub a b) (Sub a' b)
| red_subr a b b' : red m b b' -> red m (Sub a b) (Sub a b')
| red_mull a a' b : red m a a' -> red m (Mul a b) (Mul a' b)
| red_mulr a b b' : red m b b' -> red m (Mul a b) (Mul a b')
| red_neg a a' : red m a a' -> red m (Neg a) (Neg a').

Inductive tstep {V} (A : Arith V) : mem V -> list (stmt V) -> mem V -> list (stmt V) -> Prop :=
| tstep_read m d e e' ss : red m e e' -> tstep A m (Asg d e :: ss) m (Asg d e' :: ss)
| tstep_write m d e ss : reads e = [] ->
    tstep A m (Asg d e :: ss) (upd m d (eval A m e)) ss.

(** One step of one of the threads. *)
Inductive pstep {V} (A : Arith V) : mem V -> list (list (stmt V)) -> mem V -> list (list (stmt V)) -> Prop :=
| pstep_at m pre t post m' t' : tstep A m t m' t' ->
    pstep A m (pre ++ t :: post) m' (pre ++ t' :: post).

Inductive psteps {V} (A : Arith V) : mem V -> list (list (stmt V)) -> mem V -> list (list (stmt V)) -> Prop :=
| psteps_refl m ts : psteps A m ts m ts
| psteps_step m ts m1 ts1 m2 ts2 :
    pstep A m ts m1 ts1 -> psteps A m1 ts1 m2 ts2 -> psteps A m ts m2 ts2.

(** [par_exec A it m m'] : some interleaving of the threads of [it] started in
    [m] terminates (implicit barrier at the end of [parallel for]) in [m']. *)
Definition par_exec {V} (A : Arith V) (it : item V) (m m' : mem V) : Prop :=
  match it with
  | Seq ss => m' = run A ss m
  | Par ts => exists ts', psteps A m ts m' ts' /\ Forall (fun t => t = []) ts'
  end.

Inductive prog_exec {V} (A : Arith V) : list (item V) -> mem V -> mem V -> Prop :=
| pe_nil m : prog_exec A [] m m
| pe_cons it p m m1 m2 : par_exec A it m m1 -> prog_exec A p m1 m2 -> prog_exec A (it :: p) m m2.

(** Footprints, and the absence of conflicting accesses between two tasks
    (Bernstein's conditions; a pair violating them is a data race in the sense
    of the OpenMP/C memory model). *)
Definition twrites {V} (t : list (stmt V)) : list Loc := map dst t.
Definition treads {V} (t : list (stmt V)) : list Loc := flat_map sreads t.
Definition no_conflict {V} (t u : list (stmt V)) : Prop :=
  forall l, In l (twrites t) -> ~ In l (twrites u) /\ ~ In l (treads u).
Definition race_free {V} (it : item V) : Prop :=
  match it with
  | Seq _ => True
  | Par ts => forall pre t mid u post, ts = pre ++ t :: mid ++ u :: post ->
                no_conflict t u /\ no_conflict u t
  end.
