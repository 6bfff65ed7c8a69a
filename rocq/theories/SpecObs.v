(** Specification of the output files: which samples each file must contain. *)
From Coq Require Import ZArith List Bool Reals.
From Verif Require Import Types Lang BBox Grid Step Observer.
Import ListNotations.
Open Scope R_scope.

(** The fields after [n] complete time steps. *)
Definition fieldsAfter (c : Cfg) (A : Arith R) (xE xH : nat -> list (item R)) (m : mem R) (n : Z) : mem R :=
  run A (flat (steps c xE xH 0 (Z.to_nat n))) m.
(** The six field components of mesh node (i,j,k). *)
Definition sixFields (c : Cfg) (m : mem R) (i j k : Z) : list R :=
  map (fun f => m (L (AF f) (gibox c XLO + i)%Z (gibox c YLO + j)%Z (gibox c ZLO + k)%Z)) [EX; EY; EZ; HX; HY; HZ].
Definition nodeOf (o : Obs) : Z * Z * Z := (o_mbbox o XLO, o_mbbox o YLO, o_mbbox o ZLO).
Definition sixAt (c : Cfg) (m : mem R) (o : Obs) : list R := let '(i, j, k) := nodeOf o in sixFields c m i j k.

(** Discrete Fourier transform of the samples x(n), n in [ns], taken at the times
    n dt: (real part, imaginary part) of the sum of x(n) exp(- j w n dt). *)
Definition sumOver (ns : list Z) (x : Z -> R) : R := fold_right Rplus 0 (map x ns).
Definition Fourier (ns : list Z) (x : Z -> R) (w dt : R) : R * R :=
  (sumOver ns (fun n => x n * cos (w * (IZR n * dt))), - sumOver ns (fun n => x n * sin (w * (IZR n * dt)))).
Definition cmul (a b : R * R) : R * R := (fst a * fst b - snd a * snd b, fst a * snd b + snd a * fst b).

(** Indices lo, lo+st, lo+2st, ... not above hi. *)
Definition stride (lo hi st : Z) : list Z :=
  map (fun n => (lo + Z.of_nat n * st)%Z) (seq 0 (Z.to_nat (1 + (hi - lo) / st))).
(** Nodes of a box visited with the given strides, x fastest. *)
Definition strideNodes (b : BBox) (st : Axis -> Z) : list (Z * Z * Z) :=
  flat_map (fun k => flat_map (fun j => map (fun i => (i, j, k)) (stride (b XLO) (b XHI) (st XDIR)))
    (stride (b YLO) (b YHI) (st YDIR))) (stride (b ZLO) (b ZHI) (st ZDIR)).
(** Time steps of a run of NT steps inside the output window. *)
Definition window (a b NT : Z) : list Z := zrange a (Z.min b (NT - 1)).
