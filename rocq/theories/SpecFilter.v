(** Specification of C39: convolution with a pole-residue impulse response. *)
From Coq Require Import List Reals.
From Coquelicot Require Import Coquelicot.
Import ListNotations.
Open Scope R_scope.

(** sample n of the input; 0 before the first *)
Definition sample (x : list R) (n : nat) : R := nth n x 0.
Definition before (x : list R) (n : nat) : R := match n with O => 0 | S m => sample x m end.
(** [u] is the signal that takes the values of [x] at 0, T, 2T, ... , is 0 at -T
    and linear in between *)
Definition linear_between (T : R) (x : list R) (u : R -> R) : Prop :=
  forall n t, (n < length x)%nat -> (INR n - 1) * T <= t <= INR n * T ->
  u t = before x n + (t - (INR n - 1) * T) / T * (sample x n - before x n).
(** real part of r e^(p t), for p = a + ib and r = c + id *)
Definition response (a b c d t : R) : R := exp (a * t) * (c * cos (b * t) - d * sin (b * t)).
