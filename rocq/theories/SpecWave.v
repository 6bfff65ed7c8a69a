(** Specification vocabulary for waveforms, independent of the code. *)
From Coq Require Import ZArith List Reals.
Import ListNotations.
Open Scope R_scope.

(** A function that is a cubic polynomial, with its first and second
    derivatives. *)
Definition poly (c : R * R * R * R) (x : R) : R := let '(a0, a1, a2, a3) := c in a0 + a1 * x + a2 * x ^ 2 + a3 * x ^ 3.
Definition poly' (c : R * R * R * R) (x : R) : R := let '(a0, a1, a2, a3) := c in a1 + 2 * a2 * x + 3 * a3 * x ^ 2.
Definition poly'' (c : R * R * R * R) (x : R) : R := let '(a0, a1, a2, a3) := c in 2 * a2 + 6 * a3 * x.

(** S is the clamped cubic spline through the samples (T i, Y i), 0 <= i < n:
    cubic between consecutive samples, through the samples, with continuous
    first and second derivatives, and zero slope at both ends. *)
Definition clamped_spline (n : Z) (T Y : Z -> R) (S : R -> R) : Prop :=
  exists c : Z -> R * R * R * R,
    (forall i x, (0 <= i < n - 1)%Z -> T i <= x <= T (i + 1)%Z -> S x = poly (c i) x) /\
    (forall i, (0 <= i < n)%Z -> S (T i) = Y i) /\
    (forall i, (0 <= i < n - 2)%Z ->
       poly' (c i) (T (i + 1)%Z) = poly' (c (i + 1)%Z) (T (i + 1)%Z) /\
       poly'' (c i) (T (i + 1)%Z) = poly'' (c (i + 1)%Z) (T (i + 1)%Z)) /\
    poly' (c 0%Z) (T 0%Z) = 0 /\ poly' (c (n - 2)%Z) (T (n - 1)%Z) = 0.

(** A sampled waveform file: at least two samples, times strictly increasing. *)
Definition good_samples (l : list (R * R)) : Prop :=
  (2 <= length l)%nat /\ forall i, (S i < length l)%nat -> fst (nth i l (0, 0)) < fst (nth (S i) l (0, 0)).
Definition sampleT (l : list (R * R)) (i : Z) : R := fst (nth (Z.to_nat i) l (0, 0)).
Definition sampleY (l : list (R * R)) (i : Z) : R := snd (nth (Z.to_nat i) l (0, 0)).

(** UserManual.tex:1690-1704, table of default parameters for a time step dt:
    (size, delay, width, modulation frequency); delay "n/a" is 0, frequency
    "n/a" is 0. *)
From Coq Require Import String.
Definition manual_defaults (ty : string) (dt : R) : option (R * R * R * R) :=
  (if String.eqb ty "GAUSSIAN_PULSE" then Some (1, 40 * dt, 5 * sqrt 2 * dt, 0)
  else if String.eqb ty "NARROW_GAUSSIAN_PULSE" then Some (1, 12 * dt, 2 * dt, 0)
  else if String.eqb ty "DIFF_GAUSSIAN_PULSE" then Some (1, 40 * dt, 5 * sqrt 2 * dt, 0)
  else if String.eqb ty "RICKER_WAVELET" then Some (1, 40 * dt, 5 * sqrt 2 * dt, 0)
  else if String.eqb ty "COMPACT_PULSE" then Some (1, 0, 20 * dt, 0)
  else if String.eqb ty "DIFF_COMPACT_PULSE" then Some (1, 0, 20 * dt, 0)
  else if String.eqb ty "RAMPED_SINUSOID" then Some (1, 0, 20 * dt, 1 / (20 * dt))
  else if String.eqb ty "MOD_GAUSSIAN_PULSE" then Some (1, 120 * dt, 20 * sqrt 2 * dt, 1 / (20 * dt))
  else if String.eqb ty "MOD_COMPACT_PULSE" then Some (1, 0, 80 * dt, 1 / (20 * dt))
  else None)%string.
(** the i-th number on the card if present, else the default *)
Definition or_default (args : list R) (i : nat) (d : R) : R := nth i args d.
