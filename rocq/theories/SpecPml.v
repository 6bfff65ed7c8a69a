(** Specification of the PML: grading of the stretching factor
    s = kappa + sigma / (j omega eps0) with depth, and the discrete equations
    it stands for. *)
From Coq Require Import ZArith List Bool Reals.
From Verif Require Import Types.
Open Scope R_scope.

(** Polynomial grading at relative depth [x] (0 at the interface with the
    mesh, 1 at the outer wall): kappa and sigma. *)
Definition graded_kappa (order : nat) (kmax x : R) : R := 1 + (kmax - 1) * x ^ order.
Definition graded_sigma (order : nat) (smax x : R) : R := smax * x ^ order.

(** Relative depth of the point at half-cell position [p] of an axis whose
    mesh spans nodes lo..hi and which has nlo, nhi layers beyond them. *)
Definition rel_depth (lo hi nlo nhi p : Z) : R :=
  if (p <? 2 * lo)%Z then IZR (2 * lo - p) / IZR (2 * nlo)
  else if (2 * hi <? p)%Z then IZR (p - 2 * hi) / IZR (2 * nhi) else 0.

(** The largest conductivity: from the required normal-incidence reflection
    coefficient (Taflove (7.57)) or the optimum of (7.61). *)
Definition sigma_for_reflection (eta n_eff depth refl : R) (order : nat) : R :=
  - (INR order + 1) * ln refl / (2 * eta * n_eff * depth).
Definition sigma_optimum (eta n_eff cell : R) (order : nat) : R :=
  8 / 10 * (INR order + 1) / (eta * n_eff * cell).

(** One semi-implicit step of  kappa dy/dt + (sigma/eps0) y = dx/dt  with
    u = sigma dt / (2 eps0):
    kappa (y' - y) + u (y' + y) = x' - x. *)
Definition relax (kappa u y y' dx : R) : Prop := kappa * (y' - y) + u * (y' + y) = dx.
