(** Specification vocabulary for the stability of the time stepping. *)
From Coq Require Import ZArith List Bool Reals.
From Verif Require Import Types Lang BBox Grid StepShape SpecPhys SpecEnergy CArr Edges.
Open Scope R_scope.

(** sums over all electric / all magnetic field values of the grid *)
Definition sumE (c : Cfg) (g : Fld -> Z -> Z -> Z -> R) : R :=
  sum3 (gfolim c EX) (g EX) + sum3 (gfolim c EY) (g EY) + sum3 (gfolim c EZ) (g EZ).
Definition sumH (c : Cfg) (g : Fld -> Z -> Z -> Z -> R) : R :=
  sum3 (gfolim c HX) (g HX) + sum3 (gfolim c HY) (g HY) + sum3 (gfolim c HZ) (g HZ).

(** Permittivity divided by the time step: with s = sigma dt / (2 eps) the
    coefficients are alpha = (1-s)/(1+s) and beta = (dt/eps)/(1+s), so this is
    eps/dt.  Permeability divided by the time step is 1/gamma. *)
Definition eps_dt (m : mem R) (f : Fld) (i j k : Z) : R := (1 + alpha m f i j k) / (2 * beta m f i j k).
Definition mu_dt (m : mem R) (f : Fld) (i j k : Z) : R := / gamma m f i j k.

(** half the conductivity: with s as above, sigma/2 = s eps/dt *)
Definition sigma_half (m : mem R) (f : Fld) (i j k : Z) : R := (1 - alpha m f i j k) / (2 * beta m f i j k).

(** (2/dt) times the electromagnetic energy held by a state: the sum of
    eps E^2/2 + mu H^2/2 over the cells.  On a conducting edge (beta = 0) the
    field is 0 and so is its term. *)
Definition fieldEnergy (c : Cfg) (m : mem R) : R :=
  sumE c (fun f i j k => vol m f i j k * eps_dt m f i j k * (fld m f i j k * fld m f i j k)) +
  sumH c (fun f i j k => vol m f i j k * mu_dt m f i j k * (fld m f i j k * fld m f i j k)).

(** the same between two consecutive states: E at the end of the step, and the
    product of H half a step before and half a step after it *)
Definition leapEnergy (c : Cfg) (m m' : mem R) : R :=
  sumE c (fun f i j k => vol m f i j k * eps_dt m f i j k * (fld m' f i j k * fld m' f i j k)) +
  sumH c (fun f i j k => vol m f i j k * mu_dt m f i j k * (fld m f i j k * fld m' f i j k)).

(** the energy dissipated in a step, in the same units: sigma/2 (E + E')^2 *)
Definition dissipated (c : Cfg) (m m' : mem R) : R :=
  sumE c (fun f i j k => vol m f i j k * sigma_half m f i j k * ((fld m f i j k + fld m' f i j k) * (fld m f i j k + fld m' f i j k))).

(** A closed cavity filled with passive media: all walls PEC; every E value
    belongs to a medium with permittivity > 0 and conductivity >= 0
    (-1 < alpha <= 1, beta > 0) or to a perfect conductor. *)
Record passive_cavity (c : Cfg) (m : mem R) : Prop := {
  pc_walls : forall f, outerSurfaceType c f = BT_PEC;
  pc_E : forall f i j k, is_E f = true -> inl (gfolim c f) i j k ->
     (-1 < alpha m f i j k <= 1 /\ 0 < beta m f i j k /\ ~ on_wall c f i j k) \/
     (beta m f i j k = 0 /\ fld m f i j k = 0);
  pc_H : forall f i j k, is_E f = false -> inl (gfolim c f) i j k -> 0 < gamma m f i j k;
  pc_de : forall a n, (gobox c (face_lo a) <= n < gobox c (face_hi a))%Z -> 0 < de m a n /\ de m a n * ide m a n = 1;
  pc_dh : forall a n, (gobox c (face_lo a) <= n <= gobox c (face_hi a))%Z -> 0 < dh m a n /\ dh m a n * idh m a n = 1;
  pc_mid : forall a n, (gobox c (face_lo a) < n < gobox c (face_hi a))%Z -> dh m a n = (de m a (n - 1) + de m a n) / 2 }.

(** The Courant condition with Courant number [q] for a time step [dt]: no
    medium is faster than a medium with permittivity [e0] and permeability
    [u0], and q is at least the Courant number of the smallest cells, of sizes
    [mn]. *)
Record courant_ok (c : Cfg) (m : mem R) (q dt e0 u0 : R) (mn : Axis -> R) : Prop := {
  co_pos : 0 < dt /\ 0 < e0 /\ 0 < u0 /\ forall a, 0 < mn a;
  co_eps : forall f i j k, is_E f = true -> inl (gfolim c f) i j k -> beta m f i j k <> 0 -> e0 / dt <= eps_dt m f i j k;
  co_mu : forall f i j k, is_E f = false -> inl (gfolim c f) i j k -> u0 / dt <= mu_dt m f i j k;
  co_de : forall a n, (gobox c (face_lo a) <= n < gobox c (face_hi a))%Z -> mn a <= de m a n;
  co_lim : dt * dt / (e0 * u0) * (/ (mn XDIR * mn XDIR) + / (mn YDIR * mn YDIR) + / (mn ZDIR * mn ZDIR)) <= q * q }.

(** the cell sizes computed at set-up, in the arrays of the program *)
Definition edges_in (c : Cfg) (e : Axis -> Edges) (m : mem R) : Prop :=
  forall a n, (0 <= n < numCells c a)%Z ->
    de m a n = adat (eDe (e a)) n /\ ide m a n = adat (eIde (e a)) n /\
    dh m a n = adat (eDh (e a)) n /\ idh m a n = adat (eIdh (e a)) n.
