(** Specification of the discrete electromagnetic energy. *)
From Coq Require Import ZArith List Bool Reals.
From Verif Require Import Types Lang BBox Grid StepShape SpecPhys.
Import ListNotations.
Open Scope R_scope.

Definition sumZ (lo hi : Z) (f : Z -> R) : R := fold_right Rplus 0 (map f (zrange lo hi)).
(** sum over all points (i,j,k) with lim[LO] <= index <= lim[HI] *)
Definition sum3 (lim : BBox) (f : Z -> Z -> Z -> R) : R :=
  sumZ (lim XLO) (lim XHI) (fun i => sumZ (lim YLO) (lim YHI) (fun j => sumZ (lim ZLO) (lim ZHI) (fun k => f i j k))).

(** Volume belonging to a field value: primary edge along an E component and
    secondary edges across it; the opposite for an H component. *)
Definition vol (m : mem R) (f : Fld) (i j k : Z) : R :=
  let le a n := if axis_eqb a (fld_axis f) then de m a n else dh m a n in
  let lh a n := if axis_eqb a (fld_axis f) then dh m a n else de m a n in
  if is_E f then le XDIR i * le YDIR j * le ZDIR k else lh XDIR i * lh YDIR j * lh ZDIR k.

(** Let [m] be the state before and [m'] the state after a time step.  [m']
    holds E at time n and H at time n+1/2, [m] holds H at time n-1/2.  For
    lossless media beta = dt/eps and gamma = dt/mu, so this is
    (2/dt) * (1/2 sum eps E^2 + 1/2 sum mu H(n-1/2) H(n+1/2)). *)
Definition energy (c : Cfg) (m m' : mem R) : R :=
    sum3 (gfolim c EX) (fun i j k => vol m EX i j k / beta m EX i j k * (fld m' EX i j k * fld m' EX i j k))
  + sum3 (gfolim c EY) (fun i j k => vol m EY i j k / beta m EY i j k * (fld m' EY i j k * fld m' EY i j k))
  + sum3 (gfolim c EZ) (fun i j k => vol m EZ i j k / beta m EZ i j k * (fld m' EZ i j k * fld m' EZ i j k))
  + sum3 (gfolim c HX) (fun i j k => vol m HX i j k / gamma m HX i j k * (fld m HX i j k * fld m' HX i j k))
  + sum3 (gfolim c HY) (fun i j k => vol m HY i j k / gamma m HY i j k * (fld m HY i j k * fld m' HY i j k))
  + sum3 (gfolim c HZ) (fun i j k => vol m HZ i j k / gamma m HZ i j k * (fld m HZ i j k * fld m' HZ i j k)).

(** A closed lossless cavity: all walls PEC, every E value either lossless
    (alpha = 1, beta <> 0) or perfectly conducting (beta = 0, value 0), the
    tangential E on the walls being conducting; and inverse lengths that are
    the inverses of the lengths. *)
Definition on_wall (c : Cfg) (f : Fld) (i j k : Z) : Prop :=
  (fld_axis f <> XDIR /\ (i = gobox c XLO \/ i = gobox c XHI)) \/
  (fld_axis f <> YDIR /\ (j = gobox c YLO \/ j = gobox c YHI)) \/
  (fld_axis f <> ZDIR /\ (k = gobox c ZLO \/ k = gobox c ZHI)).
Record cavity (c : Cfg) (m : mem R) : Prop := {
  cav_walls : forall f, outerSurfaceType c f = BT_PEC;
  cav_E : forall f i j k, is_E f = true -> inl (gfolim c f) i j k ->
     (alpha m f i j k = 1 /\ beta m f i j k <> 0 /\ ~ on_wall c f i j k) \/
     (beta m f i j k = 0 /\ fld m f i j k = 0);
  cav_H : forall f i j k, is_E f = false -> inl (gfolim c f) i j k -> gamma m f i j k <> 0;
  cav_de : forall a n, (gobox c (face_lo a) <= n < gobox c (face_hi a))%Z -> de m a n * ide m a n = 1;
  cav_dh : forall a n, (gobox c (face_lo a) <= n <= gobox c (face_hi a))%Z -> dh m a n * idh m a n = 1 }.
