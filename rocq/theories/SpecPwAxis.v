(** Specification vocabulary for plane waves along a mesh axis. *)
From Coq Require Import ZArith Bool Reals.
From Verif Require Import Types Lang BBox Edges PmlProfile SpecPhys SpecYee SpecPw.
Open Scope R_scope.

(** ** Waves along a mesh axis.  [along th ph a fw]: the direction of
    propagation (theta, phi in degrees) is +a ([fw] = true) or -a. *)
Inductive along : R -> R -> Axis -> bool -> Prop :=
| al_zp ph : 0 <= ph < 360 -> along 0 ph ZDIR true
| al_zm ph : 0 <= ph < 360 -> along 180 ph ZDIR false
| al_xp : along 90 0 XDIR true
| al_yp : along 90 90 YDIR true
| al_xm : along 90 180 XDIR false
| al_ym : along 90 270 YDIR false.

(** The box holds free space, for time step [dt], and its cells have length [d]
    along axis [a] (their size along the other axes is arbitrary). *)
Definition free_space_box (m : mem R) (b : BBox) (a : Axis) (dt d : R) : Prop :=
  (forall f i j k, inBox b f i j k ->
     if is_E f then alpha m f i j k = 1 /\ beta m f i j k = dt / eps0 else gamma m f i j k = dt / mu0) /\
  (forall n, (b (face_lo a) <= n <= b (face_hi a))%Z -> idh m a n = / d) /\
  (forall n, (b (face_lo a) <= n < b (face_hi a))%Z -> ide m a n = / d).
