(** Specification of C78: the same excitation, later. *)
From Coq Require Import ZArith List Bool Reals.
From Verif Require Import Types Lang Source PlaneWave SpecPw Whole.
Open Scope R_scope.

(** no source drives and no incident field enters at step [t] *)
Definition silent_at (d : Drv) (t : nat) : Prop :=
  (forall s, d_wE d t s = 0 /\ d_wH d t s = 0) /\ (forall p f i j k, d_iE d t p f i j k = 0 /\ d_iH d t p f i j k = 0).
(** [d'] does at step [t'] what [d] does at step [t] *)
Definition same_at (d : Drv) (t : nat) (d' : Drv) (t' : nat) : Prop :=
  (forall s, d_wE d' t' s = d_wE d t s /\ d_wH d' t' s = d_wH d t s) /\
  (forall p f i j k, d_iE d' t' p f i j k = d_iE d t p f i j k /\ d_iH d' t' p f i j k = d_iH d t p f i j k).
(** [d'] is [d] delayed by [k] steps *)
Definition delayed (k : nat) (d d' : Drv) : Prop := (forall t, (t < k)%nat -> silent_at d' t) /\ (forall t, same_at d t d' (k + t)).
(** the sources follow signals of time, evaluated at n dt for electric and at
    (n + 1/2) dt for magnetic ones; there are no plane waves *)
Definition follows (dt : R) (w : Src -> R -> R) (d : Drv) : Prop :=
  (forall n s, d_wE d n s = w s (INR n * dt) /\ d_wH d n s = w s ((INR n + 1 / 2) * dt)) /\
  (forall n p f i j k, d_iE d n p f i j k = 0 /\ d_iH d n p f i j k = 0).
