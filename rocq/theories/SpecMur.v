(** Specification of an absorbing face: waves leave through it at speed [v].

    Let x grow into the mesh.  A wave moving towards the face is a function of
    v t + x, so it satisfies dE/dt = v dE/dx.  The box scheme centres this
    equation between the face (value [e0], later [e0']) and the next plane
    (value [e1], later [e1']), and between the two time levels. *)
From Coq Require Import Reals.
Open Scope R_scope.

Definition outgoing (v dt d e0 e1 e0' e1' : R) : Prop :=
  ((e0' - e0) / dt + (e1' - e1) / dt) / 2 = v * (((e1 - e0) / d + (e1' - e0') / d) / 2).
