(** One time step.  Models the body of the loop of /repo/src/simulation.c:160-220. *)
From Coq Require Import ZArith List Bool.
From Verif Require Import Types Lang BBox Grid Pml Mur Ghost.
Import ListNotations.
Open Scope Z_scope.

(** Extents of all arrays touched by a time step: grid.c:457-580, pml.c:632-785,
    zeta[6] mur.c:52.  The iteration-private scalars are one cell per grid
    index. *)
Definition dims (c : Cfg) : Dims := fun a =>
  match a with
  | AF _ | AAlpha _ | ABeta _ | AGamma _ => Some (dims3 c)
  | ADe x | ADh x | AIde x | AIdh x => Some (dims1 c x)
  | APml _ x => Some (dims1 c x)
  | APP r f | AP r f | AB r f => pmlDims c r f
  | AZeta => Some (6, 1, 1)
  | ATmp _ => Some (dims3 c)
  end.

Section Step.
Context {V : Type}.

(** surface.c:510-523 updateExternalSurfacesEfield then grid.c:709
    updateGridEfield. *)
Definition phaseE (c : Cfg) : list (item V) :=
  updatePmlEfield c ++ updateMurEfield c ++ updateGridEfield c.
(** surface.c:526-540 updateExternalSurfacesHfield then grid.c:800
    updateGridHfield. *)
Definition phaseH (c : Cfg) : list (item V) :=
  updatePmlHfield c ++ updateMurHfield c ++ updateGridHfield c.

(** simulation.c:172-219: [xE] and [xH] are the field updates that the mesh file
    can add between the grid update and the ghost update: dispersive blocks,
    sources and plane waves (updateInternalSurfaces* and updateLines* are
    no-ops in the default build: surface.c:543-563, line.c). *)
Definition timeStep (c : Cfg) (xE xH : list (item V)) : list (item V) :=
  phaseE c ++ xE ++ updateGhostEfield c ++ phaseH c ++ xH ++ updateGhostHfield c.

Definition coreStep (c : Cfg) : list (item V) := timeStep c [] [].

(** n steps, step number t having the extra items [xE t], [xH t] *)
Fixpoint steps (c : Cfg) (xE xH : nat -> list (item V)) (t n : nat) : list (item V) :=
  match n with
  | O => []
  | S n' => timeStep c (xE t) (xH t) ++ steps c xE xH (S t) n'
  end.
End Step.
