(** Specification vocabulary for the analytic incident wave and for the energy
    of the auxiliary grid. *)
From Coq Require Import ZArith List Bool Reals.
From Verif Require Import Types BBox Grid CArr SpecGeom SpecEdges SpecPhys SpecEnergy PmlProfile PlaneWave SpecPw.
Open Scope R_scope.

(** physical coordinate of a field sample: the mesh line of its index, or half
    way to the next one where the component is staggered *)
Definition sampleAt (c : Cfg) (lines : Axis -> carr R) (f : Fld) (i j k : Z) (a : Axis) : R :=
  let n := (ind i j k a - gibox c (face_lo a))%Z in
  if staggered f a then (line lines a n + line lines a (n + 1)) / 2 else line lines a n.
(** physical coordinate of a node *)
Definition nodeAt (c : Cfg) (lines : Axis -> carr R) (o : Axis -> Z) (a : Axis) : R := line lines a (o a - gibox c (face_lo a))%Z.
(** distance from node [o] to the sample along the direction [k] *)
Definition travel (c : Cfg) (lines : Axis -> carr R) (k : Axis -> R) (o : Axis -> Z) (f : Fld) (i j l : Z) : R :=
  dot k (fun a => sampleAt c lines f i j l a - nodeAt c lines o a).

(** energy in the auxiliary grid: eps0 E^2 + mu0 H^2 over its cells *)
Definition auxEnergy (g : BBox) (x : Aux) : R :=
  sumZ 0 (auxNx g) (fun i => eps0 * (adat (Eyi x) i * adat (Eyi x) i)) +
  sumZ 0 (auxNx g - 1) (fun i => mu0 * (adat (Hzi x) i * adat (Hzi x) i)).
