(** Specification of the completion of the external surfaces, in terms of what
    the user declared. *)
From Coq Require Import ZArith List String.
From Verif Require Import Types Setup SpecGrid.
Import ListNotations.
Open Scope Z_scope.

(** The boundary a user has asked for on a face: the most recent declaration
    with the face's name, or a six-layer PML when there is none. *)
Definition declared (reg : BReg) (f : Face) : option BData :=
  option_map idata (find (fun it => String.eqb (iname it) (FACE f)) (rev reg)).
Definition wanted (reg : BReg) (f : Face) : BData :=
  match declared reg f with Some d => d | None => mkB BT_PML 6 end.

(** Reasons to refuse the run. *)
Definition bad_face (reg : BReg) (f : Face) : Prop :=
  let w := wanted reg f in
  btype w = BT_FREE_SPACE \/ btype w = BT_SIBC \/
  (btype w = BT_PML /\ blayers w < 1) \/
  (btype w = BT_PERIODIC /\ btype (wanted reg (opposite f)) <> BT_PERIODIC).
