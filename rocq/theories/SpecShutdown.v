(** Specification for C86: a memory checker that follows the program's use of
    what it allocates and opens, and what a file is. *)
From Coq Require Import List String Bool.
From Verif Require Import Shutdown.
Import ListNotations.
Open Scope string_scope.

Definition res_dec (a b : Res) : {a = b} + {a <> b}.
Proof. decide equality; auto using string_dec, PeanoNat.Nat.eq_dec. Defined.

(** [live] is what has been allocated or opened and not yet released.  [None]:
    something was allocated where it already lives, used when it does not live,
    or released when it does not live (twice, or never allocated). *)
Fixpoint checker (live : list Res) (events : list Ev) : option (list Res) :=
  match events with
  | [] => Some live
  | Alloc r :: es => if in_dec res_dec r live then None else checker (r :: live) es
  | Use r :: es => if in_dec res_dec r live then checker live es else None
  | Free r :: es => if in_dec res_dec r live then checker (remove res_dec r live) es else None
  end.

(** the files the program opens: what it writes (the log, an output file per
    ASCII observer, the files of the binary observers) and the mesh it reads *)
Definition is_file (r : Res) : Prop :=
  r_part r = "outputFile" \/ In (r_of r) ["logFile"; "meshFile"; "exciteFile"; "processFile"; "impulseDatFile"].
