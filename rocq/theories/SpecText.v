(** Specification of comments and white space, on lists of characters. *)
From Coq Require Import ZArith List Bool.
From Verif Require Import CStr.
Import ListNotations.
Open Scope Z_scope.

(** The C string held by a buffer: everything before the first NUL. *)
Fixpoint cstr (b : buf) : list Z :=
  match b with [] => [] | c :: b' => if c =? 0 then [] else c :: cstr b' end.
Definition terminated (b : buf) : Prop := In 0 b.

(** Text before the first '#'. *)
Fixpoint before_hash (s : list Z) : list Z :=
  match s with [] => [] | c :: s' => if c =? HASH then [] else c :: before_hash s' end.
(** [t] is [s] without leading and trailing white space. *)
Definition blank (s : list Z) : Prop := Forall (fun c => isspace c = true) s.
Definition starts_ends_dark (t : list Z) : Prop :=
  t = [] \/ (exists x t', t = x :: t' /\ isspace x = false) /\ (exists t' y, t = t' ++ [y] /\ isspace y = false).
Definition trimmed (s t : list Z) : Prop :=
  exists a b, s = a ++ t ++ b /\ blank a /\ blank b /\ starts_ends_dark t.
