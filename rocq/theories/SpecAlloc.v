(** Specification: the array [T a[e0][e1]...[en]] of the C language. *)
From Coq Require Import ZArith List.
Import ListNotations.
Open Scope Z_scope.

(** index tuples of an array *)
Definition indexes (extent idx : list Z) : Prop := Forall2 (fun i e => 0 <= i < e) idx extent.
Definition elements (extent : list Z) : Z := fold_right Z.mul 1 extent.
(** bytes of bookkeeping: one pointer per row of every level *)
Fixpoint pointers (rows : Z) (extent : list Z) : Z :=
  match extent with [] | [_] => 0 | e :: es => rows * e + pointers (rows * e) es end.
