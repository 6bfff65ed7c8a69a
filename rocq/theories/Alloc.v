(** Array allocation.  Models /repo/src/alloc_array.c:53-150 allocArray.

    The result is one malloc'ed block: tables of pointers followed by the
    elements.  Addresses are integers below 2^64 (LP64: unsigned long and
    pointers have 8 bytes); arithmetic wraps.  The text in [extentString], used
    for messages only, and malloc failure (message MSG_ERROR stops the program)
    are not modelled. *)
From Coq Require Import ZArith List Bool Lia.
Import ListNotations.
Open Scope Z_scope.

Definition u64 (x : Z) : Z := x mod 2 ^ 64.
Definition PTR : Z := 8. (* sizeof( void * ) *)

(** alloc_array.c:78, 84: [lengthOfLayer[i] = prevLength * extent[i]] *)
Fixpoint layersFrom (prevLength : Z) (es : list Z) : list Z :=
  match es with [] => [] | e :: es' => let l := u64 (prevLength * e) in l :: layersFrom l es' end.
Definition lengthOfLayer (extent : list Z) : list Z :=
  match extent with [] => [] | e :: es => u64 e :: layersFrom (u64 e) es end.
(** alloc_array.c:83: inNodes += prevLength, for i = 1 .. dimension-1: the sum
    of all layer lengths but the last *)
Definition inNodes (extent : list Z) : Z :=
  fold_left (fun s l => u64 (s + l)) (removelast (lengthOfLayer extent)) 0.
(** alloc_array.c:93 *)
Definition blockSize (size : Z) (extent : list Z) : Z :=
  u64 (u64 (inNodes extent * PTR) + u64 (last (lengthOfLayer extent) 0 * size)).

(** [for( j = 0 ; j < n ; j++ ) { *currentPointer++ = destinationPointer; destinationPointer += step; }]:
    the values stored and the final destinationPointer *)
Fixpoint fillLoop (n : nat) (dest step : Z) : list Z * Z :=
  match n with
  | O => ([], dest)
  | S n' => let '(vs, d') := fillLoop n' (u64 (dest + step)) step in (dest :: vs, d')
  end.
(** alloc_array.c:118-136 on the pairs (lengthOfLayer[i], extent[i+1]),
    i = 0 .. dimension-2: pointer steps for all but the last, byte steps for the
    last *)
Fixpoint fillTables (size dest : Z) (ls : list (Z * Z)) : list Z :=
  match ls with
  | [] => []
  | (l, e) :: ls' =>
      match ls' with
      | [] => fst (fillLoop (Z.to_nat l) dest (u64 (e * size)))
      | _ => let '(vs, d') := fillLoop (Z.to_nat l) dest (u64 (e * PTR)) in vs ++ fillTables size d' ls'
      end
  end.
(** The pointers stored in slots 0, 1, 2, ... of the block at [base]
    (alloc_array.c:112 destinationPointer = retval + extent[0]). *)
Definition pointerTable (size base : Z) (extent : list Z) : list Z :=
  fillTables size (u64 (base + hd 0 extent * PTR)) (combine (lengthOfLayer extent) (tl extent)).

(** C semantics of a[i0][i1]...: every index but the last loads a pointer. A load
    from anything but an initialised slot of the table is undefined. *)
Definition load (base : Z) (table : list Z) (p : Z) : option Z :=
  let off := p - base in
  if (off <? 0) || negb (off mod PTR =? 0) then None else nth_error table (Z.to_nat (off / PTR)).
Fixpoint elementAddress (size base : Z) (table : list Z) (p : Z) (idx : list Z) : option Z :=
  match idx with
  | [] => None
  | i :: idx' =>
      match idx' with
      | [] => Some (p + i * size)
      | _ => match load base table (p + i * PTR) with Some p' => elementAddress size base table p' idx' | None => None end
      end
  end.
(** &a[i0][i1]... for the array at [base] *)
Definition address (size base : Z) (extent idx : list Z) : option Z :=
  elementAddress size base (pointerTable size base extent) base idx.
