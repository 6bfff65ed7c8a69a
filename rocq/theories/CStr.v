(** Line-level text processing of the mesh reader.
    Models /repo/src/mesh.c:407-468 (strtrim, removeComments) on a character
    buffer with every access checked, and the C library calls they rest on. *)
From Coq Require Import ZArith List Bool Lia.
From Verif Require Import CArr.
Import ListNotations.
Open Scope Z_scope.

(** A char buffer: its bytes.  An access outside it is [None] (undefined
    behaviour). *)
Definition buf := list Z.
Definition brd (b : buf) (p : Z) : option Z :=
  if p <? 0 then None else nth_error b (Z.to_nat p).
Fixpoint setn (b : buf) (n : nat) (v : Z) : option buf :=
  match b, n with
  | [], _ => None
  | _ :: b', O => Some (v :: b')
  | x :: b', S n' => option_map (cons x) (setn b' n' v)
  end.
Definition bwr (b : buf) (p : Z) (v : Z) : option buf :=
  if p <? 0 then None else setn b (Z.to_nat p) v.

(** ctype.h isspace in the C locale: space and \t \n \v \f \r. *)
Definition isspace (c : Z) : bool := (c =? 32) || ((9 <=? c) && (c <=? 13)).
Definition HASH : Z := 35.

(** [while] loops run on fuel; running out of fuel is [None].  The fuel is the
    buffer size plus two: a loop that needs more has left the buffer. *)
Definition fuel (b : buf) : nat := S (S (length b)).

(** string.h strlen *)
Fixpoint strlen_ (n : nat) (b : buf) (p : Z) : option Z :=
  match n with
  | O => None
  | S n' => do c <- brd b p; if c =? 0 then Some p else strlen_ n' b (p + 1)
  end.
Definition strlen (b : buf) : option Z := strlen_ (fuel b) b 0.

(** mesh.c:458-466: [while( *(++charPointer) ) if( *charPointer == '#' ) { *charPointer = '\0'; return; }] *)
Fixpoint rc_loop (n : nat) (b : buf) (charPointer : Z) : option buf :=
  match n with
  | O => None
  | S n' =>
      let p := charPointer + 1 in
      do c <- brd b p;
      if c =? 0 then Some b
      else if c =? HASH then bwr b p 0
      else rc_loop n' b p
  end.
(** mesh.c:447-470 removeComments *)
Definition removeComments (b : buf) : option buf :=
  do c <- brd b 0;
  if c =? 0 then Some b else rc_loop (fuel b) b (-1).

(** mesh.c:427: [while( isspace( *(++startPointer) ) );] *)
Fixpoint start_loop (n : nat) (b : buf) (p : Z) : option Z :=
  match n with
  | O => None
  | S n' => do c <- brd b (p + 1); if isspace c then start_loop n' b (p + 1) else Some (p + 1)
  end.
(** mesh.c:428: [while( isspace( *(--endPointer) ) && endPointer != startPointer );] *)
Fixpoint end_loop (n : nat) (b : buf) (start p : Z) : option Z :=
  match n with
  | O => None
  | S n' => do c <- brd b (p - 1);
            if isspace c && negb (p - 1 =? start) then end_loop n' b start (p - 1) else Some (p - 1)
  end.
(** mesh.c:440-441: [while( *startPointer ) *endPointer++ = *startPointer++;  *endPointer = '\0';] *)
Fixpoint copy_loop (n : nat) (b : buf) (start end_ : Z) : option buf :=
  match n with
  | O => None
  | S n' => do c <- brd b start;
            if c =? 0 then bwr b end_ 0
            else do b' <- bwr b end_ c; copy_loop n' b' (start + 1) (end_ + 1)
  end.
(** mesh.c:408-446 strtrim *)
Definition strtrim (b : buf) : option buf :=
  do c <- brd b 0;
  if c =? 0 then Some b
  else
    do stringLength <- strlen b;
    do startPointer <- start_loop (fuel b) b (-1);
    do endPointer <- end_loop (fuel b) b startPointer stringLength;
    do b <- (if negb (stringLength - 1 =? endPointer) then bwr b (endPointer + 1) 0
             else if negb (startPointer =? 0) && (endPointer =? startPointer) then bwr b 0 0
             else Some b);
    if negb (startPointer =? 0) then copy_loop (fuel b) b startPointer 0 else Some b.
