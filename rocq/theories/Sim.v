(** The NT card and the time stepping loop.
    Models /repo/src/simulation.c:86-107 (parseNT) and 136-230 (propagate). *)
From Coq Require Import ZArith List Bool.
From Verif Require Import CStr.
Import ListNotations.
Open Scope Z_scope.

(** Outcome of a computation that may not terminate: [More] means the number of
    loop iterations granted was not enough. *)
Inductive res (A : Type) := Fin (a : A) | Undef | More.
Arguments Fin {A}. Arguments Undef {A}. Arguments More {A}.
Definition rbind {A B} (x : res A) (g : A -> res B) : res B :=
  match x with Fin a => g a | Undef => Undef | More => More end.

(** unsigned long: 64 bit. *)
Definition ULONG : Z := 2 ^ 64.
Definition ulong (x : Z) : Z := x mod ULONG.

(** The conversion %lu of sscanf (glibc): skip white space, optional sign,
    decimal digits; strtoul negates modulo 2^64 and saturates. *)
Definition isdigit (c : Z) : bool := (48 <=? c) && (c <=? 57).
Fixpoint skipBlanks (l : list Z) : list Z :=
  match l with c :: l' => if isspace c then skipBlanks l' else l | [] => [] end.
Fixpoint digits (acc : Z) (l : list Z) : Z :=
  match l with c :: l' => if isdigit c then digits (10 * acc + (c - 48)) l' else acc | [] => acc end.
Definition scanUnsigned (l : list Z) : option Z :=
  let l := skipBlanks l in
  let '(neg, l) := match l with
                   | c :: l' => if c =? 45 then (true, l') else if c =? 43 then (false, l') else (false, l)
                   | [] => (false, []) end in
  match l with
  | c :: _ => if isdigit c
              then let v := digits 0 l in
                   Some (if ULONG - 1 <? v then ULONG - 1 else if neg then ulong (- v) else v)
              else None
  | [] => None
  end.

(** simulation.c:87-107 parseNT *)
Definition parseNT (line : list Z) : option Z :=
  match scanUnsigned line with
  | None => None
  | Some n => if n <? 0 then None else Some n
  end.

(** simulation.c:157-221: the time loop.  [body t] is everything inside the
    braces, started with timeStepNumber = t. *)
Section Loop.
Context {S : Type}.
Variable body : Z -> S -> res S.
Fixpoint timeLoop (fuel : nat) (numTimeSteps timeStepNumber : Z) (s : S) : res S :=
  match fuel with
  | O => More
  | Datatypes.S n =>
      if timeStepNumber <=? ulong (numTimeSteps - 1)
      then rbind (body timeStepNumber s) (fun s' => timeLoop n numTimeSteps (ulong (timeStepNumber + 1)) s')
      else Fin s
  end.
Definition propagate (fuel : nat) (numTimeSteps : Z) (s : S) : res S := timeLoop fuel numTimeSteps 0 s.
End Loop.
