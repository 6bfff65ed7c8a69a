(** The media dump (option -g / --dump-grid).  Models /repo/src/grid.c:1620-1724
    dumpMediaOnGrid, decodeAlphaBeta, decodeGamma and vulture.c:158-166.  Default
    build: unscaled fields.  The file is the list of its lines; printing of an
    integer is a parameter.  [None] = access outside an array. *)
From Coq Require Import ZArith List Bool Ascii String Reals.
From Verif Require Import Types Lang BBox Grid Step Medium.
Import ListNotations.
Open Scope Z_scope.

Section Dump.
Variables (eps0 mu0 dt : R) (itoa : Z -> list ascii).
(** grid.c:1701-1711 *)
Definition decodeAlphaBeta (alpha beta : R) : ascii :=
  if (ltb (Rabs (alpha - 1)) (/ 1000000) && ltb (Rabs (beta - dt / eps0)) (/ 1000000))%bool then "."%char
  else if (ltb (Rabs (alpha + 1)) (/ 1000000) && ltb (Rabs beta) (/ 1000000))%bool then "*"%char
  else "o"%char.
(** grid.c:1715-1723 *)
Definition decodeGamma (gamma : R) : ascii :=
  if ltb (Rabs (gamma - dt / mu0)) (/ 1000000) then "."%char else "o"%char.

Variables (c : Cfg) (m : mem R).
Definition rdO (l : Loc) : option R := if inb (dims c) l then Some (m l) else None.
(** grid.c:1660-1683: one character *)
Definition dumpChar (f : Fld) (i j k : Z) : option ascii :=
  if is_E f then match rdO (L (AAlpha f) i j k), rdO (L (ABeta f) i j k) with Some a, Some b => Some (decodeAlphaBeta a b) | _, _ => None end
  else match rdO (L (AGamma f) i j k) with Some g => Some (decodeGamma g) | None => None end.
Fixpoint seqO {A} (l : list (option A)) : option (list A) :=
  match l with [] => Some [] | x :: l' => match x, seqO l' with Some u, Some v => Some (u :: v) | _, _ => None end end.
(** grid.c:1684-1686: labels behind a row *)
Definition dumpLabel (j k : Z) : list ascii :=
  ((if j =? gobox c YHI - 1 then list_ascii_of_string " y=" ++ itoa j else []) ++
   (if j =? Z.quot (gobox c YHI + gobox c YLO - 1) 2 then list_ascii_of_string "       z=" ++ itoa k else []) ++
   (if j =? gobox c YLO then list_ascii_of_string " y=" ++ itoa j else []))%list.
(** grid.c:1657-1688: one row, indented by its j *)
Definition dumpRow (f : Fld) (j k : Z) : option (list ascii) :=
  match seqO (map (fun i => dumpChar f i j k) (zrange (gobox c XLO - 1) (gobox c XHI))) with
  | Some row => Some (repeat " "%char (Z.to_nat (j - (gobox c YLO - 1))) ++ row ++ dumpLabel j k)%list
  | None => None
  end.
(** for( k = hi ; k >= lo ; k-- ) *)
Definition zdown (lo hi : Z) : list Z := rev (zrange lo hi).
(** grid.c:1653-1690 *)
Definition dumpMediaOnGrid (f : Fld) : option (list (list ascii)) :=
  seqO (flat_map (fun k => map (fun j => dumpRow f j k) (zdown (gobox c YLO - 1) (gobox c YHI))) (zdown (gobox c ZLO - 1) (gobox c ZHI))).
End Dump.
