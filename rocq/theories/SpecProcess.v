(** Specification of the binary output as a post-processing tool sees it: where in
    impulse.dat the record of a node at a time step is, worked out from the lines of
    process.dat alone. *)
From Coq Require Import ZArith List.
From Verif Require Import Types.
Import ListNotations.
Open Scope Z_scope.

(** a line of process.dat: ilo ihi istep jlo jhi jstep klo khi kstep *)
Record Region := mkRegion { ilo : Z; ihi : Z; istep : Z; jlo : Z; jhi : Z; jstep : Z; klo : Z; khi : Z; kstep : Z }.
Definition parseLine (l : list Z) : option Region :=
  match l with [a; b; s; c; d; t; e; f; u] => Some (mkRegion a b s c d t e f u) | _ => None end.
Definition number (lo hi st : Z) : Z := 1 + (hi - lo) / st.
Definition ni r := number (ilo r) (ihi r) (istep r).
Definition nj r := number (jlo r) (jhi r) (jstep r).
Definition nk r := number (klo r) (khi r) (kstep r).
Definition nodes r : Z := ni r * nj r * nk r.
Definition total (rs : list Region) : Z := fold_right Z.add 0 (map nodes rs).
(** number of the record of node (p, q, s) of region number [a] in the [b]-th
    recorded step: steps outermost, then regions, then k, j, i *)
Definition position (rs : list Region) (b : Z) (a : nat) (r : Region) (p q s : Z) : Z :=
  b * total rs + total (firstn a rs) + (s * nj r + q) * ni r + p.
Definition in_region (r : Region) (p q s : Z) : Prop := 0 <= p < ni r /\ 0 <= q < nj r /\ 0 <= s < nk r.
