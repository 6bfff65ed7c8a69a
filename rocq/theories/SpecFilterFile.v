(** Specification of C71: what a parameter file says (UserManual.tex, tables
    tb:prm and tb:mbdebext), in terms of the spelling of numbers (SpecScan.v). *)
From Coq Require Import ZArith List Bool Reals.
From Verif Require Import Scan SpecScan Medium Filter.
Import ListNotations.
Open Scope Z_scope.

(** [int_at z t rest]: [t] starts with the integer z; [rest] is what follows *)
Inductive int_at (z : Z) : list Z -> list Z -> Prop :=
| ia bl l tail : blanks bl -> intlit l z -> - 2 ^ 31 <= z < 2 ^ 31 -> at_break tail -> int_at z (bl ++ l ++ tail) tail.
Inductive real_at (x : R) : list Z -> list Z -> Prop :=
| ra bl l tail : blanks bl -> reallit l x -> at_break tail -> real_at x (bl ++ l ++ tail) tail.
(** numbers one after the other *)
Inductive reals_at : list R -> list Z -> list Z -> Prop :=
| rs_nil t : reals_at [] t t
| rs_cons x xs t t1 t2 : real_at x t t1 -> reals_at xs t1 t2 -> reals_at (x :: xs) t t2.
(** one line per pole; [order] says how the four numbers of a line come *)
Inductive lines_at {P} (order : P -> list R) : list P -> list Z -> list Z -> Prop :=
| ls_nil t : lines_at order [] t t
| ls_cons p ps t t1 t2 : reals_at (order p) t t1 -> lines_at order ps t1 t2 -> lines_at order (p :: ps) t t2.
(** one filter: number of poles, asymptote, the poles *)
Inductive filter_at (order : Cx * Cx -> list R) (f : PoleResidue) : list Z -> list Z -> Prop :=
| fa t t1 t2 t3 : int_at (Z.of_nat (List.length (prPoles f))) t t1 -> real_at (prAsymp f) t1 t2 ->
    lines_at order (prPoles f) t2 t3 -> filter_at order f t t3.
Inductive filters_at (order : Cx * Cx -> list R) : list PoleResidue -> list Z -> list Z -> Prop :=
| fs_nil t : filters_at order [] t t
| fs_cons f fs t t1 t2 : filter_at order f t t1 -> filters_at order fs t1 t2 -> filters_at order (f :: fs) t t2.
(** an impedance file: the extents, then the filters row by row; anything may
    follow *)
Definition impedance_file (order : Cx * Cx -> list R) (m : Z) (fs : list PoleResidue) (t : list Z) : Prop :=
  0 < m /\ exists t1 t2 rest, int_at m t t1 /\ int_at m t1 t2 /\ Z.of_nat (List.length fs) = m * m /\ filters_at order fs t2 rest.
(** The manual gives the residue first; the program expects the pole first. *)
Definition pole_first (q : Cx * Cx) : list R := let '(p, r) := q in [re p; im p; re r; im r].
Definition residue_first (q : Cx * Cx) : list R := let '(p, r) := q in [re r; im r; re p; im p].
(** the impedance at s: asymptote + sum of residue / (s - pole) *)
Definition impedance (f : PoleResidue) (s : Cx) : Cx :=
  fold_right (fun q acc => let '(p, r) := q in cadd (cdiv r (csub s p)) acc) (cxR (prAsymp f)) (prPoles f).
(** a Debye file: number of poles, permittivity, conductivity, permeability; the
    residues and poles *)
Definition debye_line (q : Pole) : list R := [re (p_residue q); im (p_residue q); re (p_pole q); im (p_pole q)].
Definition debye_text (e s m : R) (ps : list Pole) (t : list Z) : Prop :=
  exists t1 t2 rest, int_at (Z.of_nat (List.length ps)) t t1 /\ reals_at [e; s; m] t1 t2 /\ lines_at debye_line ps t2 rest.
(** a file that ends (only blanks remain) with some of the announced lines
    missing *)
Definition debye_short (t : list Z) : Prop :=
  exists n e s m ps xs t1 t2 t3 t4, int_at n t t1 /\ reals_at [e; s; m] t1 t2 /\ lines_at debye_line ps t2 t3 /\
    reals_at xs t3 t4 /\ (List.length xs < 4)%nat /\ Z.of_nat (List.length ps) < n /\ blanks t4.
