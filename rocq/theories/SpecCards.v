(** Specification of the geometry cards MB, TW, TB, OP and EX: what a card must
    say to be accepted and what is recorded for it (UserManual.tex, the sections
    of the cards), stated without the parsers' helpers. *)
From Coq Require Import ZArith List Bool Reals String Ascii.
From Verif Require Import Types BBox Grid Setup SpecGeom.
Import ListNotations.
Open Scope Z_scope.

(** The corner order the program checks: x and y only (see C03_z_order_refuted). *)
Definition ordered_xy (b : BBox) : Prop := b XLO <= b XHI /\ b YLO <= b YHI.
(** in the mesh; flat in [flat] directions: 0 volume, 1 surface, 2 line, 3 point *)
Definition box_card (mbox b : BBox) : Prop := ordered_xy b /\ inside b mbox.
(** entry [n] of a table is called [name] *)
Definition called {A} (reg : Registry A) (name : string) (n : nat) : Prop :=
  exists it, nth_error reg n = Some it /\ iname it = name.
Definition unique_names {A} (reg : Registry A) : Prop := NoDup (map iname reg).

(** the observer types of the manual *)
Inductive op_type : string -> bool (* ASCII *) -> bool (* time domain *) -> Prop :=
| op_ta : op_type "TDOM_ASCII" true true
| op_fa : op_type "FDOM_ASCII" true false
| op_tb : op_type "TDOM_BINARY" false true.
