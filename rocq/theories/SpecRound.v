(** Specification of C85: a problem moved round along a periodic axis. *)
From Coq Require Import ZArith List Bool Reals.
From Verif Require Import Types BBox Grid CArr Setup Media Medium Source Front Program SpecGeom SpecMedia SpecEdges SpecMaxwell.
Import ListNotations.
Open Scope Z_scope.

Section Round.
Variables (k : Z) (c c' : Cfg) (h h' : MeshData) (lines lines' : Axis -> carr R).
(** cells along x *)
Definition period : Z := numLines c XDIR - 1.
(** index [x'] of the second problem lies [k] cells further round than index [x] of
    the first; both walls of a periodic axis are the same place *)
Definition round (x x' : Z) : Prop := (x' - x - k) mod period = 0.
Record moved_round (wE wH wE' wH' : nat -> Src -> R) : Prop := {
  mo_walls : outerSurfaceType c XLO = BT_PERIODIC /\ outerSurfaceType c XHI = BT_PERIODIC /\ forall f, outerSurfaceType c' f = outerSurfaceType c f;
  mo_cells : forall a, numLines c' a = numLines c a;
  mo_lines : forall a i, a <> XDIR -> 0 <= i <= numLines c a - 1 -> line lines' a i = line lines a i;
  (** equal cells along x *)
  mo_equal : exists d : R, forall i, 0 <= i < period -> (line lines XDIR (i + 1) - line lines XDIR i = d)%R /\ (line lines' XDIR (i + 1) - line lines' XDIR i = d)%R;
  mo_cn : h_cn h' = h_cn h;
  mo_media : forall f x x' y z mat, in_mesh c f x y z -> in_mesh c' f x' y z -> round x x' ->
    made_of f x y z (regions c h lines) mat -> made_of f x' y z (regions c' h' lines') mat;
  mo_drives : forall t f x x' y z J F, in_mesh c f x y z -> in_mesh c' f x' y z -> round x x' ->
    (is_E f = true -> drives c h lines (wE t) f x y z J F -> drives c' h' lines' (wE' t) f x' y z J F) /\
    (is_E f = false -> drives c h lines (wH t) f x y z J F -> drives c' h' lines' (wH' t) f x' y z J F) }.
End Round.
