(** Specification of C81: a problem turned in space, x to y, y to z and z to x. *)
From Coq Require Import ZArith List Bool Reals.
From Verif Require Import Types BBox Grid CArr Setup Media Medium Source Front Program SpecGeom SpecMaxwell.
Import ListNotations.
Open Scope Z_scope.

(** The face and the component that a face and a component become. *)
Definition turnFace (f : Face) : Face :=
  match f with XLO => YLO | XHI => YHI | YLO => ZLO | YHI => ZHI | ZLO => XLO | ZHI => XHI end.
Definition turnFld (f : Fld) : Fld :=
  match f with EX => EY | EY => EZ | EZ => EX | HX => HY | HY => HZ | HZ => HX end.
Definition turned_box (b b' : BBox) : Prop := forall f, b' (turnFace f) = b f.

Section Turn.
Variables h h' : MeshData.
(** the same block, wire, surface or source in the turned mesh *)
Definition turned_block (b b' : Block) : Prop :=
  turned_box (bbox_b b) (bbox_b b') /\
  (forall f, Z.testbit (mask_b b') (face_bit (turnFace f)) = Z.testbit (mask_b b) (face_bit f)) /\
  materialOf h' (medium_b b') = materialOf h (medium_b b).
Definition turned_line (l l' : Line) : Prop :=
  turned_box (bbox_l l) (bbox_l l') /\ wireOf h' (wire_l l') = wireOf h (wire_l l).
Definition turned_surf (s s' : Surf * R) : Prop :=
  turned_box (bbox_s (fst s)) (bbox_s (fst s')) /\ boundOf h' (boundary_s (fst s')) = boundOf h (boundary_s (fst s)).
Definition turned_src (s s' : Src) : Prop :=
  turned_box (s_mbbox s) (s_mbbox s') /\
  t_type (s_tag s') = t_type (s_tag s) /\ t_field (s_tag s') = turnFld (t_field (s_tag s)) /\ t_pol (s_tag s') = upA (t_pol (s_tag s)) /\
  s_size s' = s_size s /\ s_resist s' = s_resist s.
(** File [h'] describes the problem of [h] turned in space: same mesh lines along
    the turned axes, same objects in the same order; the walls are compared
    separately. *)
Record turned : Prop := {
  td_mesh : forall a, h_mesh h' (upA a) = h_mesh h a;
  td_cells : forall a, h_numCells h' (upA a) = h_numCells h a;
  td_cn : h_cn h' = h_cn h;
  td_blocks : Forall2 turned_block (h_blocks h) (h_blocks h');
  td_lines : Forall2 turned_line (h_lines h) (h_lines h');
  td_surfs : Forall2 turned_surf (h_surfs h) (h_surfs h');
  td_srcs : Forall2 turned_src (h_srcs h) (h_srcs h') }.
End Turn.
