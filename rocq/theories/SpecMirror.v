(** Specification of C82: a problem seen in a mirror across the x axis. *)
From Coq Require Import ZArith List Bool Reals.
From Verif Require Import Types BBox Grid CArr Setup Media Medium Source Front Program SpecGeom SpecMaxwell.
Import ListNotations.
Open Scope Z_scope.

Definition mirrorFace (f : Face) : Face := match f with XLO => XHI | XHI => XLO | _ => f end.
(** [n] cells along x: the image of a box *)
Definition mirrored_box (n : Z) (b b' : BBox) : Prop :=
  b' XLO = n - b XHI /\ b' XHI = n - b XLO /\ b' YLO = b YLO /\ b' YHI = b YHI /\ b' ZLO = b ZLO /\ b' ZHI = b ZHI.
(** the index of the image of a point of component [f], and the sign its value
    takes: E is a vector, H an axial vector *)
Definition image (n : Z) (f : Fld) (x : Z) : Z := if staggered f XDIR then n - 1 - x else n - x.
Definition sign (f : Fld) : R := match f with EX | HY | HZ => -1 | EY | EZ | HX => 1 end.

Section Mirror.
Variables (h h' : MeshData) (n : Z).
Definition mirrored_block (b b' : Block) : Prop :=
  mirrored_box n (bbox_b b) (bbox_b b') /\
  (forall f, Z.testbit (mask_b b') (face_bit (mirrorFace f)) = Z.testbit (mask_b b) (face_bit f)) /\
  materialOf h' (medium_b b') = materialOf h (medium_b b).
Definition mirrored_line (l l' : Line) : Prop :=
  mirrored_box n (bbox_l l) (bbox_l l') /\ wireOf h' (wire_l l') = wireOf h (wire_l l).
Definition mirrored_surf (s s' : Surf * R) : Prop :=
  mirrored_box n (bbox_s (fst s)) (bbox_s (fst s')) /\ boundOf h' (boundary_s (fst s')) = boundOf h (boundary_s (fst s)).
(** sources keep their kind and direction; where the sign of the component
    changes, so does their amplitude *)
Definition mirrored_src (s s' : Src) : Prop :=
  mirrored_box n (s_mbbox s) (s_mbbox s') /\
  t_type (s_tag s') = t_type (s_tag s) /\ t_field (s_tag s') = t_field (s_tag s) /\ t_pol (s_tag s') = t_pol (s_tag s) /\
  s_size s' = (sign (t_field (s_tag s)) * s_size s)%R /\ s_resist s' = s_resist s.
(** File [h'] describes the mirror image of the problem of [h]: the mesh lines
    along x in reverse order, the same objects at their images, in the same order. *)
Record mirrored : Prop := {
  mi_n : h_numCells h XDIR = n;
  mi_cells : forall a, h_numCells h' a = h_numCells h a;
  mi_mesh : forall a, a <> XDIR -> h_mesh h' a = h_mesh h a;
  mi_meshx : exists v v' L, h_mesh h XDIR = Some v /\ h_mesh h' XDIR = Some v' /\ (forall i, 0 <= i <= n -> adat v' (n - i) = (L - adat v i)%R);
  mi_cn : h_cn h' = h_cn h;
  mi_blocks : Forall2 mirrored_block (h_blocks h) (h_blocks h');
  mi_lines : Forall2 mirrored_line (h_lines h) (h_lines h');
  mi_surfs : Forall2 mirrored_surf (h_surfs h) (h_surfs h');
  mi_srcs : Forall2 mirrored_src (h_srcs h) (h_srcs h') }.
End Mirror.
