(** Property theorems C01, C02, C04: masks, box classification, field limits. *)
From Coq Require Import ZArith List Bool Ascii String Lia.
From Verif Require Import Types BBox SpecGeom BBoxProofs.
Import ListNotations.
Open Scope Z_scope.

(** C01a. A mask string is accepted with value v iff it denotes the binary
    number v and 0 <= v <= 63 (255 is the error value). *)
Theorem C01_mask_accepted : forall s v, s <> [] ->
  (setFaceMaskFromString s = v /\ v <> 255) <-> (denotes_binary s v /\ 0 <= v <= 63).
Proof. exact faceMask_accept. Qed.

(** C01b. In an accepted mask a face is active iff its binary digit is 1, for
    both consumers of masks. *)
Theorem C01_mask_bits : forall v f, 0 <= v <= 63 ->
  isFaceActive v f = Z.testbit v (face_bit f) /\ faceMask2boolArray v f = Z.testbit v (face_bit f).
Proof. intros v f H. split; [|change (isFaceActive v f = Z.testbit v (face_bit f))]; apply isFaceActive_bit; exact H. Qed.

(** C01c. Every six-digit string is accepted and selects exactly its faces;
    hence different strings select different face sets. *)
Theorem C01_mask6 : forall on f,
  isFaceActive (setFaceMaskFromString (mask6 on)) f = on f /\
  faceMask2boolArray (setFaceMaskFromString (mask6 on)) f = on f /\
  setFaceMaskFromString (mask6 on) <> 255.
Proof. exact mask6_roundtrip. Qed.

Example C01_nonvacuous :
  setFaceMaskFromString (list_ascii_of_string "101010") = 42 /\
  isFaceActive 42 YLO = true /\ isFaceActive 42 YHI = false /\
  setFaceMaskFromString (list_ascii_of_string "2") = 255 /\
  setFaceMaskFromString (list_ascii_of_string "1000000") = 255.
Proof. vm_compute. auto. Qed.

(** C02a. Type by number of degenerate axes; direction = the axis of a line,
    the normal of a surface, undefined otherwise. *)
Theorem C02_type : forall b,
  bboxType b = match ndeg b with
               | O => BB_VOLUME | S O => BB_SURFACE | S (S O) => BB_LINE | _ => BB_POINT end.
Proof. exact bboxType_ndeg. Qed.
Theorem C02_direction : forall b a,
  (bboxType b = BB_LINE -> (bboxDirection b = Some a <-> degenerate b a = false)) /\
  (bboxType b = BB_SURFACE -> (bboxDirection b = Some a <-> degenerate b a = true)) /\
  (bboxDirection b = None <-> bboxType b = BB_POINT \/ bboxType b = BB_VOLUME).
Proof.
  intros b a. split; [exact (bboxDirection_line b a)|].
  split; [exact (bboxDirection_surface b a)|exact (bboxDirection_undef b)].
Qed.
(** C02b. The face boxes of a box are its intersections with the face planes;
    translating a box translates its points. *)
Theorem C02_faces : forall b face x y z, ordered b ->
  (in_box (getFaceOfBoundingBox b face) x y z <->
   in_box b x y z /\ coord x y z (face_axis face) = b face).
Proof. exact getFace_spec. Qed.
Theorem C02_offset : forall b o x y z,
  in_box b x y z <-> in_box (offsetBoundingBox b o) (x + o XLO) (y + o YLO) (z + o ZLO).
Proof. exact offset_spec. Qed.
(** C02c. The orientation predicates agree with the staggered geometry. *)
Theorem C02_orientation : forall f face,
  (fieldIsInBoundary f face = true <-> lies_in_plane f face) /\
  (fieldIsParallelToBoundary f face = true <-> parallel f face) /\
  (forall a, fieldIsParallelToAxis f a = true <-> fld_axis f = a).
Proof.
  intros f face. split; [exact (fieldIsInBoundary_spec f face)|].
  split; [exact (fieldIsParallelToBoundary_spec f face)|exact (fieldIsParallelToAxis_spec f)].
Qed.

Example C02_nonvacuous :
  bboxType (mkbox 1 4 2 2 3 3) = BB_LINE /\ bboxDirection (mkbox 1 4 2 2 3 3) = Some XDIR /\
  bboxType (mkbox 1 4 2 2 3 9) = BB_SURFACE /\ bboxDirection (mkbox 1 4 2 2 3 9) = Some YDIR /\
  ordered (mkbox 1 4 2 2 3 9).
Proof. repeat split; try reflexivity. intros []; simpl; lia. Qed.

(** C04. The loop limits of a component select exactly its staggered points in
    the box, minus those on excluded faces. *)
Theorem C04_field_limits : forall f b incl i j k,
  in_lim (setFieldLimits b incl f) i j k <-> yee_in f b incl i j k.
Proof. exact setFieldLimits_spec. Qed.

Example C04_nonvacuous :
  in_lim (setFieldLimits (mkbox 1 3 1 3 1 3) (fun _ => true) EX) 2 3 3 /\
  ~ in_lim (setFieldLimits (mkbox 1 3 1 3 1 3) (fun _ => true) EX) 3 3 3 /\
  ~ in_lim (setFieldLimits (mkbox 1 3 1 3 1 3) (fun f => negb (face_eqb f YHI)) EX) 2 3 3.
Proof. unfold in_lim, setFieldLimits, mkbox; simpl. lia. Qed.

Print Assumptions C01_mask_accepted.
Print Assumptions C01_mask_bits.
Print Assumptions C01_mask6.
Print Assumptions C02_type.
Print Assumptions C02_direction.
Print Assumptions C02_faces.
Print Assumptions C02_offset.
Print Assumptions C02_orientation.
Print Assumptions C04_field_limits.
