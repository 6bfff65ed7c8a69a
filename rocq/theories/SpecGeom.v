(** Specifications for the geometry properties, written without reference to
    the model's functions: binary numerals, staggered (Yee) positions in
    half-cell units, and dimension counting. *)
From Coq Require Import ZArith List Bool Ascii.
From Verif Require Import Types.
Import ListNotations.
Open Scope Z_scope.

(** ** Binary numerals: optional white space, optional sign, one or more of
    the digits 0 and 1. *)
Definition blank (c : ascii) : Prop :=
  In (N_of_ascii c) (9 :: 10 :: 11 :: 12 :: 13 :: 32 :: nil)%N.
Definition digit_of (b : bool) : ascii := if b then "1"%char else "0"%char.
(** value of a list of bits, most significant first *)
Definition bits_value (bs : list bool) : Z :=
  fold_left (fun (acc : Z) (b : bool) => 2 * acc + (if b then 1 else 0)) bs 0.
Definition denotes_binary (s : list ascii) (v : Z) : Prop :=
  exists ws sgn bs,
    s = ws ++ sgn ++ map digit_of bs /\ Forall blank ws /\ bs <> [] /\
    ((sgn = [] \/ sgn = ["+"%char]) /\ v = bits_value bs
     \/ sgn = ["-"%char] /\ v = - bits_value bs).

(** The six-character mask XLO XHI YLO YHI ZLO ZHI. *)
Definition mask6 (on : Face -> bool) : list ascii := map (fun f => digit_of (on f)) faces.
(** Weight of the digit of a face in such a string. *)
Definition face_bit (f : Face) : Z :=
  match f with XLO => 5 | XHI => 4 | YLO => 3 | YHI => 2 | ZLO => 1 | ZHI => 0 end.

(** ** Boxes *)
Definition degenerate (b : BBox) (a : Axis) : bool := b (face_lo a) =? b (face_hi a).
(** number of axes along which the box has no extent *)
Definition ndeg (b : BBox) : nat := length (filter (degenerate b) axes).
Definition ordered (b : BBox) : Prop := forall a, b (face_lo a) <= b (face_hi a).
Definition inside (b B : BBox) : Prop :=
  forall a, B (face_lo a) <= b (face_lo a) /\ b (face_hi a) <= B (face_hi a).

(** ** Yee staggering.  Node n of an axis is at 2n half-cells.  The electric
    component along an axis sits half a cell up that axis; the magnetic
    component sits half a cell up the two other axes. *)
Definition staggered (f : Fld) (a : Axis) : bool :=
  if is_E f then axis_eqb (fld_axis f) a else negb (axis_eqb (fld_axis f) a).
Definition ypos (f : Fld) (a : Axis) (n : Z) : Z := 2 * n + (if staggered f a then 1 else 0).
Definition coord (i j k : Z) (a : Axis) : Z :=
  match a with XDIR => i | YDIR => j | ZDIR => k end.

(** The point of component [f] with indices (i,j,k) lies in the closed box [b]
    and on none of the faces that [incl] excludes. *)
Definition yee_in (f : Fld) (b : BBox) (incl : Face -> bool) (i j k : Z) : Prop :=
  forall a, let p := ypos f a (coord i j k a) in
    2 * b (face_lo a) <= p <= 2 * b (face_hi a) /\
    (incl (face_lo a) = false -> p <> 2 * b (face_lo a)) /\
    (incl (face_hi a) = false -> p <> 2 * b (face_hi a)).

(** Index (i,j,k) within the loop limits. *)
Definition in_lim (l : BBox) (i j k : Z) : Prop :=
  l XLO <= i <= l XHI /\ l YLO <= j <= l YHI /\ l ZLO <= k <= l ZHI.

(** A component can lie exactly in a face plane iff it is not staggered along
    the normal of the face. *)
Definition lies_in_plane (f : Fld) (face : Face) : Prop :=
  exists n m, ypos f (face_axis face) n = 2 * m.
(** A component is parallel to a face iff its own axis is not the normal. *)
Definition parallel (f : Fld) (face : Face) : Prop := fld_axis f <> face_axis face.
