(** Bounding boxes, face masks and field/face orientation.
    Models /repo/src/bounding_box.[ch] and setFieldLimits of grid.c. *)
From Coq Require Import ZArith List Bool Ascii Lia.
From Verif Require Import Types.
Import ListNotations.
Open Scope Z_scope.

(** bounding_box.h:31-34.  The third conjunct compares ZLO with ZLO, as in the
    source. *)
Definition bboxIsNormal (b : BBox) : bool :=
  (b XLO <=? b XHI) && (b YLO <=? b YHI) && (b ZLO <=? b ZLO).

(** bounding_box.h:37-42 *)
Definition bboxIsWithin (b1 b2 : BBox) : bool :=
  (b2 XLO <=? b1 XLO) && (b1 XHI <=? b2 XHI)
  && (b2 YLO <=? b1 YLO) && (b1 YHI <=? b2 YHI)
  && (b2 ZLO <=? b1 ZLO) && (b1 ZHI <=? b2 ZHI).

(** bounding_box.h:45-57 *)
Definition offsetBoundingBox (b offset : BBox) : BBox := fun f =>
  match f with
  | XLO => b XLO + offset XLO | YLO => b YLO + offset YLO | ZLO => b ZLO + offset ZLO
  | XHI => b XHI + offset XLO | YHI => b YHI + offset YLO | ZHI => b ZHI + offset ZLO
  end.

(** fdtd_types.h:112-120 (BB_INVALID is never produced by bboxType) *)
Inductive BBType := BB_POINT | BB_LINE | BB_SURFACE | BB_VOLUME.

Definition b2z (b : bool) : Z := if b then 1 else 0.

(** The degeneracy mask computed at bounding_box.c:43-47 and :59-63. *)
Definition bboxMask (b : BBox) : Z :=
  b2z (b XLO =? b XHI) + 2 * b2z (b YLO =? b YHI) + 4 * b2z (b ZLO =? b ZHI).

(** bounding_box.c:38-51: look-up in an 8-entry table. *)
Definition bboxType (b : BBox) : BBType :=
  nth (Z.to_nat (bboxMask b))
      [BB_VOLUME; BB_SURFACE; BB_SURFACE; BB_LINE; BB_SURFACE; BB_LINE; BB_LINE; BB_POINT]
      BB_POINT.

(** bounding_box.c:54-67; [None] is CA_UNDEFINED. *)
Definition bboxDirection (b : BBox) : option Axis :=
  nth (Z.to_nat (bboxMask b))
      [None; Some XDIR; Some YDIR; Some ZDIR; Some ZDIR; Some YDIR; Some XDIR; None]
      None.

(** bounding_box.c:70-130 *)
Definition getFaceOfBoundingBox (b : BBox) (face : Face) : BBox :=
  match face with
  | XLO => mkbox (b XLO) (b XLO) (b YLO) (b YHI) (b ZLO) (b ZHI)
  | XHI => mkbox (b XHI) (b XHI) (b YLO) (b YHI) (b ZLO) (b ZHI)
  | YLO => mkbox (b XLO) (b XHI) (b YLO) (b YLO) (b ZLO) (b ZHI)
  | YHI => mkbox (b XLO) (b XHI) (b YHI) (b YHI) (b ZLO) (b ZHI)
  | ZLO => mkbox (b XLO) (b XHI) (b YLO) (b YHI) (b ZLO) (b ZLO)
  | ZHI => mkbox (b XLO) (b XHI) (b YLO) (b YHI) (b ZHI) (b ZHI)
  end.

(** bounding_box.c:133-159.  fmax on ints that fit a double is exact, so it is
    Z.max.  The BB_LINE/SURFACE/VOLUME branch returns true whatever maxSize. *)
Definition bboxIsElemental (b : BBox) : bool :=
  let maxSize := Z.max (Z.max (b XHI - b XLO) (b YHI - b YLO)) (b ZHI - b ZLO) in
  match bboxType b with
  | BB_POINT => maxSize =? 0
  | BB_LINE | BB_SURFACE | BB_VOLUME => if maxSize =? 1 then true else true
  end.

(** bounding_box.c:162-212 *)
Definition fieldIsInBoundary (field : Fld) (boundary : Face) : bool :=
  match field with
  | EX => match boundary with XLO | XHI => false | _ => true end
  | EY => match boundary with YLO | YHI => false | _ => true end
  | EZ => match boundary with ZLO | ZHI => false | _ => true end
  | HX => match boundary with XLO | XHI => true | _ => false end
  | HY => match boundary with YLO | YHI => true | _ => false end
  | HZ => match boundary with ZLO | ZHI => true | _ => false end
  end.

(** bounding_box.c:216-251 *)
Definition fieldIsParallelToBoundary (field : Fld) (boundary : Face) : bool :=
  match field with
  | EX | HX => match boundary with XLO | XHI => false | _ => true end
  | EY | HY => match boundary with YLO | YHI => false | _ => true end
  | EZ | HZ => match boundary with ZLO | ZHI => false | _ => true end
  end.

(** bounding_box.c:254-289 *)
Definition fieldIsParallelToAxis (field : Fld) (axis : Axis) : bool :=
  match field with
  | EX | HX => match axis with XDIR => true | _ => false end
  | EY | HY => match axis with YDIR => true | _ => false end
  | EZ | HZ => match axis with ZDIR => true | _ => false end
  end.

(** bounding_box.c:292-304, the setter [setBoundingBoxFromNodes] is [mkbox]. *)
Definition setBoundingBoxFromNodes := mkbox.

(** bounding_box.c:307-319 *)
Definition setBoundingBoxBoundaryFlags (xl xh yl yh zl zh : bool) : BFlags := fun f =>
  match f with XLO => xl | XHI => xh | YLO => yl | YHI => yh | ZLO => zl | ZHI => zh end.

(** ** Face masks.  [FaceMask] is unsigned char; values are kept in Z. *)
Definition FACE_MASK_ERROR : Z := 255.   (* fdtd_types.h:127 0xFF *)
Definition FACE_MASK_ALL : Z := 63.      (* fdtd_types.h:128 0x3F *)
(** fdtd_types.c:32  FACE_MASKS[6] *)
Definition FACE_MASKS (f : Face) : Z :=
  match f with XLO => 32 | XHI => 16 | YLO => 8 | YHI => 4 | ZLO => 2 | ZHI => 1 end.

(** C library [strtol( s , &junk , 2 )] on a NUL-terminated string held as a
    list without the NUL: white space, optional sign, binary digits; when no
    digit is found the end pointer is the start of the string.  Values saturate
    at LONG_MAX / LONG_MIN. (The C23 "0b" prefix is not part of C99/C11.) *)
Definition isspace (c : ascii) : bool :=
  let n := N_of_ascii c in
  (N.eqb n 32 || (N.leb 9 n && N.leb n 13))%bool.
Definition bindigit (c : ascii) : option Z :=
  if Ascii.eqb c "0" then Some 0 else if Ascii.eqb c "1" then Some 1 else None.
Fixpoint skip_ws (s : list ascii) : list ascii :=
  match s with c :: s' => if isspace c then skip_ws s' else s | [] => [] end.
Definition take_sign (s : list ascii) : bool * list ascii :=
  match s with
  | c :: s' => if Ascii.eqb c "-" then (true, s')
               else if Ascii.eqb c "+" then (false, s') else (false, s)
  | [] => (false, [])
  end.
(** digits: accumulated value, whether any digit was seen, rest *)
Fixpoint take_bin (acc : Z) (seen : bool) (s : list ascii) : Z * bool * list ascii :=
  match s with
  | c :: s' => match bindigit c with
               | Some d => take_bin (2 * acc + d) true s'
               | None => (acc, seen, s)
               end
  | [] => (acc, seen, [])
  end.
Definition LONG_MAX : Z := 9223372036854775807.
Definition strtol2 (s : list ascii) : Z * list ascii :=
  let '(neg, s1) := take_sign (skip_ws s) in
  let '(v, seen, rest) := take_bin 0 false s1 in
  if seen then (if neg then Z.max (- v) (- LONG_MAX - 1) else Z.min v LONG_MAX, rest)
  else (0, s).

(** bounding_box.c:322-338 *)
Definition setFaceMaskFromString (maskStr : list ascii) : Z :=
  let '(lmask, junk) := strtol2 maskStr in
  if (lmask <? 0) || (63 <? lmask) || (match junk with [] => false | _ => true end)
  then FACE_MASK_ERROR else lmask.

(** bounding_box.c:341-346 *)
Definition isFaceActive (mask : Z) (face : Face) : bool :=
  negb (Z.land mask (FACE_MASKS face) =? 0).

(** bounding_box.c:349-357 *)
Definition faceMask2boolArray (mask : Z) : BFlags :=
  fun face => negb (Z.land mask (FACE_MASKS face) =? 0).

(** ** grid.c:414-454 setFieldLimits *)
Definition setFieldLimits (bbox : BBox) (includeBoundary : BFlags) : FLimits :=
  fun field face =>
    match face with
    | XLO | YLO | ZLO =>
        if fieldIsInBoundary field face
        then if includeBoundary face then bbox face else bbox face + 1
        else bbox face
    | XHI | YHI | ZHI =>
        if fieldIsInBoundary field face
        then if includeBoundary face then bbox face else bbox face - 1
        else bbox face - 1
    end.
