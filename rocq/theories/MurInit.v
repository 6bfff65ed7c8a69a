(** Mur coefficients.  Models /repo/src/mur.c:101-130 initMurBoundaries. *)
From Coq Require Import ZArith List Bool Reals.
From Verif Require Import Types Lang BBox Grid Mur CArr Edges.
Import ListNotations.
Open Scope Z_scope.

(** mur.c:46 [static int murbox[6][6]]: set by getFaceOfBoundingBox for MUR
    faces (mur.c:114), all zero otherwise. *)
Definition murboxes (c : Cfg) (face : Face) : BBox :=
  if btype_eqb (outerSurfaceType c face) BT_MUR then getFaceOfBoundingBox (gibox c) face else fun _ => 0.

(** mur.c:122-127.  The cell index is murbox[XLO][XLO] for a low face and
    murbox[XHI][XHI-1], i.e. murbox[XHI][XLO], for a high face.  [de] are the
    arrays dex, dey, dez; [None] = read outside the array. *)
Definition initZeta (c : Cfg) (de : Axis -> carr R) (dt : R) (face : Face) : option R :=
  let a := face_axis face in
  do d <- rd (de a) (murboxes c face (face_lo a));
  Some ((c0 * dt - d) / (c0 * dt + d))%R.
