(** Drawing of plane waves for gnuplot.  Models /repo/src/gnuplot.c:422-507 and
    /repo/src/planewave.c:1085-1168.  [None] stands for a failed assertion or an
    access outside the arrays of mesh lines. *)
From Coq Require Import ZArith List Bool Reals.
From Verif Require Import Types Lang BBox CArr Edges PlaneWave Gnuplot.
Import ListNotations.
Open Scope R_scope.

Section Draw.
Variable physical : bool.
Variable lines : Axis -> carr R.
(** the start or end point of an arrow: gnuplot.c:432-446, grid.c:1252-1291; the
    number of mesh lines is the length of their array *)
Definition arrowPoint (r : Axis -> R) : option (Axis -> R) :=
  if physical then
    do x <- nodeInPhysicalUnits1 (alen (lines XDIR)) (lines XDIR) (r XDIR);
    do y <- nodeInPhysicalUnits1 (alen (lines YDIR)) (lines YDIR) (r YDIR);
    do z <- nodeInPhysicalUnits1 (alen (lines ZDIR)) (lines ZDIR) (r ZDIR);
    Some (fun a => match a with XDIR => x | YDIR => y | ZDIR => z end)
  else Some r.
Definition vpt (f : Axis -> R) : Rec := Pt (f XDIR, f YDIR, f ZDIR).
(** gnuplot.c:422-507 gnuplotArrow; head styles other than 0..3 are assert( false ) *)
Definition gnuplotArrow (start end_ norm : Axis -> R) (headStyle : Z) : option (list Rec) :=
  do ps <- arrowPoint start; do pe <- arrowPoint end_;
  let headLengthFraction := 1 / 4 in
  let headLength := headLengthFraction * sqrt ((pe XDIR - ps XDIR) * (pe XDIR - ps XDIR) +
                                               (pe YDIR - ps YDIR) * (pe YDIR - ps YDIR) +
                                               (pe ZDIR - ps ZDIR) * (pe ZDIR - ps ZDIR)) in
  let halfWidth := 1 * headLength in
  let p1 a := (1 - headLengthFraction) * pe a + headLengthFraction * ps a + halfWidth * norm a in
  let m1 a := (1 - headLengthFraction) * pe a + headLengthFraction * ps a - halfWidth * norm a in
  let p2 a := (1 - 2 * headLengthFraction) * pe a + 2 * headLengthFraction * ps a + 1 / 2 * halfWidth * norm a in
  let m2 a := (1 - 2 * headLengthFraction) * pe a + 2 * headLengthFraction * ps a - 1 / 2 * halfWidth * norm a in
  do head <- (if headStyle =? 0 then Some []
              else if headStyle =? 1 then Some [vpt p1; vpt m1; vpt pe]
              else if headStyle =? 2 then Some [vpt p1; vpt pe; vpt m1]
              else if headStyle =? 3 then Some [vpt p1; vpt pe; vpt m1; vpt pe; vpt p2; vpt pe; vpt m2]
              else None)%Z;
  Some ([vpt ps; vpt pe] ++ head ++ [Gap])%list.

(** planewave.c:1111-1163: the records of one plane wave *)
Definition unit3 (v : Axis -> R) : Axis -> R :=
  let magnitude := sqrt (v XDIR * v XDIR + v YDIR * v YDIR + v ZDIR * v ZDIR) in fun a => v a / magnitude.
Definition gnuplotPlaneWave (b : BBox) (theta phi eta : R) : option (list Rec) :=
  do box <- gnuplotBoundingBox physical lines b;
  let minSide := Z.min (Z.min (b XHI - b XLO) (b YHI - b YLO)) (b ZHI - b ZLO) in
  let scale := 3 / 10 * IZR minSide in
  do ijk0 <- origin b theta phi;
  let k := kinc theta phi in
  let F := Finc 1 theta phi eta in
  let Einc := unit3 (fun a => match a with XDIR => F EX | YDIR => F EY | ZDIR => F EZ end) in
  let Hinc := unit3 (fun a => match a with XDIR => F HX | YDIR => F HY | ZDIR => F HZ end) in
  let start a := IZR (ijk0 a) in
  do mk_ <- gnuplotArrow start (fun a => start a + scale * k a) Einc 2;
  do me <- gnuplotArrow start (fun a => start a + scale * Einc a) k 1;
  do mh <- gnuplotArrow start (fun a => start a + scale * Hinc a) Einc 3;
  Some (box ++ mk_ ++ me ++ mh)%list.
(** planewave.c:1085-1168 gnuplotPlaneWaves *)
Definition gnuplotPlaneWaves (mbox : BBox) (l : list PW) : option (list Rec) :=
  withSize physical lines mbox (concatO (map (fun p => gnuplotPlaneWave (pw_mbbox p) (pw_theta p) (pw_phi p) (pw_eta p)) l)).
End Draw.
