(** Mesh export for gnuplot (gvulture, default format).  Models
    /repo/src/gnuplot.c and the drawing routines of the modules.

    A data file is the list of its records: points and empty lines.  The text
    formatting of the numbers and the script mesh.gnp (other than its plot command)
    are not modelled; plane waves are in GnuplotPw.v.  [None] stands for an
    access outside the arrays of mesh lines, or a loop that does not end. *)
From Coq Require Import ZArith List Bool String Reals.
From Verif Require Import Types Lang BBox CArr Source Gmsh.
Import ListNotations.
Open Scope Z_scope.

Inductive Rec := Pt (p : R * R * R) | Gap.
Section Draw.
(** gnuplot.c:536-546 indexInRealUnits and grid.c:1226-1248: mesh lines in metres
    or the line number *)
Variable physical : bool.
Variable lines : Axis -> carr R.
Definition indexInRealUnits (i : Z) (a : Axis) : option R := if physical then rd (lines a) i else Some (IZR i).
(** gnuplot.c:511-533 bboxInRealUnits, grid.c:1181-1193 *)
Definition bboxInRealUnits (b : BBox) : option (Face -> R) :=
  do xl <- indexInRealUnits (b XLO) XDIR; do xh <- indexInRealUnits (b XHI) XDIR;
  do yl <- indexInRealUnits (b YLO) YDIR; do yh <- indexInRealUnits (b YHI) YDIR;
  do zl <- indexInRealUnits (b ZLO) ZDIR; do zh <- indexInRealUnits (b ZHI) ZDIR;
  Some (fun f => match f with XLO => xl | XHI => xh | YLO => yl | YHI => yh | ZLO => zl | ZHI => zh end).
Definition pt (r : Face -> R) (fx fy fz : Face) : Rec := Pt (r fx, r fy, r fz).
(** gnuplot.c:143-160 gnuplotProblemSize *)
Definition gnuplotProblemSize (b : BBox) : option (list Rec) :=
  do r <- bboxInRealUnits b;
  Some [pt r XLO YLO ZLO; pt r XLO YLO ZLO; Pt (99995 / 100000 * r XLO, 99995 / 100000 * r YLO, 99995 / 100000 * r ZLO)%R; Gap;
        pt r XHI YHI ZHI; Pt (100005 / 100000 * r XHI, 100005 / 100000 * r YHI, 100005 / 100000 * r ZHI)%R; Gap].
(** gnuplot.c:209-220 gnuplotPoint *)
Definition gnuplotPoint (b : BBox) : option (list Rec) := do r <- bboxInRealUnits b; Some [pt r XLO YLO ZLO; Gap].
(** gnuplot.c:223-252 gnuplotLine; [None] direction = assert( 0 ) *)
Definition gnuplotLine (b : BBox) (d : option Axis) : option (list Rec) :=
  do r <- bboxInRealUnits b;
  match d with
  | Some XDIR => Some [pt r XLO YLO ZLO; pt r XHI YLO ZLO; Gap]
  | Some YDIR => Some [pt r XLO YLO ZLO; pt r XLO YHI ZLO; Gap]
  | Some ZDIR => Some [pt r XLO YLO ZLO; pt r XLO YLO ZHI; Gap]
  | None => None
  end.
(** gnuplot.c:255-303 gnuplotSurface: a loop over the planes of the normal *)
Fixpoint concatO {A} (l : list (option (list A))) : option (list A) :=
  match l with [] => Some [] | x :: l' => do u <- x; do v <- concatO l'; Some (u ++ v)%list end.
Definition gnuplotSurface (b : BBox) (d : option Axis) : option (list Rec) :=
  do r <- bboxInRealUnits b;
  match d with
  | Some XDIR => concatO (map (fun i => do x <- indexInRealUnits i XDIR;
      Some [Pt (x, r YLO, r ZLO); Pt (x, r YLO, r ZHI); Pt (x, r YHI, r ZHI); Pt (x, r YHI, r ZLO); Pt (x, r YLO, r ZLO); Gap]) (zrange (b XLO) (b XHI)))
  | Some YDIR => concatO (map (fun j => do y <- indexInRealUnits j YDIR;
      Some [Pt (r XLO, y, r ZLO); Pt (r XLO, y, r ZHI); Pt (r XHI, y, r ZHI); Pt (r XHI, y, r ZLO); Pt (r XLO, y, r ZLO); Gap]) (zrange (b YLO) (b YHI)))
  | Some ZDIR => concatO (map (fun k => do z <- indexInRealUnits k ZDIR;
      Some [Pt (r XLO, r YLO, z); Pt (r XLO, r YHI, z); Pt (r XHI, r YHI, z); Pt (r XHI, r YLO, z); Pt (r XLO, r YLO, z); Gap]) (zrange (b ZLO) (b ZHI)))
  | None => None
  end.
(** gnuplot.c:306-353 gnuplotVolume *)
Definition gnuplotVolume (b : BBox) : option (list Rec) :=
  do r <- bboxInRealUnits b;
  Some [pt r XLO YLO ZLO; pt r XLO YHI ZLO; pt r XHI YHI ZLO; pt r XHI YLO ZLO;
        pt r XLO YLO ZLO; pt r XLO YHI ZLO; pt r XLO YHI ZHI; pt r XLO YLO ZHI;
        pt r XLO YLO ZLO; pt r XHI YLO ZLO; pt r XHI YLO ZHI; pt r XLO YLO ZHI; pt r XLO YLO ZLO; Gap;
        pt r XHI YHI ZHI; pt r XLO YHI ZHI; pt r XLO YLO ZHI; pt r XHI YLO ZHI;
        pt r XHI YHI ZHI; pt r XHI YHI ZLO; pt r XHI YLO ZLO; pt r XHI YLO ZHI;
        pt r XHI YHI ZHI; pt r XHI YHI ZLO; pt r XLO YHI ZLO; pt r XLO YHI ZHI; pt r XHI YHI ZHI; Gap].
(** gnuplot.c:163-186 gnuplotBoundingBox *)
Definition gnuplotBoundingBox (b : BBox) : option (list Rec) :=
  match bboxType b with
  | BB_POINT => gnuplotPoint b
  | BB_LINE => gnuplotLine b (bboxDirection b)
  | BB_SURFACE => gnuplotSurface b (bboxDirection b)
  | BB_VOLUME => gnuplotVolume b
  end.
(** gnuplot.c:189-206 gnuplotBoundingBoxNodes *)
Definition gnuplotBoundingBoxNodes (b : BBox) (step : Axis -> Z) : option (list Rec) :=
  do ks <- zsteps (b ZLO) (b ZHI) (step ZDIR);
  concatO (map (fun k => do js <- zsteps (b YLO) (b YHI) (step YDIR);
    concatO (map (fun j => do is_ <- zsteps (b XLO) (b XHI) (step XDIR);
      concatO (map (fun i => do x <- indexInRealUnits i XDIR; do y <- indexInRealUnits j YDIR; do z <- indexInRealUnits k ZDIR;
        Some [Pt (x, y, z); Gap]) is_)) js)) ks).
(** gnuplot.c:356-425 gnuplotBoundingBoxArrow, along the axis of the field: the
    records and the box it leaves behind (it is the box of the source) *)
Definition stretch (b : BBox) (a : Axis) : BBox :=
  if b (face_hi a) =? b (face_lo a) then fun f => if match f, face_hi a with XHI, XHI | YHI, YHI | ZHI, ZHI => true | _, _ => false end then b f + 2 else b f else b.
Definition gnuplotBoundingBoxArrow (b : BBox) (a : Axis) : option (list Rec * BBox) :=
  do r0 <- bboxInRealUnits b;
  let b' := stretch b a in
  do r <- bboxInRealUnits b';
  let len := ((r (face_hi a) - r (face_lo a)) / IZR (b' (face_hi a) - b' (face_lo a)))%R in
  let hw := (5 / 10 * len)%R in
  let m c := ((r (face_lo c) + r (face_hi c)) * (5 / 10))%R in
  let p (v : R) (o : R) := match a with
    | XDIR => Pt (v, m YDIR + o, m ZDIR + o)%R | YDIR => Pt (m XDIR + o, v, m ZDIR + o)%R | ZDIR => Pt (m XDIR + o, m YDIR + o, v)%R end in
  Some ([p (r (face_lo a)) 0%R; p (r (face_hi a)) 0%R; p (r (face_hi a) - len)%R (- hw)%R; p (r (face_hi a) - len)%R hw; p (r (face_hi a)) 0%R; Gap], b').

(** ** The data files *)
Variables (mbox : BBox) (numLines : Axis -> Z).
Definition withSize (l : option (list Rec)) : option (list Rec) := do h <- gnuplotProblemSize mbox; do d <- l; Some (h ++ d)%list.
(** block.c:314-336, line.c:271-292, surface.c:885-907: blocks, wires, internal
    surfaces *)
Definition gnuplotBoxes (boxes : list BBox) : option (list Rec) := withSize (concatO (map gnuplotBoundingBox boxes)).
(** surface.c:851-882 gnuplotExternalSurfaces *)
Definition gnuplotExternalSurfaces : option (list Rec) :=
  gnuplotBoxes (map (getFaceOfBoundingBox mbox) [ZLO; XLO; YLO; ZHI; XHI; YHI]).
(** source.c:825-848 gnuplotSources *)
Definition gnuplotSources (srcs : list (BBox * Axis)) : option (list Rec) :=
  withSize (concatO (map (fun s => do d <- gnuplotBoundingBox (fst s); do e <- gnuplotBoundingBoxArrow (fst s) (snd s); Some (d ++ fst e)%list) srcs)).
(** observer.c:1219-1242 gnuplotObservers *)
Definition gnuplotObservers (obs : list (BBox * (Axis -> Z))) : option (list Rec) :=
  withSize (concatO (map (fun o => gnuplotBoundingBoxNodes (fst o) (snd o)) obs)).
(** grid.c:1294-1380 gnuplotGridLines *)
Definition gridLineBoxes : list BBox :=
  map (fun i => mkbox i i (mbox YLO) (mbox YHI) (mbox ZLO) (mbox ZLO)) (zrange 0 (numLines XDIR - 1)) ++
  map (fun i => mkbox i i (mbox YHI) (mbox YHI) (mbox ZLO) (mbox ZHI)) (zrange 0 (numLines XDIR - 1)) ++
  map (fun j => mkbox (mbox XLO) (mbox XHI) j j (mbox ZLO) (mbox ZLO)) (zrange 0 (numLines YDIR - 1)) ++
  map (fun j => mkbox (mbox XLO) (mbox XLO) j j (mbox ZLO) (mbox ZHI)) (zrange 0 (numLines YDIR - 1)) ++
  map (fun k => mkbox (mbox XLO) (mbox XHI) (mbox YHI) (mbox YHI) k k) (zrange 0 (numLines ZDIR - 1)) ++
  map (fun k => mkbox (mbox XLO) (mbox XLO) (mbox YLO) (mbox YHI) k k) (zrange 0 (numLines ZDIR - 1)).
Definition gnuplotGridLines : option (list Rec) := gnuplotBoxes gridLineBoxes.
End Draw.

(** gnuplot.c:116-138 gnuplotScript: the plot command of mesh.gnp and what follows
    it.  A line is a data file to plot, a comment, or another command; the flag says
    that it ends with a backslash and so is continued by the next. *)
Local Open Scope string_scope. Local Open Scope list_scope.
Inductive ScriptLine := Item (file : string) | Comment (file : string) | Cmd (text : string).
Definition gnuplotScript (ext surfs blocks wires srcs pws obs : bool) : list (ScriptLine * bool) :=
  [(Item "gnuplot-lines.dat", true)] ++
  [(if ext then Item "gnuplot-external.dat" else Comment "gnuplot-external.dat", true)] ++
  (if surfs then [(Item "gnuplot-surface.dat", true)] else []) ++
  (if blocks then [(Item "gnuplot-block.dat", true)] else []) ++
  (if wires then [(Item "gnuplot-wires.dat", true)] else []) ++
  (if srcs then [(Item "gnuplot-source.dat", true)] else []) ++
  (if pws then [(Item "gnuplot-planewave.dat", true)] else []) ++
  (if obs then [(Item "gnuplot-observer.dat", false)] else []) ++
  [(Cmd "set output", false); (Cmd "set term pop", false); (Cmd "replot", false)].
