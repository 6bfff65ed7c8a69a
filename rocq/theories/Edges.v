(** Mesh lines, cell edge lengths, time step, grid type and coordinates.
    Models /repo/src/grid.c:207-319, 582-679, 1187-1549 and
    /repo/src/simulation.c:63-122.  The C type [real] is modelled by R:
    rounding, overflow and NaN are not modelled here. *)
From Coq Require Import ZArith List Bool Reals.
From Verif Require Import Types Lang BBox Grid CArr.
Import ListNotations.
Open Scope R_scope.

(** float.h FLT_MAX = (2 - 2^-23) * 2^127 (fdtd_types.h:37 REAL_MAX) *)
Definition REAL_MAX : R := (2 - / 8388608) * 2 ^ 127.
Definition c0 : R := 299792458.                 (* physical.c:41 *)
Definition GRID_TYPE_TOL : R := / 100000.       (* grid.c:47 *)

(** ** Mesh lines *)
(** grid.c:313-322 setUniformMesh: [for( i = 0 ; i < numLines ; i++ ) v[i] = i * del] *)
Definition setUniformMesh (v : carr R) (n : Z) (del : R) : option (carr R) :=
  cfor 0 (n - 1) (fun v i => wr v i (IZR i * del)) v.

(** grid.c:208-254 parseMS on the numbers scanned by
    sscanf( "%lf %lf %lf" ): [None] = card rejected. *)
Definition parseMS (nl : Axis -> Z) (ps : list R) : option (Axis -> carr R) :=
  let mk d (x y z : R) (a : Axis) : option (carr R) :=
    setUniformMesh (mkArr (nl a) d) (nl a) (match a with XDIR => x | YDIR => y | ZDIR => z end) in
  let go x y z :=
    if Rle_dec x 0 then None else if Rle_dec y 0 then None else if Rle_dec z 0 then None
    else do xl <- mk (fun _ => 0) x y z XDIR; do yl <- mk (fun _ => 0) x y z YDIR;
         do zl <- mk (fun _ => 0) x y z ZDIR;
         Some (fun a => match a with XDIR => xl | YDIR => yl | ZDIR => zl end) in
  match ps with
  | [x] => go x x x
  | [x; y; z] => go x y z
  | _ => None
  end.

(** grid.c:257-308 parseXL/parseYL/parseZL and mesh.c:490-507
    meshReadRealArray: [numLines] numbers are read from the following lines of
    the file; the values themselves are not checked.  [None] = too few
    numbers. *)
Definition parseLines (n : Z) (ps : list R) : option (carr R) :=
  if (Z.of_nat (length ps) <? n)%Z then None
  else Some (mkArr n (fun i => nth (Z.to_nat i) ps 0)).

(** ** Courant number *)
(** simulation.c:64-84 parseCN on the scanned number; the state is the
    Courant number (simulation.c:52, initially -1). *)
Definition parseCN (x : R) : option R := if Rge_dec x 1 then None else Some x.
(** simulation.c:111-122 initSimulation, called at vulture.c:93, i.e. before
    the mesh file is read at vulture.c:96. *)
Definition initSimulation (cn : R) : R := if Rlt_dec cn 0 then sqrt 3 / 2 else cn.
(** The Courant number of a run: initSimulation, then the CN cards read. *)
Definition courantOf (card : option R) : option R :=
  match card with None => Some (initSimulation (-1)) | Some x => parseCN x end.

(** ** Edge lengths *)
(** The arrays of one axis: dex, idex, dhx, idhx and dmin[], dmax[]. *)
Record Edges := mkEdges { eDe : carr R; eIde : carr R; eDh : carr R; eIdh : carr R; eMin : R; eMax : R }.

(** [if( x < dmin ) dmin = x;  if( x > dmax ) dmax = x;] *)
Definition track (mm : R * R) (x : R) : R * R :=
  (if Rlt_dec x (fst mm) then x else fst mm, if Rgt_dec x (snd mm) then x else snd mm).

(** grid.c:592-670 initCellEdges for one axis (the C text repeats these
    statements for x, y and z; the axes share no variable).  [ol],[oh] =
    gobox, [il],[ih] = gibox of the axis; [garbage] = contents of the
    freshly allocated arrays. *)
Section Axis1.
Variables (ol il ih oh ncells : Z) (lines : carr R) (garbage : Z -> R).
Open Scope Z_scope.

(** grid.c:599-603 (dex), 605-609 (dey), 611-615 (dez) *)
Definition fillDe : option (carr R) :=
  do a <- cfor ol (il - 1) (fun a i => do x <- rd lines 1; do y <- rd lines 0; wr a i (x - y)%R) (mkArr ncells garbage);
  do a <- cfor il (ih - 1) (fun a i => do x <- rd lines (i - il + 1); do y <- rd lines (i - il); wr a i (x - y)%R) a;
  do a <- cfor ih (oh - 1) (fun a i => do x <- rd lines (ih - il); do y <- rd lines (ih - il - 1); wr a i (x - y)%R) a;
  do x <- rd a ol; do a <- wr a (ol - 1) x;
  do y <- rd a (oh - 1); wr a oh y.

(** grid.c:619-624 (x), 626-631 (y), 633-638 (z) *)
Definition fillIde (de : carr R) : option (carr R * (R * R)) :=
  cfor (ol - 1) oh (fun s i => let '(ide, mm) := s in
      do x <- rd de i; do ide <- wr ide i (/ x)%R; Some (ide, track mm x))
    (mkArr ncells garbage, (REAL_MAX, 0%R)).

(** grid.c:642, 645 (x), 643, 646 (y), 644, 647 (z) *)
Definition fillDh (de : carr R) : option (carr R) :=
  do a <- cfor ol oh (fun a i => do x <- rd de i; do y <- rd de (i - 1); wr a i (/ 2 * (x + y))%R) (mkArr ncells garbage);
  do x <- rd a ol; wr a (ol - 1) x.

(** grid.c:650-655, 668 (x), 656-661, 669 (y), 662-667, 670 (z) *)
Definition fillIdh (dh : carr R) (mm : R * R) : option (carr R * (R * R)) :=
  do s <- cfor ol oh (fun s i => let '(idh, mm) := s in
      do x <- rd dh i; do idh <- wr idh i (/ x)%R; Some (idh, track mm x))
    (mkArr ncells garbage, mm);
  let '(idh, mm) := s in
  do x <- rd idh ol; do idh <- wr idh (ol - 1) x; Some (idh, mm).

Definition initCellEdges1 : option Edges :=
  do de <- fillDe;
  do s <- fillIde de; let '(ide, mm) := s in
  do dh <- fillDh de;
  do s <- fillIdh dh mm; let '(idh, mm) := s in
  Some (mkEdges de ide dh idh (fst mm) (snd mm)).
End Axis1.

(** All three axes, on the extents of setGridExtents. *)
Definition axisEdges (c : Cfg) (lines : Axis -> carr R) (garbage : Z -> R) (a : Axis) : option Edges :=
  initCellEdges1 (gobox c (face_lo a)) (gibox c (face_lo a)) (gibox c (face_hi a)) (gobox c (face_hi a))
                 (numCells c a) (lines a) garbage.

(** grid.c:673-676 time step *)
Definition timeStep (cn : R) (dmin : Axis -> R) : R :=
  cn / c0 / sqrt ((1 / dmin XDIR) * (1 / dmin XDIR) + (1 / dmin YDIR) * (1 / dmin YDIR)
                  + (1 / dmin ZDIR) * (1 / dmin ZDIR)).

(** grid.c:583-679 initCellEdges *)
Definition initCellEdges (c : Cfg) (lines : Axis -> carr R) (garbage : Z -> R) (cn : R)
  : option ((Axis -> Edges) * R) :=
  do ex <- axisEdges c lines garbage XDIR;
  do ey <- axisEdges c lines garbage YDIR;
  do ez <- axisEdges c lines garbage ZDIR;
  let e := fun a => match a with XDIR => ex | YDIR => ey | ZDIR => ez end in
  Some (e, timeStep cn (fun a => eMin (e a))).

(** ** Grid type: grid.c:1505-1549 setGridType *)
Inductive GridType := GT_CUBIC | GT_UNIFORM | GT_NONUNIFORM.
(** [for( i = il + 1 ; i <= ih - 1 ; i++ ) if( de[i] - de[i-1] > TOL ) flag = false;] *)
Definition isUniform (il ih : Z) (de : carr R) : option bool :=
  cfor (il + 1) (ih - 1) (fun b i => do x <- rd de i; do y <- rd de (i - 1)%Z;
      Some (if Rgt_dec (x - y) GRID_TYPE_TOL then false else b)) true.
Definition setGridType (c : Cfg) (de : Axis -> carr R) : option (GridType * (Axis -> R)) :=
  let u a := isUniform (gibox c (face_lo a)) (gibox c (face_hi a)) (de a) in
  do ux <- u XDIR; do uy <- u YDIR; do uz <- u ZDIR;
  if ux && uy && uz then
    do dx <- rd (de XDIR) (gibox c XLO); do dy <- rd (de YDIR) (gibox c YLO); do dz <- rd (de ZDIR) (gibox c ZLO);
    Some (if Rlt_dec (Rabs (dx - dy)) GRID_TYPE_TOL then
            if Rlt_dec (Rabs (dy - dz)) GRID_TYPE_TOL then GT_CUBIC else GT_UNIFORM
          else GT_UNIFORM,
          fun a => match a with XDIR => dx | YDIR => dy | ZDIR => dz end)
  else Some (GT_NONUNIFORM, fun _ => -1).

(** ** Coordinates *)
(** C floor( x ) converted to int (overflow of int not modelled). *)
Definition rfloor (x : R) : Z := Int_part x.

(** grid.c:1252-1291 nodeInPhysicalUnits, one axis (the three blocks
    1264-1269, 1271-1276, 1278-1283 are the same text for x, y, z). *)
Definition nodeInPhysicalUnits1 (n : Z) (lines : carr R) (rijk : R) : option R :=
  let ijk := rfloor rijk in
  let frac := rijk - IZR ijk in
  if (ijk <? 0)%Z then
    do l0 <- rd lines 0; do l1 <- rd lines 1; Some (l0 + rijk * (l1 - l0))
  else if (ijk >? n - 2)%Z then
    do u <- rd lines (n - 1); do v <- rd lines (n - 2); Some (u + (rijk - IZR n + 1) * (u - v))
  else
    do u <- rd lines ijk; do v <- rd lines (ijk + 1); Some ((1 - frac) * u + frac * v).

(** grid.c:1397-1445 getFieldPhysicalLocation; the location is (r[XDIR],
    r[YDIR], r[ZDIR]).  [half f a] tells which of the six cases adds half an
    edge along axis [a]. *)
Definition half (f : Fld) (a : Axis) : bool :=
  match f, a with
  | EX, XDIR => true | EX, _ => false
  | EY, YDIR => true | EY, _ => false
  | EZ, ZDIR => true | EZ, _ => false
  | HX, XDIR => false | HX, _ => true
  | HY, YDIR => false | HY, _ => true
  | HZ, ZDIR => false | HZ, _ => true
  end.
Definition fieldLocation1 (c : Cfg) (lines : carr R) (de : carr R) (f : Fld) (a : Axis) (ig : Z) : option R :=
  let im := (ig - gibox c (face_lo a))%Z in
  do x <- rd lines im;
  if half f a then do d <- rd de ig; Some (x + / 2 * d) else Some x.
(** grid.c:1448-1492 getFieldIndexLocation *)
Definition fieldIndexLocation1 (f : Fld) (a : Axis) (ig : Z) : R :=
  if half f a then IZR ig + / 2 else IZR ig.
