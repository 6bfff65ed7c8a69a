(** Grid extents, field limits and the main-grid field updates.
    Models /repo/src/grid.c, unscaled fields and unindexed media (the default
    build options of CMakeLists.txt:43-45). *)
From Coq Require Import ZArith List Bool.
From Verif Require Import Types Lang BBox.
Import ListNotations.
Open Scope Z_scope.

(** What initGrid (grid.c:326-354) knows about the mesh when it sets the grid
    extents: number of mesh lines per axis (grid.c:144, set by parseDM) and the
    type and number of layers of the six external surfaces
    (surface.c outerSurfaceType/outerSurfaceNumLayers). *)
Record Cfg := mkCfg {
  numLines : Axis -> Z;
  outerSurfaceType : Face -> BType;
  outerSurfaceNumLayers : Face -> Z }.

(** grid.c:177-205 parseDM, on the three scanned integers: [None] = rejected,
    otherwise the mesh box and the number of lines. *)
Definition parseDM (nx ny nz : Z) : option (BBox * (Axis -> Z)) :=
  if (nx <? 1) || (ny <? 1) || (nz <? 1) then None
  else Some (mkbox 0 nx 0 ny 0 nz,
             fun a => match a with XDIR => nx + 1 | YDIR => ny + 1 | ZDIR => nz + 1 end).

Definition NUM_GHOST_CELLS : Z := 1.   (* grid.h:33 *)

(** grid.c:357-387 setGridExtents: gobox/gibox/ggbox and the allocation
    extents numCells. *)
Definition gibox (c : Cfg) : BBox := fun f =>
  let lo a := NUM_GHOST_CELLS + outerSurfaceNumLayers c (face_lo a) in
  match f with
  | XLO => lo XDIR | YLO => lo YDIR | ZLO => lo ZDIR
  | XHI => lo XDIR + numLines c XDIR - 1
  | YHI => lo YDIR + numLines c YDIR - 1
  | ZHI => lo ZDIR + numLines c ZDIR - 1
  end.
Definition gobox (c : Cfg) : BBox := fun f =>
  match f with
  | XLO | YLO | ZLO => NUM_GHOST_CELLS
  | XHI => gibox c XHI + outerSurfaceNumLayers c XHI
  | YHI => gibox c YHI + outerSurfaceNumLayers c YHI
  | ZHI => gibox c ZHI + outerSurfaceNumLayers c ZHI
  end.
Definition ggbox (c : Cfg) : BBox := fun f =>
  match f with
  | XLO | YLO | ZLO => 0
  | XHI => gobox c XHI + 1 | YHI => gobox c YHI + 1 | ZHI => gobox c ZHI + 1
  end.
Definition numCells (c : Cfg) (a : Axis) : Z :=
  gobox c (face_hi a) - gobox c (face_lo a) + 2 * NUM_GHOST_CELLS.

(** grid.c:390-409 initFieldArrayLimits *)
Definition includeInnerBoundary (c : Cfg) : BFlags :=
  fun f => negb (btype_eqb (outerSurfaceType c f) BT_MUR).
Definition gfilim (c : Cfg) : FLimits := setFieldLimits (gibox c) (includeInnerBoundary c).
Definition gfolim (c : Cfg) : FLimits := setFieldLimits (gobox c) (fun _ => true).
Definition gfglim (c : Cfg) : FLimits := setFieldLimits (ggbox c) (fun _ => false).

(** Extents of the allocated grid arrays: allocGridArrays, grid.c:457-580.
    Arrays of other modules are added by [dims] in Step.v. *)
Definition dims3 (c : Cfg) : Z * Z * Z := (numCells c XDIR, numCells c YDIR, numCells c ZDIR).
Definition dims1 (c : Cfg) (a : Axis) : Z * Z * Z := (numCells c a, 1, 1).

Section Kernels.
Context {V : Type}.
Notation ex := (expr V).

(** Array accesses, named as in the C text. *)
Definition F (f : Fld) (i j k : Z) : ex := Rd (L (AF f) i j k).
Definition ALPHA (f : Fld) (i j k : Z) : ex := Rd (L (AAlpha f) i j k).
Definition BETA (f : Fld) (i j k : Z) : ex := Rd (L (ABeta f) i j k).
Definition GAMMA (f : Fld) (i j k : Z) : ex := Rd (L (AGamma f) i j k).
Definition idex (i : Z) : ex := Rd (L (AIde XDIR) i 0 0).
Definition idey (j : Z) : ex := Rd (L (AIde YDIR) j 0 0).
Definition idez (k : Z) : ex := Rd (L (AIde ZDIR) k 0 0).
Definition idhx (i : Z) : ex := Rd (L (AIdh XDIR) i 0 0).
Definition idhy (j : Z) : ex := Rd (L (AIdh YDIR) j 0 0).
Definition idhz (k : Z) : ex := Rd (L (AIdh ZDIR) k 0 0).

(** grid.h:264-269 curl operators (unscaled fields) *)
Definition curl_Hx (Hz_ijk Hz_ij1k Hy_ijk1 Hy_ijk : ex) (i j k : Z) : ex :=
  Add (Mul (idhy j) (Sub Hz_ijk Hz_ij1k)) (Mul (idhz k) (Sub Hy_ijk1 Hy_ijk)).
Definition curl_Hy (Hx_ijk Hx_ijk1 Hz_i1jk Hz_ijk : ex) (i j k : Z) : ex :=
  Add (Mul (idhz k) (Sub Hx_ijk Hx_ijk1)) (Mul (idhx i) (Sub Hz_i1jk Hz_ijk)).
Definition curl_Hz (Hy_ijk Hy_i1jk Hx_ij1k Hx_ijk : ex) (i j k : Z) : ex :=
  Add (Mul (idhx i) (Sub Hy_ijk Hy_i1jk)) (Mul (idhy j) (Sub Hx_ij1k Hx_ijk)).
Definition curl_Ex (Ey_ijk1 Ey_ijk Ez_ijk Ez_ij1k : ex) (i j k : Z) : ex :=
  Add (Mul (idez k) (Sub Ey_ijk1 Ey_ijk)) (Mul (idey j) (Sub Ez_ijk Ez_ij1k)).
Definition curl_Ey (Ez_i1jk Ez_ijk Ex_ijk Ex_ijk1 : ex) (i j k : Z) : ex :=
  Add (Mul (idex i) (Sub Ez_i1jk Ez_ijk)) (Mul (idez k) (Sub Ex_ijk Ex_ijk1)).
Definition curl_Ez (Ex_ij1k Ex_ijk Ey_ijk Ey_i1jk : ex) (i j k : Z) : ex :=
  Add (Mul (idey j) (Sub Ex_ij1k Ex_ijk)) (Mul (idex i) (Sub Ey_ijk Ey_i1jk)).

(** The three-deep loop nest over the limits of one field, outer loop
    [parallel for]:  [for i for j for k body]. *)
Definition nest3 (lim : BBox) (body : Z -> Z -> Z -> list (stmt V)) : item V :=
  par_for (lim XLO) (lim XHI) (fun i =>
    for_ (lim YLO) (lim YHI) (fun j =>
      for_ (lim ZLO) (lim ZHI) (fun k => body i j k))).

(** The curls as used at point (i,j,k) by the E updates (grid.c:737-738,
    763-764, 790-791) and the H updates (grid.c:828-829, 854-855, 881-882). *)
Definition cHx (i j k : Z) : ex := curl_Hx (F HZ i j k) (F HZ i (j-1) k) (F HY i j (k-1)) (F HY i j k) i j k.
Definition cHy (i j k : Z) : ex := curl_Hy (F HX i j k) (F HX i j (k-1)) (F HZ (i-1) j k) (F HZ i j k) i j k.
Definition cHz (i j k : Z) : ex := curl_Hz (F HY i j k) (F HY (i-1) j k) (F HX i (j-1) k) (F HX i j k) i j k.
Definition cEx (i j k : Z) : ex := curl_Ex (F EY i j (k+1)) (F EY i j k) (F EZ i j k) (F EZ i (j+1) k) i j k.
Definition cEy (i j k : Z) : ex := curl_Ey (F EZ (i+1) j k) (F EZ i j k) (F EX i j k) (F EX i j (k+1)) i j k.
Definition cEz (i j k : Z) : ex := curl_Ez (F EX i (j+1) k) (F EX i j k) (F EY i j k) (F EY (i+1) j k) i j k.

(** grid.c:709-797 updateGridEfield: three parallel loop nests. *)
Definition updEx (i j k : Z) : list (stmt V) :=
  [Asg (L (AF EX) i j k) (Add (Mul (ALPHA EX i j k) (F EX i j k)) (Mul (BETA EX i j k) (cHx i j k)))].
Definition updEy (i j k : Z) : list (stmt V) :=
  [Asg (L (AF EY) i j k) (Add (Mul (ALPHA EY i j k) (F EY i j k)) (Mul (BETA EY i j k) (cHy i j k)))].
Definition updEz (i j k : Z) : list (stmt V) :=
  [Asg (L (AF EZ) i j k) (Add (Mul (ALPHA EZ i j k) (F EZ i j k)) (Mul (BETA EZ i j k) (cHz i j k)))].
Definition updateGridEfield (c : Cfg) : list (item V) :=
  [nest3 (gfilim c EX) updEx; nest3 (gfilim c EY) updEy; nest3 (gfilim c EZ) updEz].

(** grid.c:800-888 updateGridHfield *)
Definition updHx (i j k : Z) : list (stmt V) :=
  [Asg (L (AF HX) i j k) (Add (F HX i j k) (Mul (GAMMA HX i j k) (cEx i j k)))].
Definition updHy (i j k : Z) : list (stmt V) :=
  [Asg (L (AF HY) i j k) (Add (F HY i j k) (Mul (GAMMA HY i j k) (cEy i j k)))].
Definition updHz (i j k : Z) : list (stmt V) :=
  [Asg (L (AF HZ) i j k) (Add (F HZ i j k) (Mul (GAMMA HZ i j k) (cEz i j k)))].
Definition updateGridHfield (c : Cfg) : list (item V) :=
  [nest3 (gfilim c HX) updHx; nest3 (gfilim c HY) updHy; nest3 (gfilim c HZ) updHz].

End Kernels.
