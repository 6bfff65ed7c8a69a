(** Media, blocks, lines, surfaces and the coefficient arrays they fill.
    Models /repo/src/medium.c, block.c, line.c, surface.c:177-236 and 351-458,
    setMediumOnGrid and initMediaArrays of grid.c, initPmlMaterialArrays of
    pml.c.  Default build: unscaled fields, unindexed and unaveraged media. *)
From Coq Require Import ZArith List Bool String Ascii.
From Verif Require Import Types Lang BBox Grid Setup Pml.
Import ListNotations.
Open Scope Z_scope.

(** medium.h:81-83: the update coefficients of one medium. *)
Record Coef (V : Type) := mkCoef { calpha : V; cbeta : V; cgamma : V }.
Arguments mkCoef {V}. Arguments calpha {V}. Arguments cbeta {V}. Arguments cgamma {V}.

(** ** Cards, on the scanned values: [None] = card rejected. *)
(** block.c:63-117 parseMB; the default of the mask is "111111" (block.c:70). *)
Record Block := mkBlock { bbox_b : BBox; medium_b : nat; mask_b : Z }.
Definition parseMB {A} (mbox : BBox) (media : Registry A) (b : BBox) (name : string)
    (maskStr : list ascii) : option Block :=
  if negb (bboxIsNormal b) then None
  else if negb (bboxIsWithin b mbox) then None
  else match bboxType b with
       | BB_VOLUME =>
           match findName media name with
           | None => None
           | Some n => let mask := setFaceMaskFromString maskStr in
                       if mask =? FACE_MASK_ERROR then None else Some (mkBlock b n mask)
           end
       | _ => None
       end.

(** wire.h WireType: TW_PEC 0, TW_FREE_SPACE 1.  line.c:92-163 parseTW; the wire
    end types are stored but used nowhere in the solver and are omitted. *)
Inductive WType := TW_PEC | TW_FREE_SPACE.
(** mesh.c:257-258 *)
Definition initWireReg : Registry WType :=
  [mkItem "PEC"%string TW_PEC; mkItem "FREE_SPACE"%string TW_FREE_SPACE].
Record Line := mkLine { bbox_l : BBox; wire_l : nat }.
Definition parseTW {A} (mbox : BBox) (wires : Registry A) (b : BBox) (name : string) : option Line :=
  if negb (bboxIsNormal b) then None
  else if negb (bboxIsWithin b mbox) then None
  else match bboxType b with
       | BB_LINE => match findName wires name with None => None | Some n => Some (mkLine b n) end
       | _ => None
       end.

(** surface.c:177-236 parseTB; [angle_ok] is the test on the rotation angle
    (-180 <= angle <= 180), the angle itself being used by the SIBC code only. *)
Record Surf := mkSurf { bbox_s : BBox; boundary_s : nat; orient_s : Z }.
Definition parseTB {A} (mbox : BBox) (bounds : Registry A) (b : BBox) (name : string)
    (orient : Z) (angle_ok : bool) : option Surf :=
  if negb (bboxIsNormal b) then None
  else if negb (bboxIsWithin b mbox) then None
  else match bboxType b with
       | BB_SURFACE =>
           match findName bounds name with
           | None => None
           | Some n => if negb (orient =? 1) && negb (orient =? -1) then None
                       else if negb angle_ok then None else Some (mkSurf b n orient)
           end
       | _ => None
       end.

Definition MT_FREE_SPACE_num : nat := 0.   (* medium.h:52 *)
Definition MT_PEC_num : nat := 1.          (* medium.h:53 *)

Section Arrays.
Context {V : Type}.
(** mediumArray[n] as seen by getSimpleMediumCoefficients (medium.c:443-452) *)
Variable coef : nat -> Coef V.

(** grid.c:1820-1865: the loop nest of one component. *)
Definition setCoefBody (co : Coef V) (f : Fld) (i j k : Z) : list (stmt V) :=
  if is_E f
  then [Asg (L (AAlpha f) i j k) (Cst (calpha co)); Asg (L (ABeta f) i j k) (Cst (cbeta co))]
  else [Asg (L (AGamma f) i j k) (Cst (cgamma co))].
Definition nestS (lim : BBox) (body : Z -> Z -> Z -> list (stmt V)) : list (stmt V) :=
  for_ (lim XLO) (lim XHI) (fun i => for_ (lim YLO) (lim YHI) (fun j =>
    for_ (lim ZLO) (lim ZHI) (fun k => body i j k))).
(** grid.c:1726-1871 setMediumOnGrid *)
Definition setMediumOnGrid (gbbox : BBox) (medium : nat) (mask : Z) : list (stmt V) :=
  let includeBoundary := faceMask2boolArray mask in
  match bboxType gbbox with
  | BB_POINT => []
  | _ => let flim := setFieldLimits gbbox includeBoundary in
         flat_map (fun f => nestS (flim f) (setCoefBody (coef medium) f)) flds
  end.

(** grid.c:1146-1163 initMediaArrays: mask 0x2A = XLO|YLO|ZLO *)
Definition initMediaArrays (c : Cfg) : list (stmt V) :=
  setMediumOnGrid (ggbox c) MT_FREE_SPACE_num (FACE_MASKS XLO + FACE_MASKS YLO + FACE_MASKS ZLO).

(** block.c:148-228 initBlocks (all four medium types take the same path; the
    dispersive part is initDebyeBlocks, modelled in Debye.v) *)
Definition initBlocks (c : Cfg) (bs : list Block) : list (stmt V) :=
  flat_map (fun b => setMediumOnGrid (offsetBoundingBox (bbox_b b) (gibox c)) (medium_b b) (mask_b b)) bs.

(** line.c:165-206 initLines *)
Definition initLines (c : Cfg) (wtype : nat -> WType) (ls : list Line) : list (stmt V) :=
  flat_map (fun l => let g := offsetBoundingBox (bbox_l l) (gibox c) in
    match wtype (wire_l l) with
    | TW_PEC => setMediumOnGrid g MT_PEC_num FACE_MASK_ALL
    | TW_FREE_SPACE => setMediumOnGrid g MT_FREE_SPACE_num FACE_MASK_ALL
    end) ls.

(** surface.c:351-406 initInternalSurfaces *)
Definition initInternalSurfaces (c : Cfg) (btype_ : nat -> BType) (ss : list Surf) : list (stmt V) :=
  flat_map (fun s => let g := offsetBoundingBox (bbox_s s) (gibox c) in
    match btype_ (boundary_s s) with
    | BT_PEC | BT_SIBC => setMediumOnGrid g MT_PEC_num FACE_MASK_ALL
    | BT_FREE_SPACE => setMediumOnGrid g MT_FREE_SPACE_num FACE_MASK_ALL
    | _ => []
    end) ss.

(** boundary.c:48 BOUNDARY_MEDIUM_TYPE: PEC for PML, PEC and SIBC *)
Definition boundaryIsPec (t : BType) : bool :=
  match t with BT_PML | BT_PEC | BT_SIBC => true | _ => false end.
(** surface.c:411-458 initExternalPecPmcSurfaces *)
Definition initExternalPecPmcSurfaces (c : Cfg) : list (stmt V) :=
  flat_map (fun face => if boundaryIsPec (outerSurfaceType c face)
     then setMediumOnGrid (getFaceOfBoundingBox (gobox c) face) MT_PEC_num FACE_MASK_ALL else []) faces.

(** pml.c:469-475: the includeBoundary table of the material copy: both faces
    normal to the region are excluded. *)
Definition copyInclude (region : Face) : BFlags :=
  fun g => negb (axis_eqb (face_axis g) (face_axis region)).
Definition fpmlim (c : Cfg) (region : Face) : FLimits := setFieldLimits (pbox c region) (copyInclude region).
(** The index the coefficients are copied from: gibox[region] for tangential E
    and normal H, gibox[region]+offset for normal E and tangential H, offset
    being +1 for LO and -1 for HI regions (pml.c:488-628). *)
Definition copyFrom (c : Cfg) (region : Face) (f : Fld) : Z :=
  if fieldIsInBoundary f region then gibox c region
  else gibox c region + (if is_lo region then 1 else -1).
Definition copyBody (c : Cfg) (region : Face) (f : Fld) (i j k : Z) : list (stmt V) :=
  let n := copyFrom c region f in
  let '(i', j', k') := match face_axis region with
                       | XDIR => (n, j, k) | YDIR => (i, n, k) | ZDIR => (i, j, n) end in
  if is_E f
  then [Asg (L (AAlpha f) i j k) (Rd (L (AAlpha f) i' j' k')); Asg (L (ABeta f) i j k) (Rd (L (ABeta f) i' j' k'))]
  else [Asg (L (AGamma f) i j k) (Rd (L (AGamma f) i' j' k'))].
(** pml.c:457-633 initPmlMaterialArrays, in the order Z, Y, X *)
Definition initPmlMaterialArrays (c : Cfg) : list (stmt V) :=
  flat_map (fun region => flat_map (fun f => nestS (fpmlim c region f) (copyBody c region f)) flds)
           [ZLO; ZHI; YLO; YHI; XLO; XHI].

(** vulture.c:113-128, surface.c:327-343: everything that fills the coefficient
    arrays, in order. *)
Record Scene := mkScene { sc_blocks : list Block; sc_lines : list Line; sc_surfs : list Surf }.
Definition mediaProg (c : Cfg) (wtype : nat -> WType) (bt : nat -> BType) (sc : Scene) : list (stmt V) :=
  initMediaArrays c ++ initBlocks c (sc_blocks sc) ++ initLines c wtype (sc_lines sc)
  ++ initInternalSurfaces c bt (sc_surfs sc) ++ initExternalPecPmcSurfaces c.
Definition mediaProgPml (c : Cfg) (wtype : nat -> WType) (bt : nat -> BType) (sc : Scene) : list (stmt V) :=
  mediaProg c wtype bt sc ++ initPmlMaterialArrays c.
End Arrays.
