(** From the data of an accepted mesh file to what the solver runs: grid
    extents, the scene painted by the media set-up, and the program of the time
    loop (Whole.v). *)
From Coq Require Import ZArith List Bool Reals.
From Verif Require Import Types BBox Grid Setup Media Medium Debye Filter Sibc Source PlaneWave Whole Front.
Import ListNotations.
Open Scope Z_scope.

(** grid.c:311-387 and surface.c:240-326 on the DM card and the boundaries *)
Definition cfgFor (h : MeshData) : option Cfg := setupCfg (h_numCells h XDIR) (h_numCells h YDIR) (h_numCells h ZDIR) (h_breg h).
(** block.c:92-105, line.c, surface.c:362-400: what the media set-up paints *)
Definition sceneOf (h : MeshData) : Scene := mkScene (h_blocks h) (h_lines h) (map fst (h_surfs h)).
Definition wireOf (h : MeshData) (n : nat) : WType := match nth_error (h_wires h) n with Some it => idata it | None => TW_PEC end.
Definition boundOf (h : MeshData) (n : nat) : BType := match typeAt (h_breg h) n with Some t => t | None => BT_PEC end.
(** medium.c getMedium: type and poles (block.c:200-260, debye.c:66-150) *)
Definition medOf (h : MeshData) (n : nat) : MType * list Pole :=
  match nth_error (h_media h) n with Some it => (m_type (idata it), m_poles (idata it)) | None => (MT_PEC, []) end.
(** sibc.c:237-262: the sheets, with the filters [rcm] of their boundaries *)
Definition sheetsOf (c : Cfg) (h : MeshData) (rcm : nat -> I4 -> I4 -> RecConv) : list Sheet :=
  flat_map (fun x => let '(s, ang) := x in
    match boundOf h (boundary_s s), bboxDirection (bbox_s s) with
    | BT_SIBC, Some n => [mkSheet (sheetBox c (bbox_s s) n) n (orient_s s =? 1) (cos (PI * ang / 180)) (sin (PI * ang / 180)) (rcm (boundary_s s))]
    | _, _ => []
    end) (h_surfs h).
(** sibc.c:320-385: adjacency flags; an element outside the array or never
    written counts as false here (C61 treats those accesses) *)
Definition flagsAt (c : Cfg) (sheets : list Sheet) (adj : Axis -> Z -> Z -> Z -> I4 -> Z * Z * Z * Axis) (n : Axis) (i j k : Z) : Flags :=
  fun p => match rdFace c (faceArray c sheets) (adj n i j k p) with Some b => b | None => false end.
(** simulation.c:136-230 *)
Definition progOf (c : Cfg) (h : MeshData) (rcm : nat -> I4 -> I4 -> RecConv) (eps0 dt : R) (de dh : Axis -> Z -> R) : Prog :=
  let sheets := sheetsOf c h rcm in
  mkProg eps0 dt (initDebyeBlocks c (medOf h) (h_blocks h))
    (map (fun s => (s, flagsAt c sheets adjA (sb_normal s), flagsAt c sheets adjB (sb_normal s))) sheets)
    de dh (h_srcs h) (h_pws h).
(** The update coefficients: vulture.c:113-128 (media, blocks, wires, surfaces,
    walls, material into the PML), then vulture.c:134, source.c:469-577: the
    loads of the lumped sources. *)
Definition loadsOf (c : Cfg) (h : MeshData) (eps0 mu0 dt : R) (de dh : Axis -> Z -> R) : list (Lang.stmt R) :=
  flat_map (fun s => let g := offsetBoundingBox (s_mbbox s) (gibox c) in
                     let '(_, _, ld) := convert de dh g s in loadProg eps0 mu0 dt g ld) (h_srcs h).
Definition coefProg (c : Cfg) (h : MeshData) (eps0 mu0 dt : R) (de dh : Axis -> Z -> R) : list (Lang.stmt R) :=
  mediaProgPml (initMedia eps0 mu0 dt (h_media h)) c (wireOf h) (boundOf h) (sceneOf h) ++ loadsOf c h eps0 mu0 dt de dh.
