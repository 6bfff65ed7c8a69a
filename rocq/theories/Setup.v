(** Name registries and completion of the external surfaces.
    Models /repo/src/boundary.c, /repo/src/surface.c:124-326, and the name/number
    hashes that boundary.c, medium.c, wire.c and waveform.c share. *)
From Coq Require Import ZArith List Bool String.
From Verif Require Import Types BBox Grid.
Import ListNotations.
Open Scope Z_scope.

(** ** Registries.  An item's number is its position (item->number = numX;
    numX++).  boundary.c:222-262, medium.c:255-309, wire.c:131-165,
    waveform.c:124-155.  The uthash tables are abstracted to look-ups in the
    list; with two items of one name the most recent is found (uthash adds at
    the head of a bucket; a bucket expansion could reverse this, which is not
    modelled). *)
Record Item (A : Type) := mkItem { iname : string; idata : A }.
Arguments mkItem {A}. Arguments iname {A}. Arguments idata {A}.
Definition Registry (A : Type) := list (Item A).

(** boundary.c:222 addBoundary, medium.c:255 addMedium, wire.c:131 addWire,
    waveform.c:124 addWaveform *)
Definition addItem {A} (reg : Registry A) (name : string) (d : A) : Registry A :=
  reg ++ [mkItem name d].

(** boundary.c:266-283 isBoundary, medium.c:186-206 isMedium, wire.c isWireType,
    waveform.c isWaveform: [Some number] when found. *)
Fixpoint findName {A} (reg : Registry A) (name : string) : option nat :=
  match reg with
  | [] => None
  | it :: reg' => match findName reg' name with
                  | Some n => Some (S n)
                  | None => if String.eqb (iname it) name then Some O else None
                  end
  end.

(** boundary.c:360-372 getBoundary, medium.c:241 getMedium, ...: [None] is the
    assert( 0 ). *)
Definition getItem {A} (reg : Registry A) (number : nat) : option (Item A) :=
  nth_error reg number.

(** boundary.c:123-127 / medium.c:93-97 / wire.c:84-88 / waveform.c:172-176: a
    card whose name is already registered is rejected ([None]), otherwise it
    is appended. *)
Definition declare {A} (reg : Registry A) (name : string) (d : A) : option (Registry A) :=
  match findName reg name with
  | Some _ => None
  | None => Some (addItem reg name d)
  end.

(** A sequence of cards; a rejected card ends the run (mesh.c:378-383). *)
Fixpoint declares {A} (reg : Registry A) (cards : list (string * A)) : option (Registry A) :=
  match cards with
  | [] => Some reg
  | (n, d) :: cs => match declare reg n d with Some reg' => declares reg' cs | None => None end
  end.

(** ** Boundaries.  Item data: type and number of layers.  The PML profile
    parameters, reflection coefficient, file name and S parameters of a
    BoundaryItem (boundary.h:73-88) are not part of this model. *)
Record BData := mkB { btype : BType; blayers : Z }.
Definition BReg := Registry BData.

(** mesh.c:252-254: predefined boundaries *)
Definition initBoundaryReg : BReg :=
  [mkItem "PEC"%string (mkB BT_PEC 0); mkItem "PMC"%string (mkB BT_PMC 0);
   mkItem "FREE_SPACE"%string (mkB BT_FREE_SPACE 0)].
(** mesh.c:261-262 predefined media (data: the medium type as a string tag) *)
Inductive MType := MT_FREE_SPACE | MT_PEC | MT_SIMPLE | MT_DEBYE.
Definition initMediumReg : Registry MType :=
  [mkItem "FREE_SPACE"%string MT_SIMPLE; mkItem "PEC"%string MT_PEC].

(** fdtd_types.c:29 FACE[6] *)
Definition FACE (f : Face) : string :=
  match f with XLO => "XLO" | XHI => "XHI" | YLO => "YLO" | YHI => "YHI"
             | ZLO => "ZLO" | ZHI => "ZHI" end%string.

(** pml.c:1326-1337 *)
Definition pmlDefaultLayers : Z := 6.

(** boundary.c:456-471 setBoundaryNumLayers: [None] = assert( 0 ) *)
Fixpoint setLayers (reg : BReg) (number : nat) (n : Z) : option BReg :=
  match reg, number with
  | [], _ => None
  | it :: r, O => Some (mkItem (iname it) (mkB (btype (idata it)) n) :: r)
  | it :: r, S k => match setLayers r k n with Some r' => Some (it :: r') | None => None end
  end.

(** boundary.c:79-106 parseBE on the six scanned depths: [None] = card
    rejected.  When the face has no boundary isBoundary leaves number = 0
    (boundary.c:280) and the loop still calls setBoundaryNumLayers. *)
Fixpoint parseBE_loop (reg : BReg) (depth : Face -> Z) (fs : list Face) : option BReg :=
  match fs with
  | [] => Some reg
  | f :: fs' =>
      if depth f <? 0 then None
      else let number := match findName reg (FACE f) with Some n => n | None => O end in
           match setLayers reg number (depth f) with
           | Some reg' => parseBE_loop reg' depth fs'
           | None => None
           end
  end.
Definition parseBE (reg : BReg) (depth : Face -> Z) : option BReg := parseBE_loop reg depth faces.

(** surface.c:124-174 parseBR on the six scanned integers; [None] = rejected. *)
Definition brType (n : Z) : option BData :=
  if n =? -1 then Some (mkB BT_PEC 0)
  else if n =? 0 then Some (mkB BT_PML pmlDefaultLayers)
  else if n =? 1 then Some (mkB BT_PMC 0) else None.
Fixpoint parseBR_loop (reg : BReg) (ty : Face -> Z) (fs : list Face) : option BReg :=
  match fs with
  | [] => Some reg
  | f :: fs' => match brType (ty f) with
                | None => None
                | Some d => parseBR_loop (addItem reg (FACE f) d) ty fs'
                end
  end.
Definition parseBR (reg : BReg) (ty : Face -> Z) : option BReg := parseBR_loop reg ty faces.

(** ** surface.c:240-326 initExternalSurfaceParameters *)
(** surface.c:253-269: default PML for every face without a boundary, and the
    boundary number of each face. *)
Fixpoint completeFaces (reg : BReg) (fs : list Face) : BReg * list (Face * nat) :=
  match fs with
  | [] => (reg, [])
  | f :: fs' =>
      let reg1 := match findName reg (FACE f) with
                  | Some _ => reg
                  | None => addItem reg (FACE f) (mkB BT_PML pmlDefaultLayers)
                  end in
      let n := match findName reg1 (FACE f) with Some n => n | None => O end in
      let '(reg2, l) := completeFaces reg1 fs' in (reg2, (f, n) :: l)
  end.
Definition lookupFace (l : list (Face * nat)) (f : Face) : nat :=
  match find (fun p => face_eqb (fst p) f) l with Some p => snd p | None => O end.

(** surface.c:300: opposite = surface - 2*(surface%2) + 1 on the C enum values *)
Definition face_num (f : Face) : Z :=
  match f with XLO => 0 | XHI => 1 | YLO => 2 | YHI => 3 | ZLO => 4 | ZHI => 5 end.
Definition oppositeNum (n : Z) : Z := n - 2 * (n mod 2) + 1.
Definition face_of_num (n : Z) : option Face := nth_error faces (Z.to_nat n).

Definition typeAt (reg : BReg) (n : nat) : option BType := option_map (fun i => btype (idata i)) (getItem reg n).
Definition layersAt (reg : BReg) (n : nat) : option Z := option_map (fun i => blayers (idata i)) (getItem reg n).

(** surface.c:274-322, one surface; [None] = the run is stopped (MSG_ERROR or
    assert( 0 )). *)
Definition validateFace (num : Face -> nat) (reg : BReg) (f : Face) : option BReg :=
  match typeAt reg (num f), layersAt reg (num f) with
  | Some ty, Some nl =>
      let zeroed := if negb (nl =? 0) then setLayers reg (num f) 0 else Some reg in
      match ty with
      | BT_PEC | BT_PMC | BT_MUR => zeroed
      | BT_PERIODIC =>
          match zeroed, face_of_num (oppositeNum (face_num f)) with
          | Some reg', Some o =>
              match typeAt reg' (num o) with
              | Some BT_PERIODIC => Some reg'
              | _ => None
              end
          | _, _ => None
          end
      | BT_PML => if nl <? 1 then None else Some reg
      | BT_FREE_SPACE | BT_SIBC => None
      end
  | _, _ => None
  end.
Fixpoint validateFaces (num : Face -> nat) (reg : BReg) (fs : list Face) : option BReg :=
  match fs with
  | [] => Some reg
  | f :: fs' => match validateFace num reg f with
                | Some reg' => validateFaces num reg' fs'
                | None => None
                end
  end.
Definition initExternalSurfaceParameters (reg : BReg) : option (BReg * (Face -> nat)) :=
  let '(reg1, l) := completeFaces reg faces in
  let num := lookupFace l in
  match validateFaces num reg1 faces with
  | Some reg2 => Some (reg2, num)
  | None => None
  end.

(** surface.c:999-1009 outerSurfaceType / outerSurfaceNumLayers after set-up,
    together with parseDM's line counts: the configuration of the grid.
    (Totalised with PEC/0 where the C code would assert.) *)
Definition cfgOf (nl : Axis -> Z) (reg : BReg) (num : Face -> nat) : Cfg :=
  mkCfg nl (fun f => match typeAt reg (num f) with Some t => t | None => BT_PEC end)
           (fun f => match layersAt reg (num f) with Some n => n | None => 0 end).

(** Everything the grid extents depend on: DM card + boundary registry. *)
Definition setupCfg (nx ny nz : Z) (reg : BReg) : option Cfg :=
  match parseDM nx ny nz, initExternalSurfaceParameters reg with
  | Some (_, nl), Some (reg', num) => Some (cfgOf nl reg' num)
  | _, _ => None
  end.
