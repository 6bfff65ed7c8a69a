(** What the program allocates, opens, uses and releases, from start-up to the
    tidy-up at the end of main.  Models the calls of malloc, calloc, allocArray,
    fopen, free, deallocArray and fclose, in the order of vulture.c:86-193.

    A resource is named by what holds the pointer to it: the list or array, the
    number of the item in it, the member.  Simplified: a pole-residue or
    recursive-convolution matrix (filter.c:110-310) with the arrays in it counts
    as one resource, and so do the filter states of all the faces of a sheet;
    temporaries that one function allocates and releases (allocArray's table of
    lengths, createSplines' array, the files read by filter.c and waveform.c)
    are left out, except those listed; the order in which the cards of different
    kinds come is fixed; the hash tables' own memory (uthash) is left out.
    Default build: no USE_INDEXED_MEDIA, no USE_AVERAGED_MEDIA, WITH_SIBC. *)
From Coq Require Import ZArith List Bool String Reals.
From Verif Require Import Types BBox Grid Setup Media Medium Waveform Source PlaneWave Observer Front Program.
Import ListNotations.
Open Scope string_scope.
Open Scope list_scope.

Record Res := mkRes { r_of : string; r_num : nat; r_part : string }.
Inductive Ev := Alloc (r : Res) | Use (r : Res) | Free (r : Res).
(** a pointer at file scope *)
Definition glob (s : string) : Res := mkRes s 0 "".
(** item [n] of a list, and a pointer in it *)
Definition item (s : string) (n : nat) : Res := mkRes s n "".
Definition parts (s : string) (n : nat) (l : list string) : list Res := map (mkRes s n) l.

Definition each {A} (l : list A) (f : nat -> A -> list Ev) : list Ev :=
  flat_map (fun n => match nth_error l n with Some x => f n x | None => [] end) (seq 0 (List.length l)).
Definition allocItems {A} (s : string) (l : list A) : list Ev := each l (fun n _ => [Alloc (item s n)]).
(** DL_FOREACH_SAFE / HASH_ITER: look at the item, then free it *)
Definition freeItems {A} (s : string) (l : list A) : list Ev := each l (fun n _ => [Use (item s n); Free (item s n)]).

(** grid.c:466-499 and 1034-1056 *)
Definition edgeArrays : list string :=
  ["dex"; "dey"; "dez"; "idex"; "idey"; "idez"; "dhx"; "dhy"; "dhz"; "idhx"; "idhy"; "idhz"].
Definition edgeArraysFreed : list string :=
  ["dex"; "dey"; "dez"; "dhx"; "dhy"; "dhz"; "idex"; "idey"; "idez"; "idhx"; "idhy"; "idhz"].
(** grid.c:504-519 and 1059-1069; 547-571 and 1086-1102 *)
Definition fieldArrays : list string := ["Ex"; "Ey"; "Ez"; "Hx"; "Hy"; "Hz"].
Definition coefArrays : list string :=
  ["alphaEx"; "alphaEy"; "alphaEz"; "betaEx"; "betaEy"; "betaEz"; "gammaHx"; "gammaHy"; "gammaHz"].
(** grid.c:242-246, 262, 281, 300 and 1106-1110 *)
Definition lineArrays (h : MeshData) : list string :=
  flat_map (fun a => match h_mesh h a with Some _ => [match a with XDIR => "xlines" | YDIR => "ylines" | ZDIR => "zlines" end] | None => [] end) [XDIR; YDIR; ZDIR].
(** pml.c:645-689 and 1191-1226 *)
Definition pmlRegionArrays : list string := ["Px"; "Py"; "Pz"; "PPx"; "PPy"; "PPz"; "Bx"; "By"; "Bz"].
(** pml.c:693-782 and 1230-1291 *)
Definition pmlArrays : list string :=
  ["adx"; "bdx"; "gdx"; "kdx"; "ahx"; "bhx"; "ghx"; "khx"; "ady"; "bdy"; "gdy"; "kdy"; "ahy"; "bhy"; "ghy"; "khy";
   "adz"; "bdz"; "gdz"; "kdz"; "ahz"; "bhz"; "ghz"; "khz"; "ibdx"; "ibhx"; "ibdy"; "ibhy"; "ibdz"; "ibhz"].
(** debye.c:124-172 and 210-230 *)
Definition debyeArrays : list string := ["Jpolx"; "lastEx"; "Jpoly"; "lastEy"; "Jpolz"; "lastEz"].

(** block.c:200-224, debye.c:99-104: the media of the Debye blocks *)
Definition debyeMedia (h : MeshData) : list nat :=
  flat_map (fun b => match fst (medOf h (medium_b b)) with MT_DEBYE => [medium_b b] | _ => [] end) (h_blocks h).
(** surface.c:384-401, sibc.c:237-243: the boundaries of the SIBC surfaces *)
Definition sibcBounds (h : MeshData) : list nat :=
  flat_map (fun x => match boundOf h (boundary_s (fst x)) with BT_SIBC => [boundary_s (fst x)] | _ => [] end) (h_surfs h).
(** surface.c:253-269: the boundaries with the default PMLs; the boundary of
    each outer surface *)
Definition allBounds (h : MeshData) : BReg := fst (completeFaces (h_breg h) faces).
Definition faceBound (h : MeshData) (f : Face) : nat := lookupFace (snd (completeFaces (h_breg h) faces)) f.
(** observer.c:453-461: the observers, those of the waveforms last *)
Definition allObs (h : MeshData) : list Obs := h_obs h ++ internalObs (h_wfs h).
Definition faceNo (f : Face) : nat := Z.to_nat (face_num f).

(** ** Start-up *)
(** message.c:35-66 *)
Definition startMessaging : list Ev := [Alloc (glob "programName"); Alloc (glob "logFile")].
(** mesh.c:244-400, boundary.c:231, medium.c:264-297 and 354-357, wire.c:139,
    grid.c:226-303, block.c:128, line.c:73, surface.c:105, waveform.c:132,
    source.c:321, planewave.c:151, observer.c:293 *)
Definition readEvents (h : MeshData) : list Ev :=
  [Alloc (glob "meshFile")]
  ++ allocItems "boundary" (h_breg h)
  ++ each (h_media h) (fun n it => Alloc (item "medium" n) ::
       match m_type (idata it) with MT_DEBYE => map Alloc (parts "medium" n ["residues"; "poles"]) | _ => [] end)
  ++ allocItems "wire" (h_wires h)
  ++ map Alloc (parts "lines" 0 (lineArrays h))
  ++ allocItems "block" (h_blocks h) ++ allocItems "line" (h_lines h) ++ allocItems "surface" (h_surfs h)
  ++ allocItems "waveform" (h_wfs h) ++ allocItems "source" (h_srcs h) ++ allocItems "planewave" (h_pws h)
  ++ allocItems "observer" (h_obs h)
  ++ [Free (glob "meshFile")].
(** surface.c:253-266, called from grid.c initGrid; grid.c:466-571 *)
Definition initGridEvents (h : MeshData) : list Ev :=
  map (fun n => Alloc (item "boundary" n)) (seq (List.length (h_breg h)) (List.length (allBounds h) - List.length (h_breg h)))
  ++ map Alloc (parts "grid" 0 (edgeArrays ++ fieldArrays ++ coefArrays)).
(** boundary.c:285-312, sibc.c:122-195 *)
Definition initBoundaryEvents (h : MeshData) : list Ev :=
  each (allBounds h) (fun n it => match btype (idata it) with BT_SIBC => Use (item "boundary" n) :: map Alloc (parts "boundary" n ["prm"; "rcm"]) | _ => [] end).
(** medium.c:380-412 *)
Definition initMediaEvents (h : MeshData) : list Ev :=
  Alloc (glob "mediumArray") ::
  each (h_media h) (fun n it => Use (item "medium" n) ::
    match m_type (idata it) with
    | MT_DEBYE => map Alloc (parts "medium" n ["dalpha"; "dbeta"]) ++ map Use (parts "medium" n ["residues"; "poles"; "dalpha"; "dbeta"])
    | _ => [] end).
(** block.c:170-224, debye.c:76-195 *)
Definition initBlockEvents (h : MeshData) : list Ev :=
  Alloc (glob "debyeArray") ::
  each (debyeMedia h) (fun n m => Use (glob "mediumArray") :: Use (item "medium" m) :: map Alloc (parts "debye" n debyeArrays)).
(** surface.c:345-405, sibc.c:211-395 *)
Definition initInternalSurfaceEvents (h : MeshData) : list Ev :=
  Alloc (glob "sibcArray") :: Alloc (glob "isSibcFace") ::
  each (sibcBounds h) (fun n b => map Alloc (parts "sibc" n ["rcm_s"; "Etan"; "isAdjA"; "isAdjB"]) ++
    Use (mkRes "boundary" b "rcm") :: Alloc (mkRes "sibc" n "states") :: Use (glob "isSibcFace") :: [])
  ++ [Free (glob "isSibcFace")].
(** pml.c:630-785 allocPmlArrays; outerSurfaceType reads the boundary *)
Definition initExternalSurfaceEvents (c : Cfg) (h : MeshData) : list Ev :=
  flat_map (fun f => Use (item "boundary" (faceBound h f)) ::
    match outerSurfaceType c f with BT_PML => map Alloc (parts "pml" (faceNo f) pmlRegionArrays) | _ => [] end) faces
  ++ map Alloc (parts "pmlArrays" 0 pmlArrays).
(** waveform.c:220-335 *)
Definition initWaveformEvents (h : MeshData) : list Ev :=
  each (h_wfs h) (fun n w => Use (item "waveform" n) :: match wType w with EXTERNAL => [Alloc (mkRes "waveform" n "table")] | _ => [] end).
(** planewave.c:276-352 and 1226-1297; [aux] is useAuxGrid, set on a cubic grid *)
Definition auxArrays : list string := ["Eyi"; "Hzi"; "Pyi"; "PPyi"; "Bzi"; "adx"; "bdx"; "ahx"; "bhx"].
Definition initPlaneWaveEvents (aux : bool) (h : MeshData) : list Ev :=
  each (h_pws h) (fun n _ => Use (item "planewave" n) :: if aux then map Alloc (parts "planewave" n auxArrays) else []).
(** observer.c:453-517, 720-748, 820-841, 915-935, 1041-1150 *)
Definition asciiParts (o : Obs) : list string :=
  match o_format o, o_domain o with
  | OF_ASCII, OD_TIME => ["outputFile"]
  | OF_ASCII, OD_FREQ => ["outputFile"; "dft_real"; "dft_imag"]
  | OF_BINARY, _ => []
  end.
Definition thereAreBinary (h : MeshData) : bool := existsb isBinary (h_obs h).
Definition initObserverEvents (h : MeshData) : list Ev :=
  Alloc (glob "waveformObserverFreqList") ::
  map (fun n => Alloc (item "observer" n)) (seq (List.length (h_obs h)) (List.length (internalObs (h_wfs h))))
  ++ each (allObs h) (fun n o => Use (item "observer" n) :: map Alloc (parts "observer" n (asciiParts o)))
  ++ Free (glob "waveformObserverFreqList") :: Alloc (glob "omega") ::
  (if thereAreBinary h then [Alloc (glob "exciteFile"); Alloc (glob "processFile"); Free (glob "processFile"); Alloc (glob "impulseDatFile")] else []).

(** ** The time loop: simulation.c:136-230, observer.c:600-650.  Nothing is
    allocated or released in it. *)
Definition stepEvents (h : MeshData) : list Ev :=
  map Use (parts "grid" 0 (fieldArrays ++ coefArrays))
  ++ each (allObs h) (fun n o => Use (item "observer" n) ::
       match o_format o, o_domain o with
       | OF_ASCII, OD_TIME => [Use (mkRes "observer" n "outputFile")]
       | OF_ASCII, OD_FREQ => Use (glob "omega") :: map Use (parts "observer" n ["dft_real"; "dft_imag"])
       | OF_BINARY, _ => [Use (glob "impulseDatFile")]
       end)
  ++ (if thereAreBinary h then [Use (glob "exciteFile")] else []).

(** ** Tidy-up *)
(** observer.c:653-697, 801-813, 902-914, 945-1010, 1203-1211.  [reference] is
    item->waveformObserver, observer.c:502-504. *)
Definition reference (h : MeshData) (o : Obs) : nat := wfFreqIndex (List.length (h_obs h)) (o_wf o).
Definition flushEvents (h : MeshData) (n : nat) (o : Obs) : list Ev :=
  match o_format o, o_domain o with
  | OF_ASCII, OD_FREQ =>
      Use (item "observer" n)
      :: match o_quantity o with OQ_WF => [] | OQ_EH => Use (item "observer" (reference h o)) :: map Use (parts "observer" (reference h o) ["dft_real"; "dft_imag"]) end
      ++ map Use (parts "observer" n ["dft_real"; "dft_imag"; "outputFile"])
  | _, _ => []
  end.
Definition deallocObservers (h : MeshData) : list Ev :=
  each (allObs h) (flushEvents h)
  ++ each (allObs h) (fun n o => Use (item "observer" n) :: map Free (parts "observer" n (asciiParts o)) ++ [Free (item "observer" n)])
  ++ Free (glob "omega")
  :: (if thereAreBinary h then [Free (glob "exciteFile"); Free (glob "impulseDatFile")] else []).
(** planewave.c:1042-1062, 1299-1312 *)
Definition auxArraysFreed : list string := ["Eyi"; "Hzi"; "PPyi"; "Pyi"; "Bzi"; "adx"; "bdx"].
Definition deallocPlaneWaves (aux : bool) (h : MeshData) : list Ev :=
  each (h_pws h) (fun n _ => Use (item "planewave" n) :: (if aux then map Free (parts "planewave" n auxArraysFreed) else []) ++ [Free (item "planewave" n)]).
(** source.c:786-801 *)
Definition deallocSources (h : MeshData) : list Ev := freeItems "source" (h_srcs h).
(** waveform.c:385-409 *)
Definition deallocWaveforms (h : MeshData) : list Ev :=
  each (h_wfs h) (fun n w => Use (item "waveform" n) :: match wType w with EXTERNAL => [Free (mkRes "waveform" n "table")] | _ => [] end)
  ++ freeItems "waveform" (h_wfs h).
(** mur.c:558-573, pml.c:1178-1295 *)
Definition deallocExternalSurfaces (c : Cfg) (h : MeshData) : list Ev :=
  map (fun f => Use (item "boundary" (faceBound h f))) faces
  ++ flat_map (fun f => Use (item "boundary" (faceBound h f)) ::
       match outerSurfaceType c f with BT_PML => map Free (parts "pml" (faceNo f) pmlRegionArrays) | _ => [] end) faces
  ++ map Free (parts "pmlArrays" 0 pmlArrays).
(** surface.c:826-848, sibc.c:400-441 *)
Definition deallocInternalSurfaces (h : MeshData) : list Ev :=
  freeItems "surface" (h_surfs h)
  ++ each (sibcBounds h) (fun n _ => Use (glob "sibcArray") :: Use (mkRes "sibc" n "rcm_s") :: map Free (parts "sibc" n ["states"; "isAdjA"; "isAdjB"; "Etan"; "rcm_s"]))
  ++ [Free (glob "sibcArray")].
(** boundary.c:316-342, sibc.c:199-208 *)
Definition deallocBoundaries (h : MeshData) : list Ev :=
  each (allBounds h) (fun n it => Use (item "boundary" n) ::
    match btype (idata it) with BT_SIBC => map Free (parts "boundary" n ["rcm"; "prm"]) | _ => [] end ++ [Free (item "boundary" n)]).
(** line.c:252-268 *)
Definition deallocLines (h : MeshData) : list Ev := freeItems "line" (h_lines h).
(** block.c:245-262, debye.c:199-240: the number of poles is read from the medium *)
Definition deallocBlocks (h : MeshData) : list Ev :=
  each (debyeMedia h) (fun n m => Use (glob "debyeArray") :: Use (item "medium" m) :: map Free (parts "debye" n debyeArrays))
  ++ Free (glob "debyeArray") :: freeItems "block" (h_blocks h).
(** medium.c:507-537 *)
Definition deallocMedia (h : MeshData) : list Ev :=
  Free (glob "mediumArray") ::
  each (h_media h) (fun n it => Use (item "medium" n) ::
    match m_type (idata it) with MT_DEBYE => map Free (parts "medium" n ["residues"; "poles"; "dalpha"; "dbeta"]) | _ => [] end ++ [Free (item "medium" n)]).
(** grid.c:1028-1114 *)
Definition deallocGridArrays (h : MeshData) : list Ev :=
  map Free (parts "grid" 0 (edgeArraysFreed ++ fieldArrays ++ coefArrays)) ++ map Free (parts "lines" 0 (lineArrays h)).
(** message.c:110-119; every message in between is written to the log *)
Definition stopMessaging : list Ev := [Free (glob "programName"); Use (glob "logFile"); Free (glob "logFile")].

(** vulture.c:86-144 *)
Definition startUp (aux : bool) (c : Cfg) (h : MeshData) : list Ev :=
  startMessaging ++ readEvents h ++ initGridEvents h ++ initBoundaryEvents h ++ initMediaEvents h ++ initBlockEvents h
  ++ initInternalSurfaceEvents h ++ initExternalSurfaceEvents c h ++ initWaveformEvents h ++ initPlaneWaveEvents aux h ++ initObserverEvents h.
(** vulture.c:180-193 *)
Definition tidyUp (aux : bool) (c : Cfg) (h : MeshData) : list Ev :=
  deallocObservers h ++ deallocPlaneWaves aux h ++ deallocSources h ++ deallocWaveforms h
  ++ deallocExternalSurfaces c h ++ deallocInternalSurfaces h ++ deallocBoundaries h ++ deallocLines h
  ++ deallocBlocks h ++ deallocMedia h ++ deallocGridArrays h ++ stopMessaging.
(** vulture.c:86-193 with [steps] time steps *)
Definition lifetime (aux : bool) (c : Cfg) (h : MeshData) (steps : nat) : list Ev :=
  startUp aux c h ++ List.concat (repeat (stepEvents h) steps) ++ tidyUp aux c h.
