(** Mesh export in gmsh format.  Models /repo/src/gmsh.c (gvulture -m).

    The text formatting of the numbers is not modelled: the exported file is the
    list of its records.  A result [None] stands for an assertion failure, an
    error exit, an int overflow or an access outside nodeMap. *)
From Coq Require Import ZArith List Bool String.
From Verif Require Import Types Lang BBox CArr.
Import ListNotations.
Open Scope Z_scope.

(** gmsh.c:57-70 ElementItem, 75-90 GroupItem (gmsh.h ElementType) *)
Inductive ElementType := ET_NODE1 | ET_BAR2 | ET_QUAD4 | ET_HEX8.
Record Elem := mkElem { eType : ElementType; eNodes : list Z; eGroup : Z; eEntity : Z }.
Record Group := mkGroup { gName : string; gNumber : Z; gDim : Z }.
(** gmsh.c:43-52 *)
Definition ELEM_TYPE_DIMS (t : ElementType) : Z := match t with ET_NODE1 => 0 | ET_BAR2 => 1 | ET_QUAD4 => 2 | ET_HEX8 => 3 end.

(** gmsh.c:92-126: the private data.  [nn] = numMeshNodes. *)
Record Gmsh := mkGmsh { nn : Axis -> Z; nodeMap : Z -> Z -> Z -> Z; numElement : Z; elementList : list Elem;
                        numGroup : Z; groupHash : list Group; nextEntityNumber : Z }.
(** UINT_MAX: NODE_UNUSED, MAX_ELEMENT, MAX_GROUP, MAX_ENTITY *)
Definition UINT_MAX : Z := 4294967295.
Definition INT_MAX : Z := 2147483647.

(** gmsh.c:147-157 *)
Definition gmshInit (numMeshCells : Axis -> Z) : Gmsh :=
  mkGmsh (fun a => numMeshCells a + 1) (fun _ _ _ => UINT_MAX) 0 [] 0 [] 1.

(** gmsh.c:628-635 encodeNodeNumber, in int arithmetic: every operation must
    stay in range. *)
Definition int (x : Z) : option Z := if (- INT_MAX - 1 <=? x) && (x <=? INT_MAX) then Some x else None.
Definition encodeNodeNumber (n : Axis -> Z) (i j k : Z) : option Z :=
  do i1 <- int (i + 1); do jx <- int (j * n XDIR); do s <- int (i1 + jx);
  do kx <- int (k * n XDIR); do kxy <- int (kx * n YDIR); int (s + kxy).

(** [nodes[..] = nodeMap[i][j][k] = encodeNodeNumber( i , j , k );] *)
Definition setNode (g : Gmsh) (p : Z * Z * Z) : option (Gmsh * Z) :=
  let '(i, j, k) := p in
  do v <- encodeNodeNumber (nn g) i j k;
  if (0 <=? i) && (i <? nn g XDIR) && (0 <=? j) && (j <? nn g YDIR) && (0 <=? k) && (k <? nn g ZDIR)
  then Some (mkGmsh (nn g) (fun i' j' k' => if (i' =? i) && (j' =? j) && (k' =? k) then v else nodeMap g i' j' k')
               (numElement g) (elementList g) (numGroup g) (groupHash g) (nextEntityNumber g), v)
  else None.
Fixpoint setNodes (g : Gmsh) (ps : list (Z * Z * Z)) : option (Gmsh * list Z) :=
  match ps with
  | [] => Some (g, [])
  | p :: ps' => do r <- setNode g p; let '(g1, v) := r in
                do r2 <- setNodes g1 ps'; let '(g2, vs) := r2 in Some (g2, v :: vs)
  end.

(** gmsh.c:375-400 addElement *)
Definition addElement (g : Gmsh) (t : ElementType) (nodes : list Z) (group entity : Z) : option Gmsh :=
  if numElement g =? UINT_MAX then None
  else Some (mkGmsh (nn g) (nodeMap g) (numElement g + 1) (elementList g ++ [mkElem t nodes group entity])
               (numGroup g) (groupHash g) (nextEntityNumber g)).
(** the body of every loop of gmshAddEntity: the node assignments, then addElement *)
Definition addCell (t : ElementType) (group entity : Z) (g : Gmsh) (ps : list (Z * Z * Z)) : option Gmsh :=
  do r <- setNodes g ps; let '(g1, vs) := r in addElement g1 t vs group entity.

(** gmsh.c:304-320 isGroup, 323-350 addGroup, 353-372 addGroupIfNew.  The
    hash is in insertion order. *)
Definition isGroup (g : Gmsh) (name : string) : option Group := find (fun h => String.eqb (gName h) name) (groupHash g).
Definition addGroupIfNew (g : Gmsh) (name : string) (dim : Z) : option (Gmsh * Z) :=
  match isGroup g name with
  | Some h => if gDim h =? dim then Some (g, gNumber h) else None
  | None => if numGroup g =? UINT_MAX then None
            else let num := numGroup g + 1 in
                 Some (mkGmsh (nn g) (nodeMap g) (numElement g) (elementList g) (numGroup g + 1)
                         (groupHash g ++ [mkGroup name num dim]) (nextEntityNumber g), num)
  end.

(** [for( i = lo ; i <= hi ; i += step )]: the values of i; [None] if the loop
    does not end *)
Definition zsteps (lo hi step : Z) : option (list Z) :=
  if hi <? lo then Some []
  else if step <=? 0 then None
  else Some (map (fun n => lo + Z.of_nat n * step) (seq 0 (Z.to_nat ((hi - lo) / step + 1)))).

(** gmsh.c:403-625 gmshAddEntity *)
Definition addPoints (entity : Z) (name : string) (b : BBox) (step : Axis -> Z) (g : Gmsh) : option Gmsh :=
  do r <- addGroupIfNew g name (ELEM_TYPE_DIMS ET_NODE1); let '(g, group) := r in
  do xs <- zsteps (b XLO) (b XHI) (step XDIR);
  ofold (fun g i =>
    do ys <- zsteps (b YLO) (b YHI) (step YDIR);
    ofold (fun g j =>
      do zs <- zsteps (b ZLO) (b ZHI) (step ZDIR);
      ofold (fun g k => addCell ET_NODE1 group entity g [(i, j, k)]) zs g) ys g) xs g.
Definition gmshAddEntity (entity : Z) (typeToAdd : BBType) (name : string) (b : BBox) (step : Axis -> Z) (g : Gmsh) : option Gmsh :=
  match bboxType b, typeToAdd with
  | BB_POINT, BB_POINT =>
      do r <- addGroupIfNew g name (ELEM_TYPE_DIMS ET_NODE1); let '(g, group) := r in
      addCell ET_NODE1 group entity g [(b XLO, b YLO, b ZLO)]
  | BB_LINE, BB_POINT | BB_SURFACE, BB_POINT | BB_VOLUME, BB_POINT => addPoints entity name b step g
  | BB_LINE, BB_LINE =>
      match bboxDirection b with
      | Some d =>
          do r <- addGroupIfNew g name (ELEM_TYPE_DIMS ET_BAR2); let '(g, group) := r in
          match d with
          | XDIR => let j := b YLO in let k := b ZLO in
              cfor (b XLO) (b XHI - 1) (fun g i => addCell ET_BAR2 group entity g [(i, j, k); (i + 1, j, k)]) g
          | YDIR => let i := b XLO in let k := b ZLO in
              cfor (b YLO) (b YHI - 1) (fun g j => addCell ET_BAR2 group entity g [(i, j, k); (i, j + 1, k)]) g
          | ZDIR => let i := b XLO in let j := b YLO in
              cfor (b ZLO) (b ZHI - 1) (fun g k => addCell ET_BAR2 group entity g [(i, j, k); (i, j, k + 1)]) g
          end
      | None => None
      end
  | BB_SURFACE, BB_SURFACE =>
      match bboxDirection b with
      | Some d =>
          do r <- addGroupIfNew g name (ELEM_TYPE_DIMS ET_QUAD4); let '(g, group) := r in
          match d with
          | XDIR => let i := b XLO in
              cfor (b YLO) (b YHI - 1) (fun g j => cfor (b ZLO) (b ZHI - 1) (fun g k =>
                addCell ET_QUAD4 group entity g [(i, j, k); (i, j + 1, k); (i, j + 1, k + 1); (i, j, k + 1)]) g) g
          | YDIR => let j := b YLO in
              cfor (b XLO) (b XHI - 1) (fun g i => cfor (b ZLO) (b ZHI - 1) (fun g k =>
                addCell ET_QUAD4 group entity g [(i, j, k); (i + 1, j, k); (i + 1, j, k + 1); (i, j, k + 1)]) g) g
          | ZDIR => let k := b ZLO in
              cfor (b XLO) (b XHI - 1) (fun g i => cfor (b YLO) (b YHI - 1) (fun g j =>
                addCell ET_QUAD4 group entity g [(i, j, k); (i + 1, j, k); (i + 1, j + 1, k); (i, j + 1, k)]) g) g
          end
      | None => None
      end
  | BB_VOLUME, BB_VOLUME =>
      do r <- addGroupIfNew g name (ELEM_TYPE_DIMS ET_HEX8); let '(g, group) := r in
      cfor (b XLO) (b XHI - 1) (fun g i => cfor (b YLO) (b YHI - 1) (fun g j => cfor (b ZLO) (b ZHI - 1) (fun g k =>
        addCell ET_HEX8 group entity g
          [(i, j, k); (i + 1, j, k); (i + 1, j + 1, k); (i, j + 1, k);
           (i, j, k + 1); (i + 1, j, k + 1); (i + 1, j + 1, k + 1); (i, j + 1, k + 1)]) g) g) g
  | _, _ => None
  end.

(** gmsh.c:638-646 gmshGetEntityNumber *)
Definition gmshGetEntityNumber (g : Gmsh) : option (Gmsh * Z) :=
  if nextEntityNumber g =? UINT_MAX then None
  else Some (mkGmsh (nn g) (nodeMap g) (numElement g) (elementList g) (numGroup g) (groupHash g) (nextEntityNumber g + 1),
             nextEntityNumber g).

(** gmsh.c:202-301 gmshWrite: the records of the three sections with the counts
    announced in their headers.  A node is (number, i, j, k); its coordinates are
    those of mesh node (i,j,k) (C42). *)
Record MshFile := mkMsh { fGroupCount : Z; fGroups : list Group; fNodeCount : Z; fNodes : list (Z * (Z * Z * Z));
                          fElemCount : Z; fElems : list (Z * Elem) }.
Definition usedNodes (g : Gmsh) : list (Z * (Z * Z * Z)) :=
  flat_map (fun i => flat_map (fun j => flat_map (fun k =>
     if negb (nodeMap g i j k =? UINT_MAX) then [(nodeMap g i j k, (i, j, k))] else [])
     (zrange 0 (nn g ZDIR - 1))) (zrange 0 (nn g YDIR - 1))) (zrange 0 (nn g XDIR - 1)).
(** gmsh.c:245-250: the counting loop *)
Definition countNodes (g : Gmsh) : Z :=
  fold_left (fun s i => fold_left (fun s j => fold_left (fun s k =>
     if negb (nodeMap g i j k =? UINT_MAX) then s + 1 else s)
     (zrange 0 (nn g ZDIR - 1)) s) (zrange 0 (nn g YDIR - 1)) s) (zrange 0 (nn g XDIR - 1)) 0.
Definition numbered {A} (l : list A) : list (Z * A) := combine (map (fun n => Z.of_nat n + 1) (seq 0 (List.length l))) l.
Definition gmshWrite (g : Gmsh) : MshFile :=
  mkMsh (numGroup g) (groupHash g) (countNodes g) (usedNodes g) (numElement g) (numbered (elementList g)).

(** A mesh object to draw: what gmshBlocks, gmshLines, gmshInternalSurfaces,
    gmshExternalSurfaces, gmshSources, gmshPlaneWaves, gmshObservers pass on
    (block.c:339-357, line.c:296-312, surface.c:910-958, source.c:848-930,
    planewave.c:1172-1196, observer.c:1244-1266): a fresh entity number, then
    gmshAddEntity. *)
Record Draw := mkDraw { dType : BBType; dName : string; dBox : BBox; dStep : Axis -> Z }.
Definition draw (g : Gmsh) (d : Draw) : option Gmsh :=
  do r <- gmshGetEntityNumber g; let '(g, entity) := r in gmshAddEntity entity (dType d) (dName d) (dBox d) (dStep d) g.
Fixpoint drawAll (g : Gmsh) (ds : list Draw) : option Gmsh :=
  match ds with [] => Some g | d :: ds' => do g' <- draw g d; drawAll g' ds' end.
(** gmsh.c:132-199 gmshMesh *)
Definition gmshMesh (numMeshCells : Axis -> Z) (ds : list Draw) : option MshFile :=
  do g <- drawAll (gmshInit numMeshCells) ds; Some (gmshWrite g).

(** The objects of a mesh and the calls they give rise to: surface.c:910-958,
    block.c:339-357, line.c:296-312, source.c:848-905, planewave.c:1172-1196,
    observer.c:1244-1266, in the order of gmsh.c:160-170.  The snprintf of a name
    (at most 31 characters, %31s) with its three-character prefix never truncates
    at GMSH_NAME_LENGTH - 1 = 47. *)
Record MeshObjs := mkObjs { oSurfaces : list (string * BBox); oBlocks : list (string * BBox); oLines : list (string * BBox);
  oSources : list (string * BBox); oPlaneWaves : list (string * BBox * (Face -> bool)); oObservers : list (string * BBox * (Axis -> Z)) }.
Definition step1 : Axis -> Z := fun _ => 1.
Definition externalDraws (mbox : BBox) : list Draw :=
  map (fun fs : Face * string => mkDraw BB_SURFACE (snd fs) (getFaceOfBoundingBox mbox (fst fs)) step1)
    [(ZLO, "BT_ZLO"); (XLO, "BT_XLO"); (YLO, "BT_YLO"); (ZHI, "BT_ZHI"); (XHI, "BT_XHI"); (YHI, "BT_YHI")]%string.
Definition objDraws (m : MeshObjs) : list Draw :=
  map (fun x : string * BBox => mkDraw BB_SURFACE (String.append "BT_" (fst x)) (snd x) step1) (oSurfaces m) ++
  map (fun x : string * BBox => mkDraw BB_VOLUME (String.append "MT_" (fst x)) (snd x) step1) (oBlocks m) ++
  map (fun x : string * BBox => mkDraw BB_LINE (String.append "WT_" (fst x)) (snd x) step1) (oLines m) ++
  map (fun x : string * BBox => mkDraw (bboxType (snd x)) (String.append "EX_" (fst x)) (snd x) step1) (oSources m) ++
  flat_map (fun x : string * BBox * (Face -> bool) => let '(name, b, active) := x in
    flat_map (fun f => if active f then [mkDraw BB_SURFACE (String.append "PW_" (name)) (getFaceOfBoundingBox b f) step1] else [])
      [XLO; XHI; YLO; YHI; ZLO; ZHI]) (oPlaneWaves m) ++
  map (fun x : string * BBox * (Axis -> Z) => let '(name, b, step) := x in mkDraw BB_POINT (String.append "OP_" (name)) b step) (oObservers m).
Definition meshDraws (numMeshCells : Axis -> Z) (isExternal : bool) (m : MeshObjs) : list Draw :=
  (if isExternal then externalDraws (mkbox 0 (numMeshCells XDIR) 0 (numMeshCells YDIR) 0 (numMeshCells ZDIR)) else []) ++ objDraws m.
Definition gmshExport (numMeshCells : Axis -> Z) (isExternal : bool) (m : MeshObjs) : option MshFile :=
  gmshMesh numMeshCells (meshDraws numMeshCells isExternal m).
