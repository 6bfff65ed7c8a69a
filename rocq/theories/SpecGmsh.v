(** Specification of the exported mesh: the cells of a box and their corners. *)
From Coq Require Import ZArith List Bool String.
From Verif Require Import Types BBox SpecGeom Gmsh.
Import ListNotations.
Open Scope Z_scope.

(** corner offsets of a cell spanning the given axes, in the vertex order of the
    Gmsh file format (line: ends; quadrangle: around; hexahedron: bottom then top) *)
Definition off (a : Axis) (p : Z * Z * Z) : Z * Z * Z :=
  let '(i, j, k) := p in match a with XDIR => (i + 1, j, k) | YDIR => (i, j + 1, k) | ZDIR => (i, j, k + 1) end.
Definition corners (as_ : list Axis) (p : Z * Z * Z) : list (Z * Z * Z) :=
  match as_ with
  | [] => [p]
  | [a] => [p; off a p]
  | [a; b] => [p; off a p; off b (off a p); off b p]
  | a :: b :: c :: _ => let q := [p; off a p; off b (off a p); off b p] in q ++ map (off c) q
  end.
(** the axes along which a box extends *)
Definition spans (b : BBox) : list Axis := filter (fun a => negb (degenerate b a)) axes.
Definition coord3 (p : Z * Z * Z) (a : Axis) : Z := let '(i, j, k) := p in match a with XDIR => i | YDIR => j | ZDIR => k end.
(** [p] is the lowest corner of a cell of box [b] *)
Definition is_cell (b : BBox) (p : Z * Z * Z) : Prop :=
  forall a, b (face_lo a) <= coord3 p a /\ (if degenerate b a then coord3 p a <= b (face_hi a) else coord3 p a < b (face_hi a)).
(** [p] is a sampled node of box [b] *)
Definition is_sample (b : BBox) (step : Axis -> Z) (p : Z * Z * Z) : Prop :=
  forall a, b (face_lo a) <= coord3 p a <= b (face_hi a) /\ exists n, 0 <= n /\ coord3 p a = b (face_lo a) + n * step a.

Definition cell_type (as_ : list Axis) : ElementType :=
  match as_ with [] => ET_NODE1 | [_] => ET_BAR2 | [_; _] => ET_QUAD4 | _ => ET_HEX8 end.

(** the nodes from which the elements of a drawn object start, and the axes those
    elements span: observers are drawn as their sample points, everything else
    as the cells of its box *)
Definition drawn (d : Draw) (p : Z * Z * Z) : Prop :=
  match dType d with BB_POINT => is_sample (dBox d) (dStep d) p | _ => is_cell (dBox d) p end.
Definition draw_axes (d : Draw) : list Axis := match dType d with BB_POINT => [] | _ => spans (dBox d) end.
(** [el] is, in file [f], the element of object [d] (entity [e]) at [p] *)
Definition element_of (f : MshFile) (e : Z) (d : Draw) (p : Z * Z * Z) (el : Elem) : Prop :=
  eType el = cell_type (draw_axes d) /\ eEntity el = e /\
  (exists grp, In grp (fGroups f) /\ gName grp = dName d /\ gNumber grp = eGroup el) /\
  Forall2 (fun v q => In (v, q) (fNodes f)) (eNodes el) (corners (draw_axes d) p).
(** [els] draws object [d] in full, each cell once *)
Definition depicts (f : MshFile) (e : Z) (d : Draw) (els : list Elem) : Prop :=
  exists pts, NoDup pts /\ (forall p, In p pts <-> drawn d p) /\ Forall2 (element_of f e d) pts els.

(** What a well-formed file is *)
Record wellformed (n : Axis -> Z) (f : MshFile) : Prop := {
  wf_counts : fGroupCount f = Z.of_nat (List.length (fGroups f)) /\ fNodeCount f = Z.of_nat (List.length (fNodes f)) /\
              fElemCount f = Z.of_nat (List.length (fElems f));
  wf_elnum : forall i x, nth_error (fElems f) i = Some x -> fst x = Z.of_nat i + 1;
  (** node numbers are positive, distinct, and so are the nodes; all in the mesh *)
  wf_nodes : NoDup (map fst (fNodes f)) /\ NoDup (map snd (fNodes f)) /\
             forall v p, In (v, p) (fNodes f) -> 0 < v /\ forall a, 0 <= coord3 p a <= n a;
  (** groups have distinct names and distinct positive numbers *)
  wf_groups : NoDup (map gName (fGroups f)) /\ NoDup (map gNumber (fGroups f)) /\
              forall g, In g (fGroups f) -> 0 < gNumber g;
  (** an element's group is listed and has the element's dimension; its nodes are listed *)
  wf_elems : forall i el, In (i, el) (fElems f) ->
     (exists g, In g (fGroups f) /\ gNumber g = eGroup el /\ gDim g = ELEM_TYPE_DIMS (eType el)) /\
     forall v, In v (eNodes el) -> exists p, In (v, p) (fNodes f);
  (** every listed node is a node of some element *)
  wf_used : forall v p, In (v, p) (fNodes f) -> exists i el, In (i, el) (fElems f) /\ In v (eNodes el) }.

(** ** Objects that can be exported *)
(** number of mesh nodes in a box: a bound on the number of its cells or samples *)
Definition box_nodes (b : BBox) : Z :=
  (b XHI - b XLO + 1) * (b YHI - b YLO + 1) * (b ZHI - b ZLO + 1).
Definition sum_nodes (ds : list Draw) : Z := fold_right (fun d s => box_nodes (dBox d) + s) 0 ds.
Record exportable (n : Axis -> Z) (ds : list Draw) : Prop := {
  ex_in : forall d, In d ds -> forall a, 0 <= dBox d (face_lo a) <= dBox d (face_hi a) /\ dBox d (face_hi a) <= n a;
  (** drawn as what it is, or as points *)
  ex_type : forall d, In d ds -> dType d = bboxType (dBox d) \/ (dType d = BB_POINT /\ forall a, 1 <= dStep d a);
  (** objects in the same group have the same dimension *)
  ex_dim : forall d d', In d ds -> In d' ds -> dName d = dName d' -> List.length (draw_axes d) = List.length (draw_axes d');
  (** sizes *)
  ex_nodes : (n XDIR + 1) * (n YDIR + 1) * (n ZDIR + 1) < 2 ^ 31;
  ex_elems : sum_nodes ds < 2 ^ 32;
  ex_objs : Z.of_nat (List.length ds) + 1 < 2 ^ 32 }.

(** ** The objects of an accepted mesh
    Boxes are inside the mesh and of the type their card requires (TS, TB, TW),
    source names are distinct (all checked by the parser); besides, the active
    faces of plane-wave boxes are surfaces and observation strides are positive
    unless the box is a single node (not checked, see the refutations). *)
Definition in_mesh_box (n : Axis -> Z) (b : BBox) : Prop :=
  forall a, 0 <= b (face_lo a) <= b (face_hi a) /\ b (face_hi a) <= n a.
Record drawable (n : Axis -> Z) (m : MeshObjs) : Prop := {
  dr_surf : forall s b, In (s, b) (oSurfaces m) -> in_mesh_box n b /\ ndeg b = 1%nat;
  dr_block : forall s b, In (s, b) (oBlocks m) -> in_mesh_box n b /\ ndeg b = 0%nat;
  dr_line : forall s b, In (s, b) (oLines m) -> in_mesh_box n b /\ ndeg b = 2%nat;
  dr_src : NoDup (map fst (oSources m)) /\ forall s b, In (s, b) (oSources m) -> in_mesh_box n b;
  dr_pw : forall s b active, In (s, b, active) (oPlaneWaves m) -> in_mesh_box n b /\
            forall f, active f = true -> forall a, a <> face_axis f -> degenerate b a = false;
  dr_obs : forall s b step, In (s, b, step) (oObservers m) -> in_mesh_box n b /\ (ndeg b = 3%nat \/ forall a, 1 <= step a) }.
