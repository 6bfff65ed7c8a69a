(** Specification of the material assignment: an ordered list of painted boxes
    in mesh coordinates; the last one that contains a point decides. *)
From Coq Require Import ZArith List Bool.
From Verif Require Import Types Grid Setup Media SpecGeom.
Import ListNotations.
Open Scope Z_scope.

Record Paint := mkPaint { p_box : BBox; p_incl : Face -> bool; p_medium : nat }.
(** [x,y,z]: mesh index of a point of component [f]. *)
Definition covers (p : Paint) (f : Fld) (x y z : Z) : Prop := yee_in f (p_box p) (p_incl p) x y z.
(** [n] is the medium of the last paint covering the point. *)
Inductive last_paint (f : Fld) (x y z : Z) : list Paint -> option nat -> Prop :=
| lp_none : last_paint f x y z [] None
| lp_cover ps p : covers p f x y z -> last_paint f x y z (ps ++ [p]) (Some (p_medium p))
| lp_skip ps p r : ~ covers p f x y z -> last_paint f x y z ps r -> last_paint f x y z (ps ++ [p]) r.

(** What the cards of a mesh paint, in the order in which it takes effect:
    blocks in file order, then wires, then internal surfaces, then the external
    walls.  Medium 0 is free space, medium 1 is PEC. *)
Definition all_faces : Face -> bool := fun _ => true.
Definition blockPaint (b : Block) : Paint :=
  mkPaint (bbox_b b) (fun face => Z.testbit (mask_b b) (face_bit face)) (medium_b b).
Definition linePaint (wtype : nat -> WType) (l : Line) : Paint :=
  mkPaint (bbox_l l) all_faces (match wtype (wire_l l) with TW_PEC => 1 | TW_FREE_SPACE => 0 end)%nat.
Definition surfPaint (bt : nat -> BType) (s : Surf) : list Paint :=
  match bt (boundary_s s) with
  | BT_PEC | BT_SIBC => [mkPaint (bbox_s s) all_faces 1%nat]
  | BT_FREE_SPACE => [mkPaint (bbox_s s) all_faces 0%nat]
  | _ => []
  end.
(** The outer wall of a face: the plane of the mesh face moved outwards by the
    number of layers, extending over the layers of the other axes. *)
Definition outerBox (c : Cfg) : BBox := fun f =>
  if is_lo f then - outerSurfaceNumLayers c f
  else numLines c (face_axis f) - 1 + outerSurfaceNumLayers c f.
Definition wallBox (c : Cfg) (face : Face) : BBox := fun f =>
  if axis_eqb (face_axis f) (face_axis face) then outerBox c face else outerBox c f.
Definition wallPaint (c : Cfg) (face : Face) : list Paint :=
  match outerSurfaceType c face with
  | BT_PML | BT_PEC | BT_SIBC => [mkPaint (wallBox c face) all_faces 1%nat]
  | _ => []
  end.
Definition paints (c : Cfg) (wtype : nat -> WType) (bt : nat -> BType) (sc : Scene) : list Paint :=
  map blockPaint (sc_blocks sc) ++ map (linePaint wtype) (sc_lines sc)
  ++ flat_map (surfPaint bt) (sc_surfs sc) ++ flat_map (wallPaint c) faces.
(** Every card box is one the parser accepts. *)
Definition in_mesh_box (c : Cfg) (b : BBox) : Prop :=
  forall a, 0 <= b (face_lo a) /\ b (face_hi a) <= numLines c a - 1.
Definition scene_ok (c : Cfg) (sc : Scene) : Prop :=
  (forall b, In b (sc_blocks sc) -> in_mesh_box c (bbox_b b) /\ 0 <= mask_b b <= 63) /\
  (forall l, In l (sc_lines sc) -> in_mesh_box c (bbox_l l)) /\
  (forall s, In s (sc_surfs sc) -> in_mesh_box c (bbox_s s)).

(** ** Continuation of the material into the PML.
    Index range of component [f] along axis [a] that belongs to the mesh, and
    the mesh index nearest to [n]. *)
Definition mesh_lo (c : Cfg) (a : Axis) : Z := gibox c (face_lo a).
Definition mesh_hi (c : Cfg) (f : Fld) (a : Axis) : Z :=
  if staggered f a then gibox c (face_hi a) - 1 else gibox c (face_hi a).
Definition nearest (c : Cfg) (f : Fld) (a : Axis) (n : Z) : Z :=
  Z.max (mesh_lo c a) (Z.min (mesh_hi c f a) n).
(** index [n] of component [f] is in the outer grid and not on the outer wall of
    a PML *)
Definition off_wall (c : Cfg) (f : Fld) (a : Axis) (n : Z) : Prop :=
  mesh_lo c a <= n <= mesh_hi c f a \/
  2 * gobox c (face_lo a) < ypos f a n < 2 * gobox c (face_hi a).
(** E component tangential to [face] in the outer plane of [face] *)
Definition on_face (c : Cfg) (face : Face) (f : Fld) (i j k : Z) : Prop :=
  is_E f = true /\ fld_axis f <> face_axis face /\ coord i j k (face_axis face) = gobox c face.
