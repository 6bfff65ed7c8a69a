(** Specification of C75: the discretised Maxwell equations of the problem that a
    mesh file describes, in mesh coordinates, and what it means that a history of
    fields solves them.  Nothing here refers to arrays or loops of the program. *)
From Coq Require Import ZArith List Bool Reals.
From Verif Require Import Types BBox Grid CArr Setup Media Medium Debye Source PlaneWave Front Program PmlProfile SpecGeom SpecMedia SpecMedium SpecEdges SpecSource.
Import ListNotations.
Open Scope R_scope.

(** ** Materials *)
Inductive Material := Metal | Simple (eps sigma mu : R).
Record Region := mkRegion { g_box : BBox; g_incl : Face -> bool; g_mat : Material }.
(** what a point of component [f] is made of: the last region that contains it
    decides, free space where there is none *)
Inductive made_of (f : Fld) (x y z : Z) : list Region -> Material -> Prop :=
| mo_none : made_of f x y z [] (Simple 1 0 1)
| mo_in rs r : yee_in f (g_box r) (g_incl r) x y z -> made_of f x y z (rs ++ [r]) (g_mat r)
| mo_out rs r m : ~ yee_in f (g_box r) (g_incl r) x y z -> made_of f x y z rs m -> made_of f x y z (rs ++ [r]) m.
(** medium [n] of the file; 0 is free space and 1 the perfect conductor *)
Definition materialOf (h : MeshData) (n : nat) : Material :=
  match n with
  | 0%nat => Simple 1 0 1
  | 1%nat => Metal
  | _ => match nth_error (h_media h) n with
         | Some it => match m_type (idata it) with MT_PEC => Metal | _ => Simple (m_eps (idata it)) (m_sigma (idata it)) (m_mu (idata it)) end
         | None => Simple 1 0 1
         end
  end.

Section Problem.
Variables (c : Cfg) (h : MeshData) (lines : Axis -> carr R).

(** ** Cells: primary edges between the mesh lines, secondary edges between the
    centres of the cells (the first and last cell continued outwards) *)
Definition edge (a : Axis) (n : Z) : R := cell lines a n.
Definition inner (a : Axis) (n : Z) : Z := Z.max 0 (Z.min (numLines c a - 2) n).
Definition dual (a : Axis) (n : Z) : R := (edge a (inner a (n - 1)) + edge a (inner a n)) / 2.

(** ** Discrete curls.  A field along axis [a] at (x,y,z); [upA] is cyclic. *)
Definition upA (a : Axis) : Axis := match a with XDIR => YDIR | YDIR => ZDIR | ZDIR => XDIR end.
Definition Vec := Axis -> Z -> Z -> Z -> R.
Definition shift (a : Axis) (d x y z : Z) (g : Z -> Z -> Z -> R) : R :=
  match a with XDIR => g (x + d)%Z y z | YDIR => g x (y + d)%Z z | ZDIR => g x y (z + d)%Z end.
(** of H at the middle of edge (x,y,z) along [a]; of E at the middle of face
    (x,y,z) normal to [a] *)
Definition rotH (H : Vec) (a : Axis) (x y z : Z) : R :=
  let b := upA a in let d := upA b in
  (H d x y z - shift b (-1) x y z (H d)) / dual b (coord x y z b) - (H b x y z - shift d (-1) x y z (H b)) / dual d (coord x y z d).
Definition rotE (E : Vec) (a : Axis) (x y z : Z) : R :=
  let b := upA a in let d := upA b in
  (shift b 1 x y z (E d) - E d x y z) / edge b (coord x y z b) - (shift d 1 x y z (E b) - E b x y z) / edge d (coord x y z d).

(** ** Sources *)
(** sizes of the box of a source with polarisation [p]: length of its edges
    along [p], area of its secondary faces across [p]; for magnetic sources with
    the two kinds of edges exchanged *)
Definition len (l : Axis -> Z -> R) (b : BBox) (a : Axis) (nodes : bool) : R :=
  sum (b (face_lo a)) (if nodes then b (face_hi a) else (b (face_hi a) - 1)%Z) (l a).
Definition elecLen (s : Src) : R := len edge (s_mbbox s) (t_pol (s_tag s)) false.
Definition magnLen (s : Src) : R := len dual (s_mbbox s) (t_pol (s_tag s)) true.
Definition elecFace (s : Src) : R := len dual (s_mbbox s) (upA (t_pol (s_tag s))) true * len dual (s_mbbox s) (upA (upA (t_pol (s_tag s)))) true.
Definition magnFace (s : Src) : R := len edge (s_mbbox s) (upA (t_pol (s_tag s))) false * len edge (s_mbbox s) (upA (upA (t_pol (s_tag s)))) false.
(** does it impress a field, or a current density? *)
Definition impresses_field (s : Src) : bool :=
  match t_type (s_tag s) with ST_EFIELD | ST_HFIELD | ST_VOLTAGE => true | _ => false end.
(** the field or density of a source of amplitude times waveform [A]; of lumped
    sources the short-circuit current divided by the area *)
Definition impressed (s : Src) (A : R) : R :=
  match t_type (s_tag s) with
  | ST_EFIELD | ST_HFIELD | ST_ELEC_CURR_DENSITY | ST_MAGN_CURR_DENSITY => A
  | ST_ELEC_CURRENT => A / elecFace s
  | ST_MAGN_CURRENT => A / magnFace s
  | ST_ELEC_CURRENT_MOMENT => A / elecLen s / elecFace s
  | ST_MAGN_CURRENT_MOMENT => A / magnLen s / magnFace s
  | ST_VOLTAGE => - (A / elecLen s)
  | ST_THEVENIN_VOLTAGE => A / s_resist s / elecFace s
  | ST_NORTON_CURRENT => A / elecFace s
  | ST_ELEC_SURF_CURR_DENSITY | ST_MAGN_SURF_CURR_DENSITY => 0
  end.
(** a lumped source fills its line with a material of resistance [s_resist] *)
Definition loadRegion (s : Src) : list Region :=
  if isLumped (t_type (s_tag s)) then [mkRegion (s_mbbox s) (fun _ => true) (Simple 1 (elecLen s / (elecFace s * s_resist s)) 1)] else [].
(** point (x,y,z) of component [f] is a point of source [s] *)
Definition covered (f : Fld) (x y z : Z) (s : Src) : Prop := f = t_field (s_tag s) /\ yee_in f (s_mbbox s) (fun _ => true) x y z.
(** total of [v] over the sources with property [P] *)
Inductive total_of (P : Src -> Prop) (v : Src -> R) : list Src -> R -> Prop :=
| to_nil : total_of P v [] 0
| to_in s l t : P s -> total_of P v l t -> total_of P v (s :: l) (v s + t)
| to_out s l t : ~ P s -> total_of P v l t -> total_of P v (s :: l) t.
(** impressed current density [J] and impressed field [F] at a point, for
    waveform values [w] *)
Definition drives (w : Src -> R) (f : Fld) (x y z : Z) (J F : R) : Prop :=
  total_of (fun s => covered f x y z s /\ impresses_field s = false) (fun s => impressed s (s_size s * w s)) (h_srcs h) J /\
  total_of (fun s => covered f x y z s /\ impresses_field s = true) (fun s => impressed s (s_size s * w s)) (h_srcs h) F.

(** ** The scene of the file: blocks, wires, surfaces, walls and loads *)
Definition regions : list Region :=
  map (fun p => mkRegion (p_box p) (p_incl p) (materialOf h (p_medium p))) (paints c (wireOf h) (boundOf h) (sceneOf h)) ++
  flat_map loadRegion (h_srcs h).

Definition meshAll : BBox := fun f => if is_lo f then 0%Z else (numLines c (face_axis f) - 1)%Z.
(** the edge, or face, belongs to the mesh; lies off its MUR walls; lies off all
    walls *)
Definition in_mesh (f : Fld) (x y z : Z) : Prop := yee_in f meshAll (fun _ => true) x y z.
Definition off_mur_walls (f : Fld) (x y z : Z) : Prop := yee_in f meshAll (fun face => negb (btype_eqb (outerSurfaceType c face) BT_MUR)) x y z.
Definition interior (f : Fld) (x y z : Z) : Prop := yee_in f meshAll (fun _ => false) x y z.
Definition Eat (a : Axis) : Fld := match a with XDIR => EX | YDIR => EY | ZDIR => EZ end.
Definition Hat (a : Axis) : Fld := match a with XDIR => HX | YDIR => HY | ZDIR => HZ end.

Variables (dt : R) (wE wH : nat -> Src -> R).
(** [E n], [H n]: the fields after [n] time steps. *)
Record maxwell (E H : nat -> Vec) : Prop := {
  mx_rest : forall a x y z, (in_mesh (Eat a) x y z -> E 0%nat a x y z = 0) /\ (in_mesh (Hat a) x y z -> H 0%nat a x y z = 0);
  (** E vanishes in perfect conductors, unless a field is impressed there *)
  mx_metal : forall n a x y z, off_mur_walls (Eat a) x y z -> made_of (Eat a) x y z regions Metal ->
    (forall s, In s (h_srcs h) -> impresses_field s = true -> ~ covered (Eat a) x y z s) -> E n a x y z = 0;
  (** Ampere's law inside the mesh *)
  mx_ampere : forall n a x y z eps sigma mu J F, interior (Eat a) x y z -> made_of (Eat a) x y z regions (Simple eps sigma mu) ->
    drives (wE n) (Eat a) x y z J F ->
    ampere (eps * eps0) sigma dt (E n a x y z) (E (S n) a x y z - F) (rotH (H n) a x y z - J);
  (** Faraday's law in the whole mesh *)
  mx_faraday : forall n a x y z mat J F, in_mesh (Hat a) x y z -> made_of (Hat a) x y z regions mat -> drives (wH n) (Hat a) x y z J F ->
    faraday (match mat with Metal => mu0 | Simple _ _ mu => mu * mu0 end) dt (H n a x y z) (H (S n) a x y z - F) (- rotE (E (S n)) a x y z - J) }.

(** ** Restrictions on the file *)
(** every source has a box of the extent its quantity needs; no current sheets
    (C52); lumped sources have a resistance above 0.01 ohm (C53) *)
Definition sources_ok : Prop := forall s, In s (h_srcs h) ->
  ordered (s_mbbox s) /\
  match t_type (s_tag s) with
  | ST_ELEC_SURF_CURR_DENSITY | ST_MAGN_SURF_CURR_DENSITY => False
  | ST_THEVENIN_VOLTAGE | ST_NORTON_CURRENT => 1 / 100 < s_resist s /\ (s_mbbox s (face_lo (t_pol (s_tag s))) < s_mbbox s (face_hi (t_pol (s_tag s))))%Z
  | ST_VOLTAGE | ST_ELEC_CURRENT_MOMENT => (s_mbbox s (face_lo (t_pol (s_tag s))) < s_mbbox s (face_hi (t_pol (s_tag s))))%Z
  | ST_MAGN_CURRENT | ST_MAGN_CURRENT_MOMENT => forall a, a <> t_pol (s_tag s) -> (s_mbbox s (face_lo a) < s_mbbox s (face_hi a))%Z
  | _ => True
  end.
(** no field is impressed on an edge of metal *)
Definition free_metal : Prop := forall s a x y z, In s (h_srcs h) -> impresses_field s = true -> covered (Eat a) x y z s -> ~ made_of (Eat a) x y z regions Metal.
(** the perfect conductor is the predefined one, not an MT card of type PEC
    (C48) *)
Definition one_conductor : Prop := forall n it, (2 <= n)%nat -> nth_error (h_media h) n = Some it -> m_type (idata it) <> MT_PEC.
End Problem.
