(** Specification of C76: reciprocity of two runs with different sources in the
    same scene. *)
From Coq Require Import ZArith List Bool String Reals.
From Verif Require Import Types BBox Grid CArr Setup Media MediaProofs Medium Debye Waveform Source PlaneWave Mesh Front Program PmlProfile SpecGeom SpecMedia SpecMedium Edges SpecEdges SpecSource SpecFile SpecEnergy SpecMaxwell.
Import ListNotations.
Open Scope R_scope.

(** An accepted mesh file of a conducting box without dispersive media,
    impedance surfaces, plane waves and hard sources, whose mesh lines give the
    cell sizes [e] and the time step [dt] (the hypotheses of C75). *)
Record closed_problem (c : Cfg) (h : MeshData) (lines : Axis -> carr R) (e : Axis -> Edges) (dt : R) : Prop := {
  cp_file : exists debyeFile file st cards, readMeshFile debyeFile file = Acc (st, h, cards);
  cp_cfg : cfgFor h = Some c;
  cp_walls : forall f, outerSurfaceType c f = BT_PEC;
  cp_media : plain_media h; cp_sheets : no_sheets h; cp_soft : soft_sources h; cp_pec : one_conductor h; cp_srcs : sources_ok h; cp_loads : loads_inside h;
  cp_lines : forall a, h_mesh h a = Some (lines a); cp_inc : increasing c lines;
  cp_dt : exists cn garbage, courantOf (h_cn h) = Some cn /\ 0 < cn /\ initCellEdges c lines garbage cn = Some (e, dt) }.
(** the same material everywhere *)
Definition same_scene (c : Cfg) (h h' : MeshData) (lines : Axis -> carr R) : Prop :=
  forall f x y z mat, in_mesh c f x y z -> made_of f x y z (regions c h lines) mat <-> made_of f x y z (regions c h' lines) mat.

Section Sums.
Variables (c : Cfg) (lines : Axis -> carr R).
(** sum over the points of component [f] of the mesh *)
Definition last (f : Fld) (a : Axis) : Z := (if staggered f a then numLines c a - 2 else numLines c a - 1)%Z.
Definition sumMesh (f : Fld) (g : Z -> Z -> Z -> R) : R :=
  sumZ 0 (last f XDIR) (fun x => sumZ 0 (last f YDIR) (fun y => sumZ 0 (last f ZDIR) (fun z => g x y z))).
Definition overE (g : Vec) : R := sumMesh (Eat XDIR) (g XDIR) + sumMesh (Eat YDIR) (g YDIR) + sumMesh (Eat ZDIR) (g ZDIR).
Definition overH (g : Vec) : R := sumMesh (Hat XDIR) (g XDIR) + sumMesh (Hat YDIR) (g YDIR) + sumMesh (Hat ZDIR) (g ZDIR).
(** volume of the box around an edge, around a face *)
Definition volE (a : Axis) (x y z : Z) : R := let b := upA a in let d := upA b in edge lines a (coord x y z a) * dual c lines b (coord x y z b) * dual c lines d (coord x y z d).
Definition volH (a : Axis) (x y z : Z) : R := let b := upA a in let d := upA b in dual c lines a (coord x y z a) * edge lines b (coord x y z b) * edge lines d (coord x y z d).
(** convolution of two histories up to step [N], and a history delayed by a step *)
Definition conv (u v : nat -> R) (N : nat) : R := sum_f_R0 (fun n => u n * v (N - n)%nat) N.
Definition late (u : nat -> R) (n : nat) : R := match n with O => 0 | S k => u k end.
(** reaction of the fields [E], [H] of one run on the electric and magnetic
    currents [J], [K] of another *)
Definition reaction (E H J K : nat -> Vec) (N : nat) : R :=
  overE (fun a x y z => volE a x y z * conv (fun n => J n a x y z) (fun n => E n a x y z) N) -
  overH (fun a x y z => volH a x y z * conv (late (fun n => K n a x y z)) (fun n => H n a x y z) N).
End Sums.
(** [J], [K] are the impressed currents, and no fields are impressed *)
Definition currents (c : Cfg) (h : MeshData) (lines : Axis -> carr R) (wE wH : nat -> Src -> R) (J K : nat -> Vec) : Prop :=
  (forall s, In s (h_srcs h) -> impresses_field s = false) /\
  forall n a x y z, (in_mesh c (Eat a) x y z -> drives c h lines (wE n) (Eat a) x y z (J n a x y z) 0) /\ (in_mesh c (Hat a) x y z -> drives c h lines (wH n) (Hat a) x y z (K n a x y z) 0).

(** A source of an electric current on the single edge (x,y,z) along [a]; its
    amplitude is multiplied by [arm] to give the moment (current times length). *)
Definition on_edge (s : Src) (a : Axis) (x y z : Z) : Prop :=
  t_pol (s_tag s) = a /\ forall b, s_mbbox s (face_lo b) = coord x y z b /\ s_mbbox s (face_hi b) = (coord x y z b + if axis_eqb a b then 1 else 0)%Z.
Definition electric_current (s : Src) : Prop := match t_type (s_tag s) with ST_ELEC_CURR_DENSITY | ST_ELEC_CURRENT | ST_ELEC_CURRENT_MOMENT | ST_THEVENIN_VOLTAGE | ST_NORTON_CURRENT => True | _ => False end.
Definition arm (c : Cfg) (lines : Axis -> carr R) (s : Src) : R :=
  match t_type (s_tag s) with
  | ST_ELEC_CURR_DENSITY => elecLen lines s * elecFace c lines s
  | ST_ELEC_CURRENT | ST_NORTON_CURRENT => elecLen lines s
  | ST_THEVENIN_VOLTAGE => elecLen lines s / s_resist s
  | _ => 1
  end.
(** no fields are impressed, and only source [s] of [h] is on, with waveform [w] *)
Definition only_source (h : MeshData) (wE wH : nat -> Src -> R) (s : Src) (w : nat -> R) : Prop :=
  In s (h_srcs h) /\ electric_current s /\ (forall s', In s' (h_srcs h) -> impresses_field s' = false) /\
  (forall s' n, In s' (h_srcs h) -> s' <> s -> s_size s' = 0 \/ wE n s' = 0 /\ wH n s' = 0) /\ (forall n, wE n s = w n).
