(** Specification of C70: what is asked of a mesh file for the stability of its
    complete run. *)
From Coq Require Import ZArith List Bool Reals.
From Verif Require Import Types Lang BBox Grid Setup Media Medium Debye Sibc Source PlaneWave P_PwBounds SpecPw Whole Front Program SpecPhys SpecGrid SpecEnergy SpecStable CArr Edges SpecEdges SpecMedium SpecGeom PmlProfile Step StepShape StepBounds.
Import ListNotations.
Open Scope R_scope.

(** no DEBYE medium, no surface of an impedance boundary *)
Definition plain_media (h : MeshData) : Prop := forall n it, nth_error (h_media h) n = Some it -> m_type (idata it) <> MT_DEBYE.
Definition no_sheets (h : MeshData) : Prop := forall s, In s (h_surfs h) -> boundOf h (boundary_s (fst s)) <> BT_SIBC.
(** no plane waves, and all sources are soft: they add to the field *)
Definition soft_sources (h : MeshData) : Prop := h_pws h = [] /\ forall s, In s (h_srcs h) -> t_soft (s_tag s) = true.
(** no lumped source lies in an outer wall: where its box has no extent, it is
    inside the mesh *)
Definition loads_inside (h : MeshData) : Prop := forall s, In s (h_srcs h) -> isLumped (t_type (s_tag s)) = true ->
  forall a, s_mbbox s (face_lo a) = s_mbbox s (face_hi a) -> (h_mbox h (face_lo a) < s_mbbox s (face_lo a) < h_mbox h (face_hi a))%Z.
(** from step [t] on the waveforms are zero *)
Definition silent (d : Drv) (t : nat) : Prop := forall t' s, (t <= t')%nat -> d_wE d t' s = 0 /\ d_wH d t' s = 0.
(** the arrays the set-up leaves behind: cell sizes of the mesh lines [e], update
    coefficients of the media, conductors and loads of the file *)
Definition coefficient (l : Loc) : Prop := match arr l with AAlpha _ | ABeta _ | AGamma _ => True | _ => False end.
Definition set_up (c : Cfg) (h : MeshData) (e : Axis -> Edges) (dt : R) (m : mem R) : Prop :=
  edges_in c e m /\
  exists m0, forall l, coefficient l ->
    m l = run rArith (coefProg c h eps0 mu0 dt (fun a n => adat (eDe (e a)) n) (fun a n => adat (eDh (e a)) n)) m0 l.
(** E is zero in perfect conductors *)
Definition clear_conductors (c : Cfg) (m : mem R) : Prop := forall f i j k, is_E f = true -> inl (gfolim c f) i j k ->
  beta m f i j k = 0 -> fld m f i j k = 0.
