(** Specification of C68 and C69: what every mesh file that the reader accepts is
    guaranteed to contain. *)
From Coq Require Import ZArith List Bool String Reals.
From Verif Require Import Types BBox Grid Setup Media Medium Waveform Source PlaneWave Observer SpecGeom SpecCards Front.
Import ListNotations.
Open Scope Z_scope.

(** entry [n] of a table exists *)
Definition entry {A} (reg : list A) (n : nat) : Prop := (n < List.length reg)%nat.
Definition has_waveform (h : MeshData) (name : string) : Prop := exists w, In w (h_wfs h) /\ wName w = name.
(** Everything placed on the mesh lies in the mesh, has the shape its card asks
    for, and refers to things the file declares (or predefined ones). *)
Record consistent (h : MeshData) : Prop := mkCons {
  co_block : forall b, In b (h_blocks h) -> box_card (h_mbox h) (bbox_b b) /\ ndeg (bbox_b b) = 0%nat /\ entry (h_media h) (medium_b b) /\ 0 <= mask_b b <= 63;
  co_line : forall l, In l (h_lines h) -> box_card (h_mbox h) (bbox_l l) /\ ndeg (bbox_l l) = 2%nat /\ entry (h_wires h) (wire_l l);
  co_surf : forall s a, In (s, a) (h_surfs h) -> box_card (h_mbox h) (bbox_s s) /\ ndeg (bbox_s s) = 1%nat /\ entry (h_breg h) (boundary_s s) /\
      (orient_s s = 1 \/ orient_s s = -1) /\ (-180 <= a <= 180)%R;
  co_src : forall s, In s (h_srcs h) -> box_card (h_mbox h) (s_mbbox s) /\ has_waveform h (s_wf s);
  co_pw : forall p, In p (h_pws h) -> box_card (h_mbox h) (pw_mbbox p) /\ has_waveform h (pw_wf p) /\
      (0 <= pw_theta p <= 180 /\ 0 <= pw_phi p <= 360 /\ 0 <= pw_eta p < 360)%R;
  co_obs : forall o, In o (h_obs h) -> box_card (h_mbox h) (o_mbbox o) /\
      (o_format o = OF_ASCII -> ndeg (o_mbbox o) = 3%nat) /\ (o_wf o = O \/ entry (h_wfs h) (o_wf o)) }.
(** names of one kind are used once *)
Record distinct_names (h : MeshData) : Prop := mkDist {
  dn_b : unique_names (h_breg h);
  dn_w : unique_names (h_wires h);
  dn_wf : NoDup (map wName (h_wfs h));
  dn_src : NoDup (map s_name (h_srcs h));
  dn_pw : NoDup (map pw_name (h_pws h));
  dn_obs : NoDup (map o_name (h_obs h)) }.
