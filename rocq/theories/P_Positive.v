(** What does hold of C46 (MUR edges), C47 (BE card) and C48 (PEC media). *)
From Coq Require Import ZArith List Bool String Lia Reals Lra.
From Verif Require Import Types Lang LangProofs BBox Grid Pml Mur Ghost Step Setup SpecGeom SpecGrid SpecSetup SetupProofs StepShape StepCount StepOnce P_Setup P_Step.
Import ListNotations.
Open Scope Z_scope.
Local Notation length := List.length.

(** ** C46 *)
(** the point is on the MUR face [g] of the mesh *)
Definition on_mur_face (c : Cfg) (g : Face) (i j k : Z) : Prop :=
  outerSurfaceType c g = BT_MUR /\ SpecGeom.coord i j k (face_axis g) = gibox c g.
(** the E component [f] of the point runs along an edge of the mesh where two MUR
    faces meet *)
Definition along_mur_edge (c : Cfg) (f : Fld) (i j k : Z) : Prop :=
  (exists g1 g2, face_axis g1 <> face_axis g2 /\ face_axis g1 <> fld_axis f /\ face_axis g2 <> fld_axis f /\ on_mur_face c g1 i j k /\ on_mur_face c g2 i j k) /\
  gibox c (face_lo (fld_axis f)) <= SpecGeom.coord i j k (fld_axis f) < gibox c (face_hi (fld_axis f)).
Lemma on_mur_iff c a x i j k : SpecGeom.coord i j k a = x -> (on_mur c a x = true <-> exists g, face_axis g = a /\ on_mur_face c g i j k).
Proof.
  intros <-. unfold on_mur, isT, on_mur_face. rewrite orb_true_iff, !andb_true_iff, !Z.eqb_eq, !btype_eqb_spec. split.
  - intros [(A & B)|(A & B)]; [exists (face_lo a)|exists (face_hi a)]; destruct a; cbn [face_axis face_lo face_hi] in *; auto.
  - intros (g & <- & A & B). destruct g; cbn [face_axis face_lo face_hi] in *; auto.
Qed.
Lemma mur_edge_iff c f i j k : is_E f = true -> (mur_edge c f i j k = true <-> along_mur_edge c f i j k).
Proof.
  intros E. unfold along_mur_edge, mur_edge, in_mesh, rng.
  destruct f; try discriminate E; cbn [fld_axis SpecGeom.coord face_lo face_hi]; rewrite !andb_true_iff, !Z.leb_le, !(on_mur_iff c _ _ i j k) by reflexivity; split.
  1,3,5: intros ((M & (g1 & A1 & B1)) & (g2 & A2 & B2)); split; [exists g1, g2; rewrite A1, A2; repeat split; try discriminate; [apply B1|apply B1|apply B2|apply B2]|lia].
  all: intros ((g1 & g2 & N & N1 & N2 & B1 & B2) & M); split; [split; [lia|]|].
  all: destruct (face_axis g1) eqn:E1, (face_axis g2) eqn:E2; try congruence; eauto.
Qed.
(** Every E value of the grid is assigned exactly once per step, except those along
    an edge where two MUR faces meet, and those never are. *)
Theorem C46_exactly_partial : forall nx ny nz reg c, setupCfg nx ny nz reg = Some c ->
  forall V f i j k, is_E f = true -> inl (gfolim c f) i j k ->
  (along_mur_edge c f i j k -> writes (L (AF f) i j k) (flat (coreStep (V:=V) c)) = 0%nat) /\
  (~ along_mur_edge c f i j k -> writes (L (AF f) i j k) (flat (coreStep (V:=V) c)) = 1%nat).
Proof.
  intros nx ny nz reg c S V f i j k E I. rewrite coreStep_writes by eauto using setup_wf. rewrite <- (mur_edge_iff c f i j k E). destruct (mur_edge c f i j k); split; congruence.
Qed.

(** ** C47 *)
Lemma setLayers_spec : forall reg n d, (n < length reg)%nat -> exists reg', setLayers reg n d = Some reg' /\ map iname reg' = map iname reg /\
  forall k, nth_error reg' k = if Nat.eqb k n then option_map (fun it => mkItem (iname it) (mkB (btype (idata it)) d)) (nth_error reg k) else nth_error reg k.
Proof.
  induction reg as [|it reg IH]; intros n d H; [cbn in H; lia|]. destruct n as [|n]; cbn [setLayers].
  - eexists. split; [reflexivity|]. split; [reflexivity|]. intros [|k]; reflexivity.
  - destruct (IH n d ltac:(cbn in H; lia)) as (r' & -> & N & K). eexists. split; [reflexivity|]. split; [cbn [map]; rewrite N; reflexivity|]. intros [|k]; [reflexivity|]. cbn [nth_error Nat.eqb]. apply K.
Qed.
Lemma findName_names {A} (r1 r2 : Registry A) n : map iname r1 = map iname r2 -> findName r1 n = findName r2 n.
Proof.
  revert r2. induction r1 as [|a r1 IH]; intros [|b r2] H; try discriminate; [reflexivity|]. cbn [map] in H. injection H as H1 H2. cbn [findName]. rewrite (IH r2 H2), H1. reflexivity.
Qed.
(** If every face has a boundary of its own, a BE card with depths from 0 is
    accepted, gives the boundary of every face its depth, and changes no other
    boundary nor any type; a negative depth is refused. *)
Theorem C47_BE_partial : forall reg depth, (forall f, declared reg f <> None) -> (forall f, 0 <= depth f) ->
  exists reg', parseBE reg depth = Some reg' /\ map iname reg' = map iname reg /\
  (forall f, declared reg' f = option_map (fun d => mkB (btype d) (depth f)) (declared reg f)) /\
  (forall n, (forall f, findName reg (FACE f) <> Some n) -> nth_error reg' n = nth_error reg n).
Proof.
  intros reg depth D P.
  assert (G : forall fs r, NoDup fs -> map iname r = map iname reg ->
     exists r', parseBE_loop r depth fs = Some r' /\ map iname r' = map iname reg /\
     (forall f n, findName reg (FACE f) = Some n -> nth_error r' n = if in_dec (fun x y : Face => ltac:(decide equality)) f fs then option_map (fun it => mkItem (iname it) (mkB (btype (idata it)) (depth f))) (nth_error r n) else nth_error r n) /\
     (forall n, (forall f, findName reg (FACE f) <> Some n) -> nth_error r' n = nth_error r n)).
  { induction fs as [|g fs IH]; intros r ND N; cbn [parseBE_loop].
    - exists r. repeat split; auto.
    - destruct (Z.ltb_spec (depth g) 0) as [X|_]; [specialize (P g); lia|].
      pose proof (D g) as DG. rewrite declared_findName in DG. rewrite (findName_names r reg (FACE g) N). destruct (findName reg (FACE g)) as [n0|] eqn:FG; [|congruence].
      assert (L : (n0 < length r)%nat).
      { apply findName_some in FG. destruct FG as (it & FG & _). rewrite <- (map_length iname r), N, map_length. apply nth_error_Some. congruence. }
      destruct (setLayers_spec r n0 (depth g) L) as (r1 & -> & N1 & K1). inversion ND as [|? ? NI ND']; subst.
      destruct (IH r1 ND' ltac:(congruence)) as (r' & E & N' & A & B). exists r'. split; [exact E|]. split; [exact N'|]. split.
      + intros f n FN. rewrite (A f n FN). rewrite K1.
        assert (SAME : Nat.eqb n n0 = true <-> f = g).
        { rewrite Nat.eqb_eq. split.
          - intros ->. apply findName_some in FN. apply findName_some in FG. destruct FN as (i1 & F1 & M1), FG as (i2 & F2 & M2). rewrite F1 in F2. injection F2 as <-. rewrite M1 in M2.
            destruct f, g; try reflexivity; discriminate M2.
          - intros ->. congruence. }
        destruct (in_dec _ f (g :: fs)) as [I|I]; destruct (in_dec _ f fs) as [I2|I2].
        * destruct (Nat.eqb n n0) eqn:Q; [|reflexivity]. exfalso. apply NI. rewrite <- (proj1 SAME eq_refl). exact I2.
        * destruct I as [<-|I]; [|contradiction]. rewrite (proj2 SAME eq_refl). reflexivity.
        * exfalso. apply I. right. exact I2.
        * destruct (Nat.eqb n n0) eqn:Q; [|reflexivity]. exfalso. apply I. left. symmetry. apply SAME. reflexivity.
      + intros n FN. rewrite (B n FN), K1. destruct (Nat.eqb_spec n n0) as [->|]; [|reflexivity]. exfalso. exact (FN g FG). }
  assert (ND : NoDup faces) by (unfold faces; repeat constructor; cbn [In]; intuition discriminate).
  destruct (G faces reg ND eq_refl) as (reg' & E & N & A & B). exists reg'. split; [exact E|]. split; [exact N|]. split; [|exact B].
  intros f. rewrite !declared_findName, (findName_names reg' reg _ N). destruct (findName reg (FACE f)) as [n|] eqn:FN; [|reflexivity].
  unfold getItem. rewrite (A f n FN). destruct (in_dec _ f faces) as [I|I]; [destruct (nth_error reg n); reflexivity|]. exfalso. apply I. destruct f; cbn; tauto.
Qed.
Theorem C47_negative_refused : forall reg depth f, depth f < 0 -> parseBE reg depth = None.
Proof.
  intros reg depth f H. unfold parseBE. assert (I : In f faces) by (destruct f; cbn; tauto). revert reg. induction faces as [|g fs IH]; [contradiction|]. intros reg. cbn [parseBE_loop].
  destruct (Z.ltb_spec (depth g) 0) as [|X]; [reflexivity|]. destruct I as [->|I]; [lia|]. destruct (setLayers reg _ _); [apply IH; exact I|reflexivity].
Qed.
Example C47_nonvacuous : forall f, declared (initBoundaryReg ++ map (fun f => mkItem (FACE f) (mkB BT_PML 6)) faces) f <> None.
Proof. intros []; vm_compute; discriminate. Qed.
