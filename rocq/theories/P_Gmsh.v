(** C37, C58: mesh export in gmsh format. *)
From Coq Require Import ZArith String List Bool Lia.
From Verif Require Import Types Lang LangProofs BBox BBoxProofs CArr SpecGeom Gmsh SpecGmsh GmshProofs.
Import ListNotations.
Open Scope Z_scope.

(** C37. For a mesh of fewer than 2^31 nodes the node numbering never overflows,
    is positive, and distinct nodes get distinct numbers. *)
Theorem C37_numbering : forall (n : Axis -> Z) i j k,
  (n XDIR * n YDIR * n ZDIR < 2 ^ 31) ->
  0 <= i < n XDIR -> 0 <= j < n YDIR -> 0 <= k < n ZDIR ->
  exists v, encodeNodeNumber n i j k = Some v /\ 0 < v < 2 ^ 31 /\
  forall i' j' k', 0 <= i' < n XDIR -> 0 <= j' < n YDIR -> 0 <= k' < n ZDIR ->
    encodeNodeNumber n i' j' k' = Some v -> (i', j', k') = (i, j, k).
Proof.
  intros n i j k L A B C. assert (I : inMesh n (i, j, k)) by (apply inMesh3; auto).
  pose proof (num_le n _ I) as N. pose proof (num_pos n _ I) as P.
  exists (num n (i, j, k)). split; [apply encode_ok; [assumption|unfold INT_MAX; lia]|]. split; [lia|].
  intros i' j' k' A' B' C' E. apply encode_some in E. destruct E as [E _].
  apply (num_inj n); [apply inMesh3; auto|assumption|congruence].
Qed.
Example C37_numbering_example : encodeNodeNumber (fun _ => 1000) 999 999 999 = Some 1000000000.
Proof. reflexivity. Qed.
(** With 2^31 nodes or more the numbering overflows int. *)
Theorem C37_overflow_refuted : exists n : Axis -> Z, n XDIR * n YDIR * n ZDIR < 2 ^ 32 /\
  encodeNodeNumber n (n XDIR - 1) (n YDIR - 1) (n ZDIR - 1) = None.
Proof. exists (fun a => match a with ZDIR => 2001 | _ => 1200 end). split; [vm_compute; reflexivity|reflexivity]. Qed.

(** C58a. Whatever the objects, a file that is written is well-formed and shows
    every object in full: its cells (or sample points), each exactly once, at the
    right nodes, under a group with its name, in the order of the objects. *)
Theorem C58_file : forall n ds f, gmshMesh n ds = Some f ->
  wellformed n f /\
  exists elss, map snd (fElems f) = List.concat elss /\ List.length elss = List.length ds /\
    forall i d, nth_error ds i = Some d -> exists els, nth_error elss i = Some els /\ depicts f (Z.of_nat i + 1) d els.
Proof.
  intros n ds f E. unfold gmshMesh, obind in E. destruct (drawAll (gmshInit n) ds) as [g|] eqn:D; [|discriminate].
  injection E as <-. pose proof (Inv_drawAll _ [] ds _ _ (Inv_init n) D) as I. simpl in I.
  split; [eapply file_wf; [exact I|reflexivity]|eapply file_depicts; exact I].
Qed.

(** C58b. Objects inside the mesh can always be exported. *)
Theorem C58_success : forall n ds, exportable n ds -> exists f, gmshMesh n ds = Some f.
Proof.
  intros n ds [A B C D E F]. unfold gmshMesh.
  destruct (drawAll_ok n ltac:(unfold INT_MAX; lia) [] ds (gmshInit n)) as [g H].
  - apply Inv_init. - split; [simpl; lia|intros h []].
  - intros d Hd. split; [apply A; assumption|apply B; assumption].
  - simpl. unfold UINT_MAX. lia.
  - exact C.
  - simpl. unfold UINT_MAX. lia.
  - rewrite H. simpl. eauto.
Qed.

(** C58c. The export of an accepted mesh: for every mesh whose cards were accepted
    (and whose plane-wave faces and observation strides are not degenerate), with
    fewer than 2^31 nodes, 2^32 elements and objects, gvulture writes a file. *)
Lemma type_of_ndeg b : bboxType b = match ndeg b with O => BB_VOLUME | 1%nat => BB_SURFACE | 2%nat => BB_LINE | _ => BB_POINT end.
Proof. apply bboxType_ndeg. Qed.
Lemma spans_ndeg b : (List.length (spans b) + ndeg b = 3)%nat.
Proof. unfold spans, ndeg, axes. simpl. destruct (degenerate b XDIR), (degenerate b YDIR), (degenerate b ZDIR); reflexivity. Qed.
Lemma face_ndeg b f : (forall a, a <> face_axis f -> degenerate b a = false) -> ndeg (getFaceOfBoundingBox b f) = 1%nat.
Proof.
  intros H. pose proof (H XDIR) as HX. pose proof (H YDIR) as HY. pose proof (H ZDIR) as HZ. unfold ndeg, axes, degenerate in *.
  destruct f; simpl in *; rewrite ?Z.eqb_refl;
    repeat match goal with X : ?P <> ?Q -> ?R = false |- context [?R] => rewrite (X ltac:(discriminate)) end; reflexivity.
Qed.
Lemma face_in n b f : in_mesh_box n b -> in_mesh_box n (getFaceOfBoundingBox b f).
Proof. intros H a. pose proof (H a) as Ha. destruct f, a; simpl in *; lia. Qed.

(** name and dimension of a drawn object *)
Inductive Kind (m : MeshObjs) (d : Draw) : Prop :=
| K_BT s : dName d = ("BT_" ++ s)%string -> List.length (draw_axes d) = 2%nat -> Kind m d
| K_MT s : dName d = ("MT_" ++ s)%string -> List.length (draw_axes d) = 3%nat -> Kind m d
| K_WT s : dName d = ("WT_" ++ s)%string -> List.length (draw_axes d) = 1%nat -> Kind m d
| K_EX s b : dName d = ("EX_" ++ s)%string -> In (s, b) (oSources m) -> List.length (draw_axes d) = List.length (spans b) -> Kind m d
| K_PW s : dName d = ("PW_" ++ s)%string -> List.length (draw_axes d) = 2%nat -> Kind m d
| K_OP s : dName d = ("OP_" ++ s)%string -> List.length (draw_axes d) = 0%nat -> Kind m d.
Lemma Kind_dim m d d' : NoDup (map fst (oSources m)) -> Kind m d -> Kind m d' -> dName d = dName d' ->
  List.length (draw_axes d) = List.length (draw_axes d').
Proof.
  intros ND K K' E. destruct K as [s A L|s A L|s A L|s b A M L|s A L|s A L], K' as [s' A' L'|s' A' L'|s' A' L'|s' b' A' M' L'|s' A' L'|s' A' L'];
    rewrite A, A' in E; simpl in E; try discriminate E; try congruence.
  injection E as <-. assert (b = b'); [|congruence]. rename M into H0, M' into H3, b into b0, b' into b1.
  clear -ND H0 H3. induction (oSources m) as [|[s2 b2] l IH]; [contradiction|]. simpl in *.
  inversion ND as [|? ? NI ND2]; subst.
  assert (X : forall b, In (s, b) l -> s <> s2). { intros b H E. subst. apply NI. apply (in_map fst) in H. exact H. }
  destruct H0 as [E1|H0], H3 as [E2|H3].
  - congruence. - exfalso. apply (X b1 H3). congruence. - exfalso. apply (X b0 H0). congruence. - auto.
Qed.
Lemma box_axes t name b st : t = bboxType b -> List.length (draw_axes (mkDraw t name b st)) = List.length (spans b).
Proof.
  intros ->. unfold draw_axes. cbn [dType dBox]. destruct (bboxType b) eqn:T; try reflexivity. rewrite spans_point by assumption. reflexivity.
Qed.
Record GoodDraw (n : Axis -> Z) (m : MeshObjs) (d : Draw) : Prop := {
  gd_in : in_mesh_box n (dBox d);
  gd_type : dType d = bboxType (dBox d) \/ (dType d = BB_POINT /\ forall a, 1 <= dStep d a);
  gd_kind : Kind m d }.
Lemma objs_good n ext m d : (forall a, 1 <= n a) -> drawable n m -> In d (meshDraws n ext m) -> GoodDraw n m d.
Proof.
  intros HN [D1 D2 D3 [D4 D4'] D5 D6] H. unfold meshDraws in H. apply in_app_or in H. destruct H as [H|H].
  - destruct ext; [|contradiction]. pose proof (HN XDIR). pose proof (HN YDIR). pose proof (HN ZDIR).
    unfold externalDraws in H. cbn [map fst snd] in H.
    set (mb := mkbox _ _ _ _ _ _) in *.
    assert (N0 : forall a, degenerate mb a = false) by (intros []; unfold degenerate, mb; cbn [mkbox face_lo face_hi]; apply Z.eqb_neq; lia).
    assert (IM : in_mesh_box n mb) by (intros []; cbn; lia).
    assert (G : forall f s, GoodDraw n m (mkDraw BB_SURFACE (String.append "BT_" s) (getFaceOfBoundingBox mb f) step1)).
    { intros f s. assert (F : ndeg (getFaceOfBoundingBox mb f) = 1%nat) by (apply face_ndeg; auto).
      assert (T : BB_SURFACE = bboxType (getFaceOfBoundingBox mb f)) by (rewrite type_of_ndeg, F; reflexivity).
      split; [apply face_in; assumption|left; exact T|apply (K_BT _ _ s); [reflexivity|]].
      rewrite box_axes by exact T. pose proof (spans_ndeg (getFaceOfBoundingBox mb f)). lia. }
    repeat (destruct H as [<-|H]; [apply (G _ _)|]). contradiction.
  - unfold objDraws in H. rewrite !in_app_iff, !in_map_iff, in_flat_map in H.
    destruct H as [([s b] & <- & H)|[([s b] & <- & H)|[([s b] & <- & H)|[([s b] & <- & H)|[([[s b] act] & H & H2)|([[s b] st] & <- & H)]]]]].
    + destruct (D1 s b H) as [I N]. assert (T : BB_SURFACE = bboxType b) by (rewrite type_of_ndeg, N; reflexivity).
      split; [exact I|left; exact T|apply (K_BT _ _ s); [reflexivity|]]. rewrite box_axes by exact T. pose proof (spans_ndeg b). simpl. lia.
    + destruct (D2 s b H) as [I N]. assert (T : BB_VOLUME = bboxType b) by (rewrite type_of_ndeg, N; reflexivity).
      split; [exact I|left; exact T|apply (K_MT _ _ s); [reflexivity|]]. rewrite box_axes by exact T. pose proof (spans_ndeg b). simpl. lia.
    + destruct (D3 s b H) as [I N]. assert (T : BB_LINE = bboxType b) by (rewrite type_of_ndeg, N; reflexivity).
      split; [exact I|left; exact T|apply (K_WT _ _ s); [reflexivity|]]. rewrite box_axes by exact T. pose proof (spans_ndeg b). simpl. lia.
    + split; [exact (D4' s b H)|left; reflexivity|apply (K_EX _ _ s b); [reflexivity|exact H|apply box_axes; reflexivity]].
    + destruct (D5 s b act H) as [I N]. apply in_flat_map in H2. destruct H2 as (f & _ & H2).
      destruct (act f) eqn:AF; [|contradiction]. destruct H2 as [<-|[]].
      assert (F : ndeg (getFaceOfBoundingBox b f) = 1%nat) by (apply face_ndeg, N, AF).
      assert (T : BB_SURFACE = bboxType (getFaceOfBoundingBox b f)) by (rewrite type_of_ndeg, F; reflexivity).
      split; [apply face_in; exact I|left; exact T|apply (K_PW _ _ s); [reflexivity|]].
      rewrite box_axes by exact T. pose proof (spans_ndeg (getFaceOfBoundingBox b f)). lia.
    + destruct (D6 s b st H) as [I [N|N]].
      * assert (T : BB_POINT = bboxType b) by (rewrite type_of_ndeg, N; reflexivity).
        split; [exact I|left; exact T|apply (K_OP _ _ s); reflexivity].
      * split; [exact I|right; split; [reflexivity|exact N]|apply (K_OP _ _ s); reflexivity].
Qed.
Theorem C58_export : forall n ext m, (forall a, 1 <= n a) -> drawable n m ->
  (n XDIR + 1) * (n YDIR + 1) * (n ZDIR + 1) < 2 ^ 31 ->
  sum_nodes (meshDraws n ext m) < 2 ^ 32 -> Z.of_nat (List.length (meshDraws n ext m)) + 1 < 2 ^ 32 ->
  exists f, gmshExport n ext m = Some f.
Proof.
  intros n ext m HN D L1 L2 L3. apply C58_success. split; auto.
  - intros d Hd. apply (objs_good n ext m d HN D Hd).
  - intros d Hd. apply (objs_good n ext m d HN D Hd).
  - intros d d' Hd Hd'. apply (Kind_dim m).
    + apply D. + apply (objs_good n ext m d HN D Hd). + apply (objs_good n ext m d' HN D Hd').
Qed.

(** A concrete mesh with every kind of object. *)
Definition demo_objs : MeshObjs :=
  mkObjs [("gnd"%string, mkbox 0 2 1 1 0 2)] [("foam"%string, mkbox 0 1 0 2 1 2)] [("wire"%string, mkbox 1 1 0 2 1 1)] [("src"%string, mkbox 1 1 1 2 1 1)]
         [("pw"%string, mkbox 0 2 0 2 0 2, fun f => match f with XLO | ZHI => true | _ => false end)] [("obs"%string, mkbox 0 2 0 2 1 1, fun _ => 2)].
Example C58_example : drawable (fun _ => 2) demo_objs /\
  option_map (fun f => (fGroupCount f, fNodeCount f, fElemCount f)) (gmshExport (fun _ => 2) true demo_objs) = Some (12, 27, 24 + 4 + 2 + 2 + 1 + 8 + 4)
  /\ exists f, gmshExport (fun _ => 2) true demo_objs = Some f.
Proof.
  split; [|split].
  - split.
    + intros s b [[= <- <-]|[]]. split; [intros []; cbn; lia|reflexivity].
    + intros s b [[= <- <-]|[]]. split; [intros []; cbn; lia|reflexivity].
    + intros s b [[= <- <-]|[]]. split; [intros []; cbn; lia|reflexivity].
    + split; [repeat constructor; simpl; tauto|]. intros s b [[= <- <-]|[]]. intros []; cbn; lia.
    + intros s b act [[= <- <- <-]|[]]. split; [intros []; cbn; lia|]. intros f _ []; reflexivity.
    + intros s b st [[= <- <- <-]|[]]. split; [intros []; cbn; lia|]. right. intros a. lia.
  - vm_compute. reflexivity.
  - vm_compute. eauto.
Qed.

(** The unchecked cases.  A plane-wave box without extent along an axis and an
    observer with a zero stride are accepted by the parser but cannot be exported
    (an assertion fails; a loop does not end). *)
Theorem C58_flat_planewave_refuted : forall n ext s b active, degenerate b YDIR = true -> degenerate b XDIR = false -> active XLO = true ->
  forall m, oPlaneWaves m = [(s, b, active)] -> gmshExport n ext m = None.
Proof.
  intros n ext s b active DY DX AX m E. unfold gmshExport, gmshMesh.
  destruct (drawAll (gmshInit n) (meshDraws n ext m)) as [g|] eqn:D; [|reflexivity]. exfalso.
  assert (I : In (mkDraw BB_SURFACE (String.append "PW_" s) (getFaceOfBoundingBox b XLO) step1) (meshDraws n ext m)).
  { unfold meshDraws, objDraws. rewrite !in_app_iff, E. do 5 right. left. cbn [flat_map]. rewrite AX. left. reflexivity. }
  revert I D. generalize (meshDraws n ext m) (gmshInit n). induction l as [|d l IH]; intros g0 I; [contradiction|]. simpl. destruct I as [->|I]; unfold obind.
  - match goal with |- context [draw ?x ?y] => destruct (draw x y) eqn:E' end; [exfalso|discriminate]. revert E'.
    unfold draw, gmshGetEntityNumber, obind. destruct (_ =? _); [discriminate|]. unfold gmshAddEntity. cbn [dType dBox].
    destruct (bboxType (getFaceOfBoundingBox b XLO)) eqn:T; try discriminate.
    exfalso. unfold bboxType in T. rewrite mask_cases in T. unfold degenerate in *. simpl in DY. cbn in T. rewrite Z.eqb_refl, DY in T.
    destruct (b ZLO =? b ZHI); discriminate.
  - destruct (draw g0 d); [|discriminate]. apply IH. assumption.
Qed.
Theorem C58_zero_stride_refuted : forall n ds d, In d ds -> dType d = BB_POINT -> bboxType (dBox d) <> BB_POINT ->
  dStep d XDIR = 0 -> dBox d XLO <= dBox d XHI -> gmshMesh n ds = None.
Proof.
  intros n ds d I T1 T2 S L. unfold gmshMesh. destruct (drawAll (gmshInit n) ds) as [g|] eqn:D; [|reflexivity]. exfalso.
  revert I D. generalize (gmshInit n). induction ds as [|d' l IH]; intros g0 I; [contradiction|]. simpl. destruct I as [->|I]; unfold obind.
  - destruct (draw g0 d) eqn:E; [exfalso|discriminate]. revert E. unfold draw, gmshGetEntityNumber, obind. destruct (_ =? _); [discriminate|].
    unfold gmshAddEntity. rewrite T1. unfold addPoints, zsteps. rewrite S.
    destruct (Z.ltb_spec (dBox d XHI) (dBox d XLO)); [lia|]. cbn [Z.leb Z.compare].
    destruct (bboxType (dBox d)); try congruence; destruct (addGroupIfNew _ _ _) as [[? ?]|]; simpl; discriminate.
  - destruct (draw g0 d'); [|discriminate]. apply IH. assumption.
Qed.
