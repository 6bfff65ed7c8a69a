(** Property theorems C05, C19, C41: grid extents, registries, completion of
    the external surfaces. *)
From Coq Require Import ZArith List Bool String Lia.
From Verif Require Import Types BBox Grid Setup SpecGeom SpecGrid SpecSetup BBoxProofs SetupProofs.
Import ListNotations.
Open Scope Z_scope.

(** C05. For every accepted DM card and boundary declarations: the inner box
    has the mesh's cells, layers are added on exactly the requested faces, the
    arrays hold the outer grid plus one ghost cell on every side, every E/H
    point strictly inside the ghost box has an index inside the arrays, and a
    box of the mesh is carried into the inner box. *)
Theorem C05_extents : forall nx ny nz reg c, setupCfg nx ny nz reg = Some c -> forall a,
  let cells := match a with XDIR => nx | YDIR => ny | ZDIR => nz end in
  let layers f := if btype_eqb (btype (wanted reg f)) BT_PML then blayers (wanted reg f) else 0 in
  gibox c (face_hi a) - gibox c (face_lo a) = cells /\ 1 <= cells /\
  gibox c (face_lo a) - gobox c (face_lo a) = layers (face_lo a) /\
  gobox c (face_hi a) - gibox c (face_hi a) = layers (face_hi a) /\
  inside (gibox c) (gobox c) /\ inside (gobox c) (ggbox c) /\
  numCells c a = cells + layers (face_lo a) + layers (face_hi a) + 2 /\
  gobox c (face_lo a) = 1.
Proof.
  intros nx ny nz reg c H a. pose proof (setup_wf _ _ _ _ _ H) as W.
  pose proof (setup_cfg _ _ _ _ _ H) as S.
  assert (NL : forall b, numLines c b = match b with XDIR => nx | YDIR => ny | ZDIR => nz end + 1).
  { unfold setupCfg, parseDM in H.
    destruct ((nx <? 1) || (ny <? 1) || (nz <? 1)); [discriminate|].
    destruct (initExternalSurfaceParameters reg) as [[r n]|]; [|discriminate].
    injection H as <-. intros []; reflexivity. }
  cbv zeta. pose proof (extents c a) as E. pose proof (wf_lines c W a) as L2.
  destruct (S (face_lo a)) as [_ Sl]. destruct (S (face_hi a)) as [_ Sh]. rewrite <- Sl, <- Sh.
  rewrite NL in *.
  assert (I : forall b, 0 <= gibox c (face_lo b) - gobox c (face_lo b) /\
                        0 <= gobox c (face_hi b) - gibox c (face_hi b) /\
                        ggbox c (face_lo b) <= gobox c (face_lo b) /\ gobox c (face_hi b) <= ggbox c (face_hi b)).
  { intro b. pose proof (extents c b). pose proof (layers_nonneg c W (face_lo b)).
    pose proof (layers_nonneg c W (face_hi b)). lia. }
  repeat match goal with |- _ /\ _ => split end; try lia.
  - intro b. specialize (I b). lia.
  - intro b. specialize (I b). lia.
Qed.

Theorem C05_arrays_cover : forall nx ny nz reg c, setupCfg nx ny nz reg = Some c -> forall f i j k,
  yee_in f (ggbox c) (fun _ => false) i j k ->
  0 <= i < numCells c XDIR /\ 0 <= j < numCells c YDIR /\ 0 <= k < numCells c ZDIR.
Proof.
  intros nx ny nz reg c H f i j k Y. pose proof (setup_wf _ _ _ _ _ H) as W.
  pose proof (extents c XDIR). pose proof (extents c YDIR). pose proof (extents c ZDIR).
  apply (proj2 (setFieldLimits_spec f (ggbox c) (fun _ => false) i j k)) in Y.
  unfold in_lim, setFieldLimits in Y. destruct f; cbn [face_lo face_hi fieldIsInBoundary] in *; lia.
Qed.

Theorem C05_mesh_box_mapped : forall nx ny nz reg c mb nl, setupCfg nx ny nz reg = Some c ->
  parseDM nx ny nz = Some (mb, nl) -> forall b, inside b mb ->
  inside (offsetBoundingBox b (gibox c)) (gibox c) /\
  forall a, offsetBoundingBox b (gibox c) (face_hi a) - offsetBoundingBox b (gibox c) (face_lo a)
            = b (face_hi a) - b (face_lo a).
Proof.
  intros nx ny nz reg c mb nl H P b I. pose proof (setup_wf _ _ _ _ _ H) as W.
  assert (Q : mb = mkbox 0 nx 0 ny 0 nz /\
              forall b, numLines c b = match b with XDIR => nx | YDIR => ny | ZDIR => nz end + 1).
  { unfold setupCfg, parseDM in *.
    destruct ((nx <? 1) || (ny <? 1) || (nz <? 1)); [discriminate|].
    destruct (initExternalSurfaceParameters reg) as [[r n]|]; [|discriminate].
    injection H as <-. injection P as <- <-. split; auto. intros []; reflexivity. }
  destruct Q as [-> NL].
  split.
  - intro a. specialize (I a). pose proof (extents c a) as E. rewrite NL in E.
    destruct a; unfold offsetBoundingBox; cbn [face_lo face_hi mkbox] in *; lia.
  - intro a. destruct a; unfold offsetBoundingBox; cbn [face_lo face_hi]; lia.
Qed.

(** C19. Starting from the predefined names, an accepted sequence of
    declarations: numbers are consecutive in order of declaration, every name
    looks up to the number and data it was declared with, undeclared names are
    not found, and a duplicate name anywhere makes the sequence rejected. *)
Theorem C19_registry : forall A (predef : Registry A) cards reg, NoDup (map iname predef) ->
  declares predef cards = Some reg ->
  List.length reg = (List.length predef + List.length cards)%nat /\
  (forall k it, nth_error predef k = Some it ->
     findName reg (iname it) = Some k /\ getItem reg k = Some it) /\
  (forall k name d, nth_error cards k = Some (name, d) ->
     findName reg name = Some (List.length predef + k)%nat /\
     getItem reg (List.length predef + k)%nat = Some (mkItem name d)) /\
  (forall name, ~ In name (map iname predef) -> ~ In name (map fst cards) -> findName reg name = None).
Proof.
  intros A predef cards reg ND H. destruct (declares_spec _ _ _ ND H) as [ND' ->].
  split; [rewrite app_length, map_length; reflexivity|].
  split; [|split].
  - intros k it E. split; [eapply findName_unique; eauto|]; apply nth_error_app_some; auto.
  - intros k name d E.
    assert (X : getItem (predef ++ map (fun c => mkItem (fst c) (snd c)) cards)
                  (List.length predef + k) = Some (mkItem name d)).
    { unfold getItem. rewrite nth_error_app2 by lia.
      replace (List.length predef + k - List.length predef)%nat with k by lia.
      rewrite nth_error_map, E. reflexivity. }
    split; [|exact X]. eapply findName_unique; eauto.
  - intros name H1 H2. apply findName_none. rewrite map_app, map_map. simpl.
    intro I. apply in_app_or in I. tauto.
Qed.
Theorem C19_duplicates_rejected : forall A (predef : Registry A) cards, NoDup (map iname predef) ->
  (declares predef cards = None <-> ~ NoDup (map iname predef ++ map fst cards)).
Proof. intros A predef cards. exact (declares_dup cards predef). Qed.
Theorem C19_predefined :
  NoDup (map iname initBoundaryReg) /\ NoDup (map iname initMediumReg) /\
  findName initBoundaryReg "PEC" = Some 0%nat /\ findName initBoundaryReg "PMC" = Some 1%nat /\
  findName initBoundaryReg "FREE_SPACE" = Some 2%nat /\
  findName initMediumReg "FREE_SPACE" = Some 0%nat /\ findName initMediumReg "PEC" = Some 1%nat.
Proof. repeat split; repeat constructor; simpl; intuition congruence. Qed.
Example C19_nonvacuous : exists reg,
  declares initMediumReg [("glass"%string, MT_SIMPLE); ("water"%string, MT_DEBYE)] = Some reg /\
  findName reg "water" = Some 3%nat.
Proof. eexists. split; reflexivity. Qed.

(** C41. The set-up either gives every face the boundary wanted for it (its
    declaration, or six PML layers), with layers only on PML faces, or it stops
    the run, and it stops exactly when some face is bad. *)
Theorem C41_completed : forall reg reg' num, initExternalSurfaceParameters reg = Some (reg', num) ->
  forall f, typeAt reg' (num f) = Some (btype (wanted reg f)) /\
    layersAt reg' (num f) =
      Some (if btype_eqb (btype (wanted reg f)) BT_PML then blayers (wanted reg f) else 0) /\
    ~ bad_face reg f.
Proof. exact setup_ok. Qed.
Theorem C41_refused_iff : forall reg,
  initExternalSurfaceParameters reg = None <-> exists f, bad_face reg f.
Proof. exact setup_fail. Qed.
(** every accepted configuration is well formed: the hypothesis of the
    time-stepping theorems *)
Theorem C41_wellformed : forall nx ny nz reg c, setupCfg nx ny nz reg = Some c -> wf c.
Proof. exact setup_wf. Qed.

Definition exampleReg : BReg :=
  initBoundaryReg ++ [mkItem "XLO"%string (mkB BT_PERIODIC 0); mkItem "XHI"%string (mkB BT_PERIODIC 2);
    mkItem "YLO"%string (mkB BT_PEC 0); mkItem "ZHI"%string (mkB BT_PML 8); mkItem "ZLO"%string (mkB BT_MUR 0)].
Example C41_nonvacuous : exists c, setupCfg 4 5 6 exampleReg = Some c /\
  outerSurfaceType c YHI = BT_PML /\ outerSurfaceNumLayers c YHI = 6 /\
  outerSurfaceNumLayers c ZHI = 8 /\ outerSurfaceNumLayers c XHI = 0 /\
  numCells c ZDIR = 16.
Proof. eexists. split; [reflexivity|]. vm_compute. auto. Qed.
Example C41_refused_example :
  initExternalSurfaceParameters (initBoundaryReg ++ [mkItem "XLO"%string (mkB BT_PERIODIC 0)]) = None.
Proof. reflexivity. Qed.

(** C47, depth card: BE (PML depths) given before any boundary of a face exists
    is accepted and silently changes the predefined boundary number 0 ("PEC"). *)
Theorem C47_BE_refuted : exists reg', parseBE initBoundaryReg (fun _ => 10) = Some reg' /\
  getItem reg' 0 = Some (mkItem "PEC"%string (mkB BT_PEC 10)) /\
  initExternalSurfaceParameters reg' <> None /\
  (forall f, wanted reg' f = mkB BT_PML 6).
Proof.
  eexists. split; [reflexivity|]. split; [reflexivity|]. split; [vm_compute; discriminate|].
  intros []; reflexivity.
Qed.

(** C56, the BR card: accepted iff the six codes are -1 (PEC), 0 (PML) or +1
    (PMC); the boundary wanted for each face is then the coded one, whatever had
    been declared before; boundaries of other names keep their numbers and data. *)
Definition br_code (n : Z) (d : BData) : Prop :=
  (n = -1 /\ d = mkB BT_PEC 0) \/ (n = 0 /\ d = mkB BT_PML 6) \/ (n = 1 /\ d = mkB BT_PMC 0).
Lemma brType_code n d : brType n = Some d <-> br_code n d.
Proof.
  unfold brType, br_code, pmlDefaultLayers.
  destruct (Z.eqb_spec n (-1)), (Z.eqb_spec n 0), (Z.eqb_spec n 1); subst; split; intro H; try discriminate; try lia;
  try (injection H as <-; intuition lia); destruct H as [[H1 ->] | [[H1 ->] | [H1 ->]]]; try lia; reflexivity.
Qed.
Lemma br_loop ty : forall fs reg, match parseBR_loop reg ty fs with
  | Some reg' => exists ds, reg' = reg ++ map (fun fd => mkItem (FACE (fst fd)) (snd fd)) (combine fs ds) /\
                            List.length ds = List.length fs /\ Forall (fun fd => br_code (ty (fst fd)) (snd fd)) (combine fs ds)
  | None => exists f, In f fs /\ forall d, ~ br_code (ty f) d
  end.
Proof.
  induction fs as [|f fs IH]; intros reg; cbn [parseBR_loop].
  - exists []. rewrite app_nil_r. repeat split. constructor.
  - destruct (brType (ty f)) as [d|] eqn:E.
    + specialize (IH (addItem reg (FACE f) d)). destruct (parseBR_loop (addItem reg (FACE f) d) ty fs) as [reg'|].
      * destruct IH as (ds & -> & LN & FA). exists (d :: ds). unfold addItem. rewrite <- app_assoc. repeat split; [cbn; congruence|].
        constructor; [apply brType_code; exact E|exact FA].
      * destruct IH as (g & I & N). exists g. split; [right; exact I|exact N].
    + exists f. split; [left; reflexivity|]. intros d Hd. apply brType_code in Hd. congruence.
Qed.
Theorem C56_BR_card : forall reg ty,
  (parseBR reg ty = None <-> exists f, ty f <> -1 /\ ty f <> 0 /\ ty f <> 1) /\
  (forall reg', parseBR reg ty = Some reg' ->
     (forall f, br_code (ty f) (wanted reg' f)) /\
     (forall n it, getItem reg n = Some it -> getItem reg' n = Some it) /\
     (forall name, (forall f, name <> FACE f) -> findName reg' name = findName reg name)).
Proof.
  intros reg ty. pose proof (br_loop ty faces reg) as B. fold (parseBR reg ty) in B. split.
  - split.
    + intros E. rewrite E in B. destruct B as (f & _ & N). exists f.
      repeat split; intro H; [apply (N (mkB BT_PEC 0))|apply (N (mkB BT_PML 6))|apply (N (mkB BT_PMC 0))]; unfold br_code; tauto.
    + intros (f & N). destruct (parseBR reg ty) as [reg'|]; [|reflexivity]. exfalso.
      destruct B as (ds & _ & LN & FA). rewrite Forall_forall in FA.
      assert (I : exists d, In (f, d) (combine faces ds)).
      { cbn in LN. destruct ds as [|d1 [|d2 [|d3 [|d4 [|d5 [|d6 [|]]]]]]]; cbn in LN; try discriminate LN.
        cbn [faces combine In]. destruct f; eexists; eauto 10. }
      destruct I as (d & I). specialize (FA _ I). cbn [fst snd] in FA. unfold br_code in FA. lia.
  - intros reg' E. rewrite E in B. destruct B as (ds & -> & LN & FA).
    cbn in LN. destruct ds as [|d1 [|d2 [|d3 [|d4 [|d5 [|d6 [|]]]]]]]; cbn in LN; try discriminate LN.
    cbn [faces combine map fst snd] in *. repeat match goal with H : Forall _ (_ :: _) |- _ => inversion_clear H end. cbn [fst snd] in *.
    split; [|split].
    + intros f. unfold wanted, declared. rewrite rev_app_distr. cbn [rev app find iname]. destruct f; cbn; assumption.
    + intros n it. unfold getItem. intros H'. rewrite nth_error_app1; [exact H'|apply nth_error_Some; congruence].
    + intros name NF.
      assert (K : forall f, String.eqb (FACE f) name = false).
      { intros f. destruct (String.eqb_spec (FACE f) name) as [HE|]; [|reflexivity]. exfalso. apply (NF f). symmetry. exact HE. }
      clear - K. induction reg as [|it reg IH].
      * cbn [app findName iname]. rewrite !K. reflexivity.
      * cbn [app findName]. rewrite IH. reflexivity.
Qed.
Example C56_nonvacuous : exists reg', parseBR exampleReg (fun f => match f with XLO | XHI => 0 | YLO => -1 | _ => 1 end) = Some reg' /\
  wanted reg' XLO = mkB BT_PML 6 /\ wanted reg' ZLO = mkB BT_PMC 0 /\ initExternalSurfaceParameters reg' <> None.
Proof. eexists. split; [reflexivity|]. repeat split; vm_compute; congruence. Qed.

Print Assumptions C05_extents.
Print Assumptions C05_arrays_cover.
Print Assumptions C05_mesh_box_mapped.
Print Assumptions C19_registry.
Print Assumptions C19_duplicates_rejected.
Print Assumptions C19_predefined.
Print Assumptions C41_completed.
Print Assumptions C41_refused_iff.
Print Assumptions C41_wellformed.
Print Assumptions C47_BE_refuted.
Print Assumptions C56_BR_card.
