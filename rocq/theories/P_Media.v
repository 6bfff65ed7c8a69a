(** Property theorems C03, C18, C35, and the set-up parts of C06 and C14. *)
From Coq Require Import ZArith List Bool String Ascii Reals Lra Lia.
From Verif Require Import Types Lang LangProofs BBox Grid Setup SpecGrid SpecGeom SetupProofs BBoxProofs Pml Ghost Step StepShape StepBounds
  GhostValue SpecCone SpecPhys Linear Media SpecMedia MediaProofs MediaCopy Medium SpecMedium MediumProofs P_Setup P_Step P_Phys P_Geometry.
Import ListNotations.
Open Scope Z_scope.
Local Arguments Z.mul : simpl never.
Local Arguments Z.add : simpl never.
Local Arguments Z.sub : simpl never.

(** ** C03.  [c] is the configuration of the mesh, [mbox] its mesh box. *)
Definition meshBox (c : Cfg) : BBox := fun f => if is_lo f then 0 else numLines c (face_axis f) - 1.
(** An accepted box lies in the mesh and is ordered along x and y. *)
Definition box_ok (c : Cfg) (b : BBox) : Prop :=
  in_mesh_box c b /\ b XLO <= b XHI /\ b YLO <= b YHI.
Lemma normal_within c b : bboxIsNormal b = true -> bboxIsWithin b (meshBox c) = true -> box_ok c b.
Proof.
  unfold bboxIsNormal, bboxIsWithin, box_ok, in_mesh_box, meshBox. rewrite ?andb_true_iff, ?Z.leb_le, ?Z.geb_le.
  cbn [is_lo face_axis]. intros N I. split; [|lia]. intros a. destruct a; cbn [face_lo face_hi]; lia.
Qed.
Theorem C03_accepted_box_partial : forall c,
  (forall M (media : Registry M) b name mask blk, parseMB (meshBox c) media b name mask = Some blk -> bbox_b blk = b /\ box_ok c b /\ ndeg b = 0%nat) /\
  (forall M (wires : Registry M) b name l, parseTW (meshBox c) wires b name = Some l -> bbox_l l = b /\ box_ok c b /\ ndeg b = 2%nat) /\
  (forall M (bounds : Registry M) b name o ang s, parseTB (meshBox c) bounds b name o ang = Some s ->
     bbox_s s = b /\ box_ok c b /\ ndeg b = 1%nat /\ (o = 1 \/ o = -1)).
Proof.
  intros c. assert (TY : forall b, bboxType b = match ndeg b with O => BB_VOLUME | S O => BB_SURFACE | S (S O) => BB_LINE | _ => BB_POINT end) by exact C02_type.
  repeat split;
  match goal with H : _ = Some _ |- _ => rename H into P end;
  unfold parseMB, parseTW, parseTB in P;
  destruct (bboxIsNormal b) eqn:N; cbn [negb] in P; try discriminate P;
  destruct (bboxIsWithin b (meshBox c)) eqn:I; cbn [negb] in P; try discriminate P;
  pose proof (normal_within c b N I) as (B1 & B2 & B3);
  rewrite TY in P; destruct (ndeg b) as [|[|[|n]]]; try discriminate P;
  destruct (findName _ name); try discriminate P;
  try destruct (_ =? FACE_MASK_ERROR); try discriminate P;
  try (destruct (o =? 1) eqn:O1; destruct (o =? -1) eqn:O2; cbn [negb andb] in P; try discriminate P; destruct ang; cbn [negb] in P; try discriminate P);
  try (injection P as <-); try reflexivity; try apply B1; try assumption;
  rewrite ?Z.eqb_eq in *; auto.
Qed.
(** The ordering along z is not checked: a block with z limits 5,2 is accepted
    in an 8x8x8 mesh, and paints nothing at all. *)
Theorem C03_z_order_refuted : exists c b blk, setupCfg 8 8 8 initBoundaryReg = Some c /\
  parseMB (meshBox c) initMediumReg b "PEC" (list_ascii_of_string "111111") = Some blk /\
  b ZHI < b ZLO /\ forall f x y z, ~ covers (blockPaint blk) f x y z.
Proof.
  eexists. exists (mkbox 1 4 1 4 5 2). eexists. split; [reflexivity|]. split; [vm_compute; reflexivity|].
  split; [reflexivity|]. intros f x y z H. specialize (H ZDIR). cbv zeta in H. destruct H as [H _].
  cbn [blockPaint p_box bbox_b mkbox face_lo face_hi] in H. lia.
Qed.
(** consequence for the scene: everything the three parsers accept *)
Definition accepted {M1 M2 M3} (c : Cfg) (media : Registry M1) (wires : Registry M2) (bounds : Registry M3) (sc : Scene) : Prop :=
  (forall b, In b (sc_blocks sc) -> exists name mask, mask <> [] /\ parseMB (meshBox c) media (bbox_b b) name mask = Some b) /\
  (forall l, In l (sc_lines sc) -> exists name, parseTW (meshBox c) wires (bbox_l l) name = Some l) /\
  (forall s, In s (sc_surfs sc) -> exists name o ang, parseTB (meshBox c) bounds (bbox_s s) name o ang = Some s).
Lemma accepted_ok {M1 M2 M3} c (media : Registry M1) (wires : Registry M2) (bounds : Registry M3) sc :
  accepted c media wires bounds sc -> scene_ok c sc.
Proof.
  intros (HB & HL & HS). destruct (C03_accepted_box_partial c) as (P1 & P2 & P3). split; [|split].
  - intros b I. destruct (HB b I) as (name & mask & NE & P). pose proof (P1 _ _ _ _ _ _ P) as (_ & (X & _) & _).
    split; [exact X|]. unfold parseMB in P. destruct (negb _); [discriminate|]. destruct (negb _); [discriminate|].
    destruct (bboxType _); try discriminate P. destruct (findName _ _); [|discriminate]. cbv zeta in P.
    destruct (Z.eqb_spec (setFaceMaskFromString mask) FACE_MASK_ERROR) as [|E]; [discriminate|]. injection P as P.
    rewrite <- P. cbn [mask_b]. apply (C01_mask_accepted mask _ NE). split; [reflexivity|exact E].
  - intros l I. destruct (HL l I) as (name & P). apply (P2 _ _ _ _ _ P).
  - intros s I. destruct (HS s I) as (name & o & ang & P). apply (P3 _ _ _ _ _ _ _ P).
Qed.

Lemma paint_scene : forall nx ny nz reg c, setupCfg nx ny nz reg = Some c ->
  forall sc, scene_ok c sc ->
  forall V (A : Arith V) (coef : nat -> Coef V) wt bt m f i j k,
  yee_in f (ggbox c) is_lo i j k ->
  exists r, last_paint f (i - gibox c XLO) (j - gibox c YLO) (k - gibox c ZLO) (paints c wt bt sc) r /\
  let co := coef (match r with Some n => n | None => 0%nat end) in
  let m' := run A (mediaProg coef c wt bt sc) m in
  if is_E f then m' (L (AAlpha f) i j k) = calpha co /\ m' (L (ABeta f) i j k) = cbeta co
  else m' (L (AGamma f) i j k) = cgamma co.
Proof.
  intros nx ny nz reg c H sc HA V A coef wt bt m f i j k HG.
  destruct (last_paint_total f (i - gibox c XLO) (j - gibox c YLO) (k - gibox c ZLO) (paints c wt bt sc)) as [r HR].
  exists r. split; [exact HR|]. pose proof (mediaProg_val A coef c wt bt sc m f i j k r HA HG HR) as X.
  unfold getc, cval in X. destruct (is_E f); injection X as X1 X2; auto.
Qed.
(** ** C18.  For every accepted scene, after the media set-up every E and H point
    carries the coefficients of the last box painted over it (blocks in file
    order, then wires, surfaces and the outer walls), or of free space. *)
Theorem C18_last_paint_wins : forall nx ny nz reg c, setupCfg nx ny nz reg = Some c ->
  forall M1 M2 M3 (media : Registry M1) (wires : Registry M2) (bounds : Registry M3) sc, accepted c media wires bounds sc ->
  forall V (A : Arith V) (coef : nat -> Coef V) wt bt m f i j k,
  yee_in f (ggbox c) is_lo i j k ->
  exists r, last_paint f (i - gibox c XLO) (j - gibox c YLO) (k - gibox c ZLO) (paints c wt bt sc) r /\
  let co := coef (match r with Some n => n | None => 0%nat end) in
  let m' := run A (mediaProg coef c wt bt sc) m in
  if is_E f then m' (L (AAlpha f) i j k) = calpha co /\ m' (L (ABeta f) i j k) = cbeta co
  else m' (L (AGamma f) i j k) = cgamma co.
Proof.
  intros nx ny nz reg c H M1 M2 M3 media wires bounds sc HA. exact (paint_scene nx ny nz reg c H sc (accepted_ok _ _ _ _ _ HA)).
Qed.
Theorem C18_last_paint_unique : forall f x y z ps r r', last_paint f x y z ps r -> last_paint f x y z ps r' -> r = r'.
Proof. intros. eapply last_paint_fun; eauto. Qed.
(** Two overlapping blocks and a wire: who wins where. *)
Definition c18scene : Scene := mkScene
  [mkBlock (mkbox 0 3 0 3 0 3) 2 63; mkBlock (mkbox 1 2 0 3 0 3) 3 63] [mkLine (mkbox 0 3 2 2 2 2) 0] [].
Definition c18reg : Registry unit := map (fun n => mkItem n tt) ["FREE_SPACE"; "PEC"; "a"; "b"]%string.
Example C18_nonvacuous : exists c, setupCfg 4 4 4 initBoundaryReg = Some c /\
  accepted c c18reg initWireReg initBoundaryReg c18scene /\
  last_paint EX 0 1 1 (map blockPaint (sc_blocks c18scene)) (Some 2%nat) /\
  last_paint EX 1 1 1 (map blockPaint (sc_blocks c18scene)) (Some 3%nat) /\
  last_paint EX 1 2 2 (map blockPaint (sc_blocks c18scene) ++ map (linePaint (fun _ => TW_PEC)) (sc_lines c18scene)) (Some 1%nat).
Proof.
  eexists. split; [reflexivity|]. split; [|split; [|split]].
  - split; [|split].
    + intros b [<-|[<-|[]]]; [exists "a"%string|exists "b"%string]; exists (list_ascii_of_string "111111"); (split; [discriminate|vm_compute; reflexivity]).
    + intros l [<-|[]]. exists "PEC"%string. vm_compute. reflexivity.
    + intros s [].
  - apply (lp_skip EX 0 1 1 [blockPaint (mkBlock (mkbox 0 3 0 3 0 3) 2 63)] (blockPaint (mkBlock (mkbox 1 2 0 3 0 3) 3 63))).
    + intros H. specialize (H XDIR). vm_compute in H. intuition congruence.
    + apply (lp_cover EX 0 1 1 [] (blockPaint (mkBlock (mkbox 0 3 0 3 0 3) 2 63))). intros []; vm_compute; intuition congruence.
  - apply (lp_cover EX 1 1 1 [blockPaint (mkBlock (mkbox 0 3 0 3 0 3) 2 63)] (blockPaint (mkBlock (mkbox 1 2 0 3 0 3) 3 63))). intros []; vm_compute; intuition congruence.
  - apply (lp_cover EX 1 2 2 [blockPaint (mkBlock (mkbox 0 3 0 3 0 3) 2 63); blockPaint (mkBlock (mkbox 1 2 0 3 0 3) 3 63)] (linePaint (fun _ => TW_PEC) (mkLine (mkbox 0 3 2 2 2 2) 0))). intros []; vm_compute; intuition congruence.
Qed.

(** ** C06, media set-up: no statement that fills the coefficient arrays, nor
    the copy of the material into the PML, leaves the allocated arrays. *)
Theorem C06_media_in_bounds : forall nx ny nz reg c, setupCfg nx ny nz reg = Some c ->
  forall M1 M2 M3 (media : Registry M1) (wires : Registry M2) (bounds : Registry M3) sc, accepted c media wires bounds sc ->
  forall V (A : Arith V) (coef : nat -> Coef V) wt bt (m : mem V),
  runO A (dims c) (mediaProgPml coef c wt bt sc) m = Some (run A (mediaProgPml coef c wt bt sc) m).
Proof.
  intros nx ny nz reg c H M1 M2 M3 media wires bounds sc HA V A coef wt bt m. apply accepted_ok in HA. apply setup_wf in H.
  assert (G : forall ss, (forall s, In s ss -> sinb (dims c) s = true) -> forall m : mem V, runO A (dims c) ss m = Some (run A ss m)).
  { induction ss as [|s ss IH]; intros HS m0; [reflexivity|]. cbn [runO]. rewrite (HS s) by (simpl; auto).
    rewrite IH by (intros; apply HS; simpl; auto). reflexivity. }
  apply G. intros s I. eapply mediaProg_inb; eauto.
Qed.

Lemma continued_scene : forall nx ny nz reg c, setupCfg nx ny nz reg = Some c -> wide c ->
  forall sc, scene_ok c sc ->
  forall V (A : Arith V) (coef : nat -> Coef V) wt bt m f i j k,
  inl (gfolim c f) i j k ->
  off_wall c f XDIR i -> off_wall c f YDIR j -> off_wall c f ZDIR k ->
  (forall a, staggered f a = false \/ mesh_lo c a <= SpecGeom.coord i j k a) ->
  let x := nearest c f XDIR i in let y := nearest c f YDIR j in let z := nearest c f ZDIR k in
  exists r, last_paint f (x - gibox c XLO) (y - gibox c YLO) (z - gibox c ZLO) (paints c wt bt sc) r /\
  let co := coef (match r with Some n => n | None => 0%nat end) in
  let m' := run A (mediaProgPml coef c wt bt sc) m in
  if is_E f then m' (L (AAlpha f) i j k) = calpha co /\ m' (L (ABeta f) i j k) = cbeta co
  else m' (L (AGamma f) i j k) = cgamma co.
Proof.
  intros nx ny nz reg c H WD sc HA V A coef wt bt m f i j k R OX OY OZ FN x y z.
  pose proof H as W. apply setup_wf in W.
  assert (YG : yee_in f (ggbox c) is_lo x y z).
  { pose proof (nearest_mesh c W f XDIR i) as MX. pose proof (nearest_mesh c W f YDIR j) as MY. pose proof (nearest_mesh c W f ZDIR k) as MZ.
    fold x in MX. fold y in MY. fold z in MZ. unfold mesh_lo, mesh_hi in *. cfg_facts c W.
    intros a. cbv zeta. unfold ypos. destruct a; cbn [face_lo face_hi is_lo SpecGeom.coord ggbox] in *; destruct (staggered f XDIR), (staggered f YDIR), (staggered f ZDIR); unfold NUM_GHOST_CELLS in *; repeat split; intros; try discriminate; lia. }
  destruct (paint_scene nx ny nz reg c H sc HA V A coef wt bt m f x y z YG) as (r & HR & HV).
  exists r. split; [exact HR|]. cbv zeta in *. unfold mediaProgPml. rewrite run_app.
  assert (CT : forall ar, isCoefOf ar f -> forall m0, run A (initPmlMaterialArrays c) m0 (L ar i j k) = m0 (L ar x y z)).
  { intros ar HI m0. apply (continued A c W WD); auto; [apply (FN XDIR)|apply (FN YDIR)|apply (FN ZDIR)]. }
  destruct (is_E f) eqn:E.
  - rewrite !CT by (unfold isCoefOf; rewrite E; auto). exact HV.
  - rewrite !CT by (unfold isCoefOf; rewrite E; auto). exact HV.
Qed.
(** ** C35.  The material of a PML point is that painted on the mesh point
    nearest to it, for every point off the outer walls, in x, y and z, except
    components staggered along an axis on whose LO side they lie. *)
Theorem C35_continued_partial : forall nx ny nz reg c, setupCfg nx ny nz reg = Some c -> wide c ->
  forall M1 M2 M3 (media : Registry M1) (wires : Registry M2) (bounds : Registry M3) sc, accepted c media wires bounds sc ->
  forall V (A : Arith V) (coef : nat -> Coef V) wt bt m f i j k,
  inl (gfolim c f) i j k ->
  off_wall c f XDIR i -> off_wall c f YDIR j -> off_wall c f ZDIR k ->
  (forall a, staggered f a = false \/ mesh_lo c a <= SpecGeom.coord i j k a) ->
  let x := nearest c f XDIR i in let y := nearest c f YDIR j in let z := nearest c f ZDIR k in
  exists r, last_paint f (x - gibox c XLO) (y - gibox c YLO) (z - gibox c ZLO) (paints c wt bt sc) r /\
  let co := coef (match r with Some n => n | None => 0%nat end) in
  let m' := run A (mediaProgPml coef c wt bt sc) m in
  if is_E f then m' (L (AAlpha f) i j k) = calpha co /\ m' (L (ABeta f) i j k) = cbeta co
  else m' (L (AGamma f) i j k) = cgamma co.
Proof.
  intros nx ny nz reg c H WD M1 M2 M3 media wires bounds sc HA. exact (continued_scene nx ny nz reg c H WD sc (accepted_ok _ _ _ _ _ HA)).
Qed.

(** The situation occurs: point of a PML corner, with a dielectric block that
    reaches the corner of the mesh. *)
Definition c35scene : Scene := mkScene [mkBlock (mkbox 2 4 2 4 2 4) 2 63; mkBlock (mkbox 0 1 0 4 0 4) 3 63] [] [].
Example C35_nonvacuous : exists c, setupCfg 4 4 4 initBoundaryReg = Some c /\ wide c /\
  accepted c c18reg initWireReg initBoundaryReg c35scene /\
  inl (gfolim c EZ) 15 15 12 /\ off_wall c EZ XDIR 15 /\ off_wall c EZ YDIR 15 /\ off_wall c EZ ZDIR 12 /\
  nearest c EZ XDIR 15 = 11 /\ nearest c EZ YDIR 15 = 11 /\ nearest c EZ ZDIR 12 = 10.
Proof.
  eexists. split; [reflexivity|]. split; [intros []; left; vm_compute; congruence|]. split.
  { split; [|split].
    + intros b [<-|[<-|[]]]; [exists "a"%string|exists "b"%string]; exists (list_ascii_of_string "111111"); (split; [discriminate|vm_compute; reflexivity]).
    + intros l [].
    + intros s []. }
  repeat split; try (vm_compute; congruence); try (right; vm_compute; split; reflexivity).
Qed.

(** On the LO side the staggered components (normal E, tangential H) get the
    material of the SECOND mesh cell: with a block one cell thick at the XLO face
    the PML in front of it carries free space instead of the block's medium. *)
Definition c35reg : BReg := initBoundaryReg ++
  map (fun f => mkItem (FACE f) (match f with XLO => mkB BT_PML 2 | _ => mkB BT_PEC 0 end)) faces.
Theorem C35_lo_side_refuted : exists c, setupCfg 3 2 2 c35reg = Some c /\ wide c /\
  let sc := mkScene [mkBlock (mkbox 0 1 0 2 0 2) 3 63] [] [] in
  accepted c c18reg initWireReg initBoundaryReg sc /\
  inl (gfolim c EX) 2 2 2 /\ off_wall c EX XDIR 2 /\ off_wall c EX YDIR 2 /\ off_wall c EX ZDIR 2 /\
  nearest c EX XDIR 2 = 3 /\
  forall coef : nat -> Coef Z, let m' := run zArith (mediaProgPml coef c (fun _ => TW_PEC) (fun _ => BT_PEC) sc) (fun _ => 0) in
  getc m' EX 3 2 2 = cval (coef 3%nat) EX /\ getc m' EX 2 2 2 = cval (coef 0%nat) EX.
Proof.
  eexists. split; [reflexivity|]. split; [intros []; first [left; vm_compute; congruence|right; vm_compute; congruence]|]. cbv zeta. split.
  { split; [|split].
    + intros b [<-|[]]; exists "b"%string; exists (list_ascii_of_string "111111"); (split; [discriminate|vm_compute; reflexivity]).
    + intros l [].
    + intros s []. }
  do 5 (split; [first [vm_compute; repeat split; congruence|left; vm_compute; split; congruence|right; vm_compute; split; reflexivity]|]).
  intros coef. split; vm_compute; reflexivity.
Qed.

Lemma mediaProg_data {V} (coef : nat -> Coef V) c wt bt sc s : In s (mediaProgPml coef c wt bt sc) -> kind (dst s) = None.
Proof.
  assert (G : forall b n mask s, In s (setMediumOnGrid coef b n mask) -> kind (dst s) = None).
  { clear. intros b n mask s H. unfold setMediumOnGrid in H. destruct (bboxType b); try destruct H;
    apply in_flat_map in H; destruct H as (f & _ & H); apply in_nestS in H; destruct H as (i & j & k & _ & H);
    unfold setCoefBody in H; destruct (is_E f); cbn [In] in H; intuition (subst; reflexivity). }
  unfold mediaProgPml, mediaProg. rewrite !in_app_iff. intros [[H|[H|[H|[H|H]]]]|H].
  - eapply G; exact H.
  - apply in_flat_map in H. destruct H as (b & _ & H). eapply G; exact H.
  - apply in_flat_map in H. destruct H as (b & _ & H). cbv zeta in H. destruct (wt _); eapply G; exact H.
  - apply in_flat_map in H. destruct H as (b & _ & H). cbv zeta in H. destruct (bt _); try destruct H; eapply G; exact H.
  - apply in_flat_map in H. destruct H as (b & _ & H). destruct (boundaryIsPec _); try destruct H; eapply G; exact H.
  - apply in_copy in H. destruct H as (r & f & i & j & k & _ & H). unfold copyBody in H.
    destruct (match face_axis r with XDIR => _ | YDIR => _ | ZDIR => _ end) as [[i1 j1] k1].
    destruct (is_E f); cbn [In] in H; intuition (subst; reflexivity).
Qed.
Lemma last_paint_all f x y z n : forall qs ps, (forall q, In q qs -> p_medium q = n) -> (exists q, In q qs /\ covers q f x y z) ->
  last_paint f x y z (ps ++ qs) (Some n).
Proof.
  induction qs as [|q qs IH] using rev_ind; intros ps HM (q0 & I & C); [destruct I|].
  rewrite app_assoc. destruct (yee_in_dec f (p_box q) (p_incl q) x y z) as [D|D].
  - rewrite <- (HM q) by (apply in_or_app; simpl; auto). apply lp_cover. exact D.
  - apply lp_skip; [exact D|]. apply IH; [intros; apply HM; apply in_or_app; auto|].
    exists q0. split; [|exact C]. apply in_app_or in I. destruct I as [I|[<-|[]]]; [exact I|contradiction].
Qed.
Lemma wall_painted c wt bt sc face f i j k : wf c ->
  (outerSurfaceType c face = BT_PEC \/ outerSurfaceType c face = BT_PML) -> on_face c face f i j k -> inl (gfolim c f) i j k ->
  last_paint f (i - gibox c XLO) (j - gibox c YLO) (k - gibox c ZLO) (paints c wt bt sc) (Some 1%nat).
Proof.
  intros W T (E & N & P) R. unfold paints. rewrite !app_assoc. apply last_paint_all.
  - intros q Hq. apply in_flat_map in Hq. destruct Hq as (g & _ & Hq). unfold wallPaint in Hq.
    destruct (outerSurfaceType c g); cbn [In] in Hq; intuition (subst; reflexivity).
  - exists (mkPaint (wallBox c face) all_faces 1%nat). split.
    + apply in_flat_map. exists face. split; [destruct face; simpl; auto 10|]. unfold wallPaint. destruct T as [-> | ->]; simpl; auto.
    + unfold inl, gfolim, setFieldLimits in R. cfg_facts c W.
      intros a. cbv zeta. split; [|split; intros X; discriminate X].
      unfold ypos, wallBox, outerBox. cbn [p_box].
      destruct face, f; try discriminate E; cbn [fld_axis face_axis] in N; try (exfalso; apply N; reflexivity);
      destruct a; cbn [face_axis axis_eqb is_lo SpecGeom.coord face_lo face_hi staggered is_E fld_axis fieldIsInBoundary] in *; lia.
Qed.

(** ** C14, from the cards.  With the coefficients of the media as initMedia sets
    them and all fields zero at the start, the tangential E field in the outer
    plane of every face that is PEC or PML-backed is zero after every step,
    whatever the scene and the sources elsewhere. *)
Theorem C14_outer_walls : forall nx ny nz reg c, setupCfg nx ny nz reg = Some c -> wide c ->
  forall M1 M2 M3 (media : Registry M1) (wires : Registry M2) (bounds : Registry M3) sc, accepted c media wires bounds sc ->
  forall (eps0 mu0 dt : R) mreg wt bt m0, (forall l, is_state l -> m0 l = 0%R) ->
  let m := run rArith (mediaProgPml (initMedia eps0 mu0 dt mreg) c wt bt sc) m0 in
  forall face f i j k, (outerSurfaceType c face = BT_PEC \/ outerSurfaceType c face = BT_PML) ->
  on_face c face f i j k -> inl (gfolim c f) i j k -> off_mur c f i j k ->
  forall (xE xH : nat -> list (item R)),
  (forall t s, In s (flat (xE t)) \/ In s (flat (xH t)) -> exists g i' j' k', dst s = L (AF g) i' j' k' /\
       (g, i', j', k') <> (f, i, j, k)) ->
  forall n, fld (run rArith (flat (steps c xE xH 0 n)) m) f i j k = 0%R.
Proof.
  intros nx ny nz reg c H WD M1 M2 M3 media wires bounds sc HA eps0 mu0 dt mreg wt bt m0 Q m face f i j k T OF R OM xE xH HX n.
  pose proof H as W. apply setup_wf in W. pose proof (accepted_ok c media wires bounds sc HA) as SO.
  assert (E : is_E f = true) by (destruct OF; auto).
  eapply C14_pec_stays_zero; eauto. apply quiet_pecZero.
  - intros l Hl. unfold m. rewrite run_frame; [apply Q; exact Hl|].
    intros I. unfold twrites in I. apply in_map_iff in I. destruct I as (s & D & I).
    apply mediaProg_data in I. rewrite D in I. apply Hl. exact I.
  - unfold m, mediaProgPml. rewrite run_app.
    refine (copies_wall rArith c (fun a => match a with AAlpha _ => (-1)%R | _ => 0%R end) W WD (initPmlMaterialArrays c) _ (fun s I => I) _ (ABeta f) i j k _).
    + intros a i' j' k' (face' & f' & T' & O' & HAr & R').
      pose proof (wall_painted c wt bt sc face' f' i' j' k' W T' O' R') as LP.
      assert (YG : yee_in f' (ggbox c) is_lo i' j' k').
      { apply gfolim_range in R'. unfold nodeRange, halfRange in R'. cfg_facts c W.
        intros x. cbv zeta. unfold ypos. destruct f', x; cbn [face_lo face_hi is_lo SpecGeom.coord ggbox staggered is_E fld_axis axis_eqb negb fieldIsInBoundary] in *;
        repeat split; intros; try discriminate; lia. }
      pose proof (mediaProg_val rArith (initMedia eps0 mu0 dt mreg) c wt bt sc m0 f' i' j' k' _ SO YG LP) as X.
      destruct O' as (E' & _). unfold getc, cval in X. rewrite E' in X. cbn [initMedia calpha cbeta] in X. injection X as X1 X2.
      destruct HAr as [-> | ->]; assumption.
    + exists face, f. split; [exact T|]. split; [exact OF|]. split; [auto|exact R].
Qed.
Example C14_outer_walls_nonvacuous : exists c, setupCfg 3 2 2 c35reg = Some c /\ wide c /\
  accepted c c18reg initWireReg initBoundaryReg (mkScene [mkBlock (mkbox 0 1 0 2 0 2) 3 63] [] []) /\
  outerSurfaceType c XLO = BT_PML /\ on_face c XLO EY 1 2 3 /\ inl (gfolim c EY) 1 2 3 /\ off_mur c EY 1 2 3.
Proof.
  eexists. split; [reflexivity|]. split; [intros []; first [left; vm_compute; congruence|right; vm_compute; congruence]|].
  split; [split; [|split; intros ? []]; intros b [<-|[]]; exists "b"%string; exists (list_ascii_of_string "111111"); (split; [discriminate|vm_compute; reflexivity])|].
  split; [reflexivity|]. split; [vm_compute; repeat split; congruence|]. split; [vm_compute; repeat split; congruence|].
  intros g G. destruct g; vm_compute in G; congruence.
Qed.
Print Assumptions C03_accepted_box_partial.
Print Assumptions C18_last_paint_wins.
Print Assumptions C06_media_in_bounds.
Print Assumptions C35_continued_partial.
Print Assumptions C14_outer_walls.
