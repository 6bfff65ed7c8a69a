(** Proofs about the material assignment. *)
From Coq Require Import ZArith List Bool String Ascii Lia.
From Verif Require Import Types Lang LangProofs BBox Grid Setup SpecGrid SpecGeom SetupProofs BBoxProofs Pml Step StepShape StepBounds Media SpecMedia.
Import ListNotations.
Open Scope Z_scope.
Local Arguments Z.mul : simpl never.
Local Arguments Z.add : simpl never.
Local Arguments Z.sub : simpl never.

Section MP.
Context {V : Type} (A : Arith V).

Lemma run_const ss (g : Loc -> V) m l : (forall s, In s ss -> rhs s = Cst (g (dst s))) ->
  run A ss m l = if in_dec loc_dec l (twrites ss) then g l else m l.
Proof.
  revert m. induction ss as [|s ss IH]; intros m H; [reflexivity|].
  rewrite run_cons, IH by (intros; apply H; simpl; auto).
  destruct (in_dec loc_dec l (twrites ss)) as [I|N].
  - destruct (in_dec loc_dec l (twrites (s :: ss))) as [_|N']; [reflexivity|]. exfalso. apply N'. simpl. auto.
  - unfold run1. rewrite (H s) by (simpl; auto). cbn [eval].
    destruct (loc_dec l (dst s)) as [->|ND].
    + rewrite upd_same. destruct (in_dec _ _ _) as [_|N']; [reflexivity|]. exfalso. apply N'. simpl. auto.
    + rewrite upd_other by auto. destruct (in_dec _ _ _) as [I|_]; [|reflexivity].
      simpl in I. destruct I as [I|I]; [congruence|contradiction].
Qed.

Lemma in_nestS lim (body : Z -> Z -> Z -> list (stmt V)) s :
  In s (nestS lim body) <-> exists i j k, inl lim i j k /\ In s (body i j k).
Proof.
  unfold nestS, inl. split.
  - intros Hs. apply in_for in Hs. destruct Hs as [i [Hi Hs]]. apply in_for in Hs. destruct Hs as [j [Hj Hs]].
    apply in_for in Hs. destruct Hs as [k [Hk Hs]]. exists i, j, k. auto.
  - intros (i & j & k & (Hi & Hj & Hk) & Hs). apply in_for. exists i. split; auto.
    apply in_for. exists j. split; auto. apply in_for. eauto.
Qed.

(** the coefficients stored for one field point *)
Definition getc (m : mem V) (f : Fld) (i j k : Z) : V * V :=
  if is_E f then (m (L (AAlpha f) i j k), m (L (ABeta f) i j k))
  else (m (L (AGamma f) i j k), m (L (AGamma f) i j k)).
Definition cval (co : Coef V) (f : Fld) : V * V :=
  if is_E f then (calpha co, cbeta co) else (cgamma co, cgamma co).

Variable coef : nat -> Coef V.

Lemma in_flds f : In f flds. Proof. destruct f; simpl; auto 10. Qed.

Lemma point_covers_nothing b incl f i j k : bboxType b = BB_POINT -> ~ yee_in f b incl i j k.
Proof.
  rewrite bboxType_ndeg. unfold ndeg, degenerate, axes. cbn [filter face_lo face_hi].
  destruct (Z.eqb_spec (b XLO) (b XHI)), (Z.eqb_spec (b YLO) (b YHI)), (Z.eqb_spec (b ZLO) (b ZHI));
    cbn [List.length]; try discriminate. intros _ Y.
  pose proof (Y XDIR) as (X & _). pose proof (Y YDIR) as (Y' & _). pose proof (Y ZDIR) as (Z' & _).
  unfold ypos, staggered in *. cbn [face_lo face_hi coord] in *.
  destruct f; cbn in *; lia.
Qed.

Definition setg (co : Coef V) (l : Loc) : V :=
  match arr l with AAlpha _ => calpha co | ABeta _ => cbeta co | _ => cgamma co end.
Definition isCoefOf (a : Arr) (f : Fld) : Prop :=
  (is_E f = true /\ (a = AAlpha f \/ a = ABeta f)) \/ (is_E f = false /\ a = AGamma f).

Lemma setMedium_stmt b n mask s : In s (setMediumOnGrid coef b n mask) <->
  bboxType b <> BB_POINT /\ exists f i j k, inl (setFieldLimits b (faceMask2boolArray mask) f) i j k /\
    In s (setCoefBody (coef n) f i j k).
Proof.
  unfold setMediumOnGrid. destruct (bboxType b) eqn:T.
  1: { split; [intros []|intros [H _]; congruence]. }
  all: (split;
    [intros H; split; [discriminate|]; apply in_flat_map in H; destruct H as [f [_ H]]; apply in_nestS in H;
     destruct H as (i & j & k & H); eauto
    |intros (_ & f & i & j & k & H); apply in_flat_map; exists f; split; [apply in_flds|];
     apply in_nestS; eauto]).
Qed.

Lemma setMedium_writes b n mask a f i j k : isCoefOf a f ->
  (In (L a i j k) (twrites (setMediumOnGrid coef b n mask)) <->
   yee_in f b (faceMask2boolArray mask) i j k).
Proof.
  intros HA. unfold twrites. rewrite in_map_iff. split.
  - intros [s [D H]]. apply setMedium_stmt in H. destruct H as (_ & f' & i' & j' & k' & Hl & Hs).
    apply (proj1 (setFieldLimits_spec f b _ i j k)).
    unfold setCoefBody in Hs. destruct (is_E f') eqn:E'; cbn [In] in Hs;
    repeat (destruct Hs as [Hs|Hs]; [subst s; cbn [dst] in D; injection D as <- <- <- <-|]); try contradiction;
    destruct HA as [[E [X|X]]|[E X]]; try discriminate X; injection X as <-; exact Hl.
  - intros Y. assert (NP : bboxType b <> BB_POINT) by (intros T; exact (point_covers_nothing b _ f i j k T Y)).
    apply (proj2 (setFieldLimits_spec f b _ i j k)) in Y.
    destruct HA as [[E [-> | ->]]|[E ->]].
    + exists (Asg (L (AAlpha f) i j k) (Cst (calpha (coef n)))). split; [reflexivity|].
      apply setMedium_stmt. split; auto. exists f, i, j, k. split; [exact Y|]. unfold setCoefBody. rewrite E. simpl; auto.
    + exists (Asg (L (ABeta f) i j k) (Cst (cbeta (coef n)))). split; [reflexivity|].
      apply setMedium_stmt. split; auto. exists f, i, j, k. split; [exact Y|]. unfold setCoefBody. rewrite E. simpl; auto.
    + exists (Asg (L (AGamma f) i j k) (Cst (cgamma (coef n)))). split; [reflexivity|].
      apply setMedium_stmt. split; auto. exists f, i, j, k. split; [exact Y|]. unfold setCoefBody. rewrite E. simpl; auto.
Qed.

Lemma setMedium_val b n mask m a f i j k : isCoefOf a f ->
  (yee_in f b (faceMask2boolArray mask) i j k ->
     run A (setMediumOnGrid coef b n mask) m (L a i j k) = setg (coef n) (L a i j k)) /\
  (~ yee_in f b (faceMask2boolArray mask) i j k ->
     run A (setMediumOnGrid coef b n mask) m (L a i j k) = m (L a i j k)).
Proof.
  intros HA. rewrite (run_const _ (setg (coef n))).
  2: { intros s H. apply setMedium_stmt in H. destruct H as (_ & f' & i' & j' & k' & _ & Hs).
       unfold setCoefBody in Hs. destruct (is_E f'); cbn [In] in Hs;
       repeat (destruct Hs as [Hs|Hs]; [subst s; reflexivity|]); contradiction. }
  destruct (in_dec loc_dec _ _) as [I|N]; rewrite (setMedium_writes b n mask a f) in * by exact HA; split; intros; tauto.
Qed.

Lemma setMedium_getc b n mask m f i j k :
  (yee_in f b (faceMask2boolArray mask) i j k ->
     getc (run A (setMediumOnGrid coef b n mask) m) f i j k = cval (coef n) f) /\
  (~ yee_in f b (faceMask2boolArray mask) i j k ->
     getc (run A (setMediumOnGrid coef b n mask) m) f i j k = getc m f i j k).
Proof.
  unfold getc, cval. destruct (is_E f) eqn:E.
  - destruct (setMedium_val b n mask m (AAlpha f) f i j k) as [A1 A2]; [left; auto|].
    destruct (setMedium_val b n mask m (ABeta f) f i j k) as [B1 B2]; [left; auto|].
    split; intros H; [rewrite A1, B1|rewrite A2, B2]; auto.
  - destruct (setMedium_val b n mask m (AGamma f) f i j k) as [A1 A2]; [right; auto|].
    split; intros H; [rewrite A1|rewrite A2]; auto.
Qed.

(** a paint in grid coordinates *)
Definition paintProg (c : Cfg) (p : Paint) (mask : Z) : list (stmt V) :=
  setMediumOnGrid coef (offsetBoundingBox (p_box p) (gibox c)) (p_medium p) mask.

Lemma yee_in_ext f b b' incl incl' i j k : (forall g, b g = b' g) -> (forall g, incl g = incl' g) ->
  (yee_in f b incl i j k <-> yee_in f b' incl' i j k).
Proof.
  intros HB HI. unfold yee_in. split; intros H a; specialize (H a); rewrite ?HB, ?HI in *; auto.
Qed.
Lemma yee_in_offset f b incl o i j k :
  yee_in f (offsetBoundingBox b o) incl i j k <-> yee_in f b incl (i - o XLO) (j - o YLO) (k - o ZLO).
Proof.
  rewrite <- !setFieldLimits_spec. unfold in_lim, setFieldLimits, offsetBoundingBox.
  destruct f; cbn [fieldIsInBoundary];
  destruct (incl XLO), (incl XHI), (incl YLO), (incl YHI), (incl ZLO), (incl ZHI); lia.
Qed.

(** programs that act as a list of paints *)
Definition pointAt (c : Cfg) (i j k : Z) : Z * Z * Z := (i - gibox c XLO, j - gibox c YLO, k - gibox c ZLO).
Definition acts (c : Cfg) (p : list (stmt V)) (ps : list Paint) : Prop :=
  forall m f i j k r,
    last_paint f (i - gibox c XLO) (j - gibox c YLO) (k - gibox c ZLO) ps r ->
    getc (run A p m) f i j k = match r with Some n => cval (coef n) f | None => getc m f i j k end.

Lemma yee_in_dec f b incl i j k : {yee_in f b incl i j k} + {~ yee_in f b incl i j k}.
Proof.
  destruct (Z_le_dec (setFieldLimits b incl f XLO) i), (Z_le_dec i (setFieldLimits b incl f XHI)),
   (Z_le_dec (setFieldLimits b incl f YLO) j), (Z_le_dec j (setFieldLimits b incl f YHI)),
   (Z_le_dec (setFieldLimits b incl f ZLO) k), (Z_le_dec k (setFieldLimits b incl f ZHI));
  try (right; intros Y; apply (proj2 (setFieldLimits_spec f b incl i j k)) in Y; unfold in_lim in Y; tauto).
  left. apply (proj1 (setFieldLimits_spec f b incl i j k)). unfold in_lim. tauto.
Qed.
Lemma last_paint_total f x y z ps : exists r, last_paint f x y z ps r.
Proof.
  induction ps as [|p ps IH] using rev_ind; [eexists; constructor|].
  destruct (yee_in_dec f (p_box p) (p_incl p) x y z) as [C|C].
  - eexists. apply lp_cover. exact C.
  - destruct IH as [r IH]. exists r. apply lp_skip; auto.
Qed.
Lemma last_paint_inv f x y z ps p r : last_paint f x y z (ps ++ [p]) r ->
  (covers p f x y z /\ r = Some (p_medium p)) \/ (~ covers p f x y z /\ last_paint f x y z ps r).
Proof.
  intros H. inversion H as [E|ps' p' C E|ps' p' r' C H' E].
  - symmetry in E. destruct ps; discriminate E.
  - apply app_inj_tail in E. destruct E as [-> ->]. auto.
  - apply app_inj_tail in E. destruct E as [-> ->]. auto.
Qed.
Lemma last_paint_app f x y z ps qs r r' : last_paint f x y z ps r -> last_paint f x y z qs r' ->
  last_paint f x y z (ps ++ qs) (match r' with Some n => Some n | None => r end).
Proof.
  intros H1 H2. induction H2.
  - rewrite app_nil_r. exact H1.
  - rewrite app_assoc. apply lp_cover. exact H.
  - rewrite app_assoc. apply lp_skip; auto.
Qed.
Lemma last_paint_fun f x y z ps : forall r r', last_paint f x y z ps r -> last_paint f x y z ps r' -> r = r'.
Proof.
  induction ps as [|p ps IH] using rev_ind; intros r r' H1 H2.
  - inversion H1 as [|? ? ? E|? ? ? ? ? E]; [|destruct ps; discriminate E|destruct ps; discriminate E].
    inversion H2 as [|? ? ? E|? ? ? ? ? E]; [reflexivity|destruct ps; discriminate E|destruct ps; discriminate E].
  - apply last_paint_inv in H1. apply last_paint_inv in H2.
    destruct H1 as [[C1 ->]|[C1 H1]], H2 as [[C2 ->]|[C2 H2]]; try contradiction; eauto.
Qed.
Lemma acts_nil c : acts c [] [].
Proof.
  intros m f i j k r H. inversion H as [E|? ? ? E|? ? ? ? ? E]; [reflexivity|destruct ps; discriminate E|destruct ps; discriminate E].
Qed.
Lemma acts_app c p q ps qs : acts c p ps -> acts c q qs -> acts c (p ++ q) (ps ++ qs).
Proof.
  intros HP HQ m f i j k r H.
  destruct (last_paint_total f (i - gibox c XLO) (j - gibox c YLO) (k - gibox c ZLO) ps) as [r1 H1].
  destruct (last_paint_total f (i - gibox c XLO) (j - gibox c YLO) (k - gibox c ZLO) qs) as [r2 H2].
  pose proof (last_paint_fun _ _ _ _ _ _ _ H (last_paint_app _ _ _ _ _ _ _ _ H1 H2)) as ->.
  rewrite run_app. rewrite (HQ _ _ _ _ _ _ H2). destruct r2; [reflexivity|]. apply HP. exact H1.
Qed.
Lemma acts_one c p mask : (forall g, p_incl p g = faceMask2boolArray mask g) ->
  forall b, (forall g, b g = offsetBoundingBox (p_box p) (gibox c) g) ->
  acts c (setMediumOnGrid coef b (p_medium p) mask) [p].
Proof.
  intros HI b HB m f i j k r H. change [p] with ([] ++ [p]) in H. apply last_paint_inv in H.
  destruct (setMedium_getc b (p_medium p) mask m f i j k) as [S1 S2].
  assert (X : covers p f (i - gibox c XLO) (j - gibox c YLO) (k - gibox c ZLO) <->
              yee_in f b (faceMask2boolArray mask) i j k).
  { unfold covers. rewrite <- yee_in_offset. symmetry. apply yee_in_ext; auto. }
  destruct H as [[C ->]|[C H]].
  - apply S1. apply X. exact C.
  - inversion H as [E|? ? ? E|? ? ? ? ? E]; [|destruct ps; discriminate E|destruct ps; discriminate E].
    apply S2. rewrite <- X. exact C.
Qed.
Lemma acts_flat_map {T} c (g : T -> list (stmt V)) (h : T -> list Paint) l :
  (forall x, In x l -> acts c (g x) (h x)) -> acts c (flat_map g l) (flat_map h l).
Proof.
  induction l as [|x l IH]; intros H; [apply acts_nil|]. cbn [flat_map]. apply acts_app.
  - apply H; simpl; auto.
  - apply IH. intros; apply H; simpl; auto.
Qed.
Lemma flat_map_single {T U} (h : T -> U) l : flat_map (fun b => [h b]) l = map h l.
Proof. induction l; cbn [flat_map map app]; congruence. Qed.
Lemma mask_all g : all_faces g = faceMask2boolArray FACE_MASK_ALL g.
Proof. destruct g; reflexivity. Qed.

Lemma wall_box c face g :
  getFaceOfBoundingBox (gobox c) face g = offsetBoundingBox (wallBox c face) (gibox c) g.
Proof.
  unfold wallBox, outerBox, getFaceOfBoundingBox, offsetBoundingBox, gobox, gibox, NUM_GHOST_CELLS, mkbox.
  destruct face, g; cbn [axis_eqb face_axis is_lo face_lo face_hi]; lia.
Qed.

Lemma mediaProg_acts c wt bt sc : scene_ok c sc ->
  acts c (initBlocks coef c (sc_blocks sc) ++ initLines coef c wt (sc_lines sc)
          ++ initInternalSurfaces coef c bt (sc_surfs sc) ++ initExternalPecPmcSurfaces coef c) (paints c wt bt sc).
Proof.
  intros (HB & _ & _). unfold paints. apply acts_app; [|apply acts_app; [|apply acts_app]].
  - replace (map blockPaint (sc_blocks sc)) with (flat_map (fun b => [blockPaint b]) (sc_blocks sc))
      by apply flat_map_single.
    apply acts_flat_map. intros b Hb.
    change (medium_b b) with (p_medium (blockPaint b)). apply acts_one; [|reflexivity].
    intros g. symmetry. change (isFaceActive (mask_b b) g = Z.testbit (mask_b b) (face_bit g)).
    apply isFaceActive_bit. apply HB; auto.
  - replace (map (linePaint wt) (sc_lines sc)) with (flat_map (fun b => [linePaint wt b]) (sc_lines sc))
      by apply flat_map_single.
    apply acts_flat_map. intros l Hl. cbv zeta. 
    assert (X : match wt (wire_l l) with
      | TW_PEC => setMediumOnGrid coef (offsetBoundingBox (bbox_l l) (gibox c)) MT_PEC_num FACE_MASK_ALL
      | TW_FREE_SPACE => setMediumOnGrid coef (offsetBoundingBox (bbox_l l) (gibox c)) MT_FREE_SPACE_num FACE_MASK_ALL
      end = setMediumOnGrid coef (offsetBoundingBox (bbox_l l) (gibox c)) (p_medium (linePaint wt l)) FACE_MASK_ALL)
      by (unfold linePaint; destruct (wt (wire_l l)); reflexivity).
    rewrite X. apply acts_one; [exact mask_all|reflexivity].
  - apply acts_flat_map. intros s Hs. cbv zeta. unfold surfPaint.
    destruct (bt (boundary_s s)); try apply acts_nil.
    + refine (acts_one c (mkPaint (bbox_s s) all_faces 1) FACE_MASK_ALL mask_all _ _). reflexivity.
    + refine (acts_one c (mkPaint (bbox_s s) all_faces 0) FACE_MASK_ALL mask_all _ _). reflexivity.
    + refine (acts_one c (mkPaint (bbox_s s) all_faces 1) FACE_MASK_ALL mask_all _ _). reflexivity.
  - apply acts_flat_map. intros face _. unfold wallPaint, boundaryIsPec.
    destruct (outerSurfaceType c face); try apply acts_nil;
    refine (acts_one c (mkPaint (wallBox c face) all_faces 1) FACE_MASK_ALL mask_all _ _); apply wall_box.
Qed.

(** ** C18 *)
Lemma mediaProg_val c wt bt sc m f i j k r : scene_ok c sc ->
  yee_in f (ggbox c) is_lo i j k ->
  last_paint f (i - gibox c XLO) (j - gibox c YLO) (k - gibox c ZLO) (paints c wt bt sc) r ->
  getc (run A (mediaProg coef c wt bt sc) m) f i j k = cval (coef (match r with Some n => n | None => 0%nat end)) f.
Proof.
  intros HS HG HL. unfold mediaProg. rewrite run_app. rewrite (mediaProg_acts c wt bt sc HS _ _ _ _ _ _ HL).
  destruct r; [reflexivity|]. unfold initMediaArrays. apply setMedium_getc.
  eapply yee_in_ext; [| |exact HG]; [reflexivity|]. intros []; reflexivity.
Qed.

(** ** Bounds *)
Definition fits (c : Cfg) (b : BBox) : Prop :=
  forall a, gobox c (face_lo a) <= b (face_lo a) /\ b (face_hi a) <= gobox c (face_hi a).
Lemma setMedium_inb c b n mask s : wf c -> fits c b ->
  In s (setMediumOnGrid coef b n mask) -> sinb (dims c) s = true.
Proof.
  intros W HB H. apply setMedium_stmt in H. destruct H as (_ & f & i & j & k & Hl & Hs).
  assert (R : inl (gfolim c f) i j k).
  { unfold gfolim, inl, setFieldLimits in *. pose proof (HB XDIR) as BX. pose proof (HB YDIR) as BY. pose proof (HB ZDIR) as BZ.
    cbn [face_lo face_hi] in *.
    destruct f; cbn [fieldIsInBoundary] in *;
    repeat match goal with H : context [if faceMask2boolArray mask ?x then _ else _] |- _ => destruct (faceMask2boolArray mask x) end; lia. }
  apply gfolim_range in R. unfold nodeRange, halfRange in R.
  unfold setCoefBody in Hs. destruct f; cbn [is_E In] in Hs, R;
  repeat (destruct Hs as [Hs|Hs]; [subst s; unfold sinb; cbn [dst sreads rhs reads forallb]; rewrite andb_true_r;
     apply (inb_iff _ _ _ _ _ (dims3 c)); [reflexivity|]; unfold within, dims3; cbn [fieldIsInBoundary face_lo] in R; lia|]); contradiction.
Qed.

Lemma initMediaArrays_inb c s : wf c -> In s (initMediaArrays coef c) -> sinb (dims c) s = true.
Proof.
  intros W H. unfold initMediaArrays in H. apply setMedium_stmt in H. destruct H as (_ & f & i & j & k & Hl & Hs).
  assert (R : within (dims3 c) i j k).
  { unfold within, dims3, numCells, inl, setFieldLimits in *. cfg_facts c W.
    change (faceMask2boolArray (FACE_MASKS XLO + FACE_MASKS YLO + FACE_MASKS ZLO)) with (faceMask2boolArray 42) in Hl.
    assert (M : forall g, faceMask2boolArray 42 g = is_lo g) by (intros []; reflexivity).
    rewrite !M in Hl. cbn [is_lo] in Hl. unfold ggbox, NUM_GHOST_CELLS in *.
    destruct f; cbn [fieldIsInBoundary face_hi face_lo] in *; lia. }
  unfold setCoefBody in Hs. destruct f; cbn [is_E In] in Hs;
  repeat (destruct Hs as [Hs|Hs]; [subst s; unfold sinb; cbn [dst sreads rhs reads forallb]; rewrite andb_true_r;
     apply (inb_iff _ _ _ _ _ (dims3 c)); [reflexivity|exact R]|]); contradiction.
Qed.
Lemma fits_mesh c b : wf c -> in_mesh_box c b -> fits c (offsetBoundingBox b (gibox c)).
Proof.
  intros W H a. specialize (H a). cfg_facts c W.
  destruct a; unfold offsetBoundingBox; cbn [face_lo face_hi] in *; lia.
Qed.
Lemma fits_wall c face : wf c -> fits c (getFaceOfBoundingBox (gobox c) face).
Proof.
  intros W a. cfg_facts c W. destruct face, a; unfold getFaceOfBoundingBox, mkbox; cbn [face_lo face_hi]; lia.
Qed.

(** ** Copies into the PML *)
Lemma in_copy c s : In s (initPmlMaterialArrays (V:=V) c) <-> exists r f i j k,
  inl (fpmlim c r f) i j k /\ In s (copyBody c r f i j k).
Proof.
  unfold initPmlMaterialArrays. rewrite in_flat_map. split.
  - intros [r [_ H]]. apply in_flat_map in H. destruct H as [f [_ H]]. apply in_nestS in H.
    destruct H as (i & j & k & H). exists r, f, i, j, k. exact H.
  - intros (r & f & i & j & k & H). exists r. split; [destruct r; simpl; auto 10|].
    apply in_flat_map. exists f. split; [apply in_flds|]. apply in_nestS. eauto.
Qed.
Lemma fpmlim_range c r f i j k : wf c -> inl (fpmlim c r f) i j k ->
  inl (gfolim c f) i j k /\ outerSurfaceNumLayers c r <> 0.
Proof.
  intros W. unfold inl, fpmlim, gfolim, setFieldLimits.
  destruct r, f; unfold pbox, copyInclude, mkbox;
    cbn [fieldIsInBoundary face_axis axis_eqb negb]; cfg_facts c W; lia.
Qed.
Lemma copy_inb c (s : stmt V) : wf c -> In s (initPmlMaterialArrays c) -> sinb (dims c) s = true.
Proof.
  intros W H. apply in_copy in H. destruct H as (r & f & i & j & k & Hl & Hs).
  apply (fpmlim_range c r f i j k W) in Hl. destruct Hl as [R _].
  apply gfolim_range in R. unfold nodeRange, halfRange in R. cfg_facts c W. unfold numCells, NUM_GHOST_CELLS in *.
  unfold copyBody, copyFrom in Hs.
  destruct r, f; cbn [is_E face_axis In is_lo fieldIsInBoundary face_lo face_hi] in Hs, R;
  (repeat (destruct Hs as [Hs|Hs];
   [subst s; unfold sinb; cbn [dst sreads rhs reads forallb app];
    rewrite !andb_true_iff; repeat split;
    (apply (inb_iff _ _ _ _ _ (dims3 c)); [reflexivity|unfold within, dims3, numCells, NUM_GHOST_CELLS; cbn [face_lo face_hi]; lia])|]);
   contradiction).
Qed.

Lemma mediaProg_inb c wt bt sc (s : stmt V) : wf c -> scene_ok c sc ->
  In s (mediaProgPml coef c wt bt sc) -> sinb (dims c) s = true.
Proof.
  intros W (HB & HL & HS) H. unfold mediaProgPml, mediaProg in H. rewrite !in_app_iff in H.
  destruct H as [[H|[H|[H|[H|H]]]]|H].
  - apply initMediaArrays_inb; auto.
  - apply in_flat_map in H. destruct H as [b [Hb H]]. eapply setMedium_inb; eauto. apply fits_mesh; auto. apply HB; auto.
  - apply in_flat_map in H. destruct H as [l [Hb H]]. cbv zeta in H. destruct (wt (wire_l l));
    (eapply setMedium_inb; [exact W| |exact H]; apply fits_mesh; auto).
  - apply in_flat_map in H. destruct H as [l [Hb H]]. cbv zeta in H. destruct (bt (boundary_s l)); try destruct H;
    (eapply setMedium_inb; [exact W| |exact H]; apply fits_mesh; auto).
  - apply in_flat_map in H. destruct H as [face [_ H]]. destruct (boundaryIsPec _); [|destruct H].
    eapply setMedium_inb; [exact W| |exact H]. apply fits_wall; auto.
  - apply copy_inb; auto.
Qed.

(** *** Walls stay PEC *)
Definition isWall (c : Cfg) (a : Arr) (i j k : Z) : Prop :=
  exists face f, (outerSurfaceType c face = BT_PEC \/ outerSurfaceType c face = BT_PML) /\ on_face c face f i j k /\
    (a = AAlpha f \/ a = ABeta f) /\ inl (gfolim c f) i j k.

(** an axis with a PML on its LO face has at least two cells *)
Definition wide (c : Cfg) : Prop := forall a, 3 <= numLines c a \/ outerSurfaceType c (face_lo a) <> BT_PML.
Lemma copy_wall c r f i j k (s : stmt V) : wf c -> wide c -> inl (fpmlim c r f) i j k -> In s (copyBody c r f i j k) ->
  isWall c (arr (dst s)) (li (dst s)) (lj (dst s)) (lk (dst s)) ->
  exists i' j' k', rhs s = Rd (L (arr (dst s)) i' j' k') /\ isWall c (arr (dst s)) i' j' k'.
Proof.
  intros W WD Hl Hs (face & f' & T & (E & N & P) & HA & R).
  assert (E2 : f' = f /\ li (dst s) = i /\ lj (dst s) = j /\ lk (dst s) = k /\ is_E f = true).
  { unfold copyBody in Hs. destruct (match face_axis r with XDIR => _ | YDIR => _ | ZDIR => _ end) as [[i1 j1] k1].
    destruct (is_E f) eqn:EF; cbn [In] in Hs.
    - repeat (destruct Hs as [Hs|Hs]; [subst s; cbn [dst arr li lj lk] in *; destruct HA as [HA|HA]; try discriminate HA; injection HA as ->; auto|]); contradiction.
    - repeat (destruct Hs as [Hs|Hs]; [subst s; cbn [dst arr li lj lk] in *; destruct HA as [HA|HA]; discriminate HA|]); contradiction. }
  destruct E2 as (-> & EI & EJ & EK & EE). rewrite EI, EJ, EK in *. clear EI EJ EK.
  set (n := copyFrom c r f).
  set (p' := match face_axis r with XDIR => (n, j, k) | YDIR => (i, n, k) | ZDIR => (i, j, n) end).
  exists (fst (fst p')), (snd (fst p')), (snd p').
  split.
  { unfold copyBody in Hs. fold n in Hs. fold p' in Hs. destruct p' as [[i1 j1] k1]. rewrite EE in Hs. cbn [In] in Hs.
    repeat (destruct Hs as [Hs|Hs]; [subst s; reflexivity|]); contradiction. }
  exists face, f. split; [exact T|].
  assert (LN : outerSurfaceNumLayers c r <> 0) by (eapply fpmlim_range; eauto).
  assert (WR : is_lo r = true -> 3 <= numLines c (face_axis r)).
  { intros LO. destruct (WD (face_axis r)) as [X|X]; [exact X|exfalso]. apply LN. apply wf_nopml; auto.
    destruct r; try discriminate LO; exact X. }
  assert (Q : on_face c face f (fst (fst p')) (snd (fst p')) (snd p') /\ inl (gfolim c f) (fst (fst p')) (snd (fst p')) (snd p')).
  { apply gfolim_range in R. unfold nodeRange, halfRange in R.
    unfold inl, fpmlim, setFieldLimits in Hl.
    rewrite gfolim_range. unfold nodeRange, halfRange. unfold on_face, p', n, copyFrom.
    destruct r, f; try discriminate EE; unfold pbox, copyInclude, mkbox in Hl;
    cbn [fst snd fieldIsInBoundary face_axis axis_eqb negb is_lo] in *; cfg_facts c W;
    (try specialize (WR eq_refl));
    (destruct face; cbn [fld_axis face_axis SpecGeom.coord] in N, P |- *; try (exfalso; lia); try (exfalso; apply N; reflexivity);
     repeat split; try assumption; lia). }
  destruct Q. split; auto.
Qed.

Lemma copies_wall c v : wf c -> wide c -> forall ss (m : mem V),
  (forall s, In s ss -> In s (initPmlMaterialArrays c)) ->
  (forall a i j k, isWall c a i j k -> m (L a i j k) = v a) ->
  forall a i j k, isWall c a i j k -> run A ss m (L a i j k) = v a.
Proof.
  intros W WD. induction ss as [|s ss IH]; intros m HI HM a i j k HW; [apply HM; auto|].
  rewrite run_cons. apply IH; auto; [intros; apply HI; simpl; auto|].
  intros a' i' j' k' HW'. unfold run1.
  destruct (loc_dec (L a' i' j' k') (dst s)) as [Q|Q]; [|rewrite upd_other by auto; apply HM; auto].
  rewrite Q, upd_same.
  assert (HS : In s (initPmlMaterialArrays c)) by (apply HI; simpl; auto).
  apply in_copy in HS. destruct HS as (r & f & i1 & j1 & k1 & Hl & Hs).
  destruct (copy_wall c r f i1 j1 k1 s W WD Hl Hs) as (i2 & j2 & k2 & RH & HW2).
  { rewrite <- Q. exact HW'. }
  rewrite RH. cbn [eval]. replace a' with (arr (dst s)) by (rewrite <- Q; reflexivity). apply HM. exact HW2.
Qed.
End MP.
