(** Every array access of a time step is in bounds. *)
From Coq Require Import ZArith List Bool Lia.
From Verif Require Import Types Lang LangProofs BBox Grid Pml Mur Ghost Step SpecGrid StepShape.
Import ListNotations.
Open Scope Z_scope.
Local Arguments Z.mul : simpl never.
Local Arguments Z.add : simpl never.
Local Arguments Z.sub : simpl never.
Local Arguments Z.leb : simpl never.
Local Arguments Z.ltb : simpl never.

(** the arithmetic of the extents *)
Lemma extents_arith c a :
  gobox c (face_lo a) = 1 /\
  gibox c (face_lo a) = 1 + outerSurfaceNumLayers c (face_lo a) /\
  gibox c (face_hi a) = outerSurfaceNumLayers c (face_lo a) + numLines c a /\
  gobox c (face_hi a) = outerSurfaceNumLayers c (face_lo a) + numLines c a
                        + outerSurfaceNumLayers c (face_hi a) /\
  numCells c a = gobox c (face_hi a) + 1.
Proof.
  unfold numCells. destruct a; cbn [face_lo face_hi gobox gibox face_axis]; unfold NUM_GHOST_CELLS; lia.
Qed.
Lemma layers_ge0 c f : wf c -> 0 <= outerSurfaceNumLayers c f.
Proof.
  intros W. destruct (btype_dec (outerSurfaceType c f) BT_PML) as [E|E].
  - pose proof (wf_pml c W f E). lia.
  - rewrite (wf_nopml c W f E). lia.
Qed.
Lemma layers_mur c f : wf c -> outerSurfaceType c f = BT_MUR -> outerSurfaceNumLayers c f = 0.
Proof. intros W H. apply wf_nopml; auto. rewrite H. discriminate. Qed.

(** all the arithmetic facts about one configuration, in the context *)
Ltac cfg_facts c W :=
  pose proof (extents_arith c XDIR) as (?GX1 & ?GX2 & ?GX3 & ?GX4 & ?GX5);
  pose proof (extents_arith c YDIR) as (?GY1 & ?GY2 & ?GY3 & ?GY4 & ?GY5);
  pose proof (extents_arith c ZDIR) as (?GZ1 & ?GZ2 & ?GZ3 & ?GZ4 & ?GZ5);
  pose proof (wf_lines c W XDIR) as ?NLX; pose proof (wf_lines c W YDIR) as ?NLY;
  pose proof (wf_lines c W ZDIR) as ?NLZ;
  pose proof (layers_ge0 c XLO W) as ?LXL; pose proof (layers_ge0 c XHI W) as ?LXH;
  pose proof (layers_ge0 c YLO W) as ?LYL; pose proof (layers_ge0 c YHI W) as ?LYH;
  pose proof (layers_ge0 c ZLO W) as ?LZL; pose proof (layers_ge0 c ZHI W) as ?LZH;
  cbn [face_lo face_hi] in *.

Definition within (d : Z * Z * Z) (i j k : Z) : Prop :=
  let '(nx, ny, nz) := d in 0 <= i < nx /\ 0 <= j < ny /\ 0 <= k < nz.
Lemma inb_iff d a i j k n : d a = Some n -> within n i j k -> inb d (L a i j k) = true.
Proof.
  intros H W. unfold inb. cbn [arr li lj lk]. rewrite H. destruct n as [[nx ny] nz].
  unfold within in W. rewrite !andb_true_iff, !Z.leb_le, !Z.ltb_lt. tauto.
Qed.

(** inclusion of the loop limits in the limits of the outer grid *)
Ltac unlim := unfold fplim, fmlim, gfilim, gfolim, gfglim, setFieldLimits, pbox, pmlInclude, murbox, murInclude,
   includeInnerBoundary, setBoundingBoxBoundaryFlags, getFaceOfBoundingBox, mkbox in *.

Lemma pml_lim_outer c r f i j k : wf c -> inl (fplim c r f) i j k -> inl (gfolim c f) i j k.
Proof.
  intros W. unfold inl, fplim, gfolim, setFieldLimits.
  destruct r, f; unfold pbox, pmlInclude, setBoundingBoxBoundaryFlags, mkbox;
    cbn [fieldIsInBoundary]; cfg_facts c W; lia.
Qed.
Lemma setFieldLimits_mono b b' g f i j k :
  (forall a, b' (face_lo a) <= b (face_lo a)) -> (forall a, b (face_hi a) <= b' (face_hi a)) ->
  inl (setFieldLimits b g f) i j k -> inl (setFieldLimits b' (fun _ => true) f) i j k.
Proof.
  intros Hlo Hhi. pose proof (Hlo XDIR); pose proof (Hlo YDIR); pose proof (Hlo ZDIR).
  pose proof (Hhi XDIR); pose proof (Hhi YDIR); pose proof (Hhi ZDIR).
  cbn [face_lo face_hi] in *. unfold inl, setFieldLimits.
  intros (A & B & C). 
  repeat split;
  match goal with
  | |- context [if fieldIsInBoundary f ?x then _ else _] =>
     destruct (fieldIsInBoundary f x); destruct (g x)
  end; lia.
Qed.
Lemma grid_lim_outer c f i j k : wf c -> inl (gfilim c f) i j k -> inl (gfolim c f) i j k.
Proof.
  intros W. apply setFieldLimits_mono; intros []; cfg_facts c W; cbn [face_lo face_hi]; lia.
Qed.
Lemma mur_lim_outer c face f i j k : wf c -> inl (fmlim c face f) i j k -> inl (gfolim c f) i j k.
Proof.
  intros W. apply setFieldLimits_mono; intros []; destruct face; cfg_facts c W;
  unfold murbox, getFaceOfBoundingBox, mkbox; cbn [face_lo face_hi]; lia.
Qed.

Definition nodeRange (c : Cfg) (a : Axis) (x : Z) : Prop := 1 <= x <= numCells c a - 1.
Definition halfRange (c : Cfg) (a : Axis) (x : Z) : Prop := 1 <= x <= numCells c a - 2.
(** explicit form of the limits of the outer grid *)
Lemma gfolim_range c f i j k : inl (gfolim c f) i j k <->
  (if fieldIsInBoundary f XLO then nodeRange c XDIR i else halfRange c XDIR i) /\
  (if fieldIsInBoundary f YLO then nodeRange c YDIR j else halfRange c YDIR j) /\
  (if fieldIsInBoundary f ZLO then nodeRange c ZDIR k else halfRange c ZDIR k).
Proof.
  unfold inl, gfolim, setFieldLimits, nodeRange, halfRange.
  pose proof (extents_arith c XDIR) as (?GX1 & ?GX2 & ?GX3 & ?GX4 & ?GX5).
  pose proof (extents_arith c YDIR) as (?GY1 & ?GY2 & ?GY3 & ?GY4 & ?GY5).
  pose proof (extents_arith c ZDIR) as (?GZ1 & ?GZ2 & ?GZ3 & ?GZ4 & ?GZ5).
  cbn [face_lo face_hi] in *.
  destruct f; cbn [fieldIsInBoundary]; lia.
Qed.

Ltac unstmt := unfold sinb, sreads; cbn [dst rhs sreads reads forallb app cH cHx cHy cHz cEx cEy cEz curl_Hx curl_Hy curl_Hz curl_Ex curl_Ey curl_Ez ALPHA BETA GAMMA F idex idey idez idhx idhy idhz PC zeta].

Section Bounds.
Context {V : Type}.
Implicit Type s : stmt V.

Ltac solve_inb :=
  unstmt;
  repeat (rewrite andb_true_iff; split); try reflexivity;
  (eapply inb_iff; [reflexivity|]; unfold within, dims3, dims1; lia).

Lemma updF_inb c f i j k s : wf c -> inl (gfolim c f) i j k -> In s (updF f i j k) -> sinb (dims c) s = true.
Proof.
  intros W H Hs. apply gfolim_range in H. unfold nodeRange, halfRange in H. cfg_facts c W.
  destruct f; cbn [fieldIsInBoundary] in H; destruct Hs as [<-|[]]; solve_inb.
Qed.

Lemma pmlF_inb c r f i j k s : wf c -> outerSurfaceType c r = BT_PML ->
  inl (fplim c r f) i j k -> In s (pmlF r f (fplim c r f) i j k) -> sinb (dims c) s = true.
Proof.
  intros W T H Hs. pose proof (pml_lim_outer c r f i j k W H) as HO.
  apply gfolim_range in HO. unfold nodeRange, halfRange in HO. cfg_facts c W.
  assert (PD : pmlDims c r f = let l := fplim c r f in
     Some (l XHI - l XLO + 1, l YHI - l YLO + 1, l ZHI - l ZLO + 1)).
  { unfold pmlDims. rewrite T. reflexivity. }
  unfold inl in H. set (l := fplim c r f) in *.
  destruct f; cbn [fieldIsInBoundary] in HO;
  cbn [pmlF] in Hs; unfold pmlEx, pmlEy, pmlEz, pmlHx, pmlHy, pmlHz, pmlEbody, pmlHbody in Hs;
  cbn [In] in Hs; 
  repeat match type of Hs with _ \/ _ => destruct Hs as [Hs|Hs] end; try contradiction; subst s;
  unstmt;
  repeat (rewrite andb_true_iff; split); try reflexivity;
  (eapply inb_iff; [first [exact PD | reflexivity]|]; unfold within, dims3, dims1; cbn zeta; lia).
Qed.

(** the point one cell inside a MUR face *)
Lemma mur_lim_explicit c face f i j k : wf c -> outerSurfaceType c face = BT_MUR ->
  is_E f = true -> fld_axis f <> face_axis face -> inl (fmlim c face f) i j k ->
  inl (gfolim c f) (i + inw face XDIR) (j + inw face YDIR) (k + inw face ZDIR) /\
  inl (gfolim c f) i j k.
Proof.
  intros W T E N H. split; [|eapply mur_lim_outer; eauto].
  pose proof (mur_lim_outer _ _ _ _ _ _ W H) as HO.
  pose proof (layers_mur c face W T) as LM.
  assert (B : fieldIsInBoundary f face = true).
  { destruct f, face; try discriminate E; cbn in *; solve [reflexivity|congruence|exfalso; apply N; reflexivity]. }
  destruct (fmlim_own c face f B) as [O1 O2]. unfold inl in H. 
  apply gfolim_range in HO. apply gfolim_range. unfold nodeRange, halfRange in *.
  cfg_facts c W.
  destruct face; cbn [face_axis face_lo face_hi] in *; unfold inw; cbn [axis_eqb face_axis is_lo];
  destruct f; try discriminate; cbn [fieldIsInBoundary] in *; lia.
Qed.

Lemma stE_inb c s : wf c -> stE c s -> sinb (dims c) s = true.
Proof.
  intros W H. destruct H as [r f i j k s E T Hl Hs|face f i j k s E T N Hl Hs|f i j k s E Hl Hs].
  - eapply pmlF_inb; eauto.
  - destruct (mur_lim_explicit c face f i j k W T E N Hl) as [H1 H2].
    apply gfolim_range in H1. apply gfolim_range in H2. unfold nodeRange, halfRange in *.
    unfold murBody in Hs. cbn zeta in Hs. cfg_facts c W.
    set (i1 := i + inw face XDIR) in *. set (j1 := j + inw face YDIR) in *. set (k1 := k + inw face ZDIR) in *.
    destruct f; try discriminate E; cbn [fieldIsInBoundary] in *;
    destruct Hs as [<-|[<-|[]]];
    unstmt;
    repeat (rewrite andb_true_iff; split); try reflexivity;
    first [ solve [eapply inb_iff; [reflexivity|]; unfold within, dims3, dims1; lia]
          | destruct face; reflexivity ].
  - eapply updF_inb; eauto. eapply grid_lim_outer; eauto.
Qed.
Lemma stH_inb c s : wf c -> stH c s -> sinb (dims c) s = true.
Proof.
  intros W H. destruct H as [r f i j k s E T Hl Hs|face f i j k s E T N Hl Hs|f i j k s E Hl Hs].
  - eapply pmlF_inb; eauto.
  - eapply updF_inb; eauto. eapply mur_lim_outer; eauto.
  - eapply updF_inb; eauto. eapply grid_lim_outer; eauto.
Qed.
Lemma stG_inb c b s : wf c -> stG c b s -> sinb (dims c) s = true.
Proof.
  intros W H. destruct H as [face f p q src s B E T Hp Hq Hs].
  assert (X : inb (dims c) (at_axis (AF f) (face_axis face) (ghostIdx c face) p q) = true /\
              inb (dims c) (at_axis (AF f) (face_axis face) src p q) = true).
  { assert (S : 0 <= src < numCells c (face_axis face)).
    { destruct T as [[_ ->]|[_ ->]]; cfg_facts c W; destruct face;
      unfold wrapIdx, insideIdx; cbn [is_lo face_axis face_lo face_hi]; lia. }
    assert (G : 0 <= ghostIdx c face < numCells c (face_axis face)).
    { cfg_facts c W; destruct face; unfold ghostIdx; cbn [is_lo face_axis face_lo face_hi]; lia. }
    cfg_facts c W.
    destruct face; cbn [face_axis at_axis other1 other2 face_lo face_hi] in *; split;
     (eapply inb_iff; [reflexivity|]; unfold within, dims3; lia). }
  destruct X as [X1 X2].
  destruct Hs as [->|[-> _]]; unfold sinb; cbn [dst rhs sreads reads forallb cp cpneg];
    rewrite X1, X2; reflexivity.
Qed.

Lemma coreStep_inb c s : wf c -> In s (flat (coreStep (V:=V) c)) -> sinb (dims c) s = true.
Proof.
  intros W. unfold coreStep, timeStep. rewrite !flat_app, !in_app_iff. cbn [flat flat_map].
  intros [H|[[]|[H|[H|[[]|H]]]]];
  eauto using stE_inb, stH_inb, stG_inb, phaseE_shape, phaseH_shape, ghostE_shape, ghostH_shape.
Qed.
End Bounds.
