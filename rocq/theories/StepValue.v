(** What one time step computes, as equations between the state before and the
    state after it (any arithmetic). *)
From Coq Require Import ZArith List Bool Lia.
From Verif Require Import Types Lang LangProofs BBox Grid Pml Mur Ghost Step SpecGrid
  StepShape StepBounds StepCount StepOnce SpecCone.
Import ListNotations.
Open Scope Z_scope.
Local Arguments Z.mul : simpl never.
Local Arguments Z.add : simpl never.
Local Arguments Z.sub : simpl never.

Section Once.
Context {V : Type} (A : Arith V).

Lemma writes_0_frame ss (m : mem V) l : writes l ss = 0%nat -> run A ss m l = m l.
Proof. intros H. apply run_frame. unfold writes in H. apply count_occ_not_In in H. auto. Qed.

(** a location written once, by a statement that reads only itself and
    locations the list does not write *)
Lemma run_once ss (m : mem V) s : In s ss -> writes (dst s) ss = 1%nat ->
  (forall l, In l (sreads s) -> l = dst s \/ writes l ss = 0%nat) ->
  run A ss m (dst s) = eval A m (rhs s).
Proof.
  intros Hin HW HR. apply in_split in Hin. destruct Hin as (p & q & ->).
  rewrite writes_app, writes_cons in HW. destruct (loc_dec (dst s) (dst s)) as [_|]; [|congruence].
  cbn [b2n] in HW.
  rewrite run_app, run_cons, writes_0_frame by lia. unfold run1. rewrite upd_same.
  apply eval_ext. intros l Hl. apply writes_0_frame.
  destruct (HR l Hl) as [->|HZ]; [lia|]. rewrite writes_app in HZ. lia.
Qed.
End Once.

Section Kinds.
Context {V : Type}.
Implicit Type s : stmt V.

Lemma stE_kind c s : stE c s -> kind (dst s) = Some true.
Proof.
  intros H. destruct H as [r g i j k s Eg T Hl Hs|face g i j k s Eg T N Hl Hs|g i j k s Eg Hl Hs].
  - destruct g; try discriminate Eg; cbn [pmlF] in Hs;
    unfold pmlEx, pmlEy, pmlEz, pmlEbody in Hs; cbn [In] in Hs;
    repeat (destruct Hs as [Hs|Hs]; [subst s; reflexivity|]); contradiction.
  - unfold murBody in Hs; cbn [In] in Hs.
    destruct Hs as [<-|[<-|[]]]; cbn; congruence.
  - destruct g; try discriminate Eg; destruct Hs as [<-|[]]; reflexivity.
Qed.
Lemma stH_kind c s : stH c s -> kind (dst s) = Some false.
Proof.
  intros H. destruct H as [r g i j k s Eg T Hl Hs|face g i j k s Eg T N Hl Hs|g i j k s Eg Hl Hs].
  - destruct g; try discriminate Eg; cbn [pmlF] in Hs;
    unfold pmlHx, pmlHy, pmlHz, pmlHbody in Hs; cbn [In] in Hs;
    repeat (destruct Hs as [Hs|Hs]; [subst s; reflexivity|]); contradiction.
  - destruct g; try discriminate Eg; destruct Hs as [<-|[]]; reflexivity.
  - destruct g; try discriminate Eg; destruct Hs as [<-|[]]; reflexivity.
Qed.
Lemma stG_kind c b s : stG c b s -> kind (dst s) = Some b.
Proof.
  intros H. destruct H as [face f p q src s B E T Hp Hq Hs].
  assert (D : dst s = at_axis (AF f) (face_axis face) (ghostIdx c face) p q) by (destruct Hs as [->|[-> _]]; reflexivity).
  rewrite D. destruct face; cbn; congruence.
Qed.

Lemma phaseE_other c l : kind l <> Some true -> writes l (flat (phaseE (V:=V) c)) = 0%nat.
Proof.
  intros K. apply flat_zero. intros s Hs X. apply phaseE_shape in Hs. apply stE_kind in Hs. congruence.
Qed.
Lemma phaseH_other c l : kind l <> Some false -> writes l (flat (phaseH (V:=V) c)) = 0%nat.
Proof.
  intros K. apply flat_zero. intros s Hs X. apply phaseH_shape in Hs. apply stH_kind in Hs. congruence.
Qed.
Lemma ghostE_other c l : kind l <> Some true -> writes l (flat (updateGhostEfield (V:=V) c)) = 0%nat.
Proof.
  intros K. apply flat_zero. intros s Hs X. apply ghostE_shape in Hs. apply stG_kind in Hs. congruence.
Qed.
Lemma ghostH_other c l : kind l <> Some false -> writes l (flat (updateGhostHfield (V:=V) c)) = 0%nat.
Proof.
  intros K. apply flat_zero. intros s Hs X. apply ghostH_shape in Hs. apply stG_kind in Hs. congruence.
Qed.
Lemma ghostE_inside c f i j k : wf c -> inl (gfolim c f) i j k ->
  writes (L (AF f) i j k) (flat (updateGhostEfield (V:=V) c)) = 0%nat.
Proof. intros W H. apply flat_zero. intros s Hs. apply ghostE_shape in Hs. eapply stG_dst; eauto. Qed.
Lemma ghostH_inside c f i j k : wf c -> inl (gfolim c f) i j k ->
  writes (L (AF f) i j k) (flat (updateGhostHfield (V:=V) c)) = 0%nat.
Proof. intros W H. apply flat_zero. intros s Hs. apply ghostH_shape in Hs. eapply stG_dst; eauto. Qed.

Lemma coreStep_data c l : kind l = None -> writes l (flat (coreStep (V:=V) c)) = 0%nat.
Proof.
  intros K. unfold coreStep, timeStep. cbn [app]. rewrite !flat_app, !writes_app.
  rewrite phaseE_other, phaseH_other, ghostE_other, ghostH_other by congruence. reflexivity.
Qed.
End Kinds.

Section Values.
Context {V : Type} (A : Arith V).
Variables (c : Cfg) (W : wf c).

Definition step (m : mem V) : mem V := run A (flat (coreStep c)) m.

Lemma step_data m l : kind l = None -> step m l = m l.
Proof. intros K. apply writes_0_frame. apply coreStep_data; auto. Qed.

(** E of the grid zone *)
Definition updStmt (f : Fld) (i j k : Z) : stmt V :=
  if is_E f
  then Asg (L (AF f) i j k) (Add (Mul (ALPHA f i j k) (F f i j k)) (Mul (BETA f i j k) (cH f i j k)))
  else Asg (L (AF f) i j k) (Add (F f i j k) (Mul (GAMMA f i j k) (cH f i j k))).
Lemma updF_stmt f i j k : updF f i j k = [updStmt f i j k].
Proof. destruct f; reflexivity. Qed.

Lemma in_gridE f i j k : is_E f = true -> inl (gfilim c f) i j k -> In (updStmt f i j k) (flat (phaseE c)).
Proof.
  intros E H. unfold phaseE. rewrite !flat_app, !in_app_iff. right; right. unfold updateGridEfield.
  rewrite !flat_cons, !in_app_iff.
  destruct f; try discriminate E;
   [left|right; left|right; right; left]; apply in_nest3; exists i, j, k; (split; [exact H|left; reflexivity]).
Qed.
Lemma in_gridH f i j k : is_E f = false -> inl (gfilim c f) i j k -> In (updStmt f i j k) (flat (phaseH c)).
Proof.
  intros E H. unfold phaseH. rewrite !flat_app, !in_app_iff. right; right. unfold updateGridHfield.
  rewrite !flat_cons, !in_app_iff.
  destruct f; try discriminate E;
   [left|right; left|right; right; left]; apply in_nest3; exists i, j, k; (split; [exact H|left; reflexivity]).
Qed.
Lemma in_murH face f i j k : outerSurfaceType c face = BT_MUR -> is_E f = false -> fld_axis f = face_axis face ->
  inl (fmlim c face f) i j k -> In (updStmt f i j k) (flat (phaseH c)).
Proof.
  intros T E N H. unfold phaseH. rewrite !flat_app, !in_app_iff. right; left. unfold updateMurHfield.
  apply in_flat. unfold updateMurHface.
  assert (X : forall it, In it (updateMurHface (V:=V) c face) -> In (updStmt f i j k) (flat_item it) ->
    exists it0 : item V, In it0 (flat_map (updateMurHface c) faces) /\ In (updStmt f i j k) (flat_item it0)).
  { intros it I1 I2. exists it. split; auto. apply in_flat_map. exists face. split; auto. destruct face; simpl; tauto. }
  assert (B : fieldIsInBoundary f face = true) by (destruct f, face; try discriminate; reflexivity).
  destruct (fmlim_own c face f B) as [O1 O2]. unfold inl in H.
  unfold updateMurHface in X. rewrite T in X. cbn [btype_eqb] in X.
  destruct face, f; try discriminate; cbn [face_axis face_lo face_hi] in O1, O2;
   (eapply X; [left; reflexivity|]; cbn [flat_item]; apply in_for;
    match goal with |- exists x, (fmlim _ _ _ ?g <= _ <= _) /\ _ =>
      match g with XLO => exists i | YLO => exists j | ZLO => exists k end end;
    (split; [lia|]); apply in_for;
    match goal with |- exists x, (fmlim _ _ _ ?g <= _ <= _) /\ _ =>
      match g with XLO => exists i | YLO => exists j | ZLO => exists k end end;
    (split; [lia|]); left; unfold updStmt; cbn [is_E];
    repeat match goal with |- context [fmlim c ?ff ?hh ?gg] =>
      first [rewrite O1 | rewrite O2] end;
    repeat match goal with
     | |- context [gibox c ?g] => first [replace (gibox c g) with i by lia | replace (gibox c g) with j by lia | replace (gibox c g) with k by lia]
     end; reflexivity).
Qed.

Lemma step_gridE m f i j k : is_E f = true -> inl (gfilim c f) i j k ->
  step m (L (AF f) i j k) = eval A m (rhs (updStmt f i j k)).
Proof.
  intros E H. pose proof (grid_lim_outer c f i j k W H) as HO.
  unfold step, coreStep, timeStep. cbn [app]. rewrite !flat_app, !run_app.
  rewrite writes_0_frame by (apply ghostH_inside; auto).
  rewrite writes_0_frame by (apply phaseH_other; cbn; congruence).
  rewrite writes_0_frame by (apply ghostE_inside; auto).
  assert (D : L (AF f) i j k = dst (updStmt f i j k)) by (unfold updStmt; rewrite E; reflexivity).
  rewrite D at 1. apply run_once.
  - apply in_gridE; auto.
  - rewrite <- D, writes_phaseE, cover_value by auto.
    destruct (mur_edge c f i j k) eqn:M; auto.
    pose proof (cover_value c f i j k W HO) as CV. rewrite M in CV. unfold cover in CV.
    assert (X : inlb (gfilim c f) i j k = true) by (apply inlb_iff; auto). rewrite X in CV. cbn [b2n] in CV. lia.
  - intros l Hl. rewrite <- D. revert Hl. unfold updStmt. rewrite E. unfold sreads.
    destruct f; try discriminate E;
    unfold cH, cHx, cHy, cHz, curl_Hx, curl_Hy, curl_Hz, ALPHA, BETA, F, idhx, idhy, idhz; cbn [rhs reads app In];
    intros Hl; repeat (destruct Hl as [<-|Hl]; [first [left; reflexivity|right; apply phaseE_other; cbn; congruence]|]); contradiction.
Qed.

(** H anywhere in the mesh: grid or the plane of a MUR face *)
Definition in_meshH (f : Fld) (i j k : Z) : Prop :=
  inl (setFieldLimits (gibox c) (fun _ => true) f) i j k.

Lemma in_phaseH_mesh f i j k : is_E f = false -> in_meshH f i j k -> In (updStmt f i j k) (flat (phaseH c)).
Proof.
  intros E H. destruct (inlb (gfilim c f) i j k) eqn:G.
  { apply in_gridH; auto. apply inlb_iff; auto. }
  assert (G' : ~ inl (gfilim c f) i j k) by (rewrite <- inlb_iff; congruence). clear G.
  assert (X : exists face, outerSurfaceType c face = BT_MUR /\ fld_axis f = face_axis face /\ inl (fmlim c face f) i j k).
  { revert H G'. unfold in_meshH, inl, gfilim, fmlim, setFieldLimits, murbox, murInclude, getFaceOfBoundingBox, mkbox.
    rewrite !grid_incl. unfold isT.
    destruct f; try discriminate E; cbn [fieldIsInBoundary face_axis axis_eqb negb andb fld_axis]; intros H G'.
    - destruct (btype_eqb (outerSurfaceType c XLO) BT_MUR) eqn:T1;
      destruct (btype_eqb (outerSurfaceType c XHI) BT_MUR) eqn:T2; cbn [negb] in G'; try lia;
      rewrite ?btype_eqb_spec in *;
      (destruct (Z.eq_dec i (gibox c XLO)); [try (exists XLO; cbn [fieldIsInBoundary face_axis axis_eqb negb andb btype_eqb]; repeat split; solve [auto|lia])|];
       try (exists XHI; cbn [fieldIsInBoundary face_axis axis_eqb negb andb btype_eqb]; repeat split; solve [auto|lia])); exfalso; lia.
    - destruct (btype_eqb (outerSurfaceType c YLO) BT_MUR) eqn:T1;
      destruct (btype_eqb (outerSurfaceType c YHI) BT_MUR) eqn:T2; cbn [negb] in G'; try lia;
      rewrite ?btype_eqb_spec in *;
      (destruct (Z.eq_dec j (gibox c YLO)); [try (exists YLO; cbn [fieldIsInBoundary face_axis axis_eqb negb andb btype_eqb]; repeat split; solve [auto|lia])|];
       try (exists YHI; cbn [fieldIsInBoundary face_axis axis_eqb negb andb btype_eqb]; repeat split; solve [auto|lia])); exfalso; lia.
    - destruct (btype_eqb (outerSurfaceType c ZLO) BT_MUR) eqn:T1;
      destruct (btype_eqb (outerSurfaceType c ZHI) BT_MUR) eqn:T2; cbn [negb] in G'; try lia;
      rewrite ?btype_eqb_spec in *;
      (destruct (Z.eq_dec k (gibox c ZLO)); [try (exists ZLO; cbn [fieldIsInBoundary face_axis axis_eqb negb andb btype_eqb]; repeat split; solve [auto|lia])|];
       try (exists ZHI; cbn [fieldIsInBoundary face_axis axis_eqb negb andb btype_eqb]; repeat split; solve [auto|lia])); exfalso; lia. }
  destruct X as (face & T & N & HL). eapply in_murH; eauto.
Qed.

Lemma meshH_outer f i j k : in_meshH f i j k -> inl (gfolim c f) i j k.
Proof. apply setFieldLimits_mono; intros []; cfg_facts c W; cbn [face_lo face_hi]; lia. Qed.

(** E values read by the curl at an H point of the outer grid are themselves in
    the outer grid *)
Lemma cE_reads f i j k l : is_E f = false -> inl (gfolim c f) i j k -> In l (reads (cH (V:=V) f i j k)) ->
  kind l = None \/ exists g i' j' k', is_E g = true /\ l = L (AF g) i' j' k' /\ inl (gfolim c g) i' j' k'.
Proof.
  intros E H. apply gfolim_range in H. unfold nodeRange, halfRange in H.
  destruct f; try discriminate E; cbn [fieldIsInBoundary] in H;
  unfold cH, cEx, cEy, cEz, curl_Ex, curl_Ey, curl_Ez, F, idex, idey, idez; cbn [reads app In];
  intros Hl; repeat (destruct Hl as [<-|Hl];
    [first [left; reflexivity|right; do 4 eexists; split; [|split; [reflexivity|apply gfolim_range]];
       [reflexivity|]; cbn [fieldIsInBoundary]; unfold nodeRange, halfRange; lia]|]); contradiction.
Qed.

(** the same with extra electric updates (sources, dispersive blocks) *)
Variable xE : list (item V).
Hypothesis onlyE : forall s, In s (flat xE) -> kind (dst s) = Some true.
Definition stepx (m : mem V) : mem V := run A (flat (timeStep c xE [])) m.

Lemma xE_other l : kind l <> Some true -> writes l (flat xE) = 0%nat.
Proof. intros K. apply flat_zero. intros s Hs X. apply onlyE in Hs. congruence. Qed.
Lemma stepx_data m l : kind l = None -> stepx m l = m l.
Proof.
  intros K. apply writes_0_frame. unfold timeStep. cbn [app]. rewrite !flat_app, !writes_app.
  rewrite phaseE_other, phaseH_other, ghostE_other, ghostH_other, xE_other by congruence. reflexivity.
Qed.
Definition afterE (m : mem V) : mem V :=
  run A (flat (updateGhostEfield c)) (run A (flat xE) (run A (flat (phaseE c)) m)).

(** the E part of the step is final *)
Lemma stepx_E_final m l : kind l <> Some false -> afterE m l = stepx m l.
Proof.
  intros K. unfold stepx, timeStep, afterE. cbn [app]. rewrite !flat_app, !run_app.
  rewrite (writes_0_frame A (flat (updateGhostHfield c))), (writes_0_frame A (flat (phaseH c))) by
     (first [apply ghostH_other|apply phaseH_other]; congruence). reflexivity.
Qed.

Lemma stepx_meshH m f i j k : is_E f = false -> in_meshH f i j k ->
  stepx m (L (AF f) i j k) =
  vadd A (m (L (AF f) i j k)) (vmul A (m (L (AGamma f) i j k)) (eval A (stepx m) (cH f i j k))).
Proof.
  intros E H. pose proof (meshH_outer f i j k H) as HO.
  transitivity (eval A (afterE m) (rhs (updStmt f i j k))).
  - unfold stepx at 1, timeStep. cbn [app]. rewrite !flat_app, !run_app.
    rewrite writes_0_frame by (apply ghostH_inside; auto). fold (afterE m).
    assert (D : L (AF f) i j k = dst (updStmt f i j k)) by (unfold updStmt; rewrite E; reflexivity).
    rewrite D at 1. apply run_once.
    + apply in_phaseH_mesh; auto.
    + rewrite <- D, writes_phaseH, cover_value by auto.
      destruct f; try discriminate E; reflexivity.
    + intros l Hl. rewrite <- D. unfold updStmt in Hl. rewrite E in Hl. unfold sreads in Hl. cbn [rhs reads GAMMA F] in Hl.
      cbn [app] in Hl. destruct Hl as [<-|[<-|Hl]]; [left; reflexivity|right; apply phaseH_other; cbn; congruence|].
      right. apply phaseH_other. destruct (cE_reads f i j k l E HO Hl) as [->|(g & i' & j' & k' & Eg & -> & _)]; cbn; congruence.
  - unfold updStmt. rewrite E. cbn [rhs eval F GAMMA].
    assert (X : forall l, kind l <> Some true -> afterE m l = m l).
    { intros l K. unfold afterE.
      rewrite (writes_0_frame A (flat (updateGhostEfield c))), (writes_0_frame A (flat xE)), (writes_0_frame A (flat (phaseE c))) by
       (first [apply ghostE_other|apply xE_other|apply phaseE_other]; congruence). reflexivity. }
    rewrite !X by (cbn; congruence).
    f_equal. f_equal. apply eval_ext. intros l Hl. apply stepx_E_final.
    destruct (cE_reads f i j k l E HO Hl) as [->|(g & i' & j' & k' & Eg & -> & _)]; cbn; congruence.
Qed.
End Values.
