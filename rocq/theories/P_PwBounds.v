(** C59: memory safety and race freedom of the plane-wave corrections, together
    with the sources, for every accepted PW card whose box is ordered along z. *)
From Coq Require Import ZArith Bool Ascii Reals String List Lia Lra.
From Verif Require Import Types Lang LangProofs BBox Grid SetupProofs SpecPhys CArr Pml Mur Ghost Step SpecGrid SpecGeom SpecMedia SpecSource SpecPw
  Setup StepShape StepBounds StepRace StepCount Linear Media MediaProofs P_Media Waveform Source SourceProofs P_Source PlaneWave PwProofs P_Step SpecEdges Edges PwAux P_PwAux.
Import ListNotations.
Open Scope Z_scope.
Local Arguments Z.mul : simpl never.
Local Arguments Z.add : simpl never.
Local Arguments Z.sub : simpl never.

(** [p] was accepted by the PW card on the mesh of [c]. *)
Definition accepted_pw (c : Cfg) (wfs : list WfItem) (p : PW) : Prop :=
  exists l name wfName theta phi eta mask size delay,
  parsePW (meshBox c) wfs l (pw_mbbox p) name wfName theta phi eta mask size delay = Some (l ++ [p])%list.
Lemma accepted_pw_ok c wfs p : accepted_pw c wfs p -> box_ok c (pw_mbbox p).
Proof.
  intros (l & name & wfName & theta & phi & eta & mask & size & delay & H). unfold parsePW in H.
  destruct (isPlaneWave l name); [discriminate|].
  destruct (bboxIsNormal (pw_mbbox p)) eqn:N; cbn [negb] in H; [|discriminate].
  destruct (bboxIsWithin (pw_mbbox p) (meshBox c)) eqn:I; cbn [negb] in H; [|discriminate].
  apply normal_within; auto.
Qed.

(** *** every statement of a correction *)
Section Sound.
Context {V : Type}.
Variables (c : Cfg) (W : wf c) (b : BBox) (HB : in_mesh_box c b) (HO : ordered b) (active : BFlags).
Notation g := (offsetBoundingBox b (gibox c)).
Notation fl := (flim c g active).

Lemma flim_range face f i j k : inl (fl face f) i j k -> within (dims3 c) i j k.
Proof.
  pose proof (HB XDIR) as BX; pose proof (HB YDIR) as BY; pose proof (HB ZDIR) as BZ.
  pose proof (HO XDIR) as OX; pose proof (HO YDIR) as OY; pose proof (HO ZDIR) as OZ.
  cfg_facts c W. unfold inl, within, dims3.
  destruct face, f; unfold flim, setFieldLimits, setBoundingBoxFromNodes, mkbox, setBoundingBoxBoundaryFlags, offsetBoundingBox;
  cbn [fieldIsInBoundary face_lo face_hi] in *;
  repeat match goal with |- context [edgeIsActive ?x ?y ?z ?u] => generalize (edgeIsActive x y z u); intros [] end; lia.
Qed.

Lemma co_inb (os : list (Corr V)) s : (forall o, In o os -> exists face, co_lim o = fl face (co_f o)) ->
  (forall o i j k l, In o os -> In l (reads (co_s o i j k)) -> inl (co_lim o) i j k -> inb (dims c) l = true) ->
  In s (flat (map coItem os)) -> sinb (dims c) s = true.
Proof.
  intros HL HR H. unfold flat in H. apply in_flat_map in H. destruct H as (it & I & H). apply in_map_iff in I. destruct I as (o & <- & I).
  apply in_coItem in H. destruct H as (i & j & k & L & ->). unfold sinb. apply andb_true_iff. split.
  - cbn [dst]. apply (inb_iff _ _ _ _ _ (dims3 c)); [reflexivity|]. destruct (HL o I) as (face & E). rewrite E in L. eapply flim_range; eauto.
  - apply forallb_forall. intros l Hl. eapply HR; eauto.
Qed.

Variable inc : Fld -> Z -> Z -> Z -> V.
Lemma corrE_inb s : In s (flat (updatePlaneWaveE inc fl active)) -> sinb (dims c) s = true.
Proof.
  rewrite updE_co by apply flim_collapsed. apply co_inb.
  - intros o H. apply in_flat_map in H. destruct H as (face & _ & H). exists face. unfold coE in H. destruct (active face); [|contradiction].
    destruct face; destruct H as [<-|[<-|[]]]; reflexivity.
  - intros o i j k l H Hl Hi. apply in_flat_map in H. destruct H as (face & _ & H). unfold coE in H. destruct (active face); [|contradiction].
    assert (X : within (dims3 c) i j k) by (destruct face; destruct H as [<-|[<-|[]]]; cbn [co_lim] in Hi; eapply flim_range; exact Hi).
    unfold within, dims3 in X.
    destruct face; destruct H as [<-|[<-|[]]]; cbn in Hl; repeat (destruct Hl as [<-|Hl]); try contradiction;
    (eapply inb_iff; [reflexivity|]; unfold within, dims3, dims1; lia).
Qed.
Lemma corrH_inb s : In s (flat (updatePlaneWaveH inc fl active)) -> sinb (dims c) s = true.
Proof.
  rewrite updH_co by apply flim_collapsed. apply co_inb.
  - intros o H. apply in_flat_map in H. destruct H as (face & _ & H). exists face. unfold coH in H. destruct (active face); [|contradiction].
    destruct face; destruct H as [<-|[<-|[]]]; reflexivity.
  - intros o i j k l H Hl Hi. apply in_flat_map in H. destruct H as (face & _ & H). unfold coH in H. destruct (active face); [|contradiction].
    assert (X : within (dims3 c) i j k) by (destruct face; destruct H as [<-|[<-|[]]]; cbn [co_lim] in Hi; eapply flim_range; exact Hi).
    unfold within, dims3 in X.
    destruct face; destruct H as [<-|[<-|[]]]; cbn in Hl; repeat (destruct Hl as [<-|Hl]); try contradiction;
    (eapply inb_iff; [reflexivity|]; unfold within, dims3, dims1; lia).
Qed.
End Sound.

(** *** races *)
Section Races.
Context {V : Type}.
Variables (inc : Fld -> Z -> Z -> Z -> V) (fl : Face -> FLimits) (active : BFlags).
Ltac one f := first
  [ apply par_for_race_free with (own := own_by f 0 li); intros x s Hs; apply in_for in Hs; destruct Hs as (y & _ & [<-|[]]);
    split; [reflexivity|]; intros l Hl; cbn in Hl; repeat (destruct Hl as [<-|Hl]); try contradiction; solve [left; reflexivity|right; reflexivity]
  | apply par_for_race_free with (own := own_by f 0 lj); intros x s Hs; apply in_for in Hs; destruct Hs as (y & _ & [<-|[]]);
    split; [reflexivity|]; intros l Hl; cbn in Hl; repeat (destruct Hl as [<-|Hl]); try contradiction; solve [left; reflexivity|right; reflexivity] ].
Lemma pwE_rf face : Forall race_free (pwE inc fl active face).
Proof.
  unfold pwE. destruct (active face); [|constructor]. destruct face; cbn zeta; unfold loopXY, loopXZ, loopYZ;
  (apply Forall_cons; [|apply Forall_cons; [|apply Forall_nil]]); first [one EX | one EY | one EZ].
Qed.
Lemma pwH_rf face : Forall race_free (pwH inc fl active face).
Proof.
  unfold pwH. destruct (active face); [|constructor]. destruct face; cbn zeta; unfold loopXY, loopXZ, loopYZ;
  (apply Forall_cons; [|apply Forall_cons; [|apply Forall_nil]]); first [one HX | one HY | one HZ].
Qed.
Lemma updE_rf : Forall race_free (updatePlaneWaveE inc fl active).
Proof. unfold updatePlaneWaveE. rewrite !Forall_app. auto 10 using pwE_rf. Qed.
Lemma updH_rf : Forall race_free (updatePlaneWaveH inc fl active).
Proof. unfold updatePlaneWaveH. rewrite !Forall_app. auto 10 using pwH_rf. Qed.
End Races.

(** simulation.c:186-192 and 214-220: the sources, then every plane wave in
    turn (planewave.c:578, 791), at step [t]; [inc t p] are the incident values
    the corrections of plane wave [p] use. *)
Definition exciteE (c : Cfg) de dh (srcs : list Src) (w : nat -> Src -> R) (pws : list PW) (inc : nat -> PW -> Field) (t : nat) : list (item R) :=
  srcRunE c de dh srcs w t ++ flat_map (fun p => updatePlaneWaveE (inc t p) (pwFlim c p) (pw_active p)) pws.
Definition exciteH (c : Cfg) de dh (srcs : list Src) (w : nat -> Src -> R) (pws : list PW) (inc : nat -> PW -> Field) (t : nat) : list (item R) :=
  srcRunH c de dh srcs w t ++ flat_map (fun p => updatePlaneWaveH (inc t p) (pwFlim c p) (pw_active p)) pws.

Lemma flat_flat_map {X} (f : X -> list (item R)) l s : In s (flat (flat_map f l)) -> exists x, In x l /\ In s (flat (f x)).
Proof.
  induction l as [|x l IH]; cbn [flat_map]; [intros []|]. rewrite flat_app, in_app_iff. intros [H|H]; [exists x; cbn; auto|].
  destruct (IH H) as (y & ? & ?). exists y. cbn. auto.
Qed.

(** Every run excited by accepted sources and accepted, ordered plane waves stays
    inside the arrays, whatever the incident values. *)
Theorem C59_in_bounds : forall nx ny nz reg c, setupCfg nx ny nz reg = Some c ->
  forall wfs srcs pws, Forall (accepted_src c wfs) srcs ->
  Forall (fun p => accepted_pw c wfs p /\ pw_mbbox p ZLO <= pw_mbbox p ZHI) pws ->
  forall de dh wE wH incE incH n m,
  exists m', runO rArith (dims c) (flat (steps c (exciteE c de dh srcs wE pws incE) (exciteH c de dh srcs wH pws incH) 0 n)) m = Some m'.
Proof.
  intros nx ny nz reg c HS wfs srcs pws HA HP de dh wE wH incE incH n m. pose proof (setup_wf _ _ _ _ _ HS) as W. eexists. apply runO_some.
  assert (X : forall electric w s, In s (flat_map (src electric) (map (fun s => actOf c de dh s (w s)) srcs)) -> sinb (dims c) s = true).
  { intros electric w s H. apply in_flat_map in H. destruct H as (a & Ia & H). apply in_map_iff in Ia. destruct Ia as (x & <- & Ix).
    rewrite Forall_forall in HA. destruct (accepted_src_ok c wfs x (HA x Ix)) as ((B & _) & _).
    eapply src_inb; eauto. exists (s_mbbox x). split; [exact B|]. unfold actOf. destruct (convert _ _ _ _) as [[? ?] ?]. reflexivity. }
  assert (PE : forall p (inc : Field) s, In p pws -> In s (flat (updatePlaneWaveE inc (pwFlim c p) (pw_active p))) -> sinb (dims c) s = true).
  { intros p inc s Ip H. rewrite Forall_forall in HP. destruct (HP p Ip) as [A Z]. apply accepted_pw_ok in A. destruct A as (A & ? & ?).
    eapply corrE_inb; [exact W|exact A| |exact H]. intros []; assumption. }
  assert (PH : forall p (inc : Field) s, In p pws -> In s (flat (updatePlaneWaveH inc (pwFlim c p) (pw_active p))) -> sinb (dims c) s = true).
  { intros p inc s Ip H. rewrite Forall_forall in HP. destruct (HP p Ip) as [A Z]. apply accepted_pw_ok in A. destruct A as (A & ? & ?).
    eapply corrH_inb; [exact W|exact A| |exact H]. intros []; assumption. }
  generalize 0%nat. induction n as [|n IH]; intros t s; cbn [steps]; [contradiction|].
  rewrite flat_app, in_app_iff. intros [H|H]; [|eauto].
  unfold Step.timeStep, exciteE, exciteH in H. rewrite !flat_app, !in_app_iff in H.
  assert (Y : forall s, In s (flat (coreStep (V:=R) c)) -> sinb (dims c) s = true) by (intros; apply coreStep_inb; auto).
  unfold coreStep, Step.timeStep in Y. cbn [app] in Y.
  destruct H as [H|[[H|H]|[H|[H|[[H|H]|H]]]]].
  - apply Y. rewrite !flat_app, !in_app_iff. auto.
  - unfold srcRunE in H. rewrite flat_srcE in H. eapply X; eauto.
  - apply flat_flat_map in H. destruct H as (p & Ip & H). eapply PE; eauto.
  - apply Y. rewrite !flat_app, !in_app_iff. auto.
  - apply Y. rewrite !flat_app, !in_app_iff. auto.
  - unfold srcRunH in H. rewrite flat_srcH in H. eapply X; eauto.
  - apply flat_flat_map in H. destruct H as (p & Ip & H). eapply PH; eauto.
  - apply Y. rewrite !flat_app, !in_app_iff. auto.
Qed.

(** The parallel loops of such a run have no data race and every interleaving of
    their threads gives the same fields. *)
Theorem C59_schedule_independent : forall c de dh srcs wE wH pws incE incH n,
  Forall race_free (steps c (exciteE c de dh srcs wE pws incE) (exciteH c de dh srcs wH pws incH) 0 n) /\
  forall m m', prog_exec rArith (steps c (exciteE c de dh srcs wE pws incE) (exciteH c de dh srcs wH pws incH) 0 n) m m' ->
  forall l, m' l = run rArith (flat (steps c (exciteE c de dh srcs wE pws incE) (exciteH c de dh srcs wH pws incH) 0 n)) m l.
Proof.
  intros c de dh srcs wE wH pws incE incH n.
  assert (SQ : forall (g : Act (V:=R) -> list (stmt R)) (l : list (Act (V:=R))), Forall race_free (map (fun s => Seq (g s)) l)).
  { intros g l. induction l; cbn [map]; constructor; [exact I|assumption]. }
  assert (RE : forall t, Forall race_free (exciteE c de dh srcs wE pws incE t)).
  { intros t. unfold exciteE. apply Forall_app. split; [apply SQ|]. apply Forall_flat_map. intros p _. apply updE_rf. }
  assert (RH : forall t, Forall race_free (exciteH c de dh srcs wH pws incH t)).
  { intros t. unfold exciteH. apply Forall_app. split; [apply SQ|]. apply Forall_flat_map. intros p _. apply updH_rf. }
  split.
  - apply C08_no_data_race; assumption.
  - intros m m' H. apply C08_schedule_independent; assumption.
Qed.

(** Non-vacuity: a PW card on a 6x6x6 mesh. *)
Definition c59wf : list WfItem := [mkWf "wf1" GAUSSIAN_PULSE 1 0 1 0].
Definition c59pw (b : BBox) : PW := mkPW "p" b "wf1" (fun _ => true) 90 0 0 1 0.
Lemma c59_accept c b : (forall a, numLines c a = 7) -> bboxIsNormal b = true -> bboxIsWithin b (mkbox 0 6 0 6 0 6) = true ->
  accepted_pw c c59wf (c59pw b).
Proof.
  intros NL N I. exists [], "p"%string, "wf1"%string, 90%R, 0%R, 0%R, None, None, None. unfold parsePW. cbn [isPlaneWave existsb pw_mbbox c59pw].
  rewrite N. cbn [negb].
  replace (bboxIsWithin b (meshBox c)) with true.
  2:{ symmetry. rewrite <- I. unfold bboxIsWithin, meshBox. rewrite !NL. reflexivity. }
  cbn [negb]. unfold rlt, rle.
  repeat match goal with |- context [Rlt_dec ?x ?y] => destruct (Rlt_dec x y); [exfalso; lra|] end.
  destruct (Rle_dec 360 0); [exfalso; lra|]. reflexivity.
Qed.
Example C59_nonvacuous : exists c, setupCfg 6 6 6 initBoundaryReg = Some c /\
  (forall z1 z2, 0 <= z1 <= z2 -> z2 <= 5 -> Forall (fun p => accepted_pw c c59wf p /\ pw_mbbox p ZLO <= pw_mbbox p ZHI) [c59pw (mkbox 0 5 2 3 z1 z2)]).
Proof.
  eexists. split; [reflexivity|]. intros z1 z2 H1 H2. constructor; [|constructor]. split; [|cbn; lia]. apply c59_accept.
  - intros []; reflexivity.
  - unfold bboxIsNormal. cbn. apply Z.leb_refl.
  - unfold bboxIsWithin, mkbox. rewrite !andb_true_iff, !Z.leb_le. lia.
Qed.

(** Without the order along z the claim is false: the box [0,5]x[0,5]x[70,5] is
    accepted on a 6x6x6 mesh, and the first step leaves the arrays. *)
Theorem C59_inverted_refuted : exists c p, setupCfg 6 6 6 initBoundaryReg = Some c /\ accepted_pw c c59wf p /\
  forall de dh inc m, runO rArith (dims c) (flat (steps c (exciteE c de dh [] (fun _ _ => 0%R) [p] inc) (exciteH c de dh [] (fun _ _ => 0%R) [p] inc) 0 1)) m = None.
Proof.
  destruct (setupCfg 6 6 6 initBoundaryReg) as [c|] eqn:HC; [|discriminate HC].
  exists c, (c59pw (mkbox 0 5 0 5 70 5)). split; [reflexivity|]. pose proof HC as HC0. injection HC as HC. split.
  { apply c59_accept; [subst c; intros []; reflexivity|reflexivity|reflexivity]. }
  intros de dh inc m. set (p := c59pw _).
  apply runO_none with (s := Asg (L (AF EX) (1 + gibox c XLO) (1 + gibox c YLO) (70 + gibox c ZLO)) (aE EX (fun i j k => dHdz (Cst (inc 0%nat p HY i j (k - 1))) k) (1 + gibox c XLO) (1 + gibox c YLO) (70 + gibox c ZLO))).
  - cbn [steps]. rewrite app_nil_r. unfold Step.timeStep. rewrite !flat_app, !in_app_iff. right. left.
    unfold exciteE. cbn [flat_map]. rewrite flat_app, app_nil_r, in_app_iff. right. rewrite updE_co by apply flim_collapsed.
    unfold flat. apply in_flat_map.
    exists (coItem (mkCo EX (pwFlim c p ZLO EX) (aE EX (fun i j k => dHdz (Cst (inc 0%nat p HY i j (k-1))) k)))). split.
    + apply in_map. apply in_flat_map. exists ZLO. split; [cbn; auto|]. left. reflexivity.
    + apply in_coItem. exists (1 + gibox c XLO), (1 + gibox c YLO), (70 + gibox c ZLO). split; [|reflexivity]. cbn [co_lim]. unfold inl. subst c. vm_compute. intuition discriminate.
  - subst c. vm_compute. reflexivity.
Qed.

(** *** Analytic incident field *)
Lemma anal_ok c lines de fi kv o vp wv f i j k t : wf c -> has_lines c lines -> (forall a, alen (de a) = numCells c a) ->
  (forall a, 0 <= o a - gibox c (face_lo a) < numLines c a) ->
  (forall a, 0 <= ind i j k a - gibox c (face_lo a) < numLines c a) ->
  incidentFieldAnalytic c lines de fi kv o vp wv f i j k t <> None.
Proof.
  intros W HL HD HO HI. unfold incidentFieldAnalytic.
  assert (G : forall a, exists r, (do r <- fieldLocation1 c (lines a) (de a) f a (idx3 i j k a); do r0 <- nodeLocation c lines o a; Some (r - r0)%R) = Some r).
  { intros a. specialize (HI a). specialize (HO a). unfold fieldLocation1, nodeLocation.
    replace (idx3 i j k a) with (ind i j k a) by (destruct a; reflexivity).
    rewrite (rd_ok (lines a)) by (rewrite HL; exact HI). cbn [obind].
    rewrite (rd_ok (de a)) by (rewrite HD; clear -W HI; cfg_facts c W; destruct a; cbn [face_lo face_hi] in *; lia). cbn [obind].
    rewrite (rd_ok (lines a)) by (rewrite HL; exact HO). destruct (half f a); cbn [obind]; eauto. }
  destruct (G XDIR) as [x ->], (G YDIR) as [y ->], (G ZDIR) as [z ->]. cbn [obind]. discriminate.
Qed.

(** The corrections use no incident value whose look-up leaves an array, when
    every active low face lies inside the mesh: two incident fields that agree
    wherever the look-up is defined give the same corrections. *)
Theorem C59_analytic : forall nx ny nz reg c, setupCfg nx ny nz reg = Some c ->
  forall wfs p, accepted_pw c wfs p -> pw_mbbox p ZLO <= pw_mbbox p ZHI -> (forall a, pw_active p (face_lo a) = true -> 1 <= pw_mbbox p (face_lo a)) ->
  forall lines de, has_lines c lines -> (forall a, alen (de a) = numCells c a) ->
  forall o, origin (pwGbbox c p) (pw_theta p) (pw_phi p) = Some o ->
  forall fi kv vp wv t (inc inc' : Field),
  (forall f i j k, incidentFieldAnalytic c lines de (fi f) kv o vp wv f i j k t <> None -> inc f i j k = inc' f i j k) ->
  flat (updatePlaneWaveE inc (pwFlim c p) (pw_active p)) = flat (updatePlaneWaveE inc' (pwFlim c p) (pw_active p)) /\
  flat (updatePlaneWaveH inc (pwFlim c p) (pw_active p)) = flat (updatePlaneWaveH inc' (pwFlim c p) (pw_active p)).
Proof.
  intros nx ny nz reg c HS wfs p A ZO LO lines de HL HD o HO fi kv vp wv t inc inc' EQ.
  pose proof (setup_wf _ _ _ _ _ HS) as W. apply accepted_pw_ok in A. destruct A as (A & XO & YO).
  assert (HG : forall f i j k, (forall a, 0 <= ind i j k a - gibox c (face_lo a) < numLines c a) -> inc f i j k = inc' f i j k).
  { intros f i j k H. apply EQ. apply anal_ok; auto. intros a.
    unfold origin in HO. destruct (if rle 0 (pw_theta p) && _ then _ else _) as [fz|] eqn:FZ; [|discriminate]. cbn [obind] in HO.
    destruct (if rle 0 (pw_phi p) && _ then _ else _) as [fxy|] eqn:FX; [|discriminate]. cbn [obind] in HO. injection HO as <-.
    assert (FF : (fz = ZLO \/ fz = ZHI) /\ (fst fxy = XLO \/ fst fxy = XHI) /\ (snd fxy = YLO \/ snd fxy = YHI)).
    { repeat match goal with H : context [if ?q then _ else _] |- _ => destruct q end; try discriminate;
      injection FZ as <-; injection FX as <-; cbn [fst snd]; auto. }
    destruct FF as (F1 & F2 & F3). pose proof (A a) as Aa. unfold pwGbbox, offsetBoundingBox.
    clear -W F1 F2 F3 Aa XO YO ZO.
    destruct a; [destruct F2 as [-> | ->]|destruct F3 as [-> | ->]|destruct F1 as [-> | ->]]; cbn [face_lo face_hi] in *; cfg_facts c W; lia. }
  clear EQ. pose proof (A XDIR) as AX. pose proof (A YDIR) as AY. pose proof (A ZDIR) as AZ.
  pose proof (LO XDIR) as LX. pose proof (LO YDIR) as LY. pose proof (LO ZDIR) as LZ. clear A LO.
  cbn [face_lo face_hi] in *.
  unfold pwFlim. set (act := pw_active p) in *. clearbody act. 
  assert (GB : forall f, pwGbbox c p f = pw_mbbox p f + gibox c (match f with XLO | XHI => XLO | YLO | YHI => YLO | _ => ZLO end)) by (intros []; reflexivity).
  set (g := pwGbbox c p) in *. clearbody g.
  pose proof (GB XLO). pose proof (GB XHI). pose proof (GB YLO). pose proof (GB YHI). pose proof (GB ZLO). pose proof (GB ZHI). clear GB. cbn iota in *.
  split.
  - rewrite !updE_co by apply flim_collapsed. apply cos_ext.
    induction pwFaces as [|face fs IH]; cbn [flat_map]; [constructor|]. apply Forall2_app; [|exact IH]. clear IH fs.
    unfold coE; destruct (act face) eqn:AF; [|constructor].
    destruct face; try specialize (LX AF); try specialize (LY AF); try specialize (LZ AF); (constructor; [|constructor; [|constructor]]); (split; [reflexivity|]; split; [reflexivity|]); cbn [co_f co_lim co_s];
    intros i j k I; unfold aE, sE, dHdx, dHdy, dHdz; do 3 f_equal; apply (f_equal (@Cst R));
    unfold inl, flim, setFieldLimits, setBoundingBoxFromNodes, setBoundingBoxBoundaryFlags, mkbox in I; cbn [fieldIsInBoundary] in I;
    repeat match type of I with context [if ?q then _ else _] => destruct q end;
    apply HG; intros []; cbn [ind face_lo]; lia.
  - rewrite !updH_co by apply flim_collapsed. apply cos_ext.
    induction pwFaces as [|face fs IH]; cbn [flat_map]; [constructor|]. apply Forall2_app; [|exact IH]. clear IH fs.
    unfold coH; destruct (act face) eqn:AF; [|constructor].
    destruct face; try specialize (LX AF); try specialize (LY AF); try specialize (LZ AF); (constructor; [|constructor; [|constructor]]); (split; [reflexivity|]; split; [reflexivity|]); cbn [co_f co_lim co_s];
    intros i j k I; unfold aH, sH, dEdx, dEdy, dEdz; do 3 f_equal; apply (f_equal (@Cst R));
    unfold inl, flim, setFieldLimits, setBoundingBoxFromNodes, setBoundingBoxBoundaryFlags, mkbox in I; cbn [fieldIsInBoundary] in I;
    repeat match type of I with context [if ?q then _ else _] => destruct q end;
    apply HG; intros []; cbn [ind face_lo]; lia.
Qed.

(** The condition on the active low faces is necessary: for the box that fills
    the mesh, accepted with every face active, the correction of Ey on the low x
    face uses the incident Hz half a cell outside the mesh, and that look-up
    reads xlines[-1]. *)
Theorem C59_analytic_refuted : exists c p, setupCfg 6 6 6 initBoundaryReg = Some c /\ accepted_pw c c59wf p /\
  exists i j k, (forall inc : Field,
    In (Asg (L (AF EY) i j k) (aE EY (fun i j k => dHdx (Cst (inc HZ (i - 1) j k)) i) i j k)) (flat (updatePlaneWaveE inc (pwFlim c p) (pw_active p)))) /\
  forall lines de fi kv o vp wv t, has_lines c lines -> incidentFieldAnalytic c lines de fi kv o vp wv HZ (i - 1) j k t = None.
Proof.
  destruct (setupCfg 6 6 6 initBoundaryReg) as [c|] eqn:HC; [|discriminate HC].
  exists c, (c59pw (mkbox 0 6 0 6 0 6)). split; [reflexivity|]. pose proof HC as HC0. injection HC as HC. split.
  { apply c59_accept; [subst c; intros []; reflexivity|reflexivity|reflexivity]. }
  exists (gibox c XLO), (1 + gibox c YLO), (1 + gibox c ZLO). set (p := c59pw _). split.
  - intros inc. rewrite updE_co by apply flim_collapsed. unfold flat. apply in_flat_map.
    exists (coItem (mkCo EY (pwFlim c p XLO EY) (aE EY (fun i j k => dHdx (Cst (inc HZ (i-1) j k)) i)))). split.
    + apply in_map. apply in_flat_map. exists XLO. split; [cbn; auto 10|]. left. reflexivity.
    + apply in_coItem. exists (gibox c XLO), (1 + gibox c YLO), (1 + gibox c ZLO). split; [|reflexivity]. cbn [co_lim]. unfold inl. subst c. vm_compute. intuition discriminate.
  - intros lines de fi kv o vp wv t HL. unfold incidentFieldAnalytic, fieldLocation1. cbn [idx3 face_lo].
    unfold rd at 1, ok at 1. destruct (Z.leb_spec 0 (gibox c XLO - 1 - gibox c XLO)); [lia|]. reflexivity.
Qed.
