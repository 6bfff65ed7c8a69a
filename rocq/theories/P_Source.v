(** C26, C52-C54: sources. *)
From Coq Require Import ZArith List Bool Lia Reals Lra String.
From Verif Require Import Types Lang LangProofs BBox Grid Setup SpecGeom BBoxProofs SpecGrid SetupProofs Pml Mur Ghost Step
  StepShape StepBounds StepCount StepOnce SpecCone StepValue SpecPhys Linear P_Geometry P_Setup P_Step P_Phys
  Media SpecMedia MediaProofs Medium P_Media Waveform Source SpecSource SourceProofs.
Import ListNotations.
Open Scope R_scope.
Local Arguments Z.mul : simpl never.
Local Arguments Z.add : simpl never.
Local Arguments Z.sub : simpl never.
Local Notation length := List.length.

(** ** C26: the tags. *)
Theorem C26_tags : forall hard q p, meaningful hard q p -> exists t, findTag (tagOf hard q p) = Some t /\
  t_type t = typeOf q /\ t_pol t = p /\ t_field t = fieldOf q p /\ t_soft t = negb hard.
Proof.
  intros hard q p M.
  destruct q as [| | | |t|t| | | | | | |], p; try destruct t; cbn [meaningful] in M; try congruence;
  destruct hard; try discriminate M; (eexists; split; [vm_compute; reflexivity|repeat split; reflexivity]).
Qed.
Definition allTags : list (bool * Quantity * Axis) :=
  flat_map (fun h => flat_map (fun q => map (fun p => (h, q, p)) axes)
    ([qE; qH; qJ; qJM; qI; qIM; qID; qIMD; qV; qVR; qIG] ++ map qJS axes ++ map qJMS axes)) [false; true].
Definition meaningfulb (x : bool * Quantity * Axis) : bool :=
  let '(h, q, p) := x in match q with qJS t | qJMS t => negb (axis_eqb t p) | qVR | qIG => negb h | _ => true end.
Theorem C26_tags_complete : forall s t, findTag s = Some t -> exists hard q p, meaningful hard q p /\ s = tagOf hard q p.
Proof.
  assert (T : forallb (fun s => existsb (fun x => meaningfulb x && String.eqb s (tagOf (fst (fst x)) (snd (fst x)) (snd x))) allTags)
    SOURCE_TAG_STR = true) by (vm_compute; reflexivity).
  rewrite forallb_forall in T.
  intros s t H. assert (I : In s SOURCE_TAG_STR).
  { unfold findTag in H. assert (G : forall l acc, fold_left (fun acc p => if String.eqb s (snd p) then Some (tagAt (fst p)) else acc) l acc = Some t ->
       acc = Some t \/ exists n, In (n, s) l).
    { induction l as [|[n u] l IH]; intros acc; cbn [fold_left fst snd]; [auto|]. intros X. apply IH in X.
      destruct X as [X|[n' X]]; [|right; exists n'; right; exact X].
      destruct (String.eqb_spec s u); [subst u; right; exists n; left; reflexivity|auto]. }
    apply G in H. destruct H as [H|[n H]]; [discriminate|]. apply in_combine_r in H. exact H. }
  apply T in I. apply existsb_exists in I. destruct I as ([[h q] p] & _ & E). apply andb_true_iff in E. destruct E as [E1 E2].
  cbn [fst snd] in E2. apply String.eqb_eq in E2. exists h, q, p. split; [|exact E2].
  destruct q; cbn [meaningful meaningfulb] in *; auto; try (destruct h; [discriminate|reflexivity]);
  intros ->; destruct p; discriminate E1.
Qed.

(** ** C26: sources accepted by the EX card. *)
Definition accepted_src (c : Cfg) (wfs : list WfItem) (s : Src) : Prop :=
  exists l name typeStr wfName args, parseEX (meshBox c) wfs l (s_mbbox s) name typeStr wfName args = Some (l ++ [s])%list.
Lemma accepted_src_ok c wfs s : accepted_src c wfs s ->
  box_ok c (s_mbbox s) /\ (exists hard q p, meaningful hard q p /\ findTag (tagOf hard q p) = Some (s_tag s)) /\
  isWaveform wfs (s_wf s) = true /\ (isLumped (t_type (s_tag s)) = true -> ndeg (s_mbbox s) = 2%nat).
Proof.
  intros (l & name & typeStr & wfName & args & H). unfold parseEX in H.
  destruct (isSource l name); [discriminate|].
  destruct (findTag typeStr) as [t|] eqn:T; [|discriminate].
  destruct (bboxIsNormal (s_mbbox s)) eqn:N; cbn [negb] in H; [|discriminate].
  destruct (bboxIsWithin (s_mbbox s) (meshBox c)) eqn:I; cbn [negb] in H; [|discriminate].
  assert (Q : t = s_tag s /\ isWaveform wfs (s_wf s) = true /\ (isLumped t.(t_type) = true -> ndeg (s_mbbox s) = 2%nat)).
  { destruct (isLumped (t_type t)) eqn:LU.
    - destruct (bboxType (s_mbbox s)) eqn:B; try discriminate H. destruct (negb (bboxIsElemental _)); [discriminate|].
      destruct (isWaveform wfs wfName) eqn:WF; cbn [negb] in H; [|discriminate]. injection H as H. apply app_inv_head in H. injection H as H.
      rewrite <- H. cbn [s_tag s_wf]. repeat split; auto. intros _.
      rewrite <- H. cbn [s_mbbox]. rewrite C02_type in B. destruct (ndeg (s_mbbox s)) as [|[|[|]]]; congruence.
    - destruct (isWaveform wfs wfName) eqn:WF; cbn [negb] in H; [|discriminate]. injection H as H. apply app_inv_head in H. injection H as H.
      rewrite <- H. cbn [s_tag s_wf]. repeat split; auto. intros X. congruence. }
  destruct Q as (<- & Q & Q'). split; [apply normal_within; auto|]. split; [|split; auto].
  pose proof (C26_tags_complete _ _ T) as (h & q & p & M & E). exists h, q, p. split; auto. congruence.
Qed.
Lemma tag_fields hard q p t : meaningful hard q p -> findTag (tagOf hard q p) = Some t ->
  t_type t = typeOf q /\ t_pol t = p /\ t_field t = fieldOf q p /\ t_soft t = negb hard.
Proof. intros M H. destruct (C26_tags hard q p M) as (t' & H' & X). rewrite H' in H. injection H as <-. exact X. Qed.

(** cell sizes of the mesh *)
Definition sizes_pos (c : Cfg) (de dh : Axis -> Z -> R) : Prop :=
  forall a n, ((gibox c (face_lo a) <= n < gibox c (face_hi a))%Z -> 0 < de a n) /\
              ((gibox c (face_lo a) <= n <= gibox c (face_hi a))%Z -> 0 < dh a n).

Section One.
Variables (c : Cfg) (W : wf c) (de dh : Axis -> Z -> R).
Definition gbox (s : Src) : BBox := offsetBoundingBox (s_mbbox s) (gibox c).

Lemma act_applied electric s w m :
  forall d v, driveOf (fst (fst (convert de dh (gbox s) s))) = Some (is_E (t_field (s_tag s)), d) ->
  v = snd (fst (convert de dh (gbox s) s)) * w ->
  applied c electric s d v m (run rArith (src electric (actOf c de dh s w)) m).
Proof.
  intros d v HD HV. rewrite src_shape. unfold actOf. fold (gbox s). destruct (convert de dh (gbox s) s) as [[ty size] ld].
  cbn [fst snd] in HD, HV. cbn [a_type a_field a_lim a_soft a_val]. rewrite HD. rewrite <- HV.
  destruct (Bool.eqb (is_E (t_field (s_tag s))) electric) eqn:E; cbn [andb].
  - apply eqb_prop in E.
    assert (P : forall f i j k, on_source c s f i j k <-> f = t_field (s_tag s) /\ inl (setFieldLimits (gbox s) (fun _ => true) f) i j k).
    { intros f i j k. unfold on_source, gbox. rewrite <- yee_in_offset, <- setFieldLimits_spec. reflexivity. }
    intros l. split.
    + intros f i j k -> Ef H. apply P in H. destruct H as [-> H].
      rewrite pointProg_at; [|intros; eapply rhsOf_local; eauto|exact H].
      unfold rhsOf, carried, beta, gamma, F, BETA, GAMMA. rewrite Ef. destruct d, electric; cbn [eval rArith vadd vsub vmul];
      destruct (t_soft (s_tag s)); ring.
    + intros H. apply pointProg_other. intros i j k Hl ->. apply H. exists (t_field (s_tag s)), i, j, k.
      split; [reflexivity|]. split; [exact E|]. apply P. auto.
  - intros l. split; [|reflexivity]. intros f i j k -> Ef [-> _]. rewrite Ef in E. destruct electric; discriminate.
Qed.

(** the amplitude *)
Variable sizes : sizes_pos c de dh.
Lemma esum s a : in_mesh_box c (s_mbbox s) ->
  accum (dh a) (gbox s (face_lo a)) (gbox s (face_hi a)) = sum (s_mbbox s (face_lo a)) (s_mbbox s (face_hi a)) (se c dh a) /\
  accum (de a) (gbox s (face_lo a)) (gbox s (face_hi a) - 1)%Z = sum (s_mbbox s (face_lo a)) (s_mbbox s (face_hi a) - 1)%Z (pe c de a).
Proof.
  intros _. rewrite !accum_sum. unfold gbox, offsetBoundingBox, pe, se.
  destruct a; cbn [face_lo face_hi];
  match goal with |- context [(s_mbbox s ?h + ?o - 1)%Z] => replace (s_mbbox s h + o - 1)%Z with (s_mbbox s h - 1 + o)%Z by lia end;
  rewrite !sum_shift; auto.
Qed.
Lemma sepos s a : in_mesh_box c (s_mbbox s) -> (s_mbbox s (face_lo a) <= s_mbbox s (face_hi a))%Z ->
  0 < sum (s_mbbox s (face_lo a)) (s_mbbox s (face_hi a)) (se c dh a).
Proof.
  intros B O. apply sum_pos; auto. intros n Hn. unfold se. apply sizes. specialize (B a). cfg_facts c W. destruct a; cbn [face_lo face_hi] in *; lia.
Qed.
Lemma pepos s a : in_mesh_box c (s_mbbox s) -> (s_mbbox s (face_lo a) < s_mbbox s (face_hi a))%Z ->
  0 < sum (s_mbbox s (face_lo a)) (s_mbbox s (face_hi a) - 1)%Z (pe c de a).
Proof.
  intros B O. apply sum_pos; [lia|]. intros n Hn. unfold pe. apply sizes. specialize (B a). cfg_facts c W. destruct a; cbn [face_lo face_hi] in *; lia.
Qed.

Lemma nested_sum la ha lb hb f g x : sum la ha (fun u => sum lb hb (fun v => x * (f u * g v))) = x * (sum la ha f * sum lb hb g).
Proof.
  rewrite (sum_ext la ha _ (fun u => f u * (x * sum lb hb g))).
  - rewrite sum_scale_r. ring.
  - intros u _. rewrite <- sum_scale, <- sum_scale. apply sum_ext. intros v _. ring.
Qed.
Lemma ecur p b x : elec_current c dh b p x =
  x * (sum (b (face_lo (fst (other p)))) (b (face_hi (fst (other p)))) (se c dh (fst (other p))) *
       sum (b (face_lo (snd (other p)))) (b (face_hi (snd (other p)))) (se c dh (snd (other p)))).
Proof. unfold elec_current, lo, hi. apply nested_sum. Qed.
Lemma mcur p b x : mag_current c de b p x =
  x * (sum (b (face_lo (fst (other p)))) (b (face_hi (fst (other p))) - 1)%Z (pe c de (fst (other p))) *
       sum (b (face_lo (snd (other p)))) (b (face_hi (snd (other p))) - 1)%Z (pe c de (snd (other p)))).
Proof. unfold mag_current, lo, hi. apply nested_sum. Qed.
Lemma earea s p : in_mesh_box c (s_mbbox s) -> elecArea dh (gbox s) p =
  sum (s_mbbox s (face_lo (fst (other p)))) (s_mbbox s (face_hi (fst (other p)))) (se c dh (fst (other p))) *
  sum (s_mbbox s (face_lo (snd (other p)))) (s_mbbox s (face_hi (snd (other p)))) (se c dh (snd (other p))).
Proof.
  intros B. unfold elecArea, elecSide. destruct p; cbn [nextAxis axis_eqb other fst snd];
  rewrite !(proj1 (esum s _ B)); ring.
Qed.
Lemma marea s p : in_mesh_box c (s_mbbox s) -> magArea de (gbox s) p =
  sum (s_mbbox s (face_lo (fst (other p)))) (s_mbbox s (face_hi (fst (other p))) - 1)%Z (pe c de (fst (other p))) *
  sum (s_mbbox s (face_lo (snd (other p)))) (s_mbbox s (face_hi (snd (other p))) - 1)%Z (pe c de (snd (other p))).
Proof.
  intros B. unfold magArea, magSide. destruct p; cbn [nextAxis axis_eqb other fst snd];
  rewrite !(proj2 (esum s _ B)); ring.
Qed.
End One.

(** The strength of a source at an instant: amplitude times waveform value. *)
Theorem C26_sources : forall nx ny nz reg c, setupCfg nx ny nz reg = Some c ->
  forall de dh, sizes_pos c de dh ->
  forall wfs srcs (w : Src -> R), Forall (accepted_src c wfs) srcs ->
  exists (d : Src -> Drive) (v : Src -> R),
  (forall s hard q p, In s srcs -> meaningful hard q p -> findTag (tagOf hard q p) = Some (s_tag s) ->
     ordered (s_mbbox s) -> extent_ok (s_mbbox s) p q ->
     produces c de dh (s_mbbox s) p q (s_size s * w s) (d s) (v s)) /\
  forall m,
  applied_all c true (map (fun s => (s, d s, v s)) srcs) m
    (run rArith (flat (updateSourcesEfield (map (fun s => actOf c de dh s (w s)) srcs))) m) /\
  applied_all c false (map (fun s => (s, d s, v s)) srcs) m
    (run rArith (flat (updateSourcesHfield (map (fun s => actOf c de dh s (w s)) srcs))) m).
Proof.
  intros nx ny nz reg c HS de dh HP wfs srcs w HA. pose proof (setup_wf _ _ _ _ _ HS) as W.
  exists (fun s => match driveOf (fst (fst (convert de dh (gbox c s) s))) with Some (_, d) => d | None => DField end).
  exists (fun s => snd (fst (convert de dh (gbox c s) s)) * w s). split.
  - intros s hard q p I M T O X. rewrite Forall_forall in HA. pose proof (accepted_src_ok c wfs s (HA s I)) as (BO & _ & _).
    destruct BO as (B & _). destruct (tag_fields hard q p _ M T) as (T1 & T2 & T3 & T4).
    pose proof (sepos c W de dh HP s) as SP. pose proof (pepos c W de dh HP s) as PP.
    unfold convert. rewrite T1, T2. destruct q; cbn [typeOf driveOf fst snd produces]; auto.
    + split; [reflexivity|]. rewrite ecur, (earea c de dh s p B). field.
      pose proof (SP (fst (other p)) B (O _)). pose proof (SP (snd (other p)) B (O _)). lra.
    + split; [reflexivity|]. rewrite mcur, (marea c de dh s p B). cbn [extent_ok] in X. field.
      assert (A1 : fst (other p) <> p) by (destruct p; discriminate). assert (A2 : snd (other p) <> p) by (destruct p; discriminate).
      pose proof (PP (fst (other p)) B (X _ A1)). pose proof (PP (snd (other p)) B (X _ A2)). lra.
    + split; [reflexivity|]. unfold elec_moment, lo, hi. rewrite sum_scale. rewrite ecur, (earea c de dh s p B).
      unfold elecLength. rewrite (proj2 (esum c de dh s p B)). cbn [extent_ok] in X. field.
      pose proof (SP (fst (other p)) B (O _)). pose proof (SP (snd (other p)) B (O _)). pose proof (PP p B X). repeat split; lra.
    + split; [reflexivity|]. unfold mag_moment, lo, hi. rewrite sum_scale. rewrite mcur, (marea c de dh s p B).
      unfold magLength. rewrite (proj1 (esum c de dh s p B)). cbn [extent_ok] in X. field.
      assert (A1 : fst (other p) <> p) by (destruct p; discriminate). assert (A2 : snd (other p) <> p) by (destruct p; discriminate).
      pose proof (PP (fst (other p)) B (X _ A1)). pose proof (PP (snd (other p)) B (X _ A2)). pose proof (SP p B (O _)). repeat split; lra.
    + split; [reflexivity|]. unfold voltage, lo, hi. rewrite sum_scale. unfold elecLength. rewrite (proj2 (esum c de dh s p B)).
      cbn [extent_ok] in X. pose proof (PP p B X). field. lra.
  - intros m. rewrite flat_srcE, flat_srcH.
    assert (G : forall electric l m, Forall (accepted_src c wfs) l -> applied_all c electric
      (map (fun s => (s, match driveOf (fst (fst (convert de dh (gbox c s) s))) with Some (_, d) => d | None => DField end,
           snd (fst (convert de dh (gbox c s) s)) * w s)) l) m
      (run rArith (flat_map (src electric) (map (fun s => actOf c de dh s (w s)) l)) m)).
    { intros electric. induction l as [|s l IH]; intros m0 HF; cbn [map flat_map]; [constructor|].
      inversion HF as [|? ? H1 H2]; subst. rewrite run_app. econstructor; [|apply IH; auto].
      apply act_applied; [|reflexivity].
      apply accepted_src_ok in H1. destruct H1 as (_ & (h & q & p & M & T) & _). destruct (tag_fields h q p _ M T) as (T1 & T2 & T3 & T4).
      rewrite T3. unfold convert. rewrite T1.
      destruct q; cbn [typeOf]; try (destruct (Rlt_dec _ _)); cbn [fst snd driveOf fieldOf magnetic]; destruct p; reflexivity. }
    split; apply G; auto.
Qed.
(** A mesh with a soft current source over four edges and a hard voltage source. *)
Definition c26wf : list WfItem := [mkWf "wf1" GAUSSIAN_PULSE 1 0 1 0].
Definition tagNamed (t : string) : TagData := match findTag t with Some x => x | None => tagAt 0 end.
Definition c26a : Src := mkSrc "a" (tagNamed "IZ") (mkbox 1 2 1 2 1 3) 5 0 0 "wf1".
Definition c26b : Src := mkSrc "b" (tagNamed "=VX") (mkbox 2 4 2 2 2 2) 7 0 0 "wf1".
Example C26_nonvacuous : exists c, setupCfg 6 6 6 initBoundaryReg = Some c /\
  sizes_pos c (fun _ _ => 1) (fun _ _ => 1) /\ Forall (accepted_src c c26wf) [c26a; c26b] /\
  findTag (tagOf false qI ZDIR) = Some (s_tag c26a) /\ findTag (tagOf true qV XDIR) = Some (s_tag c26b) /\
  ordered (s_mbbox c26a) /\ ordered (s_mbbox c26b) /\ extent_ok (s_mbbox c26a) ZDIR qI /\ extent_ok (s_mbbox c26b) XDIR qV /\
  on_source c c26b EX (3 + gibox c XLO) (2 + gibox c YLO) (2 + gibox c ZLO) /\
  ~ on_source c c26b EX (4 + gibox c XLO) (2 + gibox c YLO) (2 + gibox c ZLO).
Proof.
  eexists. split; [reflexivity|]. split; [intros a n; split; intros; lra|]. split.
  { repeat constructor.
    - exists [], "a"%string, "IZ"%string, "wf1"%string, [5]. reflexivity.
    - exists [], "b"%string, "=VX"%string, "wf1"%string, [7]. reflexivity. }
  split; [reflexivity|]. split; [reflexivity|].
  split; [intros []; vm_compute; discriminate|]. split; [intros []; vm_compute; discriminate|].
  split; [exact I|]. split; [vm_compute; reflexivity|]. split.
  - split; [reflexivity|]. intros []; vm_compute; intuition congruence.
  - intros [_ H]. specialize (H XDIR). vm_compute in H. intuition congruence.
Qed.

(** What an accepted EX card creates: name, waveform, box and type as written; the
    optional numbers are size and delay, for lumped sources resistance, size
    and delay; a missing size is 1, a missing delay or resistance 0. *)
Theorem C26_card : forall mb wfs l b name ty wf args l', parseEX mb wfs l b name ty wf args = Some l' ->
  exists s, l' = (l ++ [s])%list /\ s_name s = name /\ s_wf s = wf /\ s_mbbox s = b /\ findTag ty = Some (s_tag s) /\
  match isLumped (t_type (s_tag s)), args with
  | false, [] => s_size s = 1 /\ s_delay s = 0
  | false, [a] => s_size s = a /\ s_delay s = 0
  | false, a :: d :: _ => s_size s = a /\ s_delay s = d
  | true, [] => s_resist s = 0 /\ s_size s = 1 /\ s_delay s = 0
  | true, [r] => s_resist s = r /\ s_size s = 1 /\ s_delay s = 0
  | true, [r; a] => s_resist s = r /\ s_size s = a /\ s_delay s = 0
  | true, r :: a :: d :: _ => s_resist s = r /\ s_size s = a /\ s_delay s = d
  end.
Proof.
  intros mb wfs l b name ty wf args l' H. unfold parseEX in H.
  destruct (isSource l name); [discriminate|]. destruct (findTag ty) as [t|] eqn:T; [|discriminate].
  destruct (negb (bboxIsNormal b)); [discriminate|]. destruct (negb (bboxIsWithin b mb)); [discriminate|].
  destruct (isLumped (t_type t)) eqn:LU.
  - destruct (match bboxType b with BB_LINE => negb (bboxIsElemental b) | _ => true end); [discriminate|].
    destruct (negb (isWaveform wfs wf)); [discriminate|]. injection H as <-. eexists. split; [reflexivity|]. cbn [s_name s_wf s_mbbox s_tag s_size s_delay s_resist].
    rewrite LU. repeat (split; [reflexivity|]). destruct args as [|r0 [|a0 [|d0 ?]]]; cbn; auto.
  - destruct (negb (isWaveform wfs wf)); [discriminate|]. injection H as <-. eexists. split; [reflexivity|]. cbn [s_name s_wf s_mbbox s_tag s_size s_delay s_resist].
    rewrite LU. repeat (split; [reflexivity|]). destruct args as [|a0 [|d0 ?]]; cbn; auto.
Qed.

(** *** Consequences for whole runs: a run excited by sources. *)
Definition srcRunE (c : Cfg) (de dh : Axis -> Z -> R) (srcs : list Src) (w : nat -> Src -> R) (t : nat) : list (item R) :=
  updateSourcesEfield (map (fun s => actOf c de dh s (w t s)) srcs).
Definition srcRunH (c : Cfg) (de dh : Axis -> Z -> R) (srcs : list Src) (w : nat -> Src -> R) (t : nat) : list (item R) :=
  updateSourcesHfield (map (fun s => actOf c de dh s (w t s)) srcs).

(** No access outside the arrays (C06 with sources). *)
Theorem C26_in_bounds : forall nx ny nz reg c, setupCfg nx ny nz reg = Some c ->
  forall de dh wfs srcs wE wH, Forall (accepted_src c wfs) srcs ->
  forall n m, exists m', runO rArith (dims c) (flat (steps c (srcRunE c de dh srcs wE) (srcRunH c de dh srcs wH) 0 n)) m = Some m'.
Proof.
  intros nx ny nz reg c HS de dh wfs srcs wE wH HA n m. pose proof (setup_wf _ _ _ _ _ HS) as W. eexists. apply runO_some.
  assert (X : forall electric w s, In s (flat_map (src electric) (map (fun s => actOf c de dh s (w s)) srcs)) -> sinb (dims c) s = true).
  { intros electric w s H. apply in_flat_map in H. destruct H as (a & Ia & H). apply in_map_iff in Ia. destruct Ia as (x & <- & Ix).
    rewrite Forall_forall in HA. destruct (accepted_src_ok c wfs x (HA x Ix)) as ((B & _) & _).
    eapply src_inb; eauto. exists (s_mbbox x). split; [exact B|]. unfold actOf. destruct (convert _ _ _ _) as [[? ?] ?]. reflexivity. }
  generalize 0%nat. induction n as [|n IH]; intros t s; cbn [steps]; [contradiction|].
  rewrite flat_app, in_app_iff. intros [H|H]; [|eauto].
  unfold timeStep in H. rewrite !flat_app, !in_app_iff in H.
  assert (Y : forall s, In s (flat (coreStep (V:=R) c)) -> sinb (dims c) s = true) by (intros; apply coreStep_inb; auto).
  unfold coreStep, timeStep in Y. cbn [app] in Y.
  destruct H as [H|[H|[H|[H|[H|H]]]]].
  - apply Y. rewrite !flat_app, !in_app_iff. auto.
  - unfold srcRunE in H. rewrite flat_srcE in H. eapply X; eauto.
  - apply Y. rewrite !flat_app, !in_app_iff. auto.
  - apply Y. rewrite !flat_app, !in_app_iff. auto.
  - unfold srcRunH in H. rewrite flat_srcH in H. eapply X; eauto.
  - apply Y. rewrite !flat_app, !in_app_iff. auto.
Qed.

(** Superposition of waveforms (C10 with the program's own sources): the run
    driven by a*w1+b*w2 is a times the run driven by w1 plus b times the run
    driven by w2, for soft and hard sources alike. *)
Lemma src_sup a b c de dh srcs (w1 w2 : Src -> R) electric :
  sup_prog a b (flat_map (src electric) (map (fun s => actOf c de dh s (w1 s)) srcs))
               (flat_map (src electric) (map (fun s => actOf c de dh s (w2 s)) srcs))
               (flat_map (src electric) (map (fun s => actOf c de dh s (a * w1 s + b * w2 s)) srcs)).
Proof.
  assert (APP : forall p1 p2 p3 q1 q2 q3, sup_prog a b p1 p2 p3 -> sup_prog a b q1 q2 q3 -> sup_prog a b (p1 ++ q1) (p2 ++ q2) (p3 ++ q3)).
  { intros p1 p2 p3 q1 q2 q3 H H'. induction H; cbn [app]; auto. constructor; auto. }
  induction srcs as [|s srcs IH]; cbn [map flat_map]; [constructor|]. apply APP; [|exact IH].
  rewrite !src_shape. unfold actOf. destruct (convert _ _ _ _) as [[ty size] ld]. cbn [a_type a_field a_lim a_soft a_val].
  destruct (driveOf ty) as [[e d]|]; [|constructor]. destruct (_ && _); [|constructor].
  unfold pointProg, nestS, for_.
  assert (FM : forall (l : list Z) (g1 g2 g3 : Z -> list (stmt R)), (forall z, sup_prog a b (g1 z) (g2 z) (g3 z)) ->
     sup_prog a b (flat_map g1 l) (flat_map g2 l) (flat_map g3 l)).
  { induction l as [|z l IHl]; intros g1 g2 g3 H; cbn [flat_map]; [constructor|]. apply APP; auto. }
  apply FM; intros i. apply FM; intros j. apply FM; intros k. constructor; [discriminate| |constructor].
  set (f := t_field (s_tag s)).
  assert (SC : forall so, sup a b (Mul (Cst so) (F f i j k)) (Mul (Cst so) (F f i j k)) (Mul (Cst so) (F f i j k))).
  { intros so. apply sup_mull; [intros l []|]. apply sup_rd. discriminate. }
  assert (CE : size * (a * w1 s + b * w2 s) = a * (size * w1 s) + b * (size * w2 s)) by ring.
  rewrite CE. unfold rhsOf. destruct d; constructor; auto; [constructor|].
  apply sup_mull; [|constructor]. intros l. unfold BETA, GAMMA. destruct (is_E f); cbn [reads In]; intros [<-|[]]; reflexivity.
Qed.
Theorem C26_superposition : forall nx ny nz reg c, setupCfg nx ny nz reg = Some c ->
  forall de dh srcs a b (wE1 wE2 wH1 wH2 : nat -> Src -> R) n m1 m2 m3, sup_mem a b m1 m2 m3 ->
  sup_mem a b
    (run rArith (flat (steps c (srcRunE c de dh srcs wE1) (srcRunH c de dh srcs wH1) 0 n)) m1)
    (run rArith (flat (steps c (srcRunE c de dh srcs wE2) (srcRunH c de dh srcs wH2) 0 n)) m2)
    (run rArith (flat (steps c (srcRunE c de dh srcs (fun t s => a * wE1 t s + b * wE2 t s))
                               (srcRunH c de dh srcs (fun t s => a * wH1 t s + b * wH2 t s)) 0 n)) m3).
Proof.
  intros nx ny nz reg c HS de dh srcs a b wE1 wE2 wH1 wH2 n m1 m2 m3 HM.
  eapply C10_superposition; eauto; intros t; unfold srcRunE, srcRunH; rewrite ?flat_srcE, ?flat_srcH; apply src_sup.
Qed.

(** The sources are local updates in the sense of C09: the theorems C09_upward,
    C09_downward and C09_box hold of runs excited by EX cards. *)
Theorem C26_sources_in_place : forall c de dh srcs wE wH t,
  in_place (srcRunE c de dh srcs wE t) /\ in_place (srcRunH c de dh srcs wH t).
Proof.
  intros. split; intros s H; unfold srcRunE, srcRunH in H; rewrite ?flat_srcE, ?flat_srcH in H;
  apply in_flat_map in H; destruct H as (a & _ & H); eapply src_in_place; eauto.
Qed.

(** ** C54: the manual documents the lumped current source as IRX, IRY, IRZ; the
    parser knows it as IGX, IGY, IGZ only and rejects the documented tags. *)
Theorem C54_norton_tag_refuted : forall a, findTag ("IR" ++ letter a)%string = None /\ findTag (tagOf false qIG a) <> None.
Proof. intros []; split; vm_compute; congruence. Qed.
(** every other documented tag is accepted *)
Theorem C54_other_tags_partial : forall hard q p, q <> qIG -> meaningful hard q p -> findTag (tagOf hard q p) <> None.
Proof. intros hard q p _ M. destruct (C26_tags hard q p M) as (t & H & _). congruence. Qed.

(** ** C52: current sheets.  The manual: a sheet of polarisation [p] and second
    tangential direction [t] is normal to the third axis [n], and its volume
    density is the surface density divided by the secondary edge normal to the
    surface. *)
Definition third (p t : Axis) : Axis :=
  match p, t with
  | XDIR, YDIR | YDIR, XDIR => ZDIR | YDIR, ZDIR | ZDIR, YDIR => XDIR | _, _ => YDIR end.
Definition sheet_ok (c : Cfg) (de dh : Axis -> Z -> R) (b : BBox) (p t : Axis) (mag : bool) (K v : R) : Prop :=
  v * (if mag then pe c de (third p t) (b (face_lo (third p t))) else se c dh (third p t) (b (face_lo (third p t)))) = K.

(** What the program does instead: it divides by the extent of the sheet along
    its second tangential direction. *)
Lemma sheet_value : forall c, wf c -> forall de dh wfs s w, accepted_src c wfs s ->
  forall hard p t, meaningful hard (qJS t) p -> findTag (tagOf hard (qJS t) p) = Some (s_tag s) ->
  let r := convert de dh (gbox c s) s in
  fst (fst r) = ST_ELEC_CURR_DENSITY /\
  snd (fst r) * w = s_size s / sum (s_mbbox s (face_lo t)) (s_mbbox s (face_hi t)) (se c dh t) * w.
Proof.
  intros c W de dh wfs s w HA hard p t M T. destruct (accepted_src_ok c wfs s HA) as ((B & _) & _).
  cbv zeta. unfold convert. destruct (tag_fields hard (qJS t) p _ M T) as (T1 & T2 & T3 & T4). rewrite T1, T2. cbn [typeOf fst snd].
  split; [reflexivity|]. do 2 f_equal.
  assert (N : t_norm (s_tag s) = Some t).
  { cbn [meaningful] in M. clear - M T. destruct s as [? tg ? ? ? ? ?]. cbn [s_tag] in *.
    destruct p, t; try congruence; destruct hard; vm_compute in T; injection T as T; rewrite <- T; reflexivity. }
  rewrite N. cbn [sideOf]. unfold elecSide. cbn [meaningful] in M.
  destruct (axis_eqb t p) eqn:E; [apply axis_eqb_spec in E; congruence|]. apply (esum c de dh s t B).
Qed.
(** The documented value results exactly when that extent happens to equal the
    thickness of the sheet. *)
Theorem C52_sheet_partial : forall nx ny nz reg c, setupCfg nx ny nz reg = Some c ->
  forall de dh, sizes_pos c de dh -> forall wfs s w, accepted_src c wfs s -> ordered (s_mbbox s) -> s_size s * w <> 0 ->
  forall hard p t, meaningful hard (qJS t) p -> findTag (tagOf hard (qJS t) p) = Some (s_tag s) ->
  (sheet_ok c de dh (s_mbbox s) p t false (s_size s * w) (snd (fst (convert de dh (gbox c s) s)) * w) <->
   sum (s_mbbox s (face_lo t)) (s_mbbox s (face_hi t)) (se c dh t) = se c dh (third p t) (s_mbbox s (face_lo (third p t)))).
Proof.
  intros nx ny nz reg c HS de dh HP wfs s w HA O NZ hard p t M T. pose proof (setup_wf _ _ _ _ _ HS) as W.
  destruct (sheet_value c W de dh wfs s w HA hard p t M T) as [_ ->].
  destruct (accepted_src_ok c wfs s HA) as ((B & _) & _). pose proof (sepos c W de dh HP s t B (O t)) as SP.
  unfold sheet_ok. set (S := sum _ _ _) in *. set (n := se _ _ _ _). clearbody S n.
  split; intros H.
  - assert (X : s_size s * w * n = s_size s * w * S).
    { rewrite <- H at 2. field. lra. }
    apply Rmult_eq_reg_l in X; auto.
  - rewrite <- H. field. lra.
Qed.
(** The manual's own example (UserManual 1944: JSXY on 15 20 15 20 10 10, all
    cells equal): the injected density is six times too small. *)
Definition c52s : Src := mkSrc "current_sheet" (tagNamed "JSXY") (mkbox 15 20 15 20 10 10) 1 0 0 "wf1".
Theorem C52_sheet_refuted : forall dx, 0 < dx -> exists c, setupCfg 31 31 31 initBoundaryReg = Some c /\
  accepted_src c c26wf c52s /\ sizes_pos c (fun _ _ => dx) (fun _ _ => dx) /\ ordered (s_mbbox c52s) /\
  let v := snd (fst (convert (fun _ _ => dx) (fun _ _ => dx) (gbox c c52s) c52s)) * 1 in
  ~ sheet_ok c (fun _ _ => dx) (fun _ _ => dx) (s_mbbox c52s) XDIR YDIR false 1 v /\ 6 * v * dx = 1.
Proof.
  intros dx P. eexists. split; [reflexivity|].
  match goal with |- accepted_src ?c0 _ _ /\ _ => set (c := c0) end.
  assert (HA : accepted_src c c26wf c52s) by (exists [], "current_sheet"%string, "JSXY"%string, "wf1"%string, [1]; reflexivity).
  split; [exact HA|]. split; [intros a n; split; intros; lra|]. split; [intros []; vm_compute; discriminate|].
  assert (W : wf c) by (apply (setup_wf 31 31 31 initBoundaryReg); reflexivity).
  cbv zeta.
  destruct (sheet_value c W (fun _ _ => dx) (fun _ _ => dx) c26wf c52s 1 HA false XDIR YDIR) as [_ ->]; [discriminate|reflexivity|].
  assert (S : sum (s_mbbox c52s (face_lo YDIR)) (s_mbbox c52s (face_hi YDIR)) (se c (fun _ _ => dx) YDIR) = 6 * dx).
  { unfold sum, se, c52s. cbn [s_mbbox mkbox face_lo face_hi]. change (zrange 15 20) with [15; 16; 17; 18; 19; 20]%Z.
    cbn [map fold_right]. ring. }
  rewrite S. unfold sheet_ok, se. change (s_size c52s) with 1.
  assert (X : 1 / (6 * dx) * 1 * dx = / 6) by (field; lra).
  split; [rewrite X; lra|]. field. lra.
Qed.

(** ** C53: lumped sources. *)
Section Lumped.
Variables (c : Cfg) (W : wf c).
Lemma phaseE_grid m f i j k : is_E f = true -> inl (gfilim c f) i j k ->
  run rArith (flat (phaseE c)) m (L (AF f) i j k) =
  alpha m f i j k * fld m f i j k + beta m f i j k * eval rArith m (cH f i j k).
Proof.
  intros E H. pose proof (step_gridE rArith c W m f i j k E H) as S. pose proof (grid_lim_outer c f i j k W H) as HO.
  unfold step, coreStep, timeStep in S. cbn [app] in S. rewrite !flat_app, !run_app in S.
  rewrite writes_0_frame in S by (apply ghostH_inside; auto).
  rewrite writes_0_frame in S by (apply phaseH_other; cbn; congruence).
  rewrite writes_0_frame in S by (apply ghostE_inside; auto).
  rewrite S. unfold updStmt. rewrite E. cbn [rhs eval ALPHA BETA F rArith vadd vmul]. reflexivity.
Qed.
(** one step with one source *)
Lemma step_source de dh wfs s w m i j k d v : accepted_src c wfs s ->
  is_E (t_field (s_tag s)) = true -> inl (gfilim c (t_field (s_tag s))) i j k -> on_source c s (t_field (s_tag s)) i j k ->
  driveOf (fst (fst (convert de dh (gbox c s) s))) = Some (true, d) ->
  v = snd (fst (convert de dh (gbox c s) s)) * w ->
  let f := t_field (s_tag s) in
  run rArith (flat (timeStep c (updateSourcesEfield [actOf c de dh s w]) (updateSourcesHfield [actOf c de dh s w]))) m (L (AF f) i j k) =
  carried s (alpha m f i j k * fld m f i j k + beta m f i j k * eval rArith m (cH f i j k)) +
  match d with DField => v | DCurrent => - (beta m f i j k * v) end.
Proof.
  intros HA E HG HO HD HV f. subst f. set (f := t_field (s_tag s)) in *. pose proof (grid_lim_outer c f i j k W HG) as HX.
  unfold timeStep. rewrite !flat_app, !run_app.
  rewrite writes_0_frame by (apply ghostH_inside; auto).
  rewrite run_frame.
  2:{ rewrite flat_srcH. cbn [flat_map]. rewrite app_nil_r. unfold twrites. rewrite in_map_iff. intros (st & D & I).
      apply src_kind in I. rewrite D in I. cbn in I. congruence. }
  rewrite writes_0_frame by (apply phaseH_other; cbn; congruence).
  rewrite writes_0_frame by (apply ghostE_inside; auto).
  rewrite flat_srcE. cbn [flat_map]. rewrite app_nil_r.
  pose proof (act_applied c de dh true s w (run rArith (flat (phaseE c)) m) d v) as X. fold f in X. rewrite E in X.
  specialize (X HD HV (L (AF f) i j k)). destruct X as [X _]. rewrite (X f i j k eq_refl E HO).
  rewrite phaseE_grid by auto. unfold beta. rewrite (writes_0_frame rArith (flat (phaseE c)) m (L (ABeta f) i j k)) by (apply phaseE_other; cbn; congruence).
  reflexivity.
Qed.
End Lumped.

(** A single edge along its own polarisation, as the manual requires. *)
Definition single_edge (s : Src) : Prop :=
  forall a, s_mbbox s (face_hi a) = (s_mbbox s (face_lo a) + if axis_eqb a (t_pol (s_tag s)) then 1 else 0)%Z.
Definition lumped (s : Src) : Prop := t_type (s_tag s) = ST_THEVENIN_VOLTAGE \/ t_type (s_tag s) = ST_NORTON_CURRENT.
(** open-circuit voltage of a source of amplitude [A] now *)
Definition open_voltage (s : Src) (A : R) : R :=
  match t_type (s_tag s) with ST_NORTON_CURRENT => s_resist s * A | _ => A end.
(** area of the secondary face and length of the edge with mesh origin b *)
Definition edge_length (c : Cfg) (de : Axis -> Z -> R) (s : Src) : R := pe c de (t_pol (s_tag s)) (s_mbbox s (face_lo (t_pol (s_tag s)))).
Definition edge_area (c : Cfg) (dh : Axis -> Z -> R) (s : Src) : R :=
  let p := t_pol (s_tag s) in
  se c dh (fst (other p)) (s_mbbox s (face_lo (fst (other p)))) * se c dh (snd (other p)) (s_mbbox s (face_lo (snd (other p)))).
(** the media set-up of the source has filled the coefficients of its box and
    nothing changed them later *)
Definition loaded (c : Cfg) (eps0 mu0 dt : R) (de dh : Axis -> Z -> R) (s : Src) (m : mem R) : Prop :=
  exists m0, forall f i j k, on_source c s f i j k ->
    let m1 := run rArith (loadProg eps0 mu0 dt (gbox c s) (snd (convert de dh (gbox c s) s))) m0 in
    alpha m f i j k = alpha m1 f i j k /\ beta m f i j k = beta m1 f i j k.

Lemma sum_one n f : sum n n f = f n.
Proof. unfold sum. rewrite zrange_cons, zrange_empty by lia. cbn [map fold_right]. ring. Qed.
Lemma edge_sizes c de dh s : in_mesh_box c (s_mbbox s) -> single_edge s ->
  elecLength de (gbox c s) (t_pol (s_tag s)) = edge_length c de s /\ elecArea dh (gbox c s) (t_pol (s_tag s)) = edge_area c dh s.
Proof.
  intros B SE. set (p := t_pol (s_tag s)) in *. split.
  - unfold elecLength, edge_length. fold p. rewrite (proj2 (esum c de dh s p B)).
    pose proof (SE p) as E. fold p in E. assert (axis_eqb p p = true) as X by (destruct p; reflexivity). rewrite X in E.
    rewrite E. replace (s_mbbox s (face_lo p) + 1 - 1)%Z with (s_mbbox s (face_lo p)) by lia. apply sum_one.
  - rewrite (earea c de dh s p B). unfold edge_area. fold p.
    pose proof (SE (fst (other p))) as E1. pose proof (SE (snd (other p))) as E2. fold p in E1, E2.
    assert (axis_eqb (fst (other p)) p = false) as X1 by (destruct p; reflexivity).
    assert (axis_eqb (snd (other p)) p = false) as X2 by (destruct p; reflexivity). rewrite X1 in E1. rewrite X2 in E2.
    rewrite E1, E2, !Z.add_0_r, !sum_one. reflexivity.
Qed.
Lemma sizes_edge c de dh s : wf c -> sizes_pos c de dh -> in_mesh_box c (s_mbbox s) -> single_edge s ->
  0 < edge_length c de s /\ 0 < edge_area c dh s.
Proof.
  intros W HP B SE. set (p := t_pol (s_tag s)).
  assert (O : ordered (s_mbbox s)) by (intros a; pose proof (SE a); destruct (axis_eqb a _); lia).
  destruct (edge_sizes c de dh s B SE) as [<- <-]. fold p. split.
  - unfold elecLength. rewrite (proj2 (esum c de dh s p B)). apply pepos with (dh := dh); auto.
    pose proof (SE p) as E. fold p in E. assert (axis_eqb p p = true) as X by (destruct p; reflexivity). rewrite X in E. lia.
  - rewrite (earea c de dh s p B). apply Rmult_lt_0_compat; apply (sepos c W de dh HP s); auto.
Qed.

(** With a resistance above 0.01 ohm the lumped sources obey their circuit
    equation in every time step: the conduction current through the edge
    (Ampere's law: circulation of H minus displacement current) equals
    (open-circuit voltage - terminal voltage) / R, the terminal voltage being
    minus the mean of the edge field over the step times the edge length. *)
Theorem C53_lumped_circuit_partial : forall nx ny nz reg c, setupCfg nx ny nz reg = Some c ->
  forall de dh, sizes_pos c de dh -> forall eps0 mu0 dt, 0 < eps0 -> 0 < mu0 -> 0 < dt ->
  forall wfs s, accepted_src c wfs s -> lumped s -> single_edge s -> 1 / 100 < s_resist s ->
  forall w m i j k, let f := t_field (s_tag s) in
  inl (gfilim c f) i j k -> on_source c s f i j k -> loaded c eps0 mu0 dt de dh s m ->
  let m' := run rArith (flat (timeStep c (updateSourcesEfield [actOf c de dh s w]) (updateSourcesHfield [actOf c de dh s w]))) m in
  let circulation := edge_area c dh s * eval rArith m (cH f i j k) in
  let displacement := edge_area c dh s * (eps0 * (fld m' f i j k - fld m f i j k) / dt) in
  let terminal := - (edge_length c de s * ((fld m' f i j k + fld m f i j k) / 2)) in
  circulation - displacement = (open_voltage s (s_size s * w) - terminal) / s_resist s.
Proof.
  intros nx ny nz reg c HS de dh HP eps0 mu0 dt P1 P2 P3 wfs s HA HL SE HR w m i j k f HG HO (m0 & LD) m' circulation displacement terminal.
  pose proof (setup_wf _ _ _ _ _ HS) as W. destruct (accepted_src_ok c wfs s HA) as ((B & _) & (hd & q & p & M & T) & _).
  destruct (tag_fields hd q p _ M T) as (T1 & T2 & T3 & T4).
  assert (Q : q = qVR \/ q = qIG) by (destruct HL as [HL|HL]; rewrite T1 in HL; destruct q; try discriminate HL; auto).
  assert (E : is_E f = true) by (subst f; rewrite T3; destruct Q as [-> | ->]; destruct p; reflexivity).
  assert (SO : t_soft (s_tag s) = true) by (rewrite T4; destruct Q as [-> | ->]; cbn [meaningful] in M; subst hd; reflexivity).
  destruct (edge_sizes c de dh s B SE) as [EL EA]. destruct (sizes_edge c de dh s W HP B SE) as [PL PA].
  assert (CV : convert de dh (gbox c s) s = (ST_ELEC_CURR_DENSITY, open_voltage s (s_size s) / edge_area c dh s / s_resist s,
            Resistive (edge_length c de s / (edge_area c dh s * s_resist s)))).
  { unfold convert, open_voltage. rewrite EL, EA.
    destruct HL as [HL|HL]; rewrite HL; (destruct (Rlt_dec MIN_RESISTANCE (s_resist s)); [reflexivity|unfold MIN_RESISTANCE in *; lra]). }
  rewrite CV in LD. cbn [snd] in LD.
  assert (V' : fld m' f i j k = carried s (alpha m f i j k * fld m f i j k + beta m f i j k * eval rArith m (cH f i j k)) +
      - (beta m f i j k * (open_voltage s (s_size s) / edge_area c dh s / s_resist s * w))).
  { unfold m', fld at 1. subst f. rewrite (step_source c W de dh wfs s w m i j k DCurrent (open_voltage s (s_size s) / edge_area c dh s / s_resist s * w)); auto;
    rewrite CV; reflexivity. }
  destruct (LD f i j k HO) as [LA LB]. cbn [loadProg] in LA, LB.
  assert (CO : yee_in f (gbox c s) (faceMask2boolArray FACE_MASK_ALL) i j k).
  { destruct HO as [_ HO]. apply yee_in_offset in HO. eapply yee_in_ext; [| |exact HO]; [reflexivity|]. intros []; reflexivity. }
  set (sigma := edge_length c de s / (edge_area c dh s * s_resist s)) in *.
  set (coef := fun _ : nat => calcCoeffFromParam eps0 mu0 dt (mkMP MT_SIMPLE 1 sigma 1 [])) in *.
  pose proof (proj1 (setMedium_getc rArith coef (gbox c s) 2 FACE_MASK_ALL m0 f i j k) CO) as G.
  unfold getc, cval in G. rewrite E in G. injection G as GA GB. unfold alpha in LA at 2. unfold beta in LB at 2. rewrite GA in LA. rewrite GB in LB.
  unfold coef, calcCoeffFromParam in LA, LB. cbn [m_eps m_sigma m_mu m_poles calpha cbeta dsum fold_left] in LA, LB.
  unfold carried in V'. rewrite SO, LA, LB in V'.
  unfold circulation, displacement, terminal. set (E0 := fld m f i j k) in *. set (E1 := fld m' f i j k) in *.
  set (C := eval rArith m (cH f i j k)) in *. set (A := edge_area c dh s) in *. set (Ln := edge_length c de s) in *. set (Rs := s_resist s) in *.
  assert (OV : open_voltage s (s_size s * w) = open_voltage s (s_size s) * w) by (unfold open_voltage; destruct (t_type (s_tag s)); ring).
  rewrite OV. set (V := open_voltage s (s_size s)) in *.
  clearbody E0 E1 C A Ln Rs V. clear - V' PL PA HR P1 P3. unfold sigma in V'.
  assert (D : 0 < 2 * eps0 * A * Rs + dt * Ln).
  { assert (0 < eps0 * A * Rs) by (repeat apply Rmult_lt_0_compat; lra). pose proof (Rmult_lt_0_compat dt Ln P3 PL). lra. }
  assert (X : E1 * (2 * eps0 * A * Rs + dt * Ln) = (2 * eps0 * A * Rs - dt * Ln) * E0 + 2 * dt * A * Rs * C - 2 * dt * V * w).
  { rewrite V'. replace 2.0 with 2 by lra. field. repeat split; try lra. }
  replace E1 with (((2 * eps0 * A * Rs - dt * Ln) * E0 + 2 * dt * A * Rs * C - 2 * dt * V * w) / (2 * eps0 * A * Rs + dt * Ln))
    by (rewrite <- X; field; lra).
  field. repeat split; lra.
Qed.

(** A 50 ohm source of 1 V on one edge. *)
Definition c53s : Src := mkSrc "feed" (tagNamed "VRZ") (mkbox 2 2 2 2 2 3) 1 0 50 "wf1".
Example C53_nonvacuous : exists c, setupCfg 6 6 6 initBoundaryReg = Some c /\
  sizes_pos c (fun _ _ => 1) (fun _ _ => 1) /\ accepted_src c c26wf c53s /\ lumped c53s /\ single_edge c53s /\ 1 / 100 < s_resist c53s /\
  inl (gfilim c EZ) (2 + gibox c XLO) (2 + gibox c YLO) (2 + gibox c ZLO) /\
  on_source c c53s EZ (2 + gibox c XLO) (2 + gibox c YLO) (2 + gibox c ZLO) /\
  exists m, loaded c 1 1 1 (fun _ _ => 1) (fun _ _ => 1) c53s m.
Proof.
  eexists. split; [reflexivity|]. split; [intros a n; split; intros; lra|]. split.
  { exists [], "feed"%string, "VRZ"%string, "wf1"%string, [50; 1]. reflexivity. }
  split; [left; reflexivity|]. split; [intros []; reflexivity|]. split; [cbn [c53s s_resist]; lra|].
  split; [vm_compute; intuition congruence|].
  split; [split; [reflexivity|]; intros []; vm_compute; intuition congruence|].
  match goal with |- exists m, loaded ?c _ _ _ _ _ _ _ =>
    exists (run rArith (loadProg 1 1 1 (gbox c c53s) (snd (convert (fun _ _ => 1) (fun _ _ => 1) (gbox c c53s) c53s))) (fun _ => 0)) end.
  exists (fun _ => 0). intros f i j k _. split; reflexivity.
Qed.

(** With a resistance of at most 0.01 ohm the edge is made a perfect conductor
    and half the voltage is added softly: from zero fields a constant open-circuit
    voltage V gives the edge voltage V/2, 0, V/2, 0, ...: it is never V. *)
Theorem C53_ideal_source_refuted : forall nx ny nz reg c, setupCfg nx ny nz reg = Some c ->
  forall de dh, sizes_pos c de dh -> forall eps0 mu0 dt wfs s, accepted_src c wfs s -> lumped s -> single_edge s -> s_resist s <= 1 / 100 ->
  forall w m i j k, let f := t_field (s_tag s) in
  inl (gfilim c f) i j k -> on_source c s f i j k -> loaded c eps0 mu0 dt de dh s m -> fld m f i j k = 0 ->
  forall n,
  let m' := run rArith (flat (steps c (srcRunE c de dh [s] (fun _ _ => w)) (srcRunH c de dh [s] (fun _ _ => w)) 0 n)) m in
  let V := open_voltage s (s_size s * w) in
  - (edge_length c de s * fld m' f i j k) = (if Nat.even n then 0 else V / 2) /\
  (V <> 0 -> - (edge_length c de s * fld m' f i j k) <> V).
Proof.
  intros nx ny nz reg c HS de dh HP eps0 mu0 dt wfs s HA HL SE HR w m i j k f HG HO (m0 & LD) Z0 n.
  pose proof (setup_wf _ _ _ _ _ HS) as W. destruct (accepted_src_ok c wfs s HA) as ((B & _) & (hd & q & p & M & T) & _).
  destruct (tag_fields hd q p _ M T) as (T1 & T2 & T3 & T4).
  assert (Q : q = qVR \/ q = qIG) by (destruct HL as [HL|HL]; rewrite T1 in HL; destruct q; try discriminate HL; auto).
  assert (E : is_E f = true) by (subst f; rewrite T3; destruct Q as [-> | ->]; destruct p; reflexivity).
  assert (SO : t_soft (s_tag s) = true) by (rewrite T4; destruct Q as [-> | ->]; cbn [meaningful] in M; subst hd; reflexivity).
  destruct (edge_sizes c de dh s B SE) as [EL EA]. destruct (sizes_edge c de dh s W HP B SE) as [PL PA].
  assert (CV : convert de dh (gbox c s) s = (ST_EFIELD, - (1 / 2) * open_voltage s (s_size s) / edge_length c de s, Short)).
  { unfold convert, open_voltage. rewrite EL, EA.
    destruct HL as [HL|HL]; rewrite HL; (destruct (Rlt_dec MIN_RESISTANCE (s_resist s)); [unfold MIN_RESISTANCE in *; lra|reflexivity]). }
  rewrite CV in LD. cbn [snd] in LD. destruct (LD f i j k HO) as [LA LB]. cbn [loadProg] in LA, LB. clear LD.
  assert (CO : yee_in f (gbox c s) (faceMask2boolArray FACE_MASK_ALL) i j k).
  { destruct HO as [_ HO]. apply yee_in_offset in HO. eapply yee_in_ext; [| |exact HO]; [reflexivity|]. intros []; reflexivity. }
  pose proof (proj1 (setMedium_getc rArith (initMedia eps0 mu0 dt []) (gbox c s) MT_PEC_num FACE_MASK_ALL m0 f i j k) CO) as G.
  unfold getc, cval in G. rewrite E in G. injection G as GA GB. unfold alpha in LA at 2. unfold beta in LB at 2.
  rewrite GA in LA. rewrite GB in LB. clear GA GB. cbn [initMedia MT_PEC_num calpha cbeta] in LA, LB.
  assert (OV : open_voltage s (s_size s * w) = open_voltage s (s_size s) * w) by (unfold open_voltage; destruct (t_type (s_tag s)); ring).
  set (x := open_voltage s (s_size s) * w / (2 * edge_length c de s)).
  assert (ST : forall t m1, alpha m1 f i j k = -1 -> beta m1 f i j k = 0 ->
     let m2 := run rArith (flat (timeStep c (srcRunE c de dh [s] (fun _ _ => w) t) (srcRunH c de dh [s] (fun _ _ => w) t))) m1 in
     alpha m2 f i j k = -1 /\ beta m2 f i j k = 0 /\ fld m2 f i j k = - fld m1 f i j k - x).
  { intros t m1 A1 B1. cbv zeta. unfold srcRunE, srcRunH. cbn [map].
    assert (KEEP : forall l, kind l = None -> run rArith (flat (timeStep c (updateSourcesEfield [actOf c de dh s w]) (updateSourcesHfield [actOf c de dh s w]))) m1 l = m1 l).
    { intros l K. apply run_frame. unfold twrites. rewrite in_map_iff. intros (st & D & I).
      unfold timeStep in I. rewrite !flat_app, !in_app_iff in I. rewrite flat_srcE, flat_srcH in I. cbn [flat_map] in I. rewrite !app_nil_r in I.
      assert (N : kind (dst st) <> None).
      { destruct I as [I|[I|[I|[I|[I|I]]]]].
        - apply phaseE_shape, stE_kind in I. congruence.
        - apply src_kind in I. congruence.
        - apply ghostE_shape, stG_kind in I. congruence.
        - apply phaseH_shape, stH_kind in I. congruence.
        - apply src_kind in I. congruence.
        - apply ghostH_shape, stG_kind in I. congruence. }
      congruence. }
    split; [unfold alpha; rewrite KEEP by reflexivity; exact A1|]. split; [unfold beta; rewrite KEEP by reflexivity; exact B1|].
    unfold fld at 1. subst f. rewrite (step_source c W de dh wfs s w m1 i j k DField (- (1 / 2) * open_voltage s (s_size s) / edge_length c de s * w)); auto; try (rewrite CV; reflexivity).
    unfold carried. rewrite SO, A1, B1. unfold x. field. lra. }
  assert (RUN : forall n t m1, alpha m1 f i j k = -1 -> beta m1 f i j k = 0 ->
     fld (run rArith (flat (steps c (srcRunE c de dh [s] (fun _ _ => w)) (srcRunH c de dh [s] (fun _ _ => w)) t n)) m1) f i j k =
     if Nat.even n then fld m1 f i j k else - fld m1 f i j k - x).
  { clear n. induction n as [|n IH]; intros t m1 A1 B1; [reflexivity|]. cbn [steps]. rewrite flat_app, run_app.
    destruct (ST t m1 A1 B1) as (A2 & B2 & F2). rewrite IH by auto. rewrite F2.
    rewrite Nat.even_succ, <- Nat.negb_even. destruct (Nat.even n); cbn [negb]; [reflexivity|ring]. }
  cbv zeta. rewrite (RUN n 0%nat m LA LB), Z0, OV.
  assert (X : - (edge_length c de s * (if Nat.even n then 0 else - 0 - x)) = if Nat.even n then 0 else open_voltage s (s_size s) * w / 2).
  { destruct (Nat.even n); [ring|]. unfold x. field. lra. }
  rewrite X. split; [reflexivity|]. intros NZ. destruct (Nat.even n); lra.
Qed.
Definition c53z : Src := mkSrc "feed" (tagNamed "VRZ") (mkbox 2 2 2 2 2 3) 1 0 0 "wf1".
Example C53_ideal_nonvacuous : exists c, setupCfg 6 6 6 initBoundaryReg = Some c /\
  accepted_src c c26wf c53z /\ lumped c53z /\ single_edge c53z /\ s_resist c53z <= 1 / 100 /\
  exists m, loaded c 1 1 1 (fun _ _ => 1) (fun _ _ => 1) c53z m /\
    fld m EZ (2 + gibox c XLO) (2 + gibox c YLO) (2 + gibox c ZLO) = 0.
Proof.
  eexists. split; [reflexivity|]. split.
  { exists [], "feed"%string, "VRZ"%string, "wf1"%string, [0; 1]. reflexivity. }
  split; [left; reflexivity|]. split; [intros []; reflexivity|]. split; [cbn [c53z s_resist]; lra|].
  match goal with |- exists m, loaded ?c _ _ _ _ _ _ _ /\ _ =>
    exists (run rArith (loadProg 1 1 1 (gbox c c53z) (snd (convert (fun _ _ => 1) (fun _ _ => 1) (gbox c c53z) c53z))) (fun _ => 0)) end.
  split; [exists (fun _ => 0); intros f i j k _; split; reflexivity|].
  unfold fld. rewrite run_frame; [reflexivity|]. unfold twrites. rewrite in_map_iff. intros (st & D & I).
  unfold convert in I. change (t_type (s_tag c53z)) with ST_THEVENIN_VOLTAGE in I. cbv zeta iota in I.
  destruct (Rlt_dec _ _); cbn [snd loadProg] in I; apply setMedium_stmt in I; destruct I as (_ & g & i' & j' & k' & _ & I);
  unfold setCoefBody in I; destruct (is_E g); cbn [In] in I; intuition (subst; discriminate).
Qed.
