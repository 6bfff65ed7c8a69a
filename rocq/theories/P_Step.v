(** Properties C06-C09 of the time step (E, H, PML, Mur and ghost updates). *)
From Coq Require Import ZArith List Bool Lia String.
From Verif Require Import Types Lang LangProofs BBox Grid Pml Mur Ghost Step Setup SpecGrid SetupProofs P_Setup
  StepShape StepBounds StepRace StepCount StepOnce SpecCone StepCone.
Import ListNotations.
Open Scope Z_scope.

(** C06. For every accepted mesh and boundary set-up, any number of time steps
    (starting from any memory, in any arithmetic) performs no out-of-bounds or
    NULL-array access: the bounds-checked execution, which stops with [None] at
    the first such access, completes. *)
Lemma steps_inb {V} c n : wf c -> forall t (s : stmt V),
  In s (flat (steps c (fun _ => []) (fun _ => []) t n)) -> sinb (dims c) s = true.
Proof.
  intros W. induction n; intros t s; cbn [steps]; [contradiction|].
  rewrite flat_app, in_app_iff. intros [H|H]; eauto. apply coreStep_inb; auto.
Qed.
Theorem C06_time_steps_in_bounds : forall nx ny nz reg c, setupCfg nx ny nz reg = Some c ->
  forall V (A : Arith V) n m, exists m',
    runO A (dims c) (flat (steps c (fun _ => []) (fun _ => []) 0 n)) m = Some m'.
Proof.
  intros nx ny nz reg c H V A n m. eexists. apply runO_some.
  intros s Hs. apply (steps_inb c n (setup_wf _ _ _ _ _ H) _ _ Hs).
Qed.
(** Every access of every loop of every step is inside its array. *)
Theorem C06_every_access : forall nx ny nz reg c, setupCfg nx ny nz reg = Some c ->
  forall V (s : stmt V), In s (flat (coreStep c)) ->
  forall l, l = dst s \/ In l (sreads s) ->
  exists ex ey ez, dims c (arr l) = Some (ex, ey, ez) /\
    0 <= li l < ex /\ 0 <= lj l < ey /\ 0 <= lk l < ez.
Proof.
  intros nx ny nz reg c H V s Hs l Hl.
  pose proof (coreStep_inb c s (setup_wf _ _ _ _ _ H) Hs) as B. unfold sinb in B.
  apply andb_true_iff in B. destruct B as [B1 B2]. rewrite forallb_forall in B2.
  assert (B : inb (dims c) l = true) by (destruct Hl as [->|Hl]; auto).
  unfold inb in B. destruct (dims c (arr l)) as [[[ex ey] ez]|]; [|discriminate].
  exists ex, ey, ez. rewrite !andb_true_iff, !Z.leb_le, !Z.ltb_lt in B. tauto.
Qed.
Example C06_nonvacuous : exists c, setupCfg 4 5 6 exampleReg = Some c /\
  (1000 < List.length (flat (coreStep (V:=Z) c)))%nat.
Proof. eexists. split; [reflexivity|]. vm_compute. lia. Qed.

(** C07. In every time step each E and H value of the outer grid is assigned
    exactly once, unless it is an E value on an edge of the mesh where two MUR
    faces meet. *)
Theorem C07_exactly_once : forall nx ny nz reg c, setupCfg nx ny nz reg = Some c ->
  forall V f i j k, inl (gfolim c f) i j k -> mur_edge c f i j k = false ->
  writes (L (AF f) i j k) (flat (coreStep (V:=V) c)) = 1%nat.
Proof.
  intros nx ny nz reg c H V f i j k Hl HM.
  rewrite coreStep_writes; eauto using setup_wf. rewrite HM. reflexivity.
Qed.
(** With at most one axis having MUR faces there is no such edge. *)
Theorem C07_exactly_once_no_adjacent_mur : forall nx ny nz reg c a, setupCfg nx ny nz reg = Some c ->
  (forall g, outerSurfaceType c g = BT_MUR -> face_axis g = a) ->
  forall V f i j k, inl (gfolim c f) i j k ->
  writes (L (AF f) i j k) (flat (coreStep (V:=V) c)) = 1%nat.
Proof.
  intros nx ny nz reg c a H HM V f i j k Hl. apply (C07_exactly_once nx ny nz reg c H); auto.
  assert (X : forall b x, b <> a -> on_mur c b x = false).
  { intros b x N. unfold on_mur, isT.
    destruct (btype_eqb (outerSurfaceType c (face_lo b)) BT_MUR) eqn:E1.
    { apply btype_eqb_spec in E1. apply HM in E1. destruct b; cbn in E1; congruence. }
    destruct (btype_eqb (outerSurfaceType c (face_hi b)) BT_MUR) eqn:E2; [|reflexivity].
    apply btype_eqb_spec in E2. apply HM in E2. destruct b; cbn in E2; congruence. }
  unfold mur_edge. destruct f; auto; destruct a;
   rewrite ?(X XDIR), ?(X YDIR), ?(X ZDIR) by discriminate; rewrite ?andb_false_r; reflexivity.
Qed.
(** No phase assigns a field value outside the outer grid. *)
Theorem C07_nothing_outside : forall nx ny nz reg c, setupCfg nx ny nz reg = Some c ->
  forall V f i j k, ~ inl (gfolim c f) i j k ->
  writes (L (AF f) i j k) (flat (phaseE (V:=V) c ++ phaseH c)) = 0%nat.
Proof.
  intros nx ny nz reg c H V f i j k N. apply setup_wf in H. apply flat_zero. intros s Hs X.
  apply N. rewrite flat_app, in_app_iff in Hs.
  assert (U : forall g i' j' k', In s (updF g i' j' k') -> inl (gfolim c g) i' j' k' -> inl (gfolim c f) i j k).
  { intros g i' j' k' I Hl. destruct g; destruct I as [<-|[]]; cbn [dst] in X; injection X as <- <- <- <-; exact Hl. }
  assert (U2 : forall r l g i' j' k', In s (pmlF r g l i' j' k') -> inl (gfolim c g) i' j' k' -> inl (gfolim c f) i j k).
  { intros r l g i' j' k' I Hl. destruct g; cbn [pmlF] in I;
    unfold pmlEx, pmlEy, pmlEz, pmlHx, pmlHy, pmlHz, pmlEbody, pmlHbody in I; cbn [In] in I;
    repeat (destruct I as [I|I]; [subst s; cbn [dst] in X; try discriminate X; injection X as <- <- <- <-; exact Hl|]); contradiction. }
  destruct Hs as [Hs|Hs].
  - apply phaseE_shape in Hs. destruct Hs as [r g i' j' k' s E T Hl Hs|face g i' j' k' s E T M Hl Hs|g i' j' k' s E Hl Hs].
    + eapply U2; eauto. eapply pml_lim_outer; eauto.
    + destruct Hs as [<-|[<-|[]]]; cbn [dst] in X; [discriminate X|]. injection X as <- <- <- <-. eapply mur_lim_outer; eauto.
    + eapply U; eauto. eapply grid_lim_outer; eauto.
  - apply phaseH_shape in Hs. destruct Hs as [r g i' j' k' s E T Hl Hs|face g i' j' k' s E T M Hl Hs|g i' j' k' s E Hl Hs].
    + eapply U2; eauto. eapply pml_lim_outer; eauto.
    + eapply U; eauto. eapply mur_lim_outer; eauto.
    + eapply U; eauto. eapply grid_lim_outer; eauto.
Qed.
Example C07_nonvacuous : exists c, setupCfg 4 5 6 exampleReg = Some c /\
  (forall g, outerSurfaceType c g = BT_MUR -> face_axis g = ZDIR) /\
  inl (gfolim c EX) 2 3 1 /\ writes (L (AF EX) 2 3 1) (flat (updateMurEfield (V:=Z) c)) = 1%nat.
Proof.
  eexists. split; [reflexivity|]. split; [intros []; vm_compute; congruence|].
  split; [|vm_compute; reflexivity]. unfold inl. repeat split; vm_compute; congruence.
Qed.

(** C46. The E values on the edge of two adjacent MUR faces are never assigned
    by any time step: they keep their initial value for ever. *)
Definition murReg : BReg := initBoundaryReg ++
  map (fun f => mkItem (FACE f) (mkB BT_MUR 0)) faces.
Definition murCfg : Cfg :=
  match setupCfg 4 4 4 murReg with Some c => c | None => mkCfg (fun _ => 0) (fun _ => BT_PEC) (fun _ => 0) end.
Theorem C46_mur_edges_refuted :
  exists c, setupCfg 4 4 4 murReg = Some c /\ inl (gfolim c EX) 2 1 1 /\
  (forall V, writes (L (AF EX) 2 1 1) (flat (coreStep (V:=V) c)) = 0%nat) /\
  (forall V (A : Arith V) n m,
     run A (flat (steps c (fun _ => []) (fun _ => []) 0 n)) m (L (AF EX) 2 1 1) = m (L (AF EX) 2 1 1)).
Proof.
  exists murCfg. split; [reflexivity|]. set (c := murCfg).
  assert (W : wf c) by (apply (setup_wf 4 4 4 murReg); reflexivity).
  assert (I : inl (gfolim c EX) 2 1 1) by (unfold inl; repeat split; vm_compute; congruence).
  assert (Z0 : forall V, writes (L (AF EX) 2 1 1) (flat (coreStep (V:=V) c)) = 0%nat).
  { intros V. rewrite coreStep_writes by auto. reflexivity. }
  split; [exact I|]. split; [exact Z0|].
  intros V A n. generalize 0%nat at 1. induction n; intros t m; cbn [steps]; [reflexivity|].
  rewrite flat_app, run_app, IHn. apply run_frame. intros HI.
  specialize (Z0 V). unfold writes, coreStep in Z0. apply count_occ_not_In in Z0. exact (Z0 HI).
Qed.

(** C08. Any number of time steps with race-free extra items (none, or the
    sources): no parallel loop has a data race and every interleaving of its
    threads yields exactly the sequential result; interleavings exist. *)
Theorem C08_no_data_race : forall V c xE xH n,
  (forall t, Forall (@race_free V) (xE t)) -> (forall t, Forall race_free (xH t)) ->
  Forall race_free (steps c xE xH 0 n).
Proof. intros. apply steps_race_free; auto. Qed.
Theorem C08_schedule_independent : forall V (A : Arith V) c xE xH n m m',
  (forall t, Forall race_free (xE t)) -> (forall t, Forall race_free (xH t)) ->
  prog_exec A (steps c xE xH 0 n) m m' ->
  forall l, m' l = run A (flat (steps c xE xH 0 n)) m l.
Proof. intros. apply prog_exec_seq; auto using steps_race_free. Qed.
Theorem C08_executions_exist : forall V (A : Arith V) c xE xH n m,
  exists m', prog_exec A (steps c xE xH 0 n) m m'.
Proof. intros. eexists. apply prog_exec_flat. Qed.
(** the loops really are parallel: the Ex loop of the example has four threads,
    each with many statements *)
Example C08_nonvacuous : exists c ts, setupCfg 4 5 6 exampleReg = Some c /\
  In (Par ts) (coreStep (V:=Z) c) /\ List.length ts = 4%nat /\
  Forall (fun t => (10 < List.length t)%nat) ts.
Proof.
  eexists. eexists. split; [reflexivity|]. split.
  - unfold coreStep, timeStep, phaseE. apply in_or_app. left. apply in_or_app. right.
    apply in_or_app. right. left. unfold nest3, par_for. reflexivity.
  - split; [vm_compute; reflexivity|]. vm_compute. repeat constructor.
Qed.

(** C09. Let two runs with the same sources start from states that agree (bit
    for bit) at all positions above [x] (below [x]) along an axis that is not
    periodic.  After n time steps they still agree at all positions above x+n
    (below x-n). *)
Theorem C09_upward : forall nx ny nz reg c a, setupCfg nx ny nz reg = Some c ->
  outerSurfaceType c (face_lo a) <> BT_PERIODIC -> outerSurfaceType c (face_hi a) <> BT_PERIODIC ->
  forall V (A : Arith V) xE xH, (forall t, in_place (xE t)) -> (forall t, in_place (xH t)) ->
  forall x n m m',
  (forall l, kind l = None \/ x < upos c a l -> m l = m' l) ->
  forall l, kind l = None \/ x + Z.of_nat n < upos c a l ->
    run A (flat (steps c xE xH 0 n)) m l = run A (flat (steps c xE xH 0 n)) m' l.
Proof.
  intros nx ny nz reg c a H N1 N2 V A xE xH PE PH x n m m' HA l Hl.
  apply setup_wf in H.
  apply (steps_U c a H (conj N1 N2) A xE xH n PE PH 0 (x + 1) m m').
  - intros l' Hl'. apply HA. unfold RU in Hl'. destruct (kind l') as [[]|]; [right; lia|right; lia|auto].
  - unfold RU. destruct (kind l) as [[]|]; auto; destruct Hl; try discriminate; lia.
Qed.
Theorem C09_downward : forall nx ny nz reg c a, setupCfg nx ny nz reg = Some c ->
  outerSurfaceType c (face_lo a) <> BT_PERIODIC -> outerSurfaceType c (face_hi a) <> BT_PERIODIC ->
  forall V (A : Arith V) xE xH, (forall t, in_place (xE t)) -> (forall t, in_place (xH t)) ->
  forall x n m m',
  (forall l, kind l = None \/ dpos c a l < x -> m l = m' l) ->
  forall l, kind l = None \/ dpos c a l < x - Z.of_nat n ->
    run A (flat (steps c xE xH 0 n)) m l = run A (flat (steps c xE xH 0 n)) m' l.
Proof.
  intros nx ny nz reg c a H N1 N2 V A xE xH PE PH x n m m' HA l Hl.
  apply setup_wf in H.
  apply (steps_D c a H (conj N1 N2) A xE xH n PE PH 0 (x - 1) m m').
  - intros l' Hl'. apply HA. unfold RD in Hl'. destruct (kind l') as [[]|]; [right; lia|right; lia|auto].
  - unfold RD. destruct (kind l) as [[]|]; auto; destruct Hl; try discriminate; lia.
Qed.
(** Box form, boundaries neither PERIODIC nor MUR: a disturbance confined to a
    box stays within the box grown by one cell per step in every direction. *)
Theorem C09_box : forall nx ny nz reg c, setupCfg nx ny nz reg = Some c ->
  (forall f, outerSurfaceType c f <> BT_PERIODIC /\ outerSurfaceType c f <> BT_MUR) ->
  forall V (A : Arith V) xE xH, (forall t, in_place (xE t)) -> (forall t, in_place (xH t)) ->
  forall (lo hi : Axis -> Z) n m m',
  (forall l, kind l = None \/ (exists a, ~ (lo a <= position c a l <= hi a)) -> m l = m' l) ->
  forall l a, ~ (lo a - Z.of_nat n <= position c a l <= hi a + Z.of_nat n) ->
    run A (flat (steps c xE xH 0 n)) m l = run A (flat (steps c xE xH 0 n)) m' l.
Proof.
  intros nx ny nz reg c H NT V A xE xH PE PH lo hi n m m' HD l a Hl.
  assert (U : forall l, upos c a l = position c a l).
  { intros l'. unfold upos. destruct (btype_eqb _ _) eqn:E; auto. apply btype_eqb_spec in E.
    destruct (NT (face_hi a)); congruence. }
  assert (D : forall l, dpos c a l = position c a l).
  { intros l'. unfold dpos. destruct (btype_eqb _ _) eqn:E; auto. apply btype_eqb_spec in E.
    destruct (NT (face_lo a)); congruence. }
  destruct (Z_lt_le_dec (hi a + Z.of_nat n) (position c a l)) as [B|B].
  - apply (C09_upward nx ny nz reg c a H (proj1 (NT _)) (proj1 (NT _)) V A xE xH PE PH (hi a) n m m').
    + intros l' [K|K]; apply HD; auto. rewrite U in K. right. exists a. lia.
    + right. rewrite U. lia.
  - apply (C09_downward nx ny nz reg c a H (proj1 (NT _)) (proj1 (NT _)) V A xE xH PE PH (lo a) n m m').
    + intros l' [K|K]; apply HD; auto. rewrite D in K. right. exists a. lia.
    + right. rewrite D. lia.
Qed.

(** The bound is met: in a closed box a change of one E value does change an H
    value one cell away in the same step. *)
Definition pecReg : BReg := initBoundaryReg ++
  map (fun f => mkItem (FACE f) (mkB BT_PEC 0)) faces.
Definition zArith : Arith Z := mkArith Z Z.add Z.sub Z.mul Z.opp.
Definition mem0 : mem Z := fun l => match kind l with None => 1 | Some _ => 0 end.
Example C09_nonvacuous : exists c, setupCfg 2 2 2 pecReg = Some c /\
  (forall f, outerSurfaceType c f <> BT_PERIODIC /\ outerSurfaceType c f <> BT_MUR) /\
  let m' := upd mem0 (L (AF EX) 2 2 2) 1 in
  run zArith (flat (coreStep c)) mem0 (L (AF HY) 2 2 1) = 0 /\
  run zArith (flat (coreStep c)) m' (L (AF HY) 2 2 1) = -1.
Proof.
  eexists. split; [reflexivity|]. split; [intros []; vm_compute; split; congruence|].
  vm_compute. auto.
Qed.

Print Assumptions C06_time_steps_in_bounds.
Print Assumptions C06_every_access.
Print Assumptions C07_exactly_once.
Print Assumptions C07_exactly_once_no_adjacent_mur.
Print Assumptions C07_nothing_outside.
Print Assumptions C46_mur_edges_refuted.
Print Assumptions C08_no_data_race.
Print Assumptions C08_schedule_independent.
Print Assumptions C08_executions_exist.
Print Assumptions C09_upward.
Print Assumptions C09_downward.
Print Assumptions C09_box.
