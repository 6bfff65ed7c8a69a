(** C78: complete runs are invariant in time. *)
From Coq Require Import ZArith Ascii String List Bool Reals Lra Lia FunctionalExtensionality.
From Verif Require Import Types Lang LangProofs BBox Grid Setup Pml Mur Ghost Step StepShape StepCount StepBounds Linear Media Medium Debye DebyeProofs
  Filter Sibc Source SourceProofs P_Source PlaneWave PwProofs P_PlaneWave SpecPw P_PwBounds SpecMedia P_Media SpecPhys SpecSibcMesh P_SibcMesh SetupProofs SpecGeom SpecGrid SpecCone Whole SpecWhole P_Whole Waveform SpecDelay.
Import ListNotations.
Open Scope R_scope.
Local Arguments Z.mul : simpl never.
Local Arguments Z.add : simpl never.
Local Arguments Z.sub : simpl never.

(** ** what a step leaves alone: media and cell data, the number of poles *)
Lemma sp_data a b p p' p'' : sup_prog a b p p' p'' -> forall m l, is_data l -> run rArith p m l = m l.
Proof.
  induction 1 as [|d e1 e2 e3 q1 q2 q3 S _ _ IH]; intros m l D; [reflexivity|]. rewrite run_cons, IH by exact D.
  unfold run1, upd. cbn [dst]. destruct (loc_dec l d) as [->|]; [|reflexivity]. exfalso. apply S. exact D.
Qed.
Section Keep.
Variables (c : Cfg) (g : Prog).
Definition lenJ (n : nat) : nat := match nth_error (g_blocks g) n with Some b => List.length (db_poles b) | None => 0%nat end.
Definition lenZ (n : nat) (p q : I4) : nat := match nth_error (g_sheets g) n with Some (sh, _, _) => List.length (rcQ (sb_rcm sh p q)) | None => 0%nat end.
Record keeps (m : mem R) (s : WState) : Prop := mkKeep {
  k_data : forall l, is_data l -> w_m s l = m l;
  k_J : forall n f i j k, List.length (w_J s n f i j k) = lenJ n;
  k_Z : forall n i j k p q, List.length (rsZeta (w_st s n i j k p q)) = lenZ n p q }.
Lemma start_keeps m : keeps m (start g m).
Proof.
  constructor; cbn [start w_m w_J w_st]; [reflexivity| |].
  - intros n f i j k. unfold zeroJ, lenJ. destruct (nth_error _ _); [apply map_length|reflexivity].
  - intros n i j k p q. unfold lenZ. destruct (nth_error _ _) as [[[sh ?] ?]|]; unfold states0, allocRecConvState; cbn [rsZeta rcQ]; [apply map_length|reflexivity].
Qed.
Lemma debye_len eps0 dt beta blks : forall n st, (forall i, nth_error blks i = nth_error (g_blocks g) (n + i)) ->
  (forall n f i j k, List.length (sJ st n f i j k) = lenJ n) -> forall n' f i j k, List.length (sJ (updateDebyeFrom eps0 dt beta n blks st) n' f i j k) = lenJ n'.
Proof.
  induction blks as [|blk blks IH]; intros n st N H; cbn [updateDebyeFrom]; [exact H|]. apply IH.
  { intros i. specialize (N (Datatypes.S i)). cbn [nth_error] in N. rewrite N. f_equal. lia. }
  assert (B : lenJ n = List.length (db_poles blk)) by (specialize (N 0%nat); rewrite Nat.add_0_r in N; cbn [nth_error] in N; unfold lenJ; rewrite <- N; reflexivity).
  unfold updateBlock. clear IH N. revert st H. induction (blockPoints blk) as [|[[[f0 i0] j0] k0] l IHl]; intros st H; cbn [fold_left]; [exact H|]. apply IHl.
  intros n' f i j k. unfold debyeBody. cbn [sJ]. unfold atB. destruct (Nat.eqb_spec n' n) as [->|]; [|apply H]. unfold at4. destruct (_ && _ && _ && _); [|apply H].
  rewrite map_length, combine_length, H, B. lia.
Qed.
Lemma debye_keeps m s : keeps m s -> keeps m (debyeStep g s).
Proof.
  intros [D J Z]. unfold debyeStep, updateDebyeBlocksEfield. constructor; cbn [w_m w_J w_st]; [| |exact Z].
  - intros l DL. rewrite <- D by exact DL. unfold putE. destruct l as [r i j k]. cbn [arr li lj lk]. destruct r; try reflexivity. discriminate DL.
  - apply debye_len; [intros; reflexivity|exact J].
Qed.
Lemma numbered_nth {X} (l : list X) : forall n n' x, In (n', x) (numbered n l) -> exists i, n' = (n + i)%nat /\ nth_error l i = Some x.
Proof.
  induction l as [|y l IH]; intros n n' x I; cbn [numbered In] in I; [contradiction|]. destruct I as [I|I].
  - injection I as <- <-. exists 0%nat. split; [lia|reflexivity].
  - destruct (IH _ _ _ I) as (i & -> & E). exists (Datatypes.S i). split; [lia|exact E].
Qed.
Lemma faces_nth n y ijk : In (n, y, ijk) (allFaces g) -> nth_error (g_sheets g) n = Some y.
Proof.
  unfold allFaces. intros I. apply in_flat_map in I. destruct I as ((n0 & y0) & I0 & I). cbn [snd] in I.
  assert (E : (n, y) = (n0, y0)).
  { destruct y0 as [[sh fA] fB]. cbn [fst snd] in I. unfold faces3 in I. revert I. unfold for_.
    intros I. apply in_flat_map in I. destruct I as (i & _ & I). apply in_flat_map in I. destruct I as (j & _ & I). apply in_flat_map in I. destruct I as (k & _ & I).
    cbn [In] in I. destruct I as [I|[]]. congruence. }
  injection E as <- <-. destruct (numbered_nth _ _ _ _ I0) as (i & -> & E). exact E.
Qed.
Lemma stepPoles_len q : forall z o x y, List.length z = List.length q -> List.length (fst (stepPoles q z o x y)) = List.length q.
Proof.
  induction q as [|[[q0 q1] q2] q IH]; intros z o x y E; [destruct z; reflexivity|]. destruct z as [|z0 z]; [discriminate E|]. cbn [stepPoles].
  match goal with |- context [stepPoles q z o x ?y'] => specialize (IH z o x y'); destruct (stepPoles q z o x y') as [zs w] end.
  cbn [fst] in *. cbn [List.length]. f_equal. apply IH. cbn in E. lia.
Qed.
Lemma sheet_keeps m s x : In x (allFaces g) -> keeps m s -> keeps m (sibcEface s x).
Proof.
  intros I [D J Z]. destruct x as [[n [[sh fA] fB]] [[i j] k]]. apply faces_nth in I. unfold sibcEface.
  destruct (sheet _ _ _ _ (w_st s n i j k) _) as [st' e] eqn:SH. constructor; cbn [w_m w_J w_st].
  - intros l DL. rewrite (sp_data 1 1 _ _ _ (sup_zeroE 1 1 (sb_normal sh) i j k) (w_m s) l DL). apply D, DL.
  - exact J.
  - intros n' i' j' k' p q. unfold at3f. destruct (_ && _ && _ && _) eqn:B; [|apply Z]. rewrite !andb_true_iff in B. destruct B as [[[B _] _] _]. apply Nat.eqb_eq in B. subst n'.
    pose proof (f_equal fst SH) as E. cbn [fst] in E. rewrite <- E. unfold sheet, sibcStep. cbn [fst]. unfold recConvStep.
    assert (LZ : lenZ n p q = List.length (rcQ (sb_rcm sh p q))) by (unfold lenZ; rewrite I; reflexivity).
    match goal with |- context [stepPoles ?a ?b ?c ?d ?e] => pose proof (stepPoles_len a b c d e) as L0; destruct (stepPoles a b c d e) as [zs y] end.
    cbn [fst rsZeta] in *. rewrite LZ. apply L0. rewrite Z. exact LZ.
Qed.
Lemma sibc_keeps m s : keeps m s -> keeps m (sibcE g s).
Proof.
  unfold sibcE. assert (A : forall x, In x (allFaces g) -> In x (allFaces g)) by auto. revert A. generalize (allFaces g) at 1 3. intros l A. revert s.
  induction l as [|x l IH]; intros s K; cbn [fold_left]; [exact K|]. apply IH; [intros; apply A; cbn; auto|]. apply sheet_keeps; [apply A; cbn; auto|exact K].
Qed.
Lemma core_data p m l : (forall s, In s (flat p) -> In s (flat (coreStep c))) -> is_data l -> run rArith (flat p) m l = m l.
Proof. intros H. apply (sp_data 1 1 _ (flat p) (flat p)). apply lin_prog. intros s Hs. apply (coreStep_lin c). auto. Qed.
Lemma step_keeps d t m s : keeps m s -> keeps m (wstep c g d t s).
Proof.
  intros K. unfold wstep. cbn zeta.
  assert (K2 : keeps m (sibcE g (debyeStep g (set_m (run rArith (flat (phaseE c)) (w_m s)) s)))).
  { apply sibc_keeps, debye_keeps. destruct K as [D J Z]. constructor; cbn [set_m w_m w_J w_st]; auto.
    intros l DL. rewrite core_data; auto. intros; apply in_core; auto. }
  set (u := sibcE g _) in *. clearbody u. destruct K2 as [D J Z]. constructor; cbn [set_m w_m w_J w_st]; auto.
  intros l DL. rewrite core_data; [|intros; apply in_core; auto|exact DL].
  rewrite (sp_data 1 1 _ _ _ (sup_exciteH 1 1 c g d d t)) by exact DL.
  rewrite (sp_data 1 1 _ _ _ (sup_updateSibcH 1 1 c (numbered 0 (g_sheets g)) (w_E u) (w_E u) (fun n i j k => ofF (fun p => both 1 (v4 (w_E u n i j k) p) 1 (v4 (w_E u n i j k) p)))
    ltac:(intros; destruct p; reflexivity))) by exact DL.
  rewrite core_data; [|intros; apply in_core; auto|exact DL]. rewrite core_data; [|intros; apply in_core; auto|exact DL].
  rewrite (sp_data 1 1 _ _ _ (sup_exciteE 1 1 c g d d t)) by exact DL. apply D, DL.
Qed.
Lemma run_keeps d n : forall t m s, keeps m s -> keeps m (wrun c g d t n s).
Proof. induction n; intros t m s K; cbn [wrun]; [exact K|]. apply IHn, step_keeps, K. Qed.

(** ** a step depends on the excitation at that step only *)
Lemma wstep_at d t d' t' s : same_at d t d' t' -> wstep c g d' t' s = wstep c g d t s.
Proof.
  intros [W I]. unfold wstep. cbn zeta.
  assert (E1 : d_wE d' t' = d_wE d t) by (apply functional_extensionality; intros; apply W).
  assert (E2 : d_wH d' t' = d_wH d t) by (apply functional_extensionality; intros; apply W).
  assert (E3 : d_iE d' t' = d_iE d t) by (do 5 (apply functional_extensionality; intros); apply I).
  assert (E4 : d_iH d' t' = d_iH d t) by (do 5 (apply functional_extensionality; intros); apply I).
  assert (XE : exciteE c (g_de g) (g_dh g) (g_srcs g) (d_wE d') (g_pws g) (d_iE d') t' = exciteE c (g_de g) (g_dh g) (g_srcs g) (d_wE d) (g_pws g) (d_iE d) t).
  { unfold exciteE, srcRunE. rewrite E1, E3. reflexivity. }
  assert (XH : exciteH c (g_de g) (g_dh g) (g_srcs g) (d_wH d') (g_pws g) (d_iH d') t' = exciteH c (g_de g) (g_dh g) (g_srcs g) (d_wH d) (g_pws g) (d_iH d) t).
  { unfold exciteH, srcRunH. rewrite E2, E4. reflexivity. }
  rewrite XE, XH. reflexivity.
Qed.
Lemma wrun_at d d' n : forall t t' s, (forall i, (i < n)%nat -> same_at d (t + i) d' (t' + i)) -> wrun c g d' t' n s = wrun c g d t n s.
Proof.
  induction n; intros t t' s H; cbn [wrun]; [reflexivity|]. pose proof (H 0%nat ltac:(lia)) as H0. rewrite !Nat.add_0_r in H0. rewrite (wstep_at _ _ _ _ s H0).
  apply IHn. intros i L0. specialize (H (Datatypes.S i) ltac:(lia)). rewrite !Nat.add_succ_r in H. exact H.
Qed.
Lemma wrun_app d k n : forall t s, wrun c g d t (k + n) s = wrun c g d (t + k) n (wrun c g d t k s).
Proof. induction k; intros t s; cbn [wrun Nat.add]; [rewrite Nat.add_0_r; reflexivity|]. rewrite IHk. f_equal. lia. Qed.
End Keep.

Lemma sup_zero l l' : List.length l = List.length l' -> Forall (fun z => z = cxR 0) l -> Forall (fun z => z = cxR 0) l' -> sup_cx 1 0 l l l'.
Proof.
  intros E Z. revert l' E. induction Z as [|x l -> _ IH]; intros l' E Z'; destruct l' as [|y l']; try discriminate E; [constructor|].
  inversion Z' as [|? ? -> Z'']. subst. replace (cxR 0) with (bothC 1 (cxR 0) 0 (cxR 0)) at 3 by (unfold bothC, both, cxR; cbn [re im]; f_equal; ring).
  constructor. apply IH; [cbn in E; lia|exact Z''].
Qed.
(** after any number of silent steps everything is as it was at the start *)
Lemma silent_start c g d k m : quiet m -> (forall t, (t < k)%nat -> silent_at d t) -> sup_w 1 0 (start g m) (start g m) (wrun c g d 0 k (start g m)).
Proof.
  intros Q SI. set (z := mkDrv (fun _ _ => 0) (fun _ _ => 0) (fun _ _ _ _ _ _ => 0) (fun _ _ _ _ _ _ => 0)).
  assert (E : wrun c g d 0 k (start g m) = wrun c g z 0 k (start g m)).
  { apply wrun_at. intros i L0. destruct (SI i L0) as [A B]. split; [intros s; apply A|intros p f i' j' k'; apply B]. }
  rewrite E. assert (QZ : let s := wrun c g z 0 k (start g m) in quiet (w_m s) /\ (forall b f i j k, Forall (fun z => z = cxR 0) (w_J s b f i j k)) /\
    (forall b f i j k, w_L s b f i j k = 0) /\ (forall h i j k p q, rsOld (w_st s h i j k p q) = 0 /\ Forall (fun z => z = cxR 0) (rsZeta (w_st s h i j k p q))) /\
    (forall h i j k, w_E s h i j k = mkV 0 0 0 0)) by (apply C65_quiescent; [exact Q|split; reflexivity|split; reflexivity]).
  destruct QZ as (M & J & L0 & ST & EE). pose proof (run_keeps c g z k 0 m _ (start_keeps g m)) as [KD KJ KZ].
  pose proof (start_sup g 0 0 m Q) as [SM SJ SL SO SZ SE]. pose proof (start_keeps g m) as [_ KJ0 KZ0].
  assert (FZ : forall l1 l2 l3, sup_cx 0 0 l1 l2 l3 -> Forall (fun z => z = cxR 0) l3).
  { induction 1; constructor; auto. unfold bothC, both, cxR. f_equal; ring. }
  constructor.
  - split; [intros l D; rewrite KD by exact D; split; reflexivity|]. intros l S. rewrite (M l S), (proj2 SM l S). ring.
  - intros n f i j l. apply sup_zero; [rewrite KJ, KJ0; reflexivity|eapply FZ, SJ|apply J].
  - intros. rewrite L0, SL. unfold both. ring.
  - intros n i j l p q. rewrite (proj1 (ST n i j l p q)). rewrite (SO n i j l p q). unfold both. ring.
  - intros n i j l p q. apply sup_zero; [rewrite KZ, KZ0; reflexivity|eapply FZ, SZ|apply ST].
  - intros n i j l p. rewrite EE, (SE n i j l p). unfold both. destruct p; cbn; ring.
Qed.

(** ** C78: complete simulations, with every feature the mesh can switch on.  If
    every excitation comes [k] steps later, nothing happens for [k] steps and then
    every field value is, step by step, what it was [k] steps earlier. *)
Theorem C78_delay : forall c g k d d' m, quiet m -> delayed k d d' ->
  (forall n f x y z, (n <= k)%nat -> fld (w_m (wrun c g d' 0 n (start g m))) f x y z = 0) /\
  (forall n f x y z, fld (w_m (wrun c g d' 0 (k + n) (start g m))) f x y z = fld (w_m (wrun c g d 0 n (start g m))) f x y z).
Proof.
  intros c g k d d' m Q [SI SH]. split.
  - intros n f x y z L0. pose proof (silent_start c g d' n m Q ltac:(intros; apply SI; lia)) as H. unfold fld. rewrite (proj2 (sw_m _ _ _ _ _ H)) by discriminate.
    cbn [start w_m]. rewrite (Q (L (AF f) x y z)) by discriminate. ring.
  - intros n f x y z. rewrite wrun_app. rewrite (wrun_at c g d d' n 0 (0 + k)) by (intros i _; cbn [Nat.add]; apply SH).
    pose proof (silent_start c g d' k m Q SI) as H. pose proof (C65_superposition c g 1 0 d d n 0 _ _ _ H) as R0.
    rewrite (wrun_at c g d (bothD 1 d 0 d) n 0 0) in R0.
    + unfold fld. rewrite (proj2 (sw_m _ _ _ _ _ R0)) by discriminate. ring.
    + intros i _. split; [intros s|intros p f' i' j' k']; unfold bothD, both; cbn [d_wE d_wH d_iE d_iH]; split; ring.
Qed.
(** The memory of media, sheets and absorbing layers too: the whole state. *)
Theorem C78_state : forall c g k d d' m n, quiet m -> delayed k d d' ->
  let s := wrun c g d 0 n (start g m) in let s' := wrun c g d' 0 (k + n) (start g m) in
  (forall l, w_m s' l = w_m s l) /\ (forall b f x y z, w_J s' b f x y z = w_J s b f x y z) /\ (forall b f x y z, w_L s' b f x y z = w_L s b f x y z) /\
  (forall h x y z p q, rsOld (w_st s' h x y z p q) = rsOld (w_st s h x y z p q) /\ rsZeta (w_st s' h x y z p q) = rsZeta (w_st s h x y z p q)) /\
  (forall h x y z p, v4 (w_E s' h x y z) p = v4 (w_E s h x y z) p).
Proof.
  intros c g k d d' m n Q [SI SH]. cbn zeta. rewrite wrun_app. rewrite (wrun_at c g d d' n 0 (0 + k)) by (intros i _; cbn [Nat.add]; apply SH).
  pose proof (silent_start c g d' k m Q SI) as H. pose proof (C65_superposition c g 1 0 d d n 0 _ _ _ H) as R0.
  rewrite (wrun_at c g d (bothD 1 d 0 d) n 0 0) in R0
    by (intros i _; split; [intros s|intros p f' i' j' k']; unfold bothD, both; cbn [d_wE d_wH d_iE d_iH]; split; ring).
  destruct R0 as [M J L0 O Z E].
  assert (EQ : forall l1 l3, sup_cx 1 0 l1 l1 l3 -> l3 = l1).
  { intros l1 l3 X. remember l1 as l2 eqn:E2 in X at 2. revert E2. induction X; intros E2; [reflexivity|]. injection E2 as -> ->. f_equal; [destruct x as [xr xi]; unfold bothC, both; cbn [re im]; f_equal; ring|auto]. }
  split; [|split; [|split; [|split]]].
  - intros l. destruct (kind l) eqn:KL; [rewrite (proj2 M l) by (unfold is_state; congruence); ring|]. destruct (proj1 M l KL). congruence.
  - intros. apply EQ, J.
  - intros. rewrite L0. unfold both. ring.
  - intros. split; [rewrite O; unfold both; ring|apply EQ, Z].
  - intros. rewrite E. unfold both. ring.
Qed.

(** ** In terms of signals: sources whose signals are zero before time 0, delayed by
    a whole number of time steps *)
Lemma delay_follows dt k w d d' : 0 < dt -> (forall s t, t <= 0 -> w s t = 0) -> follows dt w d -> follows dt (fun s t => w s (t - INR k * dt)) d' -> delayed k d d'.
Proof.
  intros P Z [W I] [W' I']. split.
  - intros t L0. split; [|intros; apply I']. intros s. destruct (W' t s) as [-> ->].
    assert (IN : INR t + 1 <= INR k) by (rewrite <- S_INR; apply le_INR; lia). pose proof (pos_INR t).
    split; apply Z; nra.
  - intros t. split; [|intros; rewrite (proj1 (I t p f i j k0)), (proj2 (I t p f i j k0)); apply I']. intros s. destruct (W t s) as [-> ->]. destruct (W' (k + t)%nat s) as [-> ->].
    rewrite plus_INR. split; f_equal; ring.
Qed.
Theorem C78_signals : forall c g k dt w d d' m, quiet m -> 0 < dt -> (forall s t, t <= 0 -> w s t = 0) ->
  follows dt w d -> follows dt (fun s t => w s (t - INR k * dt)) d' ->
  (forall n f x y z, (n <= k)%nat -> fld (w_m (wrun c g d' 0 n (start g m))) f x y z = 0) /\
  (forall n f x y z, fld (w_m (wrun c g d' 0 (k + n) (start g m))) f x y z = fld (w_m (wrun c g d 0 n (start g m))) f x y z).
Proof. intros. apply C78_delay; [assumption|]. eapply delay_follows; eassumption. Qed.
(** The compact waveforms are such signals, and the delay of a source card delays
    them; the Gaussian ones are not zero before time 0. *)
Theorem C78_compact : forall wf t delay, In (wType wf) [COMPACT_PULSE; DIFF_COMPACT_PULSE; MOD_COMPACT_PULSE; RAMPED_SINUSOID] ->
  (t <= 0 -> 0 <= delay -> 0 <= wDelay wf -> getWaveformValue wf t delay = Some 0) /\
  (forall T, getWaveformValue wf t (delay + T) = getWaveformValue wf (t - T) delay).
Proof.
  intros wf t delay I. split.
  - intros T D WD. unfold getWaveformValue. assert (LE : t - delay - wDelay wf <= 0) by lra. revert LE. generalize (t - delay - wDelay wf). intros tau LE. cbn [In] in I.
    destruct I as [<-|[<-|[<-|[<-|[]]]]]; unfold compactPulse, differentiatedCompactPulse, modulatedCompactPulse, rampedSinusoid; destruct (Rle_dec tau 0); try lra; f_equal; ring.
  - intros T. unfold getWaveformValue. replace (t - (delay + T) - wDelay wf) with (t - T - delay - wDelay wf) by ring. reflexivity.
Qed.
Theorem C78_gaussian_refuted : forall wf t delay, wType wf = GAUSSIAN_PULSE -> wSize wf <> 0 -> exists v, getWaveformValue wf t delay = Some v /\ v <> 0.
Proof.
  intros wf t delay E S. unfold getWaveformValue. rewrite E. eexists. split; [reflexivity|]. unfold gaussianPulse.
  apply Rmult_integral_contrapositive_currified; [exact S|]. apply Rgt_not_eq, exp_pos.
Qed.
(** a compact pulse, three steps late: a quiet memory with coefficients 1, and a
    signal that is not zero *)
Example C78_nonvacuous : let wf := mkWf "p" COMPACT_PULSE 1 0 2 0 in
  let w (s : Src) t := match getWaveformValue wf t 0 with Some v => v | None => 0 end in
  let drv w := mkDrv (fun n s => w s (INR n * 1)) (fun n s => w s ((INR n + 1 / 2) * 1)) (fun _ _ _ _ _ _ => 0) (fun _ _ _ _ _ _ => 0) in
  let d := drv w in let d' := drv (fun s t => w s (t - INR 3 * 1)) in
  quiet (fun l => match kind l with None => 1 | _ => 0 end) /\ delayed 3 d d' /\ forall s, d_wE d 2 s = 1 /\ d_wE d' 5 s = 1.
Proof.
  cbv zeta. split; [|split].
  - intros l S. unfold is_state in S. destruct (kind l); [reflexivity|congruence].
  - set (w := fun (s : Src) t => match getWaveformValue (mkWf "p" COMPACT_PULSE 1 0 2 0) t 0 with Some v => v | None => 0 end).
    apply (delay_follows 1 3 w); [lra| |split; [intros n s; split; reflexivity|intros; split; reflexivity]|split; [intros n s; split; reflexivity|intros; split; reflexivity]].
    intros s t T. unfold w. rewrite (proj1 (C78_compact (mkWf "p" COMPACT_PULSE 1 0 2 0) t 0 ltac:(cbn; auto))); cbn [wDelay]; lra || reflexivity.
  - assert (V : forall t, t = 2 -> 1 * compactPulse t 2 = 1).
    { intros t ->. unfold compactPulse. destruct (Rle_dec 2 0); [lra|]. destruct (Rlt_dec 2 (2 * 2)); [|lra].
      replace (PI / 2 * 2) with PI by field. replace (2 * PI / 2 * 2) with (2 * PI) by field. replace (3 * PI / 2 * 2) with (PI + 2 * PI) by field.
      rewrite cos_PI, cos_2PI, cos_plus, cos_PI, cos_2PI, sin_PI. lra. }
    intros s. cbn [d_wE]. unfold getWaveformValue. cbn [wType wSize wDelay wWidth]. split; apply V; cbn [INR]; lra.
Qed.
