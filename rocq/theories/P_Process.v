(** C74: process.dat and impulse.dat. *)
From Coq Require Import ZArith List Bool Ascii Lia Reals Lra.
From Verif Require Import Types Lang BBox Grid SpecGeom SpecGrid Step Edges Medium Setup Waveform Observer SpecObs ObserverProofs P_Observer P_Dump Process SpecProcess Sim.
Import ListNotations.
Local Notation length := List.length.
Local Notation total := SpecProcess.total.
Open Scope list_scope.
Open Scope Z_scope.
Local Arguments Z.mul : simpl never.
Local Arguments Z.add : simpl never.
Local Arguments Z.sub : simpl never.

(** the region a card asks for *)
Definition regionOf (o : Obs) : Region :=
  mkRegion (o_mbbox o XLO) (o_mbbox o XHI) (o_step o XDIR) (o_mbbox o YLO) (o_mbbox o YHI) (o_step o YDIR) (o_mbbox o ZLO) (o_mbbox o ZHI) (o_step o ZDIR).
Lemma line_region c o : parseLine (processLine c o) = Some (regionOf o).
Proof.
  unfold processLine, parseLine, regionOf, obs_gbbox, offsetBoundingBox. f_equal. f_equal; lia.
Qed.
Lemma accepted_kind c wfs o : accepted_obs c wfs o -> isProcess o = isBinary o.
Proof.
  intros H. destruct (accepted_obs_ok c wfs o H) as (_ & _ & _ & B). unfold isProcess, isBinary. destruct (o_format o); destruct (o_domain o) eqn:D; try reflexivity.
  destruct (B eq_refl) as (Q & _). congruence.
Qed.
Lemma filter_same {X} (f g : X -> bool) l : (forall x, In x l -> f x = g x) -> filter f l = filter g l.
Proof.
  induction l as [|x l IH]; intros H; cbn [filter]; [reflexivity|]. rewrite (H x (or_introl eq_refl)), IH by (intros; apply H; right; assumption). reflexivity.
Qed.
Lemma process_user c wfs user : Forall (accepted_obs c wfs) user ->
  filter isBinary (user ++ internalObs wfs) = filter isBinary user /\ filter isProcess (user ++ internalObs wfs) = filter isBinary user.
Proof.
  intros HU. rewrite Forall_forall in HU.
  assert (N : forall f, (f = isBinary \/ f = isProcess) -> filter f (internalObs wfs) = []).
  { intros f F. unfold internalObs. induction (seq 0 (length wfs)) as [|q l IH]; cbn [flat_map app filter]; [reflexivity|].
    destruct F as [-> | ->]; cbn [isBinary isProcess o_format o_domain]; exact IH. }
  rewrite !filter_app, !N by auto. rewrite !app_nil_r. split; [reflexivity|].
  apply filter_same. intros x I. exact (accepted_kind c wfs x (HU x I)).
Qed.

(** The number of observers and their regions, in the order of the mesh file, the
    first and last recorded step counted from 1, and a request for Ex over the
    first observer. *)
Theorem C74_process : forall nx ny nz reg c, setupCfg nx ny nz reg = Some c ->
  forall wfs user ot of NT dt comment, Forall (accepted_obs c wfs) user -> accepted_ot ot -> 1 <= NT < 2 ^ 64 -> stop_ ot NT < 2 ^ 64 - 1 ->
  let pd := writeProcessDat c comment (user ++ internalObs wfs) (initOutCfg ot of NT dt) NT dt in
  pd_nobs pd = Z.of_nat (length (pd_boxes pd)) /\
  map parseLine (pd_boxes pd) = map (fun o => Some (regionOf o)) (filter isBinary user) /\
  pd_steps pd = [start_ ot + 1; stop_ ot NT + 1] /\
  (forall o l, filter isBinary user = o :: l -> pd_extract pd =
     Some [o_mbbox o XLO; o_mbbox o XHI; o_mbbox o YLO; o_mbbox o YHI; o_mbbox o ZLO; o_mbbox o ZHI; 1]).
Proof.
  intros nx ny nz reg c HC wfs user ot of NT dt comment HU HT HN HB pd. destruct (process_user c wfs user HU) as (F1 & F2).
  unfold pd, writeProcessDat. cbn [pd_nobs pd_boxes pd_steps pd_extract]. rewrite F1, F2. rewrite map_length, map_map.
  split; [reflexivity|]. split; [apply map_ext; intros o; apply line_region|].
  destruct (oc_limits ot of NT dt HT HN) as (S1 & S2 & _ & S4). rewrite S1, S2. split.
  - unfold ulong, ULONG. rewrite !Z.mod_small by lia. reflexivity.
  - intros o l ->. unfold extractLine, obs_gbbox, offsetBoundingBox. f_equal. repeat (f_equal; try lia).
Qed.

(** *** The records of impulse.dat, found from process.dat *)
Lemma flat_nth_sum {A B} (g : A -> list B) : forall l p q x y, nth_error l p = Some x -> nth_error (g x) q = Some y ->
  nth_error (flat_map g l) (fold_right Nat.add O (map (fun a => length (g a)) (firstn p l)) + q) = Some y.
Proof.
  induction l as [|a l IH]; intros p q x y P Q; [destruct p; discriminate|]. destruct p as [|p]; cbn [nth_error] in P.
  - injection P as <-. cbn [firstn map fold_right flat_map]. rewrite Nat.add_0_l. rewrite nth_error_app1; [exact Q|]. apply nth_error_Some. congruence.
  - cbn [firstn map fold_right flat_map]. rewrite nth_error_app2 by lia. rewrite <- (IH p q x y P Q). f_equal. lia.
Qed.
Lemma seq_nth_error N q : (q < N)%nat -> nth_error (seq 0 N) q = Some q.
Proof. intros L. rewrite (nth_error_nth' _ 0%nat) by (rewrite seq_length; exact L). rewrite seq_nth by exact L. reflexivity. Qed.
Lemma stride_nth lo hi st p : 0 <= p < number lo hi st -> nth_error (stride lo hi st) (Z.to_nat p) = Some (lo + p * st).
Proof.
  intros H. unfold stride, number in *. set (N := 1 + (hi - lo) / st) in *. clearbody N. rewrite (map_nth_error _ _ _ (seq_nth_error (Z.to_nat N) (Z.to_nat p) ltac:(lia))). f_equal. rewrite Z2Nat.id by lia. reflexivity.
Qed.
Lemma nodes_nth o p q s : (forall a, 1 <= o_step o a) -> ordered (o_mbbox o) -> in_region (regionOf o) p q s ->
  nth_error (strideNodes (o_mbbox o) (o_step o)) (Z.to_nat ((s * nj (regionOf o) + q) * ni (regionOf o) + p)) =
  Some (o_mbbox o XLO + p * o_step o XDIR, o_mbbox o YLO + q * o_step o YDIR, o_mbbox o ZLO + s * o_step o ZDIR).
Proof.
  intros S O (P1 & P2 & P3). unfold ni, nj, nk in *. cbn [regionOf ilo ihi istep jlo jhi jstep klo khi kstep] in *.
  set (b := o_mbbox o) in *. set (st := o_step o) in *. clearbody b st. clear O S.
  set (NI := number (b XLO) (b XHI) (st XDIR)) in *. set (NJ := number (b YLO) (b YHI) (st YDIR)) in *.
  unfold strideNodes.
  replace (Z.to_nat ((s * NJ + q) * NI + p)) with (Z.to_nat s * (Z.to_nat NJ * Z.to_nat NI) + (Z.to_nat q * Z.to_nat NI + Z.to_nat p))%nat.
  2:{ rewrite <- (Nat2Z.id (_ + _)%nat). f_equal. rewrite !Nat2Z.inj_add, !Nat2Z.inj_mul, !Z2Nat.id by lia. ring. }
  assert (LJ : forall k : Z, length (flat_map (fun j => map (fun i => (i, j, k)) (stride (b XLO) (b XHI) (st XDIR))) (stride (b YLO) (b YHI) (st YDIR))) = (Z.to_nat NJ * Z.to_nat NI)%nat).
  { intros k. rewrite (flat_map_length_const _ _ (Z.to_nat NI)). 2:{ intros. rewrite map_length, stride_length. reflexivity. } rewrite stride_length. reflexivity. }
  assert (QB : (Z.to_nat q * Z.to_nat NI + Z.to_nat p < Z.to_nat NJ * Z.to_nat NI)%nat).
  { assert (Z.to_nat q + 1 <= Z.to_nat NJ)%nat by lia. assert (Z.to_nat p < Z.to_nat NI)%nat by lia.
    apply (Nat.lt_le_trans _ ((Z.to_nat q + 1) * Z.to_nat NI)); [lia|]. apply Nat.mul_le_mono_r. assumption. }
  refine (flat_nth _ (Z.to_nat NJ * Z.to_nat NI) _ _ (Z.to_nat s) _ _ _ (stride_nth _ _ _ s P3) _ QB); [intros; apply LJ|].
  refine (flat_nth _ (Z.to_nat NI) _ _ (Z.to_nat q) _ _ _ (stride_nth _ _ _ q P2) _ _); [intros; rewrite map_length, stride_length; reflexivity| |lia].
  exact (map_nth_error (fun i => (i, b YLO + q * st YDIR, b ZLO + s * st ZDIR)) _ _ (stride_nth _ _ _ p P1)).
Qed.
Lemma filter_pairs {X} (f : X -> bool) : forall (l : list X) n q o, nth_error (filter f l) q = Some o ->
  exists k, nth_error (filter (fun no => f (snd no)) (combine (seq n (length l)) l)) q = Some (k, o).
Proof.
  induction l as [|x l IH]; intros n q o H; [destruct q; discriminate|]. cbn [length seq combine filter snd] in *. destruct (f x).
  - destruct q as [|q]; cbn [nth_error] in *; [injection H as <-; eexists; reflexivity|]. apply (IH (Datatypes.S n)). exact H.
  - apply (IH (Datatypes.S n)). exact H.
Qed.
Lemma filter_pairs_snd {X} (f : X -> bool) : forall (l : list X) n, map snd (filter (fun no => f (snd no)) (combine (seq n (length l)) l)) = filter f l.
Proof.
  induction l as [|x l IH]; intros n; [reflexivity|]. cbn [length seq combine filter snd]. destruct (f x); cbn [map snd]; rewrite IH; reflexivity.
Qed.
Lemma flat_map_filter {X Y} (f : X -> bool) (g h : X -> list Y) l : (forall x, g x = if f x then h x else []) -> flat_map g l = flat_map h (filter f l).
Proof.
  intros H. induction l as [|x l IH]; [reflexivity|]. cbn [flat_map filter]. rewrite H. destruct (f x); cbn [flat_map app]; rewrite IH; reflexivity.
Qed.
Lemma sum_nodes (L : list (nat * Obs)) : (forall o, In o (map snd L) -> ordered (o_mbbox o) /\ forall a, 1 <= o_step o a) ->
  Z.of_nat (fold_right Nat.add O (map (fun no => length (strideNodes (o_mbbox (snd no)) (o_step (snd no)))) L)) = total (map (fun no => regionOf (snd no)) L).
Proof.
  induction L as [|x L IH]; intros H; [reflexivity|]. cbn [map fold_right]. unfold total in *. cbn [map fold_right].
  rewrite Nat2Z.inj_add, IH by (intros o I; apply H; right; exact I). f_equal.
  destruct (H (snd x) (or_introl eq_refl)) as (O & S). rewrite strideNodes_length by assumption. reflexivity.
Qed.

(** The record of any node of any observer at any recorded step is found in
    impulse.dat at the place worked out from process.dat; it holds the mesh
    indices of the node and the six fields there after that many complete steps. *)
Theorem C74_reconstruct : forall nx ny nz reg c, setupCfg nx ny nz reg = Some c ->
  forall wfs user ot of NT dt wv A xE xH m comment,
  Forall (accepted_obs c wfs) user -> steps_ok c user -> (forall o, In o user -> ordered (o_mbbox o)) ->
  accepted_ot ot -> accepted_of of -> 1 <= NT < 2 ^ 32 -> stop_ ot NT <= NT - 1 ->
  let oc := initOutCfg ot of NT dt in
  let pd := writeProcessDat c comment (user ++ internalObs wfs) oc NT dt in
  forall fuel, NT < Z.of_nat fuel -> (forall a, numCells c a + 1 < Z.of_nat fuel) ->
  exists m' out rs n1 n2, simulate c wv A xE xH fuel oc (user ++ internalObs wfs) dt NT m = Fin (m', out) /\
  map parseLine (pd_boxes pd) = map Some rs /\ pd_steps pd = [n1; n2] /\
  Z.of_nat (length (impulse out)) = (n2 - n1 + 1) * total rs /\
  forall step a r p q s, n1 <= step <= n2 -> nth_error rs a = Some r -> in_region r p q s ->
  exists name, nth_error (impulse out) (Z.to_nat (position rs (step - n1) a r p q s)) =
    let i := ilo r + p * istep r in let j := jlo r + q * jstep r in let k := klo r + s * kstep r in
    Some (name, i, j, k, sixFields c (fieldsAfter c A xE xH m (step - 1)) i j k).
Proof.
  intros nx ny nz reg c HC wfs user ot of NT dt wv A xE xH m comment HU HS HO HT HF HN HW oc pd fuel F1 F2.
  destruct (C31_records_partial nx ny nz reg c HC wfs user ot of NT dt wv A xE xH m HU HS HO HT HF HN HW fuel F1 F2) as (m' & out & E & _ & _ & IM & _).
  destruct (C74_process nx ny nz reg c HC wfs user ot of NT dt comment HU HT ltac:(lia) ltac:(lia)) as (_ & PB & PS & _).
  fold oc pd in PB, PS. cbv zeta in IM.
  set (rs := map regionOf (filter isBinary user)).
  destruct (oc_limits ot of NT dt HT ltac:(lia)) as (_ & _ & _ & SL).
  exists m', out, rs, (start_ ot + 1), (stop_ ot NT + 1). split; [exact E|]. split; [rewrite PB; unfold rs; rewrite map_map; reflexivity|]. split; [exact PS|].
  set (L := filter (fun no => isBinary (snd no)) (combine (seq 0 (length user)) user)).
  assert (LS : map snd L = filter isBinary user) by apply filter_pairs_snd.
  assert (LR : map (fun no => regionOf (snd no)) L = rs) by (unfold rs; rewrite <- LS, map_map; reflexivity).
  pose (rec := fun t (no : nat * Obs) => map (fun n : Z * Z * Z => let '(i, j, k) := n in (fst no, i, j, k, sixFields c (fieldsAfter c A xE xH m t) i j k)) (strideNodes (o_mbbox (snd no)) (o_step (snd no)))).
  assert (ST : forall t, stepRecords c user A xE xH m t = flat_map (rec t) L).
  { intros t. unfold stepRecords, L. apply flat_map_filter. intros (n & o). cbn [snd fst]. reflexivity. }
  assert (GOOD : forall o, In o (filter isBinary user) -> ordered (o_mbbox o) /\ forall a, 1 <= o_step o a).
  { intros o I. apply filter_In in I. destruct I as (I & B). split; [auto|]. intros a. unfold isBinary in B. destruct (o_format o) eqn:FO; [discriminate|]. destruct (HS o a I FO). lia. }
  assert (LEN : forall t, Z.of_nat (length (stepRecords c user A xE xH m t)) = total rs).
  { intros t. rewrite ST, <- LR, <- sum_nodes by (rewrite LS; exact GOOD). f_equal. clear. induction L as [|x L IH]; [reflexivity|].
    cbn [flat_map map fold_right]. rewrite app_length, IH. f_equal. unfold rec. apply map_length. }
  assert (WIN : Z.of_nat (length (zrange (start_ ot) (stop_ ot NT))) = stop_ ot NT - start_ ot + 1).
  { unfold zrange. rewrite map_length, seq_length. lia. }
  assert (T0 : 0 <= total rs) by (rewrite <- (LEN 0); lia).
  split.
  { rewrite IM. rewrite (flat_map_length_const _ _ (Z.to_nat (total rs))). 2:{ intros t _. rewrite <- (LEN t). rewrite Nat2Z.id. reflexivity. }
    rewrite Nat2Z.inj_mul, WIN, Z2Nat.id by exact T0. f_equal. lia. }
  intros step a r p q s RG AR IR.
  unfold rs in AR. rewrite nth_error_map in AR. destruct (nth_error (filter isBinary user) a) as [o|] eqn:AO; [|discriminate]. cbn [option_map] in AR. injection AR as <-.
  destruct (filter_pairs isBinary user 0 a o AO) as (name & AL). fold L in AL. exists name.
  destruct (GOOD o (nth_error_In _ _ AO)) as (OO & SO).
  assert (NN : nth_error (rec (step - 1) (name, o)) (Z.to_nat ((s * nj (regionOf o) + q) * ni (regionOf o) + p)) =
    Some (name, o_mbbox o XLO + p * o_step o XDIR, o_mbbox o YLO + q * o_step o YDIR, o_mbbox o ZLO + s * o_step o ZDIR,
      sixFields c (fieldsAfter c A xE xH m (step - 1)) (o_mbbox o XLO + p * o_step o XDIR) (o_mbbox o YLO + q * o_step o YDIR) (o_mbbox o ZLO + s * o_step o ZDIR))).
  { unfold rec. cbn [fst snd]. exact (map_nth_error _ _ _ (nodes_nth o p q s SO OO IR)). }
  pose proof (flat_nth_sum (rec (step - 1)) L a _ _ _ AL NN) as INSTEP.
  assert (OFF : Z.of_nat (fold_right Nat.add O (map (fun x => length (rec (step - 1) x)) (firstn a L))) = total (firstn a rs)).
  { rewrite <- LR, firstn_map. rewrite <- sum_nodes.
    - f_equal. f_equal. apply map_ext. intros x. unfold rec. apply map_length.
    - intros o' I. apply GOOD. rewrite <- LS. apply in_map_iff in I. destruct I as (x & <- & I). apply in_map. rewrite <- (firstn_skipn a L). apply in_or_app. left. exact I. }
  rewrite <- ST in INSTEP.
  assert (BD : nth_error (stepRecords c user A xE xH m (step - 1)) (fold_right Nat.add O (map (fun x => length (rec (step - 1) x)) (firstn a L)) + Z.to_nat ((s * nj (regionOf o) + q) * ni (regionOf o) + p)) <> None) by congruence.
  apply nth_error_Some in BD.
  assert (STEP : nth_error (zrange (start_ ot) (stop_ ot NT)) (Z.to_nat (step - (start_ ot + 1))) = Some (step - 1)).
  { unfold zrange. rewrite (map_nth_error _ _ _ (seq_nth_error (Z.to_nat (stop_ ot NT - start_ ot + 1)) (Z.to_nat (step - (start_ ot + 1))) ltac:(lia))). f_equal. lia. }
  cbv zeta. cbn [regionOf ilo istep jlo jstep klo kstep]. rewrite IM. unfold position.
  destruct IR as (I1 & I2 & I3).
  assert (P0 : 0 <= (s * nj (regionOf o) + q) * ni (regionOf o) + p).
  { assert (0 <= s * nj (regionOf o)) by (apply Z.mul_nonneg_nonneg; lia). assert (0 <= (s * nj (regionOf o) + q) * ni (regionOf o)) by (apply Z.mul_nonneg_nonneg; lia). lia. }
  set (PP := (s * nj (regionOf o) + q) * ni (regionOf o) + p) in *.
  replace (Z.to_nat ((step - (start_ ot + 1)) * total rs + total (firstn a rs) + (s * nj (regionOf o) + q) * ni (regionOf o) + p))
    with (Z.to_nat (step - (start_ ot + 1))%Z * Z.to_nat (total rs) + (fold_right Nat.add O (map (fun x => length (rec (step - 1)%Z x)) (firstn a L)) + Z.to_nat PP))%nat.
  2:{ rewrite <- (Nat2Z.id (_ + _)%nat). f_equal. rewrite !Nat2Z.inj_add, !Nat2Z.inj_mul, OFF, !Z2Nat.id by lia. unfold PP. ring. }
  refine (flat_nth _ (Z.to_nat (total rs)) _ _ _ _ _ _ STEP INSTEP _).
  - intros t _. rewrite <- (LEN t). rewrite Nat2Z.id. reflexivity.
  - rewrite <- (LEN (step - 1)), Nat2Z.id. exact BD.
Qed.

(** *** Mesh size and frequencies *)
(** On a cubic mesh the mesh size in the file is 2 CN / sqrt 3 times the cell size:
    right without a CN card, wrong for every other Courant number. *)
Theorem C74_mesh_size_partial : forall c comment l oc NT cn d, (0 < d)%R ->
  pd_meshsize (writeProcessDat c comment l oc NT (Edges.timeStep cn (fun _ => d))) = (2 * cn / sqrt 3 * d)%R.
Proof.
  intros c comment l oc NT cn d D. cbn [writeProcessDat pd_meshsize]. unfold Edges.timeStep.
  replace (1 / d * (1 / d) + 1 / d * (1 / d) + 1 / d * (1 / d))%R with (3 * (Rsqr (/ d)))%R by (unfold Rsqr; field; lra).
  rewrite sqrt_mult by (try lra; apply Rle_0_sqr). rewrite sqrt_Rsqr by (left; apply Rinv_0_lt_compat; exact D).
  assert (0 < sqrt 3)%R by (apply sqrt_lt_R0; lra).
  assert (c0 <> 0)%R by (unfold c0; lra). set (q := sqrt 3) in *. clearbody q. field. repeat split; lra.
Qed.
Theorem C74_mesh_size_default : forall c comment l oc NT d cn, (0 < d)%R -> courantOf None = Some cn ->
  pd_meshsize (writeProcessDat c comment l oc NT (Edges.timeStep cn (fun _ => d))) = d.
Proof.
  intros c comment l oc NT d cn D H. rewrite C74_mesh_size_partial by exact D. cbn [courantOf] in H. unfold initSimulation in H. destruct (Rlt_dec (-1) 0); [|lra]. injection H as <-.
  assert (0 < sqrt 3)%R by (apply sqrt_lt_R0; lra). field. lra.
Qed.
Theorem C74_mesh_size_refuted : forall c comment l oc NT d cn, (0 < d)%R -> courantOf (Some cn) = Some cn -> cn <> (sqrt 3 / 2)%R ->
  pd_meshsize (writeProcessDat c comment l oc NT (Edges.timeStep cn (fun _ => d))) <> d.
Proof.
  intros c comment l oc NT d cn D _ NE E. rewrite C74_mesh_size_partial in E by exact D. apply NE.
  assert (Q : (0 < sqrt 3)%R) by (apply sqrt_lt_R0; lra). apply (Rmult_eq_reg_r (2 / sqrt 3 * d)%R).
  - replace (sqrt 3 / 2 * (2 / sqrt 3 * d))%R with d by (field; lra). rewrite <- E at 2. field. lra.
  - assert (0 < 2 / sqrt 3 * d)%R by (apply Rmult_lt_0_compat; [apply Rdiv_lt_0_compat; lra|exact D]). lra.
Qed.
(** The frequencies of the OF card do not appear: the file always says 0, 1/dt. *)
Theorem C74_frequencies_refuted : forall c comment l ot f0 f1 n NT dt, (0 < f0)%R -> 1 <= NT -> (0 < dt)%R ->
  let pd := writeProcessDat c comment l (initOutCfg ot (Some (f0, f1, n)) NT dt) NT dt in
  pd_freqs pd = [0%R; (1 / dt)%R; (1 / (IZR NT * dt))%R] /\ nth 0 (pd_freqs pd) f0 <> f0.
Proof.
  intros c comment l ot f0 f1 n NT dt F N D pd. cbn [pd writeProcessDat pd_freqs nth].
  assert (1 <= IZR NT)%R by (apply IZR_le; exact N). split; [|lra].
  replace (IZR NT * (1 / (IZR NT * dt)))%R with (1 / dt)%R by (field; lra). reflexivity.
Qed.
(** *** Non-vacuity: C31_nonvacuous (six cells per axis, a 2 by 2 by 1 region with
    stride 2, steps 2 to 7 of 10) meets the hypotheses; the record of its last node
    in the last step is number 23 of 24. *)
Example C74_nonvacuous : position [mkRegion 1 4 2 1 2 1 1 1 1] (8 - 3) 0 (mkRegion 1 4 2 1 2 1 1 1 1) 1 1 0 = 23 /\
  in_region (mkRegion 1 4 2 1 2 1 1 1 1) 1 1 0 /\ total [mkRegion 1 4 2 1 2 1 1 1 1] = 4 /\
  map regionOf (filter isBinary c31o) = [mkRegion 1 4 2 1 2 1 1 1 1].
Proof. repeat split; vm_compute; congruence. Qed.
