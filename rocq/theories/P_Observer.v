(** C30, C31, C45, C55: observers and output files. *)
From Coq Require Import ZArith List Bool Lia Reals Lra String SpecFloat FunctionalExtensionality.
From Verif Require Import Types Lang LangProofs BBox Grid Setup SpecGeom BBoxProofs SpecGrid SetupProofs Step StepShape StepBounds
  SpecMedia MediaProofs P_Geometry P_Media SpecPhys Waveform Source SpecSource SourceProofs P_Source StepCount SpecCone StepValue
  Sim Observer SpecObs ObserverProofs.
Import ListNotations.
Open Scope list_scope.
Open Scope Z_scope.
Local Arguments Z.mul : simpl never.
Local Arguments Z.add : simpl never.
Local Arguments Z.sub : simpl never.
Local Notation length := List.length.

(** ** Accepted cards *)
Definition accepted_obs (c : Cfg) (wfs : list WfItem) (o : Obs) : Prop :=
  exists l name typeStr wfName steps, parseOP (meshBox c) wfs l (o_mbbox o) name typeStr wfName steps = Some (l ++ [o]).
Definition accepted_ot (ot : option (Z * Z)) : Prop :=
  match ot with None => True | Some p => exists a b, 0 <= a /\ 0 <= b < 2 ^ 64 /\ parseOT a b = Some p end.
Definition accepted_of (of : option (R * R * Z)) : Prop :=
  match of with None => True | Some p => exists f0 f1 n, parseOF f0 f1 n = Some p end.

Lemma waveformNumber_lt wfs name n : waveformNumber wfs name = Some n -> (n < length wfs)%nat.
Proof.
  revert n. induction wfs as [|w wfs IH]; intros n; cbn [waveformNumber length]; [discriminate|].
  destruct (String.eqb name (wName w)); [intros [= <-]; lia|].
  destruct (waveformNumber wfs name) as [k|]; cbn [option_map]; [|discriminate]. intros [= <-]. specialize (IH k eq_refl). lia.
Qed.
Lemma point_degenerate b a : bboxType b = BB_POINT -> b (face_lo a) = b (face_hi a).
Proof.
  rewrite C02_type. unfold ndeg, axes. cbn [filter]. unfold degenerate.
  destruct (Z.eqb_spec (b (face_lo XDIR)) (b (face_hi XDIR))), (Z.eqb_spec (b (face_lo YDIR)) (b (face_hi YDIR))),
    (Z.eqb_spec (b (face_lo ZDIR)) (b (face_hi ZDIR))); cbn [length]; try discriminate; intros _; destruct a; assumption.
Qed.
Lemma accepted_obs_ok c wfs o : accepted_obs c wfs o ->
  o_quantity o = OQ_EH /\ box_ok c (o_mbbox o) /\
  (o_format o = OF_ASCII -> (forall a, o_mbbox o (face_lo a) = o_mbbox o (face_hi a)) /\ (wfs <> [] -> (o_wf o < length wfs)%nat)) /\
  (o_format o = OF_BINARY -> o_domain o = OD_TIME /\ forall a, 0 <= o_step o a).
Proof.
  intros (l & name & typeStr & wfName & steps & H). unfold parseOP in H.
  destruct (isObserver l name); [discriminate|].
  destruct (bboxIsNormal (o_mbbox o)) eqn:N; cbn [negb] in H; [|discriminate].
  destruct (bboxIsWithin (o_mbbox o) (meshBox c)) eqn:I; cbn [negb] in H; [|discriminate].
  pose proof (normal_within c _ N I) as BO.
  assert (W0 : wfs <> [] -> (0 < length wfs)%nat) by (destruct wfs; [congruence|cbn; lia]).
  unfold observerType in H.
  destruct (String.eqb typeStr "TDOM_ASCII"); [|destruct (String.eqb typeStr "FDOM_ASCII"); [|destruct (String.eqb typeStr "TDOM_BINARY"); [|discriminate]]].
  1,2: destruct (bboxType (o_mbbox o)) eqn:T; try discriminate H;
    pose proof (fun a => point_degenerate _ a T) as PT;
    destruct (String.eqb wfName ""); [|destruct (waveformNumber wfs wfName) as [k|] eqn:K; [|discriminate]; apply waveformNumber_lt in K];
    injection H as H; apply app_inv_head in H; injection H as H;
    (split; [rewrite <- H; reflexivity|]); (split; [exact BO|]); split; try (rewrite <- H; cbn [o_format]; discriminate);
    intros _; split; auto; rewrite <- H; cbn [o_wf]; auto.
  match goal with H : (if ?b then _ else _) = _ |- _ => destruct b eqn:ST end; [discriminate|].
  injection H as H; apply app_inv_head in H; injection H as H.
  split; [rewrite <- H; reflexivity|]. split; [exact BO|]. split; [rewrite <- H; discriminate|].
  intros _. split; [rewrite <- H; reflexivity|]. rewrite !orb_false_iff, !Z.ltb_ge in ST. intros a. rewrite <- H. cbn [o_step]. destruct a; lia.
Qed.
Lemma internal_ok c wfs : Forall (obs_ok c) (internalObs wfs).
Proof.
  unfold internalObs. apply Forall_forall. intros o H. apply in_flat_map in H. destruct H as (n & _ & [<-|[<-|[]]]); exact I.
Qed.
Lemma internal_not_binary wfs : existsb isBinary (internalObs wfs) = false.
Proof. unfold internalObs. induction (seq 0 (length wfs)) as [|n l IH]; cbn [flat_map app existsb]; [reflexivity|exact IH]. Qed.

(** positive strides that do not overflow [int] *)
Definition steps_ok (c : Cfg) (user : list Obs) : Prop :=
  forall o a, In o user -> o_format o = OF_BINARY -> 1 <= o_step o a <= INT_MAX - numCells c a.
Lemma all_obs_ok c wfs user : Forall (accepted_obs c wfs) user -> steps_ok c user -> Forall (obs_ok c) (user ++ internalObs wfs).
Proof.
  intros HA HS. apply Forall_app. split; [|apply internal_ok]. rewrite Forall_forall in *. intros o I.
  destruct (accepted_obs_ok c wfs o (HA o I)) as (Q & [B _] & X & Y). unfold obs_ok. rewrite Q. destruct (o_format o) eqn:F.
  - intros a. destruct X as [X _]; auto. specialize (X a). specialize (B a). lia.
  - split; [exact B|]. intros a. specialize (HS o a I F). lia.
Qed.

(** ** A whole run *)
Section Runs.
Variables (c : Cfg) (W : wf c) (wfs : list WfItem) (user : list Obs) (ot : option (Z * Z)) (of : option (R * R * Z))
  (NT : Z) (dt : R) (wv : R -> nat -> R) (A : Arith R) (xE xH : nat -> list (item R)) (m : mem R).
Hypothesis HU : Forall (accepted_obs c wfs) user.
Hypothesis HS : steps_ok c user.
Hypothesis HT : accepted_ot ot.
Hypothesis HN : 1 <= NT < 2 ^ 64.
Let oc := initOutCfg ot of NT dt.
Notation M := (fieldsAfter c A xE xH m).

Definition start_ : Z := match ot with None => 0 | Some p => fst p end.
Definition stop_ : Z := match ot with None => NT - 1 | Some p => snd p end.
Lemma oc_limits : oc_start oc = start_ /\ oc_stop oc = stop_ /\ oc_numOut oc = (stop_ - start_ + 1) mod 2 ^ 64 /\ 0 <= start_ <= stop_.
Proof.
  unfold oc, initOutCfg, start_, stop_. destruct of as [[[f0 f1] n]|]; destruct ot as [[a b]|]; cbn [fst snd oc_start oc_stop oc_numOut];
  unfold ulong, ULONG; rewrite ?(Z.mod_small (NT - 1)) by lia; repeat split; try reflexivity; try lia;
  destruct HT as (a' & b' & H1 & H2 & H3); unfold parseOT in H3; destruct (Z.ltb_spec b' a'); try discriminate H3; injection H3 as -> ->; lia.
Qed.
(** the steps of a run that fall in the window *)
Lemma filter_window {X : Type} (h : Z -> list X) : forall N, 0 <= N ->
  flat_map (fun t => if (start_ <=? t) && (t <=? stop_) then h t else []) (zrange 0 (N - 1)) = flat_map h (window start_ stop_ N).
Proof.
  destruct oc_limits as (_ & _ & _ & HL).
  apply natlike_ind.
  - rewrite zrange_empty by lia. unfold window. rewrite zrange_empty by lia. reflexivity.
  - intros N H IH. replace (Z.succ N - 1) with (N - 1 + 1) by lia. rewrite zrange_snoc by lia. rewrite flat_map_app, IH. cbn [flat_map].
    rewrite app_nil_r. replace (N - 1 + 1) with N by lia. unfold window.
    destruct (Z.leb_spec start_ N), (Z.leb_spec N stop_); cbn [andb].
    + rewrite !Z.min_r by lia. replace (Z.succ N - 1) with (N - 1 + 1) by lia. rewrite zrange_snoc by lia.
      rewrite flat_map_app. cbn [flat_map]. rewrite app_nil_r. do 2 f_equal. lia.
    + rewrite app_nil_r. do 2 f_equal. lia.
    + rewrite app_nil_r. rewrite !zrange_empty by lia. reflexivity.
    + lia.
Qed.
Lemma sum_window (h : Z -> R) : forall N, 0 <= N ->
  sumOver (zrange 0 (N - 1)) (fun t => if (start_ <=? t) && (t <=? stop_) then h t else 0%R) = sumOver (window start_ stop_ N) h.
Proof.
  intros N H.
  assert (G : forall l, sumOver l (fun t => if (start_ <=? t) && (t <=? stop_) then h t else 0%R) =
      fold_right Rplus 0%R (flat_map (fun t => if (start_ <=? t) && (t <=? stop_) then [h t] else []) l)).
  { unfold sumOver. induction l as [|t l IH]; cbn [map fold_right flat_map]; [reflexivity|].
    destruct ((start_ <=? t) && (t <=? stop_)); cbn [app fold_right]; rewrite IH; lra. }
  rewrite G, filter_window by assumption. unfold sumOver. f_equal.
Qed.

Lemma nth_user n o : nth_error user n = Some o -> nth_error (user ++ internalObs wfs) n = Some o /\ In o user.
Proof. intros H. split; [rewrite nth_error_app1; auto; apply nth_error_Some; congruence|eapply nth_error_In; eauto]. Qed.

(** records of one time step *)
Definition stepRecords (t : Z) : list (nat * Z * Z * Z * list R) :=
  flat_map (fun no => let '(n, o) := no in if isBinary o
     then map (fun p => let '(i, j, k) := p in (n, i, j, k, sixFields c (M t) i j k)) (strideNodes (o_mbbox o) (o_step o)) else [])
    (combine (seq 0 (length user)) user).
Lemma recsAll_records t : recsAll c oc (M t) 0 (user ++ internalObs wfs) t = if (start_ <=? t) && (t <=? stop_) then stepRecords t else [].
Proof.
  assert (GI : forall n, recsAll c oc (M t) n (internalObs wfs) t = []).
  { unfold internalObs. induction (seq 0 (length wfs)) as [|q l IH]; intros n; cbn [flat_map app recsAll]; [reflexivity|].
    rewrite IH. unfold recsOf. cbn [isBinary o_format andb app]. reflexivity. }
  destruct oc_limits as (S1 & S2 & _). unfold stepRecords.
  assert (G : forall l n, (forall o, In o l -> In o user) -> recsAll c oc (M t) n (l ++ internalObs wfs) t =
     if (start_ <=? t) && (t <=? stop_) then flat_map (fun no => let '(n, o) := no in if isBinary o
     then map (fun p => let '(i, j, k) := p in (n, i, j, k, sixFields c (M t) i j k)) (strideNodes (o_mbbox o) (o_step o)) else [])
    (combine (seq n (length l)) l) else []).
  { induction l as [|o l IH]; intros n HI.
    - cbn [app length seq combine flat_map]. rewrite GI. destruct (_ && _); reflexivity.
    - cbn [app recsAll length seq combine flat_map]. rewrite IH by (intros; apply HI; right; auto).
      rewrite Forall_forall in HU. destruct (accepted_obs_ok c wfs o (HU o (HI o (or_introl eq_refl)))) as (Q & _).
      unfold recsOf, active. rewrite Q, S1, S2. destruct (isBinary o); cbn [andb]; destruct ((start_ <=? t) && (t <=? stop_)); reflexivity. }
  apply G. auto.
Qed.

(** Everything that is written. *)
Theorem run_output : forall fuel, NT < Z.of_nat fuel -> (forall a, numCells c a + 1 < Z.of_nat fuel) ->
  exists out, simulate c wv A xE xH fuel oc (user ++ internalObs wfs) dt NT m = Fin (M NT, out) /\
  (existsb isBinary user = true -> excite out = map (fun t => wv (IZR t * dt)%R 0%nat) (zrange 0 (NT - 1))) /\
  impulse out = flat_map stepRecords (window start_ stop_ NT) /\
  (forall n o, nth_error user n = Some o -> o_format o = OF_ASCII -> o_domain o = OD_TIME ->
     rows out n = map (fun t => (t, (IZR t * dt)%R, sixAt c (M t) o)) (window start_ stop_ NT)) /\
  (forall n o comp f, nth_error user n = Some o -> o_format o = OF_ASCII -> o_domain o = OD_FREQ -> (comp < 6)%nat -> 0 <= f < oc_nf oc ->
     (dftRe out n comp f, dftIm out n comp f) =
     Fourier (window start_ stop_ NT) (fun t => nth comp (sixAt c (M t) o) 0%R) (omega oc f) dt) /\
  (forall k f, (k < length wfs)%nat -> 0 <= f < oc_nf oc ->
     (dftRe out (wfFreqIndex (length user) k) 0 f, dftIm out (wfFreqIndex (length user) k) 0 f) =
     Fourier (zrange 0 (NT - 1)) (fun t => wv (IZR t * dt)%R k) (omega oc f) dt).
Proof.
  intros fuel HF HC.
  destruct (simulate_inv c W wv oc dt A xE xH m (user ++ internalObs wfs) fuel NT (all_obs_ok c wfs user HU HS) HN HF HC)
    as (out & E & I1 & I2 & I3).
  exists out. split; [exact E|]. destruct oc_limits as (S1 & S2 & _). split; [|split; [|split; [|split]]].
  - intros B. rewrite I1, existsb_app, B. reflexivity.
  - rewrite I2. rewrite <- filter_window by lia. apply flat_map_in. intros t _. apply recsAll_records.
  - intros n o Hn Hf Hd. destruct (nth_user n o Hn) as [Hn' Io]. destruct (I3 n o Hn') as (R & _). rewrite R.
    rewrite Forall_forall in HU. destruct (accepted_obs_ok c wfs o (HU o Io)) as (Q & _).
    transitivity (flat_map (fun t => [(t, (IZR t * dt)%R, sixAt c (M t) o)]) (window start_ stop_ NT)).
    + rewrite <- filter_window by lia. apply flat_map_in. intros t _. unfold rowOf, isBinary, isTime, active, vals. rewrite Q, Hf, Hd, S1, S2. reflexivity.
    + induction (window start_ stop_ NT) as [|t l IH]; cbn [flat_map map app]; [reflexivity|f_equal; exact IH].
  - intros n o comp f Hn Hf Hd Hc Hff. destruct (nth_user n o Hn) as [Hn' Io]. destruct (I3 n o Hn') as (_ & D). destruct (D comp f) as (D1 & D2).
    rewrite Forall_forall in HU. destruct (accepted_obs_ok c wfs o (HU o Io)) as (Q & _).
    assert (G : forall trig, sumOver (zrange 0 (NT - 1)) (fun t => contrib c wv oc dt trig (M t) o comp f t) =
       sumOver (window start_ stop_ NT) (fun t => (nth comp (sixAt c (M t) o) 0 * trig (omega oc f * (IZR t * dt)))%R)).
    { intros trig. rewrite <- sum_window by lia. f_equal. apply functional_extensionality. intros t.
      unfold contrib, isBinary, isTime, active, vals. rewrite Q, Hf, Hd, S1, S2. cbn [negb andb].
      change (length (sixAt c (M t) o)) with 6%nat. destruct (Nat.ltb_spec comp 6); [|lia]. destruct (Z.leb_spec 0 f); [|lia].
      destruct (Z.ltb_spec f (oc_nf oc)); [|lia]. rewrite !andb_true_r. reflexivity. }
    unfold Fourier. rewrite D1, D2, !G. reflexivity.
  - intros k f Hk Hff.
    assert (Hn : exists nm, nth_error (user ++ internalObs wfs) (wfFreqIndex (length user) k) =
       Some (mkObs nm OF_ASCII OD_FREQ OQ_WF (fun _ => 0) (fun _ => 0) k)).
    { unfold wfFreqIndex. rewrite nth_error_app2 by lia. replace (length user + 2 * k + 1 - length user)%nat with (2 * k + 1)%nat by lia.
      unfold internalObs. revert Hk. generalize (length wfs) as N.
      assert (G : forall N a, (k < N)%nat -> exists nm, nth_error (flat_map (fun n => let nm := match nth_error wfs n with Some w => wName w | None => ""%string end in
         [mkObs nm OF_ASCII OD_TIME OQ_WF (fun _ => 0) (fun _ => 0) n; mkObs nm OF_ASCII OD_FREQ OQ_WF (fun _ => 0) (fun _ => 0) n]) (seq a N)) (2 * k + 1) =
         Some (mkObs nm OF_ASCII OD_FREQ OQ_WF (fun _ => 0) (fun _ => 0) (a + k)%nat)).
      { clear. induction k as [|k IH]; intros N a H; destruct N as [|N]; try lia; cbn [seq flat_map app].
        - rewrite Nat.add_0_r. eexists. reflexivity.
        - replace (2 * S k + 1)%nat with (S (S (2 * k + 1))) by lia. cbn [nth_error].
          destruct (IH N (S a)) as (nm & X); [lia|]. exists nm. etransitivity; [exact X|]. do 2 f_equal. lia. }
      intros N H. destruct (G N O H) as (nm & X). exists nm. exact X. }
    destruct Hn as (nm & Hn). destruct (I3 _ _ Hn) as (_ & D). destruct (D O f) as (D1 & D2).
    assert (G : forall trig, (fun t => contrib c wv oc dt trig (M t) (mkObs nm OF_ASCII OD_FREQ OQ_WF (fun _ => 0) (fun _ => 0) k) 0 f t) =
       (fun t => (wv (IZR t * dt) k * trig (omega oc f * (IZR t * dt)))%R)).
    { intros trig. apply functional_extensionality. intros t. unfold contrib, isBinary, isTime, active, vals.
      cbn [o_format o_domain o_quantity o_wf negb andb length Nat.ltb Nat.leb nth]. destruct (Z.leb_spec 0 f); [|lia].
      destruct (Z.ltb_spec f (oc_nf oc)); [|lia]. reflexivity. }
    unfold Fourier. rewrite D1, D2, !G. reflexivity.
Qed.
End Runs.

(** ** C31: what the headers announce is what is written. *)
(** number of nodes announced by a line of process.dat: along each axis the
    nodes lo, lo+step, ... not above hi *)
Definition announcedNodes (b : BBox) (st : Axis -> Z) : Z :=
  let n a := 1 + (b (face_hi a) - b (face_lo a)) / st a in n XDIR * n YDIR * n ZDIR.
Lemma flat_map_length_const {X Y : Type} (h : X -> list Y) l n : (forall x, In x l -> length (h x) = n) -> length (flat_map h l) = (length l * n)%nat.
Proof.
  induction l as [|x l IH]; intros H; cbn [flat_map length]; [reflexivity|]. rewrite app_length, IH by (intros; apply H; right; auto).
  rewrite (H x) by (left; reflexivity). lia.
Qed.
Lemma stride_length lo hi st : length (stride lo hi st) = Z.to_nat (1 + (hi - lo) / st).
Proof. unfold stride. rewrite map_length, seq_length. reflexivity. Qed.
Lemma strideNodes_length b st : ordered b -> (forall a, 1 <= st a) -> Z.of_nat (length (strideNodes b st)) = announcedNodes b st.
Proof.
  intros O S. unfold strideNodes.
  rewrite (flat_map_length_const _ _ (length (stride (b YLO) (b YHI) (st YDIR)) * length (stride (b XLO) (b XHI) (st XDIR)))%nat).
  2:{ intros k _. apply flat_map_length_const. intros j _. apply map_length. }
  rewrite !stride_length. unfold announcedNodes.
  pose proof (O XDIR); pose proof (O YDIR); pose proof (O ZDIR). pose proof (S XDIR); pose proof (S YDIR); pose proof (S ZDIR). cbn [face_lo face_hi] in *.
  assert (0 <= (b XHI - b XLO) / st XDIR) by (apply Z.div_pos; lia).
  assert (0 <= (b YHI - b YLO) / st YDIR) by (apply Z.div_pos; lia).
  assert (0 <= (b ZHI - b ZLO) / st ZDIR) by (apply Z.div_pos; lia).
  rewrite !Nat2Z.inj_mul, !Z2Nat.id by lia. ring.
Qed.
Lemma window_length a b NT : 0 <= a <= b -> b <= NT - 1 -> window a b NT = zrange a b /\ Z.of_nat (length (zrange a b)) = b - a + 1.
Proof.
  intros H1 H2. unfold window. rewrite Z.min_l by lia. split; [reflexivity|]. unfold zrange. rewrite map_length, seq_length. lia.
Qed.

(** For every accepted set of OP, OT and OF cards whose strides are positive (and
    do not overflow) and whose output window ends before the last step: the run
    finishes; impulse.dat holds, for each of the announced time steps
    start..stop, the announced nodes of every box, with the fields after that
    number of complete steps; excite.dat holds NT values; a time file holds one
    row per output step; a frequency file one row per frequency. *)
Theorem C31_records_partial : forall nx ny nz reg c, setupCfg nx ny nz reg = Some c ->
  forall wfs user ot of NT dt wv A xE xH m,
  Forall (accepted_obs c wfs) user -> steps_ok c user -> (forall o, In o user -> ordered (o_mbbox o)) ->
  accepted_ot ot -> accepted_of of -> 1 <= NT < 2 ^ 32 -> stop_ ot NT <= NT - 1 ->
  let oc := initOutCfg ot of NT dt in
  forall fuel, NT < Z.of_nat fuel -> (forall a, numCells c a + 1 < Z.of_nat fuel) ->
  exists m' out, simulate c wv A xE xH fuel oc (user ++ internalObs wfs) dt NT m = Fin (m', out) /\
  let fields := fieldsAfter c A xE xH m in
  let steps := zrange (start_ ot) (stop_ ot NT) in
  m' = fields NT /\
  impulseHeader oc = Z.of_nat (length steps) /\
  impulse out = flat_map (stepRecords c user A xE xH m) steps /\
  (forall o, In o user -> o_format o = OF_BINARY ->
     Z.of_nat (length (strideNodes (o_mbbox o) (o_step o))) = announcedNodes (o_mbbox o) (o_step o)) /\
  (existsb isBinary user = true -> Z.of_nat (length (excite out)) = NT) /\
  (forall n o, nth_error user n = Some o -> o_format o = OF_ASCII -> o_domain o = OD_TIME ->
     rows out n = map (fun t => (t, (IZR t * dt)%R, sixAt c (fields t) o)) steps) /\
  (forall n ref o, Z.of_nat (length (flushObserverDft oc out n ref o)) = oc_nf oc).
Proof.
  intros nx ny nz reg c HC wfs user ot of NT dt wv A xE xH m HU HS HO HT HF HN HW oc fuel F1 F2.
  pose proof (setup_wf _ _ _ _ _ HC) as W.
  destruct (run_output c W wfs user ot of NT dt wv A xE xH m HU HS HT ltac:(lia) fuel F1 F2) as (out & E & X1 & X2 & X3 & _).
  exists (fieldsAfter c A xE xH m NT), out. split; [exact E|].
  destruct (oc_limits ot of NT dt HT ltac:(lia)) as (S1 & S2 & S3 & S4).
  destruct (window_length _ _ NT S4 HW) as (L1 & L2). rewrite L1 in *. cbv zeta.
  split; [reflexivity|]. split; [|split; [|split; [|split; [|split]]]].
  - unfold impulseHeader. fold oc in S3. rewrite S3, L2. rewrite (Z.mod_small _ (2 ^ 64)) by lia. apply Z.mod_small. lia.
  - exact X2.
  - intros o Io Fo. apply strideNodes_length; auto. intros a. destruct (HS o a Io Fo); lia.
  - intros B. rewrite (X1 B), map_length. unfold zrange. rewrite map_length, seq_length. lia.
  - exact X3.
  - intros n ref o. unfold flushObserverDft. rewrite map_length. unfold zrange. rewrite map_length, seq_length.
    assert (1 <= oc_nf oc); [|lia]. unfold oc, initOutCfg. destruct ot as [[a b]|]; (destruct of as [[[f0 f1] q]|]; cbn [oc_nf]; [|lia]);
    destruct HF as (g0 & g1 & q' & HF); unfold parseOF in HF; destruct (Rlt_dec g0 0), (Rlt_dec g1 g0), (Z.ltb_spec q' 1); try discriminate HF;
    injection HF as -> -> ->; lia.
Qed.
Definition c31o : list Obs :=
  [mkObs "a" OF_BINARY OD_TIME OQ_EH (mkbox 1 4 1 2 1 1) (fun a => match a with XDIR => 2 | _ => 1 end) 0;
   mkObs "b" OF_ASCII OD_FREQ OQ_EH (mkbox 1 1 2 2 3 3) (fun _ => 1) 0].
Example C31_nonvacuous : exists c, setupCfg 6 6 6 initBoundaryReg = Some c /\
  Forall (accepted_obs c c26wf) c31o /\ steps_ok c c31o /\ (forall o, In o c31o -> ordered (o_mbbox o)) /\
  accepted_ot (Some (2, 7)) /\ accepted_of (Some (0%R, 1%R, 5)) /\ stop_ (Some (2, 7)) 10 <= 10 - 1 /\
  strideNodes (mkbox 1 4 1 2 1 1) (fun a => match a with XDIR => 2 | _ => 1 end) = [(1, 1, 1); (3, 1, 1); (1, 2, 1); (3, 2, 1)] /\
  announcedNodes (mkbox 1 4 1 2 1 1) (fun a => match a with XDIR => 2 | _ => 1 end) = 4.
Proof.
  eexists. split; [reflexivity|]. split; [|split; [|split; [|split; [|split]]]].
  - repeat constructor.
    + exists [], "a"%string, "TDOM_BINARY"%string, ""%string, [2; 1; 1].
      reflexivity.
    + exists [], "b"%string, "FDOM_ASCII"%string, ""%string, []. reflexivity.
  - intros o a [<-|[<-|[]]] F; [|discriminate F]. destruct a; vm_compute; split; discriminate.
  - intros o [<-|[<-|[]]] []; vm_compute; discriminate.
  - exists 2, 7. repeat split; lia.
  - exists 0%R, 1%R, 5. unfold parseOF. destruct (Rlt_dec 0 0); [lra|]. destruct (Rlt_dec 1 0); [lra|]. reflexivity.
  - split; [cbn; lia|]. split; reflexivity.
Qed.

(** An OT card may name a stop step after the end of the run: the header then
    announces more time steps than the file holds. *)
Theorem C31_window_refuted : forall nx ny nz reg c, setupCfg nx ny nz reg = Some c ->
  forall wfs user of NT dt wv A xE xH m start stop,
  Forall (accepted_obs c wfs) user -> steps_ok c user -> 1 <= NT < 2 ^ 32 ->
  0 <= start -> start <= NT - 1 -> NT - 1 < stop < 2 ^ 32 - 1 ->
  parseOT start stop = Some (start, stop) /\
  let oc := initOutCfg (Some (start, stop)) of NT dt in
  forall fuel, NT < Z.of_nat fuel -> (forall a, numCells c a + 1 < Z.of_nat fuel) ->
  exists m' out, simulate c wv A xE xH fuel oc (user ++ internalObs wfs) dt NT m = Fin (m', out) /\
  impulse out = flat_map (stepRecords c user A xE xH m) (zrange start (NT - 1)) /\
  Z.of_nat (length (zrange start (NT - 1))) = NT - start /\
  impulseHeader oc = stop - start + 1 /\ NT - start < impulseHeader oc.
Proof.
  intros nx ny nz reg c HC wfs user of NT dt wv A xE xH m a b HU HS HN H0 H1 H2.
  assert (P : parseOT a b = Some (a, b)) by (unfold parseOT; destruct (Z.ltb_spec b a); [lia|reflexivity]).
  split; [exact P|]. intros oc fuel F1 F2. pose proof (setup_wf _ _ _ _ _ HC) as W.
  assert (HT : accepted_ot (Some (a, b))) by (exists a, b; repeat split; auto; lia).
  destruct (run_output c W wfs user (Some (a, b)) of NT dt wv A xE xH m HU HS HT ltac:(lia) fuel F1 F2) as (out & E & X1 & X2 & X3 & _).
  exists (fieldsAfter c A xE xH m NT), out. split; [exact E|].
  destruct (oc_limits (Some (a, b)) of NT dt HT ltac:(lia)) as (S1 & S2 & S3 & S4). cbn [start_ stop_ fst snd] in *.
  assert (HD : impulseHeader oc = b - a + 1).
  { unfold impulseHeader. fold oc in S3. rewrite S3. rewrite (Z.mod_small _ (2 ^ 64)) by lia. apply Z.mod_small. lia. }
  split; [rewrite X2; unfold window; rewrite Z.min_r by lia; reflexivity|]. split; [|lia].
  unfold zrange. rewrite map_length, seq_length. lia.
Qed.

(** A stride of zero is accepted ("must be positive or zero") and the run never
    finishes. *)
Definition zeroObs (b : BBox) : Obs := mkObs "out" OF_BINARY OD_TIME OQ_EH b (fun a => match a with XDIR => 0 | _ => 1 end) 0.
Theorem C31_zero_stride_refuted : forall nx ny nz reg c, setupCfg nx ny nz reg = Some c ->
  forall b, bboxIsNormal b = true -> bboxIsWithin b (meshBox c) = true -> ordered b -> (forall a, numCells c a < INT_MAX) ->
  (exists o, parseOP (meshBox c) [] [] b "out" "TDOM_BINARY" "" [0; 1; 1] = Some [o] /\
     o_mbbox o = b /\ o_format o = OF_BINARY /\ o_domain o = OD_TIME /\ o_step o XDIR = 0 /\ o_step o YDIR = 1 /\ o_step o ZDIR = 1) /\
  forall wfs of NT dt wv A xE xH m fuel, 1 <= NT < 2 ^ 64 ->
  simulate c wv A xE xH fuel (initOutCfg None of NT dt) (zeroObs b :: internalObs wfs) dt NT m = More.
Proof.
  intros nx ny nz reg c HC b HB HI HO HM. pose proof (setup_wf _ _ _ _ _ HC) as W.
  pose proof (normal_within c b HB HI) as [IN _]. split.
  { unfold parseOP. cbn [isObserver existsb]. rewrite HB, HI. cbn [negb observerType String.eqb]. eexists. split; [reflexivity|]. repeat split. }
  intros wfs of NT dt wv A xE xH m fuel HN.
  destruct fuel as [|fuel]; [reflexivity|]. unfold simulate, propagate. cbn [timeLoop].
  unfold ulong at 1. rewrite Z.mod_small by (unfold ULONG; lia). destruct (Z.leb_spec 0 (NT - 1)); [|lia].
  unfold runBody at 1. cbn [fst snd]. unfold updateObservers. cbn [existsb isBinary zeroObs o_format orb updateAll].
  assert (OT : oc_start (initOutCfg None of NT dt) = 0 /\ oc_stop (initOutCfg None of NT dt) = NT - 1).
  { unfold initOutCfg, ulong. rewrite (Z.mod_small (NT - 1)) by (unfold ULONG; lia). destruct of as [[[? ?] ?]|]; split; reflexivity. }
  destruct OT as [OT1 OT2].
  unfold updateObserver. cbn [zeroObs o_quantity o_domain o_format]. rewrite OT1, OT2.
  destruct (Z.leb_spec 0 0); [|lia]. destruct (Z.leb_spec 0 (NT - 1)); [|lia]. cbn [andb].
  set (out0 := mkOut _ _ _ _ _).
  assert (G : updateImpulseDat c (S fuel) m 0 (zeroObs b) out0 = More); [|fold (zeroObs b); rewrite G; reflexivity].
  unfold updateImpulseDat.
  destruct (offset_eq c (zeroObs b)) as (X0 & X1 & Y0 & Y1 & Z0 & Z1). rewrite X0, X1, Y0, Y1, Z0, Z1. cbn [zeroObs o_mbbox o_step].
  pose proof (cells_big c W XDIR) as CX; pose proof (cells_big c W YDIR) as CY; pose proof (cells_big c W ZDIR) as CZ.
  pose proof (IN XDIR); pose proof (IN YDIR); pose proof (IN ZDIR). pose proof (HO XDIR); pose proof (HO YDIR); pose proof (HO ZDIR).
  pose proof (HM XDIR). cbn [face_lo face_hi] in *.
  cbn [forStep]. destruct (Z.leb_spec (gibox c ZLO + b ZLO) (gibox c ZLO + b ZHI)); [|lia].
  destruct (Z.leb_spec (gibox c YLO + b YLO) (gibox c YLO + b YHI)); [|lia].
  destruct (Z.leb_spec (gibox c XLO + b XLO) (gibox c XLO + b XHI)); [|lia].
  rewrite rdAll_fin by (auto; lia). cbn [rbind]. rewrite Z.add_0_r. destruct (Z.ltb_spec INT_MAX (gibox c XLO + b XLO)); [lia|].
  erewrite (forStep_zero _ (fun i out => addImp out [(0%nat, i - gibox c XLO, gibox c YLO + b YLO - gibox c YLO, gibox c ZLO + b ZLO - gibox c ZLO,
        sixFields c m (b XLO) (b YLO) (b ZLO))])); [reflexivity|lia|lia|].
  intros s. rewrite rdAll_fin by (auto; lia). reflexivity.
Qed.
Example C31_zero_nonvacuous : exists c, setupCfg 6 6 6 initBoundaryReg = Some c /\ bboxIsNormal (mkbox 1 4 1 2 1 1) = true /\
  bboxIsWithin (mkbox 1 4 1 2 1 1) (meshBox c) = true /\ ordered (mkbox 1 4 1 2 1 1) /\ (forall a, numCells c a < INT_MAX).
Proof. eexists. split; [reflexivity|]. repeat split; intros []; vm_compute; try discriminate; reflexivity. Qed.

(** ** C30: spectra. *)
(** the output frequencies documented for the OF card *)
Definition frequency (of : option (R * R * Z)) (NT : Z) (dt : R) (f : Z) : R :=
  match of with
  | None => (IZR f / (IZR NT * dt))%R
  | Some (f0, f1, n) => (f0 + IZR f * ((f1 - f0) / IZR (n - 1)))%R
  end.
Definition numFrequencies (of : option (R * R * Z)) (NT : Z) : Z :=
  match of with None => Z.max (NT / 10) 1 | Some (_, _, n) => n end.
Lemma oc_freq ot of NT dt : let oc := initOutCfg ot of NT dt in
  oc_nf oc = numFrequencies of NT /\ forall f, (oc_f0 oc + IZR f * oc_df oc)%R = frequency of NT dt f.
Proof.
  unfold initOutCfg, frequency. destruct ot as [[a b]|], of as [[[f0 f1] n]|]; cbn [oc_nf oc_f0 oc_df]; split; try reflexivity;
  intros; unfold Rdiv; lra.
Qed.
Lemma cdiv a b p q : (a * a + b * b <> 0)%R ->
  cmul (((p * a + q * b) / (a * a + b * b))%R, ((q * a - p * b) / (a * a + b * b))%R) (a, b) = (p, q).
Proof. intros H. unfold cmul. cbn [fst snd]. f_equal; field; exact H. Qed.
Lemma sq_nonzero (a b : R) : (a, b) <> (0, 0)%R -> (a * a + b * b <> 0)%R.
Proof.
  intros H E. apply H. assert (0 <= a * a)%R by nra. assert (0 <= b * b)%R by nra. assert (a * a = 0)%R by lra. assert (b * b = 0)%R by lra.
  f_equal; nra.
Qed.

(** Row f of an FDOM_ASCII file: the frequency, and for each of the six
    components the transform over the output window divided by the transform of
    the reference waveform over the whole run. *)
Theorem C30_spectrum : forall nx ny nz reg c, setupCfg nx ny nz reg = Some c ->
  forall wfs user ot of NT dt wv A xE xH m,
  Forall (accepted_obs c wfs) user -> steps_ok c user -> accepted_ot ot -> wfs <> [] -> 1 <= NT < 2 ^ 64 ->
  let oc := initOutCfg ot of NT dt in
  let fields := fieldsAfter c A xE xH m in
  forall fuel, NT < Z.of_nat fuel -> (forall a, numCells c a + 1 < Z.of_nat fuel) ->
  exists m' out, simulate c wv A xE xH fuel oc (user ++ internalObs wfs) dt NT m = Fin (m', out) /\
  forall n o f, nth_error user n = Some o -> o_format o = OF_ASCII -> o_domain o = OD_FREQ -> 0 <= f < numFrequencies of NT ->
  let w := (2 * PI * frequency of NT dt f)%R in
  let reference := Fourier (zrange 0 (NT - 1)) (fun t => wv (IZR t * dt)%R (o_wf o)) w dt in
  reference <> (0, 0)%R ->
  exists ys, nth_error (flushObserverDft oc out n (wfFreqIndex (length user) (o_wf o)) o) (Z.to_nat f) = Some (frequency of NT dt f, ys) /\
  length ys = 6%nat /\
  forall q, (q < 6)%nat ->
    cmul (nth q ys (0, 0)%R) reference =
    Fourier (window (start_ ot) (stop_ ot NT) NT) (fun t => nth q (sixAt c (fields t) o) 0%R) w dt.
Proof.
  intros nx ny nz reg c HC wfs user ot of NT dt wv A xE xH m HU HS HT HW HN oc fields fuel F1 F2.
  pose proof (setup_wf _ _ _ _ _ HC) as W.
  destruct (run_output c W wfs user ot of NT dt wv A xE xH m HU HS HT ltac:(lia) fuel F1 F2) as (out & E & _ & _ & _ & X4 & X5).
  exists (fieldsAfter c A xE xH m NT), out. split; [exact E|].
  intros n o f Hn Ho Hd Hf w reference HR.
  destruct (oc_freq ot of NT dt) as (Q1 & Q2). fold oc in Q1, Q2, X4, X5.
  assert (Ow : omega oc f = w) by (unfold omega, w; rewrite <- Q2; reflexivity).
  assert (Hk : (o_wf o < length wfs)%nat).
  { rewrite Forall_forall in HU. destruct (accepted_obs_ok c wfs o (HU o (nth_error_In _ _ Hn))) as (_ & _ & X & _). apply X; auto. }
  specialize (X5 (o_wf o) f Hk). rewrite Q1, Ow in X5. specialize (X5 Hf).
  eexists. split; [unfold flushObserverDft; rewrite Q1|].
  - rewrite nth_error_map. unfold zrange. rewrite nth_error_map.
    assert (NE : nth_error (seq 0 (Z.to_nat (numFrequencies of NT - 1 - 0 + 1))) (Z.to_nat f) = Some (Z.to_nat f)).
    { rewrite (nth_error_nth' _ O) by (rewrite seq_length; lia). rewrite seq_nth by lia. reflexivity. }
    rewrite NE. cbn [option_map]. replace (0 + Z.of_nat (Z.to_nat f)) with f by lia. unfold flushRow. rewrite Q2. reflexivity.
  - assert (QE : o_quantity o = OQ_EH).
    { rewrite Forall_forall in HU. destruct (accepted_obs_ok c wfs o (HU o (nth_error_In _ _ Hn))) as (X & _). exact X. }
    rewrite QE. split; [reflexivity|]. intros q Hq.
    specialize (X4 n o q f Hn Ho Hd Hq). rewrite Q1, Ow in X4. specialize (X4 Hf). fold fields in X4.
    pose proof X5 as X6. fold reference in X6. injection X4 as Y1 Y2.
    set (wr := dftRe out (wfFreqIndex (length user) (o_wf o)) 0 f) in *. set (wi := dftIm out (wfFreqIndex (length user) (o_wf o)) 0 f) in *.
    rewrite <- X6 in *. apply sq_nonzero in HR.
    transitivity (dftRe out n q f, dftIm out n q f); [|unfold Fourier; rewrite Y1, Y2; reflexivity].
    rewrite <- (cdiv wr wi (dftRe out n q f) (dftIm out n q f) HR). f_equal.
    destruct q as [|[|[|[|[|[|q]]]]]]; try lia; reflexivity.
Qed.

(** The manual computes "the DFTs" from the time series within the OT bounds.
    The reference is not: whenever the transform of the waveform over the window
    differs from that over the whole run, a non-zero spectrum is not the
    quotient of the two windowed transforms. *)
Lemma cmul_cancel y a b : y <> (0, 0)%R -> cmul y a = cmul y b -> a = b.
Proof.
  destruct y as [p q], a as [a1 a2], b as [b1 b2]. intros H E. unfold cmul in E. cbn [fst snd] in E. injection E as E1 E2.
  apply sq_nonzero in H.
  assert (U : ((p * p + q * q) * (a1 - b1) = 0)%R) by (replace ((p*p+q*q)*(a1-b1))%R with (p * (p*a1 - q*a2 - (p*b1-q*b2)) + q * (p*a2+q*a1-(p*b2+q*b1)))%R by ring; rewrite E1, E2; ring).
  assert (V : ((p * p + q * q) * (a2 - b2) = 0)%R) by (replace ((p*p+q*q)*(a2-b2))%R with (p * (p*a2 + q*a1 - (p*b2+q*b1)) - q * (p*a1-q*a2-(p*b1-q*b2)))%R by ring; rewrite E1, E2; ring).
  apply Rmult_integral in U. apply Rmult_integral in V. destruct U as [U|U]; [contradiction|]. destruct V as [V|V]; [contradiction|]. f_equal; lra.
Qed.
Theorem C30_window_refuted : forall nx ny nz reg c, setupCfg nx ny nz reg = Some c ->
  forall wfs user ot of NT dt wv A xE xH m,
  Forall (accepted_obs c wfs) user -> steps_ok c user -> accepted_ot ot -> wfs <> [] -> 1 <= NT < 2 ^ 64 ->
  let oc := initOutCfg ot of NT dt in
  let fields := fieldsAfter c A xE xH m in
  forall fuel, NT < Z.of_nat fuel -> (forall a, numCells c a + 1 < Z.of_nat fuel) ->
  exists m' out, simulate c wv A xE xH fuel oc (user ++ internalObs wfs) dt NT m = Fin (m', out) /\
  forall n o f, nth_error user n = Some o -> o_format o = OF_ASCII -> o_domain o = OD_FREQ -> 0 <= f < numFrequencies of NT ->
  let w := (2 * PI * frequency of NT dt f)%R in
  let transform ns x := Fourier ns x w dt in
  let waveform t := wv (IZR t * dt)%R (o_wf o) in
  let win := window (start_ ot) (stop_ ot NT) NT in
  transform (zrange 0 (NT - 1)) waveform <> (0, 0)%R ->
  transform win waveform <> transform (zrange 0 (NT - 1)) waveform ->
  exists ys, nth_error (flushObserverDft oc out n (wfFreqIndex (length user) (o_wf o)) o) (Z.to_nat f) = Some (frequency of NT dt f, ys) /\
  forall q, (q < 6)%nat -> transform win (fun t => nth q (sixAt c (fields t) o) 0%R) <> (0, 0)%R ->
    cmul (nth q ys (0, 0)%R) (transform win waveform) <> transform win (fun t => nth q (sixAt c (fields t) o) 0%R).
Proof.
  intros nx ny nz reg c HC wfs user ot of NT dt wv A xE xH m HU HS HT HW HN oc fields fuel F1 F2.
  destruct (C30_spectrum nx ny nz reg c HC wfs user ot of NT dt wv A xE xH m HU HS HT HW HN fuel F1 F2) as (m' & out & E & X).
  exists m', out. split; [exact E|]. intros n o f Hn Ho Hd Hf w transform waveform win HR HD.
  destruct (X n o f Hn Ho Hd Hf HR) as (ys & Y1 & Y2 & Y3). exists ys. split; [exact Y1|].
  intros q Hq HX HE. apply HD. specialize (Y3 q Hq). apply (cmul_cancel (nth q ys (0, 0)%R)).
  - intros Z0. apply HX. rewrite <- HE, Z0. unfold cmul. cbn [fst snd]. f_equal; lra.
  - rewrite HE. symmetry. exact Y3.
Qed.
(** Both theorems apply, e.g., to one FDOM_ASCII observer, a constant waveform, two
    time steps of which only the first is recorded, and a field that is not zero
    initially. *)
Example C30_nonvacuous : exists c, setupCfg 6 6 6 initBoundaryReg = Some c /\
  let o := mkObs "b" OF_ASCII OD_FREQ OQ_EH (mkbox 1 1 2 2 3 3) (fun _ => 1) 0 in
  Forall (accepted_obs c c26wf) [o] /\ steps_ok c [o] /\ accepted_ot (Some (0, 0)) /\ c26wf <> [] /\ 0 <= 0 < numFrequencies None 2 /\
  let w := (2 * PI * frequency None 2 1 0)%R in
  Fourier (zrange 0 (2 - 1)) (fun t => 1%R) w 1%R <> (0, 0)%R /\
  Fourier (window 0 0 2) (fun t => 1%R) w 1%R <> Fourier (zrange 0 (2 - 1)) (fun t => 1%R) w 1%R /\
  forall A xE xH, Fourier (window 0 0 2) (fun t => nth 0 (sixAt c (fieldsAfter c A xE xH (fun _ => 1%R) t) o) 0%R) w 1%R <> (0, 0)%R.
Proof.
  eexists. split; [reflexivity|]. intros o. split; [|split; [|split; [|split; [|split]]]].
  - repeat constructor. exists [], "b"%string, "FDOM_ASCII"%string, ""%string, []. reflexivity.
  - intros o' a [<-|[]] F; discriminate F.
  - exists 0, 0. repeat split; lia.
  - discriminate.
  - cbn. lia.
  - intros w. assert (W0 : w = 0%R) by (unfold w, frequency, Rdiv; ring).
    rewrite W0. unfold Fourier, window, sumOver. change (zrange 0 (2 - 1)) with [0; 1]. change (zrange 0 (Z.min 0 (2 - 1))) with [0].
    cbn [map fold_right]. rewrite !Rmult_0_l, cos_0, sin_0. split; [|split].
    + intros [= H _]. lra.
    + intros [= H]. lra.
    + intros A xE xH [= H _]. revert H. unfold fieldsAfter. cbn. lra.
Qed.

(** ** C55: the output frequencies.  An OF card with n >= 2 frequencies: n
    equidistant frequencies from the first to the last number on the card. *)
Theorem C55_frequencies_partial : forall f0 f1 n p, parseOF f0 f1 n = Some p -> 2 <= n ->
  forall NT dt, numFrequencies (Some p) NT = n /\ frequency (Some p) NT dt 0 = f0 /\ frequency (Some p) NT dt (n - 1) = f1 /\
  forall k, (frequency (Some p) NT dt (k + 1) - frequency (Some p) NT dt k = (f1 - f0) / IZR (n - 1))%R.
Proof.
  intros f0 f1 n p H Hn NT dt. unfold parseOF in H. destruct (Rlt_dec f0 0), (Rlt_dec f1 f0), (Z.ltb_spec n 1); try discriminate H.
  injection H as <-. unfold frequency, numFrequencies. assert (0 < IZR (n - 1))%R by (apply IZR_lt; lia).
  split; [reflexivity|]. split; [lra|]. split; [field; lra|]. intros k. rewrite plus_IZR. field. lra.
Qed.
(** With a single frequency, which the card accepts, the step is a division by
    zero: in IEEE arithmetic of any precision the frequency of the only row is not
    a number, for all finite limits. *)
Section Float.
Variables prec emax : Z.
(** observer.c:442 and 970 for numFreq = 1, f = 0: startFreq + f * ( ( stopFreq - startFreq ) / ( numFreq - 1 ) ) *)
Definition singleFrequency (startFreq stopFreq : spec_float) : spec_float :=
  SFadd prec emax startFreq (SFmul prec emax (S754_zero false) (SFdiv prec emax (SFsub prec emax stopFreq startFreq) (S754_zero false))).
End Float.
Theorem C55_single_frequency_refuted : forall prec emax startFreq stopFreq, singleFrequency prec emax startFreq stopFreq = S754_nan.
Proof.
  intros. unfold singleFrequency.
  assert (D : forall x, SFmul prec emax (S754_zero false) (SFdiv prec emax x (S754_zero false)) = S754_nan) by (intros []; reflexivity).
  rewrite D. destruct startFreq; reflexivity.
Qed.
Theorem C55_single_accepted_refuted : forall f0 f1 : R, (0 <= f0 <= f1)%R -> parseOF f0 f1 1 = Some (f0, f1, 1).
Proof. intros f0 f1 H. unfold parseOF. destruct (Rlt_dec f0 0); [lra|]. destruct (Rlt_dec f1 f0); [lra|]. reflexivity. Qed.
(** Without an OF card the manual promises the frequencies k/(N dt), k = 0 .. N/10:
    the last one is missing in every run of ten steps or more. *)
Theorem C55_default_refuted : forall NT, 10 <= NT -> numFrequencies None NT = NT / 10 /\ numFrequencies None NT <> NT / 10 + 1.
Proof. intros NT H. unfold numFrequencies. assert (1 <= NT / 10) by (apply Z.div_le_lower_bound; lia). lia. Qed.

(** ** C45: what an observer sees at a hard source. *)
Section Hard.
Variables (c : Cfg) (W : wf c) (de dh : Axis -> Z -> R) (wfs : list WfItem).
Lemma drive_of s : accepted_src c wfs s -> exists d, driveOf (fst (fst (convert de dh (gbox c s) s))) = Some (is_E (t_field (s_tag s)), d).
Proof.
  intros H1. apply accepted_src_ok in H1. destruct H1 as (_ & (h & q & p & M & T) & _). destruct (tag_fields h q p _ M T) as (T1 & T2 & T3 & T4).
  rewrite T3. unfold convert. rewrite T1.
  destruct q; cbn [typeOf]; try (destruct (Rlt_dec _ _)); cbn [fst snd driveOf fieldOf magnetic]; destruct p; eexists; reflexivity.
Qed.
Lemma srcs_frame electric l (w : Src -> R) f i j k m : Forall (accepted_src c wfs) l -> (forall s, In s l -> ~ on_source c s f i j k) ->
  run rArith (flat_map (src electric) (map (fun s => actOf c de dh s (w s)) l)) m (L (AF f) i j k) = m (L (AF f) i j k).
Proof.
  revert m. induction l as [|s l IH]; intros m HF HN; cbn [map flat_map]; [reflexivity|]. inversion HF; subst.
  rewrite run_app, IH by (auto; intros; apply HN; right; auto).
  destruct (drive_of s) as (d & HD); [assumption|].
  pose proof (act_applied c de dh electric s (w s) m d _ HD eq_refl (L (AF f) i j k)) as [_ X]. apply X.
  intros (f' & i' & j' & k' & E & _ & HO). injection E as <- <- <- <-. exact (HN s (or_introl eq_refl) HO).
Qed.
(** the fields after a step at a point of a hard electric field source that no
    later source covers *)
Lemma hard_step l1 s l2 (w : Src -> R) xH p i j k m : Forall (accepted_src c wfs) (l1 ++ s :: l2) ->
  findTag (tagOf true qE p) = Some (s_tag s) -> on_source c s (Efield p) i j k -> (forall s', In s' l2 -> ~ on_source c s' (Efield p) i j k) ->
  (forall st, In st (flat xH) -> kind (dst st) = Some false) ->
  run rArith (flat (timeStep c (updateSourcesEfield (map (fun s => actOf c de dh s (w s)) (l1 ++ s :: l2))) xH)) m (L (AF (Efield p)) i j k) =
  (s_size s * w s)%R.
Proof.
  intros HA HT HO HN HX. pose proof HA as HA'. apply Forall_app in HA'. destruct HA' as [A1 A2]. inversion A2 as [|? ? A3 A4]; subst.
  destruct (tag_fields true qE p _ I HT) as (T1 & T2 & T3 & T4). cbn [typeOf fieldOf magnetic] in *.
  assert (EE : is_E (Efield p) = true) by (destruct p; reflexivity).
  assert (R : inl (gfolim c (Efield p)) i j k).
  { destruct HO as [_ HO]. rewrite <- yee_in_offset, <- setFieldLimits_spec in HO. revert HO.
    apply accepted_src_ok in A3. destruct A3 as ([B _] & _). pose proof (fits_mesh c _ W B) as HF. apply setFieldLimits_mono; intros x; destruct (HF x); lia. }
  unfold timeStep. rewrite !flat_app, !run_app.
  rewrite writes_0_frame by (apply ghostH_inside; auto).
  rewrite run_frame.
  2:{ unfold twrites. rewrite in_map_iff. intros (st & D & J). apply HX in J. rewrite D in J. cbn in J. rewrite EE in J. discriminate J. }
  rewrite writes_0_frame by (apply phaseH_other; cbn; rewrite EE; congruence).
  rewrite writes_0_frame by (apply ghostE_inside; auto).
  rewrite flat_srcE, map_app, flat_map_app, run_app. cbn [map flat_map]. rewrite run_app.
  rewrite srcs_frame by auto.
  set (m1 := run rArith (flat_map _ _) _).
  assert (CV : convert de dh (gbox c s) s = (ST_EFIELD, s_size s, NoLoad)) by (unfold convert; rewrite T1; reflexivity).
  destruct (drive_of s A3) as (d & HD). rewrite CV in HD. cbn [fst snd driveOf] in HD. injection HD as _ <-.
  pose proof (act_applied c de dh true s (w s) m1 DField (s_size s * w s)%R) as X. rewrite CV in X. cbn [fst snd driveOf] in X.
  rewrite T3, EE in X. specialize (X eq_refl eq_refl (L (AF (Efield p)) i j k)). destruct X as [X _].
  rewrite (X (Efield p) i j k eq_refl EE HO). unfold carried. rewrite T4. cbn [negb]. lra.
Qed.
End Hard.
Definition compOf (p : Axis) : nat := match p with XDIR => 0 | YDIR => 1 | ZDIR => 2 end.

(** A run with a hard electric field source [s] and a TDOM_ASCII observer on a
    node of it: the row written for time step t+1, labelled with the time
    (t+1) dt, holds the waveform at the time t dt.  [w time s] is the value of the
    waveform of source [s]. *)
Theorem C45_one_step_late : forall nx ny nz reg c, setupCfg nx ny nz reg = Some c ->
  forall de dh wfs l1 s l2 p (w : R -> Src -> R) user of NT dt wv m,
  Forall (accepted_src c wfs) (l1 ++ s :: l2) -> findTag (tagOf true qE p) = Some (s_tag s) ->
  Forall (accepted_obs c wfs) user -> steps_ok c user -> 1 <= NT < 2 ^ 64 ->
  let srcs := l1 ++ s :: l2 in
  let wE t s := w (INR t * dt)%R s in
  let wH t s := w ((INR t + / 2) * dt)%R s in
  forall fuel, NT < Z.of_nat fuel -> (forall a, numCells c a + 1 < Z.of_nat fuel) ->
  exists m' out, simulate c wv rArith (srcRunE c de dh srcs wE) (srcRunH c de dh srcs wH) fuel (initOutCfg None of NT dt)
      (user ++ internalObs wfs) dt NT m = Fin (m', out) /\
  forall n o, nth_error user n = Some o -> o_format o = OF_ASCII -> o_domain o = OD_TIME ->
  let '(i, j, k) := nodeOf o in
  let here s' := on_source c s' (Efield p) (gibox c XLO + i) (gibox c YLO + j) (gibox c ZLO + k) in
  here s -> (forall s', In s' l2 -> ~ here s') ->
  forall t, (S t < Z.to_nat NT)%nat ->
  exists vs, nth_error (rows out n) (S t) = Some (Z.of_nat (S t), (INR (S t) * dt)%R, vs) /\
    nth (compOf p) vs 0%R = (s_size s * w (INR (S t) * dt - dt) s)%R.
Proof.
  intros nx ny nz reg c HC de dh wfs l1 s l2 p w user of NT dt wv m HA HT HU HS HN srcs wE wH fuel F1 F2.
  pose proof (setup_wf _ _ _ _ _ HC) as W.
  destruct (run_output c W wfs user None of NT dt wv rArith (srcRunE c de dh srcs wE) (srcRunH c de dh srcs wH) m HU HS I ltac:(lia) fuel F1 F2)
    as (out & E & _ & _ & X3 & _).
  eexists. exists out. split; [exact E|]. intros n o Hn Ho Hd. destruct (nodeOf o) as [[i j] k] eqn:NO. intros here HH HL t Ht.
  specialize (X3 n o Hn Ho Hd). cbn [start_ stop_] in X3. unfold window in X3. rewrite Z.min_id in X3.
  eexists. split.
  - rewrite X3, nth_error_map. unfold zrange. rewrite nth_error_map, (nth_error_nth' _ O) by (rewrite seq_length; lia).
    rewrite seq_nth by lia. cbn [option_map Nat.add]. rewrite Z.add_0_l, <- INR_IZR_INZ. reflexivity.
  - unfold sixAt. rewrite NO. unfold sixFields.
    replace (Z.of_nat (S t)) with (Z.of_nat t + 1) by lia. rewrite fieldsAfter_S by lia. rewrite Nat2Z.id.
    set (m1 := fieldsAfter _ _ _ _ _ _).
    assert (G : run rArith (flat (timeStep c (srcRunE c de dh srcs wE t) (srcRunH c de dh srcs wH t))) m1
       (L (AF (Efield p)) (gibox c XLO + i) (gibox c YLO + j) (gibox c ZLO + k)) = (s_size s * wE t s)%R).
    { unfold srcRunE. apply (hard_step c W de dh wfs l1 s l2 (wE t)); auto.
      intros st J. unfold srcRunH in J. rewrite flat_srcH in J. apply in_flat_map in J. destruct J as (a & _ & J). apply src_kind in J. exact J. }
    unfold wE in G at 2. replace (INR (S t) * dt - dt)%R with (INR t * dt)%R by (rewrite S_INR; ring). rewrite <- G.
    destruct p; reflexivity.
Qed.
(** So the recorded value is wrong in every row in which the waveform has changed
    since the step before. *)
Theorem C45_refuted : forall nx ny nz reg c, setupCfg nx ny nz reg = Some c ->
  forall de dh wfs s p (w : R -> Src -> R) o of NT dt wv m,
  accepted_src c wfs s -> findTag (tagOf true qE p) = Some (s_tag s) -> accepted_obs c wfs o -> 1 <= NT < 2 ^ 64 ->
  o_format o = OF_ASCII -> o_domain o = OD_TIME ->
  (let '(i, j, k) := nodeOf o in on_source c s (Efield p) (gibox c XLO + i) (gibox c YLO + j) (gibox c ZLO + k)) ->
  forall fuel, NT < Z.of_nat fuel -> (forall a, numCells c a + 1 < Z.of_nat fuel) ->
  exists m' out, simulate c wv rArith (srcRunE c de dh [s] (fun t s => w (INR t * dt)%R s))
      (srcRunH c de dh [s] (fun t s => w ((INR t + / 2) * dt)%R s)) fuel (initOutCfg None of NT dt)
      ([o] ++ internalObs wfs) dt NT m = Fin (m', out) /\
  forall t, (S t < Z.to_nat NT)%nat -> (s_size s * w (INR (S t) * dt) s <> s_size s * w (INR t * dt) s)%R ->
  exists vs, nth_error (rows out 0) (S t) = Some (Z.of_nat (S t), (INR (S t) * dt)%R, vs) /\
    nth (compOf p) vs 0%R <> (s_size s * w (INR (S t) * dt) s)%R.
Proof.
  intros nx ny nz reg c HC de dh wfs s p w o of NT dt wv m HA HT HU HN Ho Hd HH fuel F1 F2.
  assert (SO : steps_ok c [o]) by (intros o' a [<-|[]] F; congruence).
  destruct (C45_one_step_late nx ny nz reg c HC de dh wfs [] s [] p w [o] of NT dt wv m (Forall_cons _ HA (Forall_nil _)) HT
    (Forall_cons _ HU (Forall_nil _)) SO HN fuel F1 F2) as (m' & out & E & X).
  exists m', out. split; [exact E|]. intros t Ht HD. specialize (X O o eq_refl Ho Hd).
  destruct (nodeOf o) as [[i j] k]. destruct (X HH (fun s' F => match F with end) t Ht) as (vs & V1 & V2).
  exists vs. split; [exact V1|]. rewrite V2. replace (INR (S t) * dt - dt)%R with (INR t * dt)%R by (rewrite S_INR; ring). auto.
Qed.
Definition c45s : Src := mkSrc "b" (tagNamed "=EX") (mkbox 2 4 2 2 2 2) 7 0 0 "wf1".
Definition c45o : Obs := mkObs "o" OF_ASCII OD_TIME OQ_EH (mkbox 3 3 2 2 2 2) (fun _ => 1) 0.
Example C45_nonvacuous : exists c, setupCfg 6 6 6 initBoundaryReg = Some c /\
  accepted_src c c26wf c45s /\ findTag (tagOf true qE XDIR) = Some (s_tag c45s) /\ accepted_obs c c26wf c45o /\
  on_source c c45s EX (gibox c XLO + 3) (gibox c YLO + 2) (gibox c ZLO + 2) /\ nodeOf c45o = (3, 2, 2) /\
  (s_size c45s * (INR 3 * 1) <> s_size c45s * (INR 2 * 1))%R.
Proof.
  eexists. split; [reflexivity|]. split; [exists [], "b"%string, "=EX"%string, "wf1"%string, [7%R]; reflexivity|].
  split; [reflexivity|]. split; [exists [], "o"%string, "TDOM_ASCII"%string, ""%string, []; reflexivity|].
  split; [split; [reflexivity|]; intros []; vm_compute; intuition congruence|]. split; [reflexivity|]. cbn. lra.
Qed.
