(** Property theorems C17, C48 (media coefficients) and C44, C49 (Debye media). *)
From Coq Require Import ZArith List Bool String Reals Lra Lia.
From Verif Require Import Types Lang LangProofs BBox Grid Setup SpecGeom SetupProofs StepShape BBoxProofs Media SpecMedia MediaProofs Medium SpecMedium
  MediumProofs Debye DebyeProofs.
Import ListNotations.
Open Scope R_scope.

(** ** C17.  Whatever MT cards are accepted, in whatever order: *)
(** the k-th card's medium has number 2+k, is found under its name, and a SIMPLE
    card carries the card's parameters (eps_r, sigma, mu_r default to 1, 0, 1) *)
Theorem C17_declared : forall cards reg k card, parseMTs initMedReg cards = Some reg -> nth_error cards k = Some card ->
  findName reg (mt_name card) = Some (2 + k)%nat /\
  exists p, getItem reg (2 + k) = Some (mkItem (mt_name card) p) /\
  (mt_type card = "SIMPLE"%string ->
     m_type p = MT_SIMPLE /\ m_eps p = nth 0 (mt_vals card) 1 /\ m_sigma p = nth 1 (mt_vals card) 0 /\ m_mu p = nth 2 (mt_vals card) 1).
Proof.
  intros cards reg k card H N. destruct (parseMTs_nth _ _ _ _ _ H N) as (p & G & T & S).
  split.
  - eapply findName_unique; [|exact G|reflexivity]. eapply parseMTs_nodup; [|exact H].
    repeat constructor; simpl; intuition congruence.
  - exists p. split; [exact G|]. intros E. rewrite (S E). auto.
Qed.
Lemma reg_params cards reg n it : parseMTs initMedReg cards = Some reg -> nth_error reg n = Some it ->
  n = 0%nat \/ n = 1%nat \/ (n <> 0%nat /\ n <> 1%nat /\ paramOk (idata it) /\ (m_type (idata it) <> MT_DEBYE -> m_poles (idata it) = [])).
Proof.
  intros H N. apply parseMTs_prefix in H. destruct H as (ext & -> & H). destruct n as [|[|n]]; [auto|auto|]. right; right.
  split; [lia|]. split; [lia|]. apply H. cbn in N. eapply nth_error_In; exact N.
Qed.
(** every SIMPLE medium (including the predefined FREE_SPACE) is passive and its
    update is the centred discretisation of Maxwell's equations with the
    declared parameters *)
Theorem C17_simple : forall eps0 mu0 dt, 0 < eps0 -> 0 < mu0 -> 0 < dt ->
  forall cards reg n it, parseMTs initMedReg cards = Some reg -> getItem reg n = Some it -> m_type (idata it) = MT_SIMPLE ->
  let p := idata it in let co := initMedia eps0 mu0 dt reg n in
  1 <= m_eps p /\ 0 <= m_sigma p /\ 1 <= m_mu p /\
  -1 < calpha co <= 1 /\ 0 < cbeta co /\ 0 < cgamma co /\ (calpha co = 1 <-> m_sigma p = 0) /\
  (forall E curl, ampere (m_eps p * eps0) (m_sigma p) dt E (calpha co * E + cbeta co * curl) curl) /\
  (forall H curl, faraday (m_mu p * mu0) dt H (H + cgamma co * curl) curl).
Proof.
  intros eps0 mu0 dt E0 M0 DT cards reg n it HP HN T p co. unfold getItem in HN.
  destruct (reg_params _ _ _ _ HP HN) as [->|[->|(N0 & N1 & P & NP)]].
  - apply parseMTs_prefix in HP. destruct HP as (ext & -> & _). cbn in HN. injection HN as <-.
    unfold p, co. cbn [idata m_eps m_sigma m_mu initMedia calpha cbeta cgamma].
    repeat split; try lra; try (apply Rdiv_lt_0_compat; lra).
    + intros. unfold ampere. field. split; lra.
    + intros. unfold faraday. field. split; lra.
  - exfalso. apply parseMTs_prefix in HP. destruct HP as (ext & -> & _). cbn in HN. injection HN as <-. discriminate T.
  - assert (CO : co = calcCoeffFromParam eps0 mu0 dt p).
    { unfold co, initMedia. destruct n as [|[|n]]; try lia. rewrite HN. reflexivity. }
    rewrite CO. pose proof (simple_coef eps0 mu0 dt E0 M0 DT p) as S. specialize (S (NP ltac:(congruence)) P). destruct P as (P1 & P2 & P3). cbv zeta in S. intuition auto.
Qed.
(** the predefined PEC medium *)
Theorem C17_pec : forall eps0 mu0 dt cards reg, parseMTs initMedReg cards = Some reg ->
  findName reg "PEC" = Some 1%nat /\ findName reg "FREE_SPACE" = Some 0%nat /\
  initMedia eps0 mu0 dt reg 1 = mkCoef (-1) 0 (dt / mu0) /\ initMedia eps0 mu0 dt reg 0 = mkCoef 1 (dt / eps0) (dt / mu0).
Proof.
  intros eps0 mu0 dt cards reg H.
  assert (ND : NoDup (map iname reg)) by (eapply parseMTs_nodup; [|exact H]; repeat constructor; simpl; intuition congruence).
  apply parseMTs_prefix in H. destruct H as (ext & -> & _).
  split; [eapply findName_unique; [exact ND|reflexivity|reflexivity]|].
  split; [eapply findName_unique; [exact ND|reflexivity|reflexivity]|]. auto.
Qed.
(** a pole in the closed left half plane gives a recursion that does not grow,
    and every pole read from a parameter file is such a pole *)
Theorem C17_debye_stable : forall dt, 0 < dt -> forall p, stable_pole p -> cnorm2 (dalpha dt p) <= 1.
Proof. intros dt DT p. exact (dalpha_contract dt DT p). Qed.
Theorem C17_debye_file : forall d p, readDebyeParameters d = Some p -> Forall stable_pole (m_poles p) /\
  1 <= m_eps p /\ 0 <= m_sigma p /\ 1 <= m_mu p.
Proof. intros d p H. apply read_ok in H. destruct H as (P & _ & S). split; [exact S|exact P]. Qed.
(** ... but not every pole given on the MT card itself: this card is accepted
    and its recursion grows. *)
Theorem C50_inline_pole_refuted : exists cards reg it, parseMTs initMedReg cards = Some reg /\ getItem reg 2 = Some it /\
  m_type (idata it) = MT_DEBYE /\
  exists p, In p (m_poles (idata it)) /\ ~ stable_pole p /\ (forall dt, 0 < dt < 2 -> 1 < cnorm2 (dalpha dt p)).
Proof.
  exists [mkMT "w" "DEBYE" [1; 0; 1; 1; 1] None]. eexists. eexists.
  split.
  { cbn [parseMTs mt_name mt_type mt_vals mt_file parseMT mtypeOf String.eqb Ascii.eqb Bool.eqb].
    unfold simpleOk, ltb. cbn [nthR nth List.length Nat.leb andb].
    destruct (Rlt_dec 1 1); [lra|]. destruct (Rlt_dec 0 0); [lra|]. cbn [orb negb]. reflexivity. }
  split; [reflexivity|]. split; [reflexivity|].
  eexists. split; [left; reflexivity|]. split; [unfold stable_pole; cbn; lra|].
  intros dt D. unfold dalpha, cdiv, cnorm2. cbn. set (x := 0.5 * dt).
  assert (X : 0 < x < 1) by (unfold x; lra).
  match goal with |- _ < ?u / ?d * (?u / ?d) + ?v / ?d * (?v / ?d) =>
    replace d with ((1 - x) * (1 - x)) by ring; replace u with ((1 + x) * (1 - x)) by ring; replace v with 0 by ring end.
  replace (((1 + x) * (1 - x)) / ((1 - x) * (1 - x))) with ((1 + x) / (1 - x)) by (field; lra).
  assert (Y : 1 < (1 + x) / (1 - x)).
  { apply (Rmult_lt_reg_r (1 - x)); [lra|]. unfold Rdiv. rewrite Rmult_assoc, Rinv_l by lra. lra. }
  unfold Rdiv at 3 4. nra.
Qed.
Example C17_nonvacuous : exists cards reg it, parseMTs initMedReg cards = Some reg /\ getItem reg 2 = Some it /\
  m_type (idata it) = MT_SIMPLE /\ m_eps (idata it) = 4 /\ m_sigma (idata it) = 1/2.
Proof.
  exists [mkMT "glass" "SIMPLE" [4; 1/2] None]. eexists. eexists. split.
  { cbn [parseMTs mt_name mt_type mt_vals mt_file parseMT mtypeOf String.eqb Ascii.eqb Bool.eqb].
    unfold simpleOk, ltb. cbn [nthR nth List.length Nat.leb andb].
    destruct (Rlt_dec 4 1); [lra|]. destruct (Rlt_dec (1/2) 0); [lra|]. cbn [orb negb]. reflexivity. }
  cbn. auto.
Qed.

(** ** C48 is false: a medium declared with type PEC by the user gets the
    coefficients of free space, not those of PEC. *)
Theorem C48_user_pec_refuted : forall eps0 mu0 dt, 0 < eps0 -> 0 < mu0 -> 0 < dt ->
  exists reg it, parseMTs initMedReg [mkMT "metal" "PEC" [] None] = Some reg /\ findName reg "metal" = Some 2%nat /\
  getItem reg 2 = Some it /\ m_type (idata it) = MT_PEC /\
  cbeta (initMedia eps0 mu0 dt reg 2) <> 0 /\ initMedia eps0 mu0 dt reg 2 = initMedia eps0 mu0 dt reg 0.
Proof.
  intros eps0 mu0 dt E0 M0 DT. eexists. eexists. split; [reflexivity|]. split; [reflexivity|]. split; [reflexivity|].
  split; [reflexivity|]. unfold initMedia. cbn [nth_error idata addItem initMedReg app].
  unfold calcCoeffFromParam. cbn [m_poles m_eps m_sigma m_mu dsum fold_left calpha cbeta cgamma].
  split.
  - assert (0 < 2.0 * dt / (2.0 * 1 * eps0 + 2.0 * 0 * dt + dt * 0)) by (apply Rdiv_lt_0_compat; lra). lra.
  - replace (2.0 * 1 * eps0 + 2.0 * 0 * dt - dt * 0) with (2 * eps0) by lra.
    replace (2.0 * 1 * eps0 + 2.0 * 0 * dt + dt * 0) with (2 * eps0) by lra. replace (2.0 * dt) with (2 * dt) by lra.
    f_equal; field; lra.
Qed.

(** ** C49.  At a point of exactly one Debye block where nothing else drives the
    field, for any history of the curl of H: the fields satisfy Ampere's law with
    the documented dispersion (each pole with its conjugate partner), centred at
    the half steps, at every step. *)
Theorem C49_debye_law : forall eps0 mu0 dt, 0 < dt ->
  forall (p : MParam) blks n blk f i j k,
  only f i j k blks n blk -> db_poles blk = m_poles p -> Forall stable_pole (m_poles p) ->
  2 * m_eps p * eps0 + 2 * dsum eps0 dt (m_poles p) * dt + dt * m_sigma p <> 0 ->
  let co := calcCoeffFromParam eps0 mu0 dt p in
  forall beta, beta f i j k = cbeta co ->
  forall (S pre : nat -> DState) (curl : nat -> R),
  sE (S O) f i j k = 0 -> sJ (S O) n f i j k = zeroJ blks n f i j k -> sL (S O) n f i j k = zeroL n f i j k ->
  (forall t, sE (pre t) f i j k = calpha co * sE (S t) f i j k + cbeta co * curl t /\
     sJ (pre t) n f i j k = sJ (S t) n f i j k /\ sL (pre t) n f i j k = sL (S t) n f i j k) ->
  (forall t, S (t + 1)%nat = updateDebyeBlocksEfield eps0 dt beta blks (pre t)) ->
  forall t, let E := sE (S t) f i j k in let E' := sE (S (t + 1)%nat) f i j k in
            let js := sJ (S t) n f i j k in let js' := sJ (S (t + 1)%nat) n f i j k in
  List.length js = List.length (m_poles p) /\ List.length js' = List.length (m_poles p) /\
  ampere_debye (m_eps p * eps0) (m_sigma p) dt E E' (curl t) js js' /\
  (forall q pq z z', nth_error (m_poles p) q = Some pq -> nth_error js q = Some z -> nth_error js' q = Some z' ->
     pole_law eps0 dt pq z z' E E').
Proof.
  intros eps0 mu0 dt DT p blks n blk f i j k HO HB HS HD co beta Hbeta S pre curl Z1 Z2 Z3 HP HU.
  assert (ST : forall t, upd_at eps0 dt beta n blk f i j k (pre t) (S (t + 1)%nat)).
  { intros t. rewrite HU. apply (from_at eps0 dt beta f i j k blks 0 n blk (pre t) HO). }
  assert (INV : forall t, sL (S t) n f i j k = sE (S t) f i j k /\ List.length (sJ (S t) n f i j k) = List.length (m_poles p)).
  { induction t as [|t IH].
    - rewrite Z3, Z1, Z2. split; [reflexivity|]. unfold zeroJ. destruct HO as (-> & _). rewrite map_length, HB. reflexivity.
    - destruct (ST t) as (A1 & A2 & A3 & _). replace (t + 1)%nat with (Datatypes.S t) in * by lia. split; [congruence|].
      rewrite A2. unfold newJ. rewrite map_length, combine_length, HB. destruct (HP t) as (_ & -> & _). lia. }
  intros t E E' js js'. destruct (INV t) as [I1 I2]. destruct (INV (t + 1)%nat) as [I3 I4].
  destruct (ST t) as (A1 & A2 & _). destruct (HP t) as (P1 & P2 & P3).
  assert (EE : E' = calpha co * E + cbeta co * curl t - cbeta co * re (Jsum dt (m_poles p) js)).
  { unfold E'. rewrite A1. unfold newE. rewrite P1, P2, Hbeta, HB. reflexivity. }
  assert (JJ : js' = nextJ eps0 dt (m_poles p) js (E' - E)).
  { unfold js'. rewrite A2. unfold newJ, nextJ. rewrite HB, P2, P3, I1. fold E js. rewrite <- A1. fold E'. reflexivity. }
  split; [exact I2|]. split; [exact I4|]. split.
  - unfold ampere_debye. rewrite JJ, current_sum by auto.
    set (J := re (Jsum dt (m_poles p) js)) in *. set (s := dsum eps0 dt (m_poles p)) in *.
    unfold co, calcCoeffFromParam in EE. cbn [calpha cbeta] in EE. fold s in EE.
    set (e := m_eps p) in *. set (sg := m_sigma p) in *.
    replace 2.0 with 2 in EE by lra. set (D := 2 * e * eps0 + 2 * s * dt + dt * sg) in *.
    replace (2 * e * eps0 + 2 * s * dt - dt * sg) with (D - 2 * dt * sg) in EE by (unfold D; ring).
    assert (X : D * (E' - E) = 2 * dt * (curl t - J - sg * E)) by (rewrite EE; field; auto).
    assert (Y : e * eps0 * ((E' - E) / dt) + sg * ((E' + E) / 2) + 2 * (J + s * (E' - E)) / 2 = (D * (E' - E)) / (2 * dt) + sg * E + J).
    { unfold D. field. lra. }
    rewrite Y, X. field. lra.
  - intros q pq z z' N1 N2 N3. rewrite JJ in N3. unfold nextJ in N3.
    assert (NC : nth_error (combine (m_poles p) js) q = Some (pq, z)).
    { clear - N1 N2. revert q N1 N2. generalize (m_poles p). clearbody js. revert js. intros js l; revert js. induction l as [|a l IH]; intros js q N1 N2; destruct q; try discriminate N1.
      - destruct js; try discriminate N2. cbn in *. congruence.
      - destruct js; try discriminate N2. cbn in *. auto. }
    rewrite (map_nth_error _ _ _ NC) in N3. injection N3 as <-. cbn [fst snd].
    apply pole_law_next; [|lra|reflexivity].
    assert (SP : stable_pole pq) by (rewrite Forall_forall in HS; apply HS; eapply nth_error_In; eauto).
    pose proof (pden_pos dt DT pq SP). lra.
Qed.

(** such histories exist: one Debye block, constant curl *)
Definition c49param : MParam := mkMP MT_DEBYE 2 0 1 [mkPole (cxR 1) (mkC (-1) 3)].
Definition c49blks : list DBlock := [mkDB (m_poles c49param) (fun _ => mkbox 1 2 1 2 1 2)].
Fixpoint c49S (t : nat) : DState :=
  match t with
  | O => mkDS (fun _ _ _ _ => 0) (zeroJ c49blks) zeroL
  | S t => let co := calcCoeffFromParam 1 1 (1/4) c49param in
      updateDebyeBlocksEfield 1 (1/4) (fun _ _ _ _ => cbeta co) c49blks
        (mkDS (fun f i j k => calpha co * sE (c49S t) f i j k + cbeta co * 1) (sJ (c49S t)) (sL (c49S t)))
  end.
Definition c49pre (t : nat) : DState := let co := calcCoeffFromParam 1 1 (1/4) c49param in
  mkDS (fun f i j k => calpha co * sE (c49S t) f i j k + cbeta co * 1) (sJ (c49S t)) (sL (c49S t)).
Example C49_nonvacuous : let co := calcCoeffFromParam 1 1 (1/4) c49param in
  only EX 1 1 2 c49blks 0 (mkDB (m_poles c49param) (fun _ => mkbox 1 2 1 2 1 2)) /\
  Forall stable_pole (m_poles c49param) /\
  2 * m_eps c49param * 1 + 2 * dsum 1 (1/4) (m_poles c49param) * (1/4) + (1/4) * m_sigma c49param <> 0 /\
  sE (c49S 0) EX 1 1 2 = 0 /\ sJ (c49S 0) 0 EX 1 1 2 = zeroJ c49blks 0 EX 1 1 2 /\
  (forall t, sE (c49pre t) EX 1 1 2 = calpha co * sE (c49S t) EX 1 1 2 + cbeta co * 1) /\
  (forall t, c49S (t + 1) = updateDebyeBlocksEfield 1 (1/4) (fun _ _ _ _ => cbeta co) c49blks (c49pre t)).
Proof.
  intros co. split; [|split; [|split; [|split; [|split; [|split]]]]].
  - split; [reflexivity|]. split; [split; [reflexivity|unfold inl, mkbox; cbn; lia]|].
    intros [|[|n']] blk' H _; [reflexivity|discriminate H|discriminate H].
  - repeat constructor. unfold stable_pole. cbn. lra.
  - unfold c49param, dsum, dbeta, cdiv, cnorm2. cbn. lra.
  - reflexivity.
  - reflexivity.
  - intros t. reflexivity.
  - intros t. rewrite Nat.add_1_r. reflexivity.
Qed.

(** ** C44, the part that holds: a point of exactly one Debye block gets the
    polarisation of that block, once; a point of none is not touched. *)
Theorem C44_once_partial : forall eps0 dt beta blks st f i j k,
  ((forall blk, In blk blks -> ~ coveredBy f i j k blk) ->
     sE (updateDebyeBlocksEfield eps0 dt beta blks st) f i j k = sE st f i j k) /\
  (forall n blk, only f i j k blks n blk ->
     sE (updateDebyeBlocksEfield eps0 dt beta blks st) f i j k =
     sE st f i j k - beta f i j k * re (Jsum dt (db_poles blk) (sJ st n f i j k))).
Proof.
  intros eps0 dt beta blks st f i j k. split.
  - intros H. exact (proj1 (from_frame eps0 dt beta f i j k blks 0 st H)).
  - intros n blk O. exact (proj1 (from_at eps0 dt beta f i j k blks 0 n blk st O)).
Qed.

(** ** C44 is false where a later block covers a Debye block.  A DEBYE block
    covered by a later block of free space: the last paint at the point is free
    space, whose update with no curl leaves the field alone, yet the field is
    changed by the polarisation of the covered block. *)
Definition c44blk (m : nat) : Block := mkBlock (mkbox 0 2 0 2 0 2) m 63.
Definition c44med (n : nat) : MType * list Pole :=
  match n with 2%nat => (MT_DEBYE, [mkPole (cxR 1) (cxR 0)]) | _ => (MT_SIMPLE, []) end.
Definition c44cfg : Cfg := mkCfg (fun _ => 3%Z) (fun _ => BT_PEC) (fun _ => 0%Z).
(** The Debye blocks of a mesh are its BLOCK cards of DEBYE medium, in file order;
    each carries the poles of its own medium and acts on exactly the electric
    edges that the BLOCK card paints. *)
Theorem C44_points : forall c med bs,
  Forall2 (fun b blk => db_poles blk = snd (med (medium_b b)) /\
      ((0 <= mask_b b <= 63)%Z -> forall f i j k, coveredBy f i j k blk <->
         is_E f = true /\ covers (blockPaint b) f (i - gibox c XLO) (j - gibox c YLO) (k - gibox c ZLO)))
    (filter (fun b => match fst (med (medium_b b)) with MT_DEBYE => true | _ => false end) bs)
    (initDebyeBlocks c med bs).
Proof.
  intros c med bs. unfold initDebyeBlocks. induction bs as [|b bs IH]; [constructor|].
  cbn [filter flat_map]. destruct (med (medium_b b)) as [t ps] eqn:M. cbn [fst].
  destruct t; try exact IH. cbn [app]. constructor; [|exact IH].
  split; [rewrite M; reflexivity|]. intros MK f i j k. unfold coveredBy, covers. cbn [db_lim].
  apply and_iff_compat_l. rewrite <- yee_in_offset.
  transitivity (yee_in f (offsetBoundingBox (bbox_b b) (gibox c)) (faceMask2boolArray (mask_b b)) i j k).
  { rewrite <- setFieldLimits_spec. unfold inl, in_lim. tauto. }
  apply yee_in_ext; [reflexivity|]. intros g. cbn [blockPaint p_incl]. apply isFaceActive_bit. exact MK.
Qed.
Example C44_points_nonvacuous :
  List.length (initDebyeBlocks c44cfg c44med [c44blk 2; c44blk 0]) = 1%nat /\ (0 <= mask_b (c44blk 2) <= 63)%Z /\
  covers (blockPaint (c44blk 2)) EX 0 1 1.
Proof. split; [reflexivity|]. split; [cbn; lia|]. intros []; cbn; repeat split; intros; try congruence; lia. Qed.
Theorem C44_overwrite_refuted : forall eps0 dt, 0 < eps0 -> 0 < dt ->
  let scene := mkScene [c44blk 2; c44blk 0] [] [] in
  let blks := initDebyeBlocks c44cfg c44med (sc_blocks scene) in
  let beta := fun _ _ _ _ => dt / eps0 in
  let st0 := mkDS (fun _ _ _ _ => 1) (zeroJ blks) zeroL in
  let upd := updateDebyeBlocksEfield eps0 dt beta blks in
  scene_ok c44cfg scene /\
  last_paint EX 0 1 1 (paints c44cfg (fun _ => TW_PEC) (fun _ => BT_PEC) scene) (Some 0%nat) /\
  sE (upd st0) EX 1 2 2 = 1 /\ sE (upd (upd st0)) EX 1 2 2 = 1 - 2 * dt.
Proof.
  intros eps0 dt E0 DT scene blks beta st0 upd.
  assert (O : only EX 1 2 2 blks 0 (mkDB [mkPole (cxR 1) (cxR 0)] (setFieldLimits (offsetBoundingBox (mkbox 0 2 0 2 0 2) (gibox c44cfg)) (faceMask2boolArray 63)))).
  { split; [reflexivity|]. split; [split; [reflexivity|vm_compute; repeat split; congruence]|].
    intros n' blk' N _. destruct n' as [|n']; [reflexivity|]. exfalso. destruct n'; discriminate N. }
  split.
  { split; [|split; intros ? []]. intros b [<-|[<-|[]]]; (split; [intros []; vm_compute; split; congruence|cbn; lia]). }
  split.
  { set (w := fun face => mkPaint (wallBox c44cfg face) all_faces 1%nat).
    change (last_paint EX 0 1 1 ((((((([blockPaint (c44blk 2); blockPaint (c44blk 0)] ++ [w XLO]) ++ [w XHI]) ++ [w YLO]) ++ [w YHI]) ++ [w ZLO]) ++ [w ZHI])) (Some 0%nat)).
    do 6 (apply lp_skip; [unfold covers, yee_in; intros H; pose proof (H XDIR) as Hx; pose proof (H YDIR) as Hy; pose proof (H ZDIR) as Hz; clear H; vm_compute in Hx, Hy, Hz; intuition congruence|]).
    apply (lp_cover EX 0 1 1 [blockPaint (c44blk 2)] (blockPaint (c44blk 0))).
    intros []; vm_compute; intuition congruence. }
  set (B := mkDB _ _) in O.
  assert (G : forall st, upd_at eps0 dt beta 0 B EX 1 2 2 st (upd st)) by (intros st; exact (from_at eps0 dt beta EX 1 2 2 blks 0 0 B st O)).
  assert (HB : db_poles B = [mkPole (cxR 1) (cxR 0)]) by reflexivity.
  assert (HJ : sJ st0 0 EX 1 2 2 = [cxR 0]) by reflexivity.
  assert (HE : sE st0 EX 1 2 2 = 1 /\ sL st0 0 EX 1 2 2 = 0) by (split; reflexivity). destruct HE as [HE HL].
  assert (Hb : beta EX 1%Z 2%Z 2%Z = dt / eps0) by reflexivity.
  clearbody upd B st0 beta. clear O blks scene.
  destruct (G st0) as (A1 & A2 & A3 & _). destruct (G (upd st0)) as (B1 & _).
  assert (V1 : newE dt beta B 0 st0 EX 1 2 2 = 1).
  { unfold newE. rewrite HE, HB, HJ. unfold Jsum. cbn. lra. }
  rewrite A1, V1. split; [reflexivity|]. rewrite B1. unfold newE. rewrite A1, V1, A2. unfold newJ. rewrite V1, HB, HJ, HL, Hb.
  unfold Jsum, dalpha, dbeta, cdiv, cnorm2. cbn. field. lra.
Qed.
Print Assumptions C17_simple.
Print Assumptions C49_debye_law.
Print Assumptions C44_overwrite_refuted.
