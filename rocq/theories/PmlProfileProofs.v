(** The grading profiles: loops of setProfile and setPmlParameters. *)
From Coq Require Import ZArith List Bool Reals Lra Lia.
From Verif Require Import Types Lang LangProofs BBox Grid CArr Edges PmlProfile SpecPml.
Import ListNotations.
Open Scope R_scope.

Definition aof (g : R * R) : R := (fst g - snd g) / (fst g + snd g).
Definition bof (g : R * R) : R := 1 / (fst g + snd g).
Definition ibof (g : R * R) : R := fst g + snd g.

(** the arrays hold the coefficients of (kappa, u) = fD at nodes and fH at half nodes below [hi] *)
Definition rep (n hi : Z) (s : PmlAr) (fD fH : Z -> R * R) : Prop :=
  (alen (pad s) = n /\ alen (pbd s) = n /\ alen (pibd s) = n /\ alen (pah s) = n /\ alen (pbh s) = n /\ alen (pibh s) = n)%Z /\
  forall i, (0 <= i < hi)%Z ->
    adat (pad s) i = aof (fD i) /\ adat (pbd s) i = bof (fD i) /\ adat (pibd s) i = ibof (fD i) /\
    adat (pah s) i = aof (fH i) /\ adat (pbh s) i = bof (fH i) /\ adat (pibh s) i = ibof (fH i).

Definition fupd (f : Z -> R * R) (i : Z) (v : R * R) : Z -> R * R := fun j => if (j =? i)%Z then v else f j.

Lemma rep_ext n hi s fD fH fD' fH' : (forall i, (0 <= i < hi)%Z -> fD i = fD' i) -> (forall i, (0 <= i < hi)%Z -> fH i = fH' i) ->
  rep n hi s fD fH -> rep n hi s fD' fH'.
Proof. intros E1 E2 (L & H). split; [exact L|]. intros i Hi. rewrite <- (E1 i Hi), <- (E2 i Hi). apply H; exact Hi. Qed.

Lemma storeD_rep n s fD fH i k u : (0 <= i < n)%Z -> rep n n s fD fH ->
  exists s', storeD s i k u = Some s' /\ rep n n s' (fupd fD i (k, u)) fH.
Proof.
  intros Hi ((L1 & L2 & L3 & L4 & L5 & L6) & H). unfold storeD.
  rewrite !wr_ok by lia. cbn [obind]. eexists; split; [reflexivity|]. split; [cbn [pad pbd pibd pah pbh pibh alen]; tauto|].
  intros j Hj. cbn [pad pbd pibd pah pbh pibh adat]. unfold fupd. destruct (Z.eqb_spec j i); [|apply H; exact Hj].
  repeat split; try reflexivity; apply H; exact Hj.
Qed.
Lemma storeH_rep n s fD fH i k u : (0 <= i < n)%Z -> rep n n s fD fH ->
  exists s', storeH s i k u = Some s' /\ rep n n s' fD (fupd fH i (k, u)).
Proof.
  intros Hi ((L1 & L2 & L3 & L4 & L5 & L6) & H). unfold storeH.
  rewrite !wr_ok by lia. cbn [obind]. eexists; split; [reflexivity|]. split; [cbn [pad pbd pibd pah pbh pibh alen]; tauto|].
  intros j Hj. cbn [pad pbd pibd pah pbh pibh adat]. unfold fupd. destruct (Z.eqb_spec j i); [|apply H; exact Hj].
  repeat split; try reflexivity; apply H; exact Hj.
Qed.

Lemma fillOnes_rep n s : (1 <= n)%Z ->
  (alen (pad s) = n /\ alen (pbd s) = n /\ alen (pibd s) = n /\ alen (pah s) = n /\ alen (pbh s) = n /\ alen (pibh s) = n)%Z ->
  exists s', fillOnes 0 (n - 1) s = Some s' /\ rep n n s' (fun _ => (1, 0)) (fun _ => (1, 0)).
Proof.
  intros Hn L. unfold fillOnes.
  destruct (cfor_inv (fun i t => rep n i t (fun _ => (1, 0)) (fun _ => (1, 0))) 0 (n - 1)
    (fun s i => do b <- wr (pbd s) i 1; do b' <- wr (pbh s) i 1; do ib <- wr (pibd s) i 1; do ib' <- wr (pibh s) i 1;
      do a <- wr (pad s) i 1; do a' <- wr (pah s) i 1; Some (mkAr a b ib a' b' ib')) s) as (s' & E & R').
  - lia.
  - split; [exact L|]. intros; lia.
  - intros i t Hi ((L1 & L2 & L3 & L4 & L5 & L6) & H). rewrite !wr_ok by lia. cbn [obind]. eexists; split; [reflexivity|].
    split; [cbn [pad pbd pibd pah pbh pibh alen]; tauto|]. intros j Hj. cbn [pad pbd pibd pah pbh pibh adat].
    destruct (Z.eqb_spec j i); [|apply H; lia].
    assert (A1 : 1 = aof (1, 0)) by (unfold aof; cbn [fst snd]; field).
    assert (A2 : 1 = bof (1, 0)) by (unfold bof; cbn [fst snd]; field).
    assert (A3 : 1 = ibof (1, 0)) by (unfold ibof; cbn [fst snd]; ring).
    repeat split; assumption.
  - replace (n - 1 + 1)%Z with n in R' by lia. eauto.
Qed.

Lemma sum_loop de low high d : (0 <= low)%Z -> (low <= high)%Z -> (high < alen de)%Z ->
  (forall i, (low <= i <= high)%Z -> adat de i = d) ->
  cfor low high (fun t i => do x <- rd de i; Some (t + x)) 0 = Some (IZR (high - low + 1) * d).
Proof.
  intros H0 H1 H2 Hd.
  destruct (cfor_inv (fun i t => t = IZR (i - low) * d) low high (fun t i => do x <- rd de i; Some (t + x)) 0) as (s' & E & Q).
  - lia.
  - rewrite Z.sub_diag. ring.
  - intros i t Hi ->. rewrite rd_ok by lia. cbn [obind]. eexists; split; [reflexivity|]. rewrite Hd by lia.
    replace (i + 1 - low)%Z with ((i - low) + 1)%Z by lia. rewrite plus_IZR. ring.
  - rewrite E, Q. do 3 f_equal. lia.
Qed.

(** grading of one side: (kappa, u) at relative depth x *)
Definition sigmaMax (q : PmlPar) (total d : R) : R :=
  if Rgt_dec (pRef q) 0 then - (IZR (pOrder q) + 1) / (2 * eta0 * pNeff q * total) * ln (pRef q)
  else 4 * (IZR (pOrder q) + 1) / (5 * eta0 * pNeff q * d).
Definition grade (q : PmlPar) (dt total d x : R) : R * R :=
  (1 + (pKmax q - 1) * powerRZ x (pOrder q), / 2 * dt / eps0 * (sigmaMax q total d * powerRZ x (pOrder q))).

Section Side.
Variables (de dh : carr R) (low high n : Z) (q : PmlPar) (dt d : R) (fD fH : Z -> R * R) (s : PmlAr).
Hypotheses (Hl : (1 <= low)%Z) (Hh : (low <= high)%Z) (Hn : (high + 1 < n)%Z) (Lde : alen de = n) (Ldh : alen dh = n).
Hypotheses (Dpos : 0 < d) (Hde : forall i, (low <= i <= high)%Z -> adat de i = d) (Hdh : forall i, (low <= i <= high)%Z -> adat dh i = d).
Hypothesis (HR : rep n n s fD fH).
Let N : Z := (high - low + 1)%Z.
Let T : R := IZR N * d.
Lemma Npos : 0 < IZR N. Proof. clear - Hl Hh. apply IZR_lt. unfold N. lia. Qed.
Lemma Tpos : 0 < T. Proof. apply Rmult_lt_0_compat; [exact Npos|exact Dpos]. Qed.

Lemma sigma_ok x : 0 <= x <= 1 -> pmlSigmaProfile x T d q = Some (sigmaMax q T d * powerRZ x (pOrder q)).
Proof.
  intros Hx. unfold pmlSigmaProfile. destruct (Rge_dec x 0); [|lra]. destruct (Rle_dec x 1); [|lra]. reflexivity.
Qed.
Lemma depth_frac (y : R) : (y * d) / T = y / IZR N.
Proof. unfold T. field. split; [|lra]. pose proof Npos. lra. Qed.
Lemma frac01 (y : R) : 0 <= y <= IZR N -> 0 <= y / IZR N <= 1.
Proof.
  intros Hy. pose proof Npos. split.
  - apply Rmult_le_pos; [lra|]. left. apply Rinv_0_lt_compat. lra.
  - apply (Rmult_le_reg_r (IZR N)); [lra|]. unfold Rdiv. rewrite Rmult_assoc, Rinv_l by lra. lra.
Qed.

(** a marching loop: depth (c0 + dir (i - low)) d at iteration i *)
Section March.
Variables (store : PmlAr -> Z -> R -> R -> option PmlAr) (isD : bool) (dx : carr R) (dir y0 : R).
Hypothesis Lx : alen dx = n.
Hypothesis Hx : forall i, (low <= i <= high)%Z -> adat dx i = d.
Hypothesis Hst : forall s fD fH i k u, (0 <= i < n)%Z -> rep n n s fD fH ->
  exists s', store s i k u = Some s' /\ (if isD then rep n n s' (fupd fD i (k, u)) fH else rep n n s' fD (fupd fH i (k, u))).
Let y (i : Z) : R := y0 + dir * IZR (i - low).
Hypothesis Hy : forall i, (low <= i <= high)%Z -> 0 <= y i <= IZR N.
Let val (i : Z) : R * R := grade q dt T d (y i / IZR N).
Let ov (f : Z -> R * R) (m : Z) : Z -> R * R := fun j => if (low <=? j)%Z && (j <? m)%Z then val j else f j.
Lemma march : forall s fD fH, rep n n s fD fH -> exists s',
  cfor low high (fun (r : PmlAr * R) i => let '(s, dp) := r in
      do sp <- (do sg <- pmlSigmaProfile (dp / T) T d q; Some (/ 2 * dt / eps0 * sg));
      do s <- store s i (pmlKappaProfile (dp / T) q) sp;
      do x <- rd dx i; Some (s, dp + dir * x)) (s, y0 * d) = Some (s', y (high + 1) * d) /\
  (if isD then rep n n s' (ov fD (high + 1)) fH else rep n n s' fD (ov fH (high + 1))).
Proof.
  clear fD fH s HR. intros s fD fH HR.
  destruct (cfor_inv (fun i (r : PmlAr * R) => snd r = y i * d /\
      (if isD then rep n n (fst r) (ov fD i) fH else rep n n (fst r) fD (ov fH i))) low high
    (fun (r : PmlAr * R) i => let '(s, dp) := r in
      do sp <- (do sg <- pmlSigmaProfile (dp / T) T d q; Some (/ 2 * dt / eps0 * sg));
      do s <- store s i (pmlKappaProfile (dp / T) q) sp;
      do x <- rd dx i; Some (s, dp + dir * x)) (s, y0 * d)) as (r & E & Q1 & Q2).
  - lia.
  - cbn [fst snd]. split; [unfold y; rewrite Z.sub_diag; ring|].
    assert (X : forall f j, f j = ov f low j) by (intros f j; unfold ov; destruct (Z.leb_spec low j), (Z.ltb_spec j low); cbn [andb]; auto; lia).
    destruct isD; (eapply rep_ext; [| |exact HR]); intros; auto.
  - intros i [t dp] Hi [Q1 Q2]. cbn [fst snd] in *. subst dp. rewrite !depth_frac, sigma_ok by (apply frac01, Hy; lia). cbn [obind].
    assert (X : forall f j, fupd (ov f i) i (val i) j = ov f (i + 1) j).
    { intros f j. unfold fupd, ov. destruct (Z.eqb_spec j i) as [->|Nj].
      - destruct (Z.leb_spec low i), (Z.ltb_spec i (i + 1)); cbn [andb]; auto; lia.
      - destruct (Z.leb_spec low j), (Z.ltb_spec j i), (Z.ltb_spec j (i + 1)); cbn [andb]; auto; lia. }
    destruct isD.
    + destruct (Hst t _ _ i (fst (val i)) (snd (val i)) ltac:(lia) Q2) as (t' & E & R').
      change (store t i (pmlKappaProfile (y i / IZR N) q) (/ 2 * dt / eps0 * (sigmaMax q T d * powerRZ (y i / IZR N) (pOrder q)))) with (store t i (fst (val i)) (snd (val i))).
      rewrite E. cbn [obind]. rewrite rd_ok by lia. cbn [obind]. eexists; split; [reflexivity|]. cbn [fst snd]. split.
      * rewrite Hx by lia. unfold y. replace (i + 1 - low)%Z with (i - low + 1)%Z by lia. rewrite plus_IZR. ring.
      * eapply rep_ext; [| |exact R']; intros; auto.
    + destruct (Hst t _ _ i (fst (val i)) (snd (val i)) ltac:(lia) Q2) as (t' & E & R').
      change (store t i (pmlKappaProfile (y i / IZR N) q) (/ 2 * dt / eps0 * (sigmaMax q T d * powerRZ (y i / IZR N) (pOrder q)))) with (store t i (fst (val i)) (snd (val i))).
      rewrite E. cbn [obind]. rewrite rd_ok by lia. cbn [obind]. eexists; split; [reflexivity|]. cbn [fst snd]. split.
      * rewrite Hx by lia. unfold y. replace (i + 1 - low)%Z with (i - low + 1)%Z by lia. rewrite plus_IZR. ring.
      * eapply rep_ext; [| |exact R']; intros; auto.
  - exists (fst r). rewrite E. destruct r as [t dp]. cbn [fst snd] in *. subst dp. split; [reflexivity|exact Q2].
Qed.
End March.

Lemma setProfile_lo : exists s', setProfile de dh low high (-1) q dt s = Some s' /\
  rep n n s' (fun i => if (low <=? i)%Z && (i <=? high)%Z then grade q dt T d (IZR (2 * (high + 1) - 2 * i) / IZR (2 * N)) else fD i)
             (fun i => if (low <=? i)%Z && (i <=? high)%Z then grade q dt T d (IZR (2 * (high + 1) - (2 * i + 1)) / IZR (2 * N)) else fH i).
Proof.
  unfold setProfile. rewrite (sum_loop de low high d) by (auto; lia). fold N T. cbn [obind]. rewrite rd_ok by lia. rewrite Hde by lia. cbn [obind].
  change (-1 =? -1)%Z with true. change (-1 =? 1)%Z with false. cbv iota.
  destruct (march storeD true de (IZR (-1)) (IZR N) Lde Hde) with (s := s) (fD := fD) (fH := fH) as (s1 & E1 & R1).
  { intros. apply storeD_rep; auto. }
  { intros i Hi. unfold N. rewrite !minus_IZR, !plus_IZR, !minus_IZR. pose proof (IZR_le low i ltac:(lia)). pose proof (IZR_le i high ltac:(lia)). lra. }
  { exact HR. }
  cbv zeta beta. fold T in E1. rewrite E1. cbn [obind].
  destruct (march storeH false dh (IZR (-1)) (IZR N - / 2) Ldh Hdh) with (s := s1)
    (fD := fun j => if (low <=? j)%Z && (j <? high + 1)%Z then grade q dt T d ((IZR N + IZR (-1) * IZR (j - low)) / IZR N) else fD j) (fH := fH) as (s2 & E2 & R2).
  { intros. apply storeH_rep; auto. }
  { intros i Hi. unfold N. rewrite !minus_IZR, !plus_IZR, !minus_IZR. pose proof (IZR_le low i ltac:(lia)). pose proof (IZR_le i high ltac:(lia)). lra. }
  { exact R1. }
  replace (T - / 2 * d) with ((IZR N - / 2) * d) by (unfold T; ring).
  rewrite E2. cbn [obind fst]. eexists; split; [reflexivity|].
  pose proof Npos as NP.
  eapply rep_ext; [| |exact R2]; intros i Hi; cbn beta; (replace (i <? high + 1)%Z with (i <=? high)%Z by (destruct (Z.leb_spec i high), (Z.ltb_spec i (high + 1)); auto; lia));
  destruct ((low <=? i) && (i <=? high))%Z eqn:Q; auto; apply (f_equal (grade q dt T d)).
  - rewrite mult_IZR. replace (2 * (high + 1) - 2 * i)%Z with (2 * (N - (i - low)))%Z by (unfold N; lia).
    rewrite mult_IZR, (minus_IZR N). change (IZR (-1)) with (-1). field. lra.
  - rewrite mult_IZR. replace (2 * (high + 1) - (2 * i + 1))%Z with (2 * (N - (i - low)) - 1)%Z by (unfold N; lia).
    rewrite (minus_IZR (2 * (N - (i - low))) 1), mult_IZR, (minus_IZR N). change (IZR (-1)) with (-1). field. lra.
Qed.

Lemma setProfile_hi : exists s', setProfile de dh low high 1 q dt s = Some s' /\
  rep n n s' (fun i => if (low <=? i)%Z && (i <=? high + 1)%Z then grade q dt T d (IZR (2 * i - 2 * low) / IZR (2 * N)) else fD i)
             (fun i => if (low <=? i)%Z && (i <=? high)%Z then grade q dt T d (IZR (2 * i + 1 - 2 * low) / IZR (2 * N)) else fH i).
Proof.
  unfold setProfile. rewrite (sum_loop de low high d) by (auto; lia). fold N T. cbn [obind]. rewrite rd_ok by lia. rewrite Hde by lia. cbn [obind].
  change (1 =? -1)%Z with false. change (1 =? 1)%Z with true. cbv iota.
  destruct (march storeD true de 1 0 Lde Hde) with (s := s) (fD := fD) (fH := fH) as (s1 & E1 & R1).
  { intros. apply storeD_rep; auto. }
  { intros i Hi. unfold N. rewrite !minus_IZR, !plus_IZR, !minus_IZR. pose proof (IZR_le low i ltac:(lia)). pose proof (IZR_le i high ltac:(lia)). lra. }
  { exact HR. }
  replace (0 * d) with 0 in E1 by ring.
  cbv zeta beta. rewrite E1. cbn [obind]. rewrite depth_frac.
  assert (YN : 0 + 1 * IZR (high + 1 - low) = IZR N) by (replace (high + 1 - low)%Z with N by (unfold N; lia); ring).
  rewrite YN, sigma_ok by (apply frac01; pose proof Npos; lra). cbn [obind].
  pose proof Npos as NP.
  edestruct (storeD_rep n s1 _ fH (high + 1) (fst (grade q dt T d (IZR N / IZR N))) (snd (grade q dt T d (IZR N / IZR N))) ltac:(lia) R1) as (s2 & E2 & R2).
  cbn [grade fst snd] in E2. unfold pmlKappaProfile at 1. rewrite E2. cbn [obind].
  edestruct (march storeH false dh 1 (/ 2) Ldh Hdh) with (s := s2) (fH := fH) as (s3 & E3 & R3).
  { intros. apply storeH_rep; auto. }
  { intros i Hi. unfold N. rewrite !minus_IZR, !plus_IZR, !minus_IZR. pose proof (IZR_le low i ltac:(lia)). pose proof (IZR_le i high ltac:(lia)). lra. }
  { exact R2. }
  rewrite E3. cbn [obind fst]. eexists; split; [reflexivity|].
  eapply rep_ext; [| |exact R3]; intros i Hi; cbn beta.
  - unfold fupd. destruct (Z.eqb_spec i (high + 1)) as [->|Ni].
    + destruct (Z.leb_spec low (high + 1)), (Z.leb_spec (high + 1) (high + 1)); cbn [andb]; try lia.
      replace (2 * (high + 1) - 2 * low)%Z with (2 * N)%Z by (unfold N; lia). rewrite mult_IZR.
      transitivity (grade q dt T d (IZR N / IZR N)); [destruct (grade q dt T d (IZR N / IZR N)); reflexivity|]. apply (f_equal (grade q dt T d)). field. lra.
    + replace (i <? high + 1)%Z with (i <=? high + 1)%Z by (destruct (Z.leb_spec i (high + 1)), (Z.ltb_spec i (high + 1)); auto; lia).
      destruct ((low <=? i) && (i <=? high + 1))%Z eqn:Q; auto; apply (f_equal (grade q dt T d)).
      replace (2 * i - 2 * low)%Z with (2 * (i - low))%Z by lia. rewrite !mult_IZR. field. lra.
  - replace (i <? high + 1)%Z with (i <=? high)%Z by (destruct (Z.leb_spec i high), (Z.ltb_spec i (high + 1)); auto; lia).
    destruct ((low <=? i) && (i <=? high))%Z eqn:Q; auto; apply (f_equal (grade q dt T d)).
    replace (2 * i + 1 - 2 * low)%Z with (2 * (i - low) + 1)%Z by lia. rewrite plus_IZR, !mult_IZR. field. lra.
Qed.
End Side.
