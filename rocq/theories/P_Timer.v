(** C79: the progress reports. *)
From Coq Require Import ZArith List Bool Reals Lia Lra.
From Verif Require Import Types CArr BBox Grid Setup Timer.
Import ListNotations.
Open Scope R_scope.

(** ** What is assumed of the clock: it does not go back; every step takes between
    [lo] and [hi] seconds (as far as the clock can tell) *)
Definition goes_on (s0 : Z) (clock : nat -> Z) : Prop := (s0 <= clock 0%nat)%Z /\ forall k, (clock k <= clock (S k))%Z.
Definition speed (s0 : Z) (clock : nat -> Z) (lo hi : R) : Prop := forall i j, (i < j)%nat ->
  lo * INR (j - i) <= IZR (clock j - (if (i =? 0)%nat then s0 else clock i)) <= hi * INR (j - i).

Lemma clock_mono s0 clock : goes_on s0 clock -> (forall i j, (i <= j)%nat -> clock i <= clock j)%Z /\ forall j, (s0 <= clock j)%Z.
Proof.
  intros (A & B). assert (M : forall i j, (i <= j)%nat -> (clock i <= clock j)%Z).
  { intros i j L. induction L as [|j L IH]; [lia|]. specialize (B j). lia. }
  split; [exact M|]. intros j. specialize (M 0%nat j ltac:(lia)). lia.
Qed.
Lemma trunc_spec x : 0 <= x -> x - 1 < IZR (truncate x) <= x /\ (0 <= truncate x)%Z.
Proof.
  intros P. unfold truncate. destruct (Rle_dec 0 x); [|lra]. destruct (base_Int_part x) as (A & B). split; [lra|].
  apply Z.lt_succ_r. apply lt_IZR. rewrite succ_IZR. lra.
Qed.
Lemma fdiv_some x y : y <> 0 -> fdiv x y = Some (x / y).
Proof. intros N. unfold fdiv. destruct (Req_EM_T y 0); [contradiction|reflexivity]. Qed.

(** The invariant of the loop. *)
Section Inv.
Variables (s0 : Z) (clock : nat -> Z) (N : Z) (lo hi : R).
Hypothesis G : goes_on s0 clock.
Hypothesis SP : speed s0 clock lo hi.
Definition tick (i : nat) : Z := if (i =? 0)%nat then s0 else clock i.
Definition msg_ok (n : nat) (m : Msg) : Prop := exists j, (10 < j < n)%nat /\ m_step m = Z.of_nat j /\ m_steps m = N /\ lo <= m_tpi m <= hi /\
  IZR (clock j) + lo * (IZR N - INR j) - 1 < IZR (m_end m) <= IZR (clock j) + hi * (IZR N - INR j).
Fixpoint apart (ms : list Msg) : Prop :=
  match ms with
  | [] => True
  | m :: r => (forall m', In m' r -> 10 <= clock (Z.to_nat (m_step m')) - clock (Z.to_nat (m_step m)))%Z /\ apart r
  end.
Definition inv (n : nat) (t : Timer) (ms : list Msg) : Prop :=
  t_start t = s0 /\ exists l, t_lastStep t = Z.of_nat l /\ t_last t = tick l /\ t_lastTpi t = t_tpi t /\ (0 <= t_samples t)%Z /\
  (10 * t_samples t <= tick l - s0)%Z /\ (Z.of_nat (length ms) <= Z.max 0 (t_samples t - 1))%Z /\
  ((t_samples t = 0%Z /\ l = 0%nat) \/ (0 < t_samples t)%Z /\ (10 < l < n)%nat /\ 0 < t_tpi t /\ lo <= t_tpi t <= hi) /\
  Forall (msg_ok n) ms /\ apart ms /\ Forall (fun m => (m_step m <= Z.of_nat l)%Z) ms.
Lemma msg_mono n n' m : (n <= n')%nat -> msg_ok n m -> msg_ok n' m.
Proof. intros L (j & A & B). exists j. split; [lia|exact B]. Qed.
Lemma tick_le l j : (l <= j)%nat -> (0 < j)%nat -> (tick l <= clock j)%Z.
Proof. intros L P. destruct (clock_mono _ _ G) as (M & S). unfold tick. destruct (Nat.eqb_spec l 0); [apply S|apply M; exact L]. Qed.
Lemma apart_app ms m : apart ms -> (forall m', In m' ms -> 10 <= clock (Z.to_nat (m_step m)) - clock (Z.to_nat (m_step m')))%Z -> apart (ms ++ [m]).
Proof.
  induction ms as [|x ms IH]; intros A L; cbn [app apart]; [split; [intros m' []|exact I]|]. destruct A as (A1 & A2). split.
  - intros m' I. apply in_app_or in I. destruct I as [I|[<-|[]]]; [apply A1, I|]. apply L. left. reflexivity.
  - apply IH; [exact A2|]. intros m' I. apply L. right. exact I.
Qed.
Lemma convex c x y : 0 <= c <= 1 -> lo <= x <= hi -> lo <= y <= hi -> lo <= x * c + (1 - c) * y <= hi.
Proof. intros C X Y. split; [assert (lo * c <= x * c) by (apply Rmult_le_compat_r; lra); assert ((1 - c) * lo <= (1 - c) * y) by (apply Rmult_le_compat_l; lra); lra|].
  assert (x * c <= hi * c) by (apply Rmult_le_compat_r; lra); assert ((1 - c) * y <= (1 - c) * hi) by (apply Rmult_le_compat_l; lra); lra. Qed.

Lemma inv_step n t ms : (Z.of_nat n < N < 2 ^ 64)%Z -> inv n t ms -> exists t' ms', updateTimer (clock n) (Z.of_nat n) N t = Some (t', ms') /\ inv (S n) t' (ms ++ ms').
Proof.
  intros LN (TS & l & TL & TT & TE & SN & S10 & LM & ST & OK & AP & BE). unfold updateTimer. cbv zeta.
  assert (KEEP : inv (S n) t (ms ++ [])).
  { rewrite app_nil_r. split; [exact TS|]. exists l. do 6 (split; [assumption|]). split; [destruct ST as [ST|(A & B & C)]; [left; exact ST|right; split; [exact A|split; [lia|exact C]]]|].
    split; [eapply Forall_impl; [|exact OK]; intros m; apply msg_mono; lia|]. split; assumption. }
  destruct (((10 <=? clock n - t_last t) && (10 <? Z.of_nat n))%Z) eqn:W; [|do 2 eexists; split; [reflexivity|exact KEEP]].
  apply andb_true_iff in W. destruct W as (W1 & W2). apply Z.leb_le in W1. apply Z.ltb_lt in W2.
  assert (LL : (l < n)%nat) by (destruct ST as [(_ & ->)|(_ & ? & _)]; lia).
  rewrite TL in *. replace ((Z.of_nat n - Z.of_nat l) mod 2 ^ 64)%Z with (Z.of_nat (n - l)) by (rewrite Z.mod_small; lia).
  set (D := IZR (clock n - t_last t)). set (K := IZR (Z.of_nat (n - l))).
  assert (KP : 0 < K) by (apply IZR_lt; lia). assert (KI : K = INR (n - l)) by (unfold K; rewrite <- INR_IZR_INZ; reflexivity).
  assert (DP : 10 <= D) by (apply IZR_le; exact W1).
  assert (RATE : lo <= D / K <= hi /\ 0 < D / K).
  { destruct (SP l n LL) as (A & B). fold (tick l) in A, B. rewrite <- TT in A, B. fold D in A, B. rewrite <- KI in A, B. split; [|apply Rdiv_lt_0_compat; lra].
    assert (Q : D / K * K = D) by (field; lra). split; apply (Rmult_le_reg_r K); lra. }
  destruct RATE as (RB & RP).
  assert (TK : (tick n = clock n)%Z) by (unfold tick; destruct (Nat.eqb_spec n 0); [lia|reflexivity]).
  assert (S10' : (10 * (t_samples t + 1) <= tick n - s0)%Z) by (rewrite TK; lia).
  assert (BASE : forall est q ms', 0 < q -> lo <= q <= hi -> (Z.of_nat (length ms') <= (if (t_samples t =? 0)%Z then 0 else 1))%Z -> Forall (msg_ok (S n)) ms' -> Forall (fun m => m_step m = Z.of_nat n) ms' ->
     inv (S n) (mkTimer (t_start t) (clock n) est q q (Z.of_nat n) (t_samples t + 1)) (ms ++ ms')).
  { intros est q ms' QP QB LE F FE. split; [exact TS|]. exists n. cbn [t_lastStep t_last t_lastTpi t_tpi t_samples]. split; [reflexivity|]. split; [symmetry; exact TK|]. split; [reflexivity|].
    split; [lia|]. split; [exact S10'|]. split. { rewrite app_length. destruct (Z.eqb_spec (t_samples t) 0); lia. }
    split. { right. split; [lia|]. split; [lia|]. split; assumption. }
    split. { apply Forall_app. split; [eapply Forall_impl; [|exact OK]; intros m; apply msg_mono; lia|exact F]. }
    split.
    - destruct ms' as [|m' [|m'' ms']]; [rewrite app_nil_r; exact AP| |cbn [length] in LE; destruct (Z.eqb_spec (t_samples t) 0); lia].
      apply apart_app; [exact AP|]. inversion FE as [|x y E1 E2]; subst. intros m I. rewrite Forall_forall in BE, OK. specialize (BE m I). rewrite E1, Nat2Z.id.
      destruct (OK m I) as (j & J & JE & _). rewrite JE in *. rewrite Nat2Z.id. pose proof (proj1 (clock_mono _ _ G) j l ltac:(lia)) as M.
      rewrite TT in W1. unfold tick in W1. destruct (Nat.eqb_spec l 0); [lia|]. lia.
    - apply Forall_app. split; [eapply Forall_impl; [|exact BE]; cbv beta; intros; lia|]. eapply Forall_impl; [|exact FE]. cbv beta. intros; lia. }
  destruct (Z.eqb_spec (t_samples t + 1) 1) as [E1|E1].
  { rewrite fdiv_some by lra. do 2 eexists. split; [reflexivity|]. apply BASE; auto. cbn. destruct (t_samples t =? 0)%Z; lia. }
  destruct ST as [(Z0 & _)|(SPOS & LR & TP & TB)]; [lia|].
  unfold timeFilter. fold K. rewrite fdiv_some by lra. set (co := if (t_samples t + 1 <=? 10)%Z then 1 / 2 else 9 / 10).
  assert (CO : 0 < co < 1) by (unfold co; destruct (t_samples t + 1 <=? 10)%Z; lra).
  cbn [obind]. set (q := t_tpi t * co + (1 - co) * (D / K)).
  assert (QB : lo <= q <= hi) by (apply convex; [lra|exact TB|exact RB]).
  assert (QP : 0 < q). { unfold q. assert (0 < t_tpi t * co) by (apply Rmult_lt_0_compat; lra). assert (0 < (1 - co) * (D / K)) by (apply Rmult_lt_0_compat; lra). lra. }
  clearbody q. rewrite (fdiv_some _ q) by lra. cbn [obind].
  destruct (Rlt_dec _ _); [|do 2 eexists; split; [reflexivity|]; apply BASE; auto; cbn; destruct (t_samples t =? 0)%Z; lia].
  replace ((N - Z.of_nat n) mod 2 ^ 64)%Z with (N - Z.of_nat n)%Z by (rewrite Z.mod_small; lia).
  set (rem := IZR (N - Z.of_nat n)). assert (RM : 0 < rem) by (apply IZR_lt; lia).
  assert (REM : rem = IZR N - INR n) by (unfold rem; rewrite minus_IZR, INR_IZR_INZ; reflexivity).
  assert (QR : 0 <= q * rem) by (apply Rmult_le_pos; lra). destruct (trunc_spec _ QR) as (TR & TR0).
  set (tr := truncate (q * rem)) in *. clearbody tr.
  assert (NZ : IZR (clock n + tr - t_start t) <> 0). { apply not_0_IZR. rewrite TS. lia. }
  rewrite fdiv_some by exact NZ. cbn [obind].
  destruct (Rlt_dec _ _); [|do 2 eexists; split; [reflexivity|]; apply BASE; auto; cbn; destruct (t_samples t =? 0)%Z; lia].
  do 2 eexists. split; [reflexivity|]. apply BASE; auto.
  - cbn. destruct (Z.eqb_spec (t_samples t) 0); lia.
  - constructor; [|constructor]. exists n. cbn [m_step m_steps m_tpi m_end]. split; [lia|]. split; [reflexivity|]. split; [reflexivity|]. split; [exact QB|].
    rewrite plus_IZR, <- REM. assert (lo * rem <= q * rem) by (apply Rmult_le_compat_r; lra). assert (q * rem <= hi * rem) by (apply Rmult_le_compat_r; lra). lra.
Qed.
Lemma inv_run n : (Z.of_nat n <= N < 2 ^ 64)%Z -> exists t ms, timed s0 clock N n = Some (t, ms) /\ inv n t ms.
Proof.
  induction n as [|n IH]; intros L.
  - do 2 eexists. split; [reflexivity|]. split; [reflexivity|]. exists 0%nat. cbn. repeat split; try reflexivity; try lia; try constructor.
  - destruct IH as (t & ms & E & I); [lia|]. cbn [timed]. rewrite E. cbn [obind fst snd].
    destruct (inv_step n t ms ltac:(lia) I) as (t' & ms' & U & I'). rewrite U. cbn [obind fst snd]. do 2 eexists. split; [reflexivity|exact I'].
Qed.
End Inv.

(** ** C79 *)
(** The timer never divides by zero, whatever the clock does (as long as it does
    not go back). *)
Lemma any_speed s0 clock n : goes_on s0 clock -> exists clock', goes_on s0 clock' /\ (forall k, (k < n)%nat -> clock' k = clock k) /\ exists hi, speed s0 clock' 0 hi.
Proof.
  intros G. destruct (clock_mono _ _ G) as (M & B). destruct G as (G0 & G1).
  set (top := clock n). exists (fun k => Z.min (clock k) top). split; [|split].
  - split; [specialize (B n); unfold top; lia|]. intros k. specialize (G1 k). lia.
  - intros k L. specialize (M k n ltac:(lia)). unfold top. lia.
  - exists (IZR (top - s0)). intros i j L. pose proof (B i). pose proof (B j). pose proof (B n). pose proof (M i j ltac:(lia)).
    assert (D : (0 <= Z.min (clock j) top - (if (i =? 0)%nat then s0 else Z.min (clock i) top) <= top - s0)%Z) by (unfold top in *; destruct (i =? 0)%nat; lia).
    split; [rewrite Rmult_0_l; apply IZR_le; lia|].
    apply Rle_trans with (IZR (top - s0)); [apply IZR_le; lia|]. rewrite <- (Rmult_1_r (IZR (top - s0))) at 1.
    apply Rmult_le_compat_l; [apply IZR_le; unfold top in *; lia|]. apply (le_INR 1). lia.
Qed.
Lemma timed_ext s0 clock clock' N n : (forall k, (k < n)%nat -> clock' k = clock k) -> timed s0 clock' N n = timed s0 clock N n.
Proof.
  induction n as [|n IH]; intros E; [reflexivity|]. cbn [timed]. rewrite IH by (intros; apply E; lia). rewrite (E n) by lia. reflexivity.
Qed.
Theorem C79_defined : forall s0 clock N n, goes_on s0 clock -> (Z.of_nat n <= N < 2 ^ 64)%Z -> timed s0 clock N n <> None.
Proof.
  intros s0 clock N n G L. destruct (any_speed s0 clock n G) as (clock' & G' & E & hi & SP).
  destruct (inv_run s0 clock' N 0 hi G' SP n L) as (t & ms & T & _). rewrite (timed_ext _ _ _ _ _ E) in T. congruence.
Qed.
(** Every estimate printed lies where the slowest and the fastest step allow. *)
Theorem C79_estimates : forall s0 clock N lo hi, goes_on s0 clock -> speed s0 clock lo hi ->
  forall n t ms, (Z.of_nat n <= N < 2 ^ 64)%Z -> timed s0 clock N n = Some (t, ms) ->
  forall m, In m ms -> exists j, (10 < j < n)%nat /\ m_step m = Z.of_nat j /\ m_steps m = N /\ lo <= m_tpi m <= hi /\
    IZR (clock j) + lo * (IZR N - INR j) - 1 < IZR (m_end m) <= IZR (clock j) + hi * (IZR N - INR j).
Proof.
  intros s0 clock N lo hi G SP n t ms L T m I. destruct (inv_run s0 clock N lo hi G SP n L) as (t' & ms' & T' & _ & l & _ & _ & _ & _ & _ & _ & _ & OK & _).
  rewrite T in T'. injection T' as <- <-. rewrite Forall_forall in OK. exact (OK m I).
Qed.
(** Reports are at least ten seconds apart, the first not before twenty seconds:
    at most one for every ten seconds of running time. *)
Theorem C79_sparse : forall s0 clock N, goes_on s0 clock -> forall n t ms, (Z.of_nat n <= N < 2 ^ 64)%Z -> timed s0 clock N n = Some (t, ms) ->
  (forall p q m m', (p < q)%nat -> nth_error ms p = Some m -> nth_error ms q = Some m' -> 10 <= clock (Z.to_nat (m_step m')) - clock (Z.to_nat (m_step m)))%Z /\
  (ms <> [] -> 10 * (Z.of_nat (length ms) + 1) <= clock (n - 1)%nat - s0)%Z.
Proof.
  intros s0 clock N G n t ms L T. destruct (any_speed s0 clock n G) as (clock' & G' & E & hi & SP).
  destruct (inv_run s0 clock' N 0 hi G' SP n L) as (t' & ms' & T' & _ & l & _ & _ & _ & _ & S10 & LM & ST & OK & AP & _).
  rewrite (timed_ext _ _ _ _ _ E), T in T'. injection T' as <- <-. split.
  - assert (X : forall m, In m ms -> clock' (Z.to_nat (m_step m)) = clock (Z.to_nat (m_step m))).
    { intros m I. rewrite Forall_forall in OK. destruct (OK m I) as (j & J & -> & _). rewrite Nat2Z.id. apply E. lia. }
    clear - AP X. induction ms as [|x ms IH]; intros p q m m' L P Q; [destruct p; discriminate|]. destruct AP as (A & B).
    destruct q as [|q]; [lia|]. cbn [nth_error] in Q. pose proof (nth_error_In _ _ Q) as IQ. destruct p as [|p].
    + cbn in P. injection P as <-. rewrite <- !X by (cbn; auto). apply A, IQ.
    + cbn in P. apply (IH B (fun m I => X m (or_intror I)) p q m m'); [lia|assumption|assumption].
  - intros NE. assert (LP : (0 < length ms)%nat) by (destruct ms; [congruence|cbn; lia]). destruct ST as [(Z0 & _)|(SP0 & LR & _)]; [lia|].
    assert (tick s0 clock' l <= clock (n - 1)%nat)%Z. { unfold tick. destruct (Nat.eqb_spec l 0); [lia|]. rewrite <- E by lia. apply (proj1 (clock_mono _ _ G')). lia. }
    lia.
Qed.
(** On a machine where every step takes the same whole number of seconds the
    estimate is exact, and it is printed once. *)
Section Steady.
Variables (s0 r N : Z).
Hypothesis RP : (1 <= r)%Z.
Let clock (k : nat) : Z := (s0 + r * Z.of_nat k)%Z.
Lemma steady_goes : goes_on s0 clock. Proof. unfold clock. split; [lia|]. intros k. lia. Qed.
Lemma steady_speed : speed s0 clock (IZR r) (IZR r).
Proof.
  intros i j L. unfold clock. assert (E : (s0 + r * Z.of_nat j - (if (i =? 0)%nat then s0 else s0 + r * Z.of_nat i) = r * Z.of_nat (j - i))%Z).
  { rewrite Nat2Z.inj_sub by lia. destruct (Nat.eqb_spec i 0) as [-> |]; lia. }
  rewrite E, mult_IZR, <- INR_IZR_INZ. lra.
Qed.
End Steady.
Theorem C79_steady : forall s0 r N, (1 <= r)%Z -> forall n t ms, (Z.of_nat n <= N < 2 ^ 64)%Z -> timed s0 (fun k => s0 + r * Z.of_nat k)%Z N n = Some (t, ms) ->
  forall m, In m ms -> m_end m = (s0 + r * N)%Z /\ m_tpi m = IZR r.
Proof.
  intros s0 r N RP n t ms L T m I. destruct (C79_estimates _ _ N _ _ (steady_goes s0 r RP) (steady_speed s0 r) n t ms L T m I) as (j & J & _ & _ & TP & A & B).
  split; [|lra]. assert (X : IZR (s0 + r * Z.of_nat j) + IZR r * (IZR N - INR j) = IZR (s0 + r * N)) by (rewrite !plus_IZR, !mult_IZR, INR_IZR_INZ; ring).
  rewrite X in A, B. assert (A' : IZR (s0 + r * N - 1) < IZR (m_end m)) by (rewrite minus_IZR; lra). apply lt_IZR in A'. apply le_IZR in B. lia.
Qed.

Definition steady_inv (s0 r N : Z) (n : nat) (t : Timer) (ms : list Msg) : Prop := t_start t = s0 /\
  ((t_samples t = 0%Z /\ t_lastStep t = 0%Z /\ t_last t = s0 /\ t_lastEst t = s0 /\ ms = [] /\ (n <= 11)%nat) \/
   (1 <= t_samples t)%Z /\ t_tpi t = IZR r /\ t_lastTpi t = IZR r /\ (11 <= t_lastStep t < Z.of_nat n)%Z /\ t_last t = (s0 + r * t_lastStep t)%Z /\
   (t_samples t = 1%Z /\ t_lastStep t = 11%Z /\ t_lastEst t = s0 /\ ms = [] /\ (n <= 21)%nat \/ (2 <= t_samples t)%Z /\ t_lastEst t = (s0 + r * N)%Z /\ length ms = 1%nat)).
Lemma trunc_int z : (0 <= z)%Z -> truncate (IZR z) = z.
Proof.
  intros P. destruct (trunc_spec (IZR z)) as ((A & B) & _); [apply IZR_le; exact P|]. apply le_IZR in B.
  assert (IZR (z - 1) < IZR (truncate (IZR z))) as C by (rewrite minus_IZR; exact A). apply lt_IZR in C. lia.
Qed.
Lemma steady_step s0 r N n t ms : (1 <= r)%Z -> (Z.of_nat n < N < 2 ^ 64)%Z -> steady_inv s0 r N n t ms ->
  exists t' ms', updateTimer (s0 + r * Z.of_nat n) (Z.of_nat n) N t = Some (t', ms') /\ steady_inv s0 r N (S n) t' (ms ++ ms').
Proof.
  intros RP LN (TS & ST). unfold updateTimer. cbv zeta.
  destruct ((10 <=? s0 + r * Z.of_nat n - t_last t) && (10 <? Z.of_nat n))%Z eqn:W.
  - apply andb_true_iff in W. destruct W as (W1 & W2). apply Z.leb_le in W1. apply Z.ltb_lt in W2.
    assert (RATE : forall l, (0 <= l < Z.of_nat n)%Z -> t_lastStep t = l -> t_last t = (s0 + r * l)%Z ->
       fdiv (IZR (s0 + r * Z.of_nat n - t_last t)) (IZR ((Z.of_nat n - t_lastStep t) mod 2 ^ 64)) = Some (IZR r)).
    { intros l LL -> ->. rewrite Z.mod_small by lia. replace (s0 + r * Z.of_nat n - (s0 + r * l))%Z with (r * (Z.of_nat n - l))%Z by ring.
      assert (IZR (Z.of_nat n - l) <> 0) by (apply not_0_IZR; lia). rewrite fdiv_some by assumption. rewrite mult_IZR. f_equal. field. assumption. }
    destruct ST as [(S0 & LS & LT & LE & -> & LN')|(S1 & TP & LTP & LS & LT & ST)].
    + rewrite S0, Z.eqb_refl. rewrite (RATE 0%Z ltac:(lia) LS ltac:(lia)). cbn [obind]. do 2 eexists. split; [reflexivity|].
      split; [exact TS|]. right. cbn [t_samples t_tpi t_lastTpi t_lastStep t_last t_lastEst]. assert (n = 11)%nat as -> by lia.
      repeat (split; [first [reflexivity|lia]|]). left. repeat (split; [first [reflexivity|lia|exact LE]|]). lia.
    + destruct (Z.eqb_spec (t_samples t + 1) 1) as [Q|_]; [lia|]. unfold timeFilter. rewrite (RATE (t_lastStep t) ltac:(lia) eq_refl LT). cbn [obind].
      set (co := if (t_samples t + 1 <=? 10)%Z then 1 / 2 else 9 / 10). rewrite TP, LTP.
      replace (IZR r * co + (1 - co) * IZR r) with (IZR r) by ring. assert (RN : IZR r <> 0) by (apply not_0_IZR; lia).
      rewrite (fdiv_some _ (IZR r)) by exact RN. cbn [obind]. replace ((IZR r - IZR r) / IZR r) with 0 by (field; exact RN). rewrite Rabs_R0.
      destruct (Rlt_dec 0 (1 / 100)) as [_|Q]; [|lra]. rewrite (Z.mod_small (N - Z.of_nat n)) by lia. rewrite <- mult_IZR, trunc_int by nia.
      replace (s0 + r * Z.of_nat n + r * (N - Z.of_nat n))%Z with (s0 + r * N)%Z by ring. rewrite TS.
      replace (s0 + r * N - s0)%Z with (r * N)%Z by ring. assert (NZ : IZR (r * N) <> 0) by (apply not_0_IZR; nia). rewrite (fdiv_some _ (IZR (r * N))) by exact NZ. cbn [obind].
      destruct ST as [(S1' & L11 & LE & -> & LN')|(S2 & LE & LM)]; rewrite LE.
      * replace (s0 + r * N - s0)%Z with (r * N)%Z by ring. replace (IZR (r * N) / IZR (r * N)) with 1 by (field; exact NZ). rewrite Rabs_R1.
        destruct (Rlt_dec (1 / 100) 1) as [_|Q]; [|lra]. do 2 eexists. split; [reflexivity|]. split; [reflexivity|]. right.
        cbn [t_samples t_tpi t_lastTpi t_lastStep t_last t_lastEst]. repeat (split; [first [reflexivity|lia]|]). right. split; [lia|]. split; [reflexivity|reflexivity].
      * rewrite Z.sub_diag. replace (0 / IZR (r * N)) with 0 by (field; exact NZ). rewrite Rabs_R0. destruct (Rlt_dec (1 / 100) 0) as [Q|_]; [lra|].
        do 2 eexists. split; [reflexivity|]. split; [reflexivity|]. right. cbn [t_samples t_tpi t_lastTpi t_lastStep t_last t_lastEst]. repeat (split; [first [reflexivity|lia]|]).
        right. split; [lia|]. split; [first [exact LE|reflexivity]|]. rewrite app_nil_r. exact LM.
  - apply andb_false_iff in W. do 2 eexists. split; [reflexivity|]. rewrite app_nil_r. split; [exact TS|].
    destruct ST as [(S0 & LS & LT & LE & -> & LN')|(S1 & TP & LTP & LS & LT & ST)].
    + left. repeat (split; [assumption || reflexivity|]). rewrite LT in W. destruct W as [W|W]; [apply Z.leb_gt in W|apply Z.ltb_ge in W; lia]. nia.
    + right. do 3 (split; [assumption|]). split; [lia|]. split; [assumption|]. destruct ST as [(S1' & L11 & LE & -> & LN')|ST]; [|right; exact ST].
      left. repeat (split; [assumption || reflexivity|]). rewrite LT, L11 in W. destruct W as [W|W]; [apply Z.leb_gt in W|apply Z.ltb_ge in W; lia]. nia.
Qed.
(** ... once twenty-two steps have been started. *)
Theorem C79_steady_once : forall s0 r N, (1 <= r)%Z -> forall n, (22 <= n)%nat -> (Z.of_nat n <= N < 2 ^ 64)%Z ->
  exists t m, timed s0 (fun k => s0 + r * Z.of_nat k)%Z N n = Some (t, [m]) /\ m_end m = (s0 + r * N)%Z /\ m_tpi m = IZR r.
Proof.
  intros s0 r N RP n L22 L.
  assert (X : forall k, (Z.of_nat k <= N)%Z -> exists t ms, timed s0 (fun k => s0 + r * Z.of_nat k)%Z N k = Some (t, ms) /\ steady_inv s0 r N k t ms).
  { induction k as [|k IH]; intros LK.
    - do 2 eexists. split; [reflexivity|]. split; [reflexivity|]. left. cbn. repeat split. lia.
    - destruct IH as (t & ms & E & I); [lia|]. cbn [timed]. rewrite E. cbn [obind fst snd]. destruct (steady_step s0 r N k t ms RP ltac:(lia) I) as (t' & ms' & U & I').
      rewrite U. cbn [obind fst snd]. do 2 eexists. split; [reflexivity|exact I']. }
  destruct (X n ltac:(lia)) as (t & ms & E & _ & [(_ & _ & _ & _ & _ & Q)|(_ & _ & _ & _ & _ & [(_ & _ & _ & _ & Q)|(_ & _ & LM)])]); [lia|lia|].
  destruct ms as [|m [|]]; try discriminate LM. exists t, m. split; [exact E|]. apply (C79_steady s0 r N RP n t [m] L E). left. reflexivity.
Qed.
(** A machine that changes pace: steps of one second, then of two. *)
Example C79_nonvacuous : let clock k := (if (k <=? 50)%nat then Z.of_nat k else (2 * Z.of_nat k - 50)%Z) in
  goes_on 0 clock /\ speed 0 clock 1 2 /\ exists t m, timed 0 (fun k => 0 + 1 * Z.of_nat k)%Z 100 30 = Some (t, [m]) /\ m_end m = 100%Z.
Proof.
  cbv zeta. split; [|split].
  - split; [reflexivity|]. intros k. destruct (Nat.leb_spec k 50), (Nat.leb_spec (S k) 50); lia.
  - intros i j L. rewrite INR_IZR_INZ, <- !mult_IZR. split; apply IZR_le; destruct (Nat.eqb_spec i 0), (Nat.leb_spec i 50), (Nat.leb_spec j 50); lia.
  - destruct (C79_steady_once 0 1 100 ltac:(lia) 30 ltac:(lia) ltac:(lia)) as (t & m & E & M & _). exists t, m. split; [exact E|]. rewrite M. reflexivity.
Qed.
(** The number of cells in the final report is computed in int: on a mesh of 1300
    cells a side it overflows. *)
Theorem C79_cells_refuted : exists c, setupCfg 1300 1300 1300 initBoundaryReg = Some c /\ cellsReported c = None.
Proof. eexists. split; [reflexivity|]. vm_compute. reflexivity. Qed.
