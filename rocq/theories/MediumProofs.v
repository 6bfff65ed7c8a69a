From Coq Require Import ZArith List Bool String Reals Lra Lia Permutation.
From Verif Require Import Types Setup Media SetupProofs Medium SpecMedium.
Import ListNotations.
Open Scope R_scope.

Lemma ltb_false x y : ltb x y = false -> y <= x.
Proof. unfold ltb. destruct (Rlt_dec x y); [discriminate|lra]. Qed.
Lemma ltb_true x y : ltb x y = true -> x < y.
Proof. unfold ltb. destruct (Rlt_dec x y); [auto|discriminate]. Qed.

Definition paramOk (p : MParam) : Prop := 1 <= m_eps p /\ 0 <= m_sigma p /\ 1 <= m_mu p.
Lemma simpleOk_spec v : simpleOk v = true -> 1 <= nthR v 0 1 /\ 0 <= nthR v 1 0 /\ 1 <= nthR v 2 1.
Proof.
  unfold simpleOk, nthR. destruct v as [|a [|b [|d v]]]; cbn [List.length nth Nat.leb andb orb]; intros H;
  rewrite ?orb_false_r in H; apply negb_true_iff in H; rewrite ?orb_false_iff in H; cbn [andb] in H;
  repeat match goal with H : _ /\ _ |- _ => destruct H end;
  repeat match goal with H : ltb _ _ = false |- _ => apply ltb_false in H end; lra.
Qed.
Lemma read_ok d p : readDebyeParameters d = Some p -> paramOk p /\ m_type p = MT_DEBYE /\ Forall stable_pole (m_poles p).
Proof.
  unfold readDebyeParameters. destruct (ltb (df_eps d) 1) eqn:E1; [discriminate|].
  destruct (ltb (df_sigma d) 0) eqn:E2; [discriminate|]. destruct (ltb (df_mu d) 1) eqn:E3; [discriminate|].
  destruct (existsb _ _) eqn:E4; [discriminate|]. intros H; injection H as <-.
  apply ltb_false in E1, E2, E3. split; [repeat split; auto|]. split; [reflexivity|].
  apply Forall_forall. intros q Hq. cbn [m_poles] in Hq. apply in_map_iff in Hq. destruct Hq as [[[[a b] x] y] [<- Hq]].
  unfold stable_pole. cbn. destruct (Rle_dec x 0); [auto|]. exfalso.
  assert (X : existsb (fun q => let '(_, _, a0, _) := q in ltb 0 a0) (df_poles d) = true).
  { apply existsb_exists. exists (a, b, x, y). split; [exact Hq|]. unfold ltb. destruct (Rlt_dec 0 x); [auto|lra]. }
  congruence.
Qed.
(** One card: what is added to the registry. *)
Lemma parseMT_add reg n t v f reg' : parseMT reg n t v f = Some reg' ->
  exists p, declare reg n p = Some reg' /\ paramOk p /\
  (mtypeOf t = Some (m_type p)) /\
  (t = "SIMPLE"%string -> p = mkMP MT_SIMPLE (nthR v 0 1) (nthR v 1 0) (nthR v 2 1) []) /\
  (m_type p <> MT_DEBYE -> m_poles p = []).
Proof.
  unfold parseMT. destruct (mtypeOf t) as [[]|] eqn:T; [| | | |discriminate].
  - intros H. eexists. split; [exact H|]. repeat split; cbn; try lra; auto. intros ->; discriminate T.
  - intros H. eexists. split; [exact H|]. repeat split; cbn; try lra; auto. intros ->; discriminate T.
  - destruct (simpleOk v) eqn:S; [|discriminate]. intros H. apply simpleOk_spec in S. eexists. split; [exact H|].
    repeat split; cbn; try lra; auto.
  - destruct (simpleOk v) eqn:S; cbn [negb]; [|discriminate]. apply simpleOk_spec in S. destruct (_ || _)%bool.
    + intros H. eexists. split; [exact H|]. repeat split; cbn; try lra; auto; try (intros ->; discriminate T); congruence.
    + destruct f as [d|]; [|discriminate]. destruct (readDebyeParameters d) as [p|] eqn:RD; [|discriminate].
      intros H. exists p. split; [exact H|]. apply read_ok in RD. destruct RD as (P & TY & _). rewrite TY.
      repeat split; try apply P; auto; try (intros ->; discriminate T); congruence.
Qed.
Lemma parseMT_declare reg n t v f reg' : parseMT reg n t v f = Some reg' ->
  exists p, findName reg n = None /\ reg' = reg ++ [mkItem n p] /\ paramOk p /\ mtypeOf t = Some (m_type p) /\
  (t = "SIMPLE"%string -> p = mkMP MT_SIMPLE (nthR v 0 1) (nthR v 1 0) (nthR v 2 1) []) /\
  (m_type p <> MT_DEBYE -> m_poles p = []).
Proof.
  intros H. apply parseMT_add in H. destruct H as (p & D & P1 & P2 & P3 & P4). exists p.
  unfold declare in D. destruct (findName reg n); [discriminate|]. injection D as <-. auto 10.
Qed.
Lemma parseMTs_prefix cards : forall reg reg', parseMTs reg cards = Some reg' -> exists ext, reg' = reg ++ ext /\
  (forall it, In it ext -> paramOk (idata it) /\ (m_type (idata it) <> MT_DEBYE -> m_poles (idata it) = [])).
Proof.
  induction cards as [|k ks IH]; intros reg reg' H; cbn [parseMTs] in H.
  - injection H as <-. exists []. rewrite app_nil_r. split; auto. intros it [].
  - destruct (parseMT reg _ _ _ _) as [r1|] eqn:P; [|discriminate]. apply parseMT_declare in P.
    destruct P as (p & _ & -> & P1 & _ & _ & P4). apply IH in H. destruct H as (ext & -> & H).
    exists (mkItem (mt_name k) p :: ext). rewrite <- app_assoc. split; [reflexivity|].
    intros it [<- | I]; [auto|apply H; auto].
Qed.
Lemma parseMTs_nodup cards : forall reg reg', NoDup (map iname reg) -> parseMTs reg cards = Some reg' -> NoDup (map iname reg').
Proof.
  induction cards as [|k ks IH]; intros reg reg' N H; cbn [parseMTs] in H; [injection H as <-; auto|].
  destruct (parseMT reg _ _ _ _) as [r1|] eqn:P; [|discriminate]. apply parseMT_declare in P.
  destruct P as (p & F & -> & _). apply (IH _ _) in H; [exact H|].
  rewrite map_app. cbn [map iname]. apply findName_none in F.
  apply (Permutation_NoDup (Permutation_cons_append _ _)). constructor; auto.
Qed.
Lemma parseMTs_nth cards : forall reg reg' k card, parseMTs reg cards = Some reg' -> nth_error cards k = Some card ->
  exists p, nth_error reg' (List.length reg + k) = Some (mkItem (mt_name card) p) /\ mtypeOf (mt_type card) = Some (m_type p) /\
  (mt_type card = "SIMPLE"%string -> p = mkMP MT_SIMPLE (nthR (mt_vals card) 0 1) (nthR (mt_vals card) 1 0) (nthR (mt_vals card) 2 1) []).
Proof.
  induction cards as [|c cs IH]; intros reg reg' k card H N; [destruct k; discriminate N|]. cbn [parseMTs] in H.
  destruct (parseMT reg _ _ _ _) as [r1|] eqn:P; [|discriminate]. apply parseMT_declare in P.
  destruct P as (p & _ & -> & _ & P2 & P3 & _). destruct k as [|k].
  - cbn in N. injection N as ->. exists p. split; [|auto]. apply parseMTs_prefix in H. destruct H as (ext & -> & _).
    rewrite <- app_assoc. rewrite nth_error_app2 by lia. replace (_ - _)%nat with 0%nat by lia. reflexivity.
  - cbn in N. destruct (IH _ _ _ _ H N) as (q & Q & Q'). exists q. split; [|exact Q'].
    rewrite <- Q. f_equal. rewrite app_length. cbn. lia.
Qed.

Section Coef.
Variables eps0 mu0 dt : R.
Hypothesis (E0 : 0 < eps0) (M0 : 0 < mu0) (DT : 0 < dt).
Notation calc := (calcCoeffFromParam eps0 mu0 dt).

Lemma simple_coef p : m_poles p = [] -> paramOk p ->
  let co := calc p in
  -1 < calpha co <= 1 /\ 0 < cbeta co /\ 0 < cgamma co /\ (calpha co = 1 <-> m_sigma p = 0) /\
  (forall E curl, ampere (m_eps p * eps0) (m_sigma p) dt E (calpha co * E + cbeta co * curl) curl) /\
  (forall H curl, faraday (m_mu p * mu0) dt H (H + cgamma co * curl) curl).
Proof.
  intros NP (P1 & P2 & P3). unfold calcCoeffFromParam. rewrite NP. cbn [dsum fold_left calpha cbeta cgamma].
  set (e := m_eps p) in *. set (s := m_sigma p) in *. set (u := m_mu p) in *.
  assert (EE : 0 < e * eps0) by (apply Rmult_lt_0_compat; lra).
  assert (SS : 0 <= dt * s) by (apply Rmult_le_pos; lra).
  assert (MU : 0 < u * mu0) by (apply Rmult_lt_0_compat; lra).
  set (D := 2.0 * e * eps0 + 2.0 * 0 * dt + dt * s).
  assert (DP : 0 < D) by (unfold D; lra).
  assert (AL : (2.0 * e * eps0 + 2.0 * 0 * dt - dt * s) / D = 1 - 2 * (dt * s) / D) by (unfold D in *; field; lra).
  rewrite AL. assert (Q : 0 <= 2 * (dt * s) / D) by (apply Rmult_le_pos; [lra|left; apply Rinv_0_lt_compat; auto]).
  assert (Q2 : 2 * (dt * s) / D < 2).
  { apply (Rmult_lt_reg_r D); auto. unfold Rdiv. rewrite Rmult_assoc, Rinv_l by lra. unfold D. lra. }
  split; [lra|]. split; [apply Rdiv_lt_0_compat; lra|]. split; [apply Rdiv_lt_0_compat; lra|].
  split.
  { split.
    - intros H. assert (Z : 2 * (dt * s) / D = 0) by lra.
      assert (Z2 : 2 * (dt * s) = 0). { replace (2 * (dt * s)) with (2 * (dt * s) / D * D) by (field; lra). rewrite Z. ring. }
      assert (Z3 : dt * s = 0) by lra. apply Rmult_integral in Z3. lra.
    - intros ->. unfold Rdiv. ring. }
  split.
  - intros E curl. unfold ampere. assert (DD : D = 2 * (e * eps0) + dt * s) by (unfold D; lra). fold D. replace (2.0 * dt) with (2 * dt) by lra. rewrite DD in *. clear AL Q Q2 DD. clearbody D e s u. field. split; lra.
  - intros H curl. unfold faraday. field. split; lra.
Qed.

Definition pden (p : Pole) : R := cnorm2 (csub (cxR 1) (cmul (cxR (0.5 * dt)) (p_pole p))).
Lemma pden_pos p : stable_pole p -> 1 <= pden p.
Proof.
  unfold stable_pole, pden, cnorm2. destruct (p_pole p) as [a b]. cbn. intros H.
  assert (X : 0 <= - (dt * a)) by (replace (- (dt * a)) with (dt * (- a)) by ring; apply Rmult_le_pos; lra).
  set (x := 0.5 * dt * a - 0 * b). set (y := 0.5 * dt * b + 0 * a).
  assert (HX : x <= 0) by (unfold x; lra).
  replace ((1 - x) * (1 - x) + (0 - y) * (0 - y)) with (1 + (- x) * 2 + x * x + y * y) by ring.
  assert (0 <= x * x) by nra. assert (0 <= y * y) by nra. lra.
Qed.
Lemma dalpha_contract p : stable_pole p -> cnorm2 (dalpha dt p) <= 1.
Proof.
  intros H. pose proof (pden_pos p H) as P. unfold dalpha, cdiv, cnorm2 at 1. cbn [re im]. fold (pden p).
  unfold pden, cnorm2, csub, cadd, cmul, cxR in *. unfold stable_pole in H. destruct (p_pole p) as [a b]. cbn [re im] in *.
  assert (X : dt * a <= 0) by (replace (dt * a) with (- (dt * (- a))) by ring; assert (0 <= dt * - a) by (apply Rmult_le_pos; lra); lra).
  set (x := 0.5 * dt * a - 0 * b) in *. set (y := 0.5 * dt * b + 0 * a) in *.
  assert (HX : x <= 0) by (unfold x; lra).
  set (D := (1 - x) * (1 - x) + (0 - y) * (0 - y)) in *.
  replace (_ / D * (_ / D) + _ / D * (_ / D)) with (((1 + x) * (1 + x) + (0 + y) * (0 + y)) / D).
  - apply (Rmult_le_reg_r D); [lra|]. unfold Rdiv. rewrite Rmult_assoc, Rinv_l by lra. unfold D. nra.
  - assert (G : forall P Q K T, T <> 0 -> P * P + Q * Q = K * T -> K / T = P / T * (P / T) + Q / T * (Q / T)).
    { intros P0 Q0 K T N EQ. replace (P0 / T * (P0 / T) + Q0 / T * (Q0 / T)) with ((P0 * P0 + Q0 * Q0) / (T * T)) by (field; auto).
      rewrite EQ. field. auto. }
    apply G; [lra|]. unfold D. ring.
Qed.
End Coef.
