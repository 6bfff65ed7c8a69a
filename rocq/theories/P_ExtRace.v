(** Several threads evaluating one EXTERNAL waveform (C25, C66). *)
From Coq Require Import ZArith List Bool Lia Reals Lra.
From Verif Require Import Types Lang CArr Waveform SpecWave SplineProofs P_Waveform ExtRace.
Import ListNotations.
Local Notation length := List.length.
Open Scope R_scope.

(** what an evaluation at [q] = (time, delay) should return *)
Definition right_value (w : WfItem) (l : list (R * R)) (S : R -> R) (q : R * R) (v : R) : Prop :=
  let tau := fst q - snd q - wDelay w in let n := Z.of_nat (length l) in
  (sampleT l 0 <= tau <= sampleT l (n - 1) -> v = wSize w * S tau) /\
  (tau < sampleT l 0 \/ sampleT l (n - 1) < tau -> v = 0).

Lemma one_query l g : good_samples l -> let n := Z.of_nat (length l) in
  exists tbl S, initExternal l g = Some (Done tbl) /\ clamped_spline n (sampleT l) (sampleY l) S /\
  forall w t d last, (0 <= last <= n - 2)%Z -> exists v k, externalValue w tbl n t d last = Some (Done (v, k)) /\
    (0 <= k <= n - 2)%Z /\ right_value w l S (t, d) v.
Proof.
  intros G n. pose proof (good_inc l G) as INC. destruct G as (N2 & _).
  assert (N2' : (2 <= n)%Z) by (unfold n; lia).
  destruct (createSplines_ok n (sampleT l) (sampleY l) N2' INC (loadTable l) g) as (D & E & LD & SYS); try reflexivity.
  exists (mkTable (tT (loadTable l)) (tY (loadTable l)) D), (spline n (sampleT l) (sampleY l) (adat D)).
  split; [exact E|]. split; [apply spline_clamped; auto|].
  intros w t d last HL. unfold externalValue, externalWaveform. cbn [tT loadTable].
  rewrite !rd_ok by (cbn [alen]; fold n; lia). cbn [obind adat].
  change (fst (nth (Z.to_nat 0) l (0, 0))) with (sampleT l 0).
  change (fst (nth (Z.to_nat (n - 1)) l (0, 0))) with (sampleT l (n - 1)).
  unfold right_value. cbv zeta. cbn [fst snd]. fold n. set (tau := t - d - wDelay w).
  destruct (Rlt_dec tau (sampleT l 0)) as [A|A]; [|destruct (Rlt_dec (sampleT l (n - 1)) tau) as [B|B]].
  - cbn [obind]. eexists _, _. split; [reflexivity|]. split; [exact HL|]. split; [lra|intros; ring].
  - cbn [obind]. eexists _, _. split; [reflexivity|]. split; [exact HL|]. split; [lra|intros; ring].
  - destruct (evalSpline_ok n (sampleT l) (sampleY l) N2' INC (adat D) (mkTable (tT (loadTable l)) (tY (loadTable l)) D) tau last)
      as (k & EV & HK); try reflexivity; auto; [lra|].
    match goal with |- context [evalSpline ?a ?b ?c ?d] => replace (evalSpline a b c d) with (evalSpline (mkTable (tT (loadTable l)) (tY (loadTable l)) D) n tau last) by reflexivity end.
    rewrite EV. cbn [obind]. eexists _, _. split; [reflexivity|]. split; [exact HK|]. split; [reflexivity|lra].
Qed.

(** In every interleaving of any number of threads, each with any list of
    evaluations: nobody leaves the table or fails, and the values a thread has
    obtained are the right ones for the evaluations it has done, in order. *)
Theorem C25_concurrent : forall l garbage, good_samples l ->
  let n := Z.of_nat (length l) in
  exists tbl S, initExternal l garbage = Some (Done tbl) /\ clamped_spline n (sampleT l) (sampleY l) S /\
  forall w qss last ths, rsteps w tbl n (start qss) (last, ths) ->
    Forall2 (fun qs th => crashed th = false /\ exists done, qs = done ++ todo th /\ Forall2 (right_value w l S) done (got th)) qss ths.
Proof.
  intros l g G n. destruct (one_query l g G) as (tbl & S & E & CS & Q). fold n in Q. exists tbl, S. split; [exact E|]. split; [exact CS|].
  intros w qss last ths ST.
  pose (ok := fun (qs : list (R * R)) th => (crashed th = false /\ exists done, qs = done ++ todo th /\ Forall2 (right_value w l S) done (got th)) /\
                      match pending th with Some i => (0 <= i <= n - 2)%Z | None => True end).
  assert (INV : forall s, rsteps w tbl n (start qss) s -> (0 <= fst s <= n - 2)%Z /\ Forall2 ok qss (snd s)).
  { induction 1 as [|s1 s2 R1 IH R2].
    - cbn [start fst snd]. split; [destruct G as (N2 & _); unfold n; lia|]. clear. induction qss as [|qs qss IH]; [constructor|]. constructor; [|exact IH].
      split; [|exact I]. split; [reflexivity|]. exists []. split; [reflexivity|constructor].
    - destruct IH as (L & F). destruct R2 as [la la' a th th' b TS]. cbn [fst snd] in *.
      apply Forall2_app_inv_r in F. destruct F as (qa & qb & F1 & F2 & EQ). inversion F2 as [|q0 ? qb' ? O1 O2]; subst.
      assert (K : (0 <= la' <= n - 2)%Z /\ ok q0 th').
      { destruct O1 as ((C & done & ED & FD) & P). inversion TS; subst; cbn [todo pending got crashed] in *.
        - destruct (Q w time delay la' L) as (v' & k & EV & KK & RV). rewrite EV in H. injection H as <- <-. split; [exact L|]. split; [|exact KK].
          split; [reflexivity|]. cbn [todo got]. exists (done ++ [(time, delay)]). split; [rewrite <- app_assoc; exact eq_refl|]. apply Forall2_app; [exact FD|]. constructor; [exact RV|constructor].
        - exfalso. destruct (Q w time delay la' L) as (v' & k & EV & _). rewrite EV in H. destruct H; discriminate.
        - split; [exact P|]. split; [|exact I]. split; [reflexivity|]. exists done. split; [reflexivity|exact FD]. }
      destruct K as (K1 & K2). split; [exact K1|]. apply Forall2_app; [exact F1|]. constructor; assumption. }
  destruct (INV _ ST) as (_ & F). cbn [snd] in F. clear - F. induction F as [|x y xs ys H F IH]; constructor; [exact (proj1 H)|exact IH].
Qed.

(** *** Non-vacuity: two threads, both read the cache before either writes it *)
Example C25_concurrent_nonvacuous : good_samples [(0, 1); (1, 2); (3, 0)] /\
  forall w tbl n v1 i1 v2 i2, externalValue w tbl n 0 0 0 = Some (Done (v1, i1)) -> externalValue w tbl n 2 0 0 = Some (Done (v2, i2)) ->
  rsteps w tbl n (start [[(0, 0)]; [(2, 0)]]) (i1, [mkThread [] None [v1] false; mkThread [] None [v2] false]).
Proof.
  split. { split; [cbn; lia|]. intros i H. cbn in H. destruct i as [|[|i]]; cbn; [lra|lra|lia]. }
  intros w tbl n v1 i1 v2 i2 E1 E2. unfold start. cbn [map].
  eapply rs_next; [eapply rs_next; [eapply rs_next; [eapply rs_next; [apply rs_refl|]|]|]|].
  - eapply (r_step _ _ _ _ _ [] _ _ [_]). eapply t_eval. exact E1.
  - eapply (r_step _ _ _ _ _ [_] _ _ []). eapply t_eval. exact E2.
  - eapply (r_step _ _ _ _ _ [_] _ _ []). eapply t_write.
  - eapply (r_step _ _ _ _ _ [] _ _ [_]). eapply t_write.
Qed.
