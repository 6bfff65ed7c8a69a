(** Meta-theory of [Lang]: framing, out-of-bounds freedom, pointwise results of
    independent loops, and determinism of race-free parallel loops. *)
From Coq Require Import ZArith List Bool Lia Permutation.
From Verif Require Import Types Lang.
Import ListNotations.
Open Scope Z_scope.

(** ** Ranges *)
Lemma in_zrange lo hi x : In x (zrange lo hi) <-> lo <= x <= hi.
Proof.
  unfold zrange. rewrite in_map_iff. split.
  - intros [n [<- Hn]]. apply in_seq in Hn. lia.
  - intros H. exists (Z.to_nat (x - lo)). split; [lia|]. apply in_seq. lia.
Qed.

Lemma NoDup_zrange lo hi : NoDup (zrange lo hi).
Proof.
  unfold zrange. apply FinFun.Injective_map_NoDup; [|apply seq_NoDup].
  intros a b H. lia.
Qed.

Lemma zrange_empty lo hi : hi < lo -> zrange lo hi = [].
Proof. intros. unfold zrange. replace (Z.to_nat (hi - lo + 1)) with O by lia. reflexivity. Qed.

Lemma zrange_cons lo hi : lo <= hi -> zrange lo hi = lo :: zrange (lo + 1) hi.
Proof.
  intros. unfold zrange.
  replace (Z.to_nat (hi - lo + 1)) with (S (Z.to_nat (hi - (lo + 1) + 1))) by lia.
  cbn [seq map]. f_equal; [lia|]. rewrite <- seq_shift, map_map.
  apply map_ext. intros; lia.
Qed.

Lemma zrange_snoc lo hi : lo <= hi -> zrange lo hi = zrange lo (hi - 1) ++ [hi].
Proof.
  intros. unfold zrange.
  replace (Z.to_nat (hi - lo + 1)) with (S (Z.to_nat (hi - 1 - lo + 1))) by lia.
  rewrite seq_S, map_app. cbn [map]. f_equal. f_equal. lia.
Qed.

Lemma length_zrange lo hi : length (zrange lo hi) = Z.to_nat (hi - lo + 1).
Proof. unfold zrange. rewrite map_length, seq_length. reflexivity. Qed.

Lemma in_for {S} lo hi (f : Z -> list S) s :
  In s (for_ lo hi f) <-> exists x, lo <= x <= hi /\ In s (f x).
Proof.
  unfold for_. rewrite in_flat_map. split; intros [x [H1 H2]]; exists x;
    rewrite ?in_zrange in *; auto.
Qed.

(** ** Memory *)
Lemma upd_same {V} (m : mem V) l v : upd m l v l = v.
Proof. unfold upd. destruct (loc_dec l l); congruence. Qed.
Lemma upd_other {V} (m : mem V) l v l' : l' <> l -> upd m l v l' = m l'.
Proof. unfold upd. destruct (loc_dec l' l); congruence. Qed.

Lemma meq_refl {V} (m : mem V) : meq m m. Proof. intro; reflexivity. Qed.
Lemma meq_sym {V} (m m' : mem V) : meq m m' -> meq m' m. Proof. intros H l; auto. Qed.
Lemma meq_trans {V} (m m' m'' : mem V) : meq m m' -> meq m' m'' -> meq m m''.
Proof. intros H H' l. rewrite H. auto. Qed.

#[local] Hint Constructors red psteps : core.

Section WithArith.
Context {V : Type} (A : Arith V).

Lemma eval_ext (m m' : mem V) e :
  (forall l, In l (reads e) -> m l = m' l) -> eval A m e = eval A m' e.
Proof.
  induction e; cbn [reads eval]; intros H; auto.
  - apply H. simpl; auto.
  - rewrite IHe1, IHe2; auto; intros; apply H; apply in_or_app; auto.
  - rewrite IHe1, IHe2; auto; intros; apply H; apply in_or_app; auto.
  - rewrite IHe1, IHe2; auto; intros; apply H; apply in_or_app; auto.
  - rewrite IHe; auto.
Qed.

Lemma run_nil (m : mem V) : run A [] m = m. Proof. reflexivity. Qed.
Lemma run_cons (m : mem V) s ss : run A (s :: ss) m = run A ss (run1 A m s).
Proof. reflexivity. Qed.
Lemma run_app (m : mem V) ss ss' : run A (ss ++ ss') m = run A ss' (run A ss m).
Proof. unfold run. apply fold_left_app. Qed.

Lemma run_frame ss (m : mem V) l : ~ In l (twrites ss) -> run A ss m l = m l.
Proof.
  revert m. induction ss as [|s ss IH]; intros m H; [reflexivity|].
  rewrite run_cons, IH.
  - unfold run1. apply upd_other. intros ->. apply H. simpl; auto.
  - intro Hin. apply H. simpl; auto.
Qed.

(** The result on any set containing the written and read cells depends only
    on that set. *)
Lemma run_ext ss (P : Loc -> Prop) (m m' : mem V) :
  (forall l, In l (treads ss) -> P l) ->
  (forall l, P l -> m l = m' l) ->
  forall l, P l -> run A ss m l = run A ss m' l.
Proof.
  revert m m'. induction ss as [|s ss IH]; intros m m' HR Hm l Hl.
  - simpl. auto.
  - rewrite !run_cons. apply IH; auto.
    + intros l' Hl'. apply HR. simpl. apply in_or_app; auto.
    + intros l' Hl'. unfold run1.
      assert (E : eval A m (rhs s) = eval A m' (rhs s)).
      { apply eval_ext. intros l2 H2. apply Hm, HR. simpl. apply in_or_app; auto. }
      unfold upd. destruct (loc_dec l' (dst s)); auto.
Qed.

Lemma run_meq ss (m m' : mem V) : meq m m' -> meq (run A ss m) (run A ss m').
Proof. intros H l. apply (run_ext ss (fun _ => True)); auto. Qed.

(** Written cells depend only on the cells read. *)
Lemma run_ext_w ss (P : Loc -> Prop) (m m' : mem V) :
  (forall l, In l (treads ss) -> P l) ->
  (forall l, P l -> m l = m' l) ->
  forall l, In l (twrites ss) -> run A ss m l = run A ss m' l.
Proof.
  revert P m m'. induction ss as [|s ss IH]; intros P m m' HR Hm l Hl.
  - simpl in Hl. tauto.
  - rewrite !run_cons.
    assert (E : eval A m (rhs s) = eval A m' (rhs s)).
    { apply eval_ext. intros l2 H2. apply Hm, HR. simpl. apply in_or_app; auto. }
    assert (Hm' : forall l', P l' \/ l' = dst s -> run1 A m s l' = run1 A m' s l').
    { intros l' [Hl'| ->]; unfold run1.
      - unfold upd. destruct (loc_dec l' (dst s)); auto.
      - rewrite !upd_same. auto. }
    destruct (in_dec loc_dec l (twrites ss)) as [Hi|Hi].
    + apply (IH (fun l' => P l' \/ l' = dst s)); auto.
      intros l' Hl'. left. apply HR. simpl. apply in_or_app; auto.
    + rewrite !run_frame by auto.
      simpl in Hl. destruct Hl as [<-|Hl]; [|tauto].
      apply Hm'. auto.
Qed.

(** ** Undefined behaviour *)
Lemma runO_some d ss (m : mem V) :
  (forall s, In s ss -> sinb d s = true) -> runO A d ss m = Some (run A ss m).
Proof.
  revert m. induction ss as [|s ss IH]; intros m H; [reflexivity|].
  cbn [runO]. rewrite H by (simpl; auto). rewrite IH; [reflexivity|].
  intros; apply H; simpl; auto.
Qed.

Lemma runO_none d ss (m : mem V) s :
  In s ss -> sinb d s = false -> runO A d ss m = None.
Proof.
  revert m. induction ss as [|s' ss IH]; intros m Hin Hs; [destruct Hin|].
  cbn [runO]. destruct (sinb d s') eqn:E; [|reflexivity].
  destruct Hin as [->|Hin]; [congruence|]. apply IH; auto.
Qed.

(** ** Independent statement lists: each cell written at most once, and no
    statement reads a cell another statement of the list writes. *)
Definition independent (ss : list (stmt V)) : Prop :=
  NoDup (twrites ss) /\
  forall s s', In s ss -> In s' ss -> In (dst s') (sreads s) -> dst s' = dst s.

Lemma independent_cons s ss : independent (s :: ss) ->
  independent ss /\ ~ In (dst s) (twrites ss) /\
  (forall s', In s' ss -> ~ In (dst s) (sreads s')) /\
  (forall s', In s' ss -> ~ In (dst s') (sreads s)).
Proof.
  intros [HN HR]. simpl in HN. inversion HN as [|x xs Hn Hnd]; subst.
  split; [split; auto|]. { intros; apply HR; simpl; auto. }
  split; [auto|]. split.
  - intros s' Hs' Hin. assert (dst s = dst s') by (apply HR; simpl; auto).
    apply Hn. rewrite H. apply in_map. auto.
  - intros s' Hs' Hin. assert (dst s' = dst s) by (apply HR; simpl; auto).
    apply Hn. rewrite <- H. apply in_map. auto.
Qed.

Lemma run_independent ss (m : mem V) s :
  independent ss -> In s ss -> run A ss m (dst s) = eval A m (rhs s).
Proof.
  revert m. induction ss as [|s0 ss IH]; intros m HI Hin; [destruct Hin|].
  apply independent_cons in HI. destruct HI as (HI & Hn & Hr & Hr2).
  rewrite run_cons. destruct Hin as [->|Hin].
  - rewrite run_frame by auto. unfold run1. apply upd_same.
  - rewrite IH by auto. apply eval_ext. intros l Hl. unfold run1.
    apply upd_other. intros ->. apply (Hr s); auto.
Qed.

(** ** Parallel loops *)
Lemma red_eval (m : mem V) e e' : red m e e' -> eval A m e' = eval A m e.
Proof. induction 1; cbn [eval]; congruence. Qed.
Lemma red_reads (m : mem V) e e' : red m e e' -> forall l, In l (reads e') -> In l (reads e).
Proof.
  induction 1; cbn [reads]; intros l0 Hl; rewrite ?in_app_iff in *; intuition eauto.
  simpl in Hl; tauto.
Qed.

Lemma tstep_writes (m : mem V) t m' t' : tstep A m t m' t' ->
  forall l, ~ In l (twrites t) -> m' l = m l.
Proof.
  intros H l Hl. inversion H; subst; auto. apply upd_other. intros ->. apply Hl. simpl; auto.
Qed.
Lemma tstep_footprint (m : mem V) t m' t' : tstep A m t m' t' ->
  (forall l, In l (twrites t') -> In l (twrites t)) /\
  (forall l, In l (treads t') -> In l (treads t)).
Proof.
  intros H. inversion H; subst; split; intros l Hl; simpl in *; auto.
  - rewrite in_app_iff in *. unfold sreads in *; simpl in *.
    destruct Hl; eauto using red_reads.
  - rewrite in_app_iff; auto.
Qed.
Lemma tstep_run (m : mem V) t m' t' : tstep A m t m' t' ->
  meq (run A t' m') (run A t m).
Proof.
  intros H. inversion H; subst.
  - rewrite !run_cons. apply run_meq. intros l. unfold run1; simpl.
    erewrite red_eval by eauto. reflexivity.
  - rewrite run_cons. apply meq_refl.
Qed.

(** Invariant of an interleaved execution: each thread, run to completion on
    its own from the current memory, would leave in its written cells what it
    leaves when run alone from the initial memory. *)
Definition pinv1 (m0 m : mem V) (t0 t : list (stmt V)) : Prop :=
    (forall l, In l (twrites t) -> In l (twrites t0)) /\
    (forall l, In l (treads t) -> In l (treads t0)) /\
    (forall l, In l (twrites t0) -> run A t m l = run A t0 m0 l).
Definition pinv (m0 : mem V) (ts0 : list (list (stmt V))) (m : mem V) (ts : list (list (stmt V))) : Prop :=
  Forall2 (pinv1 m0 m) ts0 ts
  /\ (forall l, (forall t0, In t0 ts0 -> ~ In l (twrites t0)) -> m l = m0 l).

Definition races_absent (ts : list (list (stmt V))) : Prop :=
  forall pre t mid u post, ts = pre ++ t :: mid ++ u :: post ->
    no_conflict t u /\ no_conflict u t.

Lemma races_absent_at pre (t : list (stmt V)) post u :
  races_absent (pre ++ t :: post) -> In u (pre ++ post) -> no_conflict t u /\ no_conflict u t.
Proof.
  intros HR Hin. apply in_app_or in Hin. destruct Hin as [Hin|Hin];
    apply in_split in Hin; destruct Hin as [a [b ->]].
  - destruct (HR a u b t post) as [H1 H2]; auto. rewrite <- app_assoc. reflexivity.
  - apply (HR pre t a u b). reflexivity.
Qed.

Lemma Forall2_impl_in {X Y} (R R' : X -> Y -> Prop) l l' :
  (forall x y, In x l -> R x y -> R' x y) -> Forall2 R l l' -> Forall2 R' l l'.
Proof.
  intros H HF. induction HF; constructor; [apply H; simpl; auto|].
  apply IHHF. intros; apply H; simpl; auto.
Qed.

Lemma pstep_pinv m0 ts0 (m : mem V) ts m' ts' :
  races_absent ts0 -> pinv m0 ts0 m ts -> pstep A m ts m' ts' -> pinv m0 ts0 m' ts'.
Proof.
  intros HR [HF HM] Hs. inversion Hs as [m1 pre t post m1' t' Ht]; subst.
  apply Forall2_app_inv_r in HF. destruct HF as (pre0 & rest0 & Hpre & Hrest & ->).
  inversion Hrest as [|t0 t1 post0 post1 Ht0 Hpost]; subst.
  destruct Ht0 as (Hw & Hrd & Hval).
  pose proof (tstep_footprint _ _ _ _ Ht) as [Fw Fr].
  pose proof (tstep_run _ _ _ _ Ht) as Hrun.
  assert (Hother : forall u0 u, In u0 (pre0 ++ post0) -> pinv1 m0 m u0 u -> pinv1 m0 m' u0 u).
  { intros u0 u Hin (Hw' & Hr' & Hv'). split; [auto|split; [auto|]].
    intros l Hl. rewrite <- Hv' by auto.
    destruct (races_absent_at pre0 t0 post0 u0 HR Hin) as [NC NC'].
    apply (run_ext u (fun l => In l (twrites u0) \/ In l (treads u0))); auto.
    intros l' Hl'. apply (tstep_writes _ _ _ _ Ht).
    intros Hc. apply Hw in Hc. destruct (NC l' Hc). tauto. }
  split.
  - apply Forall2_app.
    + eapply Forall2_impl_in; [|exact Hpre]. intros; apply Hother; auto. apply in_or_app; auto.
    + constructor.
      * split; [auto|split;[auto|]]. intros l Hl. rewrite Hrun. auto.
      * eapply Forall2_impl_in; [|exact Hpost]. intros; apply Hother; auto. apply in_or_app; auto.
  - intros l Hl. rewrite (tstep_writes _ _ _ _ Ht).
    + apply HM. auto.
    + intros Hc. apply Hw in Hc. apply (Hl t0); auto. apply in_or_app; simpl; auto.
Qed.

Lemma psteps_pinv m0 ts0 (m : mem V) ts m' ts' :
  races_absent ts0 -> psteps A m ts m' ts' -> pinv m0 ts0 m ts -> pinv m0 ts0 m' ts'.
Proof. intros HR H. induction H; auto. intros. apply IHpsteps. eapply pstep_pinv; eauto. Qed.

Lemma races_absent_tail t ts : races_absent (t :: ts) -> races_absent ts.
Proof.
  intros H pre a mid b post E. subst. apply (H (t :: pre) a mid b post). reflexivity.
Qed.

Lemma in_twrites_concat ts l :
  In l (twrites (V:=V) (concat ts)) <-> exists t, In t ts /\ In l (twrites t).
Proof.
  unfold twrites. rewrite concat_map, in_concat. split.
  - intros [w [Hw Hl]]. apply in_map_iff in Hw. destruct Hw as [t [<- Ht]]. eauto.
  - intros [t [Ht Hl]]. exists (map dst t). split; auto. apply in_map_iff. eauto.
Qed.

(** Sequential execution of race-free tasks, per task. *)
Lemma run_concat_task ts (m : mem V) t l :
  races_absent ts -> In t ts -> In l (twrites t) -> run A (concat ts) m l = run A t m l.
Proof.
  revert m. induction ts as [|t1 ts IH]; intros m HR Hin Hl; [destruct Hin|].
  cbn [concat]. rewrite run_app. destruct Hin as [->|Hin].
  - apply run_frame. intros Hc. apply in_twrites_concat in Hc. destruct Hc as (u & Hu & Hlu).
    destruct (races_absent_at [] t ts u HR Hu) as [NC _]. destruct (NC l Hl). tauto.
  - rewrite IH; eauto using races_absent_tail.
    destruct (races_absent_at [] t1 ts t HR) as [NC _]; [simpl; auto|].
    apply (run_ext t (fun l' => In l' (treads t) \/ In l' (twrites t))); auto.
    intros l' Hl'. apply run_frame. intros Hc. destruct (NC l' Hc). tauto.
Qed.

Lemma par_exec_seq it (m m' : mem V) :
  race_free it -> par_exec A it m m' -> meq m' (run A (flat_item it) m).
Proof.
  destruct it as [ss|ts]; cbn [race_free par_exec flat_item].
  - intros _ ->. apply meq_refl.
  - intros HR (ts' & Hs & Hnil).
    assert (HI : pinv m ts m' ts').
    { eapply psteps_pinv; eauto. split; auto.
      clear. induction ts; constructor; auto. split; auto. }
    destruct HI as [HF HM]. intros l.
    destruct (in_dec loc_dec l (twrites (concat ts))) as [Hi|Hi].
    + apply in_twrites_concat in Hi. destruct Hi as [t [Ht Hl]].
      rewrite (run_concat_task ts m t l HR Ht Hl).
      clear HM HR Hs. induction HF as [|t0 t1 l0 l1 (_ & _ & Hv) HF IH]; [destruct Ht|].
      inversion Hnil; subst. destruct Ht as [->|Ht]; [|auto].
      rewrite <- Hv by auto. reflexivity.
    + rewrite run_frame by auto. apply HM. intros t0 Ht Hl. apply Hi.
      apply in_twrites_concat. eauto.
Qed.

Lemma prog_exec_seq p (m m' : mem V) :
  Forall race_free p -> prog_exec A p m m' -> meq m' (run A (flat p) m).
Proof.
  intros HF H. induction H as [m|it p m m1 m2 Hit Hp IH]; [apply meq_refl|].
  inversion HF; subst. unfold flat in *. cbn [flat_map]. rewrite run_app.
  eapply meq_trans; [apply IH; auto|]. apply run_meq. apply par_exec_seq; auto.
Qed.

(** A parallel execution always exists (the sequential one is one of them). *)
Lemma red_progress (m : mem V) e : reads e <> [] -> exists e', red m e e'.
Proof.
  induction e; cbn [reads]; intros H; try congruence.
  - eexists; constructor.
  - destruct (reads e1) eqn:E1.
    + destruct IHe2; eauto. 
    + destruct IHe1; eauto; congruence.
  - destruct (reads e1) eqn:E1.
    + destruct IHe2; eauto.
    + destruct IHe1; eauto; congruence.
  - destruct (reads e1) eqn:E1.
    + destruct IHe2; eauto.
    + destruct IHe1; eauto; congruence.
  - destruct IHe; eauto.
Qed.
Lemma red_count (m : mem V) e e' : red m e e' -> length (reads e) = S (length (reads e')).
Proof. induction 1; cbn [reads length]; rewrite ?app_length; lia. Qed.

Lemma psteps_trans (m m1 m2 : mem V) ts ts1 ts2 :
  psteps A m ts m1 ts1 -> psteps A m1 ts1 m2 ts2 -> psteps A m ts m2 ts2.
Proof. induction 1; eauto. Qed.

Lemma stmt_steps n pre post (m : mem V) d e ss :
  length (reads e) = n ->
  psteps A m (pre ++ (Asg d e :: ss) :: post) (upd m d (eval A m e)) (pre ++ ss :: post).
Proof.
  revert e. induction n; intros e Hn.
  - econstructor; [|constructor]. constructor. constructor.
    destruct (reads e); [auto|discriminate].
  - destruct (red_progress m e) as [e' He']; [destruct (reads e); discriminate|].
    econstructor.
    + constructor. apply tstep_read. eauto.
    + rewrite <- (red_eval m e e' He'). apply IHn.
      pose proof (red_count _ _ _ He'). lia.
Qed.

Lemma task_steps t : forall pre post (m : mem V),
  psteps A m (pre ++ t :: post) (run A t m) (pre ++ [] :: post).
Proof.
  induction t as [|[d e] t IH]; intros; [constructor|].
  eapply psteps_trans; [eapply stmt_steps; reflexivity|]. apply IH.
Qed.

Lemma par_exec_flat it (m : mem V) : par_exec A it m (run A (flat_item it) m).
Proof.
  destruct it as [ss|ts]; [reflexivity|].
  simpl.
  assert (G : forall ts pre m, exists ts', psteps A m (pre ++ ts) (run A (concat ts) m) (pre ++ ts') /\
     Forall (fun t => t = []) ts').
  { clear. induction ts as [|t ts IH]; intros pre m.
    - exists []. split; constructor.
    - destruct (IH (pre ++ [[]]) (run A t m)) as (ts' & Hs & Hn).
      exists ([] :: ts'). split; [|constructor; auto].
      cbn [concat]. rewrite run_app.
      eapply psteps_trans; [apply task_steps|].
      rewrite <- !app_assoc in Hs. exact Hs. }
  destruct (G ts [] m) as (ts' & Hs & Hn). exists ts'. auto.
Qed.

Lemma prog_exec_flat p (m : mem V) : prog_exec A p m (run A (flat p) m).
Proof.
  revert m. induction p as [|it p IH]; intros m; [constructor|].
  unfold flat; cbn [flat_map]. rewrite run_app.
  econstructor; [apply par_exec_flat|apply IH].
Qed.

End WithArith.

(** ** Agreement: if the statements that write into [R] read only from [R],
    two runs that start equal on [R] end equal on [R]. *)
Lemma run_agree {V} (A : Arith V) (R : Loc -> Prop) ss (m m' : mem V) :
  (forall s, In s ss -> R (dst s) -> forall l, In l (sreads s) -> R l) ->
  (forall l, R l -> m l = m' l) -> forall l, R l -> run A ss m l = run A ss m' l.
Proof.
  revert m m'. induction ss as [|s ss IH]; intros m m' HR Hm l Hl; [simpl; auto|].
  rewrite !run_cons. apply IH; auto.
  - intros s' Hs'. apply HR. simpl; auto.
  - intros l' Hl'. unfold run1, upd. destruct (loc_dec l' (dst s)) as [->|]; auto.
    apply eval_ext. intros l2 H2. apply Hm. apply (HR s); simpl; auto.
Qed.
