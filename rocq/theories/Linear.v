(** Superposition, quiescence, PEC points and divergence (real arithmetic). *)
From Coq Require Import ZArith List Bool Lia Reals Lra.
From Verif Require Import Types Lang LangProofs BBox Grid Pml Mur Ghost Step SpecGrid
  StepShape StepBounds StepCount StepOnce SpecCone StepValue SpecPhys.
Import ListNotations.
Open Scope R_scope.
Local Arguments Z.mul : simpl never.
Local Arguments Z.add : simpl never.
Local Arguments Z.sub : simpl never.

(** ** Superposition *)
Lemma sup_eval a b e1 e2 e3 m1 m2 m3 : sup a b e1 e2 e3 -> sup_mem a b m1 m2 m3 ->
  eval rArith m3 e3 = a * eval rArith m1 e1 + b * eval rArith m2 e2.
Proof.
  intros H [HD HS]. induction H; cbn [eval rArith vadd vsub vmul vneg]; auto.
  - rewrite IHsup1, IHsup2; ring.
  - rewrite IHsup1, IHsup2; ring.
  - rewrite IHsup; ring.
  - rewrite IHsup.
    rewrite (eval_ext rArith m3 m1 d), (eval_ext rArith m2 m1 d); [ring| |];
    intros l Hl; destruct (HD l (H l Hl)); congruence.
  - rewrite IHsup.
    rewrite (eval_ext rArith m3 m1 d), (eval_ext rArith m2 m1 d); [ring| |];
    intros l Hl; destruct (HD l (H l Hl)); congruence.
Qed.

Lemma sup_run a b p1 p2 p3 : sup_prog a b p1 p2 p3 -> forall m1 m2 m3, sup_mem a b m1 m2 m3 ->
  sup_mem a b (run rArith p1 m1) (run rArith p2 m2) (run rArith p3 m3).
Proof.
  induction 1 as [|d e1 e2 e3 p1 p2 p3 Hd He Hp IH]; intros m1 m2 m3 Hm; [exact Hm|].
  rewrite !run_cons. apply IH. unfold run1. cbn [dst rhs].
  pose proof (sup_eval a b e1 e2 e3 m1 m2 m3 He Hm) as HE. destruct Hm as [HD HS]. split; intros l Hl.
  - assert (l <> d) by (intros ->; apply Hd; exact Hl). rewrite !upd_other by auto. auto.
  - destruct (loc_dec l d) as [->|N]; [rewrite !upd_same; auto|rewrite !upd_other by auto; auto].
Qed.
Lemma sup_prog_app a b p1 p2 p3 q1 q2 q3 : sup_prog a b p1 p2 p3 -> sup_prog a b q1 q2 q3 ->
  sup_prog a b (p1 ++ q1) (p2 ++ q2) (p3 ++ q3).
Proof. induction 1; cbn [app]; auto. intros. constructor; auto. Qed.

(** syntactic check that an expression is linear in the state *)
Definition stateb (l : Loc) : bool := match kind l with None => false | _ => true end.
Definition datab (e : expr R) : bool := forallb (fun l => negb (stateb l)) (reads e).
Fixpoint linb (e : expr R) : bool :=
  match e with
  | Rd l => stateb l | Cst _ => false
  | Add a b | Sub a b => linb a && linb b
  | Mul a b => (datab a && linb b) || (linb a && datab b)
  | Neg a => linb a
  end.
Lemma datab_spec e : datab e = true -> forall l, In l (reads e) -> is_data l.
Proof.
  unfold datab. rewrite forallb_forall. intros H l Hl. specialize (H l Hl).
  unfold stateb, is_data in *. destruct (kind l); auto; discriminate.
Qed.
Lemma linb_sup a b e : linb e = true -> sup a b e e e.
Proof.
  induction e; cbn [linb]; intros H; try discriminate.
  - constructor. unfold is_state, stateb in *. destruct (kind l); congruence.
  - apply andb_true_iff in H. destruct H. constructor; auto.
  - apply andb_true_iff in H. destruct H. constructor; auto.
  - apply orb_true_iff in H. destruct H as [H|H]; apply andb_true_iff in H; destruct H as [H1 H2].
    + apply sup_mull; auto. apply datab_spec; auto.
    + apply sup_mulr; auto. apply datab_spec; auto.
  - constructor; auto.
Qed.

Definition lin_stmt (s : stmt R) : Prop := is_state (dst s) /\ linb (rhs s) = true.
Lemma lin_prog a b p : (forall s, In s p -> lin_stmt s) -> sup_prog a b p p p.
Proof.
  induction p as [|[d e] p IH]; intros H; [constructor|].
  destruct (H (Asg d e)) as [H1 H2]; [simpl; auto|]. constructor; auto.
  - apply linb_sup; auto.
  - apply IH. intros; apply H; simpl; auto.
Qed.
Lemma updF_lin f i j k s : In s (updF f i j k) -> lin_stmt s.
Proof. intros Hs. destruct f; destruct Hs as [<-|[]]; (split; [discriminate|reflexivity]). Qed.
Lemma pmlF_lin r f l i j k s : In s (pmlF r f l i j k) -> lin_stmt s.
Proof.
  intros Hs. destruct f; cbn [pmlF] in Hs; unfold pmlEx, pmlEy, pmlEz, pmlHx, pmlHy, pmlHz, pmlEbody, pmlHbody in Hs;
  cbn [In] in Hs; repeat (destruct Hs as [Hs|Hs]; [subst s; split; [discriminate|reflexivity]|]); contradiction.
Qed.
Lemma coreStep_lin c s : In s (flat (coreStep c)) -> lin_stmt s.
Proof.
  unfold coreStep, timeStep. cbn [app]. rewrite !flat_app, !in_app_iff. intros [H|[H|[H|H]]].
  - apply phaseE_shape in H. destruct H as [r f i j k s E T Hl Hs|face f i j k s E T N Hl Hs|f i j k s E Hl Hs].
    + eapply pmlF_lin; eauto.
    + destruct f; try discriminate E; destruct Hs as [<-|[<-|[]]]; (split; [discriminate|]); destruct face; reflexivity.
    + eapply updF_lin; eauto.
  - apply ghostE_shape in H. destruct H as [face f p q src s B E T Hp Hq Hs].
    destruct Hs as [->|[-> _]]; destruct face; (split; [discriminate|reflexivity]).
  - apply phaseH_shape in H. destruct H as [r f i j k s E T Hl Hs|face f i j k s E T N Hl Hs|f i j k s E Hl Hs];
    eauto using pmlF_lin, updF_lin.
  - apply ghostH_shape in H. destruct H as [face f p q src s B E T Hp Hq Hs].
    destruct Hs as [->|[-> _]]; destruct face; (split; [discriminate|reflexivity]).
Qed.

Lemma timeStep_sup c a b xE1 xE2 xE3 xH1 xH2 xH3 :
  sup_prog a b (flat xE1) (flat xE2) (flat xE3) -> sup_prog a b (flat xH1) (flat xH2) (flat xH3) ->
  sup_prog a b (flat (timeStep c xE1 xH1)) (flat (timeStep c xE2 xH2)) (flat (timeStep c xE3 xH3)).
Proof.
  intros HE HH. unfold timeStep. rewrite !flat_app.
  assert (X : forall p, (forall s, In s (flat p) -> In s (flat (coreStep c))) -> sup_prog a b (flat p) (flat p) (flat p)).
  { intros p Hp. apply lin_prog. intros s Hs. apply (coreStep_lin c). auto. }
  assert (IC : forall s, In s (flat (phaseE (V:=R) c)) \/ In s (flat (updateGhostEfield c)) \/
      In s (flat (phaseH c)) \/ In s (flat (updateGhostHfield c)) -> In s (flat (coreStep c))).
  { intros s Hs. unfold coreStep, timeStep. cbn [app]. rewrite !flat_app, !in_app_iff. tauto. }
  apply sup_prog_app; [apply X; intros s Hs; apply IC; tauto|].
  apply sup_prog_app; [exact HE|].
  apply sup_prog_app; [apply X; intros s Hs; apply IC; tauto|].
  apply sup_prog_app; [apply X; intros s Hs; apply IC; tauto|].
  apply sup_prog_app; [exact HH|apply X; intros s Hs; apply IC; tauto].
Qed.
Lemma steps_sup c a b xE1 xE2 xE3 xH1 xH2 xH3 n :
  (forall t, sup_prog a b (flat (xE1 t)) (flat (xE2 t)) (flat (xE3 t))) ->
  (forall t, sup_prog a b (flat (xH1 t)) (flat (xH2 t)) (flat (xH3 t))) ->
  forall t, sup_prog a b (flat (steps c xE1 xH1 t n)) (flat (steps c xE2 xH2 t n)) (flat (steps c xE3 xH3 t n)).
Proof.
  intros HE HH. induction n; intros t; cbn [steps]; [constructor|].
  rewrite !flat_app. apply sup_prog_app; auto. apply timeStep_sup; auto.
Qed.

(** ** Loop invariants *)
Section Inv.
Context {V : Type} (A : Arith V).
Variable I : mem V -> Prop.
Lemma flat_map_inv {X} (g : X -> list (stmt V)) xs m :
  (forall x m, In x xs -> I m -> I (run A (g x) m)) -> I m -> I (run A (flat_map g xs) m).
Proof.
  revert m. induction xs as [|x xs IH]; intros m H HI; [exact HI|].
  cbn [flat_map]. rewrite run_app. apply IH.
  - intros; apply H; simpl; auto.
  - apply H; simpl; auto.
Qed.
Lemma for_inv lo hi (g : Z -> list (stmt V)) m :
  (forall x m, (lo <= x <= hi)%Z -> I m -> I (run A (g x) m)) -> I m -> I (run A (for_ lo hi g) m).
Proof. intros H. apply flat_map_inv. intros x m0 Hx. apply H. apply in_zrange; auto. Qed.
Lemma par_for_inv lo hi (g : Z -> list (stmt V)) m :
  (forall x m, (lo <= x <= hi)%Z -> I m -> I (run A (g x) m)) -> I m -> I (run A (flat_item (par_for lo hi g)) m).
Proof.
  intros H. unfold par_for. cbn [flat_item]. rewrite <- flat_map_concat_map. apply for_inv; auto.
Qed.
Lemma nest3_inv lim (g : Z -> Z -> Z -> list (stmt V)) m :
  (forall i j k m, inl lim i j k -> I m -> I (run A (g i j k) m)) -> I m -> I (run A (flat_item (nest3 lim g)) m).
Proof.
  intros H. apply par_for_inv. intros i m1 Hi. apply for_inv. intros j m2 Hj. apply for_inv.
  intros k m3 Hk. apply H. unfold inl. auto.
Qed.
(** statements that do not write what [I] is about *)
Lemma stmts_inv ss (D : Loc -> Prop) m :
  (forall m m', (forall l, D l -> m l = m' l) -> I m -> I m') ->
  (forall s, In s ss -> ~ D (dst s)) -> I m -> I (run A ss m).
Proof.
  intros HD HS HI. apply (HD m); auto. intros l Hl. symmetry. apply run_frame. intros Hc.
  unfold twrites in Hc. apply in_map_iff in Hc. destruct Hc as (s & E & Hs). apply (HS s Hs). rewrite E. auto.
Qed.
End Inv.

(** ** PEC points *)
(** the value [f] at (i,j,k) and its PML auxiliaries are zero and its BETA is zero *)
Definition pecZero (c : Cfg) (f : Fld) (i j k : Z) (m : mem R) : Prop :=
  m (L (ABeta f) i j k) = 0 /\ m (L (AF f) i j k) = 0 /\
  forall r, let l := fplim c r f in
    m (L (APP r f) (i - l XLO)%Z (j - l YLO)%Z (k - l ZLO)%Z) = 0 /\
    m (L (AP r f) (i - l XLO)%Z (j - l YLO)%Z (k - l ZLO)%Z) = 0.
Definition pecDep (c : Cfg) (f : Fld) (i j k : Z) (l : Loc) : Prop :=
  l = L (ABeta f) i j k \/ l = L (AF f) i j k \/
  exists r, let b := fplim c r f in
    l = L (APP r f) (i - b XLO)%Z (j - b YLO)%Z (k - b ZLO)%Z \/
    l = L (AP r f) (i - b XLO)%Z (j - b YLO)%Z (k - b ZLO)%Z.
Lemma pecDep_ok c f i j k m m' : (forall l, pecDep c f i j k l -> m l = m' l) ->
  pecZero c f i j k m -> pecZero c f i j k m'.
Proof.
  intros H (H1 & H2 & H3). unfold pecZero. rewrite <- !H by (unfold pecDep; auto). split; [auto|split; [auto|]].
  intros r. cbn zeta in *. rewrite <- !H by (unfold pecDep; right; right; exists r; cbn zeta; auto). apply H3.
Qed.

(** [l] is not on the plane of a MUR face to which the component is tangential *)
Definition off_mur (c : Cfg) (f : Fld) (i j k : Z) : Prop :=
  forall face, outerSurfaceType c face = BT_MUR -> fld_axis f <> face_axis face -> ~ inl (fmlim c face f) i j k.

Lemma pec_kind c f i j k l : is_E f = true -> pecDep c f i j k l -> kind l <> Some false.
Proof.
  intros E [->|[->|[r [-> | ->]]]]; cbn; congruence.
Qed.

Lemma pml_body_pec c f i j k r i' j' k' m : is_E f = true ->
  pecZero c f i j k m -> forall g, is_E g = true ->
  pecZero c f i j k (run rArith (pmlF r g (fplim c r g) i' j' k') m).
Proof.
  intros E HZ g Eg. set (l := fplim c r g).
  destruct (fld_eqb g f) eqn:GF.
  2:{ assert (NE : g <> f) by (intros ->; destruct f; discriminate).
      apply (stmts_inv rArith _ _ (pecDep c f i j k)); [apply pecDep_ok| |exact HZ].
      intros s Hs D.
      assert (X : arr (dst s) = AF g \/ arr (dst s) = APP r g \/ arr (dst s) = AP r g \/ exists n, arr (dst s) = ATmp n).
      { destruct g; try discriminate Eg; cbn [pmlF] in Hs; unfold pmlEx, pmlEy, pmlEz, pmlEbody in Hs; cbn [In] in Hs;
        repeat (destruct Hs as [Hs|Hs]; [subst s; cbn; eauto 6|]); contradiction. }
      destruct D as [D|[D|[r' [D|D]]]]; rewrite D in X; cbn in X;
      destruct X as [X|[X|[X|[n X]]]]; congruence. }
  apply fld_eqb_spec in GF. subst g.
  destruct (Z.eq_dec i' i) as [EI|NI]; [destruct (Z.eq_dec j' j) as [EJ|NJ]; [destruct (Z.eq_dec k' k) as [EK|NK]|]|].
  2,3,4: apply (stmts_inv rArith _ _ (pecDep c f i j k)); [apply pecDep_ok| |exact HZ];
    intros s Hs D;
    assert (X : (exists n, arr (dst s) = ATmp n) \/
       dst s = L (AF f) i' j' k' \/ dst s = L (APP r f) (i' - l XLO)%Z (j' - l YLO)%Z (k' - l ZLO)%Z
       \/ dst s = L (AP r f) (i' - l XLO)%Z (j' - l YLO)%Z (k' - l ZLO)%Z)
    by (clear D; destruct f; try discriminate Eg; cbn [pmlF] in Hs; unfold pmlEx, pmlEy, pmlEz, pmlEbody in Hs; cbn [In] in Hs;
        repeat (destruct Hs as [Hs|Hs]; [subst s; cbn; eauto 6|]); contradiction);
    destruct X as [[n X]|X];
    [destruct D as [D|[D|[r' [D|D]]]]; rewrite D in X; discriminate|
     destruct D as [D|[D|[r' [D|D]]]]; rewrite D in X; destruct X as [X|[X|X]]; try discriminate X;
     (try (pose proof (f_equal arr X) as XA; cbn in XA; injection XA as ->));
     pose proof (f_equal li X); pose proof (f_equal lj X); pose proof (f_equal lk X); cbn [li lj lk] in *; unfold l in *; lia].
  subst i' j' k'.
  (* the body of the point itself *)
  destruct HZ as (HB & HE & HA). destruct (HA r) as [HPP HP]. cbn zeta in HPP, HP. fold l in HPP, HP.
  assert (VAL : forall curl a1 b1 a2 b2 x y,
    let body := pmlEbody (V:=R) r f curl a1 b1 a2 b2 x y (i - l XLO)%Z (j - l YLO)%Z (k - l ZLO)%Z i j k in
    run rArith body m (L (AF f) i j k) = 0 /\
    run rArith body m (L (APP r f) (i - l XLO)%Z (j - l YLO)%Z (k - l ZLO)%Z) = 0 /\
    run rArith body m (L (AP r f) (i - l XLO)%Z (j - l YLO)%Z (k - l ZLO)%Z) = 0).
  { intros. unfold body, pmlEbody. unfold run. cbn [fold_left]. unfold run1. cbn [dst rhs].
    set (PP := L (APP r f) _ _ _). set (P := L (AP r f) _ _ _).
    set (oldPP := L (ATmp 0) i j k). set (oldP := L (ATmp 1) i j k). set (E0 := L (AF f) i j k).
    assert (N1 : PP <> oldPP) by discriminate. assert (N2 : P <> oldPP) by discriminate.
    assert (N3 : PP <> oldP) by discriminate. assert (N4 : P <> oldP) by discriminate.
    assert (N5 : P <> PP) by discriminate. assert (N6 : E0 <> PP) by discriminate.
    assert (N7 : E0 <> P) by discriminate. assert (N8 : E0 <> oldPP) by discriminate.
    assert (N9 : E0 <> oldP) by discriminate. assert (N10 : oldP <> oldPP) by discriminate.
    cbn [eval rArith vadd vsub vmul]. unfold ALPHA, BETA, F. cbn [eval]. fold E0.
    set (m1 := upd m oldPP (m PP)).
    set (m2 := upd m1 PP _). set (m3 := upd m2 oldP _). set (m4 := upd m3 P _). set (m5 := upd m4 E0 _).
    assert (V1 : m1 oldPP = 0) by (unfold m1; rewrite upd_same; exact HPP).
    assert (V2 : m2 PP = 0).
    { unfold m2. rewrite upd_same. replace (m1 PP) with 0 by (unfold m1; rewrite upd_other; auto).
      replace (m1 (L (ABeta f) i j k)) with 0 by (unfold m1; rewrite upd_other by discriminate; auto). ring. }
    assert (V3 : m3 oldP = 0).
    { unfold m3. rewrite upd_same. unfold m2. rewrite upd_other by auto. unfold m1. rewrite upd_other by auto. exact HP. }
    assert (V4 : m4 P = 0).
    { unfold m4. rewrite upd_same.
      replace (m3 P) with 0 by (unfold m3, m2, m1; rewrite !upd_other by auto; auto).
      replace (m3 PP) with 0 by (unfold m3; rewrite upd_other by auto; auto).
      replace (m3 oldPP) with 0 by (unfold m3, m2; rewrite !upd_other by auto; auto). ring. }
    assert (V5 : m5 E0 = 0).
    { unfold m5. rewrite upd_same.
      replace (m4 E0) with 0 by (unfold m4, m3, m2, m1; rewrite !upd_other by auto; auto).
      replace (m4 oldP) with 0 by (unfold m4; rewrite upd_other by auto; auto). rewrite V4. ring. }
    split; [exact V5|]. split.
    - unfold m5, m4, m3. rewrite !upd_other by auto. exact V2.
    - unfold m5. rewrite upd_other by auto. exact V4. }
  assert (FR : forall l', pecDep c f i j k l' -> l' = L (AF f) i j k \/
       l' = L (APP r f) (i - l XLO)%Z (j - l YLO)%Z (k - l ZLO)%Z \/ l' = L (AP r f) (i - l XLO)%Z (j - l YLO)%Z (k - l ZLO)%Z \/
       run rArith (pmlF r f l i j k) m l' = m l').
  { intros l' D. 
    assert (X : forall s, In s (pmlF (V:=R) r f l i j k) -> (exists n, arr (dst s) = ATmp n) \/
       dst s = L (AF f) i j k \/ dst s = L (APP r f) (i - l XLO)%Z (j - l YLO)%Z (k - l ZLO)%Z
       \/ dst s = L (AP r f) (i - l XLO)%Z (j - l YLO)%Z (k - l ZLO)%Z).
    { intros s Hs. destruct f; try discriminate Eg; cbn [pmlF] in Hs; unfold pmlEx, pmlEy, pmlEz, pmlEbody in Hs; cbn [In] in Hs;
        repeat (destruct Hs as [Hs|Hs]; [subst s; cbn; eauto 6|]); contradiction. }
    destruct (in_dec loc_dec l' (twrites (pmlF (V:=R) r f l i j k))) as [Hi|Hi].
    - unfold twrites in Hi. apply in_map_iff in Hi. destruct Hi as (s & <- & Hs).
      destruct (X s Hs) as [[n XA]|[XA|[XA|XA]]]; auto.
      exfalso. destruct D as [D|[D|[r' [D|D]]]]; rewrite D in XA; discriminate.
    - right; right; right. apply run_frame; auto. }
  assert (VAL' : run rArith (pmlF r f l i j k) m (L (AF f) i j k) = 0 /\
    run rArith (pmlF r f l i j k) m (L (APP r f) (i - l XLO)%Z (j - l YLO)%Z (k - l ZLO)%Z) = 0 /\
    run rArith (pmlF r f l i j k) m (L (AP r f) (i - l XLO)%Z (j - l YLO)%Z (k - l ZLO)%Z) = 0).
  { destruct f; try discriminate Eg; cbn [pmlF]; unfold pmlEx, pmlEy, pmlEz; apply VAL. }
  destruct VAL' as (VE & VPP & VP).
  assert (Z0 : forall l', pecDep c f i j k l' -> m l' = 0 -> run rArith (pmlF r f l i j k) m l' = 0).
  { intros l' D HZ. destruct (FR l' D) as [->|[->|[->|X]]]; auto. rewrite X; auto. }
  split; [|split].
  - apply Z0; auto. unfold pecDep; auto.
  - auto.
  - intros r'. cbn zeta. split; (apply Z0; [unfold pecDep; right; right; exists r'; cbn zeta; auto|apply HA]).
Qed.

Lemma pec_phaseE c f i j k m : wf c -> is_E f = true -> inl (gfolim c f) i j k -> off_mur c f i j k ->
  pecZero c f i j k m -> pecZero c f i j k (run rArith (flat (phaseE c)) m).
Proof.
  intros W E HO HM HZ. unfold phaseE. rewrite !flat_app, !run_app.
  assert (G : forall g i' j' k' m, is_E g = true -> pecZero c f i j k m -> pecZero c f i j k (run rArith (updF g i' j' k') m)).
  { intros g i' j' k' m' Eg HZ'. rewrite updF_stmt. unfold updStmt. rewrite Eg.
    unfold run. cbn [fold_left]. unfold run1. cbn [dst rhs].
    destruct HZ' as (HB & HE & HA).
    destruct (loc_dec (L (AF g) i' j' k') (L (AF f) i j k)) as [EQ|NE].
    - injection EQ as -> -> -> ->. split; [rewrite upd_other by discriminate; auto|]. split.
      + rewrite upd_same. cbn [eval rArith vadd vmul ALPHA BETA F]. rewrite HB, HE. ring.
      + intros r. cbn zeta. rewrite !upd_other by discriminate. apply HA.
    - split; [rewrite upd_other by discriminate; auto|]. split.
      + rewrite upd_other by congruence. auto.
      + intros r. cbn zeta. rewrite !upd_other by discriminate. apply HA. }
  assert (GR : forall m, pecZero c f i j k m -> pecZero c f i j k (run rArith (flat (updateGridEfield c)) m)).
  { intros m' HZ'. unfold updateGridEfield. rewrite !flat_cons, !run_app. cbn [flat flat_map].
    apply (nest3_inv rArith (pecZero c f i j k)); [intros; apply (G EZ); auto|].
    apply (nest3_inv rArith (pecZero c f i j k)); [intros; apply (G EY); auto|].
    apply (nest3_inv rArith (pecZero c f i j k)); [intros; apply (G EX); auto|]. auto. }
  apply GR.
  apply (stmts_inv rArith _ _ (pecDep c f i j k)); [apply pecDep_ok| |].
  - intros s Hs D. 
    assert (X : exists face g i' j' k', outerSurfaceType c face = BT_MUR /\ is_E g = true /\
       fld_axis g <> face_axis face /\ inl (fmlim c face g) i' j' k' /\
       ((exists n, arr (dst s) = ATmp n) \/ dst s = L (AF g) i' j' k')).
    { pose proof Hs as Hs'. apply updateMurEfield_shape in Hs'.
      (* every statement of the Mur update is a Mur statement *)
      clear Hs'. apply in_flat in Hs. destruct Hs as [it [Hit Hs]]. unfold updateMurEfield in Hit.
      apply in_flat_map in Hit. destruct Hit as [face [_ Hit]].
      unfold updateMurEface in Hit. destruct (btype_eqb (outerSurfaceType c face) BT_MUR) eqn:ET; [|destruct Hit].
      apply btype_eqb_spec in ET. exists face.
      pose proof (fmlim_own c face EX) as OX. pose proof (fmlim_own c face EY) as OY. pose proof (fmlim_own c face EZ) as OZ.
      destruct face; cbn [fieldIsInBoundary face_axis face_lo face_hi] in *;
      unfold murEX_, murEY_, murEZ_ in Hit; cbn [In] in Hit;
      (destruct Hit as [<-|[<-|[]]]; apply in_par_for in Hs; destruct Hs as [x [Hx Hs]];
       apply in_for in Hs; destruct Hs as [y [Hy Hs]];
       match type of Hs with In s (murBody _ ?g _ _ _ _ ?i ?j ?k) => exists g, i, j, k end;
       (split; [exact ET|]); (split; [reflexivity|]); (split; [discriminate|]);
       (split; [unfold inl; try (specialize (OX eq_refl)); try (specialize (OY eq_refl)); try (specialize (OZ eq_refl)); lia|]);
       destruct Hs as [<-|[<-|[]]]; cbn; eauto). }
    destruct X as (face & g & i' & j' & k' & T & Eg & N & HL & [[n X]|X]).
    + destruct D as [D|[D|[r' [D|D]]]]; rewrite D in X; discriminate.
    + destruct D as [D|[D|[r' [D|D]]]]; rewrite D in X; try discriminate. injection X as <- <- <- <-.
      apply (HM face T N HL).
  - unfold updatePmlEfield.
    assert (PM : forall rs m, pecZero c f i j k m -> pecZero c f i j k (run rArith (flat (flat_map (fun r =>
    if btype_eqb (outerSurfaceType c r) BT_PML
    then [nest3 (fplim c r EX) (pmlEx r (fplim c r EX));
          nest3 (fplim c r EY) (pmlEy r (fplim c r EY));
          nest3 (fplim c r EZ) (pmlEz r (fplim c r EZ))]
    else []) rs)) m)).
    { induction rs as [|r rs IH]; intros m' HZ'; [exact HZ'|]. cbn [flat_map]. rewrite flat_app, run_app. apply IH.
      destruct (btype_eqb _ _); [|exact HZ']. rewrite !flat_cons, !run_app. cbn [flat flat_map].
      apply (nest3_inv rArith (pecZero c f i j k)); [intros; apply (pml_body_pec c f i j k r i0 j0 k0 m0 E H0 EZ); auto|].
      apply (nest3_inv rArith (pecZero c f i j k)); [intros; apply (pml_body_pec c f i j k r i0 j0 k0 m0 E H0 EY); auto|].
      apply (nest3_inv rArith (pecZero c f i j k)); [intros; apply (pml_body_pec c f i j k r i0 j0 k0 m0 E H0 EX); auto|]. auto. }
    apply PM. exact HZ.
Qed.

Lemma pec_timeStep c f i j k xE xH m : wf c -> is_E f = true -> inl (gfolim c f) i j k -> off_mur c f i j k ->
  (forall s, In s (flat xE) \/ In s (flat xH) -> ~ pecDep c f i j k (dst s)) ->
  pecZero c f i j k m -> pecZero c f i j k (run rArith (flat (timeStep c xE xH)) m).
Proof.
  intros W E HO HM HX HZ. unfold timeStep. rewrite !flat_app, !run_app.
  assert (FR : forall p m, (forall s, In s (flat p) -> ~ pecDep c f i j k (dst s)) ->
      pecZero c f i j k m -> pecZero c f i j k (run rArith (flat p) m)).
  { intros p m' Hp. apply (stmts_inv rArith _ _ (pecDep c f i j k)); [apply pecDep_ok|auto]. }
  apply FR.
  { intros s Hs D. apply ghostH_shape in Hs. apply stG_kind in Hs. apply (pec_kind c f i j k _ E D Hs). }
  apply FR; [intros; apply HX; auto|].
  apply FR.
  { intros s Hs D. apply phaseH_shape in Hs. apply stH_kind in Hs. apply (pec_kind c f i j k _ E D Hs). }
  apply FR.
  { intros s Hs D. apply ghostE_shape in Hs. pose proof (stG_dst c true s f i j k W HO Hs) as ND.
    destruct D as [D|[D|D]]; [|auto|]; destruct Hs as [face g p q src s B Eg T Hp Hq Hs];
    assert (D' : arr (dst s) = AF g) by (destruct Hs as [->|[-> _]]; destruct face; reflexivity);
    [rewrite D in D'; discriminate|destruct D as [r' [D|D]]; rewrite D in D'; discriminate]. }
  apply FR; [intros; apply HX; auto|].
  apply pec_phaseE; auto.
Qed.
