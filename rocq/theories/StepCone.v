(** Proof of the light cone. *)
From Coq Require Import ZArith List Bool Lia.
From Verif Require Import Types Lang LangProofs BBox Grid Pml Mur Ghost Step SpecGrid StepShape StepBounds StepRace SpecCone.
Import ListNotations.
Open Scope Z_scope.
Local Arguments Z.mul : simpl never.
Local Arguments Z.add : simpl never.
Local Arguments Z.sub : simpl never.
Local Arguments Z.min : simpl never.
Local Arguments Z.max : simpl never.

Definition RU (c : Cfg) (a : Axis) (e h : Z) (l : Loc) : Prop :=
  match kind l with None => True | Some true => e <= upos c a l | Some false => h <= upos c a l end.
Definition RD (c : Cfg) (a : Axis) (e h : Z) (l : Loc) : Prop :=
  match kind l with None => True | Some true => dpos c a l <= e | Some false => dpos c a l <= h end.

Ltac split_in H := cbn [In] in H;
  repeat match type of H with _ \/ _ => destruct H as [H|H] end; try contradiction.
Ltac open_reads Hl :=
  unfold sreads, cH, cHx, cHy, cHz, cEx, cEy, cEz, curl_Hx, curl_Hy, curl_Hz, curl_Ex, curl_Ey, curl_Ez,
    ALPHA, BETA, GAMMA, F, PC, idex, idey, idez, idhx, idhy, idhz, zeta in Hl;
  cbn [rhs reads app] in Hl; split_in Hl.

Section Cone.
Context {V : Type}.
Variables (c : Cfg) (a : Axis).
Hypothesis W : wf c.

Ltac cone :=
  unfold RU, RD, upos, dpos, position, kind; cbn [dst arr li lj lk kind is_E Z.eqb negb];
  first [intros _; exact I |
  destruct a; cbn [face_lo face_hi coord li lj lk fieldIsInBoundary];
  unfold clamp; cbn [Z.eqb Pos.eqb negb];
  repeat match goal with |- context [btype_eqb ?x ?y] => destruct (btype_eqb x y) eqn:? end;
  lia].

Lemma updF_closed_U f e h i j k (s : stmt V) : (if is_E f then h + 1 <= e else e <= h) ->
  inl (gfolim c f) i j k -> In s (updF f i j k) ->
  RU c a e h (dst s) -> forall l, In l (sreads s) -> RU c a e h l.
Proof.
  intros HE H Hs HD l Hl. revert HD. apply gfolim_range in H. unfold nodeRange, halfRange in H. cfg_facts c W.
  destruct f; cbn [is_E fieldIsInBoundary] in *; destruct Hs as [<-|[]]; open_reads Hl; subst l; cone.
Qed.
Lemma updF_closed_D f e h i j k (s : stmt V) : (if is_E f then e <= h else h + 1 <= e) ->
  inl (gfolim c f) i j k -> In s (updF f i j k) ->
  RD c a e h (dst s) -> forall l, In l (sreads s) -> RD c a e h l.
Proof.
  intros HE H Hs HD l Hl. revert HD. apply gfolim_range in H. unfold nodeRange, halfRange in H. cfg_facts c W.
  destruct f; cbn [is_E fieldIsInBoundary] in *; destruct Hs as [<-|[]]; open_reads Hl; subst l; cone.
Qed.
Lemma pmlF_closed_U r f e h i j k (s : stmt V) : (if is_E f then h + 1 <= e else e <= h) ->
  inl (gfolim c f) i j k -> In s (pmlF r f (fplim c r f) i j k) ->
  RU c a e h (dst s) -> forall l, In l (sreads s) -> RU c a e h l.
Proof.
  intros HE H Hs HD l Hl. revert HD. apply gfolim_range in H. unfold nodeRange, halfRange in H. cfg_facts c W.
  destruct f; cbn [is_E fieldIsInBoundary] in *; cbn [pmlF] in Hs;
  unfold pmlEx, pmlEy, pmlEz, pmlHx, pmlHy, pmlHz, pmlEbody, pmlHbody in Hs; split_in Hs; subst s;
  open_reads Hl; subst l; cone.
Qed.
Lemma pmlF_closed_D r f e h i j k (s : stmt V) : (if is_E f then e <= h else h + 1 <= e) ->
  inl (gfolim c f) i j k -> In s (pmlF r f (fplim c r f) i j k) ->
  RD c a e h (dst s) -> forall l, In l (sreads s) -> RD c a e h l.
Proof.
  intros HE H Hs HD l Hl. revert HD. apply gfolim_range in H. unfold nodeRange, halfRange in H. cfg_facts c W.
  destruct f; cbn [is_E fieldIsInBoundary] in *; cbn [pmlF] in Hs;
  unfold pmlEx, pmlEy, pmlEz, pmlHx, pmlHy, pmlHz, pmlEbody, pmlHbody in Hs; split_in Hs; subst s;
  open_reads Hl; subst l; cone.
Qed.

Lemma mur_facts face f i j k : outerSurfaceType c face = BT_MUR -> is_E f = true ->
  fld_axis f <> face_axis face -> inl (fmlim c face f) i j k ->
  match face_axis face with XDIR => i | YDIR => j | ZDIR => k end = gibox c face.
Proof.
  intros T E N H. assert (B : fieldIsInBoundary f face = true).
  { destruct f, face; try discriminate E; cbn in *; solve [reflexivity|congruence|exfalso; apply N; reflexivity]. }
  destruct (fmlim_own c face f B) as [O1 O2]. unfold inl in H.
  destruct face; cbn [face_axis face_lo face_hi] in *; lia.
Qed.

Lemma mur_closed_U face f e h i j k (s : stmt V) : h + 1 <= e -> 
  outerSurfaceType c face = BT_MUR -> is_E f = true -> fld_axis f <> face_axis face -> inl (fmlim c face f) i j k ->
  In s (let i1 := i + inw face XDIR in let j1 := j + inw face YDIR in
          let k1 := k + inw face ZDIR in
          murBody face f (cH f i1 j1 k1) i1 j1 k1 i j k) ->
  RU c a e h (dst s) -> forall l, In l (sreads s) -> RU c a e h l.
Proof.
  intros HE T E N H Hs HD l Hl. revert HD.
  pose proof (mur_facts face f i j k T E N H) as MF.
  destruct (mur_lim_explicit c face f i j k W T E N H) as [H1 H2]. clear H.
  apply gfolim_range in H2. apply gfolim_range in H1. unfold nodeRange, halfRange in H1, H2. 
  pose proof (layers_mur c face W T) as L0. cfg_facts c W.
  unfold murBody in Hs. cbn zeta in Hs.
  destruct face; cbn [face_axis] in *; unfold inw in *; cbn [axis_eqb face_axis is_lo] in *;
  destruct f; try discriminate E; try (exfalso; apply N; reflexivity);
  cbn [is_E fieldIsInBoundary] in *; destruct Hs as [<-|[<-|[]]]; open_reads Hl; subst l;
  unfold RU, upos, position, kind; cbn [dst arr li lj lk kind is_E Z.eqb negb];
  first [intros _; exact I |
  destruct a; cbn [face_lo face_hi coord li lj lk fieldIsInBoundary];
  unfold clamp; cbn [Z.eqb Pos.eqb negb];
  rewrite ?T; cbn [btype_eqb];
  repeat match goal with |- context [btype_eqb ?x ?y] => destruct (btype_eqb x y) eqn:? end;
  lia].
Qed.
Lemma mur_closed_D face f e h i j k (s : stmt V) : e <= h -> 
  outerSurfaceType c face = BT_MUR -> is_E f = true -> fld_axis f <> face_axis face -> inl (fmlim c face f) i j k ->
  In s (let i1 := i + inw face XDIR in let j1 := j + inw face YDIR in
          let k1 := k + inw face ZDIR in
          murBody face f (cH f i1 j1 k1) i1 j1 k1 i j k) ->
  RD c a e h (dst s) -> forall l, In l (sreads s) -> RD c a e h l.
Proof.
  intros HE T E N H Hs HD l Hl. revert HD.
  pose proof (mur_facts face f i j k T E N H) as MF.
  destruct (mur_lim_explicit c face f i j k W T E N H) as [H1 H2]. clear H.
  apply gfolim_range in H2. apply gfolim_range in H1. unfold nodeRange, halfRange in H1, H2. 
  pose proof (layers_mur c face W T) as L0. cfg_facts c W.
  unfold murBody in Hs. cbn zeta in Hs.
  destruct face; cbn [face_axis] in *; unfold inw in *; cbn [axis_eqb face_axis is_lo] in *;
  destruct f; try discriminate E; try (exfalso; apply N; reflexivity);
  cbn [is_E fieldIsInBoundary] in *; destruct Hs as [<-|[<-|[]]]; open_reads Hl; subst l;
  unfold RD, dpos, position, kind; cbn [dst arr li lj lk kind is_E Z.eqb negb];
  first [intros _; exact I |
  destruct a; cbn [face_lo face_hi coord li lj lk fieldIsInBoundary];
  unfold clamp; cbn [Z.eqb Pos.eqb negb];
  rewrite ?T; cbn [btype_eqb];
  repeat match goal with |- context [btype_eqb ?x ?y] => destruct (btype_eqb x y) eqn:? end;
  lia].
Qed.

Hypothesis NP : outerSurfaceType c (face_lo a) <> BT_PERIODIC /\ outerSurfaceType c (face_hi a) <> BT_PERIODIC.

Lemma ghost_same b (s : stmt V) : stG c b s ->
  forall l, In l (sreads s) -> kind l = kind (dst s) /\ position c a l = position c a (dst s).
Proof.
  intros H l Hl. destruct H as [face f p q src s B E T Hp Hq Hs].
  assert (X : dst s = at_axis (AF f) (face_axis face) (ghostIdx c face) p q /\
              l = at_axis (AF f) (face_axis face) src p q).
  { destruct Hs as [->|[-> _]]; cbn in *; destruct Hl as [<-|[]]; auto. }
  destruct X as [-> ->]. destruct NP as [NP1 NP2].
  split; [destruct face; reflexivity|].
  unfold position. destruct T as [[T ->]|[T ->]].
  - destruct a, face; cbn [face_lo face_hi] in *; try congruence; cbn; reflexivity.
  - clear Hs Hp Hq T. cfg_facts c W. unfold ghostIdx, insideIdx, clamp.
    destruct a, face; cbn [at_axis arr face_axis coord li lj lk face_lo face_hi is_lo];
    destruct f; cbn [fieldIsInBoundary] in *; try discriminate B; try reflexivity; lia.
Qed.

Definition closedU e h (p : list (item V)) := forall s, In s (flat p) ->
  RU c a e h (dst s) -> forall l, In l (sreads s) -> RU c a e h l.
Definition closedD e h (p : list (item V)) := forall s, In s (flat p) ->
  RD c a e h (dst s) -> forall l, In l (sreads s) -> RD c a e h l.

Lemma phaseE_closed_U e h : h + 1 <= e -> closedU e h (phaseE c).
Proof.
  intros HE s Hs. apply phaseE_shape in Hs.
  destruct Hs as [r f i j k s E T Hl Hs|face f i j k s E T N Hl Hs|f i j k s E Hl Hs].
  - eapply pmlF_closed_U; eauto. rewrite E; auto. eapply pml_lim_outer; eauto.
  - eapply mur_closed_U; eauto.
  - eapply updF_closed_U; eauto. rewrite E; auto. eapply grid_lim_outer; eauto.
Qed.
Lemma phaseE_closed_D e h : e <= h -> closedD e h (phaseE c).
Proof.
  intros HE s Hs. apply phaseE_shape in Hs.
  destruct Hs as [r f i j k s E T Hl Hs|face f i j k s E T N Hl Hs|f i j k s E Hl Hs].
  - eapply pmlF_closed_D; eauto. rewrite E; auto. eapply pml_lim_outer; eauto.
  - eapply mur_closed_D; eauto.
  - eapply updF_closed_D; eauto. rewrite E; auto. eapply grid_lim_outer; eauto.
Qed.
Lemma phaseH_closed_U e h : e <= h -> closedU e h (phaseH c).
Proof.
  intros HE s Hs. apply phaseH_shape in Hs.
  destruct Hs as [r f i j k s E T Hl Hs|face f i j k s E T N Hl Hs|f i j k s E Hl Hs].
  - eapply pmlF_closed_U; eauto. rewrite E; auto. eapply pml_lim_outer; eauto.
  - eapply updF_closed_U; eauto. rewrite E; auto. eapply mur_lim_outer; eauto.
  - eapply updF_closed_U; eauto. rewrite E; auto. eapply grid_lim_outer; eauto.
Qed.
Lemma phaseH_closed_D e h : h + 1 <= e -> closedD e h (phaseH c).
Proof.
  intros HE s Hs. apply phaseH_shape in Hs.
  destruct Hs as [r f i j k s E T Hl Hs|face f i j k s E T N Hl Hs|f i j k s E Hl Hs].
  - eapply pmlF_closed_D; eauto. rewrite E; auto. eapply pml_lim_outer; eauto.
  - eapply updF_closed_D; eauto. rewrite E; auto. eapply mur_lim_outer; eauto.
  - eapply updF_closed_D; eauto. rewrite E; auto. eapply grid_lim_outer; eauto.
Qed.
Lemma ghostE_closed e h : closedU e h (updateGhostEfield c) /\ closedD e h (updateGhostEfield c).
Proof.
  split; intros s Hs HD l Hl; apply ghostE_shape in Hs; destruct (ghost_same _ _ Hs l Hl) as [K P];
  unfold RU, RD, upos, dpos in *; rewrite K, P; auto.
Qed.
Lemma ghostH_closed e h : closedU e h (updateGhostHfield c) /\ closedD e h (updateGhostHfield c).
Proof.
  split; intros s Hs HD l Hl; apply ghostH_shape in Hs; destruct (ghost_same _ _ Hs l Hl) as [K P];
  unfold RU, RD, upos, dpos in *; rewrite K, P; auto.
Qed.
Lemma in_place_closed p e h : in_place p -> closedU e h p /\ closedD e h p.
Proof.
  intros HP; split; intros s Hs HD l Hl; destruct (HP s Hs) as [_ HR]; destruct (HR l Hl) as [->|N]; auto;
  unfold RU, RD; rewrite N; auto.
Qed.

Variable A : Arith V.
Definition agree (R : Loc -> Prop) (m m' : mem V) := forall l, R l -> m l = m' l.

Lemma closedU_run e h p m m' : closedU e h p -> agree (RU c a e h) m m' ->
  agree (RU c a e h) (run A (flat p) m) (run A (flat p) m').
Proof. intros HC HA l Hl. apply (run_agree A (RU c a e h)); auto. Qed.
Lemma closedD_run e h p m m' : closedD e h p -> agree (RD c a e h) m m' ->
  agree (RD c a e h) (run A (flat p) m) (run A (flat p) m').
Proof. intros HC HA l Hl. apply (run_agree A (RD c a e h)); auto. Qed.

Lemma RU_weaken e h e' h' m m' : e <= e' -> h <= h' -> agree (RU c a e h) m m' -> agree (RU c a e' h') m m'.
Proof. intros HE HH HA l Hl. apply HA. unfold RU in *. destruct (kind l) as [[]|]; auto; lia. Qed.
Lemma RD_weaken e h e' h' m m' : e' <= e -> h' <= h -> agree (RD c a e h) m m' -> agree (RD c a e' h') m m'.
Proof. intros HE HH HA l Hl. apply HA. unfold RD in *. destruct (kind l) as [[]|]; auto; lia. Qed.

Lemma timeStep_U xE xH x m m' : in_place xE -> in_place xH ->
  agree (RU c a x x) m m' ->
  agree (RU c a (x+1) (x+1)) (run A (flat (timeStep c xE xH)) m) (run A (flat (timeStep c xE xH)) m').
Proof.
  intros PE PH HA. unfold timeStep. rewrite !flat_app, !run_app.
  apply closedU_run; [apply ghostH_closed|]. apply closedU_run; [apply in_place_closed; auto|].
  apply closedU_run; [apply phaseH_closed_U; lia|].
  apply (RU_weaken (x+1) x); [lia|lia|].
  apply closedU_run; [apply ghostE_closed|]. apply closedU_run; [apply in_place_closed; auto|].
  apply closedU_run; [apply phaseE_closed_U; lia|].
  revert HA. apply RU_weaken; lia.
Qed.
Lemma timeStep_D xE xH x m m' : in_place xE -> in_place xH ->
  agree (RD c a x x) m m' ->
  agree (RD c a (x-1) (x-1)) (run A (flat (timeStep c xE xH)) m) (run A (flat (timeStep c xE xH)) m').
Proof.
  intros PE PH HA. unfold timeStep. rewrite !flat_app, !run_app.
  apply (RD_weaken x (x-1)); [lia|lia|].
  apply closedD_run; [apply ghostH_closed|]. apply closedD_run; [apply in_place_closed; auto|].
  apply closedD_run; [apply phaseH_closed_D; lia|].
  apply (RD_weaken x x); [lia|lia|].
  apply closedD_run; [apply ghostE_closed|]. apply closedD_run; [apply in_place_closed; auto|].
  apply closedD_run; [apply phaseE_closed_D; lia|]. auto.
Qed.

Lemma steps_U xE xH n : (forall t, in_place (xE t)) -> (forall t, in_place (xH t)) -> forall t x m m',
  agree (RU c a x x) m m' ->
  agree (RU c a (x + Z.of_nat n) (x + Z.of_nat n)) (run A (flat (steps c xE xH t n)) m) (run A (flat (steps c xE xH t n)) m').
Proof.
  intros PE PH. induction n; intros t x m m' HA.
  - cbn [steps flat flat_map run fold_left]. revert HA. apply RU_weaken; lia.
  - cbn [steps]. rewrite !flat_app, !run_app.
    apply (RU_weaken (x + 1 + Z.of_nat n) (x + 1 + Z.of_nat n)); [lia|lia|].
    apply IHn. apply timeStep_U; auto.
Qed.
Lemma steps_D xE xH n : (forall t, in_place (xE t)) -> (forall t, in_place (xH t)) -> forall t x m m',
  agree (RD c a x x) m m' ->
  agree (RD c a (x - Z.of_nat n) (x - Z.of_nat n)) (run A (flat (steps c xE xH t n)) m) (run A (flat (steps c xE xH t n)) m').
Proof.
  intros PE PH. induction n; intros t x m m' HA.
  - cbn [steps flat flat_map run fold_left]. revert HA. apply RD_weaken; lia.
  - cbn [steps]. rewrite !flat_app, !run_app.
    apply (RD_weaken (x - 1 - Z.of_nat n) (x - 1 - Z.of_nat n)); [lia|lia|].
    apply IHn. apply timeStep_D; auto.
Qed.
End Cone.
