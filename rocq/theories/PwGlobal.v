(** Proof of the total-field / scattered-field property, whole mesh. *)
From Coq Require Import ZArith List Bool Lia Reals.
From Verif Require Import Types Lang LangProofs BBox Grid Pml Mur Ghost Step SpecGrid StepShape StepBounds StepCount StepOnce
  SpecCone StepValue PmlValue StepRace StepCone PlaneWave PwProofs SpecPhys SpecYee Linear P_Yee SpecPw PwTfsf.
Import ListNotations.
Open Scope Z_scope.
Local Arguments Z.mul : simpl never.
Local Arguments Z.add : simpl never.
Local Arguments Z.sub : simpl never.

Section Global.
Variables (c : Cfg) (W : wf c) (b : BBox).
Hypothesis CB : clear_box (outerSurfaceType c) (gibox c) b.
Notation A := rArith.

Lemma Hb a : b (face_lo a) <= b (face_hi a).
Proof. exact (proj1 (proj2 (CB a))). Qed.
Lemma clear1 face : 1 <= clear_of (outerSurfaceType c) face.
Proof. unfold clear_of. destruct (btype_eqb _ _); lia. Qed.
Lemma clear2 face : outerSurfaceType c face = BT_MUR -> clear_of (outerSurfaceType c) face = 2.
Proof. unfold clear_of. intros ->. reflexivity. Qed.

Ltac box_facts :=
  pose proof (CB XDIR); pose proof (CB YDIR); pose proof (CB ZDIR);
  pose proof (clear1 XLO); pose proof (clear1 XHI); pose proof (clear1 YLO); pose proof (clear1 YHI);
  pose proof (clear1 ZLO); pose proof (clear1 ZHI); cfg_facts c W.

(** samples outside the box, and H samples away from it *)
Definition Out (l : Loc) : Prop := match arr l with AF f => ~ inBox3 b f (li l) (lj l) (lk l) | _ => True end.
Definition grown : BBox := mkbox (b XLO - 1) (b XHI + 1) (b YLO - 1) (b YHI + 1) (b ZLO - 1) (b ZHI + 1).
Definition Far (l : Loc) : Prop :=
  match arr l with
  | AF f => if is_E f then ~ inBox3 b f (li l) (lj l) (lk l) else ~ inBox3 grown f (li l) (lj l) (lk l)
  | _ => True
  end.
Definition closed (Q : Loc -> Prop) (p : list (item R)) : Prop :=
  forall s, In s (flat p) -> Q (dst s) -> forall l, In l (sreads s) -> Q l.

Ltac fin := unfold Out, Far; cbn [dst arr li lj lk is_E]; first [intros _; exact I | exact (fun x => x) |
  unfold inBox3, grown, offset, mkbox; cbn [is_E fld_axis axis_eqb]; lia].

Lemma pml_out r f i j k : outerSurfaceType c r = BT_PML -> inl (fplim c r f) i j k ->
  match r with
  | XLO => 2 * i + offset f XDIR < 2 * gibox c XLO | XHI => 2 * i + offset f XDIR > 2 * gibox c XHI
  | YLO => 2 * j + offset f YDIR < 2 * gibox c YLO | YHI => 2 * j + offset f YDIR > 2 * gibox c YHI
  | ZLO => 2 * k + offset f ZDIR < 2 * gibox c ZLO | ZHI => 2 * k + offset f ZDIR > 2 * gibox c ZHI
  end.
Proof.
  intros T H. unfold inl, fplim, setFieldLimits, pmlInclude, pbox, mkbox, setBoundingBoxBoundaryFlags, offset in *.
  cfg_facts c W.
  destruct r, f; cbn [fieldIsInBoundary is_E fld_axis axis_eqb] in *; lia.
Qed.

Lemma phaseE_closed : closed Out (phaseE c).
Proof.
  intros s Hs HD l Hl. revert HD. apply phaseE_shape in Hs.
  destruct Hs as [r f i j k s E T H Hs|face f i j k s E T N H Hs|f i j k s E H Hs].
  - apply (pml_out r f i j k T) in H. box_facts. clear T.
    destruct f; try discriminate E; cbn [pmlF] in Hs;
    unfold pmlEx, pmlEy, pmlEz, pmlEbody in Hs; split_in Hs; subst s; open_reads Hl; subst l;
    unfold Out; cbn [dst arr li lj lk]; try (intros _; exact I); try exact (fun x => x);
    intros _; destruct r; unfold inBox3, offset in *; cbn [is_E fld_axis axis_eqb] in *; lia.
  - pose proof (mur_facts c face f i j k T E N H) as MF. pose proof (clear2 face T) as C2. box_facts. clear T H.
    unfold murBody in Hs. cbn zeta in Hs.
    destruct face; cbn [face_axis] in *; unfold inw in *; cbn [axis_eqb face_axis is_lo] in *;
    destruct f; try discriminate E; try (exfalso; apply N; reflexivity); clear N;
    destruct Hs as [<-|[<-|[]]]; open_reads Hl; subst l;
    unfold Out; cbn [dst arr li lj lk]; try (intros _; exact I); try exact (fun x => x);
    intros _; unfold inBox3, offset in *; cbn [is_E fld_axis axis_eqb] in *; lia.
  - clear H. destruct f; try discriminate E; destruct Hs as [<-|[]]; open_reads Hl; subst l; fin.
Qed.
Lemma phaseH_closed : closed Far (phaseH c).
Proof.
  intros s Hs HD l Hl. revert HD. apply phaseH_shape in Hs.
  assert (U : forall f i j k, is_E f = false -> In s (updF f i j k) -> Far (dst s) -> Far l).
  { intros f i j k E H. destruct f; try discriminate E; destruct H as [<-|[]]; open_reads Hl; subst l; fin. }
  destruct Hs as [r f i j k s E T H Hs|face f i j k s E T N H Hs|f i j k s E H Hs]; eauto.
  apply (pml_out r f i j k T) in H. box_facts. clear T.
  destruct f; try discriminate E; cbn [pmlF] in Hs;
  unfold pmlHx, pmlHy, pmlHz, pmlHbody in Hs; split_in Hs; subst s; open_reads Hl; subst l;
  unfold Far; cbn [dst arr li lj lk is_E]; try (intros _; exact I); try exact (fun x => x);
  destruct r; unfold inBox3, grown, offset, mkbox in *; cbn [is_E fld_axis axis_eqb] in *; lia.
Qed.
Lemma ghost_out e s : stG (V:=R) c e s -> forall l, In l (sreads s) -> Out l.
Proof.
  intros H l Hl. destruct H as [face f p q src s B E T Hp Hq Hs].
  assert (X : l = at_axis (AF f) (face_axis face) src p q).
  { destruct Hs as [->|[-> _]]; cbn in Hl; destruct Hl as [<-|[]]; auto. }
  subst l. clear Hs Hl. unfold Out.
  assert (S2 : src = insideIdx c face \/ src = wrapIdx c face) by tauto. clear T.
  box_facts. unfold insideIdx, wrapIdx, inBox3, offset in *.
  destruct face; cbn [at_axis arr face_axis li lj lk is_lo face_lo face_hi] in *; destruct f; try discriminate B;
  cbn [is_E fld_axis axis_eqb] in *; lia.
Qed.
Lemma ghostE_closed : closed Out (updateGhostEfield c).
Proof. intros s Hs _ l Hl. apply ghostE_shape in Hs. eapply ghost_out; eauto. Qed.
Lemma ghostH_closed : closed Out (updateGhostHfield c).
Proof. intros s Hs _ l Hl. apply ghostH_shape in Hs. eapply ghost_out; eauto. Qed.

Open Scope R_scope.
(** phases keep what they cannot reach at zero *)
Definition still (m : mem R) : mem R := fun l => match kind l with None => m l | Some _ => 0 end.
Lemma still_quiet m p l : (forall s, In s (flat p) -> In s (flat (coreStep (V:=R) c))) -> is_state l ->
  run A (flat p) (still m) l = 0.
Proof.
  intros Hp Hl.
  assert (S : sup_mem 0 0 (still m) (still m) (still m)).
  { split; [auto|]. intros l' Hl'. unfold still, is_state in *. destruct (kind l'); [ring|congruence]. }
  destruct (sup_run 0 0 (flat p) (flat p) (flat p) (lin_prog 0 0 (flat p) (fun s Hs => coreStep_lin c s (Hp s Hs))) _ _ _ S) as [_ X].
  rewrite X by auto. ring.
Qed.
Lemma zero_on Q p m l : closed Q p -> (forall s, In s (flat p) -> In s (flat (coreStep (V:=R) c))) ->
  (forall l, Q l -> is_state l -> m l = 0) -> Q l -> is_state l -> run A (flat p) m l = 0.
Proof.
  intros HC Hp HZ Ql Sl. rewrite <- (still_quiet m p l Hp Sl). apply (run_agree A Q); auto.
  intros l' Hl'. unfold still. specialize (HZ l' Hl'). unfold is_state in HZ. destruct (kind l') eqn:K; auto.
  apply HZ. congruence.
Qed.
Lemma in_core s : In s (flat (phaseE (V:=R) c)) \/ In s (flat (updateGhostEfield c)) \/
      In s (flat (phaseH c)) \/ In s (flat (updateGhostHfield c)) -> In s (flat (coreStep c)).
Proof. intros Hs. unfold coreStep, Step.timeStep. cbn [app]. rewrite !flat_app, !in_app_iff. tauto. Qed.

Variables (u v : Field).
Notation stp m := (stepxx A c (xE c b u) (xH c b v) m).

Lemma notin f i j k : ~ inBox3 b f i j k -> inBoxb b f i j k = false.
Proof. intros H. apply not_true_iff_false. rewrite inBox3_iff. exact H. Qed.


Lemma xE_dst s : In s (flat (xE c b u)) -> exists f i j k, is_E f = true /\ dst s = L (AF f) i j k.
Proof.
  unfold xE. rewrite updE_co by apply flim_collapsed. intros H. apply in_flat in H. destruct H as (it & H1 & H2).
  apply in_map_iff in H1. destruct H1 as (o & <- & H1). apply in_coItem in H2. destruct H2 as (i & j & k & _ & ->).
  apply in_flat_map in H1. destruct H1 as (face & _ & H1). unfold coE, allOn in H1.
  destruct face; destruct H1 as [<-|[<-|[]]]; cbn [co_f dst]; match goal with |- exists f i0 j0 k0, _ /\ L (AF ?g) _ _ _ = _ => exists g, i, j, k end; split; reflexivity.
Qed.
Lemma xH_dst s : In s (flat (xH c b v)) -> exists f i j k, is_E f = false /\ dst s = L (AF f) i j k.
Proof.
  unfold xH. rewrite updH_co by apply flim_collapsed. intros H. apply in_flat in H. destruct H as (it & H1 & H2).
  apply in_map_iff in H1. destruct H1 as (o & <- & H1). apply in_coItem in H2. destruct H2 as (i & j & k & _ & ->).
  apply in_flat_map in H1. destruct H1 as (face & _ & H1). unfold coH, allOn in H1.
  destruct face; destruct H1 as [<-|[<-|[]]]; cbn [co_f dst]; match goal with |- exists f i0 j0 k0, _ /\ L (AF ?g) _ _ _ = _ => exists g, i, j, k end; split; reflexivity.
Qed.

Lemma xE_out m l : Out l -> run A (flat (xE c b u)) m l = m l.
Proof.
  intros O. destruct (kind l) as [[]|] eqn:K.
  2,3: apply writes_0_frame, flat_zero; intros s Hs X; apply xE_on in Hs; rewrite X in Hs; congruence.
  destruct l as [a i j k].
  assert (D : (exists f, a = AF f) \/ forall f, a <> AF f) by (destruct a; eauto; right; discriminate).
  destruct D as [[f ->]|D].
  - assert (E : is_E f = true) by (cbn in K; congruence). unfold Out in O. cbn [arr li lj lk] in O.
    assert (G : forall face, axis_free f face -> gate c b face f i j k = false)
      by (intros; apply gateE_out; auto using Hb, notin).
    rewrite xE_value by (auto; right; auto).
    rewrite sumE_out by (auto using Hb, notin). unfold fld. ring.
  - apply writes_0_frame, flat_zero. intros s Hs X. apply xE_dst in Hs. destruct Hs as (f & i' & j' & k' & _ & Hs).
    rewrite X in Hs. injection Hs. intros _ _ _ ->. exact (D f eq_refl).
Qed.
Lemma xH_far m l : Far l -> run A (flat (xH c b v)) m l = m l.
Proof.
  intros O. destruct (kind l) as [[]|] eqn:K.
  1,3: apply writes_0_frame, flat_zero; intros s Hs X; apply xH_on in Hs; rewrite X in Hs; congruence.
  destruct l as [a i j k].
  assert (D : (exists f, a = AF f) \/ forall f, a <> AF f) by (destruct a; eauto; right; discriminate).
  destruct D as [[f ->]|D].
  - assert (E : is_E f = false) by (cbn in K; congruence). unfold Far in O. cbn [arr li lj lk] in O. rewrite E in O.
    rewrite xH_value by auto.
    assert (B : inBoxb b f i j k = false).
    { apply notin. intros X. apply O. revert X. unfold inBox3, grown, mkbox. lia. }
    pose proof (gateH_out c b Hb f i j k B) as G.
    assert (NE : forall g i' j' k', is_E g = true -> (i <= i' <= i+1)%Z -> (j <= j' <= j + 1)%Z -> (k <= k' <= k + 1)%Z -> inBoxb b g i' j' k' = false).
    { intros g i' j' k' Eg Hi Hj Hk. apply notin. intros X. apply O. revert X. unfold inBox3, grown, mkbox, offset. rewrite E, Eg.
      destruct f, g; try discriminate; cbn [fld_axis axis_eqb]; lia. }
    destruct f; try discriminate E; destruct G as (G1 & G2 & G3 & G4); unfold sumH; rewrite G1, G2, G3, G4;
    rewrite !NE by (auto; lia); unfold gr, fld; ring.
  - apply writes_0_frame, flat_zero. intros s Hs X. apply xH_dst in Hs. destruct Hs as (f & i' & j' & k' & _ & Hs).
    rewrite X in Hs. injection Hs. intros _ _ _ ->. exact (D f eq_refl).
Qed.

(** the state is [u] inside the box and nothing anywhere else *)
Definition holds_only (m : mem R) (w : Field) : Prop := forall l, is_state l ->
  m l = match arr l with AF f => window b w f (li l) (lj l) (lk l) | _ => 0 end.

Lemma drive_ext m m' f i j k :
  (forall l, In l (reads (cH (V:=R) f i j k)) -> m l = m' l) -> drive m f (mkPt i j k) = drive m' f (mkPt i j k).
Proof. intros H. rewrite <- !drive_eval. apply eval_ext. exact H. Qed.
Lemma drive_zero m f i j k :
  (forall l, In l (reads (cH (V:=R) f i j k)) -> is_state l -> m l = 0) -> drive m f (mkPt i j k) = 0.
Proof.
  intros H. rewrite <- drive_eval.
  destruct f; cbn [cH] in *; unfold cHx, cHy, cHz, cEx, cEy, cEz, curl_Hx, curl_Hy, curl_Hz, curl_Ex, curl_Ey, curl_Ez, F in *;
  cbn [eval reads app] in *; cbn [rArith vadd vsub vmul];
  repeat match goal with |- context [m (L (AF ?g) ?x ?y ?z)] => rewrite (H (L (AF g) x y z)) by (first [cbn; tauto|discriminate]) end; ring.
Qed.
Lemma win_in w f i j k : inBox3 b f i j k -> window b w f i j k = w f i j k.
Proof. intros H. unfold window. apply inBox3_iff in H. rewrite H. reflexivity. Qed.
Lemma win_out w f i j k : ~ inBox3 b f i j k -> window b w f i j k = 0.
Proof. intros H. unfold window. rewrite notin by auto. reflexivity. Qed.
Lemma inBox3_dec f i j k : inBox3 b f i j k \/ ~ inBox3 b f i j k.
Proof. rewrite <- inBox3_iff. destruct (inBoxb b f i j k); [left; auto|right; discriminate]. Qed.
Lemma ho_out m w l : holds_only m w -> Out l -> is_state l -> m l = 0.
Proof.
  intros H O S. rewrite (H l S). unfold Out in O. destruct (arr l); auto. apply win_out. exact O.
Qed.
Lemma Out_dec l : Out l \/ exists f i j k, l = L (AF f) i j k /\ inBox3 b f i j k.
Proof.
  destruct l as [a i j k]. destruct a; try (left; exact I).
  destruct (inBox3_dec f i j k); [right; eauto 6|left; auto].
Qed.

Lemma box_gfilim f i j k : is_E f = true -> inBox3 b f i j k -> inl (gfilim c f) i j k.
Proof.
  intros E H. unfold inl, gfilim, setFieldLimits, inBox3, offset in *. box_facts. rewrite E in H.
  destruct f; try discriminate E; cbn [fieldIsInBoundary fld_axis axis_eqb] in *;
  repeat match goal with |- context [if ?q then _ else _] => destruct q end; lia.
Qed.
Lemma grown_meshH f i j k : is_E f = false -> inBox3 grown f i j k -> in_meshH c f i j k.
Proof.
  intros E H. unfold in_meshH, inl, setFieldLimits, inBox3, grown, mkbox, offset in *. box_facts. rewrite E in H.
  destruct f; try discriminate E; cbn [fieldIsInBoundary fld_axis axis_eqb] in *; lia.
Qed.
Lemma box_grown f i j k : inBox3 b f i j k -> inBox3 grown f i j k.
Proof. unfold inBox3, grown, mkbox. lia. Qed.
(** an H sample of the box sees only E samples of the box *)
Lemma H_in_reads f i j k l : is_E f = false -> inBox3 b f i j k -> In l (reads (cH (V:=R) f i j k)) -> is_state l ->
  exists g i' j' k', l = L (AF g) i' j' k' /\ is_E g = true /\ inBox3 b g i' j' k'.
Proof.
  intros E H Hl S. destruct f; try discriminate E; open_reads Hl; subst l; try (exfalso; apply S; reflexivity);
  match goal with |- exists _ _ _ _, L (AF ?q) ?x ?y ?z = _ /\ _ => exists q, x, y, z end; split; auto; split; auto;
  unfold inBox3, offset in *; cbn [is_E fld_axis axis_eqb] in *; lia.
Qed.

Lemma tfsf_one m : holds_only m u -> lossless_surface m b ->
  (forall f i j k, inBox b f i j k -> v f i j k =
     if is_E f then alpha m f i j k * u f i j k + beta m f i j k * drive (with_fields m u) f (mkPt i j k)
     else u f i j k + gamma m f i j k * drive (with_fields m v) f (mkPt i j k)) ->
  holds_only (stp m) v /\ forall l, is_data l -> stp m l = m l.
Proof.
  intros HO LS EQ.
  assert (OE := xE_on c b u). assert (OH := xH_on c b v).
  assert (IB : forall f i j k, inBox3 b f i j k -> inBox b f i j k).
  { intros. apply inBoxb_iff, inBox3_iff. auto. }
  assert (DAT : forall l, is_data l -> stp m l = m l).
  { intros l K. apply (stepxx_data A c _ _ OE OH). exact K. }
  split; [|exact DAT].
  (* electric field outside *)
  assert (Z0 : forall l, Out l -> is_state l -> m l = 0) by (intros; eapply ho_out; eauto).
  assert (Z1 : forall l, Out l -> is_state l -> midE A c (xE c b u) m l = 0).
  { intros l. unfold midE. apply zero_on; [apply ghostE_closed|intros; apply in_core; tauto|].
    intros l1 O1 S1. rewrite xE_out by auto. revert l1 O1 S1.
    intros l1. apply zero_on; [apply phaseE_closed|intros; apply in_core; tauto|]. auto. }
  assert (ZE : forall l, Out l -> kind l = Some true -> stp m l = 0).
  { intros l O K. rewrite (stepxx_E A c _ _ OH) by congruence. apply Z1; auto. unfold is_state. congruence. }
  (* electric field inside *)
  assert (TOT : forall l, total m b u l = with_fields m u l).
  { intros [a i j k]. unfold total, with_fields. cbn [arr li lj lk]. destruct a; auto.
    unfold fld. rewrite HO by discriminate. cbn [arr li lj lk]. unfold window. destruct (inBoxb b f i j k); ring. }
  assert (IE : forall f i j k, is_E f = true -> inBox3 b f i j k -> stp m (L (AF f) i j k) = v f i j k).
  { intros f i j k E B. rewrite (local_E_in c W b Hb u v) by (auto using box_gfilim).
    rewrite EQ by auto. rewrite E. f_equal.
    - f_equal. unfold fld. rewrite HO by discriminate. cbn [arr li lj lk]. apply win_in. auto.
    - f_equal. apply drive_ext. intros. apply TOT. }
  (* magnetic field *)
  assert (IH : forall f i j k, is_E f = false -> inBox3 b f i j k -> stp m (L (AF f) i j k) = v f i j k).
  { intros f i j k E B. rewrite (local_H_in c W b Hb u v) by (auto using grown_meshH, box_grown).
    rewrite EQ by auto. rewrite E. f_equal.
    - unfold fld. rewrite HO by discriminate. cbn [arr li lj lk]. apply win_in. auto.
    - f_equal. apply drive_ext. intros l Hl. destruct (kind l) eqn:K.
      + destruct (H_in_reads f i j k l E B Hl) as (g & i' & j' & k' & -> & Eg & Bg).
        { unfold is_state. congruence. }
        rewrite IE by auto. reflexivity.
      + rewrite DAT by exact K. unfold with_fields. destruct l as [[] ? ? ?]; auto. discriminate K. }
  assert (NH : forall f i j k, is_E f = false -> ~ inBox3 b f i j k -> inBox3 grown f i j k -> stp m (L (AF f) i j k) = 0).
  { intros f i j k E B G. rewrite (local_H_out c W b Hb u v); auto using grown_meshH.
    2:{ rewrite <- inBoxb_iff, inBox3_iff. exact B. }
    unfold fld. rewrite Z0; [|exact B|discriminate].
    rewrite drive_zero; [ring|]. intros l Hl Sl.
    destruct (cE_reads c f i j k l E (meshH_outer c W f i j k (grown_meshH f i j k E G)) Hl) as [K|(g & i' & j' & k' & Eg & -> & _)].
    { exfalso. apply Sl. exact K. }
    unfold scattered, with_fields, fld. cbn [arr li lj lk].
    destruct (inBox3_dec g i' j' k') as [Bg|Bg].
    - rewrite IE, win_in by auto. ring.
    - rewrite ZE, win_out; auto. ring. cbn. congruence. }
  assert (ZF : forall l, Out l -> is_state l -> stp m l = 0).
  { unfold stepxx at 1, Step.timeStep. rewrite !flat_app. intros l. rewrite !run_app.
    change (run A (flat (updateGhostEfield c)) (run A (flat (xE c b u)) (run A (flat (phaseE c)) m))) with (midE A c (xE c b u) m).
    apply zero_on; [apply ghostH_closed|intros; apply in_core; tauto|].
    intros l1 O1 S1.
    assert (FD : Far l1 \/ exists f i j k, l1 = L (AF f) i j k /\ is_E f = false /\ inBox3 grown f i j k).
    { destruct l1 as [a i j k]. destruct a; try (left; exact I). unfold Far. cbn [arr li lj lk]. destruct (is_E f) eqn:E; [left; exact O1|].
      destruct (inBoxb grown f i j k) eqn:G; [right; exists f, i, j, k; split; auto; split; auto; apply inBox3_iff; auto|].
      left. rewrite <- inBox3_iff. congruence. }
    destruct FD as [FD|(f & i & j & k & -> & E & G)].
    - rewrite xH_far by auto. revert FD S1. apply zero_on; [apply phaseH_closed|intros; apply in_core; tauto|].
      intros l2 F2 S2. apply Z1; auto. revert F2. unfold Far, Out. destruct (arr l2); auto. destruct (is_E f); auto.
      intros X Y. apply X. apply box_grown. exact Y.
    - rewrite <- (NH f i j k E O1 G) at 1. unfold stepxx, Step.timeStep. rewrite !flat_app, !run_app.
      rewrite (writes_0_frame A (flat (updateGhostHfield c))); [reflexivity|].
      apply ghostH_inside; auto. apply meshH_outer; auto. apply grown_meshH; auto. }
  intros l Sl. destruct (Out_dec l) as [O|(f & i & j & k & -> & B)].
  - rewrite ZF by auto. unfold Out in O. destruct (arr l); auto. symmetry. apply win_out. exact O.
  - cbn [arr li lj lk]. rewrite win_in by auto. destruct (is_E f) eqn:E; auto.
Qed.
End Global.
