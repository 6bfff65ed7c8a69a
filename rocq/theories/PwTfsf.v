(** Proof of the total-field / scattered-field property. *)
From Coq Require Import ZArith List Bool Lia Reals.
From Verif Require Import Types Lang LangProofs BBox Grid Pml Mur Ghost Step SpecGrid StepShape StepBounds StepCount StepOnce
  SpecCone StepValue PmlValue PlaneWave PwProofs SpecPhys SpecYee Linear P_Yee SpecPw.
Import ListNotations.
Open Scope Z_scope.
Local Arguments Z.mul : simpl never.
Local Arguments Z.add : simpl never.
Local Arguments Z.sub : simpl never.

Section Tfsf.
Variables (c : Cfg) (W : wf c).
Notation A := rArith.

Lemma phaseE_grid (m : mem R) f i j k : is_E f = true -> inl (gfilim c f) i j k ->
  run A (flat (phaseE c)) m (L (AF f) i j k) = eval A m (rhs (updStmt f i j k)).
Proof.
  intros E H. rewrite <- (step_gridE A c W m f i j k E H).
  pose proof (grid_lim_outer c f i j k W H) as HO.
  unfold step, coreStep, Step.timeStep. cbn [app]. rewrite !flat_app, !run_app.
  rewrite (writes_0_frame A (flat (updateGhostHfield c))) by (apply ghostH_inside; auto).
  rewrite (writes_0_frame A (flat (phaseH c))) by (apply phaseH_other; cbn; congruence).
  rewrite (writes_0_frame A (flat (updateGhostEfield c))) by (apply ghostE_inside; auto). reflexivity.
Qed.
Lemma phaseH_mesh (m : mem R) f i j k : is_E f = false -> in_meshH c f i j k ->
  run A (flat (phaseH c)) m (L (AF f) i j k) = eval A m (rhs (updStmt f i j k)).
Proof.
  intros E H. pose proof (meshH_outer c W f i j k H) as HO.
  assert (D : L (AF f) i j k = dst (updStmt (V:=R) f i j k)) by (unfold updStmt; rewrite E; reflexivity).
  rewrite D at 1. apply run_once.
  + apply in_phaseH_mesh; auto.
  + rewrite <- D, writes_phaseH, cover_value by auto. destruct f; try discriminate E; reflexivity.
  + intros l Hl. rewrite <- D. unfold updStmt in Hl. rewrite E in Hl. unfold sreads in Hl. cbn [rhs reads GAMMA F] in Hl.
    cbn [app] in Hl. destruct Hl as [<-|[<-|Hl]]; [left; reflexivity|right; apply phaseH_other; cbn; congruence|].
    right. apply phaseH_other. destruct (cE_reads c f i j k l E HO Hl) as [->|(g & i' & j' & k' & Eg & -> & _)]; cbn; congruence.
Qed.

Variable b : BBox.
Definition allOn : BFlags := fun _ => true.
Definition xE (u : Field) : list (item R) := updatePlaneWaveE u (flim c b allOn) allOn.
Definition xH (u : Field) : list (item R) := updatePlaneWaveH u (flim c b allOn) allOn.

Lemma xE_on u s : In s (flat (xE u)) -> kind (dst s) = Some true.
Proof.
  unfold xE. rewrite updE_co by apply flim_collapsed. intros H. apply in_flat in H. destruct H as (it & H1 & H2).
  apply in_map_iff in H1. destruct H1 as (o & <- & H1). apply in_coItem in H2. destruct H2 as (i & j & k & _ & ->).
  apply in_flat_map in H1. destruct H1 as (face & _ & H1). unfold coE, allOn in H1.
  destruct face; destruct H1 as [<-|[<-|[]]]; reflexivity.
Qed.
Lemma xH_on u s : In s (flat (xH u)) -> kind (dst s) = Some false.
Proof.
  unfold xH. rewrite updH_co by apply flim_collapsed. intros H. apply in_flat in H. destruct H as (it & H1 & H2).
  apply in_map_iff in H1. destruct H1 as (o & <- & H1). apply in_coItem in H2. destruct H2 as (i & j & k & _ & ->).
  apply in_flat_map in H1. destruct H1 as (face & _ & H1). unfold coH, allOn in H1.
  destruct face; destruct H1 as [<-|[<-|[]]]; reflexivity.
Qed.

(** limits of the corrections with all faces active *)
Lemma flim_on face f i j k : inlb (flim c b allOn face f) i j k = true <->
  inl (match face with
   | XLO => setFieldLimits (mkbox (b XLO - 1) (b XLO) (b YLO) (b YHI) (b ZLO) (b ZHI)) (fun g => match g with XLO => false | _ => true end)
   | XHI => setFieldLimits (mkbox (b XHI) (b XHI + 1) (b YLO) (b YHI) (b ZLO) (b ZHI)) (fun g => match g with XHI => false | _ => true end)
   | YLO => setFieldLimits (mkbox (b XLO) (b XHI) (b YLO - 1) (b YLO) (b ZLO) (b ZHI)) (fun g => match g with YLO => false | _ => true end)
   | YHI => setFieldLimits (mkbox (b XLO) (b XHI) (b YHI) (b YHI + 1) (b ZLO) (b ZHI)) (fun g => match g with YHI => false | _ => true end)
   | ZLO => setFieldLimits (mkbox (b XLO) (b XHI) (b YLO) (b YHI) (b ZLO - 1) (b ZLO)) (fun g => match g with ZLO => false | _ => true end)
   | ZHI => setFieldLimits (mkbox (b XLO) (b XHI) (b YLO) (b YHI) (b ZHI) (b ZHI + 1)) (fun g => match g with ZHI => false | _ => true end)
   end f) i j k.
Proof.
  rewrite inlb_iff. unfold flim, edgeIsActive, allOn, setBoundingBoxFromNodes, inl, setFieldLimits, setBoundingBoxBoundaryFlags, mkbox.
  destruct face; repeat match goal with |- context [if ?x && ?y then true else true] => destruct (x && y) end; destruct f; cbn [fieldIsInBoundary]; tauto.
Qed.

Definition gr (x : bool) (v : R) : R := if x then v else 0%R.
Definition gate (face : Face) (f : Fld) (i j k : Z) : bool := inlb (flim c b allOn face f) i j k.

Open Scope R_scope.
(** the value left by the electric corrections, sample by sample *)
Definition sumE (u : Field) (m : mem R) (f : Fld) (i j k : Z) : R :=
  match f with
  | EX => - gr (gate YLO EX i j k) (idh m YDIR j * u HZ i (j-1)%Z k) + gr (gate YHI EX i j k) (idh m YDIR j * u HZ i j k)
          + gr (gate ZLO EX i j k) (idh m ZDIR k * u HY i j (k-1)%Z) - gr (gate ZHI EX i j k) (idh m ZDIR k * u HY i j k)
  | EY => - gr (gate ZLO EY i j k) (idh m ZDIR k * u HX i j (k-1)%Z) + gr (gate ZHI EY i j k) (idh m ZDIR k * u HX i j k)
          + gr (gate XLO EY i j k) (idh m XDIR i * u HZ (i-1)%Z j k) - gr (gate XHI EY i j k) (idh m XDIR i * u HZ i j k)
  | EZ => gr (gate YLO EZ i j k) (idh m YDIR j * u HX i (j-1)%Z k) - gr (gate YHI EZ i j k) (idh m YDIR j * u HX i j k)
          - gr (gate XLO EZ i j k) (idh m XDIR i * u HY (i-1)%Z j k) + gr (gate XHI EZ i j k) (idh m XDIR i * u HY i j k)
  | _ => 0
  end.
Definition sumH (u : Field) (m : mem R) (f : Fld) (i j k : Z) : R :=
  match f with
  | HZ => - gr (gate YLO HZ i j k) (ide m YDIR j * u EX i (j+1)%Z k) + gr (gate YHI HZ i j k) (ide m YDIR j * u EX i j k)
          + gr (gate XLO HZ i j k) (ide m XDIR i * u EY (i+1)%Z j k) - gr (gate XHI HZ i j k) (ide m XDIR i * u EY i j k)
  | HX => gr (gate YLO HX i j k) (ide m YDIR j * u EZ i (j+1)%Z k) - gr (gate YHI HX i j k) (ide m YDIR j * u EZ i j k)
          - gr (gate ZLO HX i j k) (ide m ZDIR k * u EY i j (k+1)%Z) + gr (gate ZHI HX i j k) (ide m ZDIR k * u EY i j k)
  | HY => gr (gate ZLO HY i j k) (ide m ZDIR k * u EX i j (k+1)%Z) - gr (gate ZHI HY i j k) (ide m ZDIR k * u EX i j k)
          - gr (gate XLO HY i j k) (ide m XDIR i * u EZ (i+1)%Z j k) + gr (gate XHI HY i j k) (ide m XDIR i * u EZ i j k)
  | _ => 0
  end.

Lemma upd_data (m : mem R) f i j k v l : kind l = None -> upd m (L (AF f) i j k) v l = m l.
Proof. intros K. apply upd_other. intros ->. cbn in K. congruence. Qed.

Definition axis_free (f : Fld) (face : Face) : Prop := face_axis face <> fld_axis f.

Lemma xE_value u m f i j k : is_E f = true ->
  alpha m f i j k = 1 \/ (forall face, axis_free f face -> gate face f i j k = false) ->
  run A (flat (xE u)) m (L (AF f) i j k) = fld m f i j k + beta m f i j k * sumE u m f i j k.
Proof.
  intros E AL. unfold xE. rewrite updE_co by apply flim_collapsed.
  rewrite (run_cos A _ m m); [|apply good_E|auto].
  destruct AL as [AL|AL].
  - destruct f; try discriminate E; unfold pwFaces, coE, allOn; cbn [flat_map app]; fold allOn;
    cbn [fold_left]; unfold coStep; cbn [co_f co_lim co_s fld_eqb andb];
    unfold gate, gr, sumE, aE, sE, dHdy, dHdz, dHdx, ALPHA, BETA, F, idhx, idhy, idhz;
    cbn [eval rArith vadd vsub vmul]; rewrite ?upd_same;
    repeat match goal with |- context [upd m ?p ?v ?l] => rewrite (upd_data m) by reflexivity end;
    unfold alpha in AL; rewrite ?AL; unfold fld, beta, idh, gate, gr;
    repeat match goal with |- context [inlb ?l ?x ?y ?z] => destruct (inlb l x y z) end; ring.
  - destruct f; try discriminate E; unfold pwFaces, coE, allOn; cbn [flat_map app]; fold allOn;
    cbn [fold_left]; unfold coStep; cbn [co_f co_lim co_s fld_eqb andb]; unfold sumE;
    repeat match goal with |- context [inlb (flim c b allOn ?g ?h) i j k] => change (inlb (flim c b allOn g h) i j k) with (gate g h i j k) end;
    rewrite !AL by discriminate; unfold gr, fld; ring.
Qed.
Lemma xH_value u m f i j k : is_E f = false ->
  run A (flat (xH u)) m (L (AF f) i j k) = fld m f i j k + gamma m f i j k * sumH u m f i j k.
Proof.
  intros E. unfold xH. rewrite updH_co by apply flim_collapsed.
  rewrite (run_cos A _ m m); [|apply good_H|auto].
  destruct f; try discriminate E; unfold pwFaces, coH, allOn; cbn [flat_map app]; fold allOn;
    cbn [fold_left]; unfold coStep; cbn [co_f co_lim co_s fld_eqb andb];
    unfold gate, gr, sumH, aH, sH, dEdy, dEdz, dEdx, GAMMA, F, idex, idey, idez;
    cbn [eval rArith vadd vsub vmul]; rewrite ?upd_same;
    repeat match goal with |- context [upd m ?p ?v ?l] => rewrite (upd_data m) by reflexivity end;
    unfold fld, gamma, ide, gate, gr;
    repeat match goal with |- context [inlb ?l ?x ?y ?z] => destruct (inlb l x y z) end; ring.
Qed.
Close Scope R_scope.

(** where the corrections apply, in terms of the box *)
Definition inBox3 (f : Fld) (i j k : Z) : Prop :=
  (2 * b XLO <= 2 * i + offset f XDIR <= 2 * b XHI) /\ (2 * b YLO <= 2 * j + offset f YDIR <= 2 * b YHI) /\
  (2 * b ZLO <= 2 * k + offset f ZDIR <= 2 * b ZHI).
Lemma inBox3_iff f i j k : inBoxb b f i j k = true <-> inBox3 f i j k.
Proof.
  rewrite inBoxb_iff. unfold inBox, inBox3. split.
  - intros H. exact (conj (H XDIR) (conj (H YDIR) (H ZDIR))).
  - intros (H1 & H2 & H3) []; assumption.
Qed.
Hypothesis Hb : forall a, b (face_lo a) <= b (face_hi a).
Ltac box_facts := pose proof (Hb XDIR); pose proof (Hb YDIR); pose proof (Hb ZDIR); cbn [face_lo face_hi] in *.
Ltac gate_tac :=
  box_facts; apply eq_true_iff_eq; unfold gate; rewrite flim_on; rewrite ?negb_true_iff, <- ?not_true_iff_false, ?inBox3_iff in *;
  unfold inl, setFieldLimits, mkbox, inBox3, offset in *; cbn [fieldIsInBoundary is_E fld_axis axis_eqb] in *; lia.

Lemma gateE_in f i j k : inBoxb b f i j k = true ->
  match f with
  | EX => gate YLO EX i j k = negb (inBoxb b HZ i (j-1) k) /\ gate YHI EX i j k = negb (inBoxb b HZ i j k) /\
          gate ZLO EX i j k = negb (inBoxb b HY i j (k-1)) /\ gate ZHI EX i j k = negb (inBoxb b HY i j k)
  | EY => gate ZLO EY i j k = negb (inBoxb b HX i j (k-1)) /\ gate ZHI EY i j k = negb (inBoxb b HX i j k) /\
          gate XLO EY i j k = negb (inBoxb b HZ (i-1) j k) /\ gate XHI EY i j k = negb (inBoxb b HZ i j k)
  | EZ => gate YLO EZ i j k = negb (inBoxb b HX i (j-1) k) /\ gate YHI EZ i j k = negb (inBoxb b HX i j k) /\
          gate XLO EZ i j k = negb (inBoxb b HY (i-1) j k) /\ gate XHI EZ i j k = negb (inBoxb b HY i j k)
  | _ => True
  end.
Proof. intros B. destruct f; auto; (split; [|split; [|split]]); gate_tac. Qed.
Lemma gateE_out f i j k face : is_E f = true -> axis_free f face -> inBoxb b f i j k = false -> gate face f i j k = false.
Proof.
  intros E N B. box_facts. apply not_true_iff_false. unfold gate. rewrite flim_on. rewrite <- not_true_iff_false, inBox3_iff in B.
  unfold axis_free in N.
  destruct f; try discriminate E; destruct face; try (exfalso; apply N; reflexivity);
  unfold inl, setFieldLimits, mkbox, inBox3, offset in *; cbn [fieldIsInBoundary is_E fld_axis axis_eqb] in *; lia.
Qed.
Lemma gateE_surface f i j k face : is_E f = true -> axis_free f face -> gate face f i j k = true -> on_surface b f i j k.
Proof.
  intros E N B. split; [exact E|]. split.
  - apply inBoxb_iff. apply not_false_iff_true. intros X. rewrite (gateE_out f i j k face E N X) in B. discriminate.
  - exists face. split; [exact N|]. unfold gate in B. rewrite flim_on in B. unfold axis_free in N.
    destruct f; try discriminate E; destruct face; try (exfalso; apply N; reflexivity);
    unfold inl, setFieldLimits, mkbox in *; cbn [fieldIsInBoundary face_axis ind] in *; lia.
Qed.
Lemma gateH_out f i j k : inBoxb b f i j k = false ->
  match f with
  | HZ => gate YLO HZ i j k = inBoxb b EX i (j+1) k /\ gate YHI HZ i j k = inBoxb b EX i j k /\
          gate XLO HZ i j k = inBoxb b EY (i+1) j k /\ gate XHI HZ i j k = inBoxb b EY i j k
  | HX => gate YLO HX i j k = inBoxb b EZ i (j+1) k /\ gate YHI HX i j k = inBoxb b EZ i j k /\
          gate ZLO HX i j k = inBoxb b EY i j (k+1) /\ gate ZHI HX i j k = inBoxb b EY i j k
  | HY => gate ZLO HY i j k = inBoxb b EX i j (k+1) /\ gate ZHI HY i j k = inBoxb b EX i j k /\
          gate XLO HY i j k = inBoxb b EZ (i+1) j k /\ gate XHI HY i j k = inBoxb b EZ i j k
  | _ => True
  end.
Proof. intros B. destruct f; auto; (split; [|split; [|split]]); gate_tac. Qed.
Lemma gateH_in f i j k face : is_E f = false -> axis_free f face -> inBoxb b f i j k = true -> gate face f i j k = false.
Proof.
  intros E N B. box_facts. apply not_true_iff_false. unfold gate. rewrite flim_on. rewrite inBox3_iff in B.
  unfold axis_free in N.
  destruct f; try discriminate E; destruct face; try (exfalso; apply N; reflexivity);
  unfold inl, setFieldLimits, mkbox, inBox3, offset in *; cbn [fieldIsInBoundary is_E fld_axis axis_eqb] in *; lia.
Qed.

Open Scope R_scope.
(** ** One step *)
Variables u v : Field.
Notation stp m := (stepxx A c (xE u) (xH v) m).
Let OE := xE_on u.
Let OH := xH_on v.

Lemma stp_E m f i j k : is_E f = true -> inl (gfilim c f) i j k ->
  alpha m f i j k = 1 \/ (forall face, axis_free f face -> gate face f i j k = false) ->
  stp m (L (AF f) i j k) = alpha m f i j k * fld m f i j k + beta m f i j k * (drive m f (mkPt i j k) + sumE u m f i j k).
Proof.
  intros E H AL. rewrite (stepxx_E A c (xE u) (xH v) OH) by (cbn; congruence). unfold midE.
  rewrite writes_0_frame by (apply ghostE_inside; auto using grid_lim_outer).
  set (m1 := run A (flat (phaseE c)) m).
  assert (D : forall l, kind l = None -> m1 l = m l).
  { intros l K. apply writes_0_frame. apply phaseE_other. congruence. }
  rewrite xE_value; auto.
  2:{ unfold alpha. rewrite D by reflexivity. exact AL. }
  unfold fld at 1. unfold m1 at 1. rewrite phaseE_grid by auto. unfold updStmt. rewrite E. cbn [rhs eval ALPHA BETA F].
  rewrite drive_eval. cbn [rArith vadd vmul].
  assert (SE : sumE u m1 f i j k = sumE u m f i j k).
  { unfold sumE, idh. rewrite !D by reflexivity. reflexivity. }
  rewrite SE. unfold beta. rewrite D by reflexivity. unfold alpha, fld. ring.
Qed.
Lemma stp_H m f i j k : is_E f = false -> in_meshH c f i j k ->
  stp m (L (AF f) i j k) = fld m f i j k + gamma m f i j k * (drive (stp m) f (mkPt i j k) + sumH v m f i j k).
Proof.
  intros E H. pose proof (meshH_outer c W f i j k H) as HO.
  unfold stepxx at 1, Step.timeStep. rewrite !flat_app, !run_app.
  rewrite writes_0_frame by (apply ghostH_inside; auto).
  set (m1 := run A (flat (updateGhostEfield c)) (run A (flat (xE u)) (run A (flat (phaseE c)) m))).
  assert (M1 : m1 = midE A c (xE u) m) by reflexivity.
  set (m2 := run A (flat (phaseH c)) m1).
  assert (D1 : forall l, kind l <> Some true -> m1 l = m l).
  { intros l K. rewrite M1. apply (midE_other A c (xE u)); auto. }
  assert (D : forall l, kind l = None -> m2 l = m l).
  { intros l K. unfold m2. rewrite writes_0_frame by (apply phaseH_other; congruence). apply D1. congruence. }
  rewrite xH_value by auto. unfold fld at 1. unfold m2 at 1. rewrite phaseH_mesh by auto. unfold updStmt. rewrite E.
  cbn [rhs eval GAMMA F rArith vadd vmul].
  assert (EQ : eval A m1 (cH f i j k) = drive (stp m) f (mkPt i j k)).
  { rewrite <- drive_eval. apply eval_ext. intros l Hl. rewrite M1. symmetry. apply (stepxx_E A c (xE u) (xH v) OH).
    destruct (cE_reads c f i j k l E HO Hl) as [->|(g & i' & j' & k' & Eg & -> & _)]; cbn; congruence. }
  rewrite EQ, !D1 by (cbn; congruence).
  assert (SE : sumH v m2 f i j k = sumH v m f i j k).
  { unfold sumH, ide. rewrite !D by reflexivity. reflexivity. }
  rewrite SE. unfold gamma. rewrite D by reflexivity. unfold fld. ring.
Qed.

Ltac drv := unfold drive; cbn [is_E fld_axis]; unfold curlH, curlE, val, fld, idh, ide, total, scattered, with_fields, window;
  cbn [succA Halong Ealong move crd ptx pty ptz arr li lj lk].
Lemma zm1 (x : Z) : (x + -1 = x - 1)%Z. Proof. lia. Qed.

Lemma tot_drive m f i j k : is_E f = true -> inBoxb b f i j k = true ->
  drive m f (mkPt i j k) + sumE u m f i j k = drive (total m b u) f (mkPt i j k).
Proof.
  intros E B. pose proof (gateE_in f i j k B) as G.
  destruct f; try discriminate E; destruct G as (G1 & G2 & G3 & G4);
  unfold sumE; rewrite G1, G2, G3, G4; drv; rewrite ?zm1; unfold fld, idh, gr;
  repeat match goal with |- context [inBoxb ?q ?f ?x ?y ?z] => destruct (inBoxb q f x y z) end; cbn [negb]; ring.
Qed.
Lemma sumE_out m f i j k : is_E f = true -> inBoxb b f i j k = false -> sumE u m f i j k = 0.
Proof.
  intros E B. destruct f; try discriminate E; unfold sumE; rewrite !gateE_out by (auto; discriminate); unfold gr; ring.
Qed.
Lemma scat_drive m m' f i j k : is_E f = false -> inBoxb b f i j k = false -> (forall l, kind l = None -> m l = m' l) ->
  drive m' f (mkPt i j k) + sumH v m f i j k = drive (scattered m' b v) f (mkPt i j k).
Proof.
  intros E B D. pose proof (gateH_out f i j k B) as G.
  destruct f; try discriminate E; destruct G as (G1 & G2 & G3 & G4);
  unfold sumH, ide; rewrite G1, G2, G3, G4, !D by reflexivity; drv; unfold fld, ide, gr;
  repeat match goal with |- context [inBoxb ?q ?f ?x ?y ?z] => destruct (inBoxb q f x y z) end; ring.
Qed.
Lemma sumH_in m f i j k : is_E f = false -> inBoxb b f i j k = true -> sumH v m f i j k = 0.
Proof.
  intros E B. destruct f; try discriminate E; unfold sumH; rewrite !gateH_in by (auto; discriminate); unfold gr; ring.
Qed.

Lemma surface_or m f i j k : is_E f = true -> lossless_surface m b ->
  alpha m f i j k = 1 \/ (forall face, axis_free f face -> gate face f i j k = false).
Proof.
  intros E LS.
  destruct (existsb (fun face => negb (axis_eqb (face_axis face) (fld_axis f)) && gate face f i j k) faces) eqn:X.
  - left. apply existsb_exists in X. destruct X as (face & _ & X). apply andb_true_iff in X. destruct X as [X1 X2].
    apply LS. apply (gateE_surface f i j k face); auto. intros Y. rewrite Y in X1. destruct (fld_axis f); discriminate.
  - right. intros face N. apply not_true_iff_false. intros Y.
    assert (Z : existsb (fun face => negb (axis_eqb (face_axis face) (fld_axis f)) && gate face f i j k) faces = true).
    { apply existsb_exists. exists face. split; [destruct face; simpl; tauto|]. rewrite Y, andb_true_r. apply negb_true_iff.
      apply not_true_iff_false. intros Q. apply axis_eqb_spec in Q. exact (N Q). }
    congruence.
Qed.
(** local form *)
Lemma local_E_in m f i j k : is_E f = true -> inl (gfilim c f) i j k -> inBox b f i j k -> lossless_surface m b ->
  stp m (L (AF f) i j k) = alpha m f i j k * fld m f i j k + beta m f i j k * drive (total m b u) f (mkPt i j k).
Proof.
  intros E H B LS. apply inBoxb_iff in B. rewrite stp_E; auto.
  - rewrite tot_drive by auto. reflexivity.
  - apply surface_or; auto.
Qed.
Lemma local_E_out m f i j k : is_E f = true -> inl (gfilim c f) i j k -> ~ inBox b f i j k ->
  stp m (L (AF f) i j k) = alpha m f i j k * fld m f i j k + beta m f i j k * drive m f (mkPt i j k).
Proof.
  intros E H B. rewrite <- inBoxb_iff, not_true_iff_false in B. rewrite stp_E; auto.
  - rewrite sumE_out by auto. rewrite Rplus_0_r. reflexivity.
  - right. intros. apply gateE_out; auto.
Qed.
Lemma local_H_in m f i j k : is_E f = false -> in_meshH c f i j k -> inBox b f i j k ->
  stp m (L (AF f) i j k) = fld m f i j k + gamma m f i j k * drive (stp m) f (mkPt i j k).
Proof.
  intros E H B. apply inBoxb_iff in B. rewrite stp_H by auto. rewrite sumH_in by auto. rewrite Rplus_0_r. reflexivity.
Qed.
Lemma local_H_out m f i j k : is_E f = false -> in_meshH c f i j k -> ~ inBox b f i j k ->
  stp m (L (AF f) i j k) = fld m f i j k + gamma m f i j k * drive (scattered (stp m) b v) f (mkPt i j k).
Proof.
  intros E H B. rewrite <- inBoxb_iff, not_true_iff_false in B. rewrite stp_H by auto.
  rewrite (scat_drive m (stp m)); auto. intros l K. symmetry. apply (stepxx_data A c (xE u) (xH v) OE OH). auto.
Qed.
End Tfsf.
