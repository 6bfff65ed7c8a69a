(** C27, the program's own plane waves: axis-parallel incidence on a cubic mesh
    (auxiliary grid), from rest, all the way. *)
From Coq Require Import ZArith String List Bool Lia Reals Lra.
From Verif Require Import Types Lang LangProofs BBox Grid CArr Edges PmlProfile Setup SetupProofs Step SpecGrid SpecCone PlaneWave PwProofs StepShape StepCount StepOnce SpecPhys SpecYee Linear
  SpecPw SpecPwAxis PwTfsf PwGlobal P_Setup P_PlaneWave P_Pml P_PwVectors PwAux P_PwAux PwAxis PwPhase.
Import ListNotations.
Open Scope R_scope.
Local Arguments Z.mul : simpl never.
Local Arguments Z.add : simpl never.
Local Arguments Z.sub : simpl never.

(** One step of the simulation with one plane wave, cubic mesh: planewave.c:578-1003
    with useAuxGrid.  [w] is the waveform value of the step.  The update of the
    auxiliary H (planewave.c:802-803) touches only the auxiliary arrays, so it is
    written before the main grid's step here. *)
Definition pwAuxStep (c : Cfg) (p : PW) (o : Axis -> Z) (w : R) (s : mem R * Aux) : option (mem R * Aux) :=
  let b := pwGbbox c p in
  let inc := incAux (pw_size p) (pw_theta p) (pw_phi p) (pw_eta p) o in
  do x1 <- updateAuxE b w (snd s); do x2 <- updateAuxH b x1;
  Some (run rArith (flat (Step.timeStep c (updatePlaneWaveE (inc x1) (pwFlim c p) (pw_active p))
                                          (updatePlaneWaveH (inc x2) (pwFlim c p) (pw_active p)))) (fst s), x2).
Fixpoint pwAuxSteps (c : Cfg) (p : PW) (o : Axis -> Z) (w : nat -> R) (n : nat) (s : mem R * Aux) : option (mem R * Aux) :=
  match n with O => Some s | Datatypes.S n => do s <- pwAuxSteps c p o w n s; pwAuxStep c p o (w n) s end.
(** planewave.c:276-352 initPlaneWaves, GT_CUBIC, for one plane wave, then [n]
    steps; [d] is the cell size *)
Definition pwSimulate (c : Cfg) (p : PW) (dt d : R) (w : nat -> R) (n : nat) (m : mem R) : option (mem R) :=
  do o <- origin (pwGbbox c p) (pw_theta p) (pw_phi p);
  let x0 := initAux (pwGbbox c p) dt d (relPhaseVelocity (fun _ => d) dt (pw_theta p) (pw_phi p)) in
  do s <- pwAuxSteps c p o w n (m, x0); Some (fst s).

(** the E corrections use incident H only, the H corrections incident E only *)
Lemma updE_incH (inc inc' : Field) fl act : (forall f, is_E f = false -> inc f = inc' f) -> updatePlaneWaveE inc fl act = updatePlaneWaveE inc' fl act.
Proof. intros H. unfold updatePlaneWaveE, pwE. rewrite !(H HX), !(H HY), !(H HZ) by reflexivity. reflexivity. Qed.

(** the one-dimensional wave that travels along the axis: [e n q], [h n q] after
    [n] steps, cells [q] = 0, 1, ... of size [d]; [w] is imposed at cell 0 *)
Record line_wave (dt d : R) (w : nat -> R) (last : Z) (e h : nat -> Z -> R) : Prop := {
  lw_e0 : forall q, e 0%nat q = 0; lw_h0 : forall q, h 0%nat q = 0;
  lw_src : forall n, e (Datatypes.S n) 0%Z = w n;
  lw_e : forall n q, (1 <= q <= last)%Z -> e (Datatypes.S n) q = e n q + dt / (eps0 * d) * (h n (q - 1)%Z - h n q);
  lw_h : forall n q, (0 <= q <= last)%Z -> h (Datatypes.S n) q = h n q + dt / (mu0 * d) * (e (Datatypes.S n) q - e (Datatypes.S n) (q + 1)%Z) }.

Lemma steps_app {V} c (xE xH : nat -> list (item V)) n1 n2 t : steps c xE xH t (n1 + n2) = steps c xE xH t n1 ++ steps c xE xH (t + n1) n2.
Proof.
  revert t. induction n1; intros t; cbn [steps Nat.add].
  - rewrite Nat.add_0_r. reflexivity.
  - rewrite IHn1, <- app_assoc, Nat.add_succ_r. reflexivity.
Qed.
Lemma auxStep_src g w x x' : aux_ok g x -> auxStep g w x = Some x' -> adat (Eyi x') 0%Z = w.
Proof.
  intros OK H. unfold auxStep in H. destruct (auxE_ok g w x OK) as (x1 & E1 & O1 & H1 & B1 & G1 & S1 & V1). rewrite E1 in H. cbn [obind] in H.
  destruct (auxH_ok g x1 O1) as (x2 & E2 & O2 & H2 & _). rewrite E2 in H. injection H as <-. rewrite H2. exact S1.
Qed.

Theorem C27_axis : forall nx ny nz reg c, setupCfg nx ny nz reg = Some c ->
  forall p, all_faces p -> let b := pwGbbox c p in clear_box (outerSurfaceType c) (gibox c) b ->
  forall a fw, along (pw_theta p) (pw_phi p) a fw ->
  forall dt d, 0 < d -> 0 < dt -> 8 / 23 * d <= c0 * dt ->
  forall m, quiet m -> free_space_box m b a dt d ->
  forall w, exists e h, line_wave dt d w (b (face_hi a) - b (face_lo a) + 5) e h /\
  forall n, exists m', pwSimulate c p dt d w n m = Some m' /\
  (forall f i j k, inBox b f i j k ->
     let q := (if fw then ind i j k a - b (face_lo a) else b (face_hi a) - ind i j k a)%Z in
     fld m' f i j k = Finc (pw_size p) (pw_theta p) (pw_phi p) (pw_eta p) f *
        (if is_E f then e n (2 + q)%Z else eta0 * h n (2 + q - if fw then 0 else 1)%Z)) /\
  (forall l, is_state l -> (forall f i j k, inBox b f i j k -> l <> L (AF f) i j k) -> m' l = 0).
Proof.
  intros nx ny nz reg c HC p AF b CB a fw AL dt d D T CN m QM FS w.
  set (th := pw_theta p) in *. set (ph := pw_phi p) in *. set (et := pw_eta p). set (size := pw_size p).
  destruct (along_range _ _ _ _ AL) as [RT RP]. destruct (C28_origin b th ph RT RP) as (o & HO & _).
  assert (HB : forall a, (b (face_lo a) <= b (face_hi a))%Z) by (intros a'; apply CB).
  set (x0 := initAux b dt d (relPhaseVelocity (fun _ => d) dt th ph)).
  assert (REL : relPhaseVelocity (fun _ => d) dt th ph = 1).
  { apply (rel_axis d dt th ph a fw AL). pose proof (npv_pos d dt D T CN). lra. }
  assert (OK0 : aux_ok b x0) by apply init_ok.
  pose proof eps0_pos as PE. pose proof mu0_pos as PM.
  assert (BE : betaEyi x0 = dt / (eps0 * d)) by (unfold x0; rewrite REL; cbn [initAux betaEyi]; field; lra).
  assert (GH : gammaHzi x0 = dt / (mu0 * d)) by (unfold x0; rewrite REL; cbn [initAux gammaHzi]; field; lra).
  set (X := fun n => match auxRun b w n x0 with Some x => x | None => x0 end).
  assert (XR : forall n, auxRun b w n x0 = Some (X n) /\ aux_ok b (X n) /\ betaEyi (X n) = dt / (eps0 * d) /\ gammaHzi (X n) = dt / (mu0 * d)).
  { intros n. destruct (auxRun_ok b w n x0 OK0) as (x & E & O & B & G). unfold X. rewrite E. repeat split; auto; try apply O; congruence. }
  assert (XS : forall n, auxStep b (w n) (X n) = Some (X (Datatypes.S n))).
  { intros n. destruct (XR (Datatypes.S n)) as [E _]. destruct (XR n) as [E' _]. cbn [auxRun] in E. rewrite E' in E. exact E. }
  assert (XE : forall n, (forall i, (1 <= i < auxXb b)%Z -> adat (Eyi (X (Datatypes.S n))) i = adat (Eyi (X n)) i + dt / (eps0 * d) * (adat (Hzi (X n)) (i-1)%Z - adat (Hzi (X n)) i)) /\
    (forall i, (0 <= i < auxXb b)%Z -> adat (Hzi (X (Datatypes.S n))) i = adat (Hzi (X n)) i + dt / (mu0 * d) * (adat (Eyi (X (Datatypes.S n))) i - adat (Eyi (X (Datatypes.S n))) (i+1)%Z))).
  { intros n. destruct (XR n) as (_ & O & B & G). destruct (auxStep_ok b (w n) (X n) O) as (x' & E & _ & _ & _ & V1 & V2).
    rewrite XS in E. injection E as <-. rewrite B in V1. rewrite G in V2. split; [exact V1|exact V2]. }
  set (inc := fun n => incAux size th ph et o (X n)).
  assert (OB : obeys m b inc).
  { intros n f i j k B. destruct (XE n) as [E1 E2]. apply (obeys_one b th ph et size a fw o (HB a) AL HO dt d); auto; try apply XR; lra. }
  assert (LS : lossless_surface m b).
  { intros f i j k (E & B & _). destruct FS as [FS _]. specialize (FS f i j k B). rewrite E in FS. apply FS. }
  assert (I0 : forall f i j k, inc 0%nat f i j k = 0).
  { intros. unfold inc, X. cbn [auxRun]. unfold incAux, incidentFieldAuxGrid, auxLookup, x0, initAux, rd. cbn [Eyi Hzi].
    destruct (is_E f); repeat match goal with |- context [if ?q then Some _ else None] => destruct q end; cbn [obind adat]; ring. }
  assert (HO0 : holds_only b m (inc 0%nat)).
  { intros l Sl. rewrite (QM l Sl). destruct l as [q i j k]; cbn [arr li lj lk]. destruct q; try reflexivity.
    unfold window. rewrite I0. destruct (inBoxb _ _ _ _ _); reflexivity. }
  assert (SIM : forall n, pwAuxSteps c p o w n (m, x0) = Some (pwRun c p inc n m, X n)).
  { induction n as [|n IH]; [reflexivity|]. cbn [pwAuxSteps]. rewrite IH. cbn [obind]. unfold pwAuxStep. cbn [fst snd]. fold b th ph et size.
    pose proof (XS n) as E. unfold auxStep in E. destruct (XR n) as (_ & O & _ & _).
    destruct (auxE_ok b (w n) (X n) O) as (x1 & E1 & O1 & H1 & _). rewrite E1 in E |- *. cbn [obind] in E |- *. rewrite E. cbn [obind].
    do 2 f_equal. unfold pwRun. rewrite <- Nat.add_1_r, steps_app, flat_app, run_app. cbn [steps Nat.add]. rewrite app_nil_r.
    unfold pwItemsE, pwItemsH. rewrite (updE_incH (incAux size th ph et o x1) (inc n)); [rewrite Nat.add_1_r; reflexivity|].
    intros f Ef. unfold inc, incAux, incidentFieldAuxGrid, auxLookup. rewrite Ef, H1. reflexivity. }
  exists (fun n => adat (Eyi (X n))), (fun n => adat (Hzi (X n))).
  pose proof (xb_diag b) as XB. pose proof (len_diag b a (HB a)) as LD.
  split.
  - split.
    + reflexivity.
    + reflexivity.
    + intros n. apply (auxStep_src b _ (X n)); [apply XR|apply XS].
    + intros n q Hq. apply (proj1 (XE n)). lia.
    + intros n q Hq. apply (proj2 (XE n)). lia.
  - intros n. exists (pwRun c p inc n m). split.
    { unfold pwSimulate. fold b th ph. rewrite HO. cbn [obind]. fold x0. rewrite SIM. reflexivity. }
    destruct (C27_injection nx ny nz reg c HC p AF CB inc m LS OB HO0 n) as [IN OUT].
    split; [|exact OUT].
    intros f i j k B q. rewrite (IN f i j k B). unfold inc. destruct (XR n) as (_ & O & _).
    pose proof (B a) as Ba.
    destruct (axis_eqb (fld_axis f) a) eqn:FA.
    + assert (Z : Finc size th ph et f = 0).
      { destruct (is_E f) eqn:E.
        - replace f with (Ealong a); [apply (along_E0 b th ph et size a fw (HB a) AL)|]. destruct f, a; try discriminate; reflexivity.
        - replace f with (Halong a); [apply (along_H0 b th ph et size a fw (HB a) AL)|]. destruct f, a; try discriminate; reflexivity. }
      rewrite inc_zero by exact Z. rewrite Z. ring.
    + assert (FN : fld_axis f <> a) by (intros Q; rewrite Q in FA; destruct a; discriminate).
      destruct (is_E f) eqn:E.
      * rewrite (inc_E b th ph et size a fw o (HB a) AL HO) by (auto; unfold offset in Ba; rewrite E, FA in Ba; lia).
        f_equal. unfold eIdx, q, m0. destruct fw; reflexivity.
      * rewrite (inc_H b th ph et size a fw o (HB a) AL HO) by (auto; unfold offset in Ba; rewrite E, FA in Ba; lia).
        rewrite Rmult_assoc. do 2 f_equal. unfold hIdx, q, m0. destruct fw; f_equal; lia.
Qed.

(** Non-vacuity: a 9x9x9 mesh of free space (cells of 1 m, half the time step
    limit), a box of 3x3x3 cells and a wave along +z: the hypotheses hold and the
    field inside the box is not zero. *)
Definition axisPW : PW := mkPW "w"%string (mkbox 2 5 2 5 2 5) "f"%string (fun _ => true) 0 0 0 1 0.
Definition axisDt : R := 1 / 2 / c0.
Definition axisMem : mem R := fun l => match arr l with
  | AAlpha _ => 1 | ABeta _ => axisDt / eps0 | AGamma _ => axisDt / mu0 | AIde _ => / 1 | AIdh _ => / 1 | _ => 0 end.
Theorem C27_axis_nonvacuous : exists c, setupCfg 9 9 9 exampleReg = Some c /\ all_faces axisPW /\
  clear_box (outerSurfaceType c) (gibox c) (pwGbbox c axisPW) /\ along (pw_theta axisPW) (pw_phi axisPW) ZDIR true /\
  8 / 23 * 1 <= c0 * axisDt /\ quiet axisMem /\ free_space_box axisMem (pwGbbox c axisPW) ZDIR axisDt 1 /\
  exists m', pwSimulate c axisPW axisDt 1 (fun _ => 1) 3 axisMem = Some m' /\ fld m' EY 3 3 3 < 0.
Proof.
  destruct (setupCfg 9 9 9 exampleReg) as [c|] eqn:HC; [|discriminate HC].
  exists c. split; [reflexivity|]. pose proof HC as HC'. injection HC as HC.
  assert (B : forall f, pwGbbox c axisPW f = mkbox 3 6 3 6 3 6 f) by (subst c; intros []; reflexivity).
  assert (AF : all_faces axisPW) by (intros f; reflexivity).
  assert (CB : clear_box (outerSurfaceType c) (gibox c) (pwGbbox c axisPW)).
  { intros a. rewrite !B. subst c. destruct a; vm_compute; repeat split; discriminate. }
  assert (AL : along (pw_theta axisPW) (pw_phi axisPW) ZDIR true) by (cbn; constructor; lra).
  assert (C : 0 < c0) by (unfold c0; lra).
  assert (T : c0 * axisDt = 1 / 2) by (unfold axisDt; field; lra).
  assert (TP : 0 < axisDt) by (unfold axisDt; apply Rdiv_lt_0_compat; lra).
  assert (Q : quiet axisMem).
  { intros [q i j k] S. unfold axisMem. cbn [arr]. destruct q; try reflexivity; exfalso; apply S; reflexivity. }
  assert (FS : free_space_box axisMem (pwGbbox c axisPW) ZDIR axisDt 1).
  { split; [|split]; [|intros; reflexivity|intros; reflexivity]. intros f i j k _. destruct f; cbn [is_E]; try (split; reflexivity); reflexivity. }
  split; [exact AF|]. split; [exact CB|]. split; [exact AL|]. split; [lra|]. split; [exact Q|]. split; [exact FS|].
  destruct (C27_axis _ _ _ _ _ HC' axisPW AF CB ZDIR true AL axisDt 1 ltac:(lra) TP ltac:(lra) axisMem Q FS (fun _ => 1)) as (e & h & LW & SIM).
  destruct (SIM 3%nat) as (m' & E & V & _). exists m'. split; [exact E|].
  rewrite V.
  2:{ intros []; rewrite !B; unfold offset; cbn [is_E fld_axis axis_eqb face_lo face_hi mkbox ind]; lia. }
  cbn [is_E ind]. rewrite !B. cbn [face_lo face_hi mkbox] in *. change (2 + (3 - 3))%Z with 2%Z.
  destruct LW as [e0 h0 src le lh]. rewrite !B in le, lh. cbn [face_lo face_hi mkbox] in le, lh.
  pose proof eps0_pos as PE. pose proof mu0_pos as PM.
  assert (PB : 0 < axisDt / (eps0 * 1)) by (apply Rdiv_lt_0_compat; lra).
  assert (PG : 0 < axisDt / (mu0 * 1)) by (apply Rdiv_lt_0_compat; lra).
  revert le lh PB PG. generalize (axisDt / (eps0 * 1)) (axisDt / (mu0 * 1)). intros be ga le lh PB PG.
  assert (E1 : forall q, (1 <= q <= 8)%Z -> e 1%nat q = 0) by (intros q Hq; rewrite le by lia; rewrite e0, !h0; ring).
  assert (H10 : h 1%nat 0%Z = ga) by (rewrite lh by lia; rewrite h0, src; change (0 + 1)%Z with 1%Z; rewrite E1 by lia; ring).
  assert (H1 : forall q, (1 <= q <= 7)%Z -> h 1%nat q = 0) by (intros q Hq; rewrite lh by lia; rewrite h0, !E1 by lia; ring).
  assert (E21 : e 2%nat 1%Z = be * ga) by (rewrite le by lia; change (1 - 1)%Z with 0%Z; rewrite H10, H1, E1 by lia; ring).
  assert (E2 : forall q, (2 <= q <= 7)%Z -> e 2%nat q = 0) by (intros q Hq; rewrite le by lia; rewrite !H1, E1 by lia; ring).
  assert (H21 : h 2%nat 1%Z = be * ga * ga) by (rewrite lh by lia; change (1 + 1)%Z with 2%Z; rewrite H1, E21, E2 by lia; ring).
  assert (H22 : h 2%nat 2%Z = 0) by (rewrite lh by lia; rewrite H1, !E2 by lia; ring).
  assert (E32 : e 3%nat 2%Z = be * be * ga * ga) by (rewrite le by lia; change (2 - 1)%Z with 1%Z; rewrite H21, H22, E2 by lia; ring).
  rewrite E32. assert (0 < be * be * ga * ga) by (repeat apply Rmult_lt_0_compat; auto).
  cbn [axisPW pw_size pw_theta pw_phi pw_eta Finc]. rewrite !rad_deg, rad_0, cos_0, sin_0. lra.
Qed.
