(** C38, C60: impedance sheets. *)
From Coq Require Import ZArith List Bool Reals Lra Lia.
From Verif Require Import Types Lang BBox Grid PmlProfile Medium Filter Sibc SpecSibc.
From Verif Require P_Pml.
Import ListNotations.
Open Scope R_scope.

Lemma eta0_pos : 0 < eta0.
Proof. exact P_Pml.eta0_pos. Qed.

(** ** C38 *)
Theorem C38_impedance : forall s, deltaS s <> 0 ->
  impedance_of eta0 (tportS2Z s) s /\ forall z, impedance_of eta0 z s -> forall i j, z i j = tportS2Z s i j.
Proof.
  intros s D. assert (P := eta0_pos). split.
  - intros i j. unfold prod2, idm, tportS2Z, m2. unfold deltaS in *.
    destruct i, j; cbn [Bool.eqb]; field; assumption.
  - intros z Hz. unfold impedance_of, prod2, idm in Hz.
    pose proof (Hz false false) as H0. pose proof (Hz false true) as H1. pose proof (Hz true false) as H2. pose proof (Hz true true) as H3.
    cbn [Bool.eqb] in *. unfold tportS2Z, m2. unfold deltaS in *.
    set (a := s false false) in *. set (b := s false true) in *. set (c := s true false) in *. set (d := s true true) in *.
    set (DD := (1 - a) * (1 - d) - b * c) in *.
    intros [] []; apply (Rmult_eq_reg_r DD); try assumption; unfold Rdiv.
    + transitivity ((z true false * (1 - a) + z true true * (0 - c)) * (- (0-b)) + (z true false * (0 - b) + z true true * (1 - d)) * (1 - a)); [unfold DD; ring|].
      rewrite H2, H3. unfold DD. field. exact D.
    + transitivity ((z true false * (1 - a) + z true true * (0 - c)) * (1 - d) + (z true false * (0 - b) + z true true * (1 - d)) * c); [unfold DD; ring|].
      rewrite H2, H3. unfold DD. field. exact D.
    + transitivity ((z false false * (1 - a) + z false true * (0 - c)) * (- (0-b)) + (z false false * (0 - b) + z false true * (1 - d)) * (1 - a)); [unfold DD; ring|].
      rewrite H0, H1. unfold DD. field. exact D.
    + transitivity ((z false false * (1 - a) + z false true * (0 - c)) * (1 - d) + (z false false * (0 - b) + z false true * (1 - d)) * c); [unfold DD; ring|].
      rewrite H0, H1. unfold DD. field. exact D.
Qed.

Lemma rge_true : forall x y, rge x y = true <-> y <= x.
Proof. intros x y. unfold rge. destruct (Rle_dec y x); split; intros; try assumption; try reflexivity; try discriminate; contradiction. Qed.

(** what acceptance does guarantee *)
Theorem C38_accepted_partial : forall s, isPassiveS s = true ->
  forall q, norm2 (app2 s (fun p => if Bool.eqb p q then 1 else 0)) <= 1.
Proof.
  intros s A q. unfold isPassiveS in A. rewrite !andb_true_iff, !rge_true in A. destruct A as [[[A _] _] B].
  unfold norm2, app2. destruct q; cbn [Bool.eqb]; lra.
Qed.

(** A symmetric sheet with reflection and transmission 0.7 is accepted, although
    it returns almost twice the incoming power. *)
Theorem C38_active_accepted_refuted : exists s,
  isPassiveS s = true /\ s false true = s true false /\ deltaS s <> 0 /\ ~ passive s.
Proof.
  exists (m2 (7/10) (7/10) (7/10) (7/10)). unfold isPassiveS, m2, deltaS. repeat split; try lra.
  - rewrite !andb_true_iff, !rge_true. repeat split; lra.
  - intros Q. specialize (Q (fun _ => 1)). unfold norm2, app2 in Q. lra.
Qed.
Theorem C38_passive_rejected_refuted : exists s,
  passive s /\ deltaS s <> 0 /\ forall sTE dt, initSibcBoundary s sTE dt = None.
Proof.
  exists (m2 (1/10) (-1/10) 0 0). unfold m2, deltaS. split; [|split; [lra|]].
  - intros a. unfold norm2, app2. pose proof (Rle_0_sqr (a false + a true)). pose proof (Rle_0_sqr (a false)). pose proof (Rle_0_sqr (a true)). unfold Rsqr in *. nra.
  - intros sTE dt. unfold initSibcBoundary, isPassiveS.
    replace (rge (1/10 * (-1/10) - 0 * 0) 0) with false; [rewrite andb_false_r; reflexivity|].
    unfold rge. destruct (Rle_dec 0 _); [lra|reflexivity].
Qed.
(** A perfectly transmitting sheet is accepted, has no impedance matrix, and the
    computation divides by zero. *)
Theorem C38_singular_refuted : exists s,
  isPassiveS s = true /\ passive s /\ deltaS s = 0 /\ forall z, ~ impedance_of eta0 z s.
Proof.
  exists (m2 0 1 1 0). unfold isPassiveS, m2, deltaS. repeat split.
  - rewrite !andb_true_iff, !rge_true. repeat split; lra.
  - intros a. unfold norm2, app2. lra.
  - lra.
  - intros z Q. pose proof (Q false false) as H1. pose proof (Q false true) as H2. unfold prod2, idm in *. cbn [Bool.eqb] in *. pose proof eta0_pos. lra.
Qed.

(** ** C60 *)
Definition tanOf (x : V4) : Tan := mkTan (v0 x) (v2 x) (v1 x) (v3 x).

Lemma constStep : forall x T st h, snd (recConvStep (poleResidue2RecConv (constPR x) T) st h) = x * h.
Proof. intros. unfold recConvStep, poleResidue2RecConv, constPR. cbn. reflexivity. Qed.

Lemma sheet_const : forall sTM sTE dt plus ca sa st H,
  let rcm := recConvM (sibcMatrix sTM sTE) dt in
  let Hin := matMulVector (matA plus ca sa) H in
  snd (sheet plus ca sa rcm st H) =
  matMulVector (matB plus ca sa) (ofF (fun p => match p with
    | p0 => tportS2Z sTM false false * v0 Hin + tportS2Z sTM false true * v1 Hin
    | p1 => tportS2Z sTM true false * v0 Hin + tportS2Z sTM true true * v1 Hin
    | p2 => tportS2Z sTE false false * v2 Hin + tportS2Z sTE false true * v3 Hin
    | p3 => tportS2Z sTE true false * v2 Hin + tportS2Z sTE true true * v3 Hin end)).
Proof.
  intros. unfold sheet. fold Hin. destruct (sibcStep rcm st Hin) as [st' Eo] eqn:Q. cbn [snd].
  f_equal. unfold sibcStep in Q. injection Q as _ <-. unfold ofF, idx4. cbn [fold_left].
  unfold rcm, recConvM, sibcMatrix. cbn [lowHalf highHalf]. rewrite !constStep. cbn [v4]. unfold Hin, matMulVector; cbn [v0 v1 v2 v3]; f_equal; ring.
Qed.

Lemma z_waves : forall s (i : Vec), deltaS s <> 0 -> let e := app2 (tportS2Z s) i in
  forall p, wavesOut eta0 (e p) (i p) = app2 s (fun q => wavesIn eta0 (e q) (i q)) p.
Proof.
  intros s i D e p. unfold wavesOut, wavesIn, e, app2, tportS2Z, m2. unfold deltaS in *.
  destruct p; field; assumption.
Qed.

Lemma cs1 : forall th, cos th * cos th + sin th * sin th = 1.
Proof. intros. pose proof (sin2_cos2 th). unfold Rsqr in *. lra. Qed.

(** the fields along the principal axes are the inputs and outputs of the filters *)
Lemma principal : forall plus th (H eo : V4), let hi := matMulVector (matA plus (cos th) (sin th)) H in
  let E := tanOf (matMulVector (matB plus (cos th) (sin th)) eo) in let h := tanOf H in
  (forall p, ports plus (alongU th (t1a E) (t2a E)) (alongU th (t1b E) (t2b E)) p = if p then v1 eo else v0 eo) /\
  (forall p, ports plus (alongV th (t1a E) (t2a E)) (alongV th (t1b E) (t2b E)) p = if p then v3 eo else v2 eo) /\
  (forall p, ports plus (alongV th (t1a h) (t2a h)) (- alongV th (t1b h) (t2b h)) p = if p then v1 hi else v0 hi) /\
  (forall p, ports plus (- alongU th (t1a h) (t2a h)) (alongU th (t1b h) (t2b h)) p = if p then v3 hi else v2 hi).
Proof.
  intros plus th H eo hi E h. pose proof (cs1 th) as CS. unfold hi, E, h. clear hi E h.
  destruct H as [h0 h1 h2 h3]. destruct eo as [e0 e1 e2 e3].
  unfold alongU, alongV, ports, tanOf.
  destruct plus; unfold matA, matB, matLinearComb, lin4, matMulVector, dot4, Acp, Acm, Asp, Asm, Bcp, Bcm, Bsp, Bsm; cbn [t1a t2a t1b t2b v0 v1 v2 v3 r0 r1 r2 r3];
  revert CS; generalize (cos th) (sin th); intros c s CS; assert (CS' : c * c = 1 - s * s) by lra;
  (split; [|split; [|split]]); intros []; cbn [xorb]; ring [CS'].
Qed.

(** Every accepted sheet with an impedance scatters as specified, at every angle
    and both orientations, whatever has happened before. *)
Theorem C60_scattering : forall sTM sTE dt rcm plus th st H,
  initSibcBoundary sTM sTE dt = Some rcm -> deltaS sTM <> 0 -> deltaS sTE <> 0 ->
  let E := snd (sheet plus (cos th) (sin th) rcm st H) in
  scatters eta0 th plus sTM sTE (tanOf E) (tanOf H).
Proof.
  intros sTM sTE dt rcm plus th st H I D1 D2 E.
  unfold initSibcBoundary in I. destruct (_ || _); [discriminate|]. injection I as <-.
  unfold E. rewrite sheet_const. clear E.
  match goal with |- context [matMulVector (matB _ _ _) ?eo] => set (eo0 := eo); pose proof (principal plus th H eo0) as P end.
  cbv zeta in P. destruct P as (P1 & P2 & P3 & P4). set (hi := matMulVector (matA plus (cos th) (sin th)) H) in *.
  split; intros p.
  - pose proof (z_waves sTM (fun p => if p then v1 hi else v0 hi) D1 p) as W. cbv zeta in W.
    rewrite P1, P3. unfold app2 at 1. rewrite !P1, !P3.
    unfold app2 at 2 in W. unfold eo0, ofF; cbn [v0 v1].
    destruct p; exact W.
  - pose proof (z_waves sTE (fun p => if p then v3 hi else v2 hi) D2 p) as W. cbv zeta in W.
    rewrite P2, P4. unfold app2 at 1. rewrite !P2, !P4.
    unfold app2 at 2 in W. unfold eo0, ofF; cbn [v2 v3].
    destruct p; exact W.
Qed.

(** the absorbed power in terms of the waves *)
Lemma absorbed_waves : forall th plus sTM sTE E H, scatters eta0 th plus sTM sTE E H ->
  exists a b : Vec, eta0 * absorbed E H = (norm2 a - norm2 (app2 sTM a)) + (norm2 b - norm2 (app2 sTE b)).
Proof.
  intros th plus sTM sTE E H [S1 S2]. pose proof eta0_pos as P. pose proof (cs1 th) as CS.
  eexists; eexists. unfold norm2 at 2 4. rewrite <- !S1, <- !S2. unfold norm2.
  unfold wavesIn, wavesOut, ports, absorbed, alongU, alongV. revert CS; generalize (cos th) (sin th); intros c s CS.
  assert (CS' : c * c = 1 - s * s) by lra. destruct plus; cbn [xorb]; field [CS'].
Qed.

(** A sheet of passive scattering matrices never delivers power to the fields. *)
Theorem C60_passive : forall sTM sTE dt rcm plus th st H,
  initSibcBoundary sTM sTE dt = Some rcm -> deltaS sTM <> 0 -> deltaS sTE <> 0 -> passive sTM -> passive sTE ->
  let E := snd (sheet plus (cos th) (sin th) rcm st H) in 0 <= absorbed (tanOf E) (tanOf H).
Proof.
  intros. pose proof (C60_scattering _ _ _ _ plus th st H H0 H1 H2) as Q. fold E in Q.
  destruct (absorbed_waves _ _ _ _ _ _ Q) as (a & b & W). pose proof (H3 a). pose proof (H4 b). pose proof eta0_pos.
  apply (Rmult_le_reg_l eta0); [assumption|]. rewrite W. lra.
Qed.

Lemma absorbed_principal : forall plus c s (H eo : V4), let hi := matMulVector (matA plus c s) H in
  absorbed (tanOf (matMulVector (matB plus c s) eo)) (tanOf H) = v0 eo * v0 hi + v1 eo * v1 hi + v2 eo * v2 hi + v3 eo * v3 hi.
Proof.
  intros plus c s [h0 h1 h2 h3] [e0 e1 e2 e3] hi. unfold hi, absorbed, tanOf.
  destruct plus; unfold matA, matB, matLinearComb, lin4, matMulVector, dot4, Acp, Acm, Asp, Asm, Bcp, Bcm, Bsp, Bsm; cbn [t1a t2a t1b t2b v0 v1 v2 v3 r0 r1 r2 r3]; ring.
Qed.

(** The acceptance test does not give that: an accepted symmetric sheet that
    delivers power. *)
Theorem C60_active_refuted : exists s dt rcm H, initSibcBoundary s s dt = Some rcm /\ deltaS s <> 0 /\
  forall plus th st, absorbed (tanOf (snd (sheet plus (cos th) (sin th) rcm st H))) (tanOf H) < 0.
Proof.
  exists (m2 (7/10) (7/10) (7/10) (7/10)), 1. eexists. exists (mkV 0 0 1 (-1)).
  assert (D : deltaS (m2 (7/10) (7/10) (7/10) (7/10)) = - (4/10)) by (unfold deltaS, m2; field).
  split; [|split].
  - unfold initSibcBoundary. replace (isPassiveS _) with true; [cbn; reflexivity|].
    symmetry. unfold isPassiveS, m2. rewrite !andb_true_iff, !rge_true. repeat split; lra.
  - rewrite D. lra.
  - intros plus th st. rewrite sheet_const. pose proof (cs1 th) as CS. pose proof eta0_pos as P.
    set (c := cos th) in *. set (s := sin th) in *. clearbody c s.
    rewrite absorbed_principal. unfold tportS2Z. rewrite D. unfold m2. generalize eta0, P. intros z Pz.
    assert (Q : c * c * z + s * s * z = z) by (rewrite <- Rmult_plus_distr_r, CS; ring).
    destruct plus; unfold matA, matLinearComb, lin4, matMulVector, dot4, ofF, Acp, Acm, Asp, Asm; cbn [v0 v1 v2 v3 r0 r1 r2 r3];
    match goal with |- ?x < 0 => replace x with (- (12 * (c * c * z + s * s * z))) by field end; rewrite Q; lra.
Qed.

(** ** Frequency-dependent sheets: every filter matrix, every history *)
Definition other (p : I4) : I4 := match p with p0 => p1 | p1 => p0 | p2 => p3 | p3 => p2 end.

(** Turning the sheet over is the same as exchanging its two ports. *)
Theorem C60_orientation : forall ca sa rcm H st,
  sheetRun false ca sa rcm st H =
  sheetRun true ca sa (fun p q => rcm (other p) (other q)) (fun p q => st (other p) (other q)) H.
Proof.
  intros ca sa rcm H. 
  assert (G : forall st st', (forall p q, st' p q = st (other p) (other q)) ->
    sheetRun false ca sa rcm st H = sheetRun true ca sa (fun p q => rcm (other p) (other q)) st' H).
  2: { intros st. apply G. reflexivity. }
  induction H as [|h H IH]; intros st st' Q; [reflexivity|].
  cbn [sheetRun]. unfold sheet, sibcStep.
  set (hm := matMulVector (matA false ca sa) h). set (hp := matMulVector (matA true ca sa) h).
  assert (HH : forall q, v4 hp q = v4 hm (other q)).
  { intros []; unfold hm, hp, matA, matLinearComb, lin4, matMulVector, dot4; cbn; ring. }
  f_equal.
  - unfold ofF, idx4; cbn [fold_left]. rewrite !Q, !HH. cbn [other].
    unfold matB, matLinearComb, lin4, matMulVector, dot4; cbn [v0 v1 v2 v3 r0 r1 r2 r3 Bcm Bsm Bcp Bsp]. f_equal; ring.
  - apply IH. intros p q. rewrite Q, HH. reflexivity.
Qed.

(** linear combination of two filter states *)
Definition linC (a : R) (z : Cx) (b : R) (w : Cx) : Cx := cadd (cmul (cxR a) z) (cmul (cxR b) w).
Definition linS (a : R) (s : RecConvState) (b : R) (u : RecConvState) : RecConvState :=
  mkRS (a * rsOld s + b * rsOld u) (map (fun zw => linC a (fst zw) b (snd zw)) (combine (rsZeta s) (rsZeta u))).

Lemma stepPoles_lin : forall q a b z w o1 o2 x1 x2 y1 y2, length z = length w ->
  stepPoles q (map (fun zw => linC a (fst zw) b (snd zw)) (combine z w)) (a * o1 + b * o2) (a * x1 + b * x2) (a * y1 + b * y2) =
  (map (fun zw => linC a (fst zw) b (snd zw)) (combine (fst (stepPoles q z o1 x1 y1)) (fst (stepPoles q w o2 x2 y2))),
   a * snd (stepPoles q z o1 x1 y1) + b * snd (stepPoles q w o2 x2 y2)) /\
  length (fst (stepPoles q z o1 x1 y1)) = length (fst (stepPoles q w o2 x2 y2)).
Proof.
  induction q as [|[[q0 q1] q2] q IH]; intros a b z w o1 o2 x1 x2 y1 y2 L; [split; reflexivity|].
  destruct z as [|z zs], w as [|u us]; try discriminate L; [split; reflexivity|].
  cbn [combine map fst snd stepPoles].
  set (z' := cadd (cadd (cmul q0 z) (cmul q1 (cxR o1))) (cmul q2 (cxR x1))).
  set (u' := cadd (cadd (cmul q0 u) (cmul q1 (cxR o2))) (cmul q2 (cxR x2))).
  assert (Z : cadd (cadd (cmul q0 (linC a z b u)) (cmul q1 (cxR (a * o1 + b * o2)))) (cmul q2 (cxR (a * x1 + b * x2))) = linC a z' b u').
  { destruct q0, q1, q2, z, u. unfold z', u', linC, cadd, cmul, cxR; cbn. f_equal; ring. }
  rewrite Z. replace (a * y1 + b * y2 + re (linC a z' b u')) with (a * (y1 + re z') + b * (y2 + re u')).
  2: { destruct z', u'. unfold linC, cadd, cmul, cxR; cbn. ring. }
  destruct (IH a b zs us o1 o2 x1 x2 (y1 + re z') (y2 + re u')) as [E1 E2]; [now injection L|].
  rewrite E1.
  destruct (stepPoles q zs o1 x1 (y1 + re z')) as [l1 n1]. destruct (stepPoles q us o2 x2 (y2 + re u')) as [l2 n2].
  cbn [fst snd] in *. cbn [combine map fst snd length]. rewrite E2. split; reflexivity.
Qed.

Lemma recConvStep_lin : forall rc a b s u x1 x2, length (rsZeta s) = length (rsZeta u) ->
  fst (recConvStep rc (linS a s b u) (a * x1 + b * x2)) = linS a (fst (recConvStep rc s x1)) b (fst (recConvStep rc u x2)) /\
  snd (recConvStep rc (linS a s b u) (a * x1 + b * x2)) = a * snd (recConvStep rc s x1) + b * snd (recConvStep rc u x2) /\
  length (rsZeta (fst (recConvStep rc s x1))) = length (rsZeta (fst (recConvStep rc u x2))).
Proof.
  intros rc a b s u x1 x2 L. unfold recConvStep. cbn [rsZeta rsOld linS].
  replace (rcAsymp rc * (a * x1 + b * x2)) with (a * (rcAsymp rc * x1) + b * (rcAsymp rc * x2)) by ring.
  destruct (stepPoles_lin (rcQ rc) a b (rsZeta s) (rsZeta u) (rsOld s) (rsOld u) x1 x2 (rcAsymp rc * x1) (rcAsymp rc * x2) L) as [E1 E2].
  rewrite E1. destruct (stepPoles _ (rsZeta s) _ _ _) as [l1 n1]. destruct (stepPoles _ (rsZeta u) _ _ _) as [l2 n2].
  cbn [fst snd rsZeta] in *. repeat split; try reflexivity. exact E2.
Qed.

Lemma linS_zero : forall rc a b, linS a (allocRecConvState rc) b (allocRecConvState rc) = allocRecConvState rc.
Proof.
  intros. unfold linS, allocRecConvState; cbn [rsOld rsZeta]. f_equal; [ring|].
  induction (rcQ rc) as [|q l IH]; [reflexivity|]. cbn [map combine fst snd]. f_equal; [|exact IH].
  unfold linC, cadd, cmul, cxR; cbn. f_equal; ring.
Qed.

Definition lo (a : bool) : I4 := if a then p1 else p0.
Definition hi (a : bool) : I4 := if a then p3 else p2.

(** A sheet whose two polarisations have the same filters responds the same at
    every angle. *)
Theorem C60_isotropic : forall f T plus th H,
  let rcm := recConvM (isoMatrix f) T in
  sheetRun plus (cos th) (sin th) rcm (states0 rcm) H = sheetRun plus 1 0 rcm (states0 rcm) H.
Proof.
  intros f T plus th H rcm. pose proof (cs1 th) as CS. set (c := cos th) in *. set (s := sin th) in *. clearbody c s.
  assert (CS' : c * c = 1 - s * s) by lra.
  assert (G : forall st st', (forall a b, 
      st (lo a) (lo b) = linS c (st' (lo a) (lo b)) s (st' (hi a) (hi b)) /\
      st (hi a) (hi b) = linS c (st' (hi a) (hi b)) (- s) (st' (lo a) (lo b)) /\
      length (rsZeta (st' (lo a) (lo b))) = length (rsZeta (st' (hi a) (hi b)))) ->
    sheetRun plus c s rcm st H = sheetRun plus 1 0 rcm st' H).
  2: { apply G. intros a b. unfold states0, rcm, recConvM.
       replace (isoMatrix f (lo a) (lo b)) with (f a b) by (destruct a, b; reflexivity).
       replace (isoMatrix f (hi a) (hi b)) with (f a b) by (destruct a, b; reflexivity).
       rewrite !linS_zero. repeat split; reflexivity. }
  induction H as [|h H IH]; intros st st' Q; [reflexivity|].
  cbn [sheetRun]. unfold sheet, sibcStep.
  set (h1 := matMulVector (matA plus c s) h). set (h2 := matMulVector (matA plus 1 0) h).
  assert (HL : forall a, v4 h1 (lo a) = c * v4 h2 (lo a) + s * v4 h2 (hi a)).
  { intros a. unfold h1, h2, matA, matLinearComb, lin4, matMulVector, dot4. destruct a, plus; cbn; ring. }
  assert (HH : forall a, v4 h1 (hi a) = c * v4 h2 (hi a) + - s * v4 h2 (lo a)).
  { intros a. unfold h1, h2, matA, matLinearComb, lin4, matMulVector, dot4. destruct a, plus; cbn; ring. }
  assert (RL : forall a b, rcm (lo a) (lo b) = poleResidue2RecConv (f a b) T) by (intros [] []; reflexivity).
  assert (RH : forall a b, rcm (hi a) (hi b) = poleResidue2RecConv (f a b) T) by (intros [] []; reflexivity).
  assert (RX : forall a b st x, snd (recConvStep (rcm (lo a) (hi b)) st x) = 0) by (intros; destruct a, b; cbn; ring).
  assert (RY : forall a b st x, snd (recConvStep (rcm (hi a) (lo b)) st x) = 0) by (intros; destruct a, b; cbn; ring).
  assert (SL : forall a b,
     let o x y st h := recConvStep (rcm x y) (st x y) (v4 h y) in
     fst (o (lo a) (lo b) st h1) = linS c (fst (o (lo a) (lo b) st' h2)) s (fst (o (hi a) (hi b) st' h2)) /\
     snd (o (lo a) (lo b) st h1) = c * snd (o (lo a) (lo b) st' h2) + s * snd (o (hi a) (hi b) st' h2) /\
     fst (o (hi a) (hi b) st h1) = linS c (fst (o (hi a) (hi b) st' h2)) (- s) (fst (o (lo a) (lo b) st' h2)) /\
     snd (o (hi a) (hi b) st h1) = c * snd (o (hi a) (hi b) st' h2) + - s * snd (o (lo a) (lo b) st' h2) /\
     length (rsZeta (fst (o (lo a) (lo b) st' h2))) = length (rsZeta (fst (o (hi a) (hi b) st' h2)))).
  { intros a b o. unfold o. destruct (Q a b) as (Q1 & Q2 & Q3). rewrite Q1, Q2, HL, HH, RL, RH.
    destruct (recConvStep_lin (poleResidue2RecConv (f a b) T) c s _ _ (v4 h2 (lo b)) (v4 h2 (hi b)) Q3) as (A1 & A2 & A3).
    destruct (recConvStep_lin (poleResidue2RecConv (f a b) T) c (- s) _ _ (v4 h2 (hi b)) (v4 h2 (lo b)) (eq_sym Q3)) as (B1 & B2 & B3).
    repeat split; assumption. }
  f_equal.
  2: { apply IH. intros a b. destruct (SL a b) as (A & _ & B & _ & D). split; [exact A|split; [exact B|exact D]]. }
  pose proof (SL false false) as S00. pose proof (SL false true) as S01. pose proof (SL true false) as S10. pose proof (SL true true) as S11.
  cbv zeta in *. cbn [lo hi] in *.
  destruct S00 as (_ & A00 & _ & B00 & _). destruct S01 as (_ & A01 & _ & B01 & _).
  destruct S10 as (_ & A10 & _ & B10 & _). destruct S11 as (_ & A11 & _ & B11 & _).
  unfold ofF, idx4; cbn [fold_left].
  pose proof (RX false false) as X0. pose proof (RX false true) as X1. pose proof (RX true false) as X2. pose proof (RX true true) as X3.
  pose proof (RY false false) as Y0. pose proof (RY false true) as Y1. pose proof (RY true false) as Y2. pose proof (RY true true) as Y3.
  cbn [lo hi] in *. rewrite ?X0, ?X1, ?X2, ?X3, ?Y0, ?Y1, ?Y2, ?Y3, A00, A01, A10, A11, B00, B01, B10, B11.
  clear - CS'.
  repeat match goal with |- context [snd (recConvStep ?a ?b ?d)] => let w := fresh "val" in generalize (snd (recConvStep a b d)); intros w end.
  unfold matB, matLinearComb, lin4, matMulVector, dot4.
  destruct plus; cbn [v0 v1 v2 v3 r0 r1 r2 r3 Bcm Bsm Bcp Bsp]; f_equal; ring [CS'].
Qed.

(** Cases of the hypotheses: a resistive sheet of 377/2 Ohm per square reflects
    -1/2 and transmits 1/2. *)
Example C60_nonvacuous : exists rcm, let s := m2 (-1/2) (1/2) (1/2) (-1/2) in
  initSibcBoundary s s 1 = Some rcm /\ deltaS s <> 0 /\ passive s.
Proof.
  eexists. set (s := m2 _ _ _ _). split; [|split].
  - unfold initSibcBoundary. replace (isPassiveS s) with true; [cbn; reflexivity|].
    symmetry. unfold isPassiveS, s, m2. rewrite !andb_true_iff, !rge_true. repeat split; lra.
  - unfold deltaS, s, m2. lra.
  - intros a. unfold norm2, app2, s, m2. pose proof (Rle_0_sqr (a false + a true)). unfold Rsqr in *. lra.
Qed.
