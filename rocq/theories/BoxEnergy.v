(** Energy conservation in a box with PEC, PMC and periodic walls: proofs. *)
From Coq Require Import ZArith List Bool Lia Reals Lra.
From Verif Require Import Types Lang LangProofs BBox Grid SpecGrid Ghost Step StepShape StepBounds StepCount StepOnce
  SpecCone StepValue SpecPhys SpecEnergy Energy GhostValue StepClosed PmlValue SpecPeriodic PeriodicAll SpecBox.
Import ListNotations.
Open Scope R_scope.
Local Arguments Z.mul : simpl never.
Local Arguments Z.add : simpl never.
Local Arguments Z.sub : simpl never.

(** weight of a node: one half at the two ends *)
Definition wt (lo hi n : Z) : R := if ((n =? lo) || (n =? hi))%Z then / 2 else 1.
Lemma sumZ_cons lo hi f : (lo <= hi)%Z -> sumZ lo hi f = f lo + sumZ (lo + 1) hi f.
Proof. intros. unfold sumZ. rewrite zrange_cons by auto. reflexivity. Qed.

(** summation by parts on one line, the end nodes counting half *)
Lemma sbpw lo hi (e h : Z -> R) : (lo < hi)%Z ->
  e hi * (h hi + h (hi - 1)%Z) = e lo * (h lo + h (lo - 1)%Z) ->
  sumZ lo hi (fun j => wt lo hi j * (e j * (h j - h (j - 1)%Z))) + sumZ lo (hi - 1) (fun j => h j * (e (j + 1)%Z - e j)) = 0.
Proof.
  intros H B. pose proof (sbp lo (Z.to_nat (hi - lo)) e h) as X. cbn zeta in X.
  replace (lo + Z.of_nat (Z.to_nat (hi - lo)))%Z with hi in X by lia.
  assert (Q : sumZ lo hi (fun j => wt lo hi j * (e j * (h j - h (j - 1)%Z))) =
    sumZ lo hi (fun j => e j * (h j - h (j - 1)%Z)) - / 2 * (e lo * (h lo - h (lo - 1)%Z)) - / 2 * (e hi * (h hi - h (hi - 1)%Z))).
  { rewrite !(sumZ_snoc lo hi), !(sumZ_cons lo (hi - 1)) by lia.
    rewrite (sumZ_ext (lo + 1) (hi - 1) (fun j => wt lo hi j * _) (fun j => e j * (h j - h (j - 1)%Z))).
    2:{ intros x Hx. unfold wt. replace (x =? lo)%Z with false by (symmetry; apply Z.eqb_neq; lia).
        replace (x =? hi)%Z with false by (symmetry; apply Z.eqb_neq; lia). cbn [orb]. ring. }
    unfold wt. rewrite !Z.eqb_refl, orb_true_r. cbn [orb]. lra. }
  rewrite Q. lra.
Qed.

Lemma wsbp_x lo hi c d e f (w : Z -> Z -> R) (E H : Z -> Z -> Z -> R) : (lo < hi)%Z ->
  (forall j k, (c <= j <= d)%Z -> (e <= k <= f)%Z -> E hi j k * (H hi j k + H (hi-1)%Z j k) = E lo j k * (H lo j k + H (lo-1)%Z j k)) ->
  S3 lo hi c d e f (fun i j k => wt lo hi i * w j k * (E i j k * (H i j k - H (i-1)%Z j k))) +
  S3 lo (hi-1) c d e f (fun i j k => w j k * (H i j k * (E (i+1)%Z j k - E i j k))) = 0.
Proof.
  intros L Z0. unfold S3.
  rewrite (sumZ_swap lo hi), (sumZ_swap lo (hi-1)). rewrite <- sumZ_plus.
  rewrite <- (sumZ_zero c d). apply sumZ_ext. intros j Hj.
  rewrite (sumZ_swap lo hi), (sumZ_swap lo (hi-1)). rewrite <- sumZ_plus.
  rewrite <- (sumZ_zero e f). apply sumZ_ext. intros k Hk.
  rewrite (sumZ_ext lo hi _ (fun i => w j k * (wt lo hi i * (E i j k * (H i j k - H (i-1)%Z j k))))) by (intros; ring).
  rewrite !sumZ_scal. rewrite <- Rmult_plus_distr_l.
  rewrite (sbpw lo hi (fun i => E i j k) (fun i => H i j k)) by auto. ring.
Qed.
Lemma wsbp_y a b lo hi e f (w : Z -> Z -> R) (E H : Z -> Z -> Z -> R) : (lo < hi)%Z ->
  (forall i k, (a <= i <= b)%Z -> (e <= k <= f)%Z -> E i hi k * (H i hi k + H i (hi-1)%Z k) = E i lo k * (H i lo k + H i (lo-1)%Z k)) ->
  S3 a b lo hi e f (fun i j k => wt lo hi j * w i k * (E i j k * (H i j k - H i (j-1)%Z k))) +
  S3 a b lo (hi-1) e f (fun i j k => w i k * (H i j k * (E i (j+1)%Z k - E i j k))) = 0.
Proof.
  intros L Z0. unfold S3. rewrite <- sumZ_plus. rewrite <- (sumZ_zero a b). apply sumZ_ext. intros i Hi.
  rewrite (sumZ_swap lo hi), (sumZ_swap lo (hi-1)). rewrite <- sumZ_plus.
  rewrite <- (sumZ_zero e f). apply sumZ_ext. intros k Hk.
  rewrite (sumZ_ext lo hi _ (fun j => w i k * (wt lo hi j * (E i j k * (H i j k - H i (j-1)%Z k))))) by (intros; ring).
  rewrite !sumZ_scal. rewrite <- Rmult_plus_distr_l.
  rewrite (sbpw lo hi (fun j => E i j k) (fun j => H i j k)) by auto. ring.
Qed.
Lemma wsbp_z a b c d lo hi (w : Z -> Z -> R) (E H : Z -> Z -> Z -> R) : (lo < hi)%Z ->
  (forall i j, (a <= i <= b)%Z -> (c <= j <= d)%Z -> E i j hi * (H i j hi + H i j (hi-1)%Z) = E i j lo * (H i j lo + H i j (lo-1)%Z)) ->
  S3 a b c d lo hi (fun i j k => wt lo hi k * w i j * (E i j k * (H i j k - H i j (k-1)%Z))) +
  S3 a b c d lo (hi-1) (fun i j k => w i j * (H i j k * (E i j (k+1)%Z - E i j k))) = 0.
Proof.
  intros L Z0. unfold S3. rewrite <- sumZ_plus. rewrite <- (sumZ_zero a b). apply sumZ_ext. intros i Hi.
  rewrite <- sumZ_plus. rewrite <- (sumZ_zero c d). apply sumZ_ext. intros j Hj.
  rewrite (sumZ_ext lo hi _ (fun k => w i j * (wt lo hi k * (E i j k * (H i j k - H i j (k-1)%Z))))) by (intros; ring).
  rewrite !sumZ_scal. rewrite <- Rmult_plus_distr_l.
  rewrite (sbpw lo hi (fun k => E i j k) (fun k => H i j k)) by auto. ring.
Qed.

Section Box.
Variable c : Cfg.
Hypothesis W : wf c.
Hypothesis CL : forall F, outerSurfaceType c F = BT_PEC \/ outerSurfaceType c F = BT_PMC \/ outerSurfaceType c F = BT_PERIODIC.

Lemma bx_act F : active (outerSurfaceType c F) = true.
Proof. destruct (CL F) as [E|[E|E]]; rewrite E; reflexivity. Qed.
Lemma bx_gibox f : gibox c f = gobox c f.
Proof.
  assert (X : forall g, outerSurfaceNumLayers c g = 0%Z) by (intros g; apply (wf_nopml c W); destruct (CL g) as [E|[E|E]]; rewrite E; discriminate).
  destruct f; unfold gobox, gibox; rewrite ?X; unfold NUM_GHOST_CELLS; lia.
Qed.
Lemma bx_gfilim f g : gfilim c f g = gfolim c f g.
Proof.
  assert (X : forall g, btype_eqb (outerSurfaceType c g) BT_MUR = false) by (intros h; destruct (CL h) as [E|[E|E]]; rewrite E; reflexivity).
  unfold gfilim, gfolim, setFieldLimits, includeInnerBoundary. rewrite !X. cbn [negb].
  destruct g; rewrite bx_gibox; reflexivity.
Qed.
Lemma bx_inl f i j k : inl (gfolim c f) i j k -> inl (gfilim c f) i j k.
Proof. unfold inl. rewrite !bx_gfilim. auto. Qed.
Lemma bx_meshH f i j k : inl (gfolim c f) i j k -> in_meshH c f i j k.
Proof. unfold in_meshH, inl, gfolim, setFieldLimits. rewrite !bx_gibox. auto. Qed.

Notation stp := (step rArith c).
Lemma bx_E m f i j k : is_E f = true -> inl (gfolim c f) i j k ->
  fld (stp m) f i j k = alpha m f i j k * fld m f i j k + beta m f i j k * eval rArith m (cH f i j k).
Proof.
  intros E H. unfold fld. rewrite (step_gridE rArith c W) by (auto using bx_inl).
  unfold updStmt. rewrite E. reflexivity.
Qed.
Lemma bx_H m f i j k : is_E f = false -> inl (gfolim c f) i j k ->
  fld (stp m) f i j k = fld m f i j k + gamma m f i j k * eval rArith (stp m) (cH f i j k).
Proof.
  intros E H. unfold fld, step, coreStep.
  apply (stepx_meshH rArith c W [] (fun s (Hs : In s (flat [])) => match Hs with end)); auto using bx_meshH.
Qed.
Lemma bx_data m l : kind l = None -> stp m l = m l.
Proof. apply step_data. Qed.
Lemma bx_ge a : (gobox c (face_lo a) + 1 <= gobox c (face_hi a))%Z.
Proof.
  pose proof (wf_lines c W a).
  rewrite <- !bx_gibox. destruct a; unfold gibox, NUM_GHOST_CELLS; cbn [face_lo face_hi]; lia.
Qed.
Lemma bx_ghost m F : rel rArith c false F (stp m).
Proof.
  unfold step. change (coreStep c) with (timeStep (V:=R) c [] []). unfold timeStep. rewrite !flat_app, !run_app. apply rel_ghostH. exact W.
Qed.
Lemma bx_pstate m a : faces_agree c a m -> (forall F, rel rArith c false F m) -> per_state rArith c a m.
Proof.
  intros FA G. constructor; auto.
  - intros X r f l _ T. destruct (CL r) as [E|[E|E]]; congruence.
  - intros F l _ AC. rewrite bx_act in AC. discriminate AC.
Qed.

(** a closed box stays a closed box *)
Lemma box_step m : closed_box c m -> closed_box c (stp m).
Proof.
  intros CV. destruct CV as [C1 C2 C3 C4 C5 C6 C7]. constructor; auto.
  - intros f i j k E H. unfold alpha, beta in *. rewrite !bx_data by reflexivity.
    destruct (C2 f i j k E H) as [X|[B Z0]]; [left; exact X|]. right. split; [exact B|].
    rewrite bx_E by auto. unfold beta. rewrite B, Z0. ring.
  - intros f i j k E H. unfold gamma. rewrite bx_data by reflexivity. apply C3; auto.
  - intros. unfold de, ide. rewrite !bx_data by reflexivity. apply C4; auto.
  - intros. unfold dh, idh. rewrite !bx_data by reflexivity. apply C5; auto.
  - intros a P. destruct (C6 a P) as [PD FA].
    assert (P2 : outerSurfaceType c (face_hi a) = BT_PERIODIC).
    { pose proof (wf_periodic c W _ P) as Q. destruct a; exact Q. }
    destruct (per_step_all rArith c W a P P2 [] [] ltac:(intros s []) ltac:(intros s []) ltac:(intros s []) ltac:(intros s []) m PD
      (bx_pstate m a FA C7)) as [PD' PS']. split; [exact PD'|]. apply PS'.
  - intros F. apply bx_ghost.
Qed.

Lemma pec_zero m F f i j k : closed_box c m -> is_E f = true -> inl (gfolim c f) i j k -> outerSurfaceType c F = BT_PEC ->
  in_wall c F f i j k -> fld m f i j k = 0.
Proof. intros CV E H T O. destruct (cb_E c m CV f i j k E H) as [(_ & _ & N)|[_ Z0]]; [destruct (N F T O)|exact Z0]. Qed.



Lemma wall_line m1 m2 a f g i j k : closed_box c m1 -> closed_box c m2 -> is_E f = true -> fld_axis f <> a ->
  is_E g = false -> fld_axis g <> a -> sample c a f (L (AF f) i j k) ->
  let lo := gobox c (face_lo a) in let hi := gobox c (face_hi a) in
  let e n := m2 (setc a n (L (AF f) i j k)) in let h n := m1 (setc a n (L (AF g) i j k)) in
  e hi * (h hi + h (hi - 1)%Z) = e lo * (h lo + h (lo - 1)%Z).
Proof.
  intros B1 B2 E NF EG NG SA lo hi e h.
  assert (FA : face_axis (face_lo a) = a /\ face_axis (face_hi a) = a) by (destruct a; auto). destruct FA as [FL FH].
  assert (LH : is_lo (face_lo a) = true /\ is_lo (face_hi a) = false) by (destruct a; auto). destruct LH as [LO HI].
  assert (OK : okr c a (L (AF g) i j k)).
  { clear -SA E NF. intros b Nb. unfold sample, inp, inl, gfolim, setFieldLimits in SA.
    destruct a, b; try congruence; cbn [setc li lj lk coord face_lo face_hi] in *;
    repeat match type of SA with context [if ?x then _ else _] => destruct x end; lia. }
  assert (CA : forall F, face_axis F = a -> carried false F (L (AF g) i j k)).
  { intros F <-. exists g. repeat split; auto. destruct g, F; try discriminate EG; cbn [fld_axis face_axis] in NG; try congruence; reflexivity. }
  assert (G : forall F, face_axis F = a -> h (ghostIdx c F) = sgn rArith (outerSurfaceType c F) (h (srcIdx c F))).
  { intros F <-. apply (cb_ghost c m1 B1 F (bx_act F)); auto. }
  pose proof (G _ FL) as G1. pose proof (G _ FH) as G2. unfold ghostIdx, srcIdx, wrapIdx, insideIdx in G1, G2.
  rewrite FL, LO in G1. rewrite FH, HI in G2. fold lo hi in G1, G2.
  assert (PZ : forall F, face_axis F = a -> outerSurfaceType c F = BT_PEC -> e (gobox c F) = 0).
  { intros F <- T. assert (Q : forall n, (setc (face_axis F) n (L (AF f) i j k)) = L (AF f) (li (setc (face_axis F) n (L (AF f) i j k)))
      (lj (setc (face_axis F) n (L (AF f) i j k))) (lk (setc (face_axis F) n (L (AF f) i j k)))) by (intros; destruct F; reflexivity).
    unfold e. rewrite Q. apply (pec_zero m2 F f); auto.
    - clear -SA NF E W CL. pose proof (bx_ge (face_axis F)) as GE. unfold sample, inp, inl, gfolim, setFieldLimits in *.
      destruct F; cbn [setc li lj lk coord face_lo face_hi face_axis] in *; destruct f; try discriminate E; cbn [fld_axis] in NF; try congruence;
      cbn [fieldIsInBoundary] in *; lia.
    - split; [exact NF|]. destruct F; reflexivity. }
  destruct (btype_dec (outerSurfaceType c (face_lo a)) BT_PERIODIC) as [P|P].
  - assert (P2 : outerSurfaceType c (face_hi a) = BT_PERIODIC).
    { pose proof (wf_periodic c W _ P) as Q. destruct a; exact Q. }
    rewrite P in G1. rewrite P2 in G2. cbn [sgn] in *. rewrite G1, G2.
    destruct (cb_per c m2 B2 a P) as [_ AG].
    assert (IF : in_face a f) by (unfold in_face; rewrite E; exact NF).
    pose proof (AG f (L (AF f) i j k) IF SA) as Q. 
    assert (Q' : e lo = e hi) by (unfold e; revert Q; unfold on, wa; destruct a; cbn [setc li lj lk arr face_lo face_hi]; auto).
    rewrite Q'. ring.
  - assert (P2 : outerSurfaceType c (face_hi a) <> BT_PERIODIC).
    { intros Q. apply P. pose proof (wf_periodic c W _ Q) as Q1. destruct a; exact Q1. }
    assert (Z1 : e lo * (h lo + h (lo - 1)%Z) = 0).
    { destruct (CL (face_lo a)) as [T|[T|T]]; [|rewrite T in G1; cbn [sgn rArith vneg] in G1; rewrite G1; ring|congruence].
      pose proof (PZ (face_lo a) FL T) as Q. fold lo in Q. rewrite Q. ring. }
    assert (Z2 : e hi * (h hi + h (hi - 1)%Z) = 0).
    { destruct (CL (face_hi a)) as [T|[T|T]]; [|rewrite T in G2; cbn [sgn rArith vneg] in G2; rewrite G2; ring|congruence].
      pose proof (PZ (face_hi a) FH T) as Q. fold hi in Q. rewrite Q. ring. }
    rewrite Z1, Z2. reflexivity.
Qed.

(** the two curls are adjoint *)
Section Adj.
Variable m : mem R.
Hypothesis D : forall a n, (gobox c (face_lo a) <= n < gobox c (face_hi a))%Z -> de m a n * ide m a n = 1.
Hypothesis DH : forall a n, (gobox c (face_lo a) <= n <= gobox c (face_hi a))%Z -> dh m a n * idh m a n = 1.
Variables (e1 e2 e3 h1 h2 h3 : Z -> Z -> Z -> R).
Notation xl := (gobox c XLO). Notation xh := (gobox c XHI).
Notation yl := (gobox c YLO). Notation yh := (gobox c YHI).
Notation zl := (gobox c ZLO). Notation zh := (gobox c ZHI).
Hypothesis L1 : forall i k, (xl <= i <= xh-1)%Z -> (zl <= k <= zh)%Z -> e1 i yh k * (h3 i yh k + h3 i (yh-1)%Z k) = e1 i yl k * (h3 i yl k + h3 i (yl-1)%Z k).
Hypothesis L2 : forall i j, (xl <= i <= xh-1)%Z -> (yl <= j <= yh)%Z -> e1 i j zh * (h2 i j zh + h2 i j (zh-1)%Z) = e1 i j zl * (h2 i j zl + h2 i j (zl-1)%Z).
Hypothesis L3 : forall i j, (xl <= i <= xh)%Z -> (yl <= j <= yh-1)%Z -> e2 i j zh * (h1 i j zh + h1 i j (zh-1)%Z) = e2 i j zl * (h1 i j zl + h1 i j (zl-1)%Z).
Hypothesis L4 : forall j k, (yl <= j <= yh-1)%Z -> (zl <= k <= zh)%Z -> e2 xh j k * (h3 xh j k + h3 (xh-1)%Z j k) = e2 xl j k * (h3 xl j k + h3 (xl-1)%Z j k).
Hypothesis L5 : forall j k, (yl <= j <= yh)%Z -> (zl <= k <= zh-1)%Z -> e3 xh j k * (h2 xh j k + h2 (xh-1)%Z j k) = e3 xl j k * (h2 xl j k + h2 (xl-1)%Z j k).
Hypothesis L6 : forall i k, (xl <= i <= xh)%Z -> (zl <= k <= zh-1)%Z -> e3 i yh k * (h1 i yh k + h1 i (yh-1)%Z k) = e3 i yl k * (h1 i yl k + h1 i (yl-1)%Z k).

Lemma din_wt a n : (gobox c (face_lo a) <= n <= gobox c (face_hi a))%Z ->
  din c m a n * idh m a n = wt (gobox c (face_lo a)) (gobox c (face_hi a)) n.
Proof. intros H. unfold din, wt. destruct (_ || _)%bool; pose proof (DH a n H); lra. Qed.

Lemma box_adj :
    S3 xl (xh-1) yl yh zl zh (fun i j k => boxvol c m EX i j k * (e1 i j k *
       (idh m YDIR j * (h3 i j k - h3 i (j-1)%Z k) + idh m ZDIR k * (h2 i j (k-1)%Z - h2 i j k))))
  + S3 xl xh yl (yh-1) zl zh (fun i j k => boxvol c m EY i j k * (e2 i j k *
       (idh m ZDIR k * (h1 i j k - h1 i j (k-1)%Z) + idh m XDIR i * (h3 (i-1)%Z j k - h3 i j k))))
  + S3 xl xh yl yh zl (zh-1) (fun i j k => boxvol c m EZ i j k * (e3 i j k *
       (idh m XDIR i * (h2 i j k - h2 (i-1)%Z j k) + idh m YDIR j * (h1 i (j-1)%Z k - h1 i j k))))
  + S3 xl xh yl (yh-1) zl (zh-1) (fun i j k => boxvol c m HX i j k * (h1 i j k *
       (ide m ZDIR k * (e2 i j (k+1)%Z - e2 i j k) + ide m YDIR j * (e3 i j k - e3 i (j+1)%Z k))))
  + S3 xl (xh-1) yl yh zl (zh-1) (fun i j k => boxvol c m HY i j k * (h2 i j k *
       (ide m XDIR i * (e3 (i+1)%Z j k - e3 i j k) + ide m ZDIR k * (e1 i j k - e1 i j (k+1)%Z))))
  + S3 xl (xh-1) yl (yh-1) zl zh (fun i j k => boxvol c m HZ i j k * (h3 i j k *
       (ide m YDIR j * (e1 i (j+1)%Z k - e1 i j k) + ide m XDIR i * (e2 i j k - e2 (i+1)%Z j k))))
  = 0.
Proof.
  pose proof (bx_ge XDIR) as GX. pose proof (bx_ge YDIR) as GY. pose proof (bx_ge ZDIR) as GZ. cbn [face_lo face_hi] in *.
  pose proof (fun n => D XDIR n) as DX. pose proof (fun n => D YDIR n) as DY. pose proof (fun n => D ZDIR n) as DZ.
  pose proof (fun n => din_wt XDIR n) as HX'. pose proof (fun n => din_wt YDIR n) as HY'. pose proof (fun n => din_wt ZDIR n) as HZ'.
  cbn [face_lo face_hi] in *.
  set (dx := de m XDIR) in *. set (dy := de m YDIR) in *. set (dz := de m ZDIR) in *.
  set (hx := din c m XDIR) in *. set (hy := din c m YDIR) in *. set (hz := din c m ZDIR) in *.
  set (wx := wt xl xh) in *. set (wy := wt yl yh) in *. set (wz := wt zl zh) in *.
  rewrite (S3_ext _ _ _ _ _ _ _ (fun i j k => wy j * (dx i * hz k) * (e1 i j k * (h3 i j k - h3 i (j-1)%Z k))
     + wz k * (- (dx i * hy j)) * (e1 i j k * (h2 i j k - h2 i j (k-1)%Z)))).
  2:{ intros i j k Hi Hj Hk. unfold boxvol; cbn [is_E axis_eqb fld_axis]. fold dx hy hz.
      rewrite <- (HY' j), <- (HZ' k) by lia. ring. }
  rewrite (S3_ext xl xh yl (yh-1) zl zh _ (fun i j k => wz k * (hx i * dy j) * (e2 i j k * (h1 i j k - h1 i j (k-1)%Z))
     + wx i * (- (dy j * hz k)) * (e2 i j k * (h3 i j k - h3 (i-1)%Z j k)))).
  2:{ intros i j k Hi Hj Hk. unfold boxvol; cbn [is_E axis_eqb fld_axis]. fold dy hx hz.
      rewrite <- (HX' i), <- (HZ' k) by lia. ring. }
  rewrite (S3_ext xl xh yl yh zl (zh-1) _ (fun i j k => wx i * (hy j * dz k) * (e3 i j k * (h2 i j k - h2 (i-1)%Z j k))
     + wy j * (- (hx i * dz k)) * (e3 i j k * (h1 i j k - h1 i (j-1)%Z k)))).
  2:{ intros i j k Hi Hj Hk. unfold boxvol; cbn [is_E axis_eqb fld_axis]. fold dz hx hy.
      rewrite <- (HX' i), <- (HY' j) by lia. ring. }
  rewrite (S3_ext xl xh yl (yh-1) zl (zh-1) _ (fun i j k => (hx i * dy j) * (h1 i j k * (e2 i j (k+1)%Z - e2 i j k))
     + (- (hx i * dz k)) * (h1 i j k * (e3 i (j+1)%Z k - e3 i j k)))).
  2:{ intros i j k Hi Hj Hk. unfold boxvol; cbn [is_E axis_eqb fld_axis]. fold dy dz hx.
      transitivity (hx i * dy j * (dz k * ide m ZDIR k) * (h1 i j k * (e2 i j (k+1)%Z - e2 i j k))
        + - (hx i * dz k * (dy j * ide m YDIR j)) * (h1 i j k * (e3 i (j+1)%Z k - e3 i j k))); [ring|].
      rewrite DY, DZ by lia. ring. }
  rewrite (S3_ext xl (xh-1) yl yh zl (zh-1) _ (fun i j k => (hy j * dz k) * (h2 i j k * (e3 (i+1)%Z j k - e3 i j k))
     + (- (dx i * hy j)) * (h2 i j k * (e1 i j (k+1)%Z - e1 i j k)))).
  2:{ intros i j k Hi Hj Hk. unfold boxvol; cbn [is_E axis_eqb fld_axis]. fold dx dz hy.
      transitivity (hy j * dz k * (dx i * ide m XDIR i) * (h2 i j k * (e3 (i+1)%Z j k - e3 i j k))
        + - (dx i * hy j * (dz k * ide m ZDIR k)) * (h2 i j k * (e1 i j (k+1)%Z - e1 i j k))); [ring|].
      rewrite DX, DZ by lia. ring. }
  rewrite (S3_ext xl (xh-1) yl (yh-1) zl zh _ (fun i j k => (dx i * hz k) * (h3 i j k * (e1 i (j+1)%Z k - e1 i j k))
     + (- (dy j * hz k)) * (h3 i j k * (e2 (i+1)%Z j k - e2 i j k)))).
  2:{ intros i j k Hi Hj Hk. unfold boxvol; cbn [is_E axis_eqb fld_axis]. fold dx dy hz.
      transitivity (dx i * hz k * (dy j * ide m YDIR j) * (h3 i j k * (e1 i (j+1)%Z k - e1 i j k))
        + - (dy j * hz k * (dx i * ide m XDIR i)) * (h3 i j k * (e2 (i+1)%Z j k - e2 i j k))); [ring|].
      rewrite DX, DY by lia. ring. }
  rewrite !S3_plus.
  pose proof (wsbp_y xl (xh-1) yl yh zl zh (fun i k => dx i * hz k) e1 h3 ltac:(lia) L1) as P1.
  pose proof (wsbp_z xl (xh-1) yl yh zl zh (fun i j => - (dx i * hy j)) e1 h2 ltac:(lia) L2) as P2.
  pose proof (wsbp_z xl xh yl (yh-1) zl zh (fun i j => hx i * dy j) e2 h1 ltac:(lia) L3) as P3.
  pose proof (wsbp_x xl xh yl (yh-1) zl zh (fun j k => - (dy j * hz k)) e2 h3 ltac:(lia) L4) as P4.
  pose proof (wsbp_x xl xh yl yh zl (zh-1) (fun j k => hy j * dz k) e3 h2 ltac:(lia) L5) as P5.
  pose proof (wsbp_y xl xh yl yh zl (zh-1) (fun i k => - (hx i * dz k)) e3 h1 ltac:(lia) L6) as P6.
  fold wx wy wz in P1, P2, P3, P4, P5, P6. cbn beta in *.
  lra.
Qed.
End Adj.
Lemma btermE m f i j k : closed_box c m -> is_E f = true -> inl (gfolim c f) i j k ->
  let m1 := stp m in let m2 := stp m1 in
  boxvol c m1 f i j k / beta m1 f i j k * (fld m2 f i j k * fld m2 f i j k) =
  boxvol c m f i j k / beta m f i j k * (fld m1 f i j k * fld m1 f i j k) +
  boxvol c m f i j k * ((fld m1 f i j k + fld m2 f i j k) * eval rArith m1 (cH f i j k)).
Proof.
  intros CV E H m1 m2. pose proof (box_step m CV) as CV1. fold m1 in CV1.
  assert (VV : boxvol c m1 f i j k = boxvol c m f i j k).
  { unfold boxvol, din, de, dh, m1. destruct f; cbn [is_E axis_eqb fld_axis]; rewrite !bx_data by reflexivity; reflexivity. }
  assert (BB : beta m1 f i j k = beta m f i j k) by (unfold beta, m1; apply bx_data; reflexivity).
  rewrite VV, BB. clear VV. unfold m2. rewrite (bx_E m1) by auto. rewrite BB.
  destruct (cb_E c m1 CV1 f i j k E H) as [(A1 & B1 & _)|[B1 Z1]].
  - rewrite A1. rewrite BB in B1. field. exact B1.
  - rewrite Z1. rewrite BB in B1. rewrite B1. ring.
Qed.
Lemma bx_cE_sum m1 m2 f i j k : is_E f = false -> (forall l, kind l = None -> m2 l = m1 l) ->
  forall m3, (forall l, kind l = None -> m3 l = m1 l) ->
  (forall g i j k, is_E g = true -> fld m3 g i j k = fld m1 g i j k + fld m2 g i j k) ->
  eval rArith m1 (cH f i j k) + eval rArith m2 (cH f i j k) = eval rArith m3 (cH f i j k).
Proof.
  intros E D m3 D3 H3. unfold fld in H3.
  destruct f; try discriminate E; unfold cH, cEx, cEy, cEz, curl_Ex, curl_Ey, curl_Ez, F, idex, idey, idez;
  cbn [eval rArith vadd vsub vmul]; rewrite !(D (L (AIde _) _ _ _)), !(D3 (L (AIde _) _ _ _)), !H3 by reflexivity; ring.
Qed.
Lemma btermH m f i j k : closed_box c m -> is_E f = false -> inl (gfolim c f) i j k ->
  let m1 := stp m in let m2 := stp m1 in
  boxvol c m1 f i j k / gamma m1 f i j k * (fld m1 f i j k * fld m2 f i j k) =
  boxvol c m f i j k / gamma m f i j k * (fld m f i j k * fld m1 f i j k) +
  boxvol c m f i j k * (fld m1 f i j k * (eval rArith m1 (cH f i j k) + eval rArith m2 (cH f i j k))).
Proof.
  intros CV E H m1 m2. pose proof (box_step m CV) as CV1. fold m1 in CV1.
  assert (VV : boxvol c m1 f i j k = boxvol c m f i j k).
  { unfold boxvol, din, de, dh, m1. destruct f; cbn [is_E axis_eqb fld_axis]; rewrite !bx_data by reflexivity; reflexivity. }
  assert (BB : gamma m1 f i j k = gamma m f i j k) by (unfold gamma, m1; apply bx_data; reflexivity).
  rewrite VV, BB. clear VV. pose proof (bx_H m1 f i j k E H) as S2. pose proof (bx_H m f i j k E H) as S1.
  fold m1 in S1. fold m2 in S2. rewrite BB in S2.
  assert (H0 : fld m f i j k = fld m1 f i j k - gamma m f i j k * eval rArith m1 (cH f i j k)) by lra.
  rewrite H0, S2. pose proof (cb_H c m CV f i j k E H) as G. field. exact G.
Qed.

Lemma box_energy_step m : closed_box c m -> box_energy c (stp m) (stp (stp m)) = box_energy c m (stp m).
Proof.
  intros CV.
  pose proof (box_step m CV) as CV1. pose proof (box_step _ CV1) as CV2.
  unfold box_energy.
  rewrite (sum3_ext (gfolim c EX) (fun i j k => boxvol c (stp m) EX i j k / beta (stp m) EX i j k * _) _ (fun i j k Hl => btermE m EX i j k CV eq_refl Hl)).
  rewrite (sum3_ext (gfolim c EY) (fun i j k => boxvol c (stp m) EY i j k / beta (stp m) EY i j k * _) _ (fun i j k Hl => btermE m EY i j k CV eq_refl Hl)).
  rewrite (sum3_ext (gfolim c EZ) (fun i j k => boxvol c (stp m) EZ i j k / beta (stp m) EZ i j k * _) _ (fun i j k Hl => btermE m EZ i j k CV eq_refl Hl)).
  rewrite (sum3_ext (gfolim c HX) (fun i j k => boxvol c (stp m) HX i j k / gamma (stp m) HX i j k * _) _ (fun i j k Hl => btermH m HX i j k CV eq_refl Hl)).
  rewrite (sum3_ext (gfolim c HY) (fun i j k => boxvol c (stp m) HY i j k / gamma (stp m) HY i j k * _) _ (fun i j k Hl => btermH m HY i j k CV eq_refl Hl)).
  rewrite (sum3_ext (gfolim c HZ) (fun i j k => boxvol c (stp m) HZ i j k / gamma (stp m) HZ i j k * _) _ (fun i j k Hl => btermH m HZ i j k CV eq_refl Hl)).
  rewrite !sum3_plus. set (m1 := stp m) in *. set (m2 := stp m1) in *.
  assert (D1 : forall l, kind l = None -> m1 l = m l) by (intros; apply bx_data; auto).
  assert (D2 : forall l, kind l = None -> m2 l = m l) by (intros l K; unfold m2; rewrite bx_data; auto).
  pose proof (box_adj m (cb_de c m CV) (cb_dh c m CV) (fun i j k => fld m1 EX i j k + fld m2 EX i j k) (fun i j k => fld m1 EY i j k + fld m2 EY i j k)
    (fun i j k => fld m1 EZ i j k + fld m2 EZ i j k) (fld m1 HX) (fld m1 HY) (fld m1 HZ)) as AD.
  assert (WL : forall a f g i j k, is_E f = true -> fld_axis f <> a -> is_E g = false -> fld_axis g <> a -> sample c a f (L (AF f) i j k) ->
    (m1 (setc a (gobox c (face_hi a)) (L (AF f) i j k)) + m2 (setc a (gobox c (face_hi a)) (L (AF f) i j k))) *
    (m1 (setc a (gobox c (face_hi a)) (L (AF g) i j k)) + m1 (setc a (gobox c (face_hi a) - 1)%Z (L (AF g) i j k))) =
    (m1 (setc a (gobox c (face_lo a)) (L (AF f) i j k)) + m2 (setc a (gobox c (face_lo a)) (L (AF f) i j k))) *
    (m1 (setc a (gobox c (face_lo a)) (L (AF g) i j k)) + m1 (setc a (gobox c (face_lo a) - 1)%Z (L (AF g) i j k)))).
  { intros a f g i j k E N E' N' SA. pose proof (wall_line m1 m1 a f g i j k CV1 CV1 E N E' N' SA) as Q1.
    pose proof (wall_line m1 m2 a f g i j k CV1 CV2 E N E' N' SA) as Q2. cbn zeta in Q1, Q2. lra. }
  pose proof (bx_ge XDIR) as GX. pose proof (bx_ge YDIR) as GY. pose proof (bx_ge ZDIR) as GZ. cbn [face_lo face_hi] in GX, GY, GZ.
  assert (SM : forall a f i j k, (forall b, b <> a -> (gobox c (face_lo b) <= (match b with XDIR => i | YDIR => j | ZDIR => k end) <=
     gobox c (face_hi b) - (if axis_eqb b (fld_axis f) then 1 else 0))%Z) -> is_E f = true -> fld_axis f <> a -> sample c a f (L (AF f) i j k)).
  { intros a f i j k HB E N. unfold sample, inp, inl, gfolim, setFieldLimits.
    pose proof (HB XDIR) as BX. pose proof (HB YDIR) as BY. pose proof (HB ZDIR) as BZ.
    destruct a, f; try discriminate E; cbn [fld_axis axis_eqb face_lo face_hi setc li lj lk fieldIsInBoundary] in *; try congruence;
    repeat match goal with H : ?x <> ?x -> _ |- _ => clear H | H : _ <> _ -> _ |- _ => specialize (H ltac:(discriminate)) end; lia. }
  assert (AD' := fun L1 L2 => AD L1 L2
    (fun i j Hi Hj => WL ZDIR EY HX i j 0%Z eq_refl ltac:(discriminate) eq_refl ltac:(discriminate) (SM ZDIR EY i j 0%Z ltac:(intros [] Nb; try congruence; cbn [face_lo face_hi fld_axis axis_eqb]; lia) eq_refl ltac:(discriminate)))
    (fun j k Hj Hk => WL XDIR EY HZ 0%Z j k eq_refl ltac:(discriminate) eq_refl ltac:(discriminate) (SM XDIR EY 0%Z j k ltac:(intros [] Nb; try congruence; cbn [face_lo face_hi fld_axis axis_eqb]; lia) eq_refl ltac:(discriminate)))
    (fun j k Hj Hk => WL XDIR EZ HY 0%Z j k eq_refl ltac:(discriminate) eq_refl ltac:(discriminate) (SM XDIR EZ 0%Z j k ltac:(intros [] Nb; try congruence; cbn [face_lo face_hi fld_axis axis_eqb]; lia) eq_refl ltac:(discriminate)))
    (fun i k Hi Hk => WL YDIR EZ HX i 0%Z k eq_refl ltac:(discriminate) eq_refl ltac:(discriminate) (SM YDIR EZ i 0%Z k ltac:(intros [] Nb; try congruence; cbn [face_lo face_hi fld_axis axis_eqb]; lia) eq_refl ltac:(discriminate)))).
  specialize (AD'
    (fun i k Hi Hk => WL YDIR EX HZ i 0%Z k eq_refl ltac:(discriminate) eq_refl ltac:(discriminate) (SM YDIR EX i 0%Z k ltac:(intros [] Nb; try congruence; cbn [face_lo face_hi fld_axis axis_eqb]; lia) eq_refl ltac:(discriminate)))
    (fun i j Hi Hj => WL ZDIR EX HY i j 0%Z eq_refl ltac:(discriminate) eq_refl ltac:(discriminate) (SM ZDIR EX i j 0%Z ltac:(intros [] Nb; try congruence; cbn [face_lo face_hi fld_axis axis_eqb]; lia) eq_refl ltac:(discriminate)))).
  clear AD. rename AD' into AD.
  cbn beta in AD.
  assert (X : forall f i j k, is_E f = false -> eval rArith m1 (cH f i j k) + eval rArith m2 (cH f i j k) =
     match f with
     | HX => ide m ZDIR k * ((fld m1 EY i j (k+1) + fld m2 EY i j (k+1)) - (fld m1 EY i j k + fld m2 EY i j k)) + ide m YDIR j * ((fld m1 EZ i j k + fld m2 EZ i j k) - (fld m1 EZ i (j+1) k + fld m2 EZ i (j+1) k))
     | HY => ide m XDIR i * ((fld m1 EZ (i+1) j k + fld m2 EZ (i+1) j k) - (fld m1 EZ i j k + fld m2 EZ i j k)) + ide m ZDIR k * ((fld m1 EX i j k + fld m2 EX i j k) - (fld m1 EX i j (k+1) + fld m2 EX i j (k+1)))
     | _ => ide m YDIR j * ((fld m1 EX i (j+1) k + fld m2 EX i (j+1) k) - (fld m1 EX i j k + fld m2 EX i j k)) + ide m XDIR i * ((fld m1 EY i j k + fld m2 EY i j k) - (fld m1 EY (i+1) j k + fld m2 EY (i+1) j k))
     end).
  { intros f i j k E. destruct f; try discriminate E; unfold cH, cEx, cEy, cEz, curl_Ex, curl_Ey, curl_Ez, F, idex, idey, idez, fld, ide;
    cbn [eval rArith vadd vsub vmul]; rewrite !(D1 (L (AIde _) _ _ _)), !(D2 (L (AIde _) _ _ _)) by reflexivity; ring. }
  assert (Y : forall f i j k, is_E f = true -> eval rArith m1 (cH f i j k) =
     match f with
     | EX => idh m YDIR j * (fld m1 HZ i j k - fld m1 HZ i (j-1) k) + idh m ZDIR k * (fld m1 HY i j (k-1) - fld m1 HY i j k)
     | EY => idh m ZDIR k * (fld m1 HX i j k - fld m1 HX i j (k-1)) + idh m XDIR i * (fld m1 HZ (i-1) j k - fld m1 HZ i j k)
     | _ => idh m XDIR i * (fld m1 HY i j k - fld m1 HY (i-1) j k) + idh m YDIR j * (fld m1 HX i (j-1) k - fld m1 HX i j k)
     end).
  { intros f i j k E. destruct f; try discriminate E; unfold cH, cHx, cHy, cHz, curl_Hx, curl_Hy, curl_Hz, F, idhx, idhy, idhz, fld, idh;
    cbn [eval rArith vadd vsub vmul]; rewrite !(D1 (L (AIdh _) _ _ _)) by reflexivity; ring. }
  assert (KEY :
      sum3 (gfolim c EX) (fun i j k => boxvol c m EX i j k * ((fld m1 EX i j k + fld m2 EX i j k) * eval rArith m1 (cH EX i j k)))
    + sum3 (gfolim c EY) (fun i j k => boxvol c m EY i j k * ((fld m1 EY i j k + fld m2 EY i j k) * eval rArith m1 (cH EY i j k)))
    + sum3 (gfolim c EZ) (fun i j k => boxvol c m EZ i j k * ((fld m1 EZ i j k + fld m2 EZ i j k) * eval rArith m1 (cH EZ i j k)))
    + sum3 (gfolim c HX) (fun i j k => boxvol c m HX i j k * (fld m1 HX i j k * (eval rArith m1 (cH HX i j k) + eval rArith m2 (cH HX i j k))))
    + sum3 (gfolim c HY) (fun i j k => boxvol c m HY i j k * (fld m1 HY i j k * (eval rArith m1 (cH HY i j k) + eval rArith m2 (cH HY i j k))))
    + sum3 (gfolim c HZ) (fun i j k => boxvol c m HZ i j k * (fld m1 HZ i j k * (eval rArith m1 (cH HZ i j k) + eval rArith m2 (cH HZ i j k)))) = 0).
  { rewrite <- AD. 
    repeat match goal with |- _ + _ = _ + _ => apply f_equal2 end;
    match goal with |- sum3 ?l ?f = _ => change (sum3 l f) with (S3 (l XLO) (l XHI) (l YLO) (l YHI) (l ZLO) (l ZHI) f) end;
    unfold gfolim, setFieldLimits; cbn [fieldIsInBoundary]; apply S3_ext; intros; 
    [rewrite (Y EX)|rewrite (Y EY)|rewrite (Y EZ)|rewrite (X HX)|rewrite (X HY)|rewrite (X HZ)]; reflexivity. }
  match type of KEY with ?a + ?b + ?d + ?e + ?f + ?g = 0 =>
    set (ka := a) in *; set (kb := b) in *; set (kd := d) in *; set (ke := e) in *; set (kf := f) in *; set (kg := g) in * end.
  lra.
Qed.
End Box.
