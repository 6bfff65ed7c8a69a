(** Energy conservation: proofs. *)
From Coq Require Import ZArith List Bool Lia Reals Lra.
From Verif Require Import Types Lang LangProofs BBox Grid SpecGrid Step StepShape StepBounds StepCount StepOnce
  SpecCone StepValue SpecPhys SpecEnergy.
Import ListNotations.
Open Scope R_scope.
Local Arguments Z.mul : simpl never.
Local Arguments Z.add : simpl never.
Local Arguments Z.sub : simpl never.

Lemma sumZ_empty lo hi f : (hi < lo)%Z -> sumZ lo hi f = 0.
Proof. intros. unfold sumZ. rewrite zrange_empty by auto. reflexivity. Qed.
Lemma sumZ_snoc lo hi f : (lo <= hi)%Z -> sumZ lo hi f = sumZ lo (hi - 1) f + f hi.
Proof.
  intros. unfold sumZ. rewrite zrange_snoc by auto. rewrite map_app, fold_right_app. cbn [map fold_right].
  generalize (map f (zrange lo (hi-1))). induction l; cbn; lra.
Qed.
Lemma sumZ_ext lo hi f g : (forall x, (lo <= x <= hi)%Z -> f x = g x) -> sumZ lo hi f = sumZ lo hi g.
Proof.
  intros H. unfold sumZ. f_equal. apply map_ext_in. intros x Hx. apply H. apply in_zrange; auto.
Qed.
Lemma sumZ_plus lo hi f g : sumZ lo hi (fun x => f x + g x) = sumZ lo hi f + sumZ lo hi g.
Proof. unfold sumZ. induction (zrange lo hi); cbn; lra. Qed.
Lemma sumZ_scal lo hi w f : sumZ lo hi (fun x => w * f x) = w * sumZ lo hi f.
Proof. unfold sumZ. induction (zrange lo hi); cbn; [lra|rewrite IHl; lra]. Qed.
Lemma sumZ_zero lo hi : sumZ lo hi (fun _ => 0) = 0.
Proof. unfold sumZ. induction (zrange lo hi); cbn; lra. Qed.
Lemma lsum_swap (l1 l2 : list Z) (f : Z -> Z -> R) :
  fold_right Rplus 0 (map (fun i => fold_right Rplus 0 (map (fun j => f i j) l2)) l1)
  = fold_right Rplus 0 (map (fun j => fold_right Rplus 0 (map (fun i => f i j) l1)) l2).
Proof.
  induction l1 as [|x l IH]; cbn [map fold_right].
  - induction l2; cbn; lra.
  - rewrite IH. clear IH. induction l2; cbn; lra.
Qed.
Lemma sumZ_swap a b c d f : sumZ a b (fun i => sumZ c d (fun j => f i j)) = sumZ c d (fun j => sumZ a b (fun i => f i j)).
Proof. apply lsum_swap. Qed.

(** summation by parts on one line *)
Lemma sbp lo (n : nat) (e h : Z -> R) :
  let hi := (lo + Z.of_nat n)%Z in
  sumZ lo hi (fun j => e j * (h j - h (j - 1)%Z)) + sumZ lo (hi - 1) (fun j => h j * (e (j + 1)%Z - e j))
  = e hi * h hi - e lo * h (lo - 1)%Z.
Proof.
  induction n; cbn zeta.
  - rewrite sumZ_snoc by lia. rewrite !(sumZ_empty lo) by lia.
    replace (lo + Z.of_nat 0)%Z with lo by lia. ring.
  - cbn zeta in IHn. replace (lo + Z.of_nat (S n))%Z with (lo + Z.of_nat n + 1)%Z by lia.
    set (hi := (lo + Z.of_nat n)%Z) in *.
    rewrite (sumZ_snoc lo (hi + 1)) by lia. replace (hi + 1 - 1)%Z with hi by lia.
    rewrite (sumZ_snoc lo hi (fun j => h j * _)) by lia. lra.
Qed.
Lemma sbp0 lo hi (e h : Z -> R) : (lo <= hi)%Z -> e lo = 0 -> e hi = 0 ->
  sumZ lo hi (fun j => e j * (h j - h (j - 1)%Z)) + sumZ lo (hi - 1) (fun j => h j * (e (j + 1)%Z - e j)) = 0.
Proof.
  intros H E1 E2. pose proof (sbp lo (Z.to_nat (hi - lo)) e h) as X. cbn zeta in X.
  replace (lo + Z.of_nat (Z.to_nat (hi - lo)))%Z with hi in X by lia. rewrite E1, E2 in X. lra.
Qed.

Definition S3 a b c d e f (g : Z -> Z -> Z -> R) : R :=
  sumZ a b (fun i => sumZ c d (fun j => sumZ e f (fun k => g i j k))).
Lemma S3_ext a b c d e f g h : (forall i j k, (a <= i <= b)%Z -> (c <= j <= d)%Z -> (e <= k <= f)%Z -> g i j k = h i j k) ->
  S3 a b c d e f g = S3 a b c d e f h.
Proof. intros H. apply sumZ_ext; intros; apply sumZ_ext; intros; apply sumZ_ext; intros; auto. Qed.
Lemma S3_plus a b c d e f g h : S3 a b c d e f (fun i j k => g i j k + h i j k) = S3 a b c d e f g + S3 a b c d e f h.
Proof.
  unfold S3. rewrite <- sumZ_plus. apply sumZ_ext; intros. rewrite <- sumZ_plus. apply sumZ_ext; intros. apply sumZ_plus.
Qed.

Lemma sbp_x lo hi c d e f (w : Z -> Z -> R) (E H : Z -> Z -> Z -> R) : (lo <= hi)%Z ->
  (forall j k, (c <= j <= d)%Z -> (e <= k <= f)%Z -> E lo j k = 0 /\ E hi j k = 0) ->
  S3 lo hi c d e f (fun i j k => w j k * (E i j k * (H i j k - H (i-1)%Z j k))) +
  S3 lo (hi-1) c d e f (fun i j k => w j k * (H i j k * (E (i+1)%Z j k - E i j k))) = 0.
Proof.
  intros L Z0. unfold S3.
  rewrite (sumZ_swap lo hi), (sumZ_swap lo (hi-1)). rewrite <- sumZ_plus.
  rewrite <- (sumZ_zero c d). apply sumZ_ext. intros j Hj.
  rewrite (sumZ_swap lo hi), (sumZ_swap lo (hi-1)). rewrite <- sumZ_plus.
  rewrite <- (sumZ_zero e f). apply sumZ_ext. intros k Hk.
  rewrite !sumZ_scal. destruct (Z0 j k Hj Hk) as [Z1 Z2].
  rewrite <- Rmult_plus_distr_l. rewrite (sbp0 lo hi (fun i => E i j k) (fun i => H i j k)) by auto. ring.
Qed.
Lemma sbp_y a b lo hi e f (w : Z -> Z -> R) (E H : Z -> Z -> Z -> R) : (lo <= hi)%Z ->
  (forall i k, (a <= i <= b)%Z -> (e <= k <= f)%Z -> E i lo k = 0 /\ E i hi k = 0) ->
  S3 a b lo hi e f (fun i j k => w i k * (E i j k * (H i j k - H i (j-1)%Z k))) +
  S3 a b lo (hi-1) e f (fun i j k => w i k * (H i j k * (E i (j+1)%Z k - E i j k))) = 0.
Proof.
  intros L Z0. unfold S3. rewrite <- sumZ_plus. rewrite <- (sumZ_zero a b). apply sumZ_ext. intros i Hi.
  rewrite (sumZ_swap lo hi), (sumZ_swap lo (hi-1)). rewrite <- sumZ_plus.
  rewrite <- (sumZ_zero e f). apply sumZ_ext. intros k Hk.
  rewrite !sumZ_scal. destruct (Z0 i k Hi Hk) as [Z1 Z2].
  rewrite <- Rmult_plus_distr_l. rewrite (sbp0 lo hi (fun j => E i j k) (fun j => H i j k)) by auto. ring.
Qed.
Lemma sbp_z a b c d lo hi (w : Z -> Z -> R) (E H : Z -> Z -> Z -> R) : (lo <= hi)%Z ->
  (forall i j, (a <= i <= b)%Z -> (c <= j <= d)%Z -> E i j lo = 0 /\ E i j hi = 0) ->
  S3 a b c d lo hi (fun i j k => w i j * (E i j k * (H i j k - H i j (k-1)%Z))) +
  S3 a b c d lo (hi-1) (fun i j k => w i j * (H i j k * (E i j (k+1)%Z - E i j k))) = 0.
Proof.
  intros L Z0. unfold S3. rewrite <- sumZ_plus. rewrite <- (sumZ_zero a b). apply sumZ_ext. intros i Hi.
  rewrite <- sumZ_plus. rewrite <- (sumZ_zero c d). apply sumZ_ext. intros j Hj.
  rewrite !sumZ_scal. destruct (Z0 i j Hi Hj) as [Z1 Z2].
  rewrite <- Rmult_plus_distr_l. rewrite (sbp0 lo hi (fun k => E i j k) (fun k => H i j k)) by auto. ring.
Qed.

Section Energy.
Variable c : Cfg.
Hypothesis W : wf c.
Hypothesis PEC : forall f, outerSurfaceType c f = BT_PEC.

Lemma gibox_gobox f : gibox c f = gobox c f.
Proof.
  assert (X : forall g, outerSurfaceNumLayers c g = 0%Z) by (intros g; apply (wf_nopml c W); rewrite PEC; discriminate).
  destruct f; unfold gobox, gibox; rewrite ?X; unfold NUM_GHOST_CELLS; lia.
Qed.
Lemma gfilim_gfolim f g : gfilim c f g = gfolim c f g.
Proof.
  unfold gfilim, gfolim, setFieldLimits, includeInnerBoundary. rewrite !PEC. cbn [btype_eqb negb].
  destruct g; rewrite gibox_gobox; reflexivity.
Qed.
Lemma inl_gfilim f i j k : inl (gfolim c f) i j k -> inl (gfilim c f) i j k.
Proof. unfold inl. rewrite !gfilim_gfolim. auto. Qed.
Lemma inl_meshH f i j k : inl (gfolim c f) i j k -> in_meshH c f i j k.
Proof.
  unfold in_meshH, inl, gfolim, setFieldLimits. rewrite !gibox_gobox. auto.
Qed.

Notation stp := (step rArith c).
Lemma stp_E m f i j k : is_E f = true -> inl (gfolim c f) i j k ->
  fld (stp m) f i j k = alpha m f i j k * fld m f i j k + beta m f i j k * eval rArith m (cH f i j k).
Proof.
  intros E H. unfold fld. rewrite (step_gridE rArith c W) by (auto using inl_gfilim).
  unfold updStmt. rewrite E. reflexivity.
Qed.
Lemma stp_H m f i j k : is_E f = false -> inl (gfolim c f) i j k ->
  fld (stp m) f i j k = fld m f i j k + gamma m f i j k * eval rArith (stp m) (cH f i j k).
Proof.
  intros E H. unfold fld, step, coreStep.
  apply (stepx_meshH rArith c W [] (fun s (Hs : In s (flat [])) => match Hs with end)); auto using inl_meshH.
Qed.
Lemma stp_data m l : kind l = None -> stp m l = m l.
Proof. apply step_data. Qed.

(** the cavity stays a cavity *)
Lemma cavity_step m : cavity c m -> cavity c (stp m).
Proof.
  intros CV. destruct CV as [C1 C2 C3 C4 C5]. constructor; auto.
  - intros f i j k E H. unfold alpha, beta in *. rewrite !stp_data by reflexivity.
    destruct (C2 f i j k E H) as [X|[B Z0]]; [left; exact X|]. right. split; [exact B|].
    rewrite stp_E by auto. unfold beta. rewrite B, Z0. ring.
  - intros f i j k E H. unfold gamma. rewrite stp_data by reflexivity. apply C3; auto.
  - intros. unfold de, ide. rewrite !stp_data by reflexivity. apply C4; auto.
  - intros. unfold dh, idh. rewrite !stp_data by reflexivity. apply C5; auto.
Qed.

Lemma wall_zero m f i j k : cavity c m -> is_E f = true -> inl (gfolim c f) i j k -> on_wall c f i j k -> fld m f i j k = 0.
Proof. intros CV E H O. destruct (cav_E c m CV f i j k E H) as [(_ & _ & N)|[_ Z0]]; tauto. Qed.

Lemma hi_ge a : (gobox c (face_lo a) + 1 <= gobox c (face_hi a))%Z.
Proof.
  pose proof (wf_lines c W a).
  rewrite <- !gibox_gobox. destruct a; unfold gibox, NUM_GHOST_CELLS; cbn [face_lo face_hi]; lia.
Qed.

(** the two curls are adjoint *)
Section Adj.
Variable m : mem R.
Hypothesis D : forall a n, (gobox c (face_lo a) <= n < gobox c (face_hi a))%Z -> de m a n * ide m a n = 1.
Hypothesis DH : forall a n, (gobox c (face_lo a) <= n <= gobox c (face_hi a))%Z -> dh m a n * idh m a n = 1.
Variables (e1 e2 e3 h1 h2 h3 : Z -> Z -> Z -> R).
Notation xl := (gobox c XLO). Notation xh := (gobox c XHI).
Notation yl := (gobox c YLO). Notation yh := (gobox c YHI).
Notation zl := (gobox c ZLO). Notation zh := (gobox c ZHI).
Hypothesis Z1 : forall i j k, inl (gfolim c EX) i j k -> on_wall c EX i j k -> e1 i j k = 0.
Hypothesis Z2 : forall i j k, inl (gfolim c EY) i j k -> on_wall c EY i j k -> e2 i j k = 0.
Hypothesis Z3 : forall i j k, inl (gfolim c EZ) i j k -> on_wall c EZ i j k -> e3 i j k = 0.

Lemma adj_sum :
    S3 xl (xh-1) yl yh zl zh (fun i j k => vol m EX i j k * (e1 i j k *
       (idh m YDIR j * (h3 i j k - h3 i (j-1)%Z k) + idh m ZDIR k * (h2 i j (k-1)%Z - h2 i j k))))
  + S3 xl xh yl (yh-1) zl zh (fun i j k => vol m EY i j k * (e2 i j k *
       (idh m ZDIR k * (h1 i j k - h1 i j (k-1)%Z) + idh m XDIR i * (h3 (i-1)%Z j k - h3 i j k))))
  + S3 xl xh yl yh zl (zh-1) (fun i j k => vol m EZ i j k * (e3 i j k *
       (idh m XDIR i * (h2 i j k - h2 (i-1)%Z j k) + idh m YDIR j * (h1 i (j-1)%Z k - h1 i j k))))
  + S3 xl xh yl (yh-1) zl (zh-1) (fun i j k => vol m HX i j k * (h1 i j k *
       (ide m ZDIR k * (e2 i j (k+1)%Z - e2 i j k) + ide m YDIR j * (e3 i j k - e3 i (j+1)%Z k))))
  + S3 xl (xh-1) yl yh zl (zh-1) (fun i j k => vol m HY i j k * (h2 i j k *
       (ide m XDIR i * (e3 (i+1)%Z j k - e3 i j k) + ide m ZDIR k * (e1 i j k - e1 i j (k+1)%Z))))
  + S3 xl (xh-1) yl (yh-1) zl zh (fun i j k => vol m HZ i j k * (h3 i j k *
       (ide m YDIR j * (e1 i (j+1)%Z k - e1 i j k) + ide m XDIR i * (e2 i j k - e2 (i+1)%Z j k))))
  = 0.
Proof.
  pose proof (hi_ge XDIR) as GX. pose proof (hi_ge YDIR) as GY. pose proof (hi_ge ZDIR) as GZ. cbn [face_lo face_hi] in *.
  set (dx := de m XDIR) in *. set (dy := de m YDIR) in *. set (dz := de m ZDIR) in *.
  set (hx := dh m XDIR) in *. set (hy := dh m YDIR) in *. set (hz := dh m ZDIR) in *.
  pose proof (fun n => D XDIR n) as DX. pose proof (fun n => D YDIR n) as DY. pose proof (fun n => D ZDIR n) as DZ.
  pose proof (fun n => DH XDIR n) as HX'. pose proof (fun n => DH YDIR n) as HY'. pose proof (fun n => DH ZDIR n) as HZ'.
  cbn [face_lo face_hi] in *. fold dx in DX. fold dy in DY. fold dz in DZ. fold hx in HX'. fold hy in HY'. fold hz in HZ'.
  rewrite (S3_ext _ _ _ _ _ _ _ (fun i j k => (dx i * hz k) * (e1 i j k * (h3 i j k - h3 i (j-1)%Z k))
     + (- (dx i * hy j)) * (e1 i j k * (h2 i j k - h2 i j (k-1)%Z)))).
  2:{ intros i j k Hi Hj Hk. unfold vol; cbn [is_E axis_eqb fld_axis]. fold dx hy hz.
      transitivity (dx i * hz k * (hy j * idh m YDIR j) * (e1 i j k * (h3 i j k - h3 i (j-1)%Z k))
        + - (dx i * hy j * (hz k * idh m ZDIR k)) * (e1 i j k * (h2 i j k - h2 i j (k-1)%Z))); [ring|].
      rewrite HY', HZ' by lia. ring. }
  rewrite (S3_ext xl xh yl (yh-1) zl zh _ (fun i j k => (hx i * dy j) * (e2 i j k * (h1 i j k - h1 i j (k-1)%Z))
     + (- (dy j * hz k)) * (e2 i j k * (h3 i j k - h3 (i-1)%Z j k)))).
  2:{ intros i j k Hi Hj Hk. unfold vol; cbn [is_E axis_eqb fld_axis]. fold dy hx hz.
      transitivity (hx i * dy j * (hz k * idh m ZDIR k) * (e2 i j k * (h1 i j k - h1 i j (k-1)%Z))
        + - (dy j * hz k * (hx i * idh m XDIR i)) * (e2 i j k * (h3 i j k - h3 (i-1)%Z j k))); [ring|].
      rewrite HX', HZ' by lia. ring. }
  rewrite (S3_ext xl xh yl yh zl (zh-1) _ (fun i j k => (hy j * dz k) * (e3 i j k * (h2 i j k - h2 (i-1)%Z j k))
     + (- (hx i * dz k)) * (e3 i j k * (h1 i j k - h1 i (j-1)%Z k)))).
  2:{ intros i j k Hi Hj Hk. unfold vol; cbn [is_E axis_eqb fld_axis]. fold dz hx hy.
      transitivity (hy j * dz k * (hx i * idh m XDIR i) * (e3 i j k * (h2 i j k - h2 (i-1)%Z j k))
        + - (hx i * dz k * (hy j * idh m YDIR j)) * (e3 i j k * (h1 i j k - h1 i (j-1)%Z k))); [ring|].
      rewrite HX', HY' by lia. ring. }
  rewrite (S3_ext xl xh yl (yh-1) zl (zh-1) _ (fun i j k => (hx i * dy j) * (h1 i j k * (e2 i j (k+1)%Z - e2 i j k))
     + (- (hx i * dz k)) * (h1 i j k * (e3 i (j+1)%Z k - e3 i j k)))).
  2:{ intros i j k Hi Hj Hk. unfold vol; cbn [is_E axis_eqb fld_axis]. fold dy dz hx.
      transitivity (hx i * dy j * (dz k * ide m ZDIR k) * (h1 i j k * (e2 i j (k+1)%Z - e2 i j k))
        + - (hx i * dz k * (dy j * ide m YDIR j)) * (h1 i j k * (e3 i (j+1)%Z k - e3 i j k))); [ring|].
      rewrite DY, DZ by lia. ring. }
  rewrite (S3_ext xl (xh-1) yl yh zl (zh-1) _ (fun i j k => (hy j * dz k) * (h2 i j k * (e3 (i+1)%Z j k - e3 i j k))
     + (- (dx i * hy j)) * (h2 i j k * (e1 i j (k+1)%Z - e1 i j k)))).
  2:{ intros i j k Hi Hj Hk. unfold vol; cbn [is_E axis_eqb fld_axis]. fold dx dz hy.
      transitivity (hy j * dz k * (dx i * ide m XDIR i) * (h2 i j k * (e3 (i+1)%Z j k - e3 i j k))
        + - (dx i * hy j * (dz k * ide m ZDIR k)) * (h2 i j k * (e1 i j (k+1)%Z - e1 i j k))); [ring|].
      rewrite DX, DZ by lia. ring. }
  rewrite (S3_ext xl (xh-1) yl (yh-1) zl zh _ (fun i j k => (dx i * hz k) * (h3 i j k * (e1 i (j+1)%Z k - e1 i j k))
     + (- (dy j * hz k)) * (h3 i j k * (e2 (i+1)%Z j k - e2 i j k)))).
  2:{ intros i j k Hi Hj Hk. unfold vol; cbn [is_E axis_eqb fld_axis]. fold dx dy hz.
      transitivity (dx i * hz k * (dy j * ide m YDIR j) * (h3 i j k * (e1 i (j+1)%Z k - e1 i j k))
        + - (dy j * hz k * (dx i * ide m XDIR i)) * (h3 i j k * (e2 (i+1)%Z j k - e2 i j k))); [ring|].
      rewrite DX, DY by lia. ring. }
  rewrite !S3_plus.
  assert (IN : forall f i j k, (if axis_eqb (fld_axis f) XDIR then xl <= i <= xh - 1 else xl <= i <= xh)%Z ->
     (if axis_eqb (fld_axis f) YDIR then yl <= j <= yh - 1 else yl <= j <= yh)%Z ->
     (if axis_eqb (fld_axis f) ZDIR then zl <= k <= zh - 1 else zl <= k <= zh)%Z -> is_E f = true -> inl (gfolim c f) i j k).
  { intros f i j k A B C E. unfold inl, gfolim, setFieldLimits. destruct f; try discriminate E; cbn [axis_eqb fld_axis] in *; cbn [fieldIsInBoundary]; lia. }
  pose proof (sbp_y xl (xh-1) yl yh zl zh (fun i k => dx i * hz k) e1 h3 ltac:(lia)) as P1.
  pose proof (sbp_z xl (xh-1) yl yh zl zh (fun i j => - (dx i * hy j)) e1 h2 ltac:(lia)) as P2.
  pose proof (sbp_z xl xh yl (yh-1) zl zh (fun i j => hx i * dy j) e2 h1 ltac:(lia)) as P3.
  pose proof (sbp_x xl xh yl (yh-1) zl zh (fun j k => - (dy j * hz k)) e2 h3 ltac:(lia)) as P4.
  pose proof (sbp_x xl xh yl yh zl (zh-1) (fun j k => hy j * dz k) e3 h2 ltac:(lia)) as P5.
  pose proof (sbp_y xl xh yl yh zl (zh-1) (fun i k => - (hx i * dz k)) e3 h1 ltac:(lia)) as P6.
  cbn beta in *.
  assert (OW : forall f i j k, ((fld_axis f <> XDIR /\ (i = xl \/ i = xh)) \/
     (fld_axis f <> YDIR /\ (j = yl \/ j = yh)) \/ (fld_axis f <> ZDIR /\ (k = zl \/ k = zh))) -> on_wall c f i j k) by auto.
  assert (A1 : forall i k, (xl <= i <= xh-1)%Z -> (zl <= k <= zh)%Z -> e1 i yl k = 0 /\ e1 i yh k = 0).
  { intros; split; apply Z1; (first [apply IN; cbn [axis_eqb fld_axis]; first [lia|reflexivity]|apply OW; right; left; split; [discriminate|auto]]). }
  assert (A2 : forall i j, (xl <= i <= xh-1)%Z -> (yl <= j <= yh)%Z -> e1 i j zl = 0 /\ e1 i j zh = 0).
  { intros; split; apply Z1; (first [apply IN; cbn [axis_eqb fld_axis]; first [lia|reflexivity]|apply OW; right; right; split; [discriminate|auto]]). }
  assert (A3 : forall i j, (xl <= i <= xh)%Z -> (yl <= j <= yh-1)%Z -> e2 i j zl = 0 /\ e2 i j zh = 0).
  { intros; split; apply Z2; (first [apply IN; cbn [axis_eqb fld_axis]; first [lia|reflexivity]|apply OW; right; right; split; [discriminate|auto]]). }
  assert (A4 : forall j k, (yl <= j <= yh-1)%Z -> (zl <= k <= zh)%Z -> e2 xl j k = 0 /\ e2 xh j k = 0).
  { intros; split; apply Z2; (first [apply IN; cbn [axis_eqb fld_axis]; first [lia|reflexivity]|apply OW; left; split; [discriminate|auto]]). }
  assert (A5 : forall j k, (yl <= j <= yh)%Z -> (zl <= k <= zh-1)%Z -> e3 xl j k = 0 /\ e3 xh j k = 0).
  { intros; split; apply Z3; (first [apply IN; cbn [axis_eqb fld_axis]; first [lia|reflexivity]|apply OW; left; split; [discriminate|auto]]). }
  assert (A6 : forall i k, (xl <= i <= xh)%Z -> (zl <= k <= zh-1)%Z -> e3 i yl k = 0 /\ e3 i yh k = 0).
  { intros; split; apply Z3; (first [apply IN; cbn [axis_eqb fld_axis]; first [lia|reflexivity]|apply OW; right; left; split; [discriminate|auto]]). }
  specialize (P1 A1). specialize (P2 A2). specialize (P3 A3). specialize (P4 A4). specialize (P5 A5). specialize (P6 A6).
  lra.
Qed.
End Adj.

Lemma sum3_plus lim g h : sum3 lim (fun i j k => g i j k + h i j k) = sum3 lim g + sum3 lim h.
Proof. apply S3_plus. Qed.
Lemma sum3_ext lim g h : (forall i j k, inl lim i j k -> g i j k = h i j k) -> sum3 lim g = sum3 lim h.
Proof. intros H. apply S3_ext. intros. apply H. unfold inl. auto. Qed.

Lemma termE m f i j k : cavity c m -> is_E f = true -> inl (gfolim c f) i j k ->
  let m1 := stp m in let m2 := stp m1 in
  vol m1 f i j k / beta m1 f i j k * (fld m2 f i j k * fld m2 f i j k) =
  vol m f i j k / beta m f i j k * (fld m1 f i j k * fld m1 f i j k) +
  vol m f i j k * ((fld m1 f i j k + fld m2 f i j k) * eval rArith m1 (cH f i j k)).
Proof.
  intros CV E H m1 m2. pose proof (cavity_step m CV) as CV1. fold m1 in CV1.
  assert (VV : vol m1 f i j k = vol m f i j k).
  { unfold vol, de, dh, m1. destruct f; cbn [is_E axis_eqb fld_axis]; rewrite !stp_data by reflexivity; reflexivity. }
  assert (BB : beta m1 f i j k = beta m f i j k) by (unfold beta, m1; apply stp_data; reflexivity).
  rewrite VV, BB. clear VV. unfold m2. rewrite (stp_E m1) by auto. rewrite BB.
  destruct (cav_E c m1 CV1 f i j k E H) as [(A1 & B1 & _)|[B1 Z1]].
  - rewrite A1. rewrite BB in B1. field. exact B1.
  - rewrite Z1. rewrite BB in B1. rewrite B1. ring.
Qed.
Lemma cE_sum m1 m2 f i j k : is_E f = false -> (forall l, kind l = None -> m2 l = m1 l) ->
  forall m3, (forall l, kind l = None -> m3 l = m1 l) ->
  (forall g i j k, is_E g = true -> fld m3 g i j k = fld m1 g i j k + fld m2 g i j k) ->
  eval rArith m1 (cH f i j k) + eval rArith m2 (cH f i j k) = eval rArith m3 (cH f i j k).
Proof.
  intros E D m3 D3 H3. unfold fld in H3.
  destruct f; try discriminate E; unfold cH, cEx, cEy, cEz, curl_Ex, curl_Ey, curl_Ez, F, idex, idey, idez;
  cbn [eval rArith vadd vsub vmul]; rewrite !(D (L (AIde _) _ _ _)), !(D3 (L (AIde _) _ _ _)), !H3 by reflexivity; ring.
Qed.
Lemma termH m f i j k : cavity c m -> is_E f = false -> inl (gfolim c f) i j k ->
  let m1 := stp m in let m2 := stp m1 in
  vol m1 f i j k / gamma m1 f i j k * (fld m1 f i j k * fld m2 f i j k) =
  vol m f i j k / gamma m f i j k * (fld m f i j k * fld m1 f i j k) +
  vol m f i j k * (fld m1 f i j k * (eval rArith m1 (cH f i j k) + eval rArith m2 (cH f i j k))).
Proof.
  intros CV E H m1 m2. pose proof (cavity_step m CV) as CV1. fold m1 in CV1.
  assert (VV : vol m1 f i j k = vol m f i j k).
  { unfold vol, de, dh, m1. destruct f; cbn [is_E axis_eqb fld_axis]; rewrite !stp_data by reflexivity; reflexivity. }
  assert (BB : gamma m1 f i j k = gamma m f i j k) by (unfold gamma, m1; apply stp_data; reflexivity).
  rewrite VV, BB. clear VV. pose proof (stp_H m1 f i j k E H) as S2. pose proof (stp_H m f i j k E H) as S1.
  fold m1 in S1. fold m2 in S2. rewrite BB in S2.
  assert (H0 : fld m f i j k = fld m1 f i j k - gamma m f i j k * eval rArith m1 (cH f i j k)) by lra.
  rewrite H0, S2. pose proof (cav_H c m CV f i j k E H) as G. field. exact G.
Qed.

Lemma energy_step m : cavity c m -> energy c (stp m) (stp (stp m)) = energy c m (stp m).
Proof.
  intros CV.
  pose proof (cavity_step m CV) as CV1. pose proof (cavity_step _ CV1) as CV2.
  unfold energy.
  rewrite (sum3_ext (gfolim c EX) (fun i j k => vol (stp m) EX i j k / beta (stp m) EX i j k * _) _ (fun i j k Hl => termE m EX i j k CV eq_refl Hl)).
  rewrite (sum3_ext (gfolim c EY) (fun i j k => vol (stp m) EY i j k / beta (stp m) EY i j k * _) _ (fun i j k Hl => termE m EY i j k CV eq_refl Hl)).
  rewrite (sum3_ext (gfolim c EZ) (fun i j k => vol (stp m) EZ i j k / beta (stp m) EZ i j k * _) _ (fun i j k Hl => termE m EZ i j k CV eq_refl Hl)).
  rewrite (sum3_ext (gfolim c HX) (fun i j k => vol (stp m) HX i j k / gamma (stp m) HX i j k * _) _ (fun i j k Hl => termH m HX i j k CV eq_refl Hl)).
  rewrite (sum3_ext (gfolim c HY) (fun i j k => vol (stp m) HY i j k / gamma (stp m) HY i j k * _) _ (fun i j k Hl => termH m HY i j k CV eq_refl Hl)).
  rewrite (sum3_ext (gfolim c HZ) (fun i j k => vol (stp m) HZ i j k / gamma (stp m) HZ i j k * _) _ (fun i j k Hl => termH m HZ i j k CV eq_refl Hl)).
  rewrite !sum3_plus. set (m1 := stp m) in *. set (m2 := stp m1) in *.
  assert (D1 : forall l, kind l = None -> m1 l = m l) by (intros; apply stp_data; auto).
  assert (D2 : forall l, kind l = None -> m2 l = m l) by (intros l K; unfold m2; rewrite stp_data; auto).
  pose proof (adj_sum m (cav_de c m CV) (cav_dh c m CV) (fun i j k => fld m1 EX i j k + fld m2 EX i j k) (fun i j k => fld m1 EY i j k + fld m2 EY i j k)
    (fun i j k => fld m1 EZ i j k + fld m2 EZ i j k) (fld m1 HX) (fld m1 HY) (fld m1 HZ)) as AD.
  assert (WZ : forall f i j k, is_E f = true -> inl (gfolim c f) i j k -> on_wall c f i j k -> fld m1 f i j k + fld m2 f i j k = 0).
  { intros f i j k E Hl O. rewrite !wall_zero by auto. ring. }
  specialize (AD (fun i j k => WZ EX i j k eq_refl) (fun i j k => WZ EY i j k eq_refl) (fun i j k => WZ EZ i j k eq_refl)).
  cbn beta in AD.
  assert (X : forall f i j k, is_E f = false -> eval rArith m1 (cH f i j k) + eval rArith m2 (cH f i j k) =
     match f with
     | HX => ide m ZDIR k * ((fld m1 EY i j (k+1) + fld m2 EY i j (k+1)) - (fld m1 EY i j k + fld m2 EY i j k)) + ide m YDIR j * ((fld m1 EZ i j k + fld m2 EZ i j k) - (fld m1 EZ i (j+1) k + fld m2 EZ i (j+1) k))
     | HY => ide m XDIR i * ((fld m1 EZ (i+1) j k + fld m2 EZ (i+1) j k) - (fld m1 EZ i j k + fld m2 EZ i j k)) + ide m ZDIR k * ((fld m1 EX i j k + fld m2 EX i j k) - (fld m1 EX i j (k+1) + fld m2 EX i j (k+1)))
     | _ => ide m YDIR j * ((fld m1 EX i (j+1) k + fld m2 EX i (j+1) k) - (fld m1 EX i j k + fld m2 EX i j k)) + ide m XDIR i * ((fld m1 EY i j k + fld m2 EY i j k) - (fld m1 EY (i+1) j k + fld m2 EY (i+1) j k))
     end).
  { intros f i j k E. destruct f; try discriminate E; unfold cH, cEx, cEy, cEz, curl_Ex, curl_Ey, curl_Ez, F, idex, idey, idez, fld, ide;
    cbn [eval rArith vadd vsub vmul]; rewrite !(D1 (L (AIde _) _ _ _)), !(D2 (L (AIde _) _ _ _)) by reflexivity; ring. }
  assert (Y : forall f i j k, is_E f = true -> eval rArith m1 (cH f i j k) =
     match f with
     | EX => idh m YDIR j * (fld m1 HZ i j k - fld m1 HZ i (j-1) k) + idh m ZDIR k * (fld m1 HY i j (k-1) - fld m1 HY i j k)
     | EY => idh m ZDIR k * (fld m1 HX i j k - fld m1 HX i j (k-1)) + idh m XDIR i * (fld m1 HZ (i-1) j k - fld m1 HZ i j k)
     | _ => idh m XDIR i * (fld m1 HY i j k - fld m1 HY (i-1) j k) + idh m YDIR j * (fld m1 HX i (j-1) k - fld m1 HX i j k)
     end).
  { intros f i j k E. destruct f; try discriminate E; unfold cH, cHx, cHy, cHz, curl_Hx, curl_Hy, curl_Hz, F, idhx, idhy, idhz, fld, idh;
    cbn [eval rArith vadd vsub vmul]; rewrite !(D1 (L (AIdh _) _ _ _)) by reflexivity; ring. }
  assert (KEY :
      sum3 (gfolim c EX) (fun i j k => vol m EX i j k * ((fld m1 EX i j k + fld m2 EX i j k) * eval rArith m1 (cH EX i j k)))
    + sum3 (gfolim c EY) (fun i j k => vol m EY i j k * ((fld m1 EY i j k + fld m2 EY i j k) * eval rArith m1 (cH EY i j k)))
    + sum3 (gfolim c EZ) (fun i j k => vol m EZ i j k * ((fld m1 EZ i j k + fld m2 EZ i j k) * eval rArith m1 (cH EZ i j k)))
    + sum3 (gfolim c HX) (fun i j k => vol m HX i j k * (fld m1 HX i j k * (eval rArith m1 (cH HX i j k) + eval rArith m2 (cH HX i j k))))
    + sum3 (gfolim c HY) (fun i j k => vol m HY i j k * (fld m1 HY i j k * (eval rArith m1 (cH HY i j k) + eval rArith m2 (cH HY i j k))))
    + sum3 (gfolim c HZ) (fun i j k => vol m HZ i j k * (fld m1 HZ i j k * (eval rArith m1 (cH HZ i j k) + eval rArith m2 (cH HZ i j k)))) = 0).
  { rewrite <- AD. 
    repeat match goal with |- _ + _ = _ + _ => apply f_equal2 end;
    match goal with |- sum3 ?l ?f = _ => change (sum3 l f) with (S3 (l XLO) (l XHI) (l YLO) (l YHI) (l ZLO) (l ZHI) f) end;
    unfold gfolim, setFieldLimits; cbn [fieldIsInBoundary]; apply S3_ext; intros; 
    [rewrite (Y EX)|rewrite (Y EY)|rewrite (Y EZ)|rewrite (X HX)|rewrite (X HY)|rewrite (X HZ)]; reflexivity. }
  match type of KEY with ?a + ?b + ?d + ?e + ?f + ?g = 0 =>
    set (ka := a) in *; set (kb := b) in *; set (kd := d) in *; set (ke := e) in *; set (kf := f) in *; set (kg := g) in * end.
  lra.
Qed.
End Energy.
