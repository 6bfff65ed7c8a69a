(** C82: the mirror image of the problem has the mirror image of the result. *)
From Coq Require Import ZArith List Bool Ascii String Reals Lia Lra.
From Verif Require Import Types CArr CStr Sim Scan Lang BBox Grid SpecGrid Step Setup SetupProofs P_Setup PmlProfile Media Medium SpecMedium MediumProofs Debye Waveform Source
  PlaneWave Observer Edges EdgesProofs SpecEdges SpecText Mesh SpecGeom SpecCards P_Cards SpecMedia P_Media SpecPhys SpecEnergy SpecStable P_Grid P_Stable Front Program SpecFront P_Front P_FrontRun
  LangProofs StepShape StepBounds BBoxProofs MediaProofs SpecSource SourceProofs P_Source Whole P_Whole SpecFile P_FrontStable Energy SpecMaxwell P_Maxwell SpecRecip P_Recip SpecMaxwellBox P_MaxwellBox SpecTurn P_Turn SpecMirror.
Import ListNotations.
Local Open Scope list_scope.
Open Scope Z_scope.

(** ** Reversed sums *)
Lemma sum_snoc lo hi f : lo <= hi -> SpecSource.sum lo hi f = (SpecSource.sum lo (hi - 1) f + f hi)%R.
Proof.
  intros L. unfold SpecSource.sum. assert (E : zrange lo hi = zrange lo (hi - 1) ++ [hi]).
  { unfold zrange. replace (Z.to_nat (hi - lo + 1)) with (S (Z.to_nat (hi - 1 - lo + 1))) by lia. rewrite seq_S, map_app. cbn [map]. f_equal. f_equal. lia. }
  rewrite E, map_app, fold_right_app. cbn [map fold_right]. rewrite Rplus_0_r. generalize (map f (zrange lo (hi - 1))). intros l. induction l as [|v l IH]; cbn [fold_right]; [ring|]. rewrite IH. ring.
Qed.
Lemma sum_empty lo hi f : hi < lo -> SpecSource.sum lo hi f = 0%R.
Proof. intros L. unfold SpecSource.sum. rewrite zrange_nil by lia. reflexivity. Qed.
Lemma sum_cons lo hi f : lo <= hi -> SpecSource.sum lo hi f = (f lo + SpecSource.sum (lo + 1) hi f)%R.
Proof. intros L. unfold SpecSource.sum. rewrite zrange_cons by lia. reflexivity. Qed.
Lemma sum_rev k lo hi f f' : (forall i, lo <= i <= hi -> f' (k - i) = f i) -> SpecSource.sum (k - hi) (k - lo) f' = SpecSource.sum lo hi f.
Proof.
  intros X. destruct (Z.le_gt_cases lo hi) as [L|L]; [|rewrite !sum_empty by lia; reflexivity].
  remember (Z.to_nat (hi - lo)) as m eqn:M. revert lo hi L M X. induction m as [|m IH]; intros lo hi L M X.
  - assert (lo = hi) by lia. subst. rewrite (sum_cons (k - hi)), (sum_cons hi), !sum_empty by lia. rewrite X by lia. reflexivity.
  - rewrite (sum_cons (k - hi)) by lia. rewrite (sum_snoc lo hi) by lia. rewrite X by lia. replace (k - hi + 1) with (k - (hi - 1)) by lia. rewrite IH; [ring|lia|lia|]. intros i Hi. apply X. lia.
Qed.

(** ** The mirror *)
Section Mirror.
Variables (h h' : MeshData) (c c' : Cfg) (lines lines' : Axis -> carr R) (n : Z).
Hypothesis T : mirrored h h' n.
Hypothesis HM : forall a, h_mesh h a = Some (lines a).
Hypothesis HM' : forall a, h_mesh h' a = Some (lines' a).
Hypothesis NL : forall a, numLines c' a = numLines c a.
Hypothesis NX : numLines c XDIR = n + 1.
Hypothesis N0 : 1 <= n.
Hypothesis WM : forall f, outerSurfaceType c' (mirrorFace f) = outerSurfaceType c f.
Hypothesis BW : forall f, outerSurfaceType c f = BT_PEC \/ outerSurfaceType c f = BT_PMC \/ outerSurfaceType c f = BT_PERIODIC.
Hypothesis LY : forall f, outerSurfaceNumLayers c f = 0.
Hypothesis LY' : forall f, outerSurfaceNumLayers c' f = 0.
Hypothesis SB : forall s, In s (h_srcs h) -> in_mesh_box c (s_mbbox s).

Lemma mi_yee f b b' i i' x y z : mirrored_box n b b' -> (forall g, i' (mirrorFace g) = i g) -> (yee_in f b' i' (image n f x) y z <-> yee_in f b i x y z).
Proof.
  intros (B1 & B2 & B3 & B4 & B5 & B6) TI. unfold yee_in. cbv zeta.
  pose proof (TI XLO) as I1. pose proof (TI XHI) as I2. pose proof (TI YLO) as I3. pose proof (TI YHI) as I4. pose proof (TI ZLO) as I5. pose proof (TI ZHI) as I6. cbn [mirrorFace] in *.
  assert (YX : ypos f XDIR (image n f x) = 2 * n - ypos f XDIR x) by (unfold ypos, image; destruct (staggered f XDIR); lia).
  split; intros A a; specialize (A a); destruct a; cbn [face_lo face_hi SpecGeom.coord] in *; rewrite ?YX, ?B1, ?B2, ?B3, ?B4, ?B5, ?B6, ?I1, ?I2, ?I3, ?I4, ?I5, ?I6 in *; try exact A;
  destruct A as (A1 & A2 & A3); (split; [lia|]); (split; intros Q; [specialize (A3 Q)|specialize (A2 Q)]; lia).
Qed.
Lemma mi_edge_other a k : a <> XDIR -> edge lines' a k = edge lines a k.
Proof. intros N. pose proof (mi_mesh _ _ _ T a N) as M. rewrite HM, HM' in M. injection M as E. unfold edge, cell, line. rewrite E. reflexivity. Qed.
Lemma mi_edge_x k : 0 <= k <= n - 1 -> edge lines' XDIR (n - 1 - k) = edge lines XDIR k.
Proof.
  intros K. destruct (mi_meshx _ _ _ T) as (v & v' & L & E & E' & X). rewrite HM in E. rewrite HM' in E'. injection E as E. injection E' as E'.
  unfold edge, cell, line. rewrite E, E'. replace (n - 1 - k + 1) with (n - k) by lia. replace (n - 1 - k) with (n - (k + 1)) by lia. rewrite !X by lia. ring.
Qed.
Lemma mi_dual_other a k : a <> XDIR -> dual c' lines' a k = dual c lines a k.
Proof. intros N. unfold dual, inner. rewrite NL, !mi_edge_other by exact N. reflexivity. Qed.
Lemma mi_dual_x k : dual c' lines' XDIR (n - k) = dual c lines XDIR k.
Proof.
  unfold dual, inner. rewrite NL, NX. replace (Z.max 0 (Z.min (n + 1 - 2) (n - k - 1))) with (n - 1 - Z.max 0 (Z.min (n + 1 - 2) k)) by lia.
  replace (Z.max 0 (Z.min (n + 1 - 2) (n - k))) with (n - 1 - Z.max 0 (Z.min (n + 1 - 2) (k - 1))) by lia. rewrite !mi_edge_x by lia. rewrite Rplus_comm. reflexivity.
Qed.

Definition mr (r r' : Region) : Prop := mirrored_box n (g_box r) (g_box r') /\ (forall f, g_incl r' (mirrorFace f) = g_incl r f) /\ g_mat r' = g_mat r.
Lemma mr_pick f x y z r r' m : mr r r' -> pickR f (image n f x) y z m r' = pickR f x y z m r.
Proof.
  intros (A & B & C). unfold pickR. pose proof (mi_yee f _ _ _ _ x y z A B) as Q.
  destruct (yee_in_dec f (g_box r') (g_incl r') (image n f x) y z), (yee_in_dec f (g_box r) (g_incl r) x y z); tauto.
Qed.
Lemma mr_fold f x y z rs rs' : Forall2 mr rs rs' -> forall m, fold_left (pickR f (image n f x) y z) rs' m = fold_left (pickR f x y z) rs m.
Proof. induction 1 as [|r r' rs rs' A F IH]; intros m; [reflexivity|]. cbn [fold_left]. rewrite (mr_pick _ _ _ _ _ _ _ A). apply IH. Qed.

(** *** Sources *)
Lemma mi_len_edge b b' a : in_mesh_box c b -> mirrored_box n b b' -> len (edge lines') b' a false = len (edge lines) b a false.
Proof.
  intros IM (B1 & B2 & B3 & B4 & B5 & B6). unfold len. destruct a; cbn [face_lo face_hi].
  - rewrite B1, B2. pose proof (IM XDIR) as Q. cbn [face_lo face_hi] in Q. replace (n - b XHI) with (n - 1 - (b XHI - 1)) by lia. replace (n - b XLO - 1) with (n - 1 - b XLO) by lia.
    apply sum_rev. intros i Hi. apply mi_edge_x. lia.
  - rewrite B3, B4. unfold SpecSource.sum. f_equal. apply map_ext. intros k. apply mi_edge_other. discriminate.
  - rewrite B5, B6. unfold SpecSource.sum. f_equal. apply map_ext. intros k. apply mi_edge_other. discriminate.
Qed.
Lemma mi_len_dual b b' a : mirrored_box n b b' -> len (dual c' lines') b' a true = len (dual c lines) b a true.
Proof.
  intros (B1 & B2 & B3 & B4 & B5 & B6). unfold len. destruct a; cbn [face_lo face_hi].
  - rewrite B1, B2. apply sum_rev. intros i Hi. apply mi_dual_x.
  - rewrite B3, B4. unfold SpecSource.sum. f_equal. apply map_ext. intros k. apply mi_dual_other. discriminate.
  - rewrite B5, B6. unfold SpecSource.sum. f_equal. apply map_ext. intros k. apply mi_dual_other. discriminate.
Qed.
Lemma mi_sizes s s' : In s (h_srcs h) -> mirrored_src n s s' -> elecLen lines' s' = elecLen lines s /\ magnLen c' lines' s' = magnLen c lines s /\ elecFace c' lines' s' = elecFace c lines s /\ magnFace lines' s' = magnFace lines s.
Proof.
  intros I (B & _ & _ & P & _). unfold elecLen, magnLen, elecFace, magnFace. rewrite P.
  pose proof (fun a => mi_len_edge _ _ a (SB s I) B) as LE. pose proof (fun a => mi_len_dual _ _ a B) as LD. rewrite !LE, !LD. repeat split.
Qed.
Lemma mi_impressed s s' k A : In s (h_srcs h) -> mirrored_src n s s' -> impressed c' lines' s' (k * A) = (k * impressed c lines s A)%R.
Proof.
  intros I Q. destruct (mi_sizes s s' I Q) as (E1 & E2 & E3 & E4). destruct Q as (_ & TT & _ & _ & _ & RR). unfold impressed. rewrite TT, E1, E2, E3, E4, RR.
  destruct (t_type (s_tag s)); unfold Rdiv; ring.
Qed.
Lemma mi_load s s' : In s (h_srcs h) -> mirrored_src n s s' -> Forall2 mr (loadRegion c lines s) (loadRegion c' lines' s').
Proof.
  intros I Q. destruct (mi_sizes s s' I Q) as (E1 & _ & E3 & _). destruct Q as (B & TT & _ & _ & _ & RR). unfold loadRegion. rewrite TT. destruct (isLumped _); [|constructor].
  constructor; [|constructor]. split; [exact B|]. split; [reflexivity|]. cbn [g_mat]. rewrite E1, E3, RR. reflexivity.
Qed.
Lemma mi_covered f x y z s s' : mirrored_src n s s' -> (covered f (image n f x) y z s' <-> covered f x y z s).
Proof.
  intros (B & _ & F & _). unfold covered. rewrite F. rewrite (mi_yee f _ _ (fun _ => true) (fun _ => true) x y z B) by reflexivity. tauto.
Qed.
Lemma scale_total (P P' : Src -> Prop) v v' k l l' : Forall2 (fun s s' => (P s <-> P' s') /\ (P s -> v' s' = k * v s)%R) l l' -> forall t, total_of P v l t -> total_of P' v' l' (k * t)%R.
Proof.
  induction 1 as [|s s' l l' (A & B) F IH]; intros t TO; inversion TO; subst; [rewrite Rmult_0_r; constructor| |].
  - rewrite Rmult_plus_distr_l, <- B by assumption. constructor; [apply A; assumption|apply IH; assumption].
  - apply to_out; [rewrite <- A; assumption|apply IH; assumption].
Qed.
Lemma f2_with {A B} (P : A -> B -> Prop) l l' : Forall2 P l l' -> Forall2 (fun x y => P x y /\ In x l) l l'.
Proof. induction 1 as [|x y l l' Q F IH]; constructor; [split; [exact Q|left; reflexivity]|]. eapply f2impl; [|exact IH]. intros u v (X1 & X2). split; [exact X1|right; exact X2]. Qed.
Lemma f2_conj {A B} (P Q : A -> B -> Prop) l l' : Forall2 P l l' -> Forall2 Q l l' -> Forall2 (fun x y => P x y /\ Q x y) l l'.
Proof. induction 1; intros F; inversion F; subst; constructor; auto. Qed.
Lemma mi_drives (w w' : Src -> R) f x y z J F : Forall2 (fun s s' => w' s' = w s) (h_srcs h) (h_srcs h') -> drives c h lines w f x y z J F -> drives c' h' lines' w' f (image n f x) y z (sign f * J) (sign f * F).
Proof.
  intros W. assert (Q : Forall2 (fun s s' => (mirrored_src n s s' /\ In s (h_srcs h)) /\ w' s' = w s) (h_srcs h) (h_srcs h')).
  { exact (f2_conj _ _ _ _ (f2_with _ _ _ (mi_srcs _ _ _ T)) W). }
  intros (D1 & D2). split; [revert D1|revert D2]; apply scale_total; (eapply f2impl; [|exact Q]); intros s s' ((TS & IS) & WS); cbv beta; rewrite WS; rewrite (mi_covered f x y z s s' TS);
  (split; [unfold impresses_field; destruct TS as (_ & -> & _); tauto|]); intros ((-> & _) & _); rewrite <- (mi_impressed s s' _ _ IS TS); f_equal; destruct TS as (_ & _ & _ & _ & -> & _); ring.
Qed.
(** *** The scene *)
Definition mpr p p' := mr (reg h p) (reg h' p').
Lemma mi_made f x y z m : made_of f x y z (regions c h lines) m -> made_of f (image n f x) y z (regions c' h' lines') m.
Proof.
  rewrite !made_pick. intros ->. unfold regions, paints. rewrite !map_app, !fold_left_app. fold (reg h) (reg h'). cbn [sceneOf sc_blocks sc_lines sc_surfs].
  assert (FM : forall l l', Forall2 mpr l l' -> forall m, fold_left (pickR f (image n f x) y z) (map (reg h') l') m = fold_left (pickR f x y z) (map (reg h) l) m).
  { intros l l' F. apply mr_fold. revert F. apply Forall2_map_app. auto. }
  assert (FB : Forall2 mpr (map blockPaint (h_blocks h)) (map blockPaint (h_blocks h'))).
  { eapply Forall2_map_app; [|exact (mi_blocks _ _ _ T)]. intros b b' (B & M & MM). split; [exact B|]. split; [exact M|exact MM]. }
  assert (FL : Forall2 mpr (map (linePaint (wireOf h)) (h_lines h)) (map (linePaint (wireOf h')) (h_lines h'))).
  { eapply Forall2_map_app; [|exact (mi_lines _ _ _ T)]. intros b b' (B & M). split; [exact B|]. split; [reflexivity|]. cbn [linePaint reg p_medium g_mat]. rewrite M. destruct (wireOf h (wire_l b)); reflexivity. }
  assert (FS : Forall2 mpr (flat_map (surfPaint (boundOf h)) (map fst (h_surfs h))) (flat_map (surfPaint (boundOf h')) (map fst (h_surfs h')))).
  { eapply Forall2_flat with (R1 := fun s s' => mirrored_surf h h' n (s, 0%R) (s', 0%R)); [|eapply Forall2_map_app; [|exact (mi_surfs _ _ _ T)]; intros b b' Q; exact Q].
    intros s s' (B & M). cbn [fst] in B, M. unfold surfPaint. rewrite M. destruct (boundOf h (boundary_s s)); first [constructor; fail|constructor; [(split; [exact B|split; reflexivity])|constructor]|constructor]. }
  rewrite (FM _ _ FB), (FM _ _ FL), (FM _ _ FS).
  rewrite (mr_fold f x y z (flat_map (loadRegion c lines) (h_srcs h)) (flat_map (loadRegion c' lines') (h_srcs h')))
    by (eapply Forall2_flat; [|exact (f2_with _ _ _ (mi_srcs _ _ _ T))]; intros s s' (Q & I); exact (mi_load s s' I Q)).
  assert (BW' : forall g, outerSurfaceType c' g = BT_PEC \/ outerSurfaceType c' g = BT_PMC \/ outerSurfaceType c' g = BT_PERIODIC).
  { intros g. assert (G : exists k, g = mirrorFace k) by (exists (mirrorFace g); destruct g; reflexivity). destruct G as (k & ->). rewrite WM. apply BW. }
  f_equal. unfold reg. rewrite !wall_pick by assumption.
  match goal with |- (if _ then _ else ?q) = _ => set (m0 := q); clearbody m0 end.
  assert (E : forall g, wallHit c' f (image n f x) y z (mirrorFace g) = wallHit c f x y z g).
  { intros g. unfold wallHit. rewrite WM. f_equal. pose proof (mi_yee f (wallBox c g) (wallBox c' (mirrorFace g)) SpecMedia.all_faces SpecMedia.all_faces x y z) as Q.
    assert (QQ : mirrored_box n (wallBox c g) (wallBox c' (mirrorFace g))).
    { unfold mirrored_box, wallBox, outerBox. rewrite !LY, !LY'. destruct g; cbn [mirrorFace face_axis axis_eqb is_lo]; rewrite ?NL, ?NX; repeat split; lia. }
    specialize (Q QQ (fun _ => eq_refl)). destruct (yee_in_dec f _ _ (image n f x) y z), (yee_in_dec f _ _ x y z); tauto. }
  unfold faces. cbn [existsb]. rewrite <- (E XLO), <- (E XHI), <- (E YLO), <- (E YHI), <- (E ZLO), <- (E ZHI). cbn [mirrorFace].
  repeat match goal with |- context [wallHit ?a ?b ?cc ?d ?e ?g] => let k := fresh "k" in set (k := wallHit a b cc d e g); clearbody k end.
  destruct k, k0, k1, k2, k3, k4; reflexivity.
Qed.

(** *** The equations *)
Definition backE (E : nat -> Vec) : nat -> Vec := fun t a x y z => (sign (Eat a) * E t a (image n (Eat a) x) y z)%R.
Definition backH (H : nat -> Vec) : nat -> Vec := fun t a x y z => (sign (Hat a) * H t a (image n (Hat a) x) y z)%R.
Lemma sign2 f : (sign f * sign f = 1)%R.
Proof. destruct f; cbn [sign]; ring. Qed.
Lemma sign1 f : sign f = 1%R \/ sign f = (-1)%R.
Proof. destruct f; cbn [sign]; auto. Qed.
Lemma ampere_sign k e s dt u v r F J : k = 1%R \/ k = (-1)%R -> ampere e s dt u (v - k * F) (r - k * J) -> ampere e s dt (k * u) (k * v - F) (k * r - J).
Proof. unfold ampere. intros K A. transitivity (k * (r - k * J))%R; [rewrite <- A|]; destruct K as [-> | ->]; unfold Rdiv; ring. Qed.
Lemma faraday_sign k mu dt u v r F J : k = 1%R \/ k = (-1)%R -> faraday mu dt u (v - k * F) (r - k * J) -> faraday mu dt (k * u) (k * v - F) (k * r - J).
Proof. unfold faraday. intros K A. transitivity (k * (r - k * J))%R; [rewrite <- A|]; destruct K as [-> | ->]; unfold Rdiv; ring. Qed.
Lemma mi_across_other q v : q <> XDIR -> across c' q v = across c q v.
Proof.
  intros N. unfold across. rewrite NL. pose proof (WM (face_lo q)) as W1. pose proof (WM (face_hi q)) as W2. destruct q; [exfalso; apply N; reflexivity| |]; cbn [face_lo face_hi mirrorFace] in *; rewrite W1, W2; reflexivity.
Qed.
Lemma mi_across_x v : -1 <= v <= n -> across c' XDIR (n - 1 - v) = (n - 1 - fst (across c XDIR v), snd (across c XDIR v)).
Proof.
  intros V. unfold across. rewrite NL, NX. pose proof (WM XLO) as W1. pose proof (WM XHI) as W2. cbn [face_lo face_hi mirrorFace] in *. rewrite W1, W2.
  assert (Q : v = -1 \/ v = n \/ 0 <= v <= n - 1) by lia. destruct Q as [-> | [-> | Q]].
  - destruct (Z.ltb_spec (n - 1 - -1) 0); [lia|]. destruct (Z.ltb_spec (n + 1 - 2) (n - 1 - -1)); [|lia]. change (-1 <? 0) with true. cbv iota. destruct (outerSurfaceType c XLO); cbn [fst snd]; f_equal; lia.
  - destruct (Z.ltb_spec (n - 1 - n) 0); [|lia]. destruct (Z.ltb_spec n 0); [lia|]. destruct (Z.ltb_spec (n + 1 - 2) n); [|lia]. destruct (outerSurfaceType c XHI); cbn [fst snd]; f_equal; lia.
  - destruct (Z.ltb_spec (n - 1 - v) 0); [lia|]. destruct (Z.ltb_spec (n + 1 - 2) (n - 1 - v)); [lia|]. destruct (Z.ltb_spec v 0); [lia|]. destruct (Z.ltb_spec (n + 1 - 2) v); [lia|]. reflexivity.
Qed.
Lemma mi_beyond H' t b x y z : -1 <= x <= n -> beyond c (backH H' t) b x y z = (sign (Hat b) * beyond c' (H' t) b (image n (Hat b) x) y z)%R.
Proof.
  intros X. unfold beyond, backH. cbv zeta. destruct b; cbn [axis_eqb Hat image staggered is_E fld_axis negb fst snd]; rewrite ?(mi_across_other YDIR), ?(mi_across_other ZDIR) by discriminate; rewrite ?(mi_across_x x X); cbn [fst snd]; ring.
Qed.
Lemma mi_rotH H' t a x y z : in_mesh c (Eat a) x y z -> (sign (Eat a) * rotH c' lines' (beyond c' (H' t)) a (image n (Eat a) x) y z)%R = rotH c lines (beyond c (backH H' t)) a x y z.
Proof.
  intros I. specialize (I XDIR). cbv zeta in I. destruct I as (I & _). unfold meshAll, ypos in I.
  unfold rotH. destruct a; cbn [upA shift SpecGeom.coord Eat Hat image staggered is_E fld_axis axis_eqb negb face_lo face_hi is_lo face_axis] in *; rewrite ?mi_dual_x, ?(mi_dual_other YDIR), ?(mi_dual_other ZDIR) by discriminate; rewrite !mi_beyond by lia;
  cbn [Hat sign image staggered is_E fld_axis axis_eqb negb].
  - unfold Rdiv. ring.
  - replace (n - 1 - (x + -1)) with (n - x) by lia. replace (n - x + -1) with (n - 1 - x) by lia. unfold Rdiv. ring.
  - replace (n - 1 - (x + -1)) with (n - x) by lia. replace (n - x + -1) with (n - 1 - x) by lia. unfold Rdiv. ring.
Qed.
Lemma mi_rotE E' t a x y z : in_mesh c (Hat a) x y z -> (sign (Hat a) * rotE lines' (E' t) a (image n (Hat a) x) y z)%R = rotE lines (backE E' t) a x y z.
Proof.
  intros I. specialize (I XDIR). cbv zeta in I. destruct I as (I & _). unfold meshAll, ypos in I. 
  unfold rotE, backE. destruct a; cbn [upA shift SpecGeom.coord Eat Hat sign image staggered is_E fld_axis axis_eqb negb face_lo face_hi is_lo face_axis] in *.
  - rewrite !mi_edge_other by discriminate. unfold Rdiv. ring.
  - rewrite (mi_edge_other ZDIR) by discriminate. rewrite mi_edge_x by lia. replace (n - (x + 1)) with (n - 1 - x) by lia. replace (n - 1 - x + 1) with (n - x) by lia. unfold Rdiv. ring.
  - rewrite (mi_edge_other YDIR) by discriminate. rewrite mi_edge_x by lia. replace (n - (x + 1)) with (n - 1 - x) by lia. replace (n - 1 - x + 1) with (n - x) by lia. unfold Rdiv. ring.
Qed.
Lemma mi_mesh_box : mirrored_box n (meshAll c) (meshAll c').
Proof. unfold mirrored_box, meshAll. cbn [is_lo face_axis]. rewrite !NL, NX. repeat split; lia. Qed.
Lemma mi_maxwell dt (wE wH wE' wH' : nat -> Src -> R) E' H' :
  (forall n, Forall2 (fun s s' => wE' n s' = wE n s) (h_srcs h) (h_srcs h')) -> (forall n, Forall2 (fun s s' => wH' n s' = wH n s) (h_srcs h) (h_srcs h')) ->
  maxwell_box c' h' lines' dt wE' wH' E' H' -> maxwell_box c h lines dt wE wH (backE E') (backH H').
Proof.
  intros WE WH [MR MM MA MF]. split.
  - intros a x y z. unfold backE, backH. split; intros I; [rewrite (proj1 (MR a (image n (Eat a) x) y z))|rewrite (proj2 (MR a (image n (Hat a) x) y z))]; try ring; refine (proj2 (mi_yee _ _ _ _ _ x y z mi_mesh_box _) I); reflexivity.
  - intros t a x y z I MO NI. unfold backE. rewrite MM; [ring| | |].
    + refine (proj2 (mi_yee _ _ _ _ _ x y z mi_mesh_box _) I). reflexivity.
    + apply mi_made. exact MO.
    + intros s' I' F' C'. destruct (f2_in_r _ _ _ _ (mi_srcs _ _ _ T) I') as (s & IS & TS). apply (NI s IS).
      * unfold impresses_field in *. destruct TS as (_ & <- & _). exact F'.
      * apply (mi_covered _ _ _ _ _ _ TS). exact C'.
  - intros t a x y z eps sigma mu J F I MO D. rewrite <- mi_rotH by exact I. unfold backE.
    assert (A : ampere (eps * eps0) sigma dt (E' t a (image n (Eat a) x) y z) (E' (S t) a (image n (Eat a) x) y z - sign (Eat a) * F) (rotH c' lines' (beyond c' (H' t)) a (image n (Eat a) x) y z - sign (Eat a) * J)).
    { eapply MA; [|apply mi_made; exact MO|eapply mi_drives; [apply WE|exact D]]. refine (proj2 (mi_yee _ _ _ _ _ x y z mi_mesh_box _) I). reflexivity. }
    apply ampere_sign; [apply sign1|exact A].
  - intros t a x y z mat J F I MO D. rewrite <- mi_rotE by exact I. unfold backH.
    assert (A : faraday (match mat with Metal => mu0 | Simple _ _ mu => mu * mu0 end) dt (H' t a (image n (Hat a) x) y z) (H' (S t) a (image n (Hat a) x) y z - sign (Hat a) * F)
      (- rotE lines' (E' (S t)) a (image n (Hat a) x) y z - sign (Hat a) * J)).
    { eapply MF; [|apply mi_made; exact MO|eapply mi_drives; [apply WH|exact D]]. refine (proj2 (mi_yee _ _ _ _ _ x y z mi_mesh_box _) I). reflexivity. }
    apply faraday_sign in A; [|apply sign1]. replace (- (sign (Hat a) * rotE lines' (E' (S t)) a (image n (Hat a) x) y z))%R with (sign (Hat a) * - rotE lines' (E' (S t)) a (image n (Hat a) x) y z)%R by ring. exact A.
Qed.
End Mirror.

(** ** C82 *)
Lemma mirror_min c c' lines lines' g g' a e e' : wf c -> wf c' -> has_lines c lines -> has_lines c' lines' -> axisEdges c lines g a = Some e -> axisEdges c' lines' g' a = Some e' ->
  numLines c' a = numLines c a -> (forall i, 0 <= i < numLines c a - 1 -> exists j, 0 <= j < numLines c a - 1 /\ cell lines' a j = cell lines a i) ->
  (forall i, 0 <= i < numLines c a - 1 -> exists j, 0 <= j < numLines c a - 1 /\ cell lines a j = cell lines' a i) -> eMin e' = eMin e.
Proof.
  intros W W' HL HL' E E' N CC CC'. destruct (min_cells c lines g a e W HL E) as (A1 & A2 & A3). destruct (min_cells c' lines' g' a e' W' HL' E') as (B1 & B2 & B3). rewrite N in *.
  apply Rle_antisym.
  - destruct A3 as [-> | (i & Hi & ->)]; [exact B1|]. destruct (CC i Hi) as (j & Hj & <-). apply B2. lia.
  - destruct B3 as [-> | (i & Hi & ->)]; [exact A1|]. destruct (CC' i Hi) as (j & Hj & <-). apply A2. lia.
Qed.
Theorem C82_mirrored : forall n c h lines e dt c' h' lines' e' dt', box_problem c h lines dt e -> box_problem c' h' lines' dt' e' -> free_metal c h lines ->
  mirrored h h' n -> (forall f, outerSurfaceType c' (mirrorFace f) = outerSurfaceType c f) ->
  forall rcm rcm' ep ep' ts ts' d d' s s', set_up c h e dt (w_m s) -> quiet (w_m s) -> set_up c' h' e' dt' (w_m s') -> quiet (w_m s') ->
  (forall t, Forall2 (fun x x' => d_wE d' t x' = d_wE d t x /\ d_wH d' t x' = d_wH d t x) (h_srcs h) (h_srcs h')) ->
  dt' = dt /\
  forall t,
  let m := w_m (wrun c (progOf c h rcm ep ts (fun a n => adat (eDe (e a)) n) (fun a n => adat (eDh (e a)) n)) d 0 t s) in
  let m' := w_m (wrun c' (progOf c' h' rcm' ep' ts' (fun a n => adat (eDe (e' a)) n) (fun a n => adat (eDh (e' a)) n)) d' 0 t s') in
  (forall a x y z, in_mesh c (Eat a) x y z -> fieldE c' m' a (image n (Eat a) x) y z = (sign (Eat a) * fieldE c m a x y z)%R) /\
  (forall a x y z, in_mesh c (Hat a) x y z -> fieldH c' m' a (image n (Hat a) x) y z = (sign (Hat a) * fieldH c m a x y z)%R).
Proof.
  intros n c h lines e dt c' h' lines' e' dt' P P' FM T WM rcm rcm' ep ep' ts ts' d d' s s' SU QU SU' QU' WW.
  pose proof P as [(df & file & st & cards & RD) CF BW PM NS SS OC SO LI HM IN (cn & garbage & CN & PC & HE)].
  pose proof P' as [(df' & file' & st' & cards' & RD') CF' BW' PM' NS' SS' OC' SO' LI' HM' IN' (cn' & garbage' & CN' & PC' & HE')].
  pose proof (walls_wide c BW) as WD. pose proof (walls_wide c' BW') as WD'.
  assert (CL : forall hh cc, cfgFor hh = Some cc -> forall a, numLines cc a = h_numCells hh a + 1 /\ 1 <= h_numCells hh a).
  { intros hh cc C. unfold cfgFor, setupCfg in C. destruct (parseDM _ _ _) as [[nc nl]|] eqn:D; [|discriminate]. destruct (initExternalSurfaceParameters _) as [[reg' num]|]; [|discriminate]. injection C as <-.
    unfold parseDM in D. destruct (_ || _ || _) eqn:G in D; [discriminate|]. injection D as <- <-. intros []; cbn [cfgOf numLines]; split; try reflexivity; lia. }
  assert (NL : forall a, numLines c' a = numLines c a). { intros a. destruct (CL _ _ CF a) as (-> & _). destruct (CL _ _ CF' a) as (-> & _). rewrite (mi_cells _ _ _ T). reflexivity. }
  destruct (CL _ _ CF XDIR) as (NX & N0). rewrite (mi_n _ _ _ T) in NX, N0.
  pose proof (file_wf _ _ CF) as W. pose proof (file_wf _ _ CF') as W'.
  assert (LY : forall f, outerSurfaceNumLayers c f = 0) by (exact (box_layers c h lines e dt P)).
  assert (LY' : forall f, outerSurfaceNumLayers c' f = 0) by (exact (box_layers c' h' lines' e' dt' P')).
  assert (SB : forall s, In s (h_srcs h) -> in_mesh_box c (s_mbbox s)) by (intros q I; exact (proj1 (read_srcs _ _ _ _ _ _ RD CF q I))).
  assert (EQ : dt' = dt).
  { destruct (edges_axes _ _ _ _ _ _ HE) as (EA & D1). destruct (edges_axes _ _ _ _ _ _ HE') as (EA' & D2).
    rewrite (mi_cn _ _ _ T), CN in CN'. injection CN' as CN'. rewrite CN' in *.
    pose proof (file_lines _ _ _ _ _ _ RD CF WD _ _ _ _ _ HM IN HE) as HL. pose proof (file_lines _ _ _ _ _ _ RD' CF' WD' _ _ _ _ _ HM' IN' HE') as HL'.
    assert (MN : forall a, eMin (e' a) = eMin (e a)).
    { intros a. apply (mirror_min c c' lines lines' garbage garbage' a (e a) (e' a) W W' HL HL' (EA a) (EA' a) (NL a)); intros i Hi; destruct a.
      - rewrite NX in *. exists (n - 1 - i). split; [lia|]. apply (mi_edge_x h h' lines lines' n T HM HM' i). lia.
      - exists i. split; [exact Hi|]. apply (mi_edge_other h h' lines lines' n T HM HM' YDIR i). discriminate.
      - exists i. split; [exact Hi|]. apply (mi_edge_other h h' lines lines' n T HM HM' ZDIR i). discriminate.
      - rewrite NX in *. exists (n - 1 - i). split; [lia|]. symmetry. pose proof (mi_edge_x h h' lines lines' n T HM HM' (n - 1 - i) ltac:(lia)) as Q. replace (n - 1 - (n - 1 - i)) with i in Q by lia. exact Q.
      - exists i. split; [exact Hi|]. symmetry. apply (mi_edge_other h h' lines lines' n T HM HM' YDIR i). discriminate.
      - exists i. split; [exact Hi|]. symmetry. apply (mi_edge_other h h' lines lines' n T HM HM' ZDIR i). discriminate. }
    rewrite D1, D2. unfold Edges.timeStep. rewrite !MN. reflexivity. }
  split; [exact EQ|]. subst dt'. intros t m m'.
  pose proof (C83_solution c' h' lines' e' dt P' rcm' ep' ts' d' s' SU' QU') as MX. cbv zeta in MX.
  assert (W1 : forall n, Forall2 (fun x x' => d_wE d' n x' = d_wE d n x) (h_srcs h) (h_srcs h')) by (intros k; eapply f2impl; [|exact (WW k)]; intros ? ? (A & _); exact A).
  assert (W2 : forall n, Forall2 (fun x x' => d_wH d' n x' = d_wH d n x) (h_srcs h) (h_srcs h')) by (intros k; eapply f2impl; [|exact (WW k)]; intros ? ? (_ & A); exact A).
  pose proof (mi_maxwell h h' c c' lines lines' n T HM HM' NL NX N0 WM BW LY LY' SB dt _ _ _ _ _ _ W1 W2 MX) as MB.
  destruct (C83_unique c h lines e dt P FM rcm ep ts d s SU QU _ _ MB t) as (U1 & U2). cbv zeta in U1, U2.
  split; intros a x y z I; [unfold m; rewrite (U1 a x y z I); unfold backE|unfold m; rewrite (U2 a x y z I); unfold backH]; rewrite <- Rmult_assoc, sign2, Rmult_1_l; reflexivity.
Qed.
(** A problem that is its own mirror image has symmetric fields. *)
Corollary C82_symmetric : forall n c h lines e dt, box_problem c h lines dt e -> free_metal c h lines -> mirrored h h n -> outerSurfaceType c XLO = outerSurfaceType c XHI ->
  forall rcm ep ts d s, set_up c h e dt (w_m s) -> quiet (w_m s) ->
  forall t, let m := w_m (wrun c (progOf c h rcm ep ts (fun a n => adat (eDe (e a)) n) (fun a n => adat (eDh (e a)) n)) d 0 t s) in
  (forall a x y z, in_mesh c (Eat a) x y z -> fieldE c m a (image n (Eat a) x) y z = (sign (Eat a) * fieldE c m a x y z)%R) /\
  (forall a x y z, in_mesh c (Hat a) x y z -> fieldH c m a (image n (Hat a) x) y z = (sign (Hat a) * fieldH c m a x y z)%R).
Proof.
  intros n c h lines e dt P FM T WX rcm ep ts d s SU QU t m.
  destruct (C82_mirrored n c h lines e dt c h lines e dt P P FM T ltac:(intros []; cbn [mirrorFace]; congruence) rcm rcm ep ep ts ts d d s s SU QU SU QU) as (_ & Q); [|exact (Q t)].
  intros k. generalize (h_srcs h). intros l. induction l; constructor; auto.
Qed.
