(** C84: a magnetic or electric wall is a plane of symmetry. *)
From Coq Require Import ZArith List Bool Ascii String Reals Lia Lra.
From Verif Require Import StepOnce SpecCone Types CArr CStr Sim Scan Lang BBox Grid SpecGrid Ghost Step Setup SetupProofs P_Setup PmlProfile Media Medium SpecMedium MediumProofs Debye Waveform Source
  PlaneWave Observer Edges EdgesProofs SpecEdges SpecText Mesh SpecGeom SpecCards P_Cards SpecMedia P_Media SpecPhys SpecEnergy SpecStable P_Grid P_Stable Front Program SpecFront P_Front P_FrontRun
  LangProofs StepShape StepBounds GhostValue BBoxProofs MediaProofs Sibc SpecSource SourceProofs P_Source Whole P_Whole SpecFile P_FrontStable Energy SpecMaxwell P_Maxwell SpecMaxwellBox P_MaxwellBox SpecTurn P_Turn SpecMirror P_Mirror SpecImage.
Import ListNotations.
Local Open Scope list_scope.
Open Scope Z_scope.
Local Arguments Z.mul : simpl never.
Local Arguments Z.add : simpl never.
Local Arguments Z.sub : simpl never.

(** ** Mirrored histories in a box *)
Section Reflect.
Variables (h h' : MeshData) (c c' : Cfg) (lines lines' : Axis -> carr R) (n : Z) (k : R).
Hypothesis K : k = 1%R \/ k = (-1)%R.
Hypothesis NL : forall a, numLines c' a = numLines c a.
Hypothesis NX : numLines c XDIR = n + 1.
Hypothesis N0 : 1 <= n.
Hypothesis NP : forall a, 2 <= numLines c a.
Hypothesis WL : forall f, outerSurfaceType c' (mirrorFace f) = outerSurfaceType c f.
Hypothesis EO : forall a i, a <> XDIR -> 0 <= i <= numLines c a - 2 -> edge lines' a i = edge lines a i.
Hypothesis EX_ : forall i, 0 <= i <= n - 1 -> edge lines' XDIR (n - 1 - i) = edge lines XDIR i.
Hypothesis MA : forall f x y z m, in_mesh c f x y z -> made_of f x y z (regions c h lines) m -> made_of f (image n f x) y z (regions c' h' lines') m.
Hypothesis FM : free_metal c' h' lines'.

Definition rE (E : nat -> Vec) : nat -> Vec := fun t a x y z => (k * sign (Eat a) * E t a (image n (Eat a) x) y z)%R.
Definition rH (H : nat -> Vec) : nat -> Vec := fun t a x y z => (k * sign (Hat a) * H t a (image n (Hat a) x) y z)%R.
Lemma rf_sgn f : (k * sign f = 1 \/ k * sign f = -1)%R.
Proof. destruct K as [-> | ->], f; cbn [sign]; lra. Qed.
Lemma rf_inner a i : 0 <= inner c a i <= numLines c a - 2.
Proof. unfold inner. specialize (NP a). lia. Qed.
Lemma rf_dual_other a i : a <> XDIR -> dual c' lines' a i = dual c lines a i.
Proof. intros N. unfold dual. replace (inner c' a) with (inner c a) by (unfold inner; rewrite NL; reflexivity). rewrite !EO by (assumption || apply rf_inner). reflexivity. Qed.
Lemma rf_dual_x i : dual c' lines' XDIR (n - i) = dual c lines XDIR i.
Proof.
  unfold dual, inner. rewrite NL, NX. replace (Z.max 0 (Z.min (n + 1 - 2) (n - i - 1))) with (n - 1 - Z.max 0 (Z.min (n + 1 - 2) i)) by lia.
  replace (Z.max 0 (Z.min (n + 1 - 2) (n - i))) with (n - 1 - Z.max 0 (Z.min (n + 1 - 2) (i - 1))) by lia. rewrite !EX_ by lia. rewrite Rplus_comm. reflexivity.
Qed.
Lemma rf_across_other q v : q <> XDIR -> across c' q v = across c q v.
Proof.
  intros N. unfold across. rewrite NL. pose proof (WL (face_lo q)) as W1. pose proof (WL (face_hi q)) as W2. destruct q; [exfalso; apply N; reflexivity| |]; cbn [face_lo face_hi mirrorFace] in *; rewrite W1, W2; reflexivity.
Qed.
Lemma rf_across_x v : -1 <= v <= n -> across c' XDIR (n - 1 - v) = (n - 1 - fst (across c XDIR v), snd (across c XDIR v)).
Proof.
  intros V. unfold across. rewrite NL, NX. pose proof (WL XLO) as W1. pose proof (WL XHI) as W2. cbn [face_lo face_hi mirrorFace] in *. rewrite W1, W2.
  assert (Q : v = -1 \/ v = n \/ 0 <= v <= n - 1) by lia. destruct Q as [-> | [-> | Q]].
  - destruct (Z.ltb_spec (n - 1 - -1) 0); [lia|]. destruct (Z.ltb_spec (n + 1 - 2) (n - 1 - -1)); [|lia]. change (-1 <? 0) with true. cbv iota. destruct (outerSurfaceType c XLO); cbn [fst snd]; f_equal; lia.
  - destruct (Z.ltb_spec (n - 1 - n) 0); [|lia]. destruct (Z.ltb_spec n 0); [lia|]. destruct (Z.ltb_spec (n + 1 - 2) n); [|lia]. destruct (outerSurfaceType c XHI); cbn [fst snd]; f_equal; lia.
  - destruct (Z.ltb_spec (n - 1 - v) 0); [lia|]. destruct (Z.ltb_spec (n + 1 - 2) (n - 1 - v)); [lia|]. destruct (Z.ltb_spec v 0); [lia|]. destruct (Z.ltb_spec (n + 1 - 2) v); [lia|]. reflexivity.
Qed.
Lemma rf_beyond H t b x y z : -1 <= x <= n -> beyond c (rH H t) b x y z = (k * sign (Hat b) * beyond c' (H t) b (image n (Hat b) x) y z)%R.
Proof.
  intros X. unfold beyond, rH. cbv zeta. destruct b; cbn [axis_eqb Hat image staggered is_E fld_axis negb fst snd]; rewrite ?(rf_across_other YDIR), ?(rf_across_other ZDIR) by discriminate; rewrite ?(rf_across_x x X); cbn [fst snd]; ring.
Qed.
Lemma rf_rotH H t a x y z : in_mesh c (Eat a) x y z -> rotH c lines (beyond c (rH H t)) a x y z = (k * sign (Eat a) * rotH c' lines' (beyond c' (H t)) a (image n (Eat a) x) y z)%R.
Proof.
  intros I. specialize (I XDIR). cbv zeta in I. destruct I as (I & _). unfold meshAll, ypos in I.
  unfold rotH. destruct a; cbn [upA shift SpecGeom.coord Eat Hat image staggered is_E fld_axis axis_eqb negb face_lo face_hi is_lo face_axis] in *; rewrite ?rf_dual_x, ?(rf_dual_other YDIR), ?(rf_dual_other ZDIR) by discriminate; rewrite !rf_beyond by lia;
  cbn [Hat sign image staggered is_E fld_axis axis_eqb negb].
  - unfold Rdiv. ring.
  - replace (n - 1 - (x + -1)) with (n - x) by lia. replace (n - x + -1) with (n - 1 - x) by lia. unfold Rdiv. ring.
  - replace (n - 1 - (x + -1)) with (n - x) by lia. replace (n - x + -1) with (n - 1 - x) by lia. unfold Rdiv. ring.
Qed.
Lemma rf_rotE E t a x y z : in_mesh c (Hat a) x y z -> rotE lines (rE E t) a x y z = (k * sign (Hat a) * rotE lines' (E t) a (image n (Hat a) x) y z)%R.
Proof.
  intros I. pose proof (I XDIR) as I1. pose proof (I YDIR) as I2. pose proof (I ZDIR) as I3. cbv zeta in *. destruct I1 as (I1 & _), I2 as (I2 & _), I3 as (I3 & _). unfold meshAll, ypos in *. clear I.
  unfold rotE, rE. destruct a; cbn [upA shift SpecGeom.coord Eat Hat sign image staggered is_E fld_axis axis_eqb negb face_lo face_hi is_lo face_axis] in *.
  - rewrite !EO by (discriminate || lia). unfold Rdiv. ring.
  - rewrite (EO ZDIR) by (discriminate || lia). rewrite EX_ by lia. replace (n - (x + 1)) with (n - 1 - x) by lia. replace (n - 1 - x + 1) with (n - x) by lia. unfold Rdiv. ring.
  - rewrite (EO YDIR) by (discriminate || lia). rewrite EX_ by lia. replace (n - (x + 1)) with (n - 1 - x) by lia. replace (n - 1 - x + 1) with (n - x) by lia. unfold Rdiv. ring.
Qed.
Lemma rf_mesh f x y z : in_mesh c f x y z -> in_mesh c' f (image n f x) y z.
Proof.
  intros I a. specialize (I a). cbv zeta in *. destruct I as (I & _). split; [|split; discriminate].
  assert (YX : ypos f XDIR (image n f x) = 2 * n - ypos f XDIR x) by (unfold ypos, image; destruct (staggered f XDIR); lia).
  unfold meshAll in *. destruct a; cbn [SpecGeom.coord face_lo face_hi is_lo face_axis] in *; rewrite ?YX, ?NL; lia.
Qed.
Lemma rf_maxwell dt (wE wH wE' wH' : nat -> Src -> R) E H :
  (forall t a x y z J F, in_mesh c (Eat a) x y z -> drives c h lines (wE t) (Eat a) x y z J F -> drives c' h' lines' (wE' t) (Eat a) (image n (Eat a) x) y z (k * sign (Eat a) * J) (k * sign (Eat a) * F)) ->
  (forall t a x y z J F, in_mesh c (Hat a) x y z -> drives c h lines (wH t) (Hat a) x y z J F -> drives c' h' lines' (wH' t) (Hat a) (image n (Hat a) x) y z (k * sign (Hat a) * J) (k * sign (Hat a) * F)) ->
  maxwell_box c' h' lines' dt wE' wH' E H -> maxwell_box c h lines dt wE wH (rE E) (rH H).
Proof.
  intros DE DH [MR MM MP MF]. split.
  - intros a x y z. unfold rE, rH. split; intros I; [rewrite (proj1 (MR a (image n (Eat a) x) y z))|rewrite (proj2 (MR a (image n (Hat a) x) y z))]; try ring; apply rf_mesh; exact I.
  - intros t a x y z I MO _. unfold rE. rewrite MM; [ring|apply rf_mesh; exact I|apply MA; assumption|].
    intros s IS FS CV. exact (FM s a _ y z IS FS CV (MA _ _ _ _ _ I MO)).
  - intros t a x y z eps sigma mu J F I MO D. rewrite rf_rotH by exact I. unfold rE. apply ampere_sign; [apply rf_sgn|].
    eapply MP; [apply rf_mesh; exact I|apply MA; [exact I|exact MO]|apply DE; assumption].
  - intros t a x y z mat J F I MO D. rewrite rf_rotE by exact I. unfold rH.
    replace (- (k * sign (Hat a) * rotE lines' (E (S t)) a (image n (Hat a) x) y z))%R with ((k * sign (Hat a)) * - rotE lines' (E (S t)) a (image n (Hat a) x) y z)%R by ring.
    apply faraday_sign; [apply rf_sgn|]. eapply MF; [apply rf_mesh; exact I|apply MA; [exact I|exact MO]|apply DH; assumption].
Qed.
End Reflect.

(** ** The half problem *)
Lemma sub_min c c' lines lines' g g' a e e' : wf c -> wf c' -> has_lines c lines -> has_lines c' lines' -> axisEdges c lines g a = Some e -> axisEdges c' lines' g' a = Some e' ->
  (forall i, 0 <= i < numLines c a - 1 -> exists j, 0 <= j < numLines c' a - 1 /\ cell lines' a j = cell lines a i) ->
  (forall i, 0 <= i < numLines c' a - 1 -> exists j, 0 <= j < numLines c a - 1 /\ cell lines a j = cell lines' a i) -> eMin e' = eMin e.
Proof.
  intros W W' HL HL' E E' CC CC'. destruct (min_cells c lines g a e W HL E) as (A1 & A2 & A3). destruct (min_cells c' lines' g' a e' W' HL' E') as (B1 & B2 & B3).
  apply Rle_antisym.
  - destruct A3 as [-> | (i & Hi & ->)]; [exact B1|]. destruct (CC i Hi) as (j & Hj & <-). apply B2. exact Hj.
  - destruct B3 as [-> | (i & Hi & ->)]; [exact A1|]. destruct (CC' i Hi) as (j & Hj & <-). apply A2. exact Hj.
Qed.
Lemma drives_fun c h lines w f x y z J F J' F' : drives c h lines w f x y z J F -> drives c h lines w f x y z J' F' -> J = J' /\ F = F'.
Proof. intros (A & B) (A' & B'). split; eapply total_fun; eassumption. Qed.
Lemma image_image m f x : image m f (image m f x) = x.
Proof. unfold image. destruct (staggered f XDIR); lia. Qed.
Definition parity (p : Plane) : R := match p with MagneticPlane => 1 | ElectricPlane => -1 end.
Lemma parity_sign p f : imageSign p f = (parity p * sign f)%R.
Proof. destruct p; cbn [imageSign parity]; ring. Qed.

Section Half.
Variables (p : Plane) (c c2 : Cfg) (h h2 : MeshData) (lines lines2 : Axis -> carr R) (e e2 : Axis -> Edges) (dt dt2 : R) (wE wH wE2 wH2 : nat -> Src -> R).
Hypothesis BP : box_problem c h lines dt e.
Hypothesis BP2 : box_problem c2 h2 lines2 dt2 e2.
Hypothesis FM2 : free_metal c2 h2 lines2.
Hypothesis HA : halved p c c2 h h2 lines lines2 wE wH wE2 wH2.
Let n := half c.
Lemma hf_lines : numLines c XDIR = n + 1 /\ numLines c2 XDIR = 2 * n + 1 /\ 1 <= n /\ (forall a, a <> XDIR -> numLines c2 a = numLines c a) /\ (forall a, 2 <= numLines c a) /\ (forall a, 2 <= numLines c2 a).
Proof.
  destruct (ha_cells _ _ _ _ _ _ _ _ _ _ _ HA) as (A & B). fold n in A. pose proof (wf_lines c (file_wf _ _ (bp_cfg _ _ _ _ _ BP))) as W. pose proof (wf_lines c2 (file_wf _ _ (bp_cfg _ _ _ _ _ BP2))) as W2.
  pose proof (W XDIR). unfold n, half in *. repeat split; try lia; auto.
Qed.
Lemma hf_edge i : 0 <= i <= n - 1 -> edge lines2 XDIR (n + i) = edge lines XDIR i /\ edge lines2 XDIR (n - 1 - i) = edge lines XDIR i.
Proof.
  intros Hi. destruct (ha_linesx _ _ _ _ _ _ _ _ _ _ _ HA i) as (A1 & A2); [fold n; lia|]. destruct (ha_linesx _ _ _ _ _ _ _ _ _ _ _ HA (i + 1)) as (B1 & B2); [fold n; lia|]. fold n in A1, A2, B1, B2.
  unfold edge, cell. replace (n + i + 1) with (n + (i + 1)) by lia. replace (n - 1 - i + 1) with (n - i) by lia. replace (n - 1 - i) with (n - (i + 1)) by lia. lra.
Qed.
Lemma hf_edge_other a i : a <> XDIR -> 0 <= i <= numLines c a - 2 -> edge lines2 a i = edge lines a i.
Proof. intros A Hi. unfold edge, cell. rewrite !(ha_lines _ _ _ _ _ _ _ _ _ _ _ HA) by (assumption || lia). reflexivity. Qed.
Lemma hf_edge_sym i : 0 <= i <= 2 * n - 1 -> edge lines2 XDIR (2 * n - 1 - i) = edge lines2 XDIR i.
Proof.
  intros Hi. destruct (Z.lt_ge_cases i n) as [L|L].
  - destruct (hf_edge (n - 1 - i)) as (A & B); [lia|]. replace (n + (n - 1 - i)) with (2 * n - 1 - i) in A by lia. replace (n - 1 - (n - 1 - i)) with i in B by lia. congruence.
  - destruct (hf_edge (i - n)) as (A & B); [lia|]. replace (n + (i - n)) with i in A by lia. replace (n - 1 - (i - n)) with (2 * n - 1 - i) in B by lia. congruence.
Qed.
Lemma hf_dual i : 0 <= i <= n -> dual c2 lines2 XDIR (n + i) = dual c lines XDIR i.
Proof.
  intros Hi. destruct hf_lines as (N1 & N2 & N0 & _). unfold dual, inner. rewrite N1, N2.
  replace (Z.max 0 (Z.min (2 * n + 1 - 2) (n + i))) with (n + Z.max 0 (Z.min (n + 1 - 2) i)) by lia. rewrite (proj1 (hf_edge (Z.max 0 (Z.min (n + 1 - 2) i)) ltac:(lia))).
  destruct (Z.eq_dec i 0) as [-> | Ni].
  - replace (Z.max 0 (Z.min (2 * n + 1 - 2) (n + 0 - 1))) with (n - 1 - 0) by lia. rewrite (proj2 (hf_edge 0 ltac:(lia))). replace (Z.max 0 (Z.min (n + 1 - 2) (0 - 1))) with 0 by lia. reflexivity.
  - replace (Z.max 0 (Z.min (2 * n + 1 - 2) (n + i - 1))) with (n + Z.max 0 (Z.min (n + 1 - 2) (i - 1))) by lia. rewrite (proj1 (hf_edge (Z.max 0 (Z.min (n + 1 - 2) (i - 1))) ltac:(lia))). reflexivity.
Qed.
Lemma hf_dual_other a i : a <> XDIR -> dual c2 lines2 a i = dual c lines a i.
Proof.
  intros A. destruct hf_lines as (_ & _ & _ & NO & NP & _). unfold dual. replace (inner c2 a) with (inner c a) by (unfold inner; rewrite NO by exact A; reflexivity).
  specialize (NP a). rewrite !hf_edge_other by (assumption || (unfold inner; lia)). reflexivity.
Qed.
Lemma hf_mesh f x y z : in_mesh c f x y z -> in_mesh c2 f (n + x) y z.
Proof.
  intros I a. specialize (I a). cbv zeta in *. destruct I as (I & _). split; [|split; discriminate]. destruct hf_lines as (N1 & N2 & N0 & NO & _).
  assert (YX : ypos f XDIR (n + x) = 2 * n + ypos f XDIR x) by (unfold ypos; destruct (staggered f XDIR); lia).
  unfold meshAll in *. destruct a; cbn [SpecGeom.coord face_lo face_hi is_lo face_axis] in *; rewrite ?YX, ?(NO YDIR), ?(NO ZDIR) by discriminate; lia.
Qed.
Lemma hf_split f X y z : in_mesh c2 f X y z -> exists x, in_mesh c f x y z /\ (X = n + x \/ X = image (2 * n) f (n + x)).
Proof.
  intros I. destruct hf_lines as (N1 & N2 & N0 & NO & _). pose proof (I XDIR) as I1. cbv zeta in I1. destruct I1 as (I1 & _). unfold meshAll, ypos in I1. cbn [SpecGeom.coord face_lo face_hi is_lo face_axis] in I1. rewrite N2 in I1.
  assert (G : forall x, 0 <= ypos f XDIR x <= 2 * n -> in_mesh c f x y z).
  { intros x B a. specialize (I a). cbv zeta in *. destruct I as (I & _). split; [|split; discriminate]. unfold meshAll in *. destruct a; cbn [SpecGeom.coord face_lo face_hi is_lo face_axis] in *; rewrite <- ?(NO YDIR), <- ?(NO ZDIR) by discriminate; lia. }
  unfold ypos in G. clear I. destruct (Z.lt_ge_cases X n) as [L|L].
  - unfold image. destruct (staggered f XDIR); [exists (n - 1 - X)|exists (n - X)]; (split; [apply G; lia|right; lia]).
  - exists (X - n). split; [apply G; destruct (staggered f XDIR); lia|left; lia].
Qed.
Lemma in_plane_dec f x : {in_plane f x} + {~ in_plane f x}.
Proof. unfold in_plane. destruct (Z.eq_dec x 0); [|right; intros (A & _); contradiction]. destruct (staggered f XDIR); [right; intros (_ & A); discriminate A|left; auto]. Qed.
Lemma plane_cases f x y z : in_mesh c f x y z -> compared p c f x y z \/ (p = ElectricPlane /\ in_plane f x).
Proof. intros I. destruct (in_plane_dec f x) as [Q|Q]; [destruct p; [left; split; [exact I|discriminate]|right; auto]|left; split; auto]. Qed.
Lemma plane_fixed f : in_plane f 0 -> image (2 * n) f (n + 0) = n /\ imageSign ElectricPlane f = (-1)%R.
Proof. intros (_ & S). unfold image. rewrite S. split; [lia|]. destruct f; try discriminate S; cbn [imageSign sign]; ring. Qed.
Lemma hf_media f X y z m : in_mesh c2 f X y z -> made_of f X y z (regions c2 h2 lines2) m -> made_of f (image (2 * n) f X) y z (regions c2 h2 lines2) m.
Proof.
  intros I MO. destruct (hf_split f X y z I) as (x & Ix & S). destruct (plane_cases f x y z Ix) as [Q|(Q & PL)].
  - destruct (made_total f x y z (regions c h lines)) as (m' & MX). destruct (ha_media _ _ _ _ _ _ _ _ _ _ _ HA f x y z m' Q MX) as (A & B). fold n in A, B. destruct S as [-> | ->].
    + rewrite (made_fun _ _ _ _ _ _ _ MO A). exact B.
    + rewrite image_image. rewrite (made_fun _ _ _ _ _ _ _ MO B). exact A.
  - assert (x = 0) by (destruct PL; assumption). subst x. destruct (plane_fixed f PL) as (E & _). rewrite E in S. assert (X = n) by lia. subst X. replace (image (2 * n) f n) with n; [exact MO|]. replace (n + 0) with n in E by lia. congruence.
Qed.
Lemma hf_drive b w w2 : same_drive p c c2 h h2 lines lines2 b w w2 -> forall f X y z J F, is_E f = b -> in_mesh c2 f X y z -> drives c2 h2 lines2 w2 f X y z J F ->
  drives c2 h2 lines2 w2 f (image (2 * n) f X) y z (imageSign p f * J) (imageSign p f * F).
Proof.
  intros (SD & SP) f X y z J F EB I D. destruct (hf_split f X y z I) as (x & Ix & S). destruct (plane_cases f x y z Ix) as [Q|(Q & PL)].
  - destruct (drives_ex h c lines w f x y z) as (J' & F' & D'). destruct (SD f x y z J' F' EB Q D') as (A & B). fold n in A, B. destruct S as [-> | ->].
    + destruct (drives_fun _ _ _ _ _ _ _ _ _ _ _ _ D A) as (-> & ->). exact B.
    + rewrite image_image. destruct (drives_fun _ _ _ _ _ _ _ _ _ _ _ _ D B) as (-> & ->).
      assert (S2 : forall v, (imageSign p f * (imageSign p f * v))%R = v) by (intros v; rewrite parity_sign; destruct p, f; cbn [parity sign]; ring). rewrite !S2. exact A.
  - assert (x = 0) by (destruct PL; assumption). subst x. destruct (plane_fixed f PL) as (E & _). rewrite E in S. assert (X = n) by lia. subst X.
    assert (E' : image (2 * n) f n = n) by (replace (n + 0) with n in E by lia; exact E). rewrite E'.
    destruct (SP Q f y z EB PL Ix) as (_ & Z0). fold n in Z0. destruct (drives_fun _ _ _ _ _ _ _ _ _ _ _ _ D Z0) as (-> & ->). rewrite !Rmult_0_r. exact Z0.
Qed.
(** *** The time step *)
Lemma hf_dt : dt2 = dt.
Proof.
  pose proof BP as [(df & file & st & cards & RD) CF BW _ _ _ _ _ _ HM IN (cn & g & CN & PC & HE)].
  pose proof BP2 as [(df' & file' & st' & cards' & RD') CF' BW' _ _ _ _ _ _ HM' IN' (cn' & g' & CN' & PC' & HE')].
  destruct (edges_axes _ _ _ _ _ _ HE) as (EA & D1). destruct (edges_axes _ _ _ _ _ _ HE') as (EA' & D2).
  rewrite (ha_cn _ _ _ _ _ _ _ _ _ _ _ HA), CN in CN'. injection CN' as <-.
  pose proof (file_lines _ _ _ _ _ _ RD CF (walls_wide c BW) _ _ _ _ _ HM IN HE) as HL. pose proof (file_lines _ _ _ _ _ _ RD' CF' (walls_wide c2 BW') _ _ _ _ _ HM' IN' HE') as HL'.
  destruct hf_lines as (N1 & N2 & N0 & NO & _).
  assert (MN : forall a, eMin (e2 a) = eMin (e a)).
  { intros a. apply (sub_min c c2 lines lines2 g g' a (e a) (e2 a) (file_wf _ _ CF) (file_wf _ _ CF') HL HL' (EA a) (EA' a)); intros i Hi; destruct a.
    - rewrite N1, N2 in *. exists (n + i). split; [lia|]. apply hf_edge. lia.
    - exists i. rewrite NO by discriminate. split; [exact Hi|]. apply hf_edge_other; [discriminate|lia].
    - exists i. rewrite NO by discriminate. split; [exact Hi|]. apply hf_edge_other; [discriminate|lia].
    - rewrite N1, N2 in *. destruct (Z.lt_ge_cases i n) as [L|L].
      + exists (n - 1 - i). split; [lia|]. destruct (hf_edge (n - 1 - i)) as (_ & Q); [lia|]. replace (n - 1 - (n - 1 - i)) with i in Q by lia. symmetry. exact Q.
      + exists (i - n). split; [lia|]. destruct (hf_edge (i - n)) as (Q & _); [lia|]. replace (n + (i - n)) with i in Q by lia. symmetry. exact Q.
    - exists i. rewrite NO in Hi by discriminate. split; [exact Hi|]. symmetry. apply hf_edge_other; [discriminate|lia].
    - exists i. rewrite NO in Hi by discriminate. split; [exact Hi|]. symmetry. apply hf_edge_other; [discriminate|lia]. }
  rewrite D1, D2. unfold Edges.timeStep. rewrite !MN. reflexivity.
Qed.
(** *** Symmetric fields of the full problem *)
Variables (E2 H2 : nat -> Vec).
Hypothesis MX : maxwell_box c2 h2 lines2 dt wE2 wH2 E2 H2.
Lemma hf_sym t : (forall a x y z, in_mesh c2 (Eat a) x y z -> E2 t a x y z = (imageSign p (Eat a) * E2 t a (image (2 * n) (Eat a) x) y z)%R) /\
  (forall a x y z, in_mesh c2 (Hat a) x y z -> H2 t a x y z = (imageSign p (Hat a) * H2 t a (image (2 * n) (Hat a) x) y z)%R).
Proof.
  destruct hf_lines as (N1 & N2 & N0 & NO & NP & NP2).
  assert (K : parity p = 1%R \/ parity p = (-1)%R) by (destruct p; auto).
  assert (WL : forall f, outerSurfaceType c2 (mirrorFace f) = outerSurfaceType c2 f) by (destruct (ha_walls _ _ _ _ _ _ _ _ _ _ _ HA) as (_ & A & B & _); intros []; cbn [mirrorFace]; congruence).
  assert (DE : forall t a x y z J F, in_mesh c2 (Eat a) x y z -> drives c2 h2 lines2 (wE2 t) (Eat a) x y z J F -> drives c2 h2 lines2 (wE2 t) (Eat a) (image (2 * n) (Eat a) x) y z (parity p * sign (Eat a) * J) (parity p * sign (Eat a) * F)).
  { intros t' a x y z J F I D. rewrite <- parity_sign. destruct (ha_drives _ _ _ _ _ _ _ _ _ _ _ HA t') as (S & _). refine (hf_drive true _ _ S _ x y z J F _ I D). destruct a; reflexivity. }
  assert (DH : forall t a x y z J F, in_mesh c2 (Hat a) x y z -> drives c2 h2 lines2 (wH2 t) (Hat a) x y z J F -> drives c2 h2 lines2 (wH2 t) (Hat a) (image (2 * n) (Hat a) x) y z (parity p * sign (Hat a) * J) (parity p * sign (Hat a) * F)).
  { intros t' a x y z J F I D. rewrite <- parity_sign. destruct (ha_drives _ _ _ _ _ _ _ _ _ _ _ HA t') as (_ & S). refine (hf_drive false _ _ S _ x y z J F _ I D). destruct a; reflexivity. }
  pose proof (rf_maxwell h2 h2 c2 c2 lines2 lines2 (2 * n) (parity p) K (fun _ => eq_refl) N2 ltac:(lia) NP2 WL (fun _ _ _ _ => eq_refl) hf_edge_sym hf_media FM2 dt wE2 wH2 wE2 wH2 E2 H2 DE DH MX) as MR.
  rewrite <- hf_dt in MR, MX. destruct (box_unique c2 h2 lines2 e2 dt2 BP2 _ _ _ _ _ _ FM2 MX MR t) as (U1 & U2).
  split; intros a x y z I; [rewrite (U1 a x y z I)|rewrite (U2 a x y z I)]; unfold rE, rH; rewrite parity_sign; reflexivity.
Qed.
(** *** The half of the fields *)
Definition hE : nat -> Vec := fun t a x y z => E2 t a (n + x) y z.
Definition hH : nat -> Vec := fun t a x y z => H2 t a (n + x) y z.
Lemma hf_across_other q v : q <> XDIR -> across c2 q v = across c q v.
Proof.
  intros N. destruct (ha_walls _ _ _ _ _ _ _ _ _ _ _ HA) as (WO & _). destruct hf_lines as (_ & _ & _ & NO & _). unfold across. rewrite NO by exact N.
  rewrite (WO (face_lo q)), (WO (face_hi q)) by (destruct q; cbn; congruence). reflexivity.
Qed.
Lemma hf_across_x v : 0 <= v <= n -> across c2 XDIR (n + v) = (n + fst (across c XDIR v), snd (across c XDIR v)).
Proof.
  intros V. destruct (ha_walls _ _ _ _ _ _ _ _ _ _ _ HA) as (_ & W1 & _ & NPE). destruct hf_lines as (N1 & N2 & N0 & _). unfold across. cbn [face_hi]. rewrite N1, N2, W1.
  destruct (Z.ltb_spec (n + v) 0); [lia|]. destruct (Z.ltb_spec v 0); [lia|]. destruct (Z.ltb_spec (2 * n + 1 - 2) (n + v)), (Z.ltb_spec (n + 1 - 2) v); try lia; [|reflexivity].
  destruct (outerSurfaceType c XHI); try contradiction; cbn [fst snd]; f_equal; lia.
Qed.
Lemma hf_beyond t b x y z : 0 <= x <= n -> beyond c (hH t) b x y z = beyond c2 (H2 t) b (n + x) y z.
Proof.
  intros X. unfold beyond, hH. cbv zeta. destruct b; cbn [axis_eqb fst snd]; rewrite ?(hf_across_other YDIR), ?(hf_across_other ZDIR) by discriminate; rewrite ?(hf_across_x x X); cbn [fst snd]; ring.
Qed.
Lemma hf_rotH t a x y z : compared p c (Eat a) x y z -> rotH c lines (beyond c (hH t)) a x y z = rotH c2 lines2 (beyond c2 (H2 t)) a (n + x) y z.
Proof.
  intros (I & NPL). pose proof (I XDIR) as I1. pose proof (I YDIR) as I2. pose proof (I ZDIR) as I3. cbv zeta in *. destruct I1 as (I1 & _), I2 as (I2 & _), I3 as (I3 & _). unfold meshAll, ypos in *. clear I.
  destruct hf_lines as (N1 & N2 & N0 & NO & _).
  assert (LOW : forall b y z, b <> XDIR -> p = MagneticPlane -> (forall q, q <> XDIR -> 0 <= SpecGeom.coord (-1) y z q <= if axis_eqb q b then numLines c q - 1 else numLines c q - 2) -> beyond c (hH t) b (-1) y z = beyond c2 (H2 t) b (n + -1) y z).
  { intros b y' z' Nb PM OK. pose proof (ha_plane _ _ _ _ _ _ _ _ _ _ _ HA) as PW. rewrite PM in PW. cbn [planeWall] in PW.
    assert (AX : across c XDIR (-1) = (0, (-1)%R)) by (unfold across; change (-1 <? 0) with true; cbn [face_lo]; rewrite PW; reflexivity).
    assert (AX2 : across c2 XDIR (n + -1) = (n + -1, 1%R)) by (apply across_in; rewrite N2; lia).
    assert (AY : b <> YDIR -> across c YDIR y' = (y', 1%R)) by (intros N; apply across_in; specialize (OK YDIR ltac:(discriminate)); destruct b; try contradiction; cbn [SpecGeom.coord axis_eqb] in OK; try exact OK; exfalso; apply N; reflexivity).
    assert (AZ : b <> ZDIR -> across c ZDIR z' = (z', 1%R)) by (intros N; apply across_in; specialize (OK ZDIR ltac:(discriminate)); destruct b; try contradiction; cbn [SpecGeom.coord axis_eqb] in OK; try exact OK; exfalso; apply N; reflexivity).
    destruct (hf_sym t) as (_ & S). assert (IM : in_mesh c2 (Hat b) (n + -1) y' z').
    { intros q. cbv zeta. split; [|split; discriminate]. unfold meshAll, ypos. pose proof (OK YDIR ltac:(discriminate)) as O2. pose proof (OK ZDIR ltac:(discriminate)) as O3.
      destruct b, q; try contradiction; cbn [SpecGeom.coord axis_eqb Hat staggered is_E fld_axis negb face_lo face_hi is_lo face_axis] in *; rewrite ?N2, ?(NO YDIR), ?(NO ZDIR) by discriminate; lia. }
    specialize (S b (n + -1) y' z' IM). rewrite PM in S.
    unfold beyond, hH. cbv zeta. destruct b; try contradiction; cbn [axis_eqb fst snd Hat imageSign sign image staggered is_E fld_axis negb] in *;
    rewrite ?(hf_across_other YDIR), ?(hf_across_other ZDIR) by discriminate; rewrite AX, AX2, ?AY, ?AZ by discriminate; cbn [fst snd]; rewrite S; replace (2 * n - 1 - (n + -1)) with (n + 0) by lia; ring. }
  unfold rotH. destruct a; cbn [upA shift SpecGeom.coord Eat staggered is_E fld_axis axis_eqb negb face_lo face_hi is_lo face_axis] in *; rewrite ?(hf_dual_other YDIR), ?(hf_dual_other ZDIR) by discriminate.
  - rewrite !hf_beyond by lia. reflexivity.
  - rewrite hf_dual by lia. rewrite (hf_beyond t XDIR x y z), (hf_beyond t ZDIR x y z), (hf_beyond t XDIR x y (z + -1)) by lia. replace (n + x + -1) with (n + (x + -1)) by lia.
    destruct (Z.eq_dec x 0) as [-> | Nx]; [|rewrite (hf_beyond t ZDIR (x + -1) y z) by lia; reflexivity].
    change (0 + -1) with (-1). rewrite (LOW ZDIR y z); [reflexivity|discriminate| |intros [] Nq; cbn [SpecGeom.coord axis_eqb]; try lia; exfalso; apply Nq; reflexivity].
    destruct p; [reflexivity|]. exfalso. apply (NPL eq_refl). split; auto.
  - rewrite hf_dual by lia. rewrite (hf_beyond t YDIR x y z), (hf_beyond t XDIR x y z), (hf_beyond t XDIR x (y + -1) z) by lia. replace (n + x + -1) with (n + (x + -1)) by lia.
    destruct (Z.eq_dec x 0) as [-> | Nx]; [|rewrite (hf_beyond t YDIR (x + -1) y z) by lia; reflexivity].
    change (0 + -1) with (-1). rewrite (LOW YDIR y z); [reflexivity|discriminate| |intros [] Nq; cbn [SpecGeom.coord axis_eqb]; try lia; exfalso; apply Nq; reflexivity].
    destruct p; [reflexivity|]. exfalso. apply (NPL eq_refl). split; auto.
Qed.
Lemma hf_rotE t a x y z : in_mesh c (Hat a) x y z -> rotE lines (hE t) a x y z = rotE lines2 (E2 t) a (n + x) y z.
Proof.
  intros I. pose proof (I XDIR) as I1. pose proof (I YDIR) as I2. pose proof (I ZDIR) as I3. cbv zeta in *. destruct I1 as (I1 & _), I2 as (I2 & _), I3 as (I3 & _). unfold meshAll, ypos in *. clear I.
  destruct hf_lines as (N1 & N2 & N0 & NO & _).
  unfold rotE, hE. destruct a; cbn [upA shift SpecGeom.coord Hat staggered is_E fld_axis axis_eqb negb face_lo face_hi is_lo face_axis] in *.
  - rewrite !hf_edge_other by (discriminate || lia). reflexivity.
  - rewrite (hf_edge_other ZDIR) by (discriminate || lia). rewrite (proj1 (hf_edge x ltac:(lia))). replace (n + (x + 1)) with (n + x + 1) by lia. reflexivity.
  - rewrite (hf_edge_other YDIR) by (discriminate || lia). rewrite (proj1 (hf_edge x ltac:(lia))). replace (n + (x + 1)) with (n + x + 1) by lia. reflexivity.
Qed.
Lemma hf_maxwell : maxwell_box c h lines dt wE wH hE hH.
Proof.
  pose proof MX as [MR MM MP MF]. split.
  - intros a x y z. unfold hE, hH. split; intros I; [apply (proj1 (MR a (n + x) y z))|apply (proj2 (MR a (n + x) y z))]; apply hf_mesh; exact I.
  - intros t a x y z I MO _. unfold hE. destruct (plane_cases (Eat a) x y z I) as [Q|(Q & PL)].
    + destruct (ha_media _ _ _ _ _ _ _ _ _ _ _ HA _ x y z _ Q MO) as (A & _). fold n in A. apply MM; [apply hf_mesh; exact I|exact A|]. intros s IS FS CV. exact (FM2 s a _ y z IS FS CV A).
    + assert (x = 0) by (destruct PL; assumption). subst x. destruct (hf_sym t) as (S & _). specialize (S a (n + 0) y z (hf_mesh _ _ _ _ I)). destruct (plane_fixed _ PL) as (E & SG). rewrite Q, SG, E in S. replace (n + 0) with n in * by lia. lra.
  - intros t a x y z eps sigma mu J F I MO D. destruct (plane_cases (Eat a) x y z I) as [Q|(Q & PL)].
    + rewrite (hf_rotH t a x y z Q). unfold hE. destruct (ha_media _ _ _ _ _ _ _ _ _ _ _ HA _ x y z _ Q MO) as (A & _). fold n in A.
      destruct (ha_drives _ _ _ _ _ _ _ _ _ _ _ HA t) as ((SD & _) & _). destruct (SD (Eat a) x y z J F ltac:(destruct a; reflexivity) Q D) as (D2 & _). fold n in D2.
      eapply MP; [apply hf_mesh; exact I|exact A|exact D2].
    + exfalso. assert (MT : made_of (Eat a) x y z (regions c h lines) Metal).
      { apply (pec_wall_metal c h lines e dt BP XLO); [rewrite (ha_plane _ _ _ _ _ _ _ _ _ _ _ HA), Q; reflexivity|exact I|cbn; destruct PL as (_ & PL); intros <-; discriminate PL|]. destruct PL as (-> & _). reflexivity. }
      pose proof (made_fun _ _ _ _ _ _ _ MT MO). discriminate.
  - intros t a x y z mat J F I MO D. rewrite (hf_rotE (S t) a x y z I). unfold hH.
    destruct (plane_cases (Hat a) x y z I) as [Q|(Q & PL)].
    2: { assert (x = 0 /\ a = XDIR) as (-> & ->) by (destruct PL as (A & B); split; [exact A|destruct a; try discriminate B; reflexivity]). cbn [Hat Eat] in *.
      destruct (ha_drives _ _ _ _ _ _ _ _ _ _ _ HA t) as (_ & (_ & SP)). destruct (SP Q HX y z eq_refl PL I) as (D0 & _). destruct (drives_fun _ _ _ _ _ _ _ _ _ _ _ _ D D0) as (-> & ->).
      assert (HZ0 : forall t, H2 t XDIR (n + 0) y z = 0%R).
      { intros t'. destruct (hf_sym t') as (_ & S). specialize (S XDIR (n + 0) y z (hf_mesh HX _ _ _ I)). destruct (plane_fixed _ PL) as (E & SG). cbn [Hat] in S. rewrite Q, SG, E in S. replace (n + 0) with n in * by lia. lra. }
      assert (EZ0 : forall t a y' z', a <> XDIR -> in_mesh c (Eat a) 0 y' z' -> E2 t a (n + 0) y' z' = 0%R).
      { intros t' a y' z' Na I'. assert (PL' : in_plane (Eat a) 0) by (split; [reflexivity|destruct a; try reflexivity; exfalso; apply Na; reflexivity]).
        destruct (hf_sym t') as (S & _). specialize (S a (n + 0) y' z' (hf_mesh _ _ _ _ I')). destruct (plane_fixed _ PL') as (E & SG). rewrite Q, SG, E in S. replace (n + 0) with n in * by lia. lra. }
      rewrite !HZ0. unfold rotE. cbn [upA shift]. pose proof (I YDIR) as I2. pose proof (I ZDIR) as I3. cbv zeta in I2, I3. destruct I2 as (I2 & _), I3 as (I3 & _). unfold meshAll, ypos in I2, I3. cbn [SpecGeom.coord staggered is_E fld_axis axis_eqb negb face_lo face_hi is_lo face_axis] in I2, I3.
      destruct hf_lines as (N1 & _ & N0 & _).
      rewrite !EZ0; try discriminate; try (intros []; cbv zeta; (split; [|split; discriminate]); unfold meshAll, ypos; cbn [SpecGeom.coord Eat staggered is_E fld_axis axis_eqb negb face_lo face_hi is_lo face_axis]; lia).
      unfold faraday, Rdiv. ring. }
    destruct (ha_media _ _ _ _ _ _ _ _ _ _ _ HA _ x y z _ Q MO) as (A & _). fold n in A.
    destruct (ha_drives _ _ _ _ _ _ _ _ _ _ _ HA t) as (_ & (SD & _)). destruct (SD (Hat a) x y z J F ltac:(destruct a; reflexivity) Q D) as (D2 & _). fold n in D2.
    eapply MF; [apply hf_mesh; exact I|exact A|exact D2].
Qed.
End Half.

(** ** C84 *)
Theorem C84_half : forall p c c2 h h2 lines lines2 e e2 dt dt2, box_problem c h lines dt e -> box_problem c2 h2 lines2 dt2 e2 -> free_metal c h lines -> free_metal c2 h2 lines2 ->
  forall rcm rcm2 ep ep2 ts ts2 d d2 s s2, set_up c h e dt (w_m s) -> quiet (w_m s) -> set_up c2 h2 e2 dt2 (w_m s2) -> quiet (w_m s2) ->
  halved p c c2 h h2 lines lines2 (d_wE d) (d_wH d) (d_wE d2) (d_wH d2) ->
  dt2 = dt /\
  forall t,
  let m := w_m (wrun c (progOf c h rcm ep ts (fun a n => adat (eDe (e a)) n) (fun a n => adat (eDh (e a)) n)) d 0 t s) in
  let m2 := w_m (wrun c2 (progOf c2 h2 rcm2 ep2 ts2 (fun a n => adat (eDe (e2 a)) n) (fun a n => adat (eDh (e2 a)) n)) d2 0 t s2) in
  let n := numLines c XDIR - 1 in
  (forall a x y z, in_mesh c (Eat a) x y z -> fieldE c2 m2 a (n + x) y z = fieldE c m a x y z /\ fieldE c2 m2 a (image (2 * n) (Eat a) (n + x)) y z = (imageSign p (Eat a) * fieldE c m a x y z)%R) /\
  (forall a x y z, in_mesh c (Hat a) x y z -> fieldH c2 m2 a (n + x) y z = fieldH c m a x y z /\ fieldH c2 m2 a (image (2 * n) (Hat a) (n + x)) y z = (imageSign p (Hat a) * fieldH c m a x y z)%R).
Proof.
  intros p c c2 h h2 lines lines2 e e2 dt dt2 BP BP2 FM FM2 rcm rcm2 ep ep2 ts ts2 d d2 s s2 SU QU SU2 QU2 HA.
  pose proof (hf_dt p c c2 h h2 lines lines2 e e2 dt dt2 _ _ _ _ BP BP2 HA) as EQ. split; [exact EQ|]. subst dt2. intros t m m2 n.
  pose proof (C83_solution c2 h2 lines2 e2 dt BP2 rcm2 ep2 ts2 d2 s2 SU2 QU2) as MX. cbv zeta in MX.
  pose proof (hf_maxwell p c c2 h h2 lines lines2 e e2 dt dt _ _ _ _ BP BP2 FM2 HA _ _ MX) as MH.
  destruct (C83_unique c h lines e dt BP FM rcm ep ts d s SU QU _ _ MH t) as (U1 & U2). cbv zeta in U1, U2. fold m in U1, U2.
  destruct (hf_sym p c c2 h h2 lines lines2 e e2 dt dt _ _ _ _ BP BP2 FM2 HA _ _ MX t) as (S1 & S2). fold m2 in S1, S2.
  assert (SQ : forall f v, (imageSign p f * (imageSign p f * v))%R = v) by (intros f v; rewrite parity_sign; destruct p, f; cbn [parity sign]; ring).
  split; intros a x y z I; pose proof (hf_mesh p c c2 h h2 lines lines2 e e2 dt dt _ _ _ _ BP BP2 HA _ x y z I) as I2.
  - assert (A : fieldE c2 m2 a (n + x) y z = fieldE c m a x y z) by (rewrite (U1 a x y z I); reflexivity). split; [exact A|]. rewrite <- A.
    unfold half in *. fold n in S1, I2 |- *. rewrite (S1 a _ y z I2), SQ. reflexivity.
  - assert (A : fieldH c2 m2 a (n + x) y z = fieldH c m a x y z) by (rewrite (U2 a x y z I); reflexivity). split; [exact A|]. rewrite <- A.
    unfold half in *. fold n in S2, I2 |- *. rewrite (S2 a _ y z I2), SQ. reflexivity.
Qed.
