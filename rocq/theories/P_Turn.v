(** C81: turning the problem in space turns the result. *)
From Coq Require Import ZArith List Bool Ascii String Reals Lia Lra.
From Verif Require Import Types CArr CStr Sim Scan Lang BBox Grid SpecGrid Step Setup SetupProofs P_Setup PmlProfile Media Medium SpecMedium MediumProofs Debye Waveform Source
  PlaneWave Observer Edges EdgesProofs SpecEdges SpecText Mesh SpecGeom SpecCards P_Cards SpecMedia P_Media SpecPhys SpecEnergy SpecStable P_Grid P_Stable Front Program SpecFront P_Front P_FrontRun
  LangProofs StepShape StepBounds BBoxProofs MediaProofs SpecSource SourceProofs P_Source Whole P_Whole SpecFile P_FrontStable Energy SpecMaxwell P_Maxwell SpecRecip P_Recip SpecMaxwellBox P_MaxwellBox SpecTurn.
Import ListNotations.
Local Open Scope list_scope.
Open Scope Z_scope.

(** ** What a point is made of, as a function *)
Definition pickR f x y z (m : Material) (r : Region) : Material := if yee_in_dec f (g_box r) (g_incl r) x y z then g_mat r else m.
Lemma made_pick f x y z rs m : made_of f x y z rs m <-> m = fold_left (pickR f x y z) rs (Simple 1 0 1).
Proof.
  revert m. induction rs as [|r rs IH] using rev_ind; intros m.
  - split; [intros A; inversion A as [|q r Y E|q r ? Y Q E]; subst; try (destruct q; discriminate); reflexivity|intros ->; constructor].
  - rewrite fold_left_app. cbn [fold_left]. unfold pickR at 1. destruct (yee_in_dec f (g_box r) (g_incl r) x y z) as [Y|Y]; split.
    + intros A. exact (made_fun _ _ _ _ _ _ _ A (mo_in f x y z rs r Y)).
    + intros ->. apply mo_in. exact Y.
    + intros A. inversion A as [E|q r0 Y' E|q r0 ? Y' Q E]; subst; [destruct rs; discriminate| |]; apply app_inj_tail in E; destruct E as (-> & ->); [contradiction|]. apply IH. exact Q.
    + intros ->. apply mo_out; [exact Y|]. apply IH. reflexivity.
Qed.
Lemma pick_metal f x y z rs m : (forall r, In r rs -> g_mat r = Metal) ->
  fold_left (pickR f x y z) rs m = if existsb (fun r => if yee_in_dec f (g_box r) (g_incl r) x y z then true else false) rs then Metal else m.
Proof.
  revert m. induction rs as [|r rs IH]; intros m A; [reflexivity|]. cbn [fold_left existsb]. rewrite IH by (intros q I; apply A; right; exact I). unfold pickR.
  rewrite (A r) by (left; reflexivity). destruct (yee_in_dec f (g_box r) (g_incl r) x y z); cbn [orb]; [|reflexivity]. destruct (existsb _ rs); reflexivity.
Qed.

(** The walls of a box are metal where they are electric. *)
Definition wallHit (c : Cfg) f x y z (g : Face) : bool := btype_eqb (outerSurfaceType c g) BT_PEC && (if yee_in_dec f (wallBox c g) SpecMedia.all_faces x y z then true else false).
Lemma wall_pick c h f x y z m : (forall g, outerSurfaceType c g = BT_PEC \/ outerSurfaceType c g = BT_PMC \/ outerSurfaceType c g = BT_PERIODIC) ->
  fold_left (pickR f x y z) (map (fun p => mkRegion (p_box p) (p_incl p) (materialOf h (p_medium p))) (flat_map (wallPaint c) faces)) m = if existsb (wallHit c f x y z) faces then Metal else m.
Proof.
  intros BW. generalize faces. intros l. revert m. induction l as [|g l IH]; intros m; [reflexivity|]. cbn [flat_map existsb]. rewrite map_app, fold_left_app, IH. unfold wallHit at 2, wallPaint.
  destruct (BW g) as [-> | [-> | ->]]; cbn [btype_eqb andb orb map fold_left p_box p_incl p_medium]; try reflexivity.
  unfold pickR. cbn [g_box g_incl g_mat materialOf]. destruct (yee_in_dec f (wallBox c g) SpecMedia.all_faces x y z); cbn [orb]; [destruct (existsb _ l)|]; reflexivity.
Qed.

(** ** The turn *)
Lemma turn_yee f b b' i i' x y z : turned_box b b' -> (forall g, i' (turnFace g) = i g) -> (yee_in (turnFld f) b' i' z x y <-> yee_in f b i x y z).
Proof.
  intros TB TI. unfold yee_in. cbv zeta.
  assert (TBl : forall a, b' (face_lo (upA a)) = b (face_lo a) /\ b' (face_hi (upA a)) = b (face_hi a) /\ i' (face_lo (upA a)) = i (face_lo a) /\ i' (face_hi (upA a)) = i (face_hi a)).
  { intros []; rewrite <- !TB, <- !TI; repeat split. }
  assert (TP : forall a, ypos (turnFld f) (upA a) (SpecGeom.coord z x y (upA a)) = ypos f a (SpecGeom.coord x y z a)) by (intros []; destruct f; reflexivity).
  split; intros A a.
  - specialize (A (upA a)). rewrite TP in A. destruct (TBl a) as (-> & -> & -> & ->) in A. exact A.
  - assert (E : exists q, a = upA q) by (destruct a; [exists ZDIR|exists XDIR|exists YDIR]; reflexivity). destruct E as (q & ->).
    rewrite TP. destruct (TBl q) as (-> & -> & -> & ->). apply A.
Qed.

Section Turn.
Variables (h h' : MeshData) (c c' : Cfg) (lines lines' : Axis -> carr R).
Hypothesis T : turned h h'.
Hypothesis HM : forall a, h_mesh h a = Some (lines a).
Hypothesis HM' : forall a, h_mesh h' a = Some (lines' a).
Hypothesis NL : forall a, numLines c' (upA a) = numLines c a.
Hypothesis WT : forall f, outerSurfaceType c' (turnFace f) = outerSurfaceType c f.
Hypothesis BW : forall f, outerSurfaceType c f = BT_PEC \/ outerSurfaceType c f = BT_PMC \/ outerSurfaceType c f = BT_PERIODIC.
Hypothesis LY : forall f, outerSurfaceNumLayers c f = 0.
Hypothesis LY' : forall f, outerSurfaceNumLayers c' f = 0.

Lemma turn_lines a : lines' (upA a) = lines a.
Proof. pose proof (td_mesh _ _ T a) as M. rewrite HM, HM' in M. injection M as ->. reflexivity. Qed.
Lemma turn_edge a n : edge lines' (upA a) n = edge lines a n.
Proof. unfold edge, cell, line. rewrite turn_lines. reflexivity. Qed.
Lemma turn_dual a n : dual c' lines' (upA a) n = dual c lines a n.
Proof. unfold dual, inner. rewrite NL, !turn_edge. reflexivity. Qed.

Definition rr (r r' : Region) : Prop := turned_box (g_box r) (g_box r') /\ (forall f, g_incl r' (turnFace f) = g_incl r f) /\ g_mat r' = g_mat r.
Lemma rr_pick f x y z r r' m : rr r r' -> pickR (turnFld f) z x y m r' = pickR f x y z m r.
Proof.
  intros (A & B & C). unfold pickR. pose proof (turn_yee f _ _ _ _ x y z A B) as Q.
  destruct (yee_in_dec (turnFld f) (g_box r') (g_incl r') z x y), (yee_in_dec f (g_box r) (g_incl r) x y z); tauto.
Qed.
Lemma rr_fold f x y z rs rs' : Forall2 rr rs rs' -> forall m, fold_left (pickR (turnFld f) z x y) rs' m = fold_left (pickR f x y z) rs m.
Proof. induction 1 as [|r r' rs rs' A F IH]; intros m; [reflexivity|]. cbn [fold_left]. rewrite (rr_pick _ _ _ _ _ _ _ A). apply IH. Qed.

(** *** Sources *)
Lemma turn_len (l l' : Axis -> Z -> R) b b' a nodes : (forall a n, l' (upA a) n = l a n) -> turned_box b b' -> len l' b' (upA a) nodes = len l b a nodes.
Proof.
  intros TL TB. unfold len, SpecSource.sum. assert (E : b' (face_lo (upA a)) = b (face_lo a) /\ b' (face_hi (upA a)) = b (face_hi a)) by (destruct a; rewrite <- !TB; split; reflexivity).
  destruct E as (-> & ->). f_equal. apply map_ext. intros n. apply TL.
Qed.
Lemma turn_sizes s s' : turned_src s s' -> elecLen lines' s' = elecLen lines s /\ magnLen c' lines' s' = magnLen c lines s /\ elecFace c' lines' s' = elecFace c lines s /\ magnFace lines' s' = magnFace lines s.
Proof.
  intros (B & _ & _ & P & _). unfold elecLen, magnLen, elecFace, magnFace. rewrite P.
  pose proof (fun a nd => turn_len (edge lines) (edge lines') _ _ a nd turn_edge B) as LE. pose proof (fun a nd => turn_len (dual c lines) (dual c' lines') _ _ a nd turn_dual B) as LD.
  rewrite !LE, !LD. repeat split.
Qed.
Lemma turn_impressed s s' A : turned_src s s' -> impressed c' lines' s' A = impressed c lines s A.
Proof.
  intros Q. destruct (turn_sizes s s' Q) as (E1 & E2 & E3 & E4). destruct Q as (_ & TT & _ & _ & _ & RR). unfold impressed. rewrite TT, E1, E2, E3, E4, RR. reflexivity.
Qed.
Lemma turn_load s s' : turned_src s s' -> Forall2 rr (loadRegion c lines s) (loadRegion c' lines' s').
Proof.
  intros Q. destruct (turn_sizes s s' Q) as (E1 & _ & E3 & _). destruct Q as (B & TT & _ & _ & _ & RR). unfold loadRegion. rewrite TT. destruct (isLumped _); [|constructor].
  constructor; [|constructor]. split; [exact B|]. split; [reflexivity|]. cbn [g_mat]. rewrite E1, E3, RR. reflexivity.
Qed.
Lemma turn_covered f x y z s s' : turned_src s s' -> (covered (turnFld f) z x y s' <-> covered f x y z s).
Proof.
  intros (B & _ & F & _). unfold covered. rewrite F. rewrite (turn_yee f _ _ (fun _ => true) (fun _ => true) x y z B) by reflexivity.
  assert (turnFld f = turnFld (t_field (s_tag s)) <-> f = t_field (s_tag s)) by (destruct f, (t_field (s_tag s)); split; intros; try discriminate; reflexivity). tauto.
Qed.
Lemma f2impl {A B} (P Q : A -> B -> Prop) l l' : (forall x y, P x y -> Q x y) -> Forall2 P l l' -> Forall2 Q l l'.
Proof. intros X. induction 1; constructor; auto. Qed.
Lemma turn_total (P P' : Src -> Prop) v v' l l' : Forall2 (fun s s' => (P s <-> P' s') /\ v s = v' s') l l' -> forall t, total_of P v l t -> total_of P' v' l' t.
Proof.
  induction 1 as [|s s' l l' (A & B) F IH]; intros t TO; inversion TO; subst; [constructor| |].
  - rewrite B. constructor; [apply A; assumption|apply IH; assumption].
  - apply to_out; [rewrite <- A; assumption|apply IH; assumption].
Qed.
Lemma turn_drives (w w' : Src -> R) f x y z J F : Forall2 (fun s s' => w' s' = w s) (h_srcs h) (h_srcs h') -> drives c h lines w f x y z J F -> drives c' h' lines' w' (turnFld f) z x y J F.
Proof.
  intros W. assert (Q : Forall2 (fun s s' => turned_src s s' /\ w' s' = w s) (h_srcs h) (h_srcs h')).
  { pose proof (td_srcs _ _ T) as G. revert W G. generalize (h_srcs h) (h_srcs h'). induction l as [|s l IH]; intros l' W G; inversion W; subst; inversion G; subst; constructor; auto. }
  intros (D1 & D2). split; [revert D1|revert D2]; apply turn_total; (eapply f2impl; [|exact Q]); intros s s' (TS & WS); cbv beta; rewrite WS; (split; [|destruct TS as (? & ? & ? & ? & SZ & ?); rewrite SZ; symmetry; apply turn_impressed; repeat split; assumption]);
  rewrite (turn_covered f x y z s s' TS); unfold impresses_field; destruct TS as (_ & -> & _); tauto.
Qed.
(** *** The scene *)
Lemma Forall2_map_app {A B} (R1 : A -> A -> Prop) (R2 : B -> B -> Prop) g g' l l' : (forall x y, R1 x y -> R2 (g x) (g' y)) -> Forall2 R1 l l' -> Forall2 R2 (map g l) (map g' l').
Proof. intros X. induction 1; constructor; auto. Qed.
Lemma Forall2_flat {A B} (R1 : A -> A -> Prop) (R2 : B -> B -> Prop) g g' l l' : (forall x y, R1 x y -> Forall2 R2 (g x) (g' y)) -> Forall2 R1 l l' -> Forall2 R2 (flat_map g l) (flat_map g' l').
Proof. intros X. induction 1; cbn [flat_map]; [constructor|]. apply Forall2_app; auto. Qed.
Definition reg hh p := mkRegion (p_box p) (p_incl p) (materialOf hh (p_medium p)).
Definition pr p p' := rr (reg h p) (reg h' p').
Lemma turn_made f x y z m : made_of f x y z (regions c h lines) m -> made_of (turnFld f) z x y (regions c' h' lines') m.
Proof.
  rewrite !made_pick. intros ->. unfold regions, paints. rewrite !map_app, !fold_left_app. fold (reg h) (reg h'). cbn [sceneOf sc_blocks sc_lines sc_surfs].
  assert (FM : forall l l', Forall2 pr l l' -> forall m, fold_left (pickR (turnFld f) z x y) (map (reg h') l') m = fold_left (pickR f x y z) (map (reg h) l) m).
  { intros l l' F. apply rr_fold. revert F. apply Forall2_map_app. auto. }
  assert (FB : Forall2 pr (map blockPaint (h_blocks h)) (map blockPaint (h_blocks h'))).
  { eapply Forall2_map_app; [|exact (td_blocks _ _ T)]. intros b b' (B & M & MM). split; [exact B|]. split; [exact M|exact MM]. }
  assert (FL : Forall2 pr (map (linePaint (wireOf h)) (h_lines h)) (map (linePaint (wireOf h')) (h_lines h'))).
  { eapply Forall2_map_app; [|exact (td_lines _ _ T)]. intros b b' (B & M). split; [exact B|]. split; [reflexivity|]. cbn [linePaint reg p_medium g_mat]. rewrite M. destruct (wireOf h (wire_l b)); reflexivity. }
  assert (FS : Forall2 pr (flat_map (surfPaint (boundOf h)) (map fst (h_surfs h))) (flat_map (surfPaint (boundOf h')) (map fst (h_surfs h')))).
  { eapply Forall2_flat with (R1 := fun s s' => turned_surf h h' (s, 0%R) (s', 0%R)); [|eapply Forall2_map_app; [|exact (td_surfs _ _ T)]; intros b b' Q; exact Q].
    intros s s' (B & M). cbn [fst] in B, M. unfold surfPaint. rewrite M. destruct (boundOf h (boundary_s s)); repeat constructor; exact B. }
  rewrite (FM _ _ FB), (FM _ _ FL), (FM _ _ FS).
  rewrite (rr_fold f x y z (flat_map (loadRegion c lines) (h_srcs h)) (flat_map (loadRegion c' lines') (h_srcs h'))) by (eapply Forall2_flat; [|exact (td_srcs _ _ T)]; exact turn_load).
  assert (BW' : forall g, outerSurfaceType c' g = BT_PEC \/ outerSurfaceType c' g = BT_PMC \/ outerSurfaceType c' g = BT_PERIODIC).
  { intros g. assert (G : exists k, g = turnFace k) by (destruct g; [exists ZLO|exists ZHI|exists XLO|exists XHI|exists YLO|exists YHI]; reflexivity). destruct G as (k & ->). rewrite WT. apply BW. }
  f_equal. unfold reg. rewrite !wall_pick by assumption.
  match goal with |- (if _ then _ else ?q) = _ => set (m0 := q); clearbody m0 end.
  assert (E : forall g, wallHit c' (turnFld f) z x y (turnFace g) = wallHit c f x y z g).
  { intros g. unfold wallHit. rewrite WT. f_equal. pose proof (turn_yee f (wallBox c g) (wallBox c' (turnFace g)) SpecMedia.all_faces SpecMedia.all_faces x y z) as Q.
    destruct (yee_in_dec (turnFld f) _ _ z x y), (yee_in_dec f _ _ x y z); try reflexivity; exfalso; (assert (QQ : turned_box (wallBox c g) (wallBox c' (turnFace g)));
    [intros k; unfold wallBox, outerBox; rewrite !LY, !LY'; destruct g, k; cbn [turnFace face_axis axis_eqb is_lo]; rewrite ?NL; try reflexivity; change YDIR with (upA XDIR); change ZDIR with (upA YDIR); rewrite ?NL; try reflexivity; pose proof (NL ZDIR) as N; cbn [upA] in N; rewrite N; reflexivity
    |specialize (Q QQ (fun _ => eq_refl)); tauto]). }
  unfold faces. cbn [existsb]. rewrite <- (E XLO), <- (E XHI), <- (E YLO), <- (E YHI), <- (E ZLO), <- (E ZHI). cbn [turnFace].
  repeat match goal with |- context [wallHit ?a ?b ?cc ?d ?e ?g] => let k := fresh "k" in set (k := wallHit a b cc d e g); clearbody k end.
  destruct k, k0, k1, k2, k3, k4; reflexivity.
Qed.

(** *** The equations *)
Definition turnBack (E : nat -> Vec) : nat -> Vec := fun n a x y z => E n (upA a) z x y.
Lemma turn_across q v : across c' (upA q) v = across c q v.
Proof. unfold across. rewrite NL. pose proof (WT (face_lo q)) as W1. pose proof (WT (face_hi q)) as W2. destruct q; cbn [upA face_lo face_hi turnFace] in *; rewrite W1, W2; reflexivity. Qed.
Lemma turn_beyond H' n a x y z : beyond c' (H' n) (upA a) z x y = beyond c (turnBack H' n) a x y z.
Proof.
  unfold beyond, turnBack. cbv zeta. pose proof (turn_across XDIR x) as A1. pose proof (turn_across YDIR y) as A2. pose proof (turn_across ZDIR z) as A3. cbn [upA] in A1, A2, A3.
  destruct a; cbn [upA axis_eqb fst snd]; rewrite ?A1, ?A2, ?A3; cbn [fst snd]; ring.
Qed.
Lemma turn_rot_beyond H' n a x y z : rotH c' lines' (beyond c' (H' n)) (upA a) z x y = rotH c lines (beyond c (turnBack H' n)) a x y z.
Proof. unfold rotH. rewrite !turn_dual. destruct a; cbn [upA shift SpecGeom.coord]; rewrite <- !turn_beyond; reflexivity. Qed.
Lemma turn_rotE E' n a x y z : rotE lines' (E' n) (upA a) z x y = rotE lines (turnBack E' n) a x y z.
Proof.
  unfold rotE, turnBack. rewrite !turn_edge.
  destruct a; reflexivity.
Qed.
Lemma turn_mesh : turned_box (meshAll c) (meshAll c').
Proof. intros k. unfold meshAll. pose proof (NL XDIR) as N1. pose proof (NL YDIR) as N2. pose proof (NL ZDIR) as N3. cbn [upA] in *. destruct k; cbn [turnFace is_lo face_axis]; try reflexivity; congruence. Qed.
Lemma turn_Eat a : Eat (upA a) = turnFld (Eat a).
Proof. destruct a; reflexivity. Qed.
Lemma turn_Hat a : Hat (upA a) = turnFld (Hat a).
Proof. destruct a; reflexivity. Qed.
Lemma f2_in_r {A B} (P : A -> B -> Prop) l l' y : Forall2 P l l' -> In y l' -> exists x, In x l /\ P x y.
Proof. induction 1 as [|u v l l' A1 F IH]; intros I; [destruct I|]. destruct I as [<-|I]; [exists u; split; [left; reflexivity|exact A1]|]. destruct (IH I) as (q & I1 & I2). exists q. split; [right|]; assumption. Qed.
Lemma turn_maxwell dt (wE wH wE' wH' : nat -> Src -> R) E' H' :
  (forall n, Forall2 (fun s s' => wE' n s' = wE n s) (h_srcs h) (h_srcs h')) -> (forall n, Forall2 (fun s s' => wH' n s' = wH n s) (h_srcs h) (h_srcs h')) ->
  maxwell_box c' h' lines' dt wE' wH' E' H' -> maxwell_box c h lines dt wE wH (turnBack E') (turnBack H').
Proof.
  intros WE WH [MR MM MA MF]. split.
  - intros a x y z. destruct (MR (upA a) z x y) as (M1 & M2). unfold turnBack. split; intros I; [apply M1|apply M2]; rewrite ?turn_Eat, ?turn_Hat; refine (proj2 (turn_yee _ _ _ _ _ x y z turn_mesh _) I); reflexivity.
  - intros n a x y z I MO NI. unfold turnBack. apply MM; rewrite turn_Eat.
    + refine (proj2 (turn_yee _ _ _ _ _ x y z turn_mesh _) I). reflexivity.
    + apply turn_made. exact MO.
    + intros s' I' F' C'. destruct (f2_in_r _ _ _ _ (td_srcs _ _ T) I') as (s & IS & TS). apply (NI s IS).
      * unfold impresses_field in *. destruct TS as (_ & <- & _). exact F'.
      * apply (turn_covered _ _ _ _ _ _ TS). exact C'.
  - intros n a x y z eps sigma mu J F I MO D. rewrite <- turn_rot_beyond. unfold turnBack. eapply MA; rewrite turn_Eat.
    + refine (proj2 (turn_yee _ _ _ _ _ x y z turn_mesh _) I). reflexivity.
    + apply turn_made. exact MO.
    + eapply turn_drives; [apply WE|exact D].
  - intros n a x y z mat J F I MO D. rewrite <- turn_rotE. unfold turnBack. eapply MF; rewrite turn_Hat.
    + refine (proj2 (turn_yee _ _ _ _ _ x y z turn_mesh _) I). reflexivity.
    + apply turn_made. exact MO.
    + eapply turn_drives; [apply WH|exact D].
Qed.
End Turn.

(** ** The time step *)
Lemma min_cells c lines garbage a e : wf c -> has_lines c lines -> axisEdges c lines garbage a = Some e ->
  (eMin e <= REAL_MAX)%R /\ (forall i, 0 <= i < numLines c a - 1 -> (eMin e <= cell lines a i)%R) /\ (eMin e = REAL_MAX \/ exists i, 0 <= i < numLines c a - 1 /\ eMin e = cell lines a i).
Proof.
  intros W HL EA. destruct (axis_edges c lines garbage a e W HL EA) as (Ho & NA & _ & V & _ & VH & _ & _ & B & _ & BM & _ & Cm & _). split; [exact BM|]. split.
  - intros i Hi. assert (G : (1 <= gibox c (face_lo a) /\ gibox c (face_lo a) + numLines c a - 1 <= gobox c (face_hi a))%Z).
    { cfg_facts c W. destruct a; cbn [face_lo face_hi] in *; unfold NUM_GHOST_CELLS in *; lia. }
    pose proof (B (i + gibox c (face_lo a))%Z ltac:(lia)) as Q. rewrite V in Q by lia. replace (SpecEdges.mesh_cell c a (i + gibox c (face_lo a))) with i in Q by (unfold SpecEdges.mesh_cell; lia). apply Q.
  - assert (X : forall i, (0 <= i <= gobox c (face_hi a))%Z -> eMin e = adat (eDe e) i -> exists i, (0 <= i < numLines c a - 1)%Z /\ eMin e = cell lines a i).
    { intros i Hi ->. exists (SpecEdges.mesh_cell c a i). split; [apply mesh_cell_range; exact W|apply V; lia]. }
    destruct Cm as [Cm|(i & [(Hi & Cm) | (Hi & Cm)])]; [left; exact Cm|right; apply (X i Hi Cm)|right]. rewrite VH in Cm by lia. pose proof (B i ltac:(lia)). pose proof (B (i - 1)%Z ltac:(lia)). apply (X i ltac:(lia)). lra.
Qed.
Lemma same_min c c' lines lines' g g' a a' e e' : wf c -> wf c' -> has_lines c lines -> has_lines c' lines' -> axisEdges c lines g a = Some e -> axisEdges c' lines' g' a' = Some e' ->
  numLines c' a' = numLines c a -> (forall n, cell lines' a' n = cell lines a n) -> eMin e' = eMin e.
Proof.
  intros W W' HL HL' E E' N CC. destruct (min_cells c lines g a e W HL E) as (A1 & A2 & A3). destruct (min_cells c' lines' g' a' e' W' HL' E') as (B1 & B2 & B3).
  apply Rle_antisym.
  - destruct A3 as [-> | (i & Hi & ->)]; [exact B1|]. rewrite <- CC. apply B2. lia.
  - destruct B3 as [-> | (i & Hi & ->)]; [exact A1|]. rewrite CC. apply A2. lia.
Qed.
Lemma edges_axes c lines g cn e dt : initCellEdges c lines g cn = Some (e, dt) -> (forall a, axisEdges c lines g a = Some (e a)) /\ dt = Edges.timeStep cn (fun a => eMin (e a)).
Proof.
  unfold initCellEdges. intros H. destruct (axisEdges c lines g XDIR) eqn:E1; [|discriminate]. destruct (axisEdges c lines g YDIR) eqn:E2; [|discriminate]. destruct (axisEdges c lines g ZDIR) eqn:E3; [|discriminate].
  cbn [obind] in H. injection H as <- <-. split; [intros []; assumption|reflexivity].
Qed.

(** ** C81 *)
(** a closed conducting box is one of these *)
Lemma closed_box c h lines e dt : closed_problem c h lines e dt -> box_problem c h lines dt e.
Proof.
  intros P. pose proof P as [RD CF PEC PM NS SS OC SO LI HM IN DT]. constructor; try assumption.
  - intros f. left. apply PEC.
  - intros s f IS LU _ EQ MW. destruct RD as (df & file & st & cards & RD). pose proof (cfg_box _ _ _ _ _ _ RD CF) as MB. specialize (LI s IS LU (face_axis f) EQ). rewrite <- MB in LI. unfold meshBox in LI. unfold meshAll in MW. destruct f; cbn [is_lo face_axis face_lo face_hi] in *; lia.
Qed.
Theorem C81_turned : forall c h lines e dt c' h' lines' e' dt', box_problem c h lines dt e -> box_problem c' h' lines' dt' e' -> free_metal c h lines ->
  turned h h' -> (forall f, outerSurfaceType c' (turnFace f) = outerSurfaceType c f) ->
  forall rcm rcm' ep ep' ts ts' d d' s s', set_up c h e dt (w_m s) -> quiet (w_m s) -> set_up c' h' e' dt' (w_m s') -> quiet (w_m s') ->
  (forall n, Forall2 (fun x x' => d_wE d' n x' = d_wE d n x /\ d_wH d' n x' = d_wH d n x) (h_srcs h) (h_srcs h')) ->
  dt' = dt /\
  forall n,
  let m := w_m (wrun c (progOf c h rcm ep ts (fun a n => adat (eDe (e a)) n) (fun a n => adat (eDh (e a)) n)) d 0 n s) in
  let m' := w_m (wrun c' (progOf c' h' rcm' ep' ts' (fun a n => adat (eDe (e' a)) n) (fun a n => adat (eDh (e' a)) n)) d' 0 n s') in
  (forall a x y z, in_mesh c (Eat a) x y z -> fieldE c' m' (upA a) z x y = fieldE c m a x y z) /\
  (forall a x y z, in_mesh c (Hat a) x y z -> fieldH c' m' (upA a) z x y = fieldH c m a x y z).
Proof.
  intros c h lines e dt c' h' lines' e' dt' P P' FM T WT rcm rcm' ep ep' ts ts' d d' s s' SU QU SU' QU' WW.
  pose proof P as [(df & file & st & cards & RD) CF BW PM NS SS OC SO LI HM IN (cn & garbage & CN & PC & HE)].
  pose proof P' as [(df' & file' & st' & cards' & RD') CF' BW' PM' NS' SS' OC' SO' LI' HM' IN' (cn' & garbage' & CN' & PC' & HE')].
  pose proof (walls_wide c BW) as WD. pose proof (walls_wide c' BW') as WD'.
  assert (NL : forall a, numLines c' (upA a) = numLines c a).
  { pose proof (file_lines _ _ _ _ _ _ RD CF WD _ _ _ _ _ HM IN HE) as HL. pose proof (file_lines _ _ _ _ _ _ RD' CF' WD' _ _ _ _ _ HM' IN' HE') as HL'. intros a. rewrite <- HL, <- HL'. f_equal. exact (turn_lines h h' lines lines' T HM HM' a). }
  pose proof (file_wf _ _ CF) as W. pose proof (file_wf _ _ CF') as W'.
  assert (LY : forall f, outerSurfaceNumLayers c f = 0) by (exact (box_layers c h lines e dt P)).
  assert (LY' : forall f, outerSurfaceNumLayers c' f = 0) by (exact (box_layers c' h' lines' e' dt' P')).
  assert (EQ : dt' = dt).
  { destruct (edges_axes _ _ _ _ _ _ HE) as (EA & D1). destruct (edges_axes _ _ _ _ _ _ HE') as (EA' & D2).
    rewrite (td_cn _ _ T), CN in CN'. injection CN' as CN'. rewrite CN' in *.
    pose proof (file_lines _ _ _ _ _ _ RD CF WD _ _ _ _ _ HM IN HE) as HL. pose proof (file_lines _ _ _ _ _ _ RD' CF' WD' _ _ _ _ _ HM' IN' HE') as HL'.
    assert (MN : forall a, eMin (e' (upA a)) = eMin (e a)).
    { intros a. apply (same_min c c' lines lines' garbage garbage' a (upA a) (e a) (e' (upA a)) W W' HL HL' (EA a) (EA' (upA a)) (NL a)). intros n. exact (turn_edge h h' lines lines' T HM HM' a n). }
    rewrite D1, D2. unfold Edges.timeStep. rewrite <- (MN XDIR), <- (MN YDIR), <- (MN ZDIR). cbn [upA]. f_equal. f_equal. ring. }
  split; [exact EQ|]. subst dt'. intros n m m'.
  pose proof (C83_solution c' h' lines' e' dt P' rcm' ep' ts' d' s' SU' QU') as MX. cbv zeta in MX.
  assert (W1 : forall n, Forall2 (fun x x' => d_wE d' n x' = d_wE d n x) (h_srcs h) (h_srcs h')) by (intros k; eapply f2impl; [|exact (WW k)]; intros ? ? (A & _); exact A).
  assert (W2 : forall n, Forall2 (fun x x' => d_wH d' n x' = d_wH d n x) (h_srcs h) (h_srcs h')) by (intros k; eapply f2impl; [|exact (WW k)]; intros ? ? (_ & A); exact A).
  pose proof (turn_maxwell h h' c c' lines lines' T HM HM' NL WT BW LY LY' dt _ _ _ _ _ _ W1 W2 MX) as MB.
  destruct (C83_unique c h lines e dt P FM rcm ep ts d s SU QU _ _ MB n) as (U1 & U2).
  split; intros a x y z I; symmetry; [apply U1|apply U2]; exact I.
Qed.
