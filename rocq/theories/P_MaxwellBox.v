(** C83: in a box with electric, magnetic and periodic walls a run is the solution of
    the discretised Maxwell equations. *)
From Coq Require Import ZArith List Bool Ascii String Reals Lia Lra.
From Verif Require Import StepOnce SpecCone Types CArr CStr Sim Scan Lang BBox Grid SpecGrid Ghost Step Setup SetupProofs P_Setup PmlProfile Media Medium SpecMedium MediumProofs Debye Waveform Source
  PlaneWave Observer Edges EdgesProofs SpecEdges SpecText Mesh SpecGeom SpecCards P_Cards SpecMedia P_Media SpecPhys SpecEnergy SpecStable P_Grid P_Stable Front Program SpecFront P_Front P_FrontRun
  LangProofs StepShape StepBounds GhostValue BBoxProofs MediaProofs Sibc SpecSource SourceProofs P_Source Whole P_Whole SpecFile P_FrontStable Energy SpecMaxwell P_Maxwell SpecMaxwellBox.
Import ListNotations.
Local Open Scope list_scope.
Open Scope Z_scope.
Local Arguments Z.mul : simpl never.
Local Arguments Z.add : simpl never.
Local Arguments Z.sub : simpl never.

(** ** Ghost cells and the continued field *)
Section Ghosts.
Variable c : Cfg.
Hypothesis W : wf c.
Hypothesis GG : forall f, gibox c f = gobox c f.
Lemma box_hi a : gobox c (face_hi a) = gobox c (face_lo a) + (numLines c a - 1).
Proof. rewrite <- !GG. cfg_facts c W. destruct a; cbn [face_lo face_hi] in *; lia. Qed.
Lemma across_in q v : 0 <= v <= numLines c q - 2 -> across c q v = (v, 1%R).
Proof. intros H. unfold across. destruct (Z.ltb_spec v 0); [lia|]. destruct (Z.ltb_spec (numLines c q - 2) v); [lia|]. reflexivity. Qed.
Lemma ghost_rel m : (forall F, rel rArith c false F m) -> forall g q l, q <> g -> arr l = AF (Hat g) ->
  (forall b, b <> q -> gobox c (face_lo b) <= coord b l <= gobox c (face_hi b)) ->
  forall v, -1 <= v <= numLines c q - 1 -> (v = -1 -> outerSurfaceType c (face_lo q) = BT_PMC \/ outerSurfaceType c (face_lo q) = BT_PERIODIC) ->
  (v = numLines c q - 1 -> outerSurfaceType c (face_hi q) = BT_PMC \/ outerSurfaceType c (face_hi q) = BT_PERIODIC) ->
  m (setc q (gibox c (face_lo q) + v) l) = (snd (across c q v) * m (setc q (gibox c (face_lo q) + fst (across c q v)) l))%R.
Proof.
  intros RL g q l QG AL OK v HV LO HI. pose proof (box_hi q) as BH. pose proof (wf_lines c W q) as WL.
  assert (FX : face_axis (face_lo q) = q /\ face_axis (face_hi q) = q /\ is_lo (face_lo q) = true /\ is_lo (face_hi q) = false) by (destruct q; auto). destruct FX as (F1 & F2 & F3 & F4).
  assert (CR : forall F, face_axis F = q -> GhostValue.carried false F l). { intros F FA. exists (Hat g). split; [exact AL|]. split; [destruct g; reflexivity|]. destruct g, F; cbn [face_axis] in FA; subst q; try reflexivity; exfalso; apply QG; reflexivity. }
  assert (OK' : okr c q l) by (intros b Nb; specialize (OK b Nb); lia).
  assert (C : v = -1 \/ v = numLines c q - 1 \/ 0 <= v <= numLines c q - 2) by lia. destruct C as [-> | [-> | C]].
  - pose proof (RL (face_lo q)) as R0. unfold rel in R0. rewrite F1 in R0. unfold across. cbn [Z.ltb Z.compare]. change (-1 <? 0) with true. cbv iota.
    specialize (LO eq_refl). unfold srcIdx, ghostIdx, insideIdx, wrapIdx in R0. rewrite F1, F3 in R0. rewrite GG. replace (gobox c (face_lo q) + -1) with (gobox c (face_lo q) - 1) by lia.
    destruct LO as [T | T]; rewrite T in *; rewrite (R0 eq_refl l (CR _ F1) OK'); cbn [fst snd sgn].
    + replace (gobox c (face_lo q) + (-1 - -1)) with (gobox c (face_lo q)) by lia. cbn [vneg rArith]. ring.
    + rewrite BH. replace (gobox c (face_lo q) + (numLines c q - 1) - 1) with (gobox c (face_lo q) + (-1 + (numLines c q - 1))) by lia. ring.
  - pose proof (RL (face_hi q)) as R0. unfold rel in R0. rewrite F2 in R0. unfold across.
    destruct (Z.ltb_spec (numLines c q - 1) 0); [lia|]. destruct (Z.ltb_spec (numLines c q - 2) (numLines c q - 1)); [|lia].
    specialize (HI eq_refl). unfold srcIdx, ghostIdx, insideIdx, wrapIdx in R0. rewrite F2, F4 in R0. rewrite BH in R0. rewrite GG.
    destruct HI as [T | T]; rewrite T in *; rewrite (R0 eq_refl l (CR _ F2) OK'); cbn [fst snd sgn].
    + replace (gobox c (face_lo q) + (2 * (numLines c q - 1) - 1 - (numLines c q - 1))) with (gobox c (face_lo q) + (numLines c q - 1) - 1) by lia. cbn [vneg rArith]. ring.
    + replace (gobox c (face_lo q) + (numLines c q - 1 - (numLines c q - 1))) with (gobox c (face_lo q)) by lia. ring.
  - rewrite across_in by exact C. cbn [fst snd]. ring.
Qed.
Lemma beyond_val m : (forall F, rel rArith c false F m) -> forall g q x y z, q <> g ->
  (forall b, b <> q -> 0 <= SpecGeom.coord x y z b <= if axis_eqb b g then numLines c b - 1 else numLines c b - 2) ->
  -1 <= SpecGeom.coord x y z q <= numLines c q - 1 ->
  (SpecGeom.coord x y z q = -1 -> outerSurfaceType c (face_lo q) = BT_PMC \/ outerSurfaceType c (face_lo q) = BT_PERIODIC) ->
  (SpecGeom.coord x y z q = numLines c q - 1 -> outerSurfaceType c (face_hi q) = BT_PMC \/ outerSurfaceType c (face_hi q) = BT_PERIODIC) ->
  beyond c (fieldH c m) g x y z = fieldH c m g x y z.
Proof.
  intros RL g q x y z QG OK HV LO HI.
  pose proof (ghost_rel m RL g q (L (AF (Hat g)) (gibox c XLO + x) (gibox c YLO + y) (gibox c ZLO + z)) QG eq_refl) as G.
  assert (OK' : forall b, b <> q -> gobox c (face_lo b) <= coord b (L (AF (Hat g)) (gibox c XLO + x) (gibox c YLO + y) (gibox c ZLO + z)) <= gobox c (face_hi b)).
  { intros b Nb. specialize (OK b Nb). rewrite box_hi. assert (0 <= SpecGeom.coord x y z b <= numLines c b - 1) as OKb by (destruct (axis_eqb b g); lia). rewrite <- GG. destruct b; cbn [coord SpecGeom.coord li lj lk face_lo] in *; lia. }
  specialize (G OK' _ HV LO HI). unfold beyond, fieldH at 1 2, fld.
  assert (O1 := OK XDIR). assert (O2 := OK YDIR). assert (O3 := OK ZDIR).
  destruct g, q; try (exfalso; apply QG; reflexivity); cbn [axis_eqb SpecGeom.coord setc arr li lj lk face_lo fst snd] in *;
  repeat match goal with H : ?a <> ?b -> _ |- _ => first [specialize (H ltac:(discriminate))|clear H] end;
  repeat match goal with H : 0 <= ?v <= numLines c ?a - 2 |- context [across c ?a ?v] => rewrite (across_in a v H) end; cbn [fst snd];
  rewrite G; ring.
Qed.
End Ghosts.

(** ** The run *)
Lemma walls_wide c : (forall f, outerSurfaceType c f = BT_PEC \/ outerSurfaceType c f = BT_PMC \/ outerSurfaceType c f = BT_PERIODIC) -> wide c.
Proof. intros BW a. right. destruct (BW (face_lo a)) as [-> | [-> | ->]]; discriminate. Qed.
Lemma next_rel c (W : wf c) aE aH m F : rel rArith c false F (next c aE aH m).
Proof. unfold next, Step.timeStep. rewrite !flat_app, !run_app. apply (rel_ghostH rArith c W F). Qed.
Lemma quiet_rel c m F : quiet m -> rel rArith c false F m.
Proof.
  intros Q _ l (f & A & _) _. assert (Z0 : forall l, arr l = AF f -> m l = 0%R) by (intros l' A'; apply Q; unfold is_state, SpecCone.kind; rewrite A'; destruct (is_E f); discriminate).
  rewrite !Z0 by (rewrite arr_setc; exact A). unfold sgn. destruct (outerSurfaceType c F); cbn [vneg rArith]; ring.
Qed.

Section Box.
Variables (c : Cfg) (h : MeshData) (lines : Axis -> carr R) (e : Axis -> Edges) (dt : R).
Hypothesis BP : box_problem c h lines dt e.
Lemma box_layers f : outerSurfaceNumLayers c f = 0.
Proof. apply (wf_nopml c (file_wf _ _ (bp_cfg _ _ _ _ _ BP))). destruct (bp_walls _ _ _ _ _ BP f) as [-> | [-> | ->]]; discriminate. Qed.
Lemma box_gg f : gibox c f = gobox c f.
Proof. pose proof box_layers as X. destruct f; unfold gobox, gibox; cbn [face_lo]; rewrite ?X; unfold NUM_GHOST_CELLS; lia. Qed.
Lemma box_off_mur f x y z : in_mesh c f x y z -> off_mur_walls c f x y z.
Proof.
  intros Y q. specialize (Y q). cbv zeta in *. destruct Y as (Y & _). split; [exact Y|].
  assert (N : forall g, negb (btype_eqb (outerSurfaceType c g) BT_MUR) = true) by (intros g; destruct (bp_walls _ _ _ _ _ BP g) as [-> | [-> | ->]]; reflexivity). rewrite !N. split; discriminate.
Qed.
(** edges in an electric wall are metal *)
Lemma pec_wall_metal F a x y z : outerSurfaceType c F = BT_PEC -> in_mesh c (Eat a) x y z -> face_axis F <> a -> SpecGeom.coord x y z (face_axis F) = meshAll c F -> made_of (Eat a) x y z (regions c h lines) Metal.
Proof.
  intros PEC Y BA CW. destruct BP as [(df & file & st & cards & RD) CF BW PM NS SS OC SO LO HM IN _]. pose proof (file_wf _ _ CF) as W.
  pose proof (mesh_outer c (Eat a) x y z W Y) as MO. destruct (back c x y z) as (B1 & B2 & B3). unfold regions. apply made_out.
  - assert (OF : on_face c F (Eat a) (gibox c XLO + x) (gibox c YLO + y) (gibox c ZLO + z)).
    { unfold on_face. split; [destruct a; reflexivity|]. assert (AX : fld_axis (Eat a) = a) by (destruct a; reflexivity). rewrite AX. split; [congruence|].
      unfold meshAll in CW. pose proof (box_hi c W box_gg (face_axis F)) as BH. rewrite <- box_gg. rewrite <- !box_gg in BH. destruct F; cbn [SpecGeom.coord face_lo face_hi face_axis is_lo] in *; lia. }
    pose proof (wall_painted c (wireOf h) (boundOf h) (sceneOf h) F (Eat a) _ _ _ W (or_introl PEC) OF MO) as LP. rewrite B1, B2, B3 in LP.
    exact (paint_made h _ _ _ _ _ _ LP).
  - intros r IR YB. apply in_flat_map in IR. destruct IR as (s & IS & IR). unfold loadRegion in IR. destruct (isLumped (t_type (s_tag s))) eqn:LU; [|destruct IR]. destruct IR as [<-|[]]. cbn [g_box g_incl] in YB.
    destruct (read_srcs _ _ _ _ _ _ RD CF s IS) as (IM & BT). destruct (line_box _ (BT LU)) as (q & DD & ND). set (b := face_axis F) in *.
    assert (EA : staggered (Eat a) a = true /\ staggered (Eat a) b = false) by (destruct a, b; auto; congruence). destruct EA as (E1 & E2).
    pose proof (YB a) as Ya. pose proof (YB b) as Yb. cbv zeta in Ya, Yb. destruct Ya as (Ya & _). destruct Yb as (Yb & _). unfold ypos in Ya, Yb. rewrite E1 in Ya. rewrite E2 in Yb.
    assert (QA : q = a). { destruct (axis_eqb q a) eqn:Q; [destruct q, a; try discriminate Q; reflexivity|]. assert (a <> q) as N by (intros <-; destruct a; discriminate Q). specialize (DD _ N). lia. }
    subst q. pose proof (DD _ BA) as EQ. apply (LO s F IS LU PEC EQ). fold b. lia.
Qed.
Section Run.
Variables (rcm : nat -> I4 -> I4 -> Filter.RecConv) (ep ts : R) (d : Drv) (s : WState).
Hypothesis SU : set_up c h e dt (w_m s).
Hypothesis QU : quiet (w_m s).
Let M := fun n => w_m (wrun c (progOf c h rcm ep ts (fun a n => adat (eDe (e a)) n) (fun a n => adat (eDh (e a)) n)) d 0 n s).
Lemma box_rel n F : rel rArith c false F (M n).
Proof.
  destruct BP as [_ CF _ PM NS SS _ _ _ _ _ _]. destruct n as [|n]; [apply quiet_rel; exact QU|]. unfold M. rewrite (hist_next h c PM NS SS e rcm ep ts d s n). apply next_rel. exact (file_wf _ _ CF).
Qed.
Lemma box_rot n a x y z : in_mesh c (Eat a) x y z -> ~ made_of (Eat a) x y z (regions c h lines) Metal -> rotH c lines (beyond c (fieldH c (M n))) a x y z = rotH c lines (fieldH c (M n)) a x y z.
Proof.
  intros Y NM. pose proof (file_wf _ _ (bp_cfg _ _ _ _ _ BP)) as W.
  assert (WA : forall F, face_axis F <> a -> SpecGeom.coord x y z (face_axis F) = meshAll c F -> outerSurfaceType c F = BT_PMC \/ outerSurfaceType c F = BT_PERIODIC).
  { intros F FA FC. destruct (bp_walls _ _ _ _ _ BP F) as [P|P]; [exfalso; exact (NM (pec_wall_metal F a x y z P Y FA FC))|exact P]. }
  pose proof (Y XDIR) as Y1. pose proof (Y YDIR) as Y2. pose proof (Y ZDIR) as Y3. cbv zeta in Y1, Y2, Y3. destruct Y1 as (Y1 & _), Y2 as (Y2 & _), Y3 as (Y3 & _). unfold meshAll, ypos in Y1, Y2, Y3.
  pose proof (WA XLO) as W1. pose proof (WA XHI) as W2. pose proof (WA YLO) as W3. pose proof (WA YHI) as W4. pose proof (WA ZLO) as W5. pose proof (WA ZHI) as W6. unfold meshAll in W1, W2, W3, W4, W5, W6.
  unfold rotH, shift. clear NM WA Y.
  destruct a; cbn [upA Eat staggered is_E fld_axis axis_eqb negb SpecGeom.coord face_lo face_hi is_lo face_axis] in *.
  - rewrite !(beyond_val c W box_gg (M n) (box_rel n) ZDIR YDIR), !(beyond_val c W box_gg (M n) (box_rel n) YDIR ZDIR); try reflexivity; try discriminate; cbn [SpecGeom.coord face_lo face_hi]; try lia;
    try (intros [] Nb; cbn [SpecGeom.coord axis_eqb]; try lia; exfalso; apply Nb; reflexivity); intros Q; first [apply W3|apply W4|apply W5|apply W6]; try discriminate; lia.
  - rewrite !(beyond_val c W box_gg (M n) (box_rel n) XDIR ZDIR), !(beyond_val c W box_gg (M n) (box_rel n) ZDIR XDIR); try reflexivity; try discriminate; cbn [SpecGeom.coord face_lo face_hi]; try lia;
    try (intros [] Nb; cbn [SpecGeom.coord axis_eqb]; try lia; exfalso; apply Nb; reflexivity); intros Q; first [apply W1|apply W2|apply W5|apply W6]; try discriminate; lia.
  - rewrite !(beyond_val c W box_gg (M n) (box_rel n) YDIR XDIR), !(beyond_val c W box_gg (M n) (box_rel n) XDIR YDIR); try reflexivity; try discriminate; cbn [SpecGeom.coord face_lo face_hi]; try lia;
    try (intros [] Nb; cbn [SpecGeom.coord axis_eqb]; try lia; exfalso; apply Nb; reflexivity); intros Q; first [apply W1|apply W2|apply W3|apply W4]; try discriminate; lia.
Qed.
Lemma box_solution : maxwell_box c h lines dt (d_wE d) (d_wH d) (fun n => fieldE c (M n)) (fun n => fieldH c (M n)).
Proof.
  pose proof BP as [(df & file & st & cards & RD) CF BW PM NS SS OC SO LO HM IN (cn & garbage & CN & PC & HE)]. pose proof (walls_wide c BW) as WD.
  pose proof (C75_solution df file st h cards c RD CF WD PM NS SS OC SO lines cn garbage e dt HM IN CN PC HE rcm ep ts d s SU QU) as [MR MM MA MF]. split.
  - exact MR.
  - intros n a x y z Y. apply MM. apply box_off_mur. exact Y.
  - intros n a x y z eps sigma mu J F Y MO D.
    destruct (hist_E df file st h cards c RD CF WD PM NS SS OC SO lines cn garbage e dt HM IN CN PC HE rcm ep ts d s SU n a x y z J F (box_off_mur _ _ _ _ Y) D) as (mat & co & A & B & G).
    rewrite (made_fun _ _ _ _ _ _ _ A MO) in B. destruct B as (_ & B & _). unfold M at 2. cbv beta in G |- *. rewrite G. fold (M n).
    rewrite box_rot; [apply B|exact Y|]. intros MT. pose proof (made_fun _ _ _ _ _ _ _ MT MO). discriminate.
  - exact MF.
Qed.
End Run.

(** *** Uniqueness *)
Lemma across_cases q v : -1 <= v <= numLines c q - 1 -> outerSurfaceType c (face_lo q) <> BT_PEC \/ v <> -1 -> outerSurfaceType c (face_hi q) <> BT_PEC \/ v <> numLines c q - 1 -> 0 <= fst (across c q v) <= numLines c q - 2.
Proof.
  intros HV LO HI. pose proof (wf_lines c (file_wf _ _ (bp_cfg _ _ _ _ _ BP)) q) as WL. unfold across. destruct (Z.ltb_spec v 0).
  - destruct (bp_walls _ _ _ _ _ BP (face_lo q)) as [T | [T | T]]; rewrite T in *; cbn [fst]; [|lia|lia]. exfalso. destruct LO as [X|X]; [apply X; reflexivity|lia].
  - destruct (Z.ltb_spec (numLines c q - 2) v); [|cbn [fst]; lia]. destruct (bp_walls _ _ _ _ _ BP (face_hi q)) as [T | [T | T]]; rewrite T in *; cbn [fst]; [|lia|lia]. exfalso. destruct HI as [X|X]; [apply X; reflexivity|lia].
Qed.
Lemma beyond_ext (H1 H2 : Vec) g q x y z : (forall b x y z, in_mesh c (Hat b) x y z -> H1 b x y z = H2 b x y z) -> q <> g ->
  (forall b, b <> q -> 0 <= SpecGeom.coord x y z b <= if axis_eqb b g then numLines c b - 1 else numLines c b - 2) ->
  -1 <= SpecGeom.coord x y z q <= numLines c q - 1 ->
  (outerSurfaceType c (face_lo q) <> BT_PEC \/ SpecGeom.coord x y z q <> -1) -> (outerSurfaceType c (face_hi q) <> BT_PEC \/ SpecGeom.coord x y z q <> numLines c q - 1) ->
  beyond c H1 g x y z = beyond c H2 g x y z.
Proof.
  intros EQ QG OK HV LO HI. pose proof (across_cases q _ HV LO HI) as AC. unfold beyond. f_equal. apply EQ. intros b. cbv zeta. unfold meshAll, ypos.
  assert (BB : 0 <= SpecGeom.coord (fst (if axis_eqb XDIR g then (x, 1%R) else across c XDIR x)) (fst (if axis_eqb YDIR g then (y, 1%R) else across c YDIR y)) (fst (if axis_eqb ZDIR g then (z, 1%R) else across c ZDIR z)) b <= if axis_eqb b g then numLines c b - 1 else numLines c b - 2).
  { pose proof (OK XDIR) as O1. pose proof (OK YDIR) as O2. pose proof (OK ZDIR) as O3. destruct g, q, b; try (exfalso; apply QG; reflexivity); cbn [axis_eqb SpecGeom.coord fst] in *; try exact AC; try (first [apply O1|apply O2|apply O3]; discriminate);
    (rewrite across_in; [cbn [fst]|]); first [apply O1|apply O2|apply O3]; discriminate. }
  revert BB. generalize (SpecGeom.coord (fst (if axis_eqb XDIR g then (x, 1%R) else across c XDIR x)) (fst (if axis_eqb YDIR g then (y, 1%R) else across c YDIR y)) (fst (if axis_eqb ZDIR g then (z, 1%R) else across c ZDIR z)) b). intros v BB.
  split; [|split; discriminate]. destruct g, b; cbn [Hat staggered is_E fld_axis axis_eqb negb face_lo face_hi is_lo face_axis] in *; lia.
Qed.
Lemma box_rot_ext (H1 H2 : Vec) a x y z : (forall b x y z, in_mesh c (Hat b) x y z -> H1 b x y z = H2 b x y z) -> in_mesh c (Eat a) x y z -> ~ made_of (Eat a) x y z (regions c h lines) Metal ->
  rotH c lines (beyond c H1) a x y z = rotH c lines (beyond c H2) a x y z.
Proof.
  intros EQ Y NM.
  assert (WA : forall F, face_axis F <> a -> outerSurfaceType c F <> BT_PEC \/ SpecGeom.coord x y z (face_axis F) <> meshAll c F).
  { intros F FA. destruct (bp_walls _ _ _ _ _ BP F) as [P|[P|P]]; [right; intros FC; exact (NM (pec_wall_metal F a x y z P Y FA FC))|left; rewrite P; discriminate|left; rewrite P; discriminate]. }
  pose proof (Y XDIR) as Y1. pose proof (Y YDIR) as Y2. pose proof (Y ZDIR) as Y3. cbv zeta in Y1, Y2, Y3. destruct Y1 as (Y1 & _), Y2 as (Y2 & _), Y3 as (Y3 & _). unfold meshAll, ypos in Y1, Y2, Y3.
  pose proof (WA XLO) as W1. pose proof (WA XHI) as W2. pose proof (WA YLO) as W3. pose proof (WA YHI) as W4. pose proof (WA ZLO) as W5. pose proof (WA ZHI) as W6. unfold meshAll in W1, W2, W3, W4, W5, W6.
  unfold rotH, shift. clear NM WA Y.
  destruct a; cbn [upA Eat staggered is_E fld_axis axis_eqb negb SpecGeom.coord face_lo face_hi is_lo face_axis] in *;
  repeat match goal with H : ?a <> ?b -> _ |- _ => first [specialize (H ltac:(discriminate))|clear H] end.
  - rewrite !(beyond_ext H1 H2 ZDIR YDIR), !(beyond_ext H1 H2 YDIR ZDIR); try reflexivity; try discriminate; try exact EQ; cbn [SpecGeom.coord face_lo face_hi]; try lia;
    try (intros [] Nb; cbn [SpecGeom.coord axis_eqb]; try lia; exfalso; apply Nb; reflexivity);
    first [destruct W3; [left; assumption|right; lia]|destruct W4; [left; assumption|right; lia]|destruct W5; [left; assumption|right; lia]|destruct W6; [left; assumption|right; lia]].
  - rewrite !(beyond_ext H1 H2 XDIR ZDIR), !(beyond_ext H1 H2 ZDIR XDIR); try reflexivity; try discriminate; try exact EQ; cbn [SpecGeom.coord face_lo face_hi]; try lia;
    try (intros [] Nb; cbn [SpecGeom.coord axis_eqb]; try lia; exfalso; apply Nb; reflexivity);
    first [destruct W1; [left; assumption|right; lia]|destruct W2; [left; assumption|right; lia]|destruct W5; [left; assumption|right; lia]|destruct W6; [left; assumption|right; lia]].
  - rewrite !(beyond_ext H1 H2 YDIR XDIR), !(beyond_ext H1 H2 XDIR YDIR); try reflexivity; try discriminate; try exact EQ; cbn [SpecGeom.coord face_lo face_hi]; try lia;
    try (intros [] Nb; cbn [SpecGeom.coord axis_eqb]; try lia; exfalso; apply Nb; reflexivity);
    first [destruct W1; [left; assumption|right; lia]|destruct W2; [left; assumption|right; lia]|destruct W3; [left; assumption|right; lia]|destruct W4; [left; assumption|right; lia]].
Qed.
Lemma box_unique wE wH E1 H1 E2 H2 : free_metal c h lines -> maxwell_box c h lines dt wE wH E1 H1 -> maxwell_box c h lines dt wE wH E2 H2 ->
  forall n, (forall a x y z, in_mesh c (Eat a) x y z -> E1 n a x y z = E2 n a x y z) /\ (forall a x y z, in_mesh c (Hat a) x y z -> H1 n a x y z = H2 n a x y z).
Proof.
  intros FM [R1 M1 A1 F1] [R2 M2 A2 F2]. pose proof BP as [(df & file & st & cards & RD) CF BW PM NS SS OC SO LO HM IN (cn & garbage & CN & PC & HE)]. pose proof (walls_wide c BW) as WD.
  pose proof (simple_bounds df file st h cards c RD CF WD PM OC SO lines cn garbage e dt HM IN CN PC HE) as SB.
  induction n as [|n (IE & IH)].
  - split; intros a x y z Y; destruct (R1 a x y z) as (P1 & P2), (R2 a x y z) as (Q1 & Q2); [rewrite P1, Q1|rewrite P2, Q2]; auto.
  - assert (SE : forall a x y z, in_mesh c (Eat a) x y z -> E1 (Datatypes.S n) a x y z = E2 (Datatypes.S n) a x y z).
    { intros a x y z Y. destruct (made_total (Eat a) x y z (regions c h lines)) as ([|eps sg mu] & MO).
      - rewrite (M1 _ a x y z Y MO), (M2 _ a x y z Y MO); [reflexivity| |]; intros q IS FS CV; exact (FM q a x y z IS FS CV MO).
      - destruct (drives_ex h c lines (wE n) (Eat a) x y z) as (J & F & D). pose proof (A1 n a x y z eps sg mu J F Y MO D) as X1. pose proof (A2 n a x y z eps sg mu J F Y MO D) as X2.
        assert (NM : ~ made_of (Eat a) x y z (regions c h lines) Metal) by (intros MT; pose proof (made_fun _ _ _ _ _ _ _ MT MO); discriminate).
        rewrite (IE a x y z Y), (box_rot_ext (H1 n) (H2 n) a x y z IH Y NM) in X1. destruct (SB _ _ _ _ _ _ _ Y MO) as (B1 & B2 & _).
        pose proof (ampere_unique df file st h cards c RD CF WD lines cn garbage e dt HM IN CN PC HE eps sg _ _ _ _ B1 B2 X1 X2). lra. }
    split; [exact SE|]. intros a x y z Y. destruct (made_total (Hat a) x y z (regions c h lines)) as (mat & MO). destruct (drives_ex h c lines (wH n) (Hat a) x y z) as (J & F & D).
    pose proof (F1 n a x y z mat J F Y MO D) as X1. pose proof (F2 n a x y z mat J F Y MO D) as X2. rewrite (IH a x y z Y), (rotE_mesh c lines (E1 (Datatypes.S n)) (E2 (Datatypes.S n)) a x y z Y SE) in X1.
    assert (PU : (0 < match mat with Metal => mu0 | Simple _ _ mu => mu * mu0 end)%R).
    { destruct eps0_mu0 as (_ & M0 & _). destruct mat as [|eps sg mu]; [exact M0|]. destruct (SB _ _ _ _ _ _ _ Y MO) as (_ & _ & B3). apply Rmult_lt_0_compat; lra. }
    pose proof (faraday_unique df file st h cards c RD CF WD lines cn garbage e dt HM IN CN PC HE _ _ _ _ _ PU X1 X2). lra.
Qed.
End Box.

(** ** C83 *)
Theorem C83_solution : forall c h lines e dt, box_problem c h lines dt e ->
  forall rcm ep ts d s, set_up c h e dt (w_m s) -> quiet (w_m s) ->
  let m n := w_m (wrun c (progOf c h rcm ep ts (fun a n => adat (eDe (e a)) n) (fun a n => adat (eDh (e a)) n)) d 0 n s) in
  maxwell_box c h lines dt (d_wE d) (d_wH d) (fun n => fieldE c (m n)) (fun n => fieldH c (m n)).
Proof. intros c h lines e dt BP rcm ep ts d s SU QU. exact (box_solution c h lines e dt BP rcm ep ts d s SU QU). Qed.
Theorem C83_unique : forall c h lines e dt, box_problem c h lines dt e -> free_metal c h lines ->
  forall rcm ep ts d s, set_up c h e dt (w_m s) -> quiet (w_m s) ->
  forall E H, maxwell_box c h lines dt (d_wE d) (d_wH d) E H ->
  forall n, let m := w_m (wrun c (progOf c h rcm ep ts (fun a n => adat (eDe (e a)) n) (fun a n => adat (eDh (e a)) n)) d 0 n s) in
  (forall a x y z, in_mesh c (Eat a) x y z -> fieldE c m a x y z = E n a x y z) /\ (forall a x y z, in_mesh c (Hat a) x y z -> fieldH c m a x y z = H n a x y z).
Proof.
  intros c h lines e dt BP FM rcm ep ts d s SU QU E H MX n.
  exact (box_unique c h lines e dt BP (d_wE d) (d_wH d) _ _ E H FM (box_solution c h lines e dt BP rcm ep ts d s SU QU) MX n).
Qed.
