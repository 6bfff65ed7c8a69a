(** C85: a problem moved round along a periodic axis. *)
From Coq Require Import ZArith List Bool Ascii String Reals Lia Lra.
From Verif Require Import StepOnce SpecCone Types CArr CStr Sim Scan Lang BBox Grid SpecGrid Ghost Step Setup SetupProofs P_Setup PmlProfile Media Medium SpecMedium MediumProofs Debye Waveform Source
  PlaneWave Observer Edges EdgesProofs SpecEdges SpecText Mesh SpecGeom SpecCards P_Cards SpecMedia P_Media SpecPhys SpecEnergy SpecStable P_Grid P_Stable Front Program SpecFront P_Front P_FrontRun
  LangProofs StepShape StepBounds GhostValue BBoxProofs MediaProofs Sibc SpecSource SourceProofs P_Source Whole P_Whole SpecFile P_FrontStable Energy SpecMaxwell P_Maxwell SpecMaxwellBox P_MaxwellBox SpecTurn P_Turn SpecMirror P_Mirror SpecImage P_Image SpecRound.
Import ListNotations.
Local Open Scope list_scope.
Open Scope Z_scope.
Local Arguments Z.mul : simpl never.
Local Arguments Z.add : simpl never.
Local Arguments Z.sub : simpl never.

Section Moved.
Variables (k : Z) (c c' : Cfg) (h h' : MeshData) (lines lines' : Axis -> carr R) (e e' : Axis -> Edges) (dt dt' : R) (wE wH wE' wH' : nat -> Src -> R).
Hypothesis BP : box_problem c h lines dt e.
Hypothesis BP' : box_problem c' h' lines' dt' e'.
Hypothesis FM' : free_metal c' h' lines'.
Hypothesis MO : moved_round k c c' h h' lines lines' wE wH wE' wH'.
Let n := period c.
Lemma rd_lines : numLines c XDIR = n + 1 /\ 1 <= n /\ (forall a, numLines c' a = numLines c a) /\ (forall a, 2 <= numLines c a).
Proof.
  pose proof (mo_cells _ _ _ _ _ _ _ _ _ _ _ MO) as A. pose proof (wf_lines c (file_wf _ _ (bp_cfg _ _ _ _ _ BP))) as W. pose proof (W XDIR). unfold n, period in *. repeat split; try lia; auto.
Qed.
Lemma rd_edge_other a i : a <> XDIR -> 0 <= i <= numLines c a - 2 -> edge lines' a i = edge lines a i.
Proof. intros A Hi. unfold edge, cell. rewrite !(mo_lines _ _ _ _ _ _ _ _ _ _ _ MO) by (assumption || lia). reflexivity. Qed.
Lemma rd_edge : exists d, forall i, 0 <= i < n -> edge lines XDIR i = d /\ edge lines' XDIR i = d.
Proof. destruct (mo_equal _ _ _ _ _ _ _ _ _ _ _ MO) as (d & D). exists d. intros i Hi. exact (D i Hi). Qed.
Lemma rd_dual_other a i : a <> XDIR -> dual c' lines' a i = dual c lines a i.
Proof.
  intros A. destruct rd_lines as (_ & _ & NO & NP). unfold dual. replace (inner c' a) with (inner c a) by (unfold inner; rewrite NO; reflexivity).
  specialize (NP a). rewrite !rd_edge_other by (assumption || (unfold inner; lia)). reflexivity.
Qed.
Lemma rd_dual : exists d, forall i j, dual c lines XDIR i = d /\ dual c' lines' XDIR j = d.
Proof.
  destruct rd_edge as (d & D). destruct rd_lines as (N1 & N0 & NO & _). exists ((d + d) / 2)%R. intros i j. unfold dual, inner. rewrite NO, N1.
  split; [rewrite !(fun i H => proj1 (D i H)) by lia|rewrite !(fun i H => proj2 (D i H)) by lia]; reflexivity.
Qed.
Lemma rd_mesh f x x' y z : in_mesh c f x y z -> 0 <= x' < n -> in_mesh c' f x' y z.
Proof.
  intros I X a. specialize (I a). cbv zeta in *. destruct I as (I & _). split; [|split; discriminate]. destruct rd_lines as (N1 & N0 & NO & _).
  unfold meshAll, ypos in *. destruct a; cbn [SpecGeom.coord face_lo face_hi is_lo face_axis] in *; rewrite ?NO; [|exact I|exact I]. destruct (staggered f XDIR); lia.
Qed.
Lemma rd_same f x y z : in_mesh c' f x y z <-> in_mesh c f x y z.
Proof. destruct rd_lines as (_ & _ & NO & _). unfold in_mesh, yee_in, meshAll. split; intros I a; specialize (I a); cbv zeta in *; [rewrite !NO in I|rewrite !NO]; exact I. Qed.
Lemma rd_range f x y z : in_mesh c f x y z -> 0 <= x <= n /\ (x = n -> staggered f XDIR = false).
Proof.
  intros I. destruct rd_lines as (N1 & N0 & _). specialize (I XDIR). cbv zeta in I. destruct I as (I & _). unfold meshAll, ypos in I. cbn [SpecGeom.coord face_lo face_hi is_lo face_axis] in I. rewrite N1 in I.
  destruct (staggered f XDIR); (split; [lia|]); intros Q; (reflexivity || lia).
Qed.
(** *** The time step *)
Lemma rd_dt : dt' = dt.
Proof.
  pose proof BP as [(df & file & st & cards & RD) CF BW _ _ _ _ _ _ HM IN (cn & g & CN & PC & HE)].
  pose proof BP' as [(df' & file' & st' & cards' & RD') CF' BW' _ _ _ _ _ _ HM' IN' (cn' & g' & CN' & PC' & HE')].
  destruct (edges_axes _ _ _ _ _ _ HE) as (EA & D1). destruct (edges_axes _ _ _ _ _ _ HE') as (EA' & D2).
  rewrite (mo_cn _ _ _ _ _ _ _ _ _ _ _ MO), CN in CN'. injection CN' as <-.
  pose proof (file_lines _ _ _ _ _ _ RD CF (walls_wide c BW) _ _ _ _ _ HM IN HE) as HL. pose proof (file_lines _ _ _ _ _ _ RD' CF' (walls_wide c' BW') _ _ _ _ _ HM' IN' HE') as HL'.
  destruct rd_lines as (N1 & N0 & NO & _). destruct rd_edge as (d & D). unfold edge in D.
  assert (EQ : forall a i, 0 <= i < numLines c a - 1 -> cell lines' a i = cell lines a i).
  { intros a i Hi. destruct a; [|apply rd_edge_other; [discriminate|lia]|apply rd_edge_other; [discriminate|lia]]. rewrite N1 in Hi. destruct (D i ltac:(lia)) as (-> & ->). reflexivity. }
  assert (MN : forall a, eMin (e' a) = eMin (e a)).
  { intros a. apply (sub_min c c' lines lines' g g' a (e a) (e' a) (file_wf _ _ CF) (file_wf _ _ CF') HL HL' (EA a) (EA' a)); intros i Hi; exists i; rewrite NO in *; (split; [exact Hi|]); [|symmetry]; apply EQ; exact Hi. }
  rewrite D1, D2. unfold Edges.timeStep. rewrite !MN. reflexivity.
Qed.
(** *** Continued round the axis *)
Definition tour (j : Z) (G : Vec) : Vec := fun b x y z => G b ((x + j) mod n) y z.
Lemma rd_across v : -1 <= v <= n -> snd (across c XDIR v) = 1%R /\ forall j, (fst (across c XDIR v) + j) mod n = (v + j) mod n.
Proof.
  intros V. destruct rd_lines as (N1 & N0 & _). destruct (mo_walls _ _ _ _ _ _ _ _ _ _ _ MO) as (WL & WH & _). unfold across. cbn [face_lo face_hi]. rewrite WL, WH, N1.
  destruct (Z.ltb_spec v 0); [|destruct (Z.ltb_spec (n + 1 - 2) v)]; cbn [fst snd]; split; try reflexivity; intros j.
  - replace (v + (n + 1 - 1) + j) with (v + j + 1 * n) by lia. apply Z.mod_add. lia.
  - replace (v - (n + 1 - 1) + j) with (v + j + -1 * n) by lia. apply Z.mod_add. lia.
Qed.
Lemma rd_across_same q v : across c' q v = across c q v.
Proof. destruct rd_lines as (_ & _ & NO & _). destruct (mo_walls _ _ _ _ _ _ _ _ _ _ _ MO) as (_ & _ & W). unfold across. rewrite !W, NO. reflexivity. Qed.
Lemma rd_beyond j i G b x x' y z : -1 <= x <= n -> -1 <= x' <= n -> (x' + i) mod n = (x + j) mod n -> beyond c (tour j G) b x y z = beyond c' (tour i G) b x' y z.
Proof.
  intros X X' EQ. unfold beyond, tour. cbv zeta. rewrite !rd_across_same. destruct (rd_across x X) as (S1 & F1). destruct (rd_across x' X') as (S2 & F2).
  destruct b; cbn [axis_eqb fst snd]; rewrite ?S1, ?S2, ?F1, ?F2, EQ; reflexivity.
Qed.
Lemma mod_shift a b j : a mod n = b mod n -> (a + j) mod n = (b + j) mod n.
Proof. intros EQ. destruct rd_lines as (_ & N0 & _). rewrite <- (Z.add_mod_idemp_l a j), <- (Z.add_mod_idemp_l b j), EQ by lia. reflexivity. Qed.
Lemma rd_rot j i G a x x' y z : 0 <= x <= n -> 0 <= x' <= n -> (x' + i) mod n = (x + j) mod n ->
  rotH c lines (beyond c (tour j G)) a x y z = rotH c' lines' (beyond c' (tour i G)) a x' y z.
Proof.
  intros X X' EQ. destruct rd_dual as (d & D). assert (EQ1 : (x' + -1 + i) mod n = (x + -1 + j) mod n) by (replace (x' + -1 + i) with (x' + i + -1) by lia; replace (x + -1 + j) with (x + j + -1) by lia; apply mod_shift; exact EQ).
  unfold rotH. destruct a; cbn [upA shift SpecGeom.coord]; rewrite ?(rd_dual_other YDIR), ?(rd_dual_other ZDIR) by discriminate; rewrite ?(proj1 (D x x')), ?(proj2 (D x x'));
  rewrite ?(fun b y z => rd_beyond j i G b x x' y z ltac:(lia) ltac:(lia) EQ), ?(fun b y z => rd_beyond j i G b (x + -1) (x' + -1) y z ltac:(lia) ltac:(lia) EQ1); reflexivity.
Qed.
Lemma rd_rotE j i G a x x' y z : 0 <= x <= n -> 0 <= x' <= n -> in_mesh c (Hat a) x y z -> in_mesh c (Hat a) x' y z -> (x' + i) mod n = (x + j) mod n ->
  rotE lines (tour j G) a x y z = rotE lines' (tour i G) a x' y z.
Proof.
  intros X X' I I' EQ. destruct rd_edge as (d & D). assert (EQ1 : (x' + 1 + i) mod n = (x + 1 + j) mod n) by (replace (x' + 1 + i) with (x' + i + 1) by lia; replace (x + 1 + j) with (x + j + 1) by lia; apply mod_shift; exact EQ).
  destruct (rd_range _ _ _ _ I) as (_ & RX). destruct (rd_range _ _ _ _ I') as (_ & RX'). pose proof (I YDIR) as I2. pose proof (I ZDIR) as I3. cbv zeta in *. destruct I2 as (I2 & _), I3 as (I3 & _). unfold meshAll, ypos in *. clear I I'.
  unfold rotE, tour. destruct a; cbn [upA shift SpecGeom.coord Hat staggered is_E fld_axis axis_eqb negb face_lo face_hi is_lo face_axis] in *.
  - rewrite !rd_edge_other by (discriminate || lia). rewrite EQ. reflexivity.
  - rewrite !(rd_edge_other ZDIR) by (discriminate || lia). assert (x <> n) by (intros Q; discriminate (RX Q)). assert (x' <> n) by (intros Q; discriminate (RX' Q)). rewrite (proj1 (D x ltac:(lia))), (proj2 (D x' ltac:(lia))), EQ, EQ1. reflexivity.
  - rewrite !(rd_edge_other YDIR) by (discriminate || lia). assert (x <> n) by (intros Q; discriminate (RX Q)). assert (x' <> n) by (intros Q; discriminate (RX' Q)). rewrite (proj1 (D x ltac:(lia))), (proj2 (D x' ltac:(lia))), EQ, EQ1. reflexivity.
Qed.
(** *** The moved problem is periodic *)
Lemma rd_round x' : round k c ((x' - k) mod n) x'.
Proof. destruct rd_lines as (_ & N0 & _). unfold round. fold n. rewrite (Z.mod_eq (x' - k) n) by lia. replace (x' - (x' - k - n * ((x' - k) / n)) - k) with ((x' - k) / n * n) by lia. apply Z.mod_mul. lia. Qed.
Lemma rd_round2 x1 x2 : x1 mod n = x2 mod n -> round k c ((x1 - k) mod n) x2.
Proof.
  intros EQ. replace ((x1 - k) mod n) with ((x2 - k) mod n); [apply rd_round|]. replace (x1 - k) with (x1 + - k) by lia. replace (x2 - k) with (x2 + - k) by lia. symmetry. apply mod_shift. exact EQ.
Qed.
Lemma rd_in f x' y z : in_mesh c' f x' y z -> in_mesh c f ((x' - k) mod n) y z.
Proof. intros I. destruct rd_lines as (_ & N0 & _). apply rd_same. apply rd_same in I. apply (rd_mesh f x'); [exact I|]. apply Z.mod_pos_bound. lia. Qed.
Lemma rd_media f x1 x2 y z m : in_mesh c' f x1 y z -> in_mesh c' f x2 y z -> x1 mod n = x2 mod n -> made_of f x1 y z (regions c' h' lines') m -> made_of f x2 y z (regions c' h' lines') m.
Proof.
  intros I1 I2 EQ M. pose proof (rd_in _ _ _ _ I1) as I. destruct (made_total f ((x1 - k) mod n) y z (regions c h lines)) as (m0 & M0).
  pose proof (mo_media _ _ _ _ _ _ _ _ _ _ _ MO f _ x1 y z m0 I I1 (rd_round x1) M0) as A. rewrite (made_fun _ _ _ _ _ _ _ M A).
  exact (mo_media _ _ _ _ _ _ _ _ _ _ _ MO f _ x2 y z m0 I I2 (rd_round2 _ _ EQ) M0).
Qed.
Lemma rd_drive t f x1 x2 y z J F : in_mesh c' f x1 y z -> in_mesh c' f x2 y z -> x1 mod n = x2 mod n -> let w' := if is_E f then wE' t else wH' t in
  drives c' h' lines' w' f x1 y z J F -> drives c' h' lines' w' f x2 y z J F.
Proof.
  intros I1 I2 EQ w' D. unfold w' in *. pose proof (rd_in _ _ _ _ I1) as I. destruct (drives_ex h c lines (if is_E f then wE t else wH t) f ((x1 - k) mod n) y z) as (J' & F' & D').
  destruct (mo_drives _ _ _ _ _ _ _ _ _ _ _ MO t f _ x1 y z J' F' I I1 (rd_round x1)) as (A1 & A2). destruct (mo_drives _ _ _ _ _ _ _ _ _ _ _ MO t f _ x2 y z J' F' I I2 (rd_round2 _ _ EQ)) as (B1 & B2).
  destruct (is_E f); [specialize (A1 eq_refl D'); specialize (B1 eq_refl D')|specialize (A2 eq_refl D'); specialize (B2 eq_refl D'); rename A2 into A1a, B2 into B1a; rename A1a into A3, B1a into B3].
  - destruct (drives_fun _ _ _ _ _ _ _ _ _ _ _ _ D A1) as (-> & ->). exact B1.
  - destruct (drives_fun _ _ _ _ _ _ _ _ _ _ _ _ D A3) as (-> & ->). exact B3.
Qed.
Variables (E' H' : nat -> Vec).
Hypothesis MX : maxwell_box c' h' lines' dt' wE' wH' E' H'.
Lemma tour0 G b x y z : tour 0 G b x y z = G b (x mod n) y z.
Proof. unfold tour. rewrite Z.add_0_r. reflexivity. Qed.
Lemma rd_wrap t : (forall a x y z, in_mesh c' (Eat a) x y z -> E' t a x y z = tour 0 (E' t) a x y z) /\ (forall a x y z, in_mesh c' (Hat a) x y z -> H' t a x y z = tour 0 (H' t) a x y z).
Proof.
  destruct rd_lines as (N1 & N0 & NO & NP). pose proof BP' as [(df & file & st & cards & RD) CF BW PM NS SS OC SO LO HM IN (cn & garbage & CN & PC & HE)]. pose proof (walls_wide c' BW) as WD.
  pose proof (simple_bounds df file st h' cards c' RD CF WD PM OC SO lines' cn garbage e' dt' HM IN CN PC HE) as SB.
  assert (MD : forall f x y z, in_mesh c' f x y z -> in_mesh c' f (x mod n) y z) by (intros f x y z I; apply (rd_mesh f x); [apply rd_same; exact I|apply Z.mod_pos_bound; lia]).
  assert (MM : forall x, x mod n = (x mod n) mod n) by (intros x; rewrite Z.mod_mod by lia; reflexivity).
  assert (RG : forall x, 0 <= x mod n <= n) by (intros x; pose proof (Z.mod_pos_bound x n); lia).
  pose proof MX as [MR ML MA MF]. induction t as [|t (IE & IH)].
  - split; intros a x y z I; rewrite tour0; pose proof (MD _ _ _ _ I) as I0; [rewrite (proj1 (MR a x y z) I), (proj1 (MR a _ y z) I0)|rewrite (proj2 (MR a x y z) I), (proj2 (MR a _ y z) I0)]; reflexivity.
  - assert (SE : forall a x y z, in_mesh c' (Eat a) x y z -> E' (S t) a x y z = tour 0 (E' (S t)) a x y z).
    { intros a x y z I. rewrite tour0. pose proof (MD _ _ _ _ I) as I0. destruct (made_total (Eat a) x y z (regions c' h' lines')) as (m & M). pose proof (rd_media _ _ _ _ _ _ I I0 (MM x) M) as M0. destruct m as [|eps sg mu].
      - rewrite (ML _ a x y z I M), (ML _ a _ y z I0 M0); [reflexivity| |]; intros q IS FS CV; [exact (FM' q a _ y z IS FS CV M0)|exact (FM' q a x y z IS FS CV M)].
      - destruct (drives_ex h' c' lines' (wE' t) (Eat a) x y z) as (J & F & D). assert (D0 : drives c' h' lines' (wE' t) (Eat a) (x mod n) y z J F).
        { pose proof (rd_drive t (Eat a) x (x mod n) y z J F I I0 (MM x)) as Q. cbv zeta in Q. replace (is_E (Eat a)) with true in Q by (destruct a; reflexivity). exact (Q D). }
        pose proof (MA t a x y z eps sg mu J F I M D) as X1. pose proof (MA t a _ y z eps sg mu J F I0 M0 D0) as X2.
        assert (NM : ~ made_of (Eat a) x y z (regions c' h' lines') Metal) by (intros MT; pose proof (made_fun _ _ _ _ _ _ _ MT M); discriminate).
        assert (NM0 : ~ made_of (Eat a) (x mod n) y z (regions c' h' lines') Metal) by (intros MT; pose proof (made_fun _ _ _ _ _ _ _ MT M0); discriminate).
        rewrite (box_rot_ext c' h' lines' e' dt' BP' (H' t) (tour 0 (H' t)) a x y z IH I NM) in X1. rewrite (box_rot_ext c' h' lines' e' dt' BP' (H' t) (tour 0 (H' t)) a _ y z IH I0 NM0) in X2.
        destruct (rd_range _ _ _ _ (proj1 (rd_same _ _ _ _) I)) as (RX & _).
        rewrite <- (rd_rot 0 0 (H' t) a x x y z RX RX eq_refl) in X1. rewrite <- (rd_rot 0 0 (H' t) a x (x mod n) y z RX (RG x)) in X2 by (rewrite !Z.add_0_r; symmetry; apply MM).
        rewrite (IE a x y z I), tour0 in X1. destruct (SB _ _ _ _ _ _ _ I M) as (B1 & B2 & _).
        pose proof (ampere_unique df file st h' cards c' RD CF WD lines' cn garbage e' dt' HM IN CN PC HE eps sg _ _ _ _ B1 B2 X1 X2). lra. }
    split; [exact SE|]. intros a x y z I. rewrite tour0. pose proof (MD _ _ _ _ I) as I0. destruct (made_total (Hat a) x y z (regions c' h' lines')) as (m & M). pose proof (rd_media _ _ _ _ _ _ I I0 (MM x) M) as M0.
    destruct (drives_ex h' c' lines' (wH' t) (Hat a) x y z) as (J & F & D). assert (D0 : drives c' h' lines' (wH' t) (Hat a) (x mod n) y z J F).
    { pose proof (rd_drive t (Hat a) x (x mod n) y z J F I I0 (MM x)) as Q. cbv zeta in Q. replace (is_E (Hat a)) with false in Q by (destruct a; reflexivity). exact (Q D). }
    pose proof (MF t a x y z m J F I M D) as X1. pose proof (MF t a _ y z m J F I0 M0 D0) as X2.
    rewrite (rotE_mesh c' lines' (E' (S t)) (tour 0 (E' (S t))) a x y z I SE) in X1. rewrite (rotE_mesh c' lines' (E' (S t)) (tour 0 (E' (S t))) a _ y z I0 SE) in X2.
    pose proof (proj1 (rd_same _ _ _ _) I) as Ic. pose proof (proj1 (rd_same _ _ _ _) I0) as Ic0. destruct (rd_range _ _ _ _ Ic) as (RX & _).
    rewrite <- (rd_rotE 0 0 (E' (S t)) a x x y z RX RX Ic Ic eq_refl) in X1. rewrite <- (rd_rotE 0 0 (E' (S t)) a x (x mod n) y z RX (RG x) Ic Ic0) in X2 by (rewrite !Z.add_0_r; symmetry; apply MM).
    rewrite (IH a x y z I), tour0 in X1.
    assert (PU : (0 < match m with Metal => mu0 | Simple _ _ mu => mu * mu0 end)%R).
    { destruct eps0_mu0 as (_ & P0 & _). destruct m as [|eps sg mu]; [exact P0|]. destruct (SB _ _ _ _ _ _ _ I M) as (_ & _ & B3). apply Rmult_lt_0_compat; lra. }
    pose proof (faraday_unique df file st h' cards c' RD CF WD lines' cn garbage e' dt' HM IN CN PC HE _ _ _ _ _ PU X1 X2). lra.
Qed.
(** *** Moved back it solves the first problem *)
Lemma rd_fwd x : 0 <= (x + k) mod n < n /\ round k c x ((x + k) mod n).
Proof.
  destruct rd_lines as (_ & N0 & _). split; [apply Z.mod_pos_bound; lia|]. unfold round. fold n. rewrite (Z.mod_eq (x + k) n) by lia. replace (x + k - n * ((x + k) / n) - x - k) with (- ((x + k) / n) * n) by lia. apply Z.mod_mul. lia.
Qed.
Lemma rd_maxwell : maxwell_box c h lines dt' wE wH (fun t => tour k (E' t)) (fun t => tour k (H' t)).
Proof.
  destruct rd_lines as (N1 & N0 & NO & NP). pose proof MX as [MR ML MA MF].
  assert (EQ : forall x, ((x + k) mod n + 0) mod n = (x + k) mod n) by (intros x; rewrite Z.add_0_r, Z.mod_mod by lia; reflexivity).
  assert (FW : forall f x y z, in_mesh c f x y z -> in_mesh c' f ((x + k) mod n) y z) by (intros f x y z I; apply (rd_mesh f x); [exact I|apply rd_fwd]).
  split.
  - intros a x y z. unfold tour. split; intros I; [apply (proj1 (MR a _ y z))|apply (proj2 (MR a _ y z))]; apply FW; exact I.
  - intros t a x y z I M _. unfold tour. pose proof (mo_media _ _ _ _ _ _ _ _ _ _ _ MO _ x _ y z _ I (FW _ _ _ _ I) (proj2 (rd_fwd x)) M) as M'.
    apply ML; [apply FW; exact I|exact M'|]. intros s IS FS CV. exact (FM' s a _ y z IS FS CV M').
  - intros t a x y z eps sg mu J F I M D. pose proof (FW _ _ _ _ I) as I'. pose proof (mo_media _ _ _ _ _ _ _ _ _ _ _ MO _ x _ y z _ I I' (proj2 (rd_fwd x)) M) as M'.
    destruct (mo_drives _ _ _ _ _ _ _ _ _ _ _ MO t (Eat a) x _ y z J F I I' (proj2 (rd_fwd x))) as (DD & _). specialize (DD ltac:(destruct a; reflexivity) D).
    pose proof (MA t a _ y z eps sg mu J F I' M' DD) as X.
    assert (NM : ~ made_of (Eat a) ((x + k) mod n) y z (regions c' h' lines') Metal) by (intros MT; pose proof (made_fun _ _ _ _ _ _ _ MT M'); discriminate).
    rewrite (box_rot_ext c' h' lines' e' dt' BP' (H' t) (tour 0 (H' t)) a _ y z (proj2 (rd_wrap t)) I' NM) in X.
    destruct (rd_range _ _ _ _ I) as (RX & _). destruct (rd_fwd x) as (RX' & _). rewrite <- (rd_rot k 0 (H' t) a x ((x + k) mod n) y z RX ltac:(lia) (EQ x)) in X. exact X.
  - intros t a x y z mat J F I M D. pose proof (FW _ _ _ _ I) as I'. pose proof (mo_media _ _ _ _ _ _ _ _ _ _ _ MO _ x _ y z _ I I' (proj2 (rd_fwd x)) M) as M'.
    destruct (mo_drives _ _ _ _ _ _ _ _ _ _ _ MO t (Hat a) x _ y z J F I I' (proj2 (rd_fwd x))) as (_ & DD). specialize (DD ltac:(destruct a; reflexivity) D).
    pose proof (MF t a _ y z mat J F I' M' DD) as X. rewrite (rotE_mesh c' lines' (E' (S t)) (tour 0 (E' (S t))) a _ y z I' (proj1 (rd_wrap (S t)))) in X.
    destruct (rd_range _ _ _ _ I) as (RX & _). destruct (rd_fwd x) as (RX' & _). rewrite <- (rd_rotE k 0 (E' (S t)) a x ((x + k) mod n) y z RX ltac:(lia) I (proj1 (rd_same _ _ _ _) I') (EQ x)) in X. exact X.
Qed.
Lemma rd_class x x' : 0 <= x' <= n -> round k c x x' -> x' mod n = (x + k) mod n.
Proof.
  intros _ RN. destruct rd_lines as (_ & N0 & _). unfold round in RN. fold n in RN. replace x' with ((x + k) + (x' - x - k)) by lia. rewrite <- Z.add_mod_idemp_r, RN, Z.add_0_r by lia. reflexivity.
Qed.
End Moved.

(** ** C85 *)
Theorem C85_round : forall k c c' h h' lines lines' e e' dt dt', box_problem c h lines dt e -> box_problem c' h' lines' dt' e' -> free_metal c h lines -> free_metal c' h' lines' ->
  forall rcm rcm' ep ep' ts ts' d d' s s', set_up c h e dt (w_m s) -> quiet (w_m s) -> set_up c' h' e' dt' (w_m s') -> quiet (w_m s') ->
  moved_round k c c' h h' lines lines' (d_wE d) (d_wH d) (d_wE d') (d_wH d') ->
  dt' = dt /\
  forall t,
  let m := w_m (wrun c (progOf c h rcm ep ts (fun a n => adat (eDe (e a)) n) (fun a n => adat (eDh (e a)) n)) d 0 t s) in
  let m' := w_m (wrun c' (progOf c' h' rcm' ep' ts' (fun a n => adat (eDe (e' a)) n) (fun a n => adat (eDh (e' a)) n)) d' 0 t s') in
  forall a x x' y z, round k c x x' ->
  (in_mesh c (Eat a) x y z -> in_mesh c' (Eat a) x' y z -> fieldE c' m' a x' y z = fieldE c m a x y z) /\
  (in_mesh c (Hat a) x y z -> in_mesh c' (Hat a) x' y z -> fieldH c' m' a x' y z = fieldH c m a x y z).
Proof.
  intros k c c' h h' lines lines' e e' dt dt' BP BP' FM FM' rcm rcm' ep ep' ts ts' d d' s s' SU QU SU' QU' MO.
  pose proof (rd_dt k c c' h h' lines lines' e e' dt dt' _ _ _ _ BP BP' MO) as EQ. split; [exact EQ|]. subst dt'. intros t m m' a x x' y z RN.
  pose proof (C83_solution c' h' lines' e' dt BP' rcm' ep' ts' d' s' SU' QU') as MX. cbv zeta in MX.
  pose proof (rd_maxwell k c c' h h' lines lines' e e' dt dt _ _ _ _ BP BP' FM' MO _ _ MX) as MH.
  destruct (C83_unique c h lines e dt BP FM rcm ep ts d s SU QU _ _ MH t) as (U1 & U2). cbv zeta in U1, U2. fold m in U1, U2.
  destruct (rd_wrap k c c' h h' lines lines' e e' dt dt _ _ _ _ BP BP' FM' MO _ _ MX t) as (S1 & S2). fold m' in S1, S2.
  split; intros I I'.
  - rewrite (U1 a x y z I), (S1 a x' y z I'). unfold tour. rewrite Z.add_0_r. rewrite (rd_class k c c' h h' lines lines' e dt _ _ _ _ BP MO x x'); [reflexivity| |exact RN].
    apply (rd_range k c c' h h' lines lines' e dt _ _ _ _ BP MO (Eat a) x' y z). apply (rd_same k c c' h h' lines lines' e dt _ _ _ _ BP MO). exact I'.
  - rewrite (U2 a x y z I), (S2 a x' y z I'). unfold tour. rewrite Z.add_0_r. rewrite (rd_class k c c' h h' lines lines' e dt _ _ _ _ BP MO x x'); [reflexivity| |exact RN].
    apply (rd_range k c c' h h' lines lines' e dt _ _ _ _ BP MO (Hat a) x' y z). apply (rd_same k c c' h h' lines lines' e dt _ _ _ _ BP MO). exact I'.
Qed.
