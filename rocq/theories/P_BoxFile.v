(** C80: from the text of a mesh file with PEC, PMC and periodic walls to the stability of its run. *)
From Coq Require Import ZArith List Bool Ascii String Reals Lia Lra FunctionalExtensionality.
From Verif Require Import Types CArr CStr Sim Scan Lang BBox Grid SpecGrid Step Setup SetupProofs P_Setup PmlProfile Media Medium SpecMedium MediumProofs Debye Waveform Source
  PlaneWave Observer Edges SpecEdges SpecText Mesh SpecGeom SpecCards P_Cards SpecMedia P_Media SpecPhys SpecEnergy SpecStable P_Grid P_Stable Front Program SpecFront P_Front P_FrontRun
  LangProofs StepShape StepBounds MediaProofs SpecMedium Sibc SpecSource SourceProofs P_Source P_PwBounds SpecPw Whole P_Whole SpecFile Energy P_Step Stable StableStep StepValue SpecCone P_Energy
  P_FrontStable Ghost GhostValue StepClosed SpecPeriodic SpecBox BoxEnergy BoxStable P_Box.
Import ListNotations.
Open Scope Z_scope.

(** ** Loads *)
Lemma box_load_medium c dt coef g n mask m : box_coefs c dt m ->
  (forall f i j k, inl (gfolim c f) i j k -> yee_in f g (faceMask2boolArray mask) i j k -> good_coef dt (coef n) /\ (forall F, outerSurfaceType c F = BT_PEC -> in_wall c F f i j k -> is_E f = true -> cbeta (coef n) = 0%R)) ->
  box_coefs c dt (run rArith (setMediumOnGrid coef g n mask) m).
Proof.
  intros CO G f i j k Hl. destruct (setMedium_getc rArith coef g n mask m f i j k) as (A & B). unfold getc, cval in A, B.
  destruct (yee_in_dec f g (faceMask2boolArray mask) i j k) as [Y|N].
  - destruct (G f i j k Hl Y) as (G1 & G2). exists (coef n). split; [exact G1|]. split; [exact G2|]. specialize (A Y). unfold alpha, beta, gamma.
    destruct (is_E f); injection A as A1 A2; auto.
  - destruct (CO f i j k Hl) as (co & G1 & G2 & V). exists co. split; [exact G1|]. split; [exact G2|]. specialize (B N). unfold alpha, beta, gamma in *.
    destruct (is_E f); injection B as B1 B2; [rewrite B1, B2|rewrite B1]; exact V.
Qed.
Section Load.
Variables (nx ny nz : Z) (reg : BReg) (c : Cfg) (dt : R) (de dh : Axis -> Z -> R).
Hypothesis H : setupCfg nx ny nz reg = Some c.
Hypothesis PEC : box_walls c.
Hypothesis DT : (0 < dt)%R.
Hypothesis DE : forall a n, (0 <= n < numCells c a) -> (0 < de a n)%R /\ (0 < dh a n)%R.
Lemma box_load_ok s m : in_mesh_box c (s_mbbox s) -> (isLumped (t_type (s_tag s)) = true -> bboxType (s_mbbox s) = BB_LINE /\
    forall a, s_mbbox s (face_lo a) = s_mbbox s (face_hi a) -> (outerSurfaceType c (face_lo a) = BT_PEC -> 0 < s_mbbox s (face_lo a)) /\ (outerSurfaceType c (face_hi a) = BT_PEC -> s_mbbox s (face_lo a) < numLines c a - 1)) ->
  box_coefs c dt m ->
  box_coefs c dt (run rArith (let g := offsetBoundingBox (s_mbbox s) (gibox c) in let '(_, _, ld) := convert de dh g s in loadProg eps0 mu0 dt g ld) m).
Proof.
  intros IM LU CO. pose proof (setup_wf _ _ _ _ _ H) as W. set (g := offsetBoundingBox (s_mbbox s) (gibox c)). cbv zeta.
  assert (GB : forall a, g (face_lo a) = s_mbbox s (face_lo a) + gibox c (face_lo a) /\ g (face_hi a) = s_mbbox s (face_hi a) + gibox c (face_lo a)) by (intros []; split; reflexivity).
  assert (GG : forall f, gibox c f = gobox c f).
  { intros; apply (bx_gibox c W PEC); auto. }
  assert (RN : forall a, 0 <= g (face_lo a) /\ g (face_hi a) < numCells c a /\ gibox c (face_hi a) = gibox c (face_lo a) + numLines c a - 1).
  { intros a. destruct (GB a) as (-> & ->). pose proof (IM a). cfg_facts c W. destruct a; cbn [face_lo face_hi] in *; unfold NUM_GHOST_CELLS in *; lia. }
  assert (OFF : isLumped (t_type (s_tag s)) = true -> forall f i j k, yee_in f g (faceMask2boolArray FACE_MASK_ALL) i j k -> is_E f = true -> forall F, outerSurfaceType c F = BT_PEC -> ~ in_wall c F f i j k).
  { intros L f i j k Y E F TF (NF & O). destruct (LU L) as (BT & IN). destruct (line_box _ BT) as (d & DD & ND).
    pose proof NF as NA. set (a := face_axis F) in *.
    assert (CW : SpecGeom.coord i j k a = gibox c F) by (rewrite GG; destruct F; exact O). destruct (RN a) as (_ & _ & HI).
    assert (AD : a = d \/ a <> d) by (destruct a, d; first [left; reflexivity|right; discriminate]).
    destruct AD as [AD|AD].
    - specialize (Y (fld_axis f)). cbv zeta in Y. destruct Y as (Y & _). unfold ypos, staggered in Y. rewrite E in Y. assert (axis_eqb (fld_axis f) (fld_axis f) = true) as Q by (destruct f; reflexivity). rewrite Q in Y.
      destruct (GB (fld_axis f)) as (E1 & E2). rewrite AD in NA. pose proof (DD _ NA). lia.
    - specialize (Y a). cbv zeta in Y. destruct Y as (Y & _). unfold ypos, staggered in Y. rewrite E in Y. assert (axis_eqb (fld_axis f) a = false) as Q by (destruct f, a; first [reflexivity|exfalso; apply NA; reflexivity]). rewrite Q in Y.
      destruct (GB a) as (E1 & E2). pose proof (DD _ AD). destruct (IN a (DD _ AD)) as (I1 & I2).
      subst a. destruct F; cbn [face_axis face_lo face_hi] in *; specialize (I1 TF) || specialize (I2 TF); lia. }
  assert (LUMP : forall V0, isLumped (t_type (s_tag s)) = true -> box_coefs c dt (run rArith (let '(_, _, ld) :=
     (if Rlt_dec MIN_RESISTANCE (s_resist s)
      then (ST_ELEC_CURR_DENSITY, V0 / elecArea dh g (t_pol (s_tag s)) / s_resist s, Resistive (elecLength de g (t_pol (s_tag s)) / (elecArea dh g (t_pol (s_tag s)) * s_resist s)))
      else (ST_EFIELD, - (1 / 2) * V0 / elecLength de g (t_pol (s_tag s)), Short))%R in loadProg eps0 mu0 dt g ld) m)).
  { intros V0 L. destruct (Rlt_dec MIN_RESISTANCE (s_resist s)) as [RR|RR]; cbn [loadProg].
    - apply box_load_medium; [exact CO|]. intros f i j k Hl Y. split; [|intros F TF O E; exfalso; exact (OFF L f i j k Y E F TF O)].
      assert (OR : forall a, g (face_lo a) <= g (face_hi a)) by (intros a; specialize (Y a); cbv zeta in Y; lia).
      assert (LE : (0 <= elecLength de g (t_pol (s_tag s)))%R). { apply accum_ge0. intros n Hn. apply DE. destruct (RN (t_pol (s_tag s))). lia. }
      assert (SD : forall a, a <> t_pol (s_tag s) -> (0 < elecSide dh g (t_pol (s_tag s)) a)%R).
      { intros a NA. unfold elecSide. assert (axis_eqb a (t_pol (s_tag s)) = false) as -> by (destruct a, (t_pol (s_tag s)); first [reflexivity|exfalso; apply NA; reflexivity]).
        apply accum_gt0; [apply OR|]. intros n Hn. apply DE. destruct (RN a). lia. }
      assert (AR : (0 < elecArea dh g (t_pol (s_tag s)))%R). { apply Rmult_lt_0_compat; apply SD; destruct (t_pol (s_tag s)); discriminate. }
      assert (RP : (0 < s_resist s)%R) by (unfold MIN_RESISTANCE in RR; lra).
      apply simple_good; [exact DT| |reflexivity|reflexivity]. unfold paramOk. cbn [m_eps m_sigma m_mu].
      assert (0 <= elecLength de g (t_pol (s_tag s)) / (elecArea dh g (t_pol (s_tag s)) * s_resist s))%R; [|lra].
      apply Rmult_le_pos; [exact LE|]. apply Rlt_le, Rinv_0_lt_compat. apply Rmult_lt_0_compat; lra.
    - apply box_load_medium; [exact CO|]. intros f i j k Hl Y. destruct (pec_good dt DT) as (A & B). split; [exact A|]. intros _ _ _ _. exact B. }
  unfold convert. destruct (t_type (s_tag s)) eqn:T; first [exact CO|exact (LUMP _ eq_refl)].
Qed.
End Load.
Lemma box_loads_ok nx ny nz reg c dt de dh : setupCfg nx ny nz reg = Some c -> box_walls c -> (0 < dt)%R ->
  (forall a n, (0 <= n < numCells c a) -> (0 < de a n)%R /\ (0 < dh a n)%R) ->
  forall srcs, (forall s, In s srcs -> in_mesh_box c (s_mbbox s) /\ (isLumped (t_type (s_tag s)) = true -> bboxType (s_mbbox s) = BB_LINE /\
    forall a, s_mbbox s (face_lo a) = s_mbbox s (face_hi a) -> (outerSurfaceType c (face_lo a) = BT_PEC -> 0 < s_mbbox s (face_lo a)) /\ (outerSurfaceType c (face_hi a) = BT_PEC -> s_mbbox s (face_lo a) < numLines c a - 1))) -> forall m, box_coefs c dt m ->
  box_coefs c dt (run rArith (flat_map (fun s => let g := offsetBoundingBox (s_mbbox s) (gibox c) in let '(_, _, ld) := convert de dh g s in loadProg eps0 mu0 dt g ld) srcs) m).
Proof.
  intros H PEC DT DE. induction srcs as [|s srcs IH]; intros HS m CO; [exact CO|]. cbn [flat_map]. rewrite run_app. apply IH; [intros; apply HS; right; auto|].
  destruct (HS s (or_introl eq_refl)) as (A & B). exact (box_load_ok nx ny nz reg c dt de dh H PEC DT DE s m A B CO).
Qed.
Lemma box_coefs_ext c dt m m' : (forall l, coefficient l -> m' l = m l) -> box_coefs c dt m -> box_coefs c dt m'.
Proof.
  intros E CO f i j k Hl. destruct (CO f i j k Hl) as (co & G1 & G2 & V). exists co. split; [exact G1|]. split; [exact G2|]. unfold alpha, beta, gamma in *.
  rewrite !E by exact I. exact V.
Qed.


(** ** The file *)
(** no load of a lumped source lies in a PEC outer face (there it would replace
    the conductor by a resistor) *)
Definition loads_off_pec (c : Cfg) (h : MeshData) : Prop := forall s, In s (h_srcs h) -> isLumped (t_type (s_tag s)) = true ->
  forall a, s_mbbox s (face_lo a) = s_mbbox s (face_hi a) ->
  (outerSurfaceType c (face_lo a) = BT_PEC -> 0 < s_mbbox s (face_lo a)) /\ (outerSurfaceType c (face_hi a) = BT_PEC -> s_mbbox s (face_lo a) < numLines c a - 1).

(** As [C70_stable_file], for every accepted mesh file whose outer faces are PEC,
    PMC or periodic: once the sources are silent, from any state whose fields fit
    the walls, the energy in the mesh never exceeds (1+CN)/(1-CN) times its value
    then, and every field value stays bounded, for any number of steps of the
    complete time loop. *)
Theorem C80_stable_file : forall debyeFile file st h cards c, readMeshFile debyeFile file = Acc (st, h, cards) -> cfgFor h = Some c ->
  box_walls c -> plain_media h -> no_sheets h -> soft_sources h -> loads_off_pec c h ->
  forall lines cn garbage e dt, (forall a, h_mesh h a = Some (lines a)) -> increasing c lines -> courantOf (h_cn h) = Some cn -> (0 < cn)%R ->
  initCellEdges c lines garbage cn = Some (e, dt) ->
  forall rcm ep ts de dh d t s, silent d t -> set_up c h e dt (w_m s) -> fits_box c (w_m s) ->
  (cn < 1)%R /\
  (forall n, boxFieldEnergy c (w_m (wrun c (progOf c h rcm ep ts de dh) d t n s)) <= (1 + cn) / (1 - cn) * boxFieldEnergy c (w_m s))%R /\
  (forall f i j k, inl (gfolim c f) i j k -> exists B, forall n, (Rabs (fld (w_m (wrun c (progOf c h rcm ep ts de dh) d t n s)) f i j k) <= B)%R).
Proof.
  intros df file st h tr c E C CL PM NS SS LI lines cn garbage e dt HM IN CN PC HE rcm ep ts de dh d t s SI (ED & m0 & MC) CC.
  pose proof C as C'. unfold cfgFor in C'. pose proof (read_scene _ _ _ _ _ _ E C) as SO. pose proof (read_srcs _ _ _ _ _ _ E C) as RS.
  destruct (read_inv2 _ _ _ _ _ E) as [_ GM I3 _ _ _ _]. destruct (read_inv _ _ _ _ _ E) as [_ D _ _ _ _ _].
  assert (HL : has_lines c lines).
  { intros a. rewrite (I3 a _ (HM a)). destruct D as [D|D]; [rewrite !D in C'; discriminate C'|].
    unfold setupCfg in C'. rewrite D in C'. destruct (initExternalSurfaceParameters _) as [[reg' num]|]; [|discriminate]. injection C' as <-. reflexivity. }
  destruct (box_stable_coefs _ _ _ _ c C' CL lines garbage (h_cn h) cn e dt HL IN CN PC HE) as (DT & ST).
  pose proof (fun n => silent_run c h rcm ep ts de dh d t PM NS SS SI n t s (Nat.le_refl t)) as SR.
  assert (CO : box_coefs c dt (w_m s)).
  { apply (box_coefs_ext _ _ _ _ MC). unfold coefProg. rewrite run_app. apply (box_loads_ok _ _ _ _ c dt _ _ C' CL DT).
    - exact (edges_pos _ _ _ _ c lines garbage cn e dt C' HL IN HE).
    - intros x IX. destruct (RS x IX) as (A & B). split; [exact A|]. intros L. split; [exact (B L)|]. exact (LI x IX L).
    - apply (box_media_coefs _ _ _ _ c C' CL (h_media h) (sceneOf h) SO (wireOf h) (boundOf h) dt m0 _ (fun l _ => eq_refl) GM DT). exact PM. }
  destruct (ST (w_m s) CO ED CC) as (A & B & F). split; [exact A|]. split.
  - intros n. rewrite SR. apply B.
  - intros f i j k Hl. destruct (F f i j k Hl) as (K & FK). exists K. intros n. rewrite SR. apply FK.
Qed.

(** ** The hypotheses can be met *)
(** The hypotheses of [C80_stable_file] are met by a file with PMC walls across x,
    periodic ones across y and PEC ones across z, a block of metal and a loaded
    source in a PMC wall, in a state with a non-zero field. *)
Definition demo80 : list Z := chars "VM 0.7.0
DM 2 2 2
GS
BT XLO PMC
BT XHI PMC
BT YLO PERIODIC
BT YHI PERIODIC
BT ZLO PEC
BT ZHI PEC
MT metal PEC
MB 0 1 0 2 0 1 metal
WF w GAUSSIAN_PULSE
EX 2 2 1 1 1 2 src VRZ w 50
GE
NT 100
XL
0 1 4 YL
0 1 2 ZL
0 1 4 EN
"%string.
Definition run80 := readMeshFile (fun _ => None) demo80.
Definition h80 : MeshData := match run80 with Acc (_, h, _) => h | _ => mesh0 end.
Definition lines80 (a : Axis) : carr R := match h_mesh h80 a with Some v => v | None => mkArr 0 (fun _ => 0%R) end.
Lemma media80 c e0 u0 dt de dh : cfgFor h80 = Some c ->
  forall X f l, X = AAlpha \/ X = ABeta \/ X = AGamma -> in_face YDIR f -> sample c YDIR f l ->
  let r := run rArith (coefProg c h80 e0 u0 dt de dh) (fun _ => 0%R) in
  r (on YDIR (X f) (gobox c YLO) l) = r (on YDIR (X f) (gobox c YHI) l).
Proof.
  intros H X f l HX' IF SA r. unfold r, coefProg, loadsOf. clear r.
  remember (h_srcs h80) as L eqn:LE. vm_compute in LE. subst L. cbn [flat_map]. unfold convert. cbn [s_tag t_type].
  vm_compute in H. injection H as <-.
  unfold sample, inp, inl in SA. unfold on, wa in *. cbn [setc li lj lk] in *.
  assert (SS : (1 <= li l <= 3 /\ 1 <= lk l <= 3)%Z).
  { destruct f; cbn [in_face is_E fld_axis] in IF; try congruence; try discriminate IF;
    match type of SA with (?a <= _ <= ?b)%Z /\ _ /\ (?c <= _ <= ?d)%Z =>
      let a' := eval vm_compute in a in let b' := eval vm_compute in b in let c' := eval vm_compute in c in let d' := eval vm_compute in d in
      change a with a' in SA; change b with b' in SA; change c with c' in SA; change d with d' in SA end; lia. }
  destruct SS as (SX & SZ); clear SA. destruct l as [x i j k]; cbn [li lj lk arr] in *.
  assert (HI : (i = 1 \/ i = 2 \/ i = 3)%Z) by lia; assert (HK : (k = 1 \/ k = 2 \/ k = 3)%Z) by lia; clear SX SZ.
  match goal with |- context [Rlt_dec ?a ?b] => destruct (Rlt_dec a b) end;
  destruct f; cbn [in_face is_E fld_axis] in IF; try congruence; try discriminate IF;
  destruct HI as [->|[->| ->]]; destruct HK as [->|[->| ->]]; destruct HX' as [->|[->| ->]]; vm_compute; reflexivity.
Qed.
Example C80_file_nonvacuous : exists st cards c, readMeshFile (fun _ => None) demo80 = Acc (st, h80, cards) /\ cfgFor h80 = Some c /\
  box_walls c /\ plain_media h80 /\ no_sheets h80 /\ soft_sources h80 /\ loads_off_pec c h80 /\
  (forall a, h_mesh h80 a = Some (lines80 a)) /\ increasing c lines80 /\
  exists cn e dt d s, courantOf (h_cn h80) = Some cn /\ (0 < cn)%R /\ initCellEdges c lines80 (fun _ => 0%R) cn = Some (e, dt) /\ silent d 0 /\
  set_up c h80 e dt (w_m s) /\ fits_box c (w_m s) /\
  (forall f i j k, is_E f = true -> beta (w_m s) f i j k <> 0%R -> fld (w_m s) f i j k = 1%R) /\ inl (gfolim c EZ) 3 3 2 /\
  exists x, In x (h_srcs h80) /\ isLumped (t_type (s_tag x)) = true.
Proof.
  assert (C : exists c, cfgFor h80 = Some c). { destruct (cfgFor h80) as [c|] eqn:E; [exists c; reflexivity|vm_compute in E; discriminate E]. }
  destruct C as (c & C).
  assert (T : forall f, outerSurfaceType c f = match f with XLO | XHI => BT_PMC | YLO | YHI => BT_PERIODIC | _ => BT_PEC end).
  { pose proof C as C'. vm_compute in C'. injection C' as <-. intros []; reflexivity. }
  assert (G : (gibox c YLO = 1 /\ gibox c YHI = 3 /\ gobox c YLO = 1 /\ gobox c YHI = 3 /\ numCells c YDIR = 4 /\ (forall a, numLines c a = 3) /\ inl (gfolim c EZ) 3 3 2)%Z).
  { pose proof C as C'. vm_compute in C'. injection C' as <-. repeat split; try reflexivity; try (vm_compute; intuition congruence). intros []; reflexivity. }
  destruct G as (G1 & G2 & G3 & G4 & G5 & G6 & G7).
  do 2 eexists. exists c. split; [vm_compute; reflexivity|]. split; [exact C|].
  split; [intros F; rewrite T; destruct F; auto|].
  split. { intros [|[|[|[|n]]]] it N; vm_compute in N; try (injection N as <-; cbn; discriminate). destruct n; discriminate N. }
  split. { intros s I. vm_compute in I. destruct I. }
  split. { split; [vm_compute; reflexivity|]. intros s I. vm_compute in I. destruct I as [<-|[]]. reflexivity. }
  split. { intros s I _ a E. vm_compute in I. destruct I as [<-|[]]. rewrite !T, G6. destruct a; vm_compute in E |- *; first [discriminate E|split; congruence]. }
  split. { intros []; vm_compute; reflexivity. }
  assert (IN : increasing c lines80).
  { intros a i Hi. assert (i = 0 \/ i = 1) as D. { rewrite G6 in Hi. lia. }
    unfold line. destruct D as [-> | ->]; destruct a; vm_compute; lra. }
  split; [exact IN|].
  pose proof C as C'. unfold cfgFor in C'.
  assert (HL : has_lines c lines80) by (intros a; rewrite G6; destruct a; vm_compute; reflexivity).
  destruct (C23_edge_lengths _ _ _ _ c C' lines80 (fun _ => 0%R) (initSimulation (-1)) HL) as (e & dt & EE & _).
  destruct (c80_mem c e (run rArith (coefProg c h80 eps0 mu0 dt (fun a n => adat (eDe (e a)) n) (fun a n => adat (eDh (e a)) n)) (fun _ => 0%R)) T) as (m & M1 & M2 & M3 & M4).
  { apply (c80_idh _ _ _ _ c lines80 (fun _ => 0%R) (initSimulation (-1)) e dt C' G1 G2 G3 G4 G5 (G6 YDIR) HL IN); [|exact EE]. vm_compute. lra. }
  { intros X f l. apply (media80 c eps0 mu0 dt _ _ C X f l). }
  exists (initSimulation (-1)), e, dt, (mkDrv (fun _ _ => 0%R) (fun _ _ => 0%R) (fun _ _ _ _ _ _ => 0%R) (fun _ _ _ _ _ _ => 0%R)), (mkW m (fun _ _ _ _ _ => []) (fun _ _ _ _ _ => 0%R) (fun _ _ _ _ => states0 (fun _ _ => Filter.mkRC 0 [])) (fun _ _ _ _ => mkV 0 0 0 0)).
  split; [vm_compute; reflexivity|]. split. { unfold initSimulation. destruct (Rlt_dec (-1) 0); [|lra]. pose proof (sqrt_lt_R0 3). lra. }
  split; [exact EE|]. split; [intros t s _; split; reflexivity|]. cbn [w_m]. split; [split; [exact M2|exists (fun _ => 0%R); exact M1]|]. split; [exact M3|].
  split; [exact M4|]. split; [exact G7|]. eexists. split; [vm_compute; left; reflexivity|reflexivity].
Qed.
Print Assumptions C80_stable_file.
