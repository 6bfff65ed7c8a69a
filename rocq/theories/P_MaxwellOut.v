(** C75, output: what the observers of a mesh file record is the solution of the
    discretised Maxwell equations the file describes. *)
From Coq Require Import ZArith List Bool Ascii String Reals Lia Lra.
From Verif Require Import Types CArr CStr Sim Scan Lang BBox Grid SpecGrid Step Setup SetupProofs PmlProfile Media Medium Debye Waveform Source
  PlaneWave Observer SpecObs P_Observer Edges SpecEdges Mesh SpecGeom SpecMedia P_Media SpecPhys SpecStable Front Program P_Front P_FrontRun
  LangProofs StepShape BBoxProofs MediaProofs P_PwBounds Whole P_Whole SpecFile P_FrontStable SpecMaxwell P_Maxwell P_Grid Filter Sibc.
Import ListNotations.
Local Open Scope list_scope.
Open Scope Z_scope.

Lemma wfnum_app w0 r name n : waveformNumber w0 name = Some n -> waveformNumber (w0 ++ r) name = Some n.
Proof.
  revert n. induction w0 as [|w w0 IH]; intros n; cbn [waveformNumber app]; [discriminate|]. destruct (String.eqb _ _); [auto|].
  destruct (waveformNumber w0 name) as [q|]; [|discriminate]. rewrite (IH q eq_refl). auto.
Qed.
Lemma parseOP_mono mbox w0 r l b name ty wf steps x : parseOP mbox w0 l b name ty wf steps = Some x -> parseOP mbox (w0 ++ r) l b name ty wf steps = Some x.
Proof.
  unfold parseOP. destruct (isObserver l name); [discriminate|]. destruct (negb _); [discriminate|]. destruct (negb _); [discriminate|]. destruct (observerType ty) as [[[] d]|]; auto.
  destruct (bboxType b); auto. destruct (String.eqb wf ""); auto. destruct (waveformNumber w0 wf) as [n|] eqn:W; [|discriminate]. rewrite (wfnum_app _ r _ _ W). auto.
Qed.
Lemma file_obs df file st h cards c : readMeshFile df file = Acc (st, h, cards) -> cfgFor h = Some c -> Forall (accepted_obs c (h_wfs h)) (h_obs h).
Proof.
  intros RD CF. pose proof (cfg_box _ _ _ _ _ _ RD CF) as MB. destruct (read_inv _ _ _ _ _ RD) as [_ _ I _ _ _ _]. pose proof (io_obs _ I) as A. unfold ok_obs in A. rewrite <- MB in A. rewrite Forall_forall in *.
  intros o IO. destruct (A o IO) as (w0 & r & l & name & ty & wf & steps & W & P). exists l, name, ty, wf, steps. rewrite W. apply parseOP_mono. exact P.
Qed.
(** the six components recorded at node (x,y,z): those of its edges and faces *)
Definition six (E H : Vec) (x y z : Z) : list R := [E XDIR x y z; E YDIR x y z; E ZDIR x y z; H XDIR x y z; H YDIR x y z; H ZDIR x y z].

(** C75, output.  In a conducting box the histories written by the ASCII
    observers of an accepted file are the solution of the equations: the time
    domain ones its values, step by step, the frequency domain ones the Fourier
    transforms of these values; for any solution [E], [H] of the equations - there
    is only one - and any number of steps. *)
Theorem C75_output : forall debyeFile file st h cards c, readMeshFile debyeFile file = Acc (st, h, cards) -> cfgFor h = Some c ->
  (forall f, outerSurfaceType c f = BT_PEC) -> plain_media h -> no_sheets h -> soft_sources h -> one_conductor h -> sources_ok h -> loads_inside h ->
  forall lines cn garbage e dt, (forall a, h_mesh h a = Some (lines a)) -> increasing c lines -> courantOf (h_cn h) = Some cn -> (0 < cn)%R ->
  initCellEdges c lines garbage cn = Some (e, dt) -> free_metal c h lines ->
  accepted_ot (h_ot h) -> steps_ok c (h_obs h) -> 1 <= h_nt h < 2 ^ 32 ->
  forall rcm ep ts d s wv fuel, set_up c h e dt (w_m s) -> quiet (w_m s) -> h_nt h < Z.of_nat fuel -> (forall a, numCells c a + 1 < Z.of_nat fuel) ->
  forall E H, maxwell c h lines dt (d_wE d) (d_wH d) E H ->
  let g := progOf c h rcm ep ts (fun a n => adat (eDe (e a)) n) (fun a n => adat (eDh (e a)) n) in
  let oc := initOutCfg (h_ot h) (h_of h) (h_nt h) dt in
  let win := window (start_ (h_ot h)) (stop_ (h_ot h) (h_nt h)) (h_nt h) in
  exists out, simulate c wv rArith (exciteE c (g_de g) (g_dh g) (g_srcs g) (d_wE d) (g_pws g) (d_iE d)) (exciteH c (g_de g) (g_dh g) (g_srcs g) (d_wH d) (g_pws g) (d_iH d)) fuel
      oc (h_obs h ++ internalObs (h_wfs h)) dt (h_nt h) (w_m s) = Fin (w_m (wrun c g d 0 (Z.to_nat (h_nt h)) s), out) /\
  forall n o x y z, nth_error (h_obs h) n = Some o -> o_format o = OF_ASCII -> nodeOf o = (x, y, z) -> (forall a, SpecGeom.coord x y z a < numLines c a - 1) ->
  let v t := six (E (Z.to_nat t)) (H (Z.to_nat t)) x y z in
  (o_domain o = OD_TIME -> rows out n = map (fun t => (t, (IZR t * dt)%R, v t)) win) /\
  (o_domain o = OD_FREQ -> forall q f, (q < 6)%nat -> 0 <= f < oc_nf oc -> (dftRe out n q f, dftIm out n q f) = Fourier win (fun t => nth q (v t) 0%R) (omega oc f) dt).
Proof.
  intros df file st h tr c RD CF PEC PM NS SS OC SO LI lines cn garbage e dt HM IN CN PC HE FM OT ST NT rcm ep ts d s wv fuel SU QU F1 F2 E H MX g oc win.
  pose proof CF as C'. unfold cfgFor in C'. pose proof (setup_wf _ _ _ _ _ C') as W. destruct (plain_prog c h rcm ep ts (fun a n => adat (eDe (e a)) n) (fun a n => adat (eDh (e a)) n) PM NS) as (B0 & S0). fold g in B0, S0.
  set (xE := exciteE c (g_de g) (g_dh g) (g_srcs g) (d_wE d) (g_pws g) (d_iE d)). set (xH := exciteH c (g_de g) (g_dh g) (g_srcs g) (d_wH d) (g_pws g) (d_iH d)).
  pose proof (file_obs _ _ _ _ _ _ RD CF) as FO.
  destruct (run_output c W (h_wfs h) (h_obs h) (h_ot h) (h_of h) (h_nt h) dt wv rArith xE xH (w_m s) FO ST OT ltac:(lia) fuel F1 F2) as (out & OE & _ & _ & R1 & R2 & _).
  exists out. split. { rewrite (C64_plain_run c g d B0 S0). fold xE xH. exact OE. }
  intros n o x y z NO FA ND UP v.
  assert (IB : forall a, 0 <= SpecGeom.coord x y z a).
  { rewrite Forall_forall in FO. pose proof (FO o (nth_error_In _ _ NO)) as AO. destruct (accepted_obs_ok c (h_wfs h) o AO) as (_ & (IM & _) & _). unfold nodeOf in ND. injection ND as <- <- <-. intros a. pose proof (IM a). destruct a; cbn [SpecGeom.coord face_lo] in *; lia. }
  assert (IMe : forall f, in_mesh c f x y z). { intros f a. cbv zeta. unfold meshAll, ypos. pose proof (IB a). pose proof (UP a). assert (Q : is_lo (face_lo a) = true /\ is_lo (face_hi a) = false /\ face_axis (face_hi a) = a) by (destruct a; auto). destruct Q as (-> & -> & ->). split; [destruct (staggered f a); lia|split; discriminate]. }
  assert (SX : forall t, sixAt c (fieldsAfter c rArith xE xH (w_m s) t) o = v t).
  { intros t. unfold sixAt, fieldsAfter. rewrite ND. unfold xE, xH. rewrite <- (C64_plain_run c g d B0 S0).
    destruct (C75_unique df file st h tr c RD CF PEC PM NS SS OC SO LI lines cn garbage e dt HM IN CN PC HE FM rcm ep ts d s SU QU E H MX (Z.to_nat t)) as (UE & UH). fold g in UE, UH.
    unfold v, six. rewrite <- !UE, <- !UH by apply IMe. reflexivity. }
  split; [intros TD|intros FD q f Q Hf].
  - rewrite (R1 n o NO FA TD). apply map_ext. intros t. rewrite SX. reflexivity.
  - rewrite (R2 n o q f NO FA FD Q Hf). f_equal. apply FunctionalExtensionality.functional_extensionality. intros t. rewrite SX. reflexivity.
Qed.

(** The hypotheses of the C75 theorems are met by a file with a block of metal, a
    loaded source, an impressed field and unequal cells, with sources that are
    on at every step; two observers record it. *)
Definition demo75 : list Z := chars "VM 0.7.0
DM 3 3 3
BR -1 -1 -1 -1 -1 -1
GS
MB 0 1 0 1 0 1 PEC
WF w GAUSSIAN_PULSE
EX 2 2 2 2 1 2 src VRZ w 50
EX 2 2 2 2 1 2 fld EZ w 3
OP 1 1 1 1 2 2 pt TDOM_ASCII
OP 2 2 2 2 1 1 gap FDOM_ASCII
GE
NT 100
XL
0 1 4 5 YL
0 1 4 5 ZL
0 1 4 5 EN
"%string.
Definition run75 := readMeshFile (fun _ => None) demo75.
Definition h75 : MeshData := match run75 with Acc (_, h, _) => h | _ => mesh0 end.
Definition lines75 (a : Axis) : carr R := match h_mesh h75 a with Some v => v | None => mkArr 0 (fun _ => 0%R) end.
Example C75_nonvacuous : exists st cards c, readMeshFile (fun _ => None) demo75 = Acc (st, h75, cards) /\ In EN cards /\ cfgFor h75 = Some c /\
  (forall f, outerSurfaceType c f = BT_PEC) /\ wide c /\ plain_media h75 /\ no_sheets h75 /\ soft_sources h75 /\ one_conductor h75 /\ sources_ok h75 /\ loads_inside h75 /\
  (forall a, h_mesh h75 a = Some (lines75 a)) /\ increasing c lines75 /\ free_metal c h75 lines75 /\ accepted_ot (h_ot h75) /\ steps_ok c (h_obs h75) /\ h_nt h75 = 100 /\
  List.length (h_srcs h75) = 2%nat /\ List.length (h_blocks h75) = 1%nat /\ List.length (h_obs h75) = 2%nat /\
  made_of Types.EX 0 1 1 (regions c h75 lines75) Metal /\
  exists cn e dt d s, courantOf (h_cn h75) = Some cn /\ (0 < cn)%R /\ initCellEdges c lines75 (fun _ => 0%R) cn = Some (e, dt) /\ (forall n x, d_wE d n x = 1%R) /\
  set_up c h75 e dt (w_m s) /\ quiet (w_m s).
Proof.
  do 3 eexists. split; [vm_compute; reflexivity|]. split; [cbn; tauto|]. split; [vm_compute; reflexivity|]. match goal with |- context [increasing ?x _] => set (c := x) end.
  assert (PEC : forall f, outerSurfaceType c f = BT_PEC) by (intros []; reflexivity). split; [exact PEC|]. split; [intros a; right; rewrite PEC; discriminate|].
  split. { intros [|[|[|n]]] it N; vm_compute in N; try (injection N as <-; cbn; discriminate). destruct n; discriminate N. }
  split. { intros s I. vm_compute in I. destruct I. }
  split. { split; [vm_compute; reflexivity|]. intros s I. vm_compute in I. destruct I as [<-|[<-|[]]]; reflexivity. }
  split. { intros [|[|[|n]]] it L N; try lia; vm_compute in N; try (injection N as <-; cbn; discriminate). destruct n; discriminate N. }
  split. { intros s I. vm_compute in I. destruct I as [<-|[<-|[]]]; (split; [intros []; vm_compute; discriminate|]); cbn [s_tag t_type]; [|exact Logic.I]. split; [vm_compute; lra|vm_compute; reflexivity]. }
  split. { intros s I L a E. vm_compute in I. destruct I as [<-|[<-|[]]]; [|discriminate L]. destruct a; vm_compute in E |- *; first [discriminate E|split; reflexivity]. }
  split. { intros []; vm_compute; reflexivity. }
  assert (IN : increasing c lines75).
  { intros a i Hi. assert (i = 0 \/ i = 1 \/ i = 2) as D. { assert (numLines c a = 4) as X by (destruct a; vm_compute; reflexivity). rewrite X in Hi. lia. }
    unfold line. destruct D as [-> | [-> | ->]]; destruct a; vm_compute; lra. }
  split; [exact IN|].
  split. { intros s a x y z I F CV MO.
    assert (X : exists r1 l1, h_srcs h75 = r1 :: l1 /\ isLumped (t_type (s_tag r1)) = true /\ s_mbbox r1 = s_mbbox s /\ flat_map (loadRegion c lines75) l1 = []).
    { vm_compute in I. destruct I as [<-|[<-|[]]]; [discriminate F|]. do 2 eexists. split; [vm_compute; reflexivity|]. split; [reflexivity|]. split; reflexivity. }
    destruct X as (r1 & l1 & E1 & L1 & B1 & N1). destruct CV as (_ & Y). unfold regions in MO. rewrite E1 in MO. cbn [flat_map] in MO. rewrite N1, app_nil_r in MO. unfold loadRegion in MO. rewrite L1 in MO.
    pose proof (made_fun _ _ _ _ _ _ _ MO (mo_in (Eat a) x y z _ (mkRegion (s_mbbox r1) (fun _ => true) (Simple 1 (elecLen lines75 r1 / (elecFace c lines75 r1 * s_resist r1)) 1)) ltac:(cbn [g_box g_incl]; rewrite B1; exact Y))) as Q. discriminate Q. }
  split; [vm_compute; exact Logic.I|]. split. { intros o a I F. vm_compute in I. destruct I as [<-|[<-|[]]]; discriminate F. }
  split; [reflexivity|]. split; [reflexivity|]. split; [reflexivity|]. split; [reflexivity|].
  split.
  { unfold regions. apply made_out.
    - assert (LP : last_paint Types.EX 0 1 1 (paints c (wireOf h75) (boundOf h75) (sceneOf h75)) (Some 1%nat)).
      { remember (paints c (wireOf h75) (boundOf h75) (sceneOf h75)) as L eqn:LE. vm_compute in LE. rewrite LE. match goal with |- last_paint _ _ _ _ ?l _ => apply (last_paint_all Types.EX 0 1 1 1%nat l []) end.
        - intros q Hq. repeat (destruct Hq as [<-|Hq]; [reflexivity|]). destruct Hq.
        - eexists. split; [left; reflexivity|]. intros a. destruct a; vm_compute; (split; [split; discriminate|split; intros X1 X2; first [discriminate X1|discriminate X2]]). }
      exact (paint_made h75 _ _ _ _ _ _ LP).
    - intros r IR YB. vm_compute in IR. destruct IR as [<-|[]]. specialize (YB XDIR). vm_compute in YB. destruct YB as ((Y1 & Y2) & _). apply Y1. reflexivity. }
  assert (C : cfgFor h75 = Some c) by (vm_compute; reflexivity). unfold cfgFor in C.
  assert (HL : has_lines c lines75) by (intros []; vm_compute; reflexivity).
  destruct (C23_edge_lengths _ _ _ _ c C lines75 (fun _ => 0%R) (initSimulation (-1)) HL) as (e & dt & EE & _).
  set (r := run rArith (coefProg c h75 eps0 mu0 dt (fun a n => adat (eDe (e a)) n) (fun a n => adat (eDh (e a)) n)) (fun _ => 0%R)).
  exists (initSimulation (-1)), e, dt, (mkDrv (fun _ _ => 1%R) (fun _ _ => 1%R) (fun _ _ _ _ _ _ => 0%R) (fun _ _ _ _ _ _ => 0%R)),
    (mkW (fun l => match arr l with AAlpha _ | ABeta _ | AGamma _ => r l
       | ADe a => adat (eDe (e a)) (li l) | AIde a => adat (eIde (e a)) (li l) | ADh a => adat (eDh (e a)) (li l) | AIdh a => adat (eIdh (e a)) (li l) | _ => 0%R end)
     (fun _ _ _ _ _ => []) (fun _ _ _ _ _ => 0%R) (fun _ _ _ _ => Sibc.states0 (fun _ _ => Filter.mkRC 0 [])) (fun _ _ _ _ => Sibc.mkV 0 0 0 0)).
  split; [vm_compute; reflexivity|]. split. { unfold initSimulation. destruct (Rlt_dec (-1) 0); [|lra]. pose proof (sqrt_lt_R0 3). lra. }
  split; [exact EE|]. split; [reflexivity|]. cbn [w_m]. split.
  - split; [intros a n _; repeat split; reflexivity|]. exists (fun _ => 0%R). intros l Q. unfold coefficient in Q. fold r. destruct (arr l); try contradiction; reflexivity.
  - intros l Q. unfold is_state, SpecCone.kind in Q. destruct (arr l); try reflexivity; exfalso; apply Q; reflexivity.
Qed.
