(** C83: a file that meets the hypotheses (magnetic walls across x, periodic ones
    across y, electric ones across z; a block of metal and a loaded source in a
    magnetic wall). *)
From Coq Require Import ZArith List Bool Ascii String Reals Lia Lra.
From Verif Require Import Types CArr CStr Sim Scan Lang BBox Grid SpecGrid Step Setup SetupProofs PmlProfile Media Medium Debye Waveform Source
  PlaneWave Edges SpecEdges Mesh SpecGeom SpecMedia P_Media SpecPhys SpecStable Front Program P_Front P_FrontRun
  LangProofs StepShape BBoxProofs MediaProofs Whole P_Whole SpecFile P_FrontStable SpecMaxwell P_Maxwell P_Grid Filter Sibc SpecRecip P_Recip P_RecipEx SpecMaxwellBox P_MaxwellBox.
Import ListNotations.
Local Open Scope list_scope.
Open Scope Z_scope.
Definition text83 : list Z := chars "VM 0.7.0
DM 2 2 2
GS
BT XLO PMC
BT XHI PMC
BT YLO PERIODIC
BT YHI PERIODIC
BT ZLO PEC
BT ZHI PEC
MB 0 1 0 2 0 1 PEC
WF w GAUSSIAN_PULSE
EX 2 2 1 1 1 2 src VRZ w 50
GE
NT 100
XL
0 1 4 YL
0 1 4 ZL
0 1 4 EN
"%string.
Definition h83 : MeshData := match readMeshFile (fun _ => None) text83 with Acc (_, h, _) => h | _ => mesh0 end.
Definition lines83 (a : Axis) : carr R := match h_mesh h83 a with Some v => v | None => mkArr 0 (fun _ => 0%R) end.
Example C83_nonvacuous : exists c e dt, box_problem c h83 lines83 dt e /\ free_metal c h83 lines83 /\
  outerSurfaceType c XHI = BT_PMC /\ outerSurfaceType c YLO = BT_PERIODIC /\ outerSurfaceType c ZLO = BT_PEC /\ (exists x, In x (h_srcs h83) /\ isLumped (t_type (s_tag x)) = true) /\
  (exists s, set_up c h83 e dt (w_m s) /\ quiet (w_m s)).
Proof.
  destruct (cfgFor h83) as [c|] eqn:C; [|vm_compute in C; discriminate C].
  assert (T : forall f, outerSurfaceType c f = match f with XLO | XHI => BT_PMC | YLO | YHI => BT_PERIODIC | _ => BT_PEC end) by (vm_compute in C; injection C as <-; intros []; reflexivity).
  assert (NL : forall a, numLines c a = 3) by (vm_compute in C; injection C as <-; intros []; reflexivity).
  assert (HL : has_lines c lines83) by (intros a; rewrite NL; destruct a; vm_compute; reflexivity).
  assert (IN : increasing c lines83).
  { intros a i Hi. rewrite NL in Hi. assert (i = 0 \/ i = 1) as D by lia. unfold line. destruct D as [-> | ->]; destruct a; vm_compute; lra. }
  pose proof C as C3. unfold cfgFor in C3.
  destruct (C23_edge_lengths _ _ _ _ c C3 lines83 (fun _ => 0%R) (initSimulation (-1)) HL) as (e & dt & EE & _).
  assert (CNP : (0 < initSimulation (-1))%R). { unfold initSimulation. destruct (Rlt_dec (-1) 0); [|lra]. pose proof (sqrt_lt_R0 3). lra. }
  assert (CNE : courantOf (h_cn h83) = Some (initSimulation (-1))) by (vm_compute; reflexivity).
  exists c, e, dt. split.
  { constructor.
    - exists (fun _ => None), text83; do 2 eexists; vm_compute; reflexivity.
    - exact C.
    - intros f; rewrite T; destruct f; auto.
    - intros [|[|[|[|n]]]] it N; vm_compute in N; try (injection N as <-; cbn; discriminate); first [destruct n; discriminate N|discriminate N].
    - intros s I; vm_compute in I; destruct I.
    - split; [vm_compute; reflexivity|]; intros s I; vm_compute in I; destruct I as [<-|[]]; reflexivity.
    - intros [|[|[|[|n]]]] it L N; try lia; vm_compute in N; try (injection N as <-; cbn; discriminate); first [destruct n; discriminate N|discriminate N].
    - intros s I; vm_compute in I; destruct I as [<-|[]]; (split; [intros []; vm_compute; discriminate|]); cbn [s_tag t_type]; (split; [vm_compute; lra|vm_compute; reflexivity]).
    - intros s f I L P _; rewrite T in P; vm_compute in I; destruct I as [<-|[]]; destruct f; try discriminate P; vm_compute in C; injection C as <-; vm_compute; discriminate.
    - intros []; vm_compute; reflexivity.
    - exact IN.
    - eexists; eexists; split; [exact CNE|split; [exact CNP|exact EE]]. }
  split. { intros s a x y z I F. exfalso. vm_compute in I. destruct I as [<-|[]]. discriminate F. }
  rewrite !T. do 3 (split; [reflexivity|]). split; [|apply set_up_ex].
  remember (h_srcs h83) as L eqn:LE. vm_compute in LE. subst L. eexists. split; [left; reflexivity|reflexivity].
Qed.
