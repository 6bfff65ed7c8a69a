(** C76: two files that meet the hypotheses. *)
From Coq Require Import ZArith List Bool Ascii String Reals Lia Lra.
From Verif Require Import Types CArr CStr Sim Scan Lang BBox Grid SpecGrid Step Setup SetupProofs PmlProfile Media Medium Debye Waveform Source
  PlaneWave Edges SpecEdges Mesh SpecGeom SpecMedia P_Media SpecPhys SpecStable Front Program P_Front P_FrontRun
  LangProofs StepShape BBoxProofs MediaProofs Whole P_Whole SpecFile P_FrontStable SpecMaxwell P_Maxwell P_Grid Filter Sibc SpecRecip P_Recip.
Import ListNotations.
Local Open Scope list_scope.
Open Scope Z_scope.

Lemma set_up_ex c h e dt : exists s, set_up c h e dt (w_m s) /\ quiet (w_m s).
Proof.
  set (r := run rArith (coefProg c h eps0 mu0 dt (fun a n => adat (eDe (e a)) n) (fun a n => adat (eDh (e a)) n)) (fun _ => 0%R)).
  exists (mkW (fun l => match arr l with AAlpha _ | ABeta _ | AGamma _ => r l
       | ADe a => adat (eDe (e a)) (li l) | AIde a => adat (eIde (e a)) (li l) | ADh a => adat (eDh (e a)) (li l) | AIdh a => adat (eIdh (e a)) (li l) | _ => 0%R end)
     (fun _ _ _ _ _ => []) (fun _ _ _ _ _ => 0%R) (fun _ _ _ _ => Sibc.states0 (fun _ _ => Filter.mkRC 0 [])) (fun _ _ _ _ => Sibc.mkV 0 0 0 0)).
  cbn [w_m]. split.
  - split; [intros a n _; repeat split; reflexivity|]. exists (fun _ => 0%R). intros l Q. unfold coefficient in Q. fold r. destruct (arr l); try contradiction; reflexivity.
  - intros l Q. unfold is_state, SpecCone.kind in Q. destruct (arr l); try reflexivity; exfalso; apply Q; reflexivity.
Qed.

(** A conducting box with unequal cells, a block of metal, a 50 ohm and a 20 ohm
    port; only the first port is driven in the first file, only the second in the
    second. *)
Definition text76 (first second : string) : list Z := chars (("VM 0.7.0
DM 3 3 3
BR -1 -1 -1 -1 -1 -1
GS
MB 0 1 0 1 0 1 PEC
WF w GAUSSIAN_PULSE
EX 2 2 2 2 1 2 a VRZ w 50 " ++ first ++ "
EX 1 2 2 2 1 1 b IGX w 20 " ++ second ++ "
GE
NT 100
XL
0 1 4 5 YL
0 1 4 5 ZL
0 1 4 5 EN
")%string).
Definition data76 (first second : string) : MeshData := match readMeshFile (fun _ => None) (text76 first second) with Acc (_, h, _) => h | _ => mesh0 end.
Definition h76 : MeshData := data76 "1" "0".
Definition g76 : MeshData := data76 "0" "3".
Definition lines76 (a : Axis) : carr R := match h_mesh h76 a with Some v => v | None => mkArr 0 (fun _ => 0%R) end.
Ltac closed76 F C PEC IN CNE CNP EE :=
  constructor; [exists (fun _ => None), F; do 2 eexists; vm_compute; reflexivity|exact C|exact PEC
  |intros [|[|[|[|n]]]] it N; vm_compute in N; try (injection N as <-; cbn; discriminate); first [destruct n; discriminate N|discriminate N]
  |intros s I; vm_compute in I; destruct I
  |split; [vm_compute; reflexivity|]; intros s I; vm_compute in I; destruct I as [<-|[<-|[]]]; reflexivity
  |intros [|[|[|[|n]]]] it L N; try lia; vm_compute in N; try (injection N as <-; cbn; discriminate); first [destruct n; discriminate N|discriminate N]
  |intros s I; vm_compute in I; destruct I as [<-|[<-|[]]]; (split; [intros []; vm_compute; discriminate|]); cbn [s_tag t_type]; (split; [vm_compute; lra|vm_compute; reflexivity])
  |intros s I L a E; vm_compute in I; destruct I as [<-|[<-|[]]]; destruct a; vm_compute in E |- *; first [discriminate E|split; reflexivity]
  |intros []; vm_compute; reflexivity|exact IN|eexists; eexists; split; [exact CNE|split; [exact CNP|exact EE]]].
Example C76_nonvacuous : exists c e dt, closed_problem c h76 lines76 e dt /\ closed_problem c g76 lines76 e dt /\ same_scene c h76 g76 lines76 /\
  (exists s, set_up c h76 e dt (w_m s) /\ quiet (w_m s)) /\ (exists s, set_up c g76 e dt (w_m s) /\ quiet (w_m s)) /\
  exists t t', on_edge t ZDIR 2 2 1 /\ only_source h76 (fun _ _ => 1%R) (fun _ _ => 1%R) t (fun _ => 1%R) /\ t_type (s_tag t) = ST_THEVENIN_VOLTAGE /\ s_size t <> 0%R /\
    on_edge t' XDIR 1 2 1 /\ only_source g76 (fun _ _ => 1%R) (fun _ _ => 1%R) t' (fun _ => 1%R) /\ t_type (s_tag t') = ST_NORTON_CURRENT /\ s_size t' <> 0%R.
Proof.
  destruct (cfgFor h76) as [c|] eqn:C; [|vm_compute in C; discriminate C]. 
  assert (PEC : forall f, outerSurfaceType c f = BT_PEC) by (vm_compute in C; injection C as <-; intros []; reflexivity).
  assert (NL : forall a, numLines c a = 4) by (vm_compute in C; injection C as <-; intros []; reflexivity).
  assert (IN : increasing c lines76).
  { intros a i Hi. rewrite NL in Hi. assert (i = 0 \/ i = 1 \/ i = 2) as D by lia. unfold line. destruct D as [-> | [-> | ->]]; destruct a; vm_compute; lra. }
  assert (HL : has_lines c lines76) by (intros a; rewrite NL; destruct a; vm_compute; reflexivity).
  assert (C2 : cfgFor g76 = Some c) by (rewrite <- C; vm_compute; reflexivity).
  pose proof C as C3. unfold cfgFor in C3.
  destruct (C23_edge_lengths _ _ _ _ c C3 lines76 (fun _ => 0%R) (initSimulation (-1)) HL) as (e & dt & EE & _).
  assert (CNP : (0 < initSimulation (-1))%R). { unfold initSimulation. destruct (Rlt_dec (-1) 0); [|lra]. pose proof (sqrt_lt_R0 3). lra. }
  assert (CNE : courantOf (h_cn h76) = Some (initSimulation (-1))) by (vm_compute; reflexivity).
  assert (CNE2 : courantOf (h_cn g76) = Some (initSimulation (-1))) by (vm_compute; reflexivity).
  exists c, e, dt.
  split. { closed76 (text76 "1" "0") C PEC IN CNE CNP EE. }
  split. { closed76 (text76 "0" "3") C2 PEC IN CNE2 CNP EE. }
  split. { intros f x y z mat _. replace (regions c g76 lines76) with (regions c h76 lines76); [tauto|]. vm_compute in C. injection C as <-. vm_compute. reflexivity. }
  split; [apply set_up_ex|]. split; [apply set_up_ex|].
  unfold only_source. remember (h_srcs h76) as L eqn:LE. vm_compute in LE. remember (h_srcs g76) as L' eqn:LE'. vm_compute in LE'.
  subst L L'. do 2 eexists.
  split; [|split; [split; [left; reflexivity|]|split; [|split; [|split; [|split; [split; [right; left; reflexivity|]|split]]]]]].
  - split; [reflexivity|]. intros []; split; vm_compute; reflexivity.
  - split; [exact Logic.I|]. split; [intros s [<-|[<-|[]]]; reflexivity|]. split; [|reflexivity]. intros s n [<-|[<-|[]]] NE; [exfalso; apply NE; reflexivity|]. left. vm_compute. lra.
  - reflexivity.
  - vm_compute. lra.
  - split; [reflexivity|]. intros []; split; vm_compute; reflexivity.
  - split; [exact Logic.I|]. split; [intros s [<-|[<-|[]]]; reflexivity|]. split; [|reflexivity]. intros s n [<-|[<-|[]]] NE; [|exfalso; apply NE; reflexivity]. left. vm_compute. lra.
  - reflexivity.
  - vm_compute. lra.
Qed.
