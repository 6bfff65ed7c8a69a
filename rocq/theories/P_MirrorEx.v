(** C82: files that meet the hypotheses. *)
From Coq Require Import ZArith List Bool Ascii String Reals Lia Lra.
From Verif Require Import Types CArr CStr Sim Scan Lang BBox Grid SpecGrid Step Setup SetupProofs PmlProfile Media Medium Debye Waveform Source
  PlaneWave Edges SpecEdges Mesh SpecGeom SpecMedia P_Media SpecPhys SpecStable Front Program P_Front P_FrontRun
  LangProofs StepShape BBoxProofs MediaProofs Whole P_Whole SpecFile P_FrontStable SpecMaxwell P_Maxwell P_Grid Filter Sibc SpecRecip P_Recip P_RecipEx SpecMaxwellBox P_MaxwellBox SpecTurn P_Turn P_TurnEx SpecMirror P_Mirror.
Import ListNotations.
Local Open Scope list_scope.
Open Scope Z_scope.

(** The box of C81 and its mirror image: the port along x changes its sign. *)
Definition text82 : list Z := chars "VM 0.7.0
DM 3 3 4
BR -1 -1 -1 -1 -1 -1
GS
MB 2 3 0 2 0 1 PEC
WT thin PEC
TW 2 2 2 2 1 3 thin
WF w GAUSSIAN_PULSE
EX 1 1 2 2 1 2 a VRZ w 50 1
EX 1 2 2 2 1 1 b IGX w 20 -3
GE
NT 100
XL
0 1 4 5 YL
0 2 3 7 ZL
0 1 2 4 6 EN
".
(** a box that is its own image, with a metal bar and a port in the middle plane *)
Definition text82s : list Z := chars "VM 0.7.0
DM 4 3 4
BR -1 -1 -1 -1 -1 -1
GS
MB 1 3 0 2 0 1 PEC
WT thin PEC
TW 2 2 2 2 1 3 thin
WF w GAUSSIAN_PULSE
EX 2 2 1 1 1 2 a VRZ w 50 1
EX 2 2 1 2 1 1 b IGY w 20 -3
GE
NT 100
XL
0 1 4 7 8 YL
0 2 3 7 ZL
0 1 2 4 6 EN
".
Lemma demo_closed82 t c : In t [text82; text82s] -> cfgFor (dataOf t) = Some c -> exists e dt, closed_problem c (dataOf t) (linesOf (dataOf t)) e dt /\ free_metal c (dataOf t) (linesOf (dataOf t)).
Proof.
  intros IT C. 
  assert (PEC : forall f, outerSurfaceType c f = BT_PEC) by (destruct IT as [<-|[<-|[]]]; vm_compute in C; injection C as <-; intros []; reflexivity).
  assert (HL : has_lines c (linesOf (dataOf t))) by (destruct IT as [<-|[<-|[]]]; vm_compute in C; injection C as <-; intros []; reflexivity).
  assert (IN : increasing c (linesOf (dataOf t))).
  { intros a i Hi. assert (i = 0 \/ i = 1 \/ i = 2 \/ i = 3) as D by (destruct IT as [<-|[<-|[]]]; vm_compute in C; injection C as <-; destruct a; cbn [numLines] in Hi; lia).
    unfold line. destruct IT as [<-|[<-|[]]]; vm_compute in C; injection C as <-; destruct D as [-> | [-> | [-> | ->]]]; destruct a; cbn [numLines] in Hi; try lia; vm_compute; lra. }
  pose proof C as C3. unfold cfgFor in C3.
  destruct (C23_edge_lengths _ _ _ _ c C3 (linesOf (dataOf t)) (fun _ => 0%R) (initSimulation (-1)) HL) as (e & dt & EE & _).
  assert (CNP : (0 < initSimulation (-1))%R). { unfold initSimulation. destruct (Rlt_dec (-1) 0); [|lra]. pose proof (sqrt_lt_R0 3). lra. }
  assert (CNE : courantOf (h_cn (dataOf t)) = Some (initSimulation (-1))) by (destruct IT as [<-|[<-|[]]]; vm_compute; reflexivity).
  exists e, dt. split; [destruct IT as [<-|[<-|[]]]; [closed76 text82 C PEC IN CNE CNP EE|closed76 text82s C PEC IN CNE CNP EE]|].
  intros s a x y z I F. exfalso. destruct IT as [<-|[<-|[]]]; vm_compute in I; destruct I as [<-|[<-|[]]]; discriminate F.
Qed.
Ltac mirror82 h h' L :=
  constructor; [vm_compute; reflexivity|intros []; vm_compute; reflexivity|intros [] N; first [exfalso; apply N; reflexivity|vm_compute; reflexivity]
  |do 2 eexists; exists (IZR L); split; [vm_compute; reflexivity|split; [vm_compute; reflexivity|]]; intros i Hi; (assert (i = 0 \/ i = 1 \/ i = 2 \/ i = 3 \/ i = 4) as D by lia); destruct D as [-> | [-> | [-> | [-> | ->]]]]; try lia; vm_compute; lra
  |vm_compute; reflexivity
  |remember (h_blocks h) as K eqn:E; vm_compute in E; remember (h_blocks h') as K' eqn:E'; vm_compute in E'; subst K K'; constructor; [|constructor];
     (split; [repeat split|]; split; [intros []; reflexivity|]; vm_compute; reflexivity)
  |remember (h_lines h) as K eqn:E; vm_compute in E; remember (h_lines h') as K' eqn:E'; vm_compute in E'; subst K K'; constructor; [|constructor]; (split; [repeat split|]; vm_compute; reflexivity)
  |vm_compute; constructor
  |remember (h_srcs h) as K eqn:E; vm_compute in E; remember (h_srcs h') as K' eqn:E'; vm_compute in E'; subst K K'; constructor; [|constructor; [|constructor]];
    (split; [repeat split|]; do 3 (split; [reflexivity|]); split; [cbn [s_tag t_field sign s_size]; vm_compute; lra|reflexivity])].
Example C82_nonvacuous : exists c c' e dt e' dt', let h := dataOf text81 in let h' := dataOf text82 in
  box_problem c h (linesOf h) dt e /\ free_metal c h (linesOf h) /\ box_problem c' h' (linesOf h') dt' e' /\ mirrored h h' 3 /\ (forall f, outerSurfaceType c' (mirrorFace f) = outerSurfaceType c f) /\
  List.length (h_blocks h) = 1%nat /\ List.length (h_lines h) = 1%nat /\ List.length (h_srcs h) = 2%nat /\
  (exists s, set_up c h e dt (w_m s) /\ quiet (w_m s)) /\ (exists s, set_up c' h' e' dt' (w_m s) /\ quiet (w_m s)).
Proof.
  destruct (cfgFor (dataOf text81)) as [c|] eqn:C; [|vm_compute in C; discriminate C]. destruct (cfgFor (dataOf text82)) as [c'|] eqn:C'; [|vm_compute in C'; discriminate C'].
  destruct (demo_closed text81 c (or_introl eq_refl) C) as (e & dt & P & FM). destruct (demo_closed82 text82 c' (or_introl eq_refl) C') as (e' & dt' & P' & _).
  exists c, c', e, dt, e', dt'. cbv zeta. split; [exact (closed_box _ _ _ _ _ P)|]. split; [exact FM|]. split; [exact (closed_box _ _ _ _ _ P')|]. split; [|split; [intros f; rewrite (cp_walls _ _ _ _ _ P), (cp_walls _ _ _ _ _ P'); reflexivity|]; split; [vm_compute; reflexivity|split; [vm_compute; reflexivity|split; [vm_compute; reflexivity|split; apply set_up_ex]]]].
  clear. mirror82 (dataOf text81) (dataOf text82) 5.
Qed.
Example C82_symmetric_nonvacuous : exists c e dt, let h := dataOf text82s in
  box_problem c h (linesOf h) dt e /\ free_metal c h (linesOf h) /\ mirrored h h 4 /\ outerSurfaceType c XLO = outerSurfaceType c XHI /\
  List.length (h_blocks h) = 1%nat /\ List.length (h_lines h) = 1%nat /\ List.length (h_srcs h) = 2%nat /\ (exists s, set_up c h e dt (w_m s) /\ quiet (w_m s)).
Proof.
  destruct (cfgFor (dataOf text82s)) as [c|] eqn:C; [|vm_compute in C; discriminate C].
  destruct (demo_closed82 text82s c (or_intror (or_introl eq_refl)) C) as (e & dt & P & FM).
  exists c, e, dt. cbv zeta. split; [exact (closed_box _ _ _ _ _ P)|]. split; [exact FM|]. split; [|split; [rewrite !(cp_walls _ _ _ _ _ P); reflexivity|]; split; [vm_compute; reflexivity|split; [vm_compute; reflexivity|split; [vm_compute; reflexivity|apply set_up_ex]]]].
  clear. mirror82 (dataOf text82s) (dataOf text82s) 8.
Qed.
