(** C85: two files that meet the hypotheses. *)
From Coq Require Import ZArith List Bool Ascii String Reals Lia Lra.
From Verif Require Import Types CArr CStr Sim Scan Lang BBox Grid SpecGrid Step Setup SetupProofs PmlProfile Media Medium Debye Waveform Source
  PlaneWave Edges SpecEdges Mesh SpecGeom SpecMedia P_Media SpecPhys SpecStable Front Program P_Front P_FrontRun
  LangProofs StepShape BBoxProofs MediaProofs Whole P_Whole SpecFile P_FrontStable SpecMaxwell P_Maxwell P_Grid Filter Sibc SpecRecip P_Recip P_RecipEx SpecGauss P_Gauss P_GaussEx SpecMaxwellBox P_MaxwellBox SpecMirror P_Mirror P_TurnEx SpecImage P_Image P_ImageEx SpecRound P_Round.
Import ListNotations.
Local Open Scope list_scope.
Open Scope Z_scope.

(** A periodic structure of four cells with a block of metal and a current.  The
    current of the first file lies in the periodic walls and is given in both; in
    the second file everything is one cell further on. *)
Definition text85 : list Z := chars ("VM 0.7.0
DM 4 1 1
GS
BT XLO PERIODIC
BT XHI PERIODIC
BT YLO PMC
BT YHI PEC
BT ZLO PERIODIC
BT ZHI PERIODIC
MB 1 2 0 1 0 1 PEC
WF w GAUSSIAN_PULSE
EX 0 0 0 0 0 1 src JZ w 3
EX 4 4 0 0 0 1 img JZ w 3
GE
NT 100
XL
0 1 2 3 4 YL
0 1 ZL
0 2 EN
")%string.
Definition text85b : list Z := chars ("VM 0.7.0
DM 4 1 1
GS
BT XLO PERIODIC
BT XHI PERIODIC
BT YLO PMC
BT YHI PEC
BT ZLO PERIODIC
BT ZHI PERIODIC
MB 2 3 0 1 0 1 PEC
WF w GAUSSIAN_PULSE
EX 1 1 0 0 0 1 src JZ w 3
GE
NT 100
XL
0 1 2 3 4 YL
0 1 ZL
0 2 EN
")%string.
Notation first85 := (dataOf text85).
Notation moved85 := (dataOf text85b).
Lemma demo85_box t c : In t [text85; text85b] -> cfgFor (dataOf t) = Some c -> exists e dt, box_problem c (dataOf t) (linesOf (dataOf t)) dt e /\ free_metal c (dataOf t) (linesOf (dataOf t)).
Proof.
  intros IT C.
  assert (T : forall f, outerSurfaceType c f = BT_PEC \/ outerSurfaceType c f = BT_PMC \/ outerSurfaceType c f = BT_PERIODIC) by (destruct IT as [<-|[<-|[]]]; vm_compute in C; injection C as <-; intros []; auto).
  assert (HL : has_lines c (linesOf (dataOf t))) by (destruct IT as [<-|[<-|[]]]; vm_compute in C; injection C as <-; intros []; reflexivity).
  assert (IN : increasing c (linesOf (dataOf t))).
  { intros a i Hi. assert (i = 0 \/ i = 1 \/ i = 2 \/ i = 3) as D by (destruct IT as [<-|[<-|[]]]; vm_compute in C; injection C as <-; destruct a; cbn [numLines] in Hi; lia).
    unfold line. destruct IT as [<-|[<-|[]]]; vm_compute in C; injection C as <-; destruct D as [-> | [-> | [-> | ->]]]; destruct a; cbn [numLines] in Hi; try lia; vm_compute; lra. }
  pose proof C as C3. unfold cfgFor in C3.
  destruct (C23_edge_lengths _ _ _ _ c C3 (linesOf (dataOf t)) (fun _ => 0%R) (initSimulation (-1)) HL) as (e & dt & EE & _).
  assert (CNP : (0 < initSimulation (-1))%R). { unfold initSimulation. destruct (Rlt_dec (-1) 0); [|lra]. pose proof (sqrt_lt_R0 3). lra. }
  assert (CNE : courantOf (h_cn (dataOf t)) = Some (initSimulation (-1))) by (destruct IT as [<-|[<-|[]]]; vm_compute; reflexivity).
  assert (NSRC : forall s, In s (h_srcs (dataOf t)) -> t_type (s_tag s) = ST_ELEC_CURR_DENSITY) by (clear - IT; intros s I; destruct IT as [<-|[<-|[]]]; vm_compute in I; repeat destruct I as [<-|I]; try reflexivity; destruct I).
  exists e, dt. split.
  { constructor.
    - exists (fun _ => None), t. destruct IT as [<-|[<-|[]]]; do 2 eexists; vm_compute; reflexivity.
    - exact C.
    - exact T.
    - clear - IT. destruct IT as [<-|[<-|[]]]; intros [|[|[|[|n]]]] it N; vm_compute in N; try (injection N as <-; cbn; discriminate); first [destruct n; discriminate N|discriminate N].
    - clear - IT. destruct IT as [<-|[<-|[]]]; intros s I; vm_compute in I; destruct I.
    - split; [clear - IT; destruct IT as [<-|[<-|[]]]; vm_compute; reflexivity|]. clear - IT. destruct IT as [<-|[<-|[]]]; intros s I; vm_compute in I; repeat destruct I as [<-|I]; try reflexivity; destruct I.
    - clear - IT. destruct IT as [<-|[<-|[]]]; intros [|[|[|[|n]]]] it L N; try lia; vm_compute in N; try (injection N as <-; cbn; discriminate); first [destruct n; discriminate N|discriminate N].
    - clear - IT NSRC. intros s I. pose proof (NSRC s I) as TY. split; [|rewrite TY; exact Logic.I]. destruct IT as [<-|[<-|[]]]; vm_compute in I; repeat destruct I as [<-|I]; try (intros []; vm_compute; discriminate); destruct I.
    - intros s f I L. rewrite (NSRC s I) in L. discriminate L.
    - clear - IT. destruct IT as [<-|[<-|[]]]; intros []; vm_compute; reflexivity.
    - exact IN.
    - eexists; eexists; split; [exact CNE|split; [exact CNP|exact EE]]. }
  intros s a x y z I F. exfalso. unfold impresses_field in F. rewrite (NSRC s I) in F. discriminate F.
Qed.
Definition pts85 : list (Fld * (Z * Z) * Z * Z) :=
  list_prod (list_prod (list_prod [Types.EX; EY; EZ; HX; HY; HZ] [(0, 1); (1, 2); (2, 3); (3, 4); (3, 0); (4, 1)]) [0; 1]) [0; 1].
Lemma mesh85 c f x y z : numLines c XDIR = 5 -> numLines c YDIR = 2 -> numLines c ZDIR = 2 -> in_mesh c f x y z -> 0 <= x <= 4 /\ (y = 0 \/ y = 1) /\ (z = 0 \/ z = 1).
Proof.
  intros N1 N2 N3 I. pose proof (I XDIR) as I1. pose proof (I YDIR) as I2. pose proof (I ZDIR) as I3. cbv zeta in *. destruct I1 as (I1 & _), I2 as (I2 & _), I3 as (I3 & _). unfold meshAll, ypos in *.
  cbn [SpecGeom.coord face_lo face_hi is_lo face_axis] in *. rewrite N1, N2, N3 in *. destruct (staggered f XDIR), (staggered f YDIR), (staggered f ZDIR); lia.
Qed.
Lemma round85 c x x' : numLines c XDIR = 5 -> 0 <= x <= 4 -> 0 <= x' <= 4 -> round 1 c x x' -> In (x, x') [(0, 1); (1, 2); (2, 3); (3, 4); (3, 0); (4, 1)].
Proof.
  intros N1 X X' RN. unfold round, period in RN. rewrite N1 in RN. change (5 - 1) with 4 in RN.
  assert (D : x = 0 \/ x = 1 \/ x = 2 \/ x = 3 \/ x = 4) by lia. assert (D' : x' = 0 \/ x' = 1 \/ x' = 2 \/ x' = 3 \/ x' = 4) by lia.
  destruct D as [-> | [-> | [-> | [-> | ->]]]], D' as [-> | [-> | [-> | [-> | ->]]]]; try discriminate RN; cbn [In]; auto 9.
Qed.
Lemma in_pts85 c c' f x x' y z : numLines c XDIR = 5 -> numLines c YDIR = 2 -> numLines c ZDIR = 2 -> numLines c' XDIR = 5 -> numLines c' YDIR = 2 -> numLines c' ZDIR = 2 ->
  in_mesh c f x y z -> in_mesh c' f x' y z -> round 1 c x x' -> In (f, (x, x'), y, z) pts85.
Proof.
  intros N1 N2 N3 N1' N2' N3' I I' RN. destruct (mesh85 c f x y z N1 N2 N3 I) as (X & Y & Z0). destruct (mesh85 c' f x' y z N1' N2' N3' I') as (X' & _). pose proof (round85 c x x' N1 X X' RN) as P.
  unfold pts85. repeat apply in_prod; [destruct f; cbn [In]; auto 7|exact P| |]; cbn [In]; [destruct Y; auto|destruct Z0; auto].
Qed.
Lemma some_inj {A} (a b : A) : Some a = Some b -> a = b.
Proof. intros H. injection H. auto. Qed.
Lemma demo85_media c c' : cfgFor first85 = Some c -> cfgFor moved85 = Some c' -> forall f x x' y z, In (f, (x, x'), y, z) pts85 -> (in_mesh c f x y z -> in_mesh c' f x' y z ->
  matB f x' y z (regions c' moved85 (linesOf moved85)) = matB f x y z (regions c first85 (linesOf first85))).
Proof.
  intros C C' f x x' y z I IM IM'.
  assert (M1 : map (fun q : Fld * (Z * Z) * Z * Z => let '(f, (x, x'), y, z) := q in if yeeb f (meshAll c) (fun _ => true) x y z && yeeb f (meshAll c') (fun _ => true) x' y z then Some (matB f x' y z (regions c' moved85 (linesOf moved85))) else None) pts85
    = map (fun q : Fld * (Z * Z) * Z * Z => let '(f, (x, x'), y, z) := q in if yeeb f (meshAll c) (fun _ => true) x y z && yeeb f (meshAll c') (fun _ => true) x' y z then Some (matB f x y z (regions c first85 (linesOf first85))) else None) pts85)
    by (clear I IM IM'; vm_compute in C, C'; injection C as <-; injection C' as <-; vm_compute; reflexivity).
  pose proof (ext_in_map M1 _ I) as Q. cbv beta iota in Q.
  assert (Y1 : yeeb f (meshAll c) (fun _ => true) x y z = true) by (apply yeeb_iff; exact IM). assert (Y2 : yeeb f (meshAll c') (fun _ => true) x' y z = true) by (apply yeeb_iff; exact IM').
  rewrite Y1, Y2 in Q. cbn [andb] in Q. apply some_inj in Q. exact Q.
Qed.

Lemma demo85_moved c c' (g : nat -> R) : cfgFor first85 = Some c -> cfgFor moved85 = Some c' ->
  moved_round 1 c c' first85 moved85 (linesOf first85) (linesOf moved85) (fun t _ => g t) (fun t _ => g t) (fun t _ => g t) (fun t _ => g t).
Proof.
  intros C C'.
  assert (NL : numLines c XDIR = 5 /\ numLines c YDIR = 2 /\ numLines c ZDIR = 2) by (vm_compute in C; injection C as <-; repeat split). destruct NL as (N1 & N2 & N3).
  assert (NL' : numLines c' XDIR = 5 /\ numLines c' YDIR = 2 /\ numLines c' ZDIR = 2) by (vm_compute in C'; injection C' as <-; repeat split). destruct NL' as (N1' & N2' & N3').
  constructor.
  - vm_compute in C, C'; injection C as <-; injection C' as <-. split; [reflexivity|]. split; [reflexivity|]. intros []; reflexivity.
  - intros []; congruence.
  - intros a i N Hi. assert (D : i = 0 \/ i = 1) by (destruct a; [exfalso; apply N; reflexivity|rewrite N2 in Hi; lia|rewrite N3 in Hi; lia]). clear - N D. unfold line. destruct a; [exfalso; apply N; reflexivity| |]; destruct D as [-> | ->]; vm_compute; reflexivity.
  - exists 1%R. unfold period. rewrite N1. intros i Hi. assert (D : i = 0 \/ i = 1 \/ i = 2 \/ i = 3) by lia. clear - D. unfold line. destruct D as [-> | [-> | [-> | ->]]]; vm_compute; lra.
  - vm_compute. reflexivity.
  - intros f x x' y z mat I I' RN M. pose proof (in_pts85 c c' f x x' y z N1 N2 N3 N1' N2' N3' I I' RN) as P. rewrite (made_fun _ _ _ _ _ _ _ M (matB_ok f x y z _)).
    rewrite <- (demo85_media c c' C C' f x x' y z P I I'). apply matB_ok.
  - intros t f x x' y z J F I I' RN.
    assert (Q : drives c first85 (linesOf first85) (fun _ => g t) f x y z J F -> drives c' moved85 (linesOf moved85) (fun _ => g t) f x' y z J F).
    2: { split; intros _; exact Q. }
    intros D. destruct (mesh85 c f x y z N1 N2 N3 I) as (X & DY & DZ). destruct (mesh85 c' f x' y z N1' N2' N3' I') as (X' & _). pose proof (round85 c x x' N1 X X' RN) as P.
    destruct (drives_fun _ _ _ _ _ _ _ _ _ _ _ _ D (drives_tot _ _ _ _ _ _ _ _)) as (-> & ->). clear D I I' RN X X'.
    remember (h_srcs first85) as L1 eqn:E1. remember (h_srcs moved85) as L2 eqn:E2.
    apply drives_val; rewrite <- ?E2; vm_compute in E1, E2; subst L1 L2; unfold impressed; cbn [tot fold_right s_tag t_type s_size impresses_field negb];
    destruct f, DY as [-> | ->], DZ as [-> | ->]; cbn [In] in P; repeat destruct P as [P|P]; try contradiction; injection P as <- <-;
    repeat match goal with |- context [covb ?f ?x ?y ?z ?s] => let v := eval vm_compute in (covb f x y z s) in change (covb f x y z s) with v end; cbn [andb]; lra.
Qed.
Example C85_nonvacuous : forall (g : nat -> R), exists c c' e e' dt dt' (d : Drv), let h := first85 in let h' := moved85 in
  box_problem c h (linesOf h) dt e /\ box_problem c' h' (linesOf h') dt' e' /\ free_metal c h (linesOf h) /\ free_metal c' h' (linesOf h') /\
  (exists s, set_up c h e dt (w_m s) /\ quiet (w_m s)) /\ (exists s, set_up c' h' e' dt' (w_m s) /\ quiet (w_m s)) /\
  (forall t s, d_wE d t s = g t) /\ moved_round 1 c c' h h' (linesOf h) (linesOf h') (d_wE d) (d_wH d) (d_wE d) (d_wH d) /\
  List.length (h_blocks h) = 1%nat /\ List.length (h_srcs h) = 2%nat.
Proof.
  intros g.
  destruct (cfgFor first85) as [c|] eqn:C; [|vm_compute in C; discriminate C]. destruct (cfgFor moved85) as [c'|] eqn:C'; [|vm_compute in C'; discriminate C'].
  destruct (demo85_box text85 c (or_introl eq_refl) C) as (e & dt & B1 & F1). destruct (demo85_box text85b c' (or_intror (or_introl eq_refl)) C') as (e' & dt' & B2 & F2).
  assert (DD : exists d : Drv, d_wE d = (fun t _ => g t) /\ d_wH d = (fun t _ => g t)) by (exists (mkDrv (fun t _ => g t) (fun t _ => g t) (fun _ _ _ _ _ _ => 0%R) (fun _ _ _ _ _ _ => 0%R)); split; reflexivity).
  destruct DD as (d & D1 & D2). exists c, c', e, e', dt, dt', d. cbv zeta. rewrite D1, D2. do 4 (split; [assumption|]). do 2 (split; [apply set_up_ex|]). split; [reflexivity|]. split; [apply demo85_moved; assumption|].
  clear. split; vm_compute; reflexivity.
Qed.
