(** C84: files that meet the hypotheses, for both kinds of plane. *)
From Coq Require Import ZArith List Bool Ascii String Reals Lia Lra.
From Verif Require Import Types CArr CStr Sim Scan Lang BBox Grid SpecGrid Step Setup SetupProofs PmlProfile Media Medium Debye Waveform Source
  PlaneWave Edges SpecEdges Mesh SpecGeom SpecMedia P_Media SpecPhys SpecStable Front Program P_Front P_FrontRun
  LangProofs StepShape BBoxProofs MediaProofs Whole P_Whole SpecFile P_FrontStable SpecMaxwell P_Maxwell P_Grid Filter Sibc SpecRecip P_Recip P_RecipEx SpecGauss P_Gauss P_GaussEx SpecMaxwellBox P_MaxwellBox SpecMirror P_Mirror P_TurnEx SpecImage P_Image.
Import ListNotations.
Local Open Scope list_scope.
Open Scope Z_scope.

(** A box with a block of metal and an impressed current, with a wall of type [w] at
    its lower x face, and the box together with its image. *)
Definition text84 (w : string) : list Z := chars (("VM 0.7.0
DM 2 2 2
GS
BT XLO " ++ w ++ "
BT XHI PEC
BT YLO PMC
BT YHI PEC
BT ZLO PERIODIC
BT ZHI PERIODIC
MB 1 2 0 1 0 2 PEC
WF w GAUSSIAN_PULSE
EX 1 1 1 1 0 1 src JZ w 3
GE
NT 100
XL
0 1 4 YL
0 1 4 ZL
0 1 4 EN
")%string).
Definition text84x2 (image : string) : list Z := chars (("VM 0.7.0
DM 4 2 2
GS
BT XLO PEC
BT XHI PEC
BT YLO PMC
BT YHI PEC
BT ZLO PERIODIC
BT ZHI PERIODIC
MB 3 4 0 1 0 2 PEC
MB 0 1 0 1 0 2 PEC
WF w GAUSSIAN_PULSE
EX 3 3 1 1 0 1 src JZ w 3
EX 1 1 1 1 0 1 img JZ w " ++ image ++ "
GE
NT 100
XL
0 3 4 5 8 YL
0 1 4 ZL
0 1 4 EN
")%string).
Definition textH (p : Plane) : list Z := text84 (match p with MagneticPlane => "PMC" | ElectricPlane => "PEC" end).
Definition textF (p : Plane) : list Z := text84x2 (match p with MagneticPlane => "3" | ElectricPlane => "-3" end).
Notation half84 p := (dataOf (textH p)).
Notation full84 p := (dataOf (textF p)).

Definition covb (f : Fld) (x y z : Z) (s : Src) : bool := fld_eqb f (t_field (s_tag s)) && yeeb f (s_mbbox s) (fun _ => true) x y z.
Lemma covb_iff f x y z s : covb f x y z s = true <-> covered f x y z s.
Proof. unfold covb, covered. rewrite andb_true_iff, yeeb_iff. assert (Q : fld_eqb f (t_field (s_tag s)) = true <-> f = t_field (s_tag s)) by (generalize (t_field (s_tag s)); destruct f; intros []; cbn; split; congruence). tauto. Qed.
Definition tot (b : Src -> bool) (v : Src -> R) (l : list Src) : R := fold_right (fun s t => if b s then (v s + t)%R else t) 0%R l.
Lemma tot_ok (P : Src -> Prop) b v l : (forall s, b s = true <-> P s) -> total_of P v l (tot b v l).
Proof. intros B. induction l as [|s l IH]; cbn [tot fold_right]; [constructor|]. destruct (b s) eqn:Q; [apply to_in|apply to_out]; try exact IH; [apply B; exact Q|rewrite <- B; congruence]. Qed.
Lemma drives_tot c h lines w f x y z : drives c h lines w f x y z (tot (fun s => covb f x y z s && negb (impresses_field s)) (fun s => impressed c lines s (s_size s * w s)) (h_srcs h)) (tot (fun s => covb f x y z s && impresses_field s) (fun s => impressed c lines s (s_size s * w s)) (h_srcs h)).
Proof. split; apply tot_ok; intros s; rewrite andb_true_iff, covb_iff, ?negb_true_iff; tauto. Qed.
Lemma drives_val c h lines w f x y z J F : tot (fun s => covb f x y z s && negb (impresses_field s)) (fun s => impressed c lines s (s_size s * w s)) (h_srcs h) = J -> tot (fun s => covb f x y z s && impresses_field s) (fun s => impressed c lines s (s_size s * w s)) (h_srcs h) = F ->
  drives c h lines w f x y z J F.
Proof. intros <- <-. apply drives_tot. Qed.
Lemma demo84_box t c : In t [textH MagneticPlane; textH ElectricPlane; textF MagneticPlane; textF ElectricPlane] -> cfgFor (dataOf t) = Some c -> exists e dt, box_problem c (dataOf t) (linesOf (dataOf t)) dt e /\ free_metal c (dataOf t) (linesOf (dataOf t)).
Proof.
  intros IT C.
  assert (T : forall f, outerSurfaceType c f = BT_PEC \/ outerSurfaceType c f = BT_PMC \/ outerSurfaceType c f = BT_PERIODIC) by (destruct IT as [<-|[<-|[<-|[<-|[]]]]]; vm_compute in C; injection C as <-; intros []; auto).
  assert (HL : has_lines c (linesOf (dataOf t))) by (destruct IT as [<-|[<-|[<-|[<-|[]]]]]; vm_compute in C; injection C as <-; intros []; reflexivity).
  assert (IN : increasing c (linesOf (dataOf t))).
  { intros a i Hi. assert (i = 0 \/ i = 1 \/ i = 2 \/ i = 3) as D by (destruct IT as [<-|[<-|[<-|[<-|[]]]]]; vm_compute in C; injection C as <-; destruct a; cbn [numLines] in Hi; lia).
    unfold line. destruct IT as [<-|[<-|[<-|[<-|[]]]]]; vm_compute in C; injection C as <-; destruct D as [-> | [-> | [-> | ->]]]; destruct a; cbn [numLines] in Hi; try lia; vm_compute; lra. }
  pose proof C as C3. unfold cfgFor in C3.
  destruct (C23_edge_lengths _ _ _ _ c C3 (linesOf (dataOf t)) (fun _ => 0%R) (initSimulation (-1)) HL) as (e & dt & EE & _).
  assert (CNP : (0 < initSimulation (-1))%R). { unfold initSimulation. destruct (Rlt_dec (-1) 0); [|lra]. pose proof (sqrt_lt_R0 3). lra. }
  assert (CNE : courantOf (h_cn (dataOf t)) = Some (initSimulation (-1))) by (destruct IT as [<-|[<-|[<-|[<-|[]]]]]; vm_compute; reflexivity).
  assert (NSRC : forall s, In s (h_srcs (dataOf t)) -> t_type (s_tag s) = ST_ELEC_CURR_DENSITY) by (clear - IT; intros s I; destruct IT as [<-|[<-|[<-|[<-|[]]]]]; vm_compute in I; repeat destruct I as [<-|I]; try reflexivity; destruct I).
  exists e, dt. split.
  { constructor.
    - exists (fun _ => None), t. destruct IT as [<-|[<-|[<-|[<-|[]]]]]; do 2 eexists; vm_compute; reflexivity.
    - exact C.
    - exact T.
    - clear - IT. destruct IT as [<-|[<-|[<-|[<-|[]]]]]; intros [|[|[|[|n]]]] it N; vm_compute in N; try (injection N as <-; cbn; discriminate); first [destruct n; discriminate N|discriminate N].
    - clear - IT. destruct IT as [<-|[<-|[<-|[<-|[]]]]]; intros s I; vm_compute in I; destruct I.
    - split; [clear - IT; destruct IT as [<-|[<-|[<-|[<-|[]]]]]; vm_compute; reflexivity|]. clear - IT. destruct IT as [<-|[<-|[<-|[<-|[]]]]]; intros s I; vm_compute in I; repeat destruct I as [<-|I]; try reflexivity; destruct I.
    - clear - IT. destruct IT as [<-|[<-|[<-|[<-|[]]]]]; intros [|[|[|[|n]]]] it L N; try lia; vm_compute in N; try (injection N as <-; cbn; discriminate); first [destruct n; discriminate N|discriminate N].
    - clear - IT NSRC. intros s I. pose proof (NSRC s I) as TY. split; [|rewrite TY; exact Logic.I]. destruct IT as [<-|[<-|[<-|[<-|[]]]]]; vm_compute in I; repeat destruct I as [<-|I]; try (intros []; vm_compute; discriminate); destruct I.
    - intros s f I L. rewrite (NSRC s I) in L. discriminate L.
    - clear - IT. destruct IT as [<-|[<-|[<-|[<-|[]]]]]; intros []; vm_compute; reflexivity.
    - exact IN.
    - eexists; eexists; split; [exact CNE|split; [exact CNP|exact EE]]. }
  intros s a x y z I F. exfalso. unfold impresses_field in F. rewrite (NSRC s I) in F. discriminate F.
Qed.
Lemma small_mesh c f x y z : (forall a, numLines c a = 3) -> in_mesh c f x y z -> (x = 0 \/ x = 1 \/ x = 2) /\ (y = 0 \/ y = 1 \/ y = 2) /\ (z = 0 \/ z = 1 \/ z = 2).
Proof.
  intros NL I. pose proof (I XDIR) as I1. pose proof (I YDIR) as I2. pose proof (I ZDIR) as I3. cbv zeta in *. destruct I1 as (I1 & _), I2 as (I2 & _), I3 as (I3 & _). unfold meshAll, ypos in *. rewrite !NL in *.
  cbn [SpecGeom.coord face_lo face_hi is_lo face_axis] in *. destruct (staggered f XDIR), (staggered f YDIR), (staggered f ZDIR); lia.
Qed.
Definition pts (p : Plane) : list (Fld * Z * Z * Z) :=
  filter (fun q => match p with MagneticPlane => true | ElectricPlane => negb ((snd (fst (fst q)) =? 0) && negb (staggered (fst (fst (fst q))) XDIR)) end)
    (list_prod (list_prod (list_prod [Types.EX; EY; EZ; HX; HY; HZ] [0; 1; 2]) [0; 1; 2]) [0; 1; 2]).
Lemma in_pts p f x y z : (x = 0 \/ x = 1 \/ x = 2) /\ (y = 0 \/ y = 1 \/ y = 2) /\ (z = 0 \/ z = 1 \/ z = 2) -> (p = ElectricPlane -> ~ in_plane f x) -> In (f, x, y, z) (pts p).
Proof.
  intros (X & Y & Z0) NPL. unfold pts. apply filter_In. split.
  - repeat apply in_prod; cbn [In]; [destruct f; auto 7| | |]; intuition.
  - cbn [fst snd]. destruct p; [reflexivity|]. apply negb_true_iff. destruct (Z.eqb_spec x 0) as [->|]; [|reflexivity]. cbn [andb]. apply negb_false_iff. destruct (staggered f XDIR) eqn:Q; [reflexivity|]. exfalso. apply (NPL eq_refl). split; [reflexivity|exact Q].
Qed.
Lemma demo84_media p c c2 : cfgFor (half84 p) = Some c -> cfgFor (full84 p) = Some c2 -> forall f x y z, In (f, x, y, z) (pts p) ->
  matB f (2 + x) y z (regions c2 (full84 p) (linesOf (full84 p))) = matB f x y z (regions c (half84 p) (linesOf (half84 p))) /\ matB f (image (2 * 2) f (2 + x)) y z (regions c2 (full84 p) (linesOf (full84 p))) = matB f x y z (regions c (half84 p) (linesOf (half84 p))).
Proof.
  intros C C2 f x y z I.
  assert (M1 : map (fun q : Fld * Z * Z * Z => let '(f, x, y, z) := q in matB f (2 + x) y z (regions c2 (full84 p) (linesOf (full84 p)))) (pts p) = map (fun q : Fld * Z * Z * Z => let '(f, x, y, z) := q in matB f x y z (regions c (half84 p) (linesOf (half84 p)))) (pts p))
    by (clear I; destruct p; vm_compute in C, C2; injection C as <-; injection C2 as <-; vm_compute; reflexivity).
  assert (M2 : map (fun q : Fld * Z * Z * Z => let '(f, x, y, z) := q in matB f (image (2 * 2) f (2 + x)) y z (regions c2 (full84 p) (linesOf (full84 p)))) (pts p) = map (fun q : Fld * Z * Z * Z => let '(f, x, y, z) := q in matB f x y z (regions c (half84 p) (linesOf (half84 p)))) (pts p))
    by (clear I M1; destruct p; vm_compute in C, C2; injection C as <-; injection C2 as <-; vm_compute; reflexivity).
  split; [exact (ext_in_map M1 _ I)|exact (ext_in_map M2 _ I)].
Qed.
Lemma demo84_halved p c c2 (g : nat -> R) : cfgFor (half84 p) = Some c -> cfgFor (full84 p) = Some c2 ->
  halved p c c2 (half84 p) (full84 p) (linesOf (half84 p)) (linesOf (full84 p)) (fun t _ => g t) (fun t _ => g t) (fun t _ => g t) (fun t _ => g t).
Proof.
  intros C C2.
  assert (NL : forall a, numLines c a = 3) by (destruct p; vm_compute in C; injection C as <-; intros []; reflexivity).
  assert (HF : half c = 2) by (unfold half; rewrite NL; reflexivity).
  constructor; rewrite ?HF.
  - destruct p; vm_compute in C; injection C as <-; reflexivity.
  - destruct p; vm_compute in C, C2; injection C as <-; injection C2 as <-; (split; [intros [] N; try reflexivity; exfalso; apply N; reflexivity|]); cbn; repeat split; discriminate.
  - destruct p; vm_compute in C2; injection C2 as <-; (split; [reflexivity|]); intros [] N; rewrite NL; try reflexivity; exfalso; apply N; reflexivity.
  - intros a i N Hi. rewrite NL in Hi. assert (D : i = 0 \/ i = 1 \/ i = 2) by lia. clear - N D. unfold line. destruct a; [exfalso; apply N; reflexivity| |]; destruct p, D as [-> | [-> | ->]]; vm_compute; reflexivity.
  - intros i Hi. assert (D : i = 0 \/ i = 1 \/ i = 2) by lia. clear - D. unfold line. destruct p, D as [-> | [-> | ->]]; vm_compute; lra.
  - clear. destruct p; vm_compute; reflexivity.
  - intros f x y z mat (I & NPL) MO. destruct (small_mesh c f x y z NL I) as (DX & DY & DZ). rewrite (made_fun _ _ _ _ _ _ _ MO (matB_ok f x y z _)).
    destruct (demo84_media p c c2 C C2 f x y z) as (Q1 & Q2); [apply in_pts; [auto|exact NPL]|]. split; [rewrite <- Q1|rewrite <- Q2]; apply matB_ok.
  - intros t. assert (G : forall b, same_drive p c c2 (half84 p) (full84 p) (linesOf (half84 p)) (linesOf (full84 p)) b (fun _ => g t) (fun _ => g t)).
    2: { split; apply G. }
    intros b. split; rewrite ?HF.
    + intros f x y z J F _ (I & NPL) D. destruct (small_mesh c f x y z NL I) as (DX & DY & DZ).
      destruct (drives_fun _ _ _ _ _ _ _ _ _ _ _ _ D (drives_tot _ _ _ _ _ _ _ _)) as (-> & ->). clear D I NPL.
      remember (h_srcs (half84 p)) as L1 eqn:E1. remember (h_srcs (full84 p)) as L2 eqn:E2.
      split; apply drives_val; rewrite <- ?E2;
      destruct p; vm_compute in E1, E2; subst L1 L2; unfold impressed; cbn [tot fold_right s_tag t_type s_size impresses_field negb];
      destruct f, DX as [-> | [-> | ->]], DY as [-> | [-> | ->]], DZ as [-> | [-> | ->]];
      repeat match goal with |- context [covb ?f ?x ?y ?z ?s] => let v := eval vm_compute in (covb f x y z s) in change (covb f x y z s) with v end; cbn [andb imageSign sign]; lra.
    + intros -> f y z EB PL I. destruct (small_mesh c f 0 y z NL I) as (_ & DY & DZ). clear I.
      remember (h_srcs (half84 ElectricPlane)) as L1 eqn:E1. remember (h_srcs (full84 ElectricPlane)) as L2 eqn:E2. destruct PL as (_ & PL). split; apply drives_val; rewrite <- ?E2, <- ?E1; vm_compute in E2, E1; subst L2 L1; unfold impressed; cbn [tot fold_right s_tag t_type s_size impresses_field negb];
      destruct f; try discriminate PL; destruct DY as [-> | [-> | ->]], DZ as [-> | [-> | ->]];
      repeat match goal with |- context [covb ?f ?x ?y ?z ?s] => let v := eval vm_compute in (covb f x y z s) in change (covb f x y z s) with v end; cbn [andb]; lra.
Qed.
Example C84_nonvacuous : forall p (g : nat -> R), exists c c2 e e2 dt dt2 (d : Drv), let h := half84 p in let h2 := full84 p in
  box_problem c h (linesOf h) dt e /\ box_problem c2 h2 (linesOf h2) dt2 e2 /\ free_metal c h (linesOf h) /\ free_metal c2 h2 (linesOf h2) /\
  (exists s, set_up c h e dt (w_m s) /\ quiet (w_m s)) /\ (exists s, set_up c2 h2 e2 dt2 (w_m s) /\ quiet (w_m s)) /\
  (forall t s, d_wE d t s = g t) /\ halved p c c2 h h2 (linesOf h) (linesOf h2) (d_wE d) (d_wH d) (d_wE d) (d_wH d) /\
  List.length (h_blocks h) = 1%nat /\ List.length (h_srcs h) = 1%nat.
Proof.
  intros p g.
  destruct (cfgFor (half84 p)) as [c|] eqn:C; [|destruct p; vm_compute in C; discriminate C]. destruct (cfgFor (full84 p)) as [c2|] eqn:C2; [|destruct p; vm_compute in C2; discriminate C2].
  assert (B1 : exists e dt, box_problem c (half84 p) (linesOf (half84 p)) dt e /\ free_metal c (half84 p) (linesOf (half84 p))).
  { destruct p; [apply (demo84_box (textH MagneticPlane) c (or_introl eq_refl) C)|apply (demo84_box (textH ElectricPlane) c (or_intror (or_introl eq_refl)) C)]. }
  assert (B2 : exists e dt, box_problem c2 (full84 p) (linesOf (full84 p)) dt e /\ free_metal c2 (full84 p) (linesOf (full84 p))).
  { destruct p; [apply (demo84_box (textF MagneticPlane) c2 (or_intror (or_intror (or_introl eq_refl))) C2)|apply (demo84_box (textF ElectricPlane) c2 (or_intror (or_intror (or_intror (or_introl eq_refl)))) C2)]. }
  destruct B1 as (e & dt & B1 & F1). destruct B2 as (e2 & dt2 & B2 & F2).
  assert (DD : exists d : Drv, d_wE d = (fun t _ => g t) /\ d_wH d = (fun t _ => g t)) by (exists (mkDrv (fun t _ => g t) (fun t _ => g t) (fun _ _ _ _ _ _ => 0%R) (fun _ _ _ _ _ _ => 0%R)); split; reflexivity).
  destruct DD as (d & D1 & D2). exists c, c2, e, e2, dt, dt2, d. cbv zeta. rewrite D1, D2. do 4 (split; [assumption|]). do 2 (split; [apply set_up_ex|]). split; [reflexivity|]. split; [apply demo84_halved; assumption|].
  clear. destruct p; split; vm_compute; reflexivity.
Qed.
