(** C64, C65: complete runs. *)
From Coq Require Import ZArith Ascii String List Bool Reals Lra Lia.
From Verif Require Import Types Lang LangProofs BBox Grid Setup Pml Mur Ghost Step StepShape StepCount StepBounds Linear Media Medium Debye DebyeProofs
  Filter Sibc Source SourceProofs P_Source PlaneWave PwProofs P_PlaneWave SpecPw P_PwBounds SpecMedia P_Media SpecPhys SpecSibcMesh P_SibcMesh SetupProofs SpecGeom SpecGrid SpecCone Whole SpecWhole.
Import ListNotations.
Open Scope R_scope.
Local Arguments Z.mul : simpl never.
Local Arguments Z.add : simpl never.
Local Arguments Z.sub : simpl never.

(** ** C65 *)
Section Sup.
Variables (a b : R).

Lemma sup_cst v1 v2 v3 : v3 = both a v1 b v2 -> sup a b (Cst v1) (Cst v2) (Cst v3).
Proof. intros ->. constructor. Qed.
Lemma sup_flat_map {X} (l : list X) (g1 g2 g3 : X -> list (stmt R)) : (forall x, In x l -> sup_prog a b (g1 x) (g2 x) (g3 x)) ->
  sup_prog a b (flat_map g1 l) (flat_map g2 l) (flat_map g3 l).
Proof. induction l; cbn [flat_map]; intros H; [constructor|]. apply sup_prog_app; [apply H; cbn; auto|apply IHl; intros; apply H; cbn; auto]. Qed.
Lemma sup_faces3 bx (g1 g2 g3 : Z -> Z -> Z -> list (stmt R)) : (forall i j k, sup_prog a b (g1 i j k) (g2 i j k) (g3 i j k)) ->
  sup_prog a b (faces3 bx g1) (faces3 bx g2) (faces3 bx g3).
Proof. intros H. unfold faces3. apply sup_for; intros i. apply sup_for; intros j. apply sup_for; intros k. apply H. Qed.

(** *** plane waves *)
Lemma sup_cos3 (os1 os2 os3 : list (Corr R)) :
  sup_prog a b (flat_map (fun o => flat_item (coItem o)) os1) (flat_map (fun o => flat_item (coItem o)) os2) (flat_map (fun o => flat_item (coItem o)) os3) ->
  sup_prog a b (flat (map coItem os1)) (flat (map coItem os2)) (flat (map coItem os3)).
Proof.
  assert (X : forall os : list (Corr R), flat (map coItem os) = flat_map (fun o => flat_item (coItem o)) os).
  { induction os; cbn [map flat_map]; [reflexivity|]. rewrite flat_cons, IHos. reflexivity. }
  rewrite !X. auto.
Qed.
Definition bothF (u1 u2 : Field) : Field := fun f i j k => both a (u1 f i j k) b (u2 f i j k).
Lemma sup_pwE c p u1 u2 : sup_prog a b (flat (updatePlaneWaveE u1 (pwFlim c p) (pw_active p))) (flat (updatePlaneWaveE u2 (pwFlim c p) (pw_active p)))
  (flat (updatePlaneWaveE (bothF u1 u2) (pwFlim c p) (pw_active p))).
Proof.
  rewrite !updE_co by apply flim_collapsed. apply sup_cos3. unfold pwFaces. cbn [flat_map]. rewrite !flat_map_app.
  repeat apply sup_prog_app; try constructor.
  all: unfold coE; destruct (pw_active p _); [|constructor]; cbn [flat_map]; apply sup_prog_app; [|rewrite !app_nil_r]; sup_stmt; apply sup_cst; reflexivity.
Qed.
Lemma sup_pwH c p u1 u2 : sup_prog a b (flat (updatePlaneWaveH u1 (pwFlim c p) (pw_active p))) (flat (updatePlaneWaveH u2 (pwFlim c p) (pw_active p)))
  (flat (updatePlaneWaveH (bothF u1 u2) (pwFlim c p) (pw_active p))).
Proof.
  rewrite !updH_co by apply flim_collapsed. apply sup_cos3. unfold pwFaces. cbn [flat_map]. rewrite !flat_map_app.
  repeat apply sup_prog_app; try constructor.
  all: unfold coH; destruct (pw_active p _); [|constructor]; cbn [flat_map]; apply sup_prog_app; [|rewrite !app_nil_r]; sup_stmt; apply sup_cst; reflexivity.
Qed.
Lemma flat_flat {X} (f : X -> list (item R)) l : flat (flat_map f l) = flat_map (fun x => flat (f x)) l.
Proof. induction l; cbn [flat_map]; [reflexivity|]. rewrite flat_app, IHl. reflexivity. Qed.
Lemma sup_exciteE c g d1 d2 t : sup_prog a b (flat (exciteE c (g_de g) (g_dh g) (g_srcs g) (d_wE d1) (g_pws g) (d_iE d1) t))
  (flat (exciteE c (g_de g) (g_dh g) (g_srcs g) (d_wE d2) (g_pws g) (d_iE d2) t))
  (flat (exciteE c (g_de g) (g_dh g) (g_srcs g) (d_wE (bothD a d1 b d2)) (g_pws g) (d_iE (bothD a d1 b d2)) t)).
Proof.
  unfold exciteE. rewrite !flat_app, !flat_flat. apply sup_prog_app.
  - unfold srcRunE. rewrite !flat_srcE. apply src_sup.
  - apply sup_flat_map. intros p _. apply sup_pwE.
Qed.
Lemma sup_exciteH c g d1 d2 t : sup_prog a b (flat (exciteH c (g_de g) (g_dh g) (g_srcs g) (d_wH d1) (g_pws g) (d_iH d1) t))
  (flat (exciteH c (g_de g) (g_dh g) (g_srcs g) (d_wH d2) (g_pws g) (d_iH d2) t))
  (flat (exciteH c (g_de g) (g_dh g) (g_srcs g) (d_wH (bothD a d1 b d2)) (g_pws g) (d_iH (bothD a d1 b d2)) t)).
Proof.
  unfold exciteH. rewrite !flat_app, !flat_flat. apply sup_prog_app.
  - unfold srcRunH. rewrite !flat_srcH. apply src_sup.
  - apply sup_flat_map. intros p _. apply sup_pwH.
Qed.

(** *** sheets *)
Lemma sup_zeroE n i j k : sup_prog a b (zeroE n i j k) (zeroE n i j k) (zeroE n i j k).
Proof. destruct n; cbn [zeroE]; repeat (constructor; [discriminate|apply sup_cst; unfold both; ring|]); constructor. Qed.
Lemma sup_zeroH n i j k : sup_prog a b (zeroH n i j k) (zeroH n i j k) (zeroH n i j k).
Proof. destruct n; cbn [zeroH]; repeat (constructor; [discriminate|apply sup_cst; unfold both; ring|]); constructor. Qed.
Lemma sup_cdata d v1 v2 v3 : v3 = both a v1 b v2 -> datab d = true -> sup a b (Mul d (Cst v1)) (Mul d (Cst v2)) (Mul d (Cst v3)).
Proof. intros E D. apply sup_mull; [apply datab_spec; exact D|apply sup_cst; exact E]. Qed.
Lemma sup_hAdd f i j k e1 e2 e3 p1 p2 p3 : sup a b e1 e2 e3 -> sup_prog a b p1 p2 p3 ->
  sup_prog a b (hAdd f i j k e1 :: p1) (hAdd f i j k e2 :: p2) (hAdd f i j k e3 :: p3).
Proof.
  intros. unfold hAdd. constructor; [discriminate| |assumption]. apply sup_add; [apply sup_rd; discriminate|].
  apply sup_mull; [intros l [<-|[]]; reflexivity|assumption].
Qed.
Lemma sup_hSub f i j k e1 e2 e3 p1 p2 p3 : sup a b e1 e2 e3 -> sup_prog a b p1 p2 p3 ->
  sup_prog a b (hSub f i j k e1 :: p1) (hSub f i j k e2 :: p2) (hSub f i j k e3 :: p3).
Proof.
  intros. unfold hSub. constructor; [discriminate| |assumption]. apply sup_sub; [apply sup_rd; discriminate|].
  apply sup_mull; [intros l [<-|[]]; reflexivity|assumption].
Qed.
Lemma sup_sibcHface c fA fB e1 e2 e3 i j k n : (forall p, v4 e3 p = both a (v4 e1 p) b (v4 e2 p)) ->
  sup_prog a b (sibcHface c fA fB e1 i j k n) (sibcHface c fA fB e2 i j k n) (sibcHface c fA fB e3 i j k n).
Proof.
  intros H. pose proof (H p0) as H0. pose proof (H p1) as H1. pose proof (H p2) as H2. pose proof (H p3) as H3. cbn [v4] in *.
  destruct n; cbn [sibcHface]; unfold sibcHx, sibcHy, sibcHz; cbn zeta;
  (constructor; [discriminate|apply sup_cst; unfold both; ring|]);
  repeat (first [apply sup_hAdd|apply sup_hSub]; [unfold par; apply sup_mull; [apply datab_spec; reflexivity|
    first [apply sup_cdata; [assumption|reflexivity]|
           apply sup_add; (apply sup_mull; [apply datab_spec; reflexivity|apply sup_cdata; [assumption|reflexivity]])]]|]); constructor.
Qed.

Lemma sup_updateSibcH c (l : list (nat * (Sheet * (Z -> Z -> Z -> Flags) * (Z -> Z -> Z -> Flags)))) (E1 E2 E3 : nat -> Z -> Z -> Z -> V4) :
  (forall n i j k p, v4 (E3 n i j k) p = both a (v4 (E1 n i j k) p) b (v4 (E2 n i j k) p)) ->
  let S E := map (fun nx : nat * (Sheet * (Z -> Z -> Z -> Flags) * (Z -> Z -> Z -> Flags)) => let '(n, (sh, fA, fB)) := nx in mkSS sh fA fB (E n)) l in
  sup_prog a b (updateSibcH c (S E1)) (updateSibcH c (S E2)) (updateSibcH c (S E3)).
Proof.
  intros H S. unfold updateSibcH. apply sup_prog_app.
  - induction l as [|[n [[sh fA] fB]] l IH]; cbn [S map flat_map]; [constructor|]. apply sup_prog_app; [|exact IH].
    cbn [ss_sheet ss_A ss_B ss_E]. apply sup_faces3. intros. apply sup_sibcHface. intros. apply H.
  - induction l as [|[n [[sh fA] fB]] l IH]; cbn [S map flat_map]; [constructor|]. apply sup_prog_app; [|exact IH].
    cbn [ss_sheet ss_A ss_B ss_E]. apply sup_faces3. intros. apply sup_zeroH.
Qed.

(** *** filters *)
Lemma sup_stepPoles q : forall z1 z2 z3 o1 o2 o3 x1 x2 x3 y1 y2 y3, sup_cx a b z1 z2 z3 -> o3 = both a o1 b o2 -> x3 = both a x1 b x2 -> y3 = both a y1 b y2 ->
  sup_cx a b (fst (stepPoles q z1 o1 x1 y1)) (fst (stepPoles q z2 o2 x2 y2)) (fst (stepPoles q z3 o3 x3 y3)) /\
  snd (stepPoles q z3 o3 x3 y3) = both a (snd (stepPoles q z1 o1 x1 y1)) b (snd (stepPoles q z2 o2 x2 y2)).
Proof.
  induction q as [|[[q0 q1] q2] q IH]; intros z1 z2 z3 o1 o2 o3 x1 x2 x3 y1 y2 y3 Z O X Y; cbn [stepPoles].
  - cbn. split; [constructor|exact Y].
  - inversion Z as [|u v l1 l2 l3 Z']; subst; cbn [stepPoles].
    + cbn. split; [constructor|reflexivity].
    + match goal with |- context [stepPoles q l1 ?o ?x ?y] => set (Y1 := y) end.
      match goal with |- context [stepPoles q l2 ?o ?x ?y] => set (Y2 := y) end.
      match goal with |- context [stepPoles q l3 ?o ?x ?y] => set (Y3 := y) end.
      destruct (IH l1 l2 l3 o1 o2 _ x1 x2 _ Y1 Y2 Y3 Z' eq_refl eq_refl) as [I1 I2].
      { unfold Y1, Y2, Y3, cadd, cmul, cxR, bothC, both. cbn [re im]. ring. }
      destruct (stepPoles q l1 o1 x1 Y1) as [u1 w1] eqn:E1. destruct (stepPoles q l2 o2 x2 Y2) as [u2 w2] eqn:E2.
      destruct (stepPoles q l3 (both a o1 b o2) (both a x1 b x2) Y3) as [u3 w3] eqn:E3. cbn [fst snd] in *. split; [|exact I2].
      match goal with |- sup_cx a b (?p :: _) (?r :: _) (?s :: _) => replace s with (bothC a p b r) end; [constructor; exact I1|].
      unfold cadd, cmul, cxR, bothC, both. cbn [re im]. f_equal; ring.
Qed.
Definition sup_rs (s1 s2 s3 : RecConvState) : Prop := rsOld s3 = both a (rsOld s1) b (rsOld s2) /\ sup_cx a b (rsZeta s1) (rsZeta s2) (rsZeta s3).
Lemma sup_recConv rc s1 s2 s3 x1 x2 x3 : sup_rs s1 s2 s3 -> x3 = both a x1 b x2 ->
  sup_rs (fst (recConvStep rc s1 x1)) (fst (recConvStep rc s2 x2)) (fst (recConvStep rc s3 x3)) /\
  snd (recConvStep rc s3 x3) = both a (snd (recConvStep rc s1 x1)) b (snd (recConvStep rc s2 x2)).
Proof.
  intros [O Z] X. unfold recConvStep.
  destruct (sup_stepPoles (rcQ rc) _ _ _ _ _ _ x1 x2 x3 (rcAsymp rc * x1) (rcAsymp rc * x2) (rcAsymp rc * x3) Z O X) as [I1 I2].
  { rewrite X. unfold both. ring. }
  destruct (stepPoles _ (rsZeta s1) _ _ _), (stepPoles _ (rsZeta s2) _ _ _), (stepPoles _ (rsZeta s3) _ _ _). cbn [fst snd] in *.
  split; [split; cbn; assumption|assumption].
Qed.
Definition sup_v (x y z : V4) : Prop := forall p, v4 z p = both a (v4 x p) b (v4 y p).
Lemma sup_mat A x y z : sup_v x y z -> sup_v (matMulVector A x) (matMulVector A y) (matMulVector A z).
Proof.
  intros H p. pose proof (H p0) as H0. pose proof (H p1) as H1. pose proof (H p2) as H2. pose proof (H p3) as H3. cbn [v4] in *.
  destruct p; unfold matMulVector, dot4, both in *; cbn [v4 v0 v1 v2 v3]; rewrite H0, H1, H2, H3; ring.
Qed.
Lemma sup_sheet plus cosa sina rcm st1 st2 st3 h1 h2 h3 : (forall p q, sup_rs (st1 p q) (st2 p q) (st3 p q)) -> sup_v h1 h2 h3 ->
  (forall p q, sup_rs (fst (sheet plus cosa sina rcm st1 h1) p q) (fst (sheet plus cosa sina rcm st2 h2) p q) (fst (sheet plus cosa sina rcm st3 h3) p q)) /\
  sup_v (snd (sheet plus cosa sina rcm st1 h1)) (snd (sheet plus cosa sina rcm st2 h2)) (snd (sheet plus cosa sina rcm st3 h3)).
Proof.
  intros S H. unfold sheet, sibcStep. cbn [fst snd].
  pose proof (sup_mat (matA plus cosa sina) _ _ _ H) as HI. split.
  - intros p q. apply sup_recConv; [apply S|apply HI].
  - apply sup_mat. intros p.
    assert (X : forall q, snd (recConvStep (rcm p q) (st3 p q) (v4 (matMulVector (matA plus cosa sina) h3) q)) =
      both a (snd (recConvStep (rcm p q) (st1 p q) (v4 (matMulVector (matA plus cosa sina) h1) q))) b (snd (recConvStep (rcm p q) (st2 p q) (v4 (matMulVector (matA plus cosa sina) h2) q)))).
    { intros q. apply sup_recConv; [apply S|apply HI]. }
    assert (Y : forall u : I4 -> R, v4 (ofF u) p = u p) by (intros; destruct p; reflexivity). rewrite !Y. unfold idx4. cbn [fold_left]. rewrite !X. unfold both. ring.
Qed.
Lemma sup_htan n fA fB m1 m2 m3 i j k : sup_mem a b m1 m2 m3 -> sup_v (htan n fA fB m1 i j k) (htan n fA fB m2 i j k) (htan n fA fB m3 i j k).
Proof.
  intros [_ HS] p. unfold htan.
  assert (X : forall g : I4 -> R, v4 (ofF g) p = g p) by (intros; destruct p; reflexivity). rewrite !X.
  assert (ST : is_state (fst (htanReads n i j k p)) /\ is_state (snd (htanReads n i j k p))) by (destruct n, p; split; discriminate).
  destruct (htanReads n i j k p) as [u w]. cbn [fst snd] in ST. destruct ST as [S1 S2]. rewrite (HS u S1), (HS w S2). unfold both. ring.
Qed.
Lemma sup_sibcEface s1 s2 s3 x : sup_w a b s1 s2 s3 -> sup_w a b (sibcEface s1 x) (sibcEface s2 x) (sibcEface s3 x).
Proof.
  intros [M J L0 O Z E]. destruct x as [[n [[sh fA] fB]] [[i j] k]]. unfold sibcEface.
  pose proof (sup_run a b _ _ _ (sup_zeroE (sb_normal sh) i j k) _ _ _ M) as M'.
  pose proof (sup_sheet (sb_plus sh) (sb_cosa sh) (sb_sina sh) (sb_rcm sh) (w_st s1 n i j k) (w_st s2 n i j k) (w_st s3 n i j k) _ _ _
    (fun p q => conj (O n i j k p q) (Z n i j k p q)) (sup_htan (sb_normal sh) (fA i j k) (fB i j k) _ _ _ i j k M')) as [SS SE].
  destruct (sheet _ _ _ _ (w_st s1 n i j k) _) as [t1 e1]. destruct (sheet _ _ _ _ (w_st s2 n i j k) _) as [t2 e2].
  destruct (sheet _ _ _ _ (w_st s3 n i j k) _) as [t3 e3]. cbn [fst snd] in *.
  constructor; cbn [w_m w_J w_L w_st w_E]; auto.
  - intros n' i' j' k' p q. unfold at3f. destruct (_ && _ && _ && _); [apply SS|apply O].
  - intros n' i' j' k' p q. unfold at3f. destruct (_ && _ && _ && _); [apply SS|apply Z].
  - intros n' i' j' k' p. unfold at3f. destruct (_ && _ && _ && _); [apply SE|apply E].
Qed.
Lemma sup_sibcE g s1 s2 s3 : sup_w a b s1 s2 s3 -> sup_w a b (sibcE g s1) (sibcE g s2) (sibcE g s3).
Proof.
  unfold sibcE. revert s1 s2 s3. induction (allFaces g) as [|x l IH]; intros s1 s2 s3 H; cbn [fold_left]; [exact H|].
  apply IH. apply sup_sibcEface. exact H.
Qed.

(** *** dispersive blocks *)
Record sup_d (d1 d2 d3 : DState) : Prop := mkSD {
  sd_E : forall f i j k, is_E f = true -> Debye.sE d3 f i j k = both a (Debye.sE d1 f i j k) b (Debye.sE d2 f i j k);
  sd_J : forall n f i j k, sup_cx a b (sJ d1 n f i j k) (sJ d2 n f i j k) (sJ d3 n f i j k);
  sd_L : forall n f i j k, sL d3 n f i j k = both a (sL d1 n f i j k) b (sL d2 n f i j k) }.
Lemma sup_Jsum dt ps : forall j1 j2 j3 s1 s2 s3, sup_cx a b j1 j2 j3 -> s3 = bothC a s1 b s2 ->
  fold_left (fun s pj => cadd s (cmul (cadd (cxR 1) (dalpha dt (fst pj))) (snd pj))) (combine ps j3) s3 =
  bothC a (fold_left (fun s pj => cadd s (cmul (cadd (cxR 1) (dalpha dt (fst pj))) (snd pj))) (combine ps j1) s1)
        b (fold_left (fun s pj => cadd s (cmul (cadd (cxR 1) (dalpha dt (fst pj))) (snd pj))) (combine ps j2) s2).
Proof.
  induction ps as [|p ps IH]; intros j1 j2 j3 s1 s2 s3 H S; [exact S|].
  inversion H as [|u v l1 l2 l3 H']; subst; [reflexivity|]. cbn [combine fold_left fst snd]. apply IH; [exact H'|].
  unfold bothC, cadd, cmul, both. cbn [re im]. f_equal; ring.
Qed.
Lemma sup_debyeBody eps0 dt beta n blk d1 d2 d3 p : is_E (fst (fst (fst p))) = true -> sup_d d1 d2 d3 ->
  sup_d (debyeBody eps0 dt beta n blk d1 p) (debyeBody eps0 dt beta n blk d2 p) (debyeBody eps0 dt beta n blk d3 p).
Proof.
  destruct p as [[[f i] j] k]. cbn [fst]. intros IE [E J L0]. unfold debyeBody.
  assert (HE : Debye.sE d3 f i j k - beta f i j k * re (Jsum dt (db_poles blk) (sJ d3 n f i j k)) =
    both a (Debye.sE d1 f i j k - beta f i j k * re (Jsum dt (db_poles blk) (sJ d1 n f i j k))) b (Debye.sE d2 f i j k - beta f i j k * re (Jsum dt (db_poles blk) (sJ d2 n f i j k)))).
  { unfold Jsum. rewrite (sup_Jsum dt (db_poles blk) _ _ _ (cxR 0) (cxR 0) (cxR 0) (J n f i j k)).
    - rewrite E by assumption. unfold bothC, both. cbn [re]. ring.
    - unfold bothC, cxR, both. cbn [re im]. f_equal; ring. }
  set (e1 := Debye.sE d1 f i j k - _) in *. set (e2 := Debye.sE d2 f i j k - _) in *. set (e3 := Debye.sE d3 f i j k - _) in *. clearbody e1 e2 e3.
  constructor; cbn [Debye.sE sJ sL].
  - intros f' i' j' k' IE'. unfold at4. destruct (_ && _ && _ && _); [exact HE|apply E; exact IE'].
  - intros n' f' i' j' k'. unfold atB. destruct (Nat.eqb n' n); [|apply J]. unfold at4. destruct (_ && _ && _ && _); [|apply J].
    pose proof (J n f i j k) as Jn. rewrite (L0 n f i j k). revert Jn. generalize (sJ d1 n f i j k) (sJ d2 n f i j k) (sJ d3 n f i j k) (sL d1 n f i j k) (sL d2 n f i j k).
    induction (db_poles blk) as [|p ps IH]; intros j1 j2 j3 x1 x2 Jn; cbn [combine map]; [constructor|].
    inversion Jn as [|u v l1 l2 l3 H']; subst; cbn [combine map fst snd]; [constructor|].
    match goal with |- sup_cx a b (?p :: _) (?r :: _) (?s :: _) => replace s with (bothC a p b r) end; [constructor; apply IH; exact H'|].
    unfold cadd, cmul, cxR, bothC, both. cbn [re im]. f_equal; ring.
  - intros n' f' i' j' k'. unfold atB. destruct (Nat.eqb n' n); [|apply L0]. unfold at4. destruct (_ && _ && _ && _); [exact HE|apply L0].
Qed.
Lemma sup_debyeFrom eps0 dt beta blks : forall n d1 d2 d3, sup_d d1 d2 d3 ->
  sup_d (updateDebyeFrom eps0 dt beta n blks d1) (updateDebyeFrom eps0 dt beta n blks d2) (updateDebyeFrom eps0 dt beta n blks d3).
Proof.
  induction blks as [|blk blks IH]; intros n d1 d2 d3 H; cbn [updateDebyeFrom]; [exact H|]. apply IH. unfold updateBlock.
  assert (X : forall p, In p (blockPoints blk) -> is_E (fst (fst (fst p))) = true) by (intros [[[f i] j] k] Hp; apply (in_blockPoints beta) in Hp; exact (proj1 Hp)).
  revert X d1 d2 d3 H. induction (blockPoints blk) as [|p l IHl]; intros X d1 d2 d3 H; cbn [fold_left]; [exact H|].
  apply IHl; [intros; apply X; cbn; auto|]. apply sup_debyeBody; [apply X; cbn; auto|exact H].
Qed.
Lemma sup_debyeStep g s1 s2 s3 : sup_w a b s1 s2 s3 -> sup_w a b (debyeStep g s1) (debyeStep g s2) (debyeStep g s3).
Proof.
  intros [M J L0 O Z E]. unfold debyeStep.
  assert (B1 : (fun f i j k => w_m s3 (L (ABeta f) i j k)) = (fun f i j k => w_m s1 (L (ABeta f) i j k)) /\ (fun f i j k => w_m s2 (L (ABeta f) i j k)) = (fun f i j k => w_m s1 (L (ABeta f) i j k))).
  { split; do 4 (apply FunctionalExtensionality.functional_extensionality; intro);
    destruct M as [MD _]; match goal with |- _ = w_m s1 ?l => destruct (MD l eq_refl) end; congruence. }
  destruct B1 as [-> ->]. set (beta := fun f i j k => w_m s1 (L (ABeta f) i j k)). unfold updateDebyeBlocksEfield.
  cbn zeta.
  match goal with |- sup_w a b (mkW (putE ?x _) _ _ _ _) (mkW (putE ?y _) _ _ _ _) (mkW (putE ?z _) _ _ _ _) => assert (D : sup_d x y z) end.
  { apply sup_debyeFrom. constructor; cbn [Debye.sE sJ sL]; auto. intros f i j k IE. apply (proj2 M). discriminate. }
  destruct D as [DE DJ DL].
  constructor; cbn [w_m w_J w_L w_st w_E]; auto. destruct M as [MD MS]. unfold putE. split; intros l Hl.
  - destruct (arr l) eqn:A; auto. exfalso. destruct l as [r i j k]. cbn [arr] in A. subst r. discriminate Hl.
  - destruct l as [r i j k]. cbn [arr li lj lk]. destruct r; try (apply MS; exact Hl). destruct (is_E f) eqn:IE; [apply DE; exact IE|apply MS; exact Hl].
Qed.

(** *** a step and a run *)
Lemma sup_core c p m1 m2 m3 : (forall s, In s (flat p) -> In s (flat (coreStep c))) -> sup_mem a b m1 m2 m3 ->
  sup_mem a b (run rArith (flat p) m1) (run rArith (flat p) m2) (run rArith (flat p) m3).
Proof. intros H. apply sup_run. apply lin_prog. intros s Hs. apply (coreStep_lin c). auto. Qed.
Lemma in_core c : (forall s, In s (flat (phaseE (V:=R) c)) \/ In s (flat (updateGhostEfield c)) \/
      In s (flat (phaseH c)) \/ In s (flat (updateGhostHfield c)) -> In s (flat (coreStep c))).
Proof. intros s Hs. unfold coreStep, timeStep. cbn [app]. rewrite !flat_app, !in_app_iff. tauto. Qed.
Lemma sup_set m1 m2 m3 s1 s2 s3 : sup_w a b s1 s2 s3 -> sup_mem a b m1 m2 m3 -> sup_w a b (set_m m1 s1) (set_m m2 s2) (set_m m3 s3).
Proof. intros [M J L0 O Z E] M'. constructor; cbn [set_m w_m w_J w_L w_st w_E]; auto. Qed.
Lemma sup_wstep c g d1 d2 t s1 s2 s3 : sup_w a b s1 s2 s3 ->
  sup_w a b (wstep c g d1 t s1) (wstep c g d2 t s2) (wstep c g (bothD a d1 b d2) t s3).
Proof.
  intros H. unfold wstep. cbn zeta.
  assert (H2 : sup_w a b (sibcE g (debyeStep g (set_m (run rArith (flat (phaseE c)) (w_m s1)) s1)))
      (sibcE g (debyeStep g (set_m (run rArith (flat (phaseE c)) (w_m s2)) s2))) (sibcE g (debyeStep g (set_m (run rArith (flat (phaseE c)) (w_m s3)) s3)))).
  { apply sup_sibcE, sup_debyeStep, sup_set; [exact H|]. apply (sup_core c); [intros; apply in_core; auto|apply sw_m, H]. }
  set (u1 := sibcE g (debyeStep g (set_m (run rArith (flat (phaseE c)) (w_m s1)) s1))) in *.
  set (u2 := sibcE g (debyeStep g (set_m (run rArith (flat (phaseE c)) (w_m s2)) s2))) in *.
  set (u3 := sibcE g (debyeStep g (set_m (run rArith (flat (phaseE c)) (w_m s3)) s3))) in *. clearbody u1 u2 u3.
  apply sup_set; [exact H2|].
  apply (sup_core c); [intros; apply in_core; auto|].
  apply sup_run; [apply sup_exciteH|].
  apply sup_run; [apply sup_updateSibcH; apply (sw_E _ _ _ _ _ H2)|].
  apply (sup_core c); [intros; apply in_core; auto|].
  apply (sup_core c); [intros; apply in_core; auto|].
  apply sup_run; [apply sup_exciteE|]. apply sw_m, H2.
Qed.
End Sup.

(** Complete runs superpose: every field value, PML variable, polarisation
    current, filter state and sheet field, after any number of steps. *)
Theorem C65_superposition : forall c g a b d1 d2 n t s1 s2 s3, sup_w a b s1 s2 s3 ->
  sup_w a b (wrun c g d1 t n s1) (wrun c g d2 t n s2) (wrun c g (bothD a d1 b d2) t n s3).
Proof.
  induction n; intros t s1 s2 s3 H; cbn [wrun]; [exact H|]. apply IHn. apply sup_wstep. exact H.
Qed.

Lemma start_sup g a b m : quiet m -> sup_w a b (start g m) (start g m) (start g m).
Proof.
  assert (Z : forall {X} (l : list X), sup_cx a b (map (fun _ => cxR 0) l) (map (fun _ => cxR 0) l) (map (fun _ => cxR 0) l)).
  { induction l; cbn [map]; [constructor|]. replace (cxR 0) with (bothC a (cxR 0) b (cxR 0)) at 3; [constructor; assumption|].
    unfold bothC, both, cxR. cbn [re im]. f_equal; ring. }
  intros Q. constructor; cbn [start w_m w_J w_L w_st w_E].
  - split; [auto|]. intros l Hl. rewrite Q by assumption. ring.
  - intros n f i j k. unfold zeroJ. destruct (nth_error (g_blocks g) n); [apply Z|constructor].
  - intros. unfold zeroL, both. ring.
  - intros. destruct (nth_error (g_sheets g) n) as [[[sh ?] ?]|]; unfold states0, both; cbn; ring.
  - intros. destruct (nth_error (g_sheets g) n) as [[[sh ?] ?]|]; unfold states0; cbn [allocRecConvState rsZeta rcQ]; [apply Z|constructor].
  - intros. unfold both. destruct p; cbn; ring.
Qed.

(** Three complete simulations from rest; the third one driven by a times the
    first excitation plus b times the second: every field value of the third, at
    every step and point, is a times the first plus b times the second. *)
Theorem C65_fields : forall c g a b d1 d2 n m, quiet m ->
  forall f i j k,
  fld (w_m (wrun c g (bothD a d1 b d2) 0 n (start g m))) f i j k =
  a * fld (w_m (wrun c g d1 0 n (start g m))) f i j k + b * fld (w_m (wrun c g d2 0 n (start g m))) f i j k.
Proof.
  intros c g a b d1 d2 n m Q f i j k. pose proof (C65_superposition c g a b d1 d2 n 0 _ _ _ (start_sup g a b m Q)) as H.
  unfold fld. rewrite (proj2 (sw_m _ _ _ _ _ H)) by discriminate. reflexivity.
Qed.
(** Without excitation everything stays zero, also the memory of PML, media and
    sheets. *)
Theorem C65_quiescent : forall c g d n m, quiet m ->
  (forall t s, d_wE d t s = 0 /\ d_wH d t s = 0) -> (forall t p f i j k, d_iE d t p f i j k = 0 /\ d_iH d t p f i j k = 0) ->
  let s := wrun c g d 0 n (start g m) in
  quiet (w_m s) /\ (forall b f i j k, Forall (fun z => z = cxR 0) (w_J s b f i j k)) /\
  (forall b f i j k, w_L s b f i j k = 0) /\ (forall h i j k p q, rsOld (w_st s h i j k p q) = 0 /\ Forall (fun z => z = cxR 0) (rsZeta (w_st s h i j k p q))) /\
  (forall h i j k, w_E s h i j k = mkV 0 0 0 0).
Proof.
  intros c g d n m Q W I. cbn zeta.
  assert (D : d = bothD 0 d 0 d).
  { destruct d as [wE wH iE iH]. unfold bothD, both. cbn [d_wE d_wH d_iE d_iH] in *. f_equal.
    - do 2 (apply FunctionalExtensionality.functional_extensionality; intro). rewrite (proj1 (W _ _)). ring.
    - do 2 (apply FunctionalExtensionality.functional_extensionality; intro). rewrite (proj2 (W _ _)). ring.
    - do 6 (apply FunctionalExtensionality.functional_extensionality; intro). rewrite (proj1 (I _ _ _ _ _ _)). ring.
    - do 6 (apply FunctionalExtensionality.functional_extensionality; intro). rewrite (proj2 (I _ _ _ _ _ _)). ring. }
  pose proof (C65_superposition c g 0 0 d d n 0 _ _ _ (start_sup g 0 0 m Q)) as H. rewrite <- D in H.
  assert (Z : forall l1 l2 l3, sup_cx 0 0 l1 l2 l3 -> Forall (fun z => z = cxR 0) l3).
  { induction 1; constructor; auto. unfold bothC, both, cxR. f_equal; ring. }
  destruct H as [M J L0 O Ze E]. split; [|split; [|split; [|split]]].
  - intros l Hl. rewrite (proj2 M) by assumption. ring.
  - intros. eapply Z. apply J.
  - intros. rewrite L0. unfold both. ring.
  - intros. split; [rewrite O; unfold both; ring|eapply Z; apply Ze].
  - intros h i j k. pose proof (E h i j k p0) as E0. pose proof (E h i j k p1) as E1. pose proof (E h i j k p2) as E2. pose proof (E h i j k p3) as E3.
    destruct (w_E (wrun c g d 0 n (start g m)) h i j k) as [x0 x1 x2 x3]. unfold both in *. cbn [v4 v0 v1 v2 v3] in *. f_equal; lra.
Qed.

(** ** Without dispersive blocks and sheets the complete run is the run of the
    earlier theorems. *)
Theorem C64_plain_run : forall c g d, g_blocks g = [] -> g_sheets g = [] -> forall n t s,
  w_m (wrun c g d t n s) = run rArith (flat (steps c (exciteE c (g_de g) (g_dh g) (g_srcs g) (d_wE d) (g_pws g) (d_iE d))
                                             (exciteH c (g_de g) (g_dh g) (g_srcs g) (d_wH d) (g_pws g) (d_iH d)) t n)) (w_m s).
Proof.
  intros c g d HB HS. 
  assert (ST : forall t s, w_m (wstep c g d t s) = run rArith (flat (Step.timeStep c (exciteE c (g_de g) (g_dh g) (g_srcs g) (d_wE d) (g_pws g) (d_iE d) t)
                                             (exciteH c (g_de g) (g_dh g) (g_srcs g) (d_wH d) (g_pws g) (d_iH d) t))) (w_m s)).
  { intros t s. unfold wstep, sibcE, allFaces, sheetsNow. rewrite HS. cbn zeta. cbn [numbered flat_map map fold_left].
    unfold debyeStep, updateDebyeBlocksEfield. rewrite HB. cbn [updateDebyeFrom set_m w_m].
    set (E := flat (exciteE _ _ _ _ _ _ _ _)). set (H := flat (exciteH _ _ _ _ _ _ _ _)).
    unfold Step.timeStep. rewrite !flat_app, !run_app. fold E H.
    unfold updateSibcH. cbn [flat_map app]. unfold run at 3. cbn [fold_left].
    set (m1 := run rArith (flat (phaseE c)) (w_m s)).
    match goal with |- context [putE ?d m1] => assert (P : putE d m1 = m1) end; [|rewrite P; reflexivity].
    apply FunctionalExtensionality.functional_extensionality. intros [r i j k]. unfold putE. cbn. destruct r; try reflexivity. destruct (is_E f); reflexivity. }
  induction n; intros t s; cbn [wrun steps]; [reflexivity|]. rewrite flat_app, run_app, IHn, ST. reflexivity.
Qed.

(** ** C64 *)
Lemma runO_run d (ss : list (stmt R)) m m' : runO rArith d ss m = Some m' -> m' = run rArith ss m.
Proof.
  intros H. destruct (forallb (sinb d) ss) eqn:B.
  - rewrite forallb_forall in B. rewrite runO_some in H by exact B. congruence.
  - exfalso. assert (X : exists s, In s ss /\ sinb d s = false).
    { clear H. induction ss as [|s ss IH]; [discriminate B|]. cbn [forallb] in B. destruct (sinb d s) eqn:S; [|exists s; cbn; auto].
      destruct IH as (x & ? & ?); [exact B|]. exists x. cbn. auto. }
    destruct X as (s & H1 & H2). rewrite (runO_none rArith d ss m s H1 H2) in H. discriminate H.
Qed.
Lemma in_numbered {X} (l : list X) : forall n x, In x (numbered n l) -> In (snd x) l.
Proof. induction l; cbn; [tauto|]. intros n x [<- | H]; auto. right. eapply IHl; eauto. Qed.
Lemma sheetsNow_sheets g s x : In x (sheetsNow g s) -> exists y, In y (g_sheets g) /\ ss_sheet x = fst (fst y).
Proof.
  unfold sheetsNow. intros H. apply in_map_iff in H. destruct H as ([n [[sh fA] fB]] & <- & H). apply in_numbered in H. exists (sh, fA, fB). cbn in *. auto.
Qed.
Lemma allFaces_in g n sh fA fB i j k : In (n, (sh, fA, fB), (i, j, k)) (allFaces g) -> In (sh, fA, fB) (g_sheets g) /\ faceIn (sb_box sh) i j k.
Proof.
  unfold allFaces. intros H. apply in_flat_map in H. destruct H as ([n' [[sh' fA'] fB']] & H1 & H2). apply in_numbered in H1. cbn [fst snd] in *.
  apply in_faces3 in H2. destruct H2 as (i' & j' & k' & F & [H2|[]]). injection H2; intros; subst. auto.
Qed.
Lemma faceInb_ok c x n sh fA fB i j k : wf c -> accepted_sheet c sh -> x = (n, (sh, fA, fB), (i, j, k)) -> faceIn (sb_box sh) i j k -> faceInb c x = true.
Proof.
  intros W A -> F. unfold faceInb. destruct (sheet_faces c _ W A) as [_ Q]. specialize (Q i j k F). pose proof (Q XDIR) as QX. pose proof (Q YDIR) as QY. pose proof (Q ZDIR) as QZ.
  clear F Q. cfg_facts c W. apply andb_true_iff. split; apply forallb_forall.
  - intros s H. destruct (sb_normal sh); cbn [axis_eqb ind face_lo face_hi zeroE In] in *;
    repeat (destruct H as [<-|H]; [unfold sinb; apply andb_true_iff; split; [eapply inb_iff; [reflexivity|]; unfold within, dims3; lia|reflexivity]|]); contradiction.
  - intros p _. destruct (sb_normal sh), p; cbn [htanReads axis_eqb ind face_lo face_hi] in *; apply andb_true_iff; split; (eapply inb_iff; [reflexivity|]; unfold within, dims3; lia).
Qed.
Lemma debye_ok c blk p : wf c -> (exists b incl, in_mesh_box c b /\ db_lim blk = setFieldLimits (offsetBoundingBox b (gibox c)) incl) ->
  In p (blockPoints blk) -> debyeInb c blk p = true.
Proof.
  intros W (b & incl & B & E) H. destruct p as [[[f i] j] k]. apply (in_blockPoints (fun _ _ _ _ => 0)) in H. destruct H as [IE H].
  unfold debyeInb. unfold inl in H. pose proof (B XDIR) as BX. pose proof (B YDIR) as BY. pose proof (B ZDIR) as BZ.
  assert (X : within (dims3 c) i j k).
  { rewrite E in H. cfg_facts c W. unfold within, dims3. destruct f; try discriminate IE;
    unfold setFieldLimits, offsetBoundingBox in H; cbn [fieldIsInBoundary face_lo face_hi] in *;
    repeat match goal with _ : context [incl ?x] |- _ => generalize dependent (incl x); intros [] ? end; lia. }
  rewrite !andb_true_iff. repeat (split; [|]); try (eapply inb_iff; [reflexivity|]; exact X); lia.
Qed.
Lemma blocks_ok c med blocks blk : Forall (accepted_block c) blocks -> In blk (initDebyeBlocks c med blocks) ->
  exists b incl, in_mesh_box c b /\ db_lim blk = setFieldLimits (offsetBoundingBox b (gibox c)) incl.
Proof.
  intros H I. unfold initDebyeBlocks in I. apply in_flat_map in I. destruct I as (b & Ib & I). rewrite Forall_forall in H.
  destruct (H b Ib) as (M & media & box & name & mask & P).
  destruct (proj1 (C03_accepted_box_partial c) M media box name mask b P) as (E & (B & _) & _).
  destruct (med (medium_b b)) as [[] ps]; try contradiction. destruct I as [<-|[]]. exists (bbox_b b), (faceMask2boolArray (mask_b b)). rewrite E. split; [exact B|reflexivity].
Qed.

Theorem C64_in_bounds : forall nx ny nz reg c, setupCfg nx ny nz reg = Some c ->
  forall wfs med blocks g, accepted c wfs med blocks g ->
  forall d n t s, wrunO c g d t n s = Some (wrun c g d t n s).
Proof.
  intros nx ny nz reg c HS wfs med blocks g [AS AP AH AB AD] d. pose proof (setup_wf _ _ _ _ _ HS) as W.
  assert (CORE : forall p m, (forall s, In s (flat p) -> In s (flat (coreStep (V:=R) c))) -> runO rArith (dims c) (flat p) m = Some (run rArith (flat p) m)).
  { intros p m Hp. apply runO_some. intros s Hs. apply coreStep_inb; auto. }
  assert (X : forall electric w s, In s (flat_map (src electric) (map (fun s => actOf c (g_de g) (g_dh g) s (w s)) (g_srcs g))) -> sinb (dims c) s = true).
  { intros electric w s H. apply in_flat_map in H. destruct H as (a & Ia & H). apply in_map_iff in Ia. destruct Ia as (x & <- & Ix).
    rewrite Forall_forall in AS. destruct (accepted_src_ok c wfs x (AS x Ix)) as ((B & _) & _).
    eapply src_inb; eauto. exists (s_mbbox x). split; [exact B|]. unfold actOf. destruct (convert _ _ _ _) as [[? ?] ?]. reflexivity. }
  assert (XE : forall t m, runO rArith (dims c) (flat (exciteE c (g_de g) (g_dh g) (g_srcs g) (d_wE d) (g_pws g) (d_iE d) t)) m =
     Some (run rArith (flat (exciteE c (g_de g) (g_dh g) (g_srcs g) (d_wE d) (g_pws g) (d_iE d) t)) m)).
  { intros t m. apply runO_some. intros s H. unfold exciteE in H. rewrite flat_app, in_app_iff in H. destruct H as [H|H].
    - unfold srcRunE in H. rewrite flat_srcE in H. eapply X; eauto.
    - apply flat_flat_map in H. destruct H as (p & Ip & H). rewrite Forall_forall in AP. destruct (AP p Ip) as [A Z]. apply accepted_pw_ok in A. destruct A as (A & ? & ?).
      eapply corrE_inb; [exact W|exact A| |exact H]. intros []; assumption. }
  assert (XH : forall t m, runO rArith (dims c) (flat (exciteH c (g_de g) (g_dh g) (g_srcs g) (d_wH d) (g_pws g) (d_iH d) t)) m =
     Some (run rArith (flat (exciteH c (g_de g) (g_dh g) (g_srcs g) (d_wH d) (g_pws g) (d_iH d) t)) m)).
  { intros t m. apply runO_some. intros s H. unfold exciteH in H. rewrite flat_app, in_app_iff in H. destruct H as [H|H].
    - unfold srcRunH in H. rewrite flat_srcH in H. eapply X; eauto.
    - apply flat_flat_map in H. destruct H as (p & Ip & H). rewrite Forall_forall in AP. destruct (AP p Ip) as [A Z]. apply accepted_pw_ok in A. destruct A as (A & ? & ?).
      eapply corrH_inb; [exact W|exact A| |exact H]. intros []; assumption. }
  assert (DB : forall s, debyeStepO c g s = Some (debyeStep g s)).
  { intros s. unfold debyeStepO. replace (forallb _ _) with true; [reflexivity|]. symmetry. apply forallb_forall. intros blk Hb. apply forallb_forall. intros p Hp.
    rewrite AD in Hb. eapply debye_ok; eauto. eapply blocks_ok; eauto. }
  rewrite Forall_forall in AH.
  assert (SB : forall s, sibcEO c g s = Some (sibcE g s)).
  { intros s. unfold sibcEO. replace (forallb _ _) with true; [reflexivity|]. symmetry. apply forallb_forall. intros [[n [[sh fA] fB]] [[i j] k]] Hx.
    apply allFaces_in in Hx. destruct Hx as [H1 H2]. eapply faceInb_ok; eauto. }
  assert (SH : forall s m, runO rArith (dims c) (updateSibcH c (sheetsNow g s)) m = Some (run rArith (updateSibcH c (sheetsNow g s)) m)).
  { intros s m. destruct (C61_in_bounds nx ny nz reg c HS (sheetsNow g s)) as (_ & H & _).
    - apply Forall_forall. intros x Hx. apply sheetsNow_sheets in Hx. destruct Hx as (y & Hy & E). rewrite E. apply (AH _ Hy).
    - destruct (H m) as [m' Hm]. rewrite Hm. f_equal. apply (runO_run (dims c) _ _ _ Hm). }
  assert (ST : forall t s, wstepO c g d t s = Some (wstep c g d t s)).
  { intros t s. unfold wstepO, wstep. cbn zeta. rewrite CORE by (intros; apply in_core; auto). rewrite DB, SB, XE.
    rewrite CORE by (intros; apply in_core; auto). rewrite CORE by (intros; apply in_core; auto). rewrite SH, XH.
    rewrite CORE by (intros; apply in_core; auto). reflexivity. }
  induction n; intros t s; cbn [wrunO wrun]; [reflexivity|]. rewrite ST. apply IHn.
Qed.

(** Non-vacuity: a 6x6x6 mesh with PML, a current source and a hard voltage
    source, a plane wave, an impedance sheet and a dispersive block. *)
Definition c64block : Block := mkBlock (mkbox 1 3 1 4 2 5) 2 63.
Definition c64med (n : nat) : MType * list Pole := if Nat.eqb n 2 then (MT_DEBYE, [mkPole (mkC 1 0) (mkC (-1) 0)]) else (MT_SIMPLE, []).
Definition c64prog (c : Cfg) : Prog :=
  mkProg 1 1 (initDebyeBlocks c c64med [c64block]) [(c61sheet c YDIR (mkbox 2 4 4 4 3 5), (fun _ _ _ _ => false), (fun _ _ _ _ => false))]
    (fun _ _ => 1) (fun _ _ => 1) [c26a; c26b] [c59pw (mkbox 0 5 2 3 1 4)].
Example C64_nonvacuous : exists c wfs blocks, setupCfg 6 6 6 initBoundaryReg = Some c /\ accepted c wfs c64med blocks (c64prog c) /\
  List.length (g_srcs (c64prog c)) = 2%nat /\ List.length (g_pws (c64prog c)) = 1%nat /\ List.length (g_sheets (c64prog c)) = 1%nat /\
  List.length (g_blocks (c64prog c)) = 1%nat /\ List.length (allFaces (c64prog c)) = 4%nat.
Proof.
  destruct (setupCfg 6 6 6 initBoundaryReg) as [c|] eqn:HC; [|discriminate HC]. exists c, c26wf, [c64block]. split; [reflexivity|]. injection HC as <-.
  split; [|repeat split].
  constructor.
  - repeat constructor.
    + exists [], "a"%string, "IZ"%string, "wf1"%string, [5]. reflexivity.
    + exists [], "b"%string, "=VX"%string, "wf1"%string, [7]. reflexivity.
  - constructor; [|constructor]. split; [|cbn; lia]. apply c59_accept; [intros []; reflexivity|reflexivity|reflexivity].
  - constructor; [|constructor]. eapply c61_accept; vm_compute; reflexivity.
  - constructor; [|constructor]. exists unit, [mkItem "a"%string tt; mkItem "b"%string tt; mkItem "c"%string tt], (mkbox 1 3 1 4 2 5), "c"%string, ["1";"1";"1";"1";"1";"1"]%char.
    vm_compute. reflexivity.
  - reflexivity.
Qed.
Example C65_nonvacuous : quiet c61mem /\ is_state (L (APP XLO EY) 1 2 3) /\ c61mem (L (ABeta EX) 3 3 3) = 1.
Proof.
  split; [|split; [discriminate|reflexivity]]. intros l Hl. unfold c61mem, is_state in *. destruct (kind l); congruence.
Qed.
