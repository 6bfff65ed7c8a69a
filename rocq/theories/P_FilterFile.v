(** C71 (impedance files of sheets) and C17 (Debye files), from the text of the
    file. *)
From Coq Require Import ZArith List Bool Ascii String Reals Lra Lia.
From Verif Require Import Types CStr Sim P_Sim Scan SpecScan P_Scan Setup Medium Filter Sibc Front Program FilterFile SpecFilterFile.
Import ListNotations.
Open Scope Z_scope.

Lemma int_scan z t rest : int_at z t rest -> scanInt t = Some (z, rest).
Proof. intros []. apply scan_int; assumption. Qed.
Lemma real_scan x t rest : real_at x t rest -> scanReal t = Some (x, rest).
Proof. intros []. apply scan_real; assumption. Qed.
Lemma reals_scan xs : forall t rest, reals_at xs t rest -> scanReals (List.length xs) t = Some (xs, rest).
Proof.
  induction xs as [|x xs IH]; intros t rest H; inversion H; subst; cbn [List.length scanReals]; [reflexivity|].
  erewrite real_scan by eassumption. erewrite IH by eassumption. reflexivity.
Qed.
Lemma int_read x z t rest : int_at z t rest -> fscanInt x t = (Some z, rest).
Proof. intros H. unfold fscanInt. rewrite (int_scan _ _ _ H). reflexivity. Qed.
Lemma real_read y x t rest : real_at x t rest -> fscanReal y t = (true, Some x, rest).
Proof. intros H. unfold fscanReal. rewrite (real_scan _ _ _ H). reflexivity. Qed.

(** ** Files in the order the program expects *)
Definition swapped (b : bool) (q : Cx * Cx) : Cx * Cx := if b then (snd q, fst q) else q.
Definition orderOf (b : bool) : Cx * Cx -> list R := if b then residue_first else pole_first.
Lemma four_read b q v t rest : reals_at (orderOf b q) t rest ->
  fscan4 v t = (let '(p, r) := swapped b q in mkVars (vN v) (vA v) (Some (re p)) (Some (im p)) (Some (re r)) (Some (im r)), rest).
Proof.
  intros H. assert (H' : exists w x y z, reals_at [w; x; y; z] t rest /\ w = re (fst (swapped b q)) /\ x = im (fst (swapped b q)) /\ y = re (snd (swapped b q)) /\ z = im (snd (swapped b q))).
  { destruct q as [p r]. destruct b; cbn in H; do 4 eexists; (split; [exact H|]); cbn; tauto. }
  clear H. destruct H' as (w & x & y & z & H & -> & -> & -> & ->). destruct (swapped b q) as [p r]. cbn [fst snd] in *.
  inversion H as [|? ? ? t1 ? A1 B1]; subst. inversion B1 as [|? ? ? t2 ? A2 B2]; subst. inversion B2 as [|? ? ? t3 ? A3 B3]; subst. inversion B3 as [|? ? ? t4 ? A4 B4]; subst. inversion B4; subst.
  unfold fscan4. rewrite (real_read _ _ _ _ A1). cbn [negb]. rewrite (real_read _ _ _ _ A2). cbn [negb]. rewrite (real_read _ _ _ _ A3). cbn [negb]. rewrite (real_read _ _ _ _ A4). reflexivity.
Qed.
Lemma poles_read b ps : forall v t rest, lines_at (orderOf b) ps t rest ->
  exists v', readPoles (List.length ps) v t = Got (map (swapped b) ps, v', rest) /\ vN v' = vN v /\ vA v' = vA v.
Proof.
  induction ps as [|q ps IH]; intros v t rest H; inversion H as [|? ? ? t1 ? A B]; subst; cbn [List.length readPoles map].
  - exists v. auto.
  - rewrite (four_read b q v t t1 A). destruct (swapped b q) as [p r] eqn:Q. cbn [vPr vPi vRr vRi].
    match goal with |- context [readPoles _ ?x t1] => destruct (IH x t1 rest B) as (v' & E & N & K) end. rewrite E. exists v'. split; [|cbn in N, K; auto].
    destruct p, r. reflexivity.
Qed.
Definition swappedF (b : bool) (f : PoleResidue) : PoleResidue := mkPR (prAsymp f) (map (swapped b) (prPoles f)).
Lemma filter_read b f v t rest : filter_at (orderOf b) f t rest ->
  exists v', readFilter v t = Got (swappedF b f, v', rest).
Proof.
  intros H. inversion H as [? t1 t2 ? A B D]; subst. unfold readFilter. rewrite (int_read _ _ _ _ A), (real_read _ _ _ _ B).
  destruct (Z.ltb_spec (Z.of_nat (List.length (prPoles f))) 0); [lia|]. rewrite Nat2Z.id.
  match goal with |- context [readPoles _ ?x t2] => destruct (poles_read b _ x _ _ D) as (v' & E & _) end. rewrite E. exists v'. reflexivity.
Qed.
Lemma filters_read b fs : forall v t rest, filters_at (orderOf b) fs t rest -> readFilters (List.length fs) v t = Got (map (swappedF b) fs).
Proof.
  induction fs as [|f fs IH]; intros v t rest H; inversion H as [|? ? ? t1 ? A B]; subst; cbn [List.length readFilters map]; [reflexivity|].
  destruct (filter_read b f v t t1 A) as (v' & ->). rewrite (IH v' t1 rest B). reflexivity.
Qed.
Lemma file_read b m fs t : impedance_file (orderOf b) m fs t -> readPoleResidueM (Some t) = Got (m, m, map (swappedF b) fs).
Proof.
  intros (P & t1 & t2 & rest & A & B & N & F). unfold readPoleResidueM. rewrite (int_scan _ _ _ A), (int_scan _ _ _ B).
  destruct (Z.ltb_spec m 0); [lia|]. cbn [orb]. rewrite <- N, Nat2Z.id, (filters_read b fs vars0 _ _ F). reflexivity.
Qed.
Lemma swapped_id f : swappedF false f = f.
Proof. destruct f as [a ps]. unfold swappedF. cbn [prAsymp prPoles]. f_equal. induction ps as [|q ps IH]; cbn [map]; [reflexivity|]. rewrite IH. reflexivity. Qed.
Lemma swapped_all fs : map (swappedF false) fs = fs.
Proof. induction fs as [|f fs IH]; cbn [map]; [reflexivity|]. rewrite swapped_id, IH. reflexivity. Qed.

(** A 4x4 file with the pole before the residue on each line: the filter between
    terminals i and j of the sheet is entry (i,j) of the file. *)
Theorem C71_anisotropic_partial : forall fs t dt, impedance_file pole_first 4 fs t ->
  exists rcm, initSibcFile (Some t) dt = Got rcm /\
  forall i j f, nth_error fs (4 * num4 i + num4 j) = Some f -> rcm i j = poleResidue2RecConv f dt.
Proof.
  intros fs t dt H. unfold initSibcFile. rewrite (file_read false _ _ _ H : readPoleResidueM (Some t) = _), swapped_all. cbn [andb Z.eqb Pos.eqb].
  eexists. split; [reflexivity|]. intros i j f E. unfold recConvM. now rewrite (nth_error_nth _ _ _ E).
Qed.
(** A 2x2 file: entry (a,b) couples sides a and b for each polarisation, and the
    polarisations are not coupled. *)
Theorem C71_isotropic_partial : forall fs t dt, impedance_file pole_first 2 fs t ->
  exists rcm, initSibcFile (Some t) dt = Got rcm /\
  (forall (a b : bool) f, nth_error fs (2 * num2 a + num2 b) = Some f ->
     rcm (if a then p1 else p0) (if b then p1 else p0) = poleResidue2RecConv f dt /\
     rcm (if a then p3 else p2) (if b then p3 else p2) = poleResidue2RecConv f dt) /\
  (forall a b : bool, rcm (if a then p1 else p0) (if b then p3 else p2) = mkRC 0 [] /\ rcm (if a then p3 else p2) (if b then p1 else p0) = mkRC 0 []).
Proof.
  intros fs t dt H. unfold initSibcFile. rewrite (file_read false _ _ _ H : readPoleResidueM (Some t) = _), swapped_all. cbn [andb Z.eqb Pos.eqb].
  eexists. split; [reflexivity|]. unfold recConvM. split.
  - intros a b f E. apply (nth_error_nth _ _ (constPR 0)) in E. destruct a, b; cbn [isoMatrix lowHalf highHalf]; rewrite E; auto.
  - intros a b. destruct a, b; split; reflexivity.
Qed.
(** The manual's order of the four numbers is not the program's: a file written
    as documented, all of whose poles are stable, is read with poles and residues
    exchanged, and can give a filter that grows without input. *)
Theorem C71_documented_order_refuted : forall m fs t dt, m = 2 \/ m = 4 -> impedance_file residue_first m fs t ->
  exists rcm, initSibcFile (Some t) dt = Got rcm /\
  forall f, nth_error fs 0 = Some f -> rcm p0 p0 = poleResidue2RecConv (mkPR (prAsymp f) (map (fun q => (snd q, fst q)) (prPoles f))) dt.
Proof.
  intros m fs t dt M H. unfold initSibcFile. rewrite (file_read true _ _ _ H : readPoleResidueM (Some t) = _).
  assert (K : forall f, nth_error fs 0 = Some f -> nth 0 (map (swappedF true) fs) (constPR 0) = mkPR (prAsymp f) (map (fun q => (snd q, fst q)) (prPoles f))).
  { intros f E. apply (map_nth_error (swappedF true)) in E. now rewrite (nth_error_nth _ _ _ E). }
  destruct M as [-> | ->]; cbn [andb Z.eqb Pos.eqb]; (eexists; split; [reflexivity|]); intros f E; unfold recConvM; cbn [isoMatrix lowHalf num2 num4 Nat.mul Nat.add]; rewrite (K f E); reflexivity.
Qed.

(** ** Concrete files *)
Lemma blank_one : blanks [32]. Proof. repeat constructor. Qed.
Lemma break_sp l : at_break (32 :: l). Proof. right. exists 32, l. split; [reflexivity|left; reflexivity]. Qed.
Lemma break_nil : at_break []. Proof. left. reflexivity. Qed.
Lemma lit_digit d : 0 <= d <= 9 -> intlit [48 + d] d.
Proof. intros D. exact (il [] false _ _ sg_none (nl_one d D)). Qed.
Lemma rlit_digit d : 0 <= d <= 9 -> reallit [48 + d] (IZR d).
Proof. intros D. replace (IZR d) with (1 * IZR d * powerRZ 10 0)%R by (cbn; ring). exact (rl [] false [48 + d] _ [] 0 sg_none (mn_int _ _ (nl_one d D)) ex_none). Qed.
Lemma rlit_neg d : 0 <= d <= 9 -> reallit [45; 48 + d] (- IZR d).
Proof. intros D. replace (- IZR d)%R with (-1 * IZR d * powerRZ 10 0)%R by (cbn; ring). exact (rl [45] true [48 + d] _ [] 0 sg_minus (mn_int _ _ (nl_one d D)) ex_none). Qed.
Lemma at_int d tail : 0 <= d <= 9 -> at_break tail -> int_at d (32 :: 48 + d :: tail) tail.
Proof. intros D B. exact (ia d [32] [48 + d] tail blank_one (lit_digit d D) ltac:(lia) B). Qed.
Lemma at_real d tail : 0 <= d <= 9 -> at_break tail -> real_at (IZR d) (32 :: 48 + d :: tail) tail.
Proof. intros D B. exact (ra (IZR d) [32] [48 + d] tail blank_one (rlit_digit d D) B). Qed.
Lemma at_neg d tail : 0 <= d <= 9 -> at_break tail -> real_at (- IZR d) (32 :: 45 :: 48 + d :: tail) tail.
Proof. intros D B. exact (ra (- IZR d) [32] [45; 48 + d] tail blank_one (rlit_neg d D) B). Qed.
(** one pole: " 1 5 a 0 b 0" *)
Definition onePole (x y : list Z) (tail : list Z) : list Z := [32; 49; 32; 53] ++ x ++ [32; 48] ++ y ++ 32 :: 48 :: tail.

Lemma onePole_at o x y a b tail q : prPoles q = [(mkC a 0, mkC b 0)] -> prAsymp q = 5%R -> at_break tail ->
  (forall u, at_break u -> real_at (match o with true => b | false => a end) (x ++ u) u) ->
  (forall u, at_break u -> real_at (match o with true => a | false => b end) (y ++ u) u) ->
  (exists z, x = 32 :: z) -> (exists z, y = 32 :: z) ->
  filter_at (orderOf o) q (onePole x y tail) tail.
Proof.
  intros PQ AQ T X Y (x' & EX) (y' & EY). unfold onePole. cbn [app].
  apply (fa _ q _ (32 :: 53 :: x ++ [32; 48] ++ y ++ 32 :: 48 :: tail) (x ++ [32; 48] ++ y ++ 32 :: 48 :: tail)).
  - rewrite PQ. cbn [List.length]. apply (at_int 1); [lia|apply break_sp].
  - rewrite AQ. apply (at_real 5); [lia|]. rewrite EX. cbn [app]. apply break_sp.
  - rewrite PQ. eapply ls_cons; [|apply ls_nil].
    assert (Z1 : real_at 0 ([32; 48] ++ y ++ 32 :: 48 :: tail) (y ++ 32 :: 48 :: tail)) by (apply (at_real 0); [lia|rewrite EY; apply break_sp]).
    assert (Z2 : real_at 0 (32 :: 48 :: tail) tail) by (apply (at_real 0); [lia|exact T]).
    pose proof (X ([32; 48] ++ y ++ 32 :: 48 :: tail) (break_sp _)) as X1. pose proof (Y (32 :: 48 :: tail) (break_sp _)) as Y1.
    destruct o; cbn [orderOf residue_first pole_first re im];
    (eapply rs_cons; [exact X1|]; eapply rs_cons; [exact Z1|]; eapply rs_cons; [exact Y1|]; eapply rs_cons; [exact Z2|]; apply rs_nil).
Qed.
(** the four filters of " 2 2", each with asymptote 5 and one pole *)
Definition fourTimes (x y : list Z) : list Z := [32; 50; 32; 50] ++ onePole x y (onePole x y (onePole x y (onePole x y []))).
Lemma onePole_break x y tail : at_break (onePole x y tail). Proof. apply break_sp. Qed.
Lemma fourTimes_at o x y a b : 
  (forall u, at_break u -> real_at (match o with true => b | false => a end) (x ++ u) u) ->
  (forall u, at_break u -> real_at (match o with true => a | false => b end) (y ++ u) u) ->
  (exists z, x = 32 :: z) -> (exists z, y = 32 :: z) ->
  let f := mkPR 5 [(mkC a 0, mkC b 0)] in impedance_file (orderOf o) 2 [f; f; f; f] (fourTimes x y).
Proof.
  intros X Y EX EY f. split; [lia|]. unfold fourTimes. 
  exists (32 :: 50 :: onePole x y (onePole x y (onePole x y (onePole x y [])))), (onePole x y (onePole x y (onePole x y (onePole x y [])))), [].
  split; [apply (at_int 2); [lia|apply break_sp]|]. split; [apply (at_int 2); [lia|apply onePole_break]|]. split; [reflexivity|].
  do 4 (eapply fs_cons; [apply (onePole_at o x y a b); try reflexivity; try assumption; try apply onePole_break; apply break_nil|]). apply fs_nil.
Qed.
(** response of a one-pole filter with real pole and residue to a single sample *)
Lemma cexp_real b : cexp (mkC b 0) = mkC (exp b) 0.
Proof. unfold cexp. cbn [re im]. rewrite cos_0, sin_0. f_equal; ring. Qed.
Definition qr (z : R) : Cx := mkC z 0.
Lemma step_zero a q0 q1 q2 z : recConvStep (mkRC a [(qr q0, qr q1, qr q2)]) (mkRS 0 [qr z]) 0 = (mkRS 0 [qr (q0 * z)], q0 * z)%R.
Proof. unfold recConvStep. cbn. unfold qr, cadd, cmul, cxR. cbn. f_equal; [f_equal; f_equal; f_equal; ring|ring]. Qed.
Lemma silent_tail a q0 q1 q2 n : forall z, nth n (filtLoop (mkRC a [(qr q0, qr q1, qr q2)]) (mkRS 0 [qr z]) (repeat 0%R (S n))) 0%R = (q0 ^ (S n) * z)%R.
Proof.
  induction n as [|n IH]; intros z.
  - cbn [repeat filtLoop]. rewrite step_zero. cbn. ring.
  - change (repeat 0%R (S (S n))) with (0%R :: repeat 0%R (S n)). cbn [filtLoop]. rewrite step_zero. cbn [nth]. rewrite IH. cbn [pow]. ring.
Qed.
Lemma single_sample a p r T n : (p <> 0)%R -> (T <> 0)%R ->
  nth (S (S n)) (recConvFiltSeq (poleResidue2RecConv (mkPR a [(qr p, qr r)]) T) (1%R :: 0%R :: repeat 0%R (S n))) 0%R
  = (exp (p * T) ^ (S n) * (r / p / (p * T) * (exp (p * T) - 1) ^ 2))%R.
Proof.
  intros P NT. unfold recConvFiltSeq, poleResidue2RecConv, allocRecConvState. cbn [map prPoles prAsymp rcQ recConvQ].
  assert (DV : forall u w, (w <> 0)%R -> cdiv (qr u) (qr w) = qr (u / w)).
  { intros u w W. unfold cdiv, cnorm2, qr. cbn [re im]. replace (w * w + 0 * 0)%R with (w * w)%R by ring. f_equal; field; assumption. }
  assert (B : cmul (qr p) (cxR T) = qr (p * T)) by (unfold cmul, qr, cxR; cbn; f_equal; ring).
  rewrite B. change (cexp (qr (p * T))) with (cexp (mkC (p * T) 0)). rewrite cexp_real, !DV by (try apply Rmult_integral_contrapositive; auto).
  set (E := exp (p * T)). set (g := (r / p / (p * T))%R).
  set (Q1 := cmul (qr g) _). set (Q2 := cmul (qr g) _).
  assert (E1 : Q1 = qr (g * (1 + (p * T - 1) * E))) by (unfold Q1, qr, cmul, cadd, csub, cxR; cbn; f_equal; ring).
  assert (E2 : Q2 = qr (g * (E - p * T - 1))) by (unfold Q2, qr, cmul, cadd, csub, cxR; cbn; f_equal; ring).
  rewrite E1, E2. clearbody E g. clear Q1 Q2 E1 E2. change (mkC E 0) with (qr E). change (cxR 0) with (qr 0).
  cbn [filtLoop]. unfold recConvStep at 1. cbn [rcQ rsZeta rsOld stepPoles rcAsymp].
  set (z1 := cadd _ _). assert (Z1 : z1 = qr (g * (E - p * T - 1))) by (unfold z1, qr, cadd, cmul, cxR; cbn; f_equal; ring). rewrite Z1. clear z1 Z1.
  unfold recConvStep at 1. cbn [rcQ rsZeta rsOld stepPoles rcAsymp].
  set (z2 := cadd _ _). assert (Z2 : z2 = qr (g * (E - 1) ^ 2)) by (unfold z2, qr, cadd, cmul, cxR; cbn; f_equal; ring). rewrite Z2. clear z2 Z2.
  cbn [nth]. rewrite silent_tail. reflexivity.
Qed.
(** A file written as the manual says, all poles in the left half plane, whose
    sheet answers a single unit sample with an output that grows without bound. *)
Theorem C71_stable_file_grows_refuted : exists t f, impedance_file residue_first 2 [f; f; f; f] t /\
  (forall p r, In (p, r) (prPoles f) -> re p < 0)%R /\
  forall dt, (0 < dt)%R -> exists rcm, initSibcFile (Some t) dt = Got rcm /\
  forall bound, exists n, (bound < Rabs (nth n (recConvFiltSeq (rcm p0 p0) (1 :: repeat 0 n)) 0))%R.
Proof.
  exists (fourTimes [32; 50] [32; 45; 49]), (mkPR 5 [(mkC (- 1) 0, mkC 2 0)]).
  assert (F : impedance_file residue_first 2 (let f := mkPR 5 [(mkC (- 1) 0, mkC 2 0)] in [f; f; f; f]) (fourTimes [32; 50] [32; 45; 49])).
  { apply (fourTimes_at true [32; 50] [32; 45; 49] (- 1) 2).
    - intros u U. apply (at_real 2); [lia|exact U].
    - intros u U. apply (at_neg 1); [lia|exact U].
    - eexists; reflexivity.
    - eexists; reflexivity. }
  split; [exact F|]. split. { intros p r [E|[]]. injection E as <- <-. cbn. lra. }
  intros dt D. destruct (C71_documented_order_refuted 2 _ _ dt (or_introl eq_refl) F) as (rcm & G & V). exists rcm. split; [exact G|].
  rewrite (V _ eq_refl). cbn [prAsymp prPoles map fst snd]. clear V G F rcm. intros bound.
  set (g := (- 1 / 2 / (2 * dt) * (exp (2 * dt) - 1) ^ 2)%R).
  assert (GP : (0 < Rabs g)%R).
  { apply Rabs_pos_lt. unfold g. apply Rmult_integral_contrapositive. split.
    - intros Z. assert ((- 1 / 2 / (2 * dt)) * (2 * dt) = - 1 / 2)%R by (field; lra). rewrite Z in H. lra.
    - apply pow_nonzero. pose proof (exp_ineq1 (2 * dt) ltac:(lra)). lra. }
  pose proof (exp_ineq1 (2 * dt) ltac:(lra)) as E1.
  destruct (Pow_x_infinity (exp (2 * dt)) ltac:(rewrite Rabs_right; lra) (Rabs bound / Rabs g + 1)) as (N & HN).
  exists (S (S N)). change (repeat 0%R (S (S N))) with (0%R :: repeat 0%R (S N)).
  change (mkC 2 0) with (qr 2). change (mkC (- 1) 0) with (qr (- 1)). rewrite single_sample by lra. fold g.
  rewrite Rabs_mult. specialize (HN (S N) ltac:(lia)). pose proof (Rle_abs bound).
  apply (Rmult_ge_compat_r (Rabs g)) in HN; [|lra]. rewrite Rmult_plus_distr_r in HN. unfold Rdiv in HN. rewrite Rmult_assoc, Rinv_l in HN by lra. lra.
Qed.

(** A truncated file is accepted: one filter is written, the other three repeat it. *)
Lemma blank_int x l : blanks l -> fscanInt x l = (x, []).
Proof. intros B. unfold fscanInt, scanInt, failInt. rewrite (skip_all _ B). reflexivity. Qed.
Lemma blank_real x l : blanks l -> fscanReal x l = (false, x, []).
Proof. intros B. unfold fscanReal, scanReal, failReal, failInt. rewrite (skip_all _ B). reflexivity. Qed.
Lemma blanks_nil : blanks []. Proof. constructor. Qed.
Lemma stale_filter a p r l : blanks l -> let v := mkVars (Some 1) (Some a) (Some (re p)) (Some (im p)) (Some (re r)) (Some (im r)) in
  readFilter v l = Got (mkPR a [(p, r)], v, []).
Proof.
  intros B v. unfold readFilter, v. cbn [vN vA]. rewrite (blank_int _ _ B), (blank_real _ _ blanks_nil). cbn [Z.ltb Z.compare Pos.to_nat Z.to_nat].
  change (Pos.to_nat 1) with 1%nat. cbn [readPoles]. unfold fscan4. cbn [vPr vPi vRr vRi vN vA]. rewrite (blank_real _ _ blanks_nil). cbn [negb vPr vPi vRr vRi]. destruct p, r. reflexivity.
Qed.
Theorem C71_truncated_refuted : forall f p r t t1 t2 t3 dt, prPoles f = [(p, r)] ->
  int_at 2 t t1 -> int_at 2 t1 t2 -> filter_at pole_first f t2 t3 -> blanks t3 ->
  initSibcFile (Some t) dt = Got (recConvM (isoMatrix (fun i j => nth (2 * num2 i + num2 j) [f; f; f; f] (constPR 0))) dt).
Proof.
  intros f p r t t1 t2 t3 dt P A B F K. unfold initSibcFile, readPoleResidueM. rewrite (int_scan _ _ _ A), (int_scan _ _ _ B).
  change ((2 <? 0) || (2 <? 0)) with false. cbv iota. change (Z.to_nat (2 * 2)) with 4%nat.
  assert (F1 : readFilter vars0 t2 = Got (f, mkVars (Some 1) (Some (prAsymp f)) (Some (re p)) (Some (im p)) (Some (re r)) (Some (im r)), t3)).
  { inversion F as [? u1 u2 ? A1 A2 A3]; subst. rewrite P in *. unfold readFilter. rewrite (int_read _ _ _ _ A1), (real_read _ _ _ _ A2). cbn [List.length].
    change (Z.of_nat 1 <? 0) with false. cbv iota. change (Z.to_nat (Z.of_nat 1)) with 1%nat. inversion A3 as [|? ? ? u3 ? B1 B2]; subst. inversion B2; subst.
    cbn [readPoles]. rewrite (four_read false (p, r) _ _ _ B1). cbn [swapped vPr vPi vRr vRi vN vA]. destruct f as [fa fp]; cbn in P |- *; subst fp. destruct p, r. reflexivity. }
  cbn [readFilters]. rewrite F1. 
  assert (FE : mkPR (prAsymp f) [(p, r)] = f) by (rewrite <- P; destruct f; reflexivity).
  rewrite (stale_filter (prAsymp f) p r t3 K), !(stale_filter (prAsymp f) p r [] blanks_nil), FE. reflexivity.
Qed.
(** A file that stops after the extents: variables that were never assigned are
    used. *)
Theorem C71_uninitialised_refuted : exists t, t = [32; 50; 32; 50] /\ forall dt, initSibcFile (Some t) dt = Undef.
Proof. eexists. split; reflexivity. Qed.
(** A file of any other size, or one that cannot be opened, or does not start
    with two numbers, ends the run. *)
Theorem C71_other_sizes : forall m n t t1 t2 dt rcm, int_at m t t1 -> int_at n t1 t2 -> initSibcFile (Some t) dt = Got rcm ->
  (m = 2 /\ n = 2) \/ (m = 4 /\ n = 4).
Proof.
  intros m n t t1 t2 dt rcm A B E. unfold initSibcFile, readPoleResidueM in E. rewrite (int_scan _ _ _ A), (int_scan _ _ _ B) in E.
  destruct (_ || _); [discriminate|]. destruct (readFilters _ _ _); try discriminate.
  destruct (Z.eqb_spec m 4), (Z.eqb_spec n 4), (Z.eqb_spec m 2), (Z.eqb_spec n 2); try (cbn in E; discriminate); auto.
Qed.

(** ** Every boundary of a mesh file *)
Lemma boundary_filters : forall files dt h n it p rcm,
  initBoundaries files dt (h_breg h) (h_bpar h) = Got rcm ->
  nth_error (h_breg h) n = Some it -> btype (idata it) = BT_SIBC -> nth_error (h_bpar h) n = Some p ->
  initSibc files dt p = Got (rcm n).
Proof.
  intros files dt h n it p rcm. revert n rcm. generalize (h_bpar h) as par. induction (h_breg h) as [|b reg IH]; intros [|q par] n rcm E N T P; destruct n; try discriminate; cbn [nth_error] in *.
  - injection N as ->. injection P as ->. cbn [initBoundaries] in E. rewrite T in E. destruct (initSibc files dt p); try discriminate. destruct (initBoundaries files dt reg par); try discriminate. injection E as <-. reflexivity.
  - cbn [initBoundaries] in E. destruct (match btype (idata b) with BT_SIBC => _ | _ => _ end); try discriminate. destruct (initBoundaries files dt reg par) eqn:R; try discriminate. injection E as <-. exact (IH par n _ R N T P).
Qed.

(** ** Debye files *)
Lemma debye_lines ps : forall t rest, lines_at debye_line ps t rest ->
  debyePoles (List.length ps) t = if existsb (fun q => ltb 0 (re (p_pole q))) ps then None else Some ps.
Proof.
  induction ps as [|q ps IH]; intros t rest H; inversion H as [|? ? ? t1 ? A B]; subst; cbn [List.length debyePoles existsb]; [reflexivity|].
  rewrite (reals_scan _ _ _ A : scanReals 4 t = _). unfold debye_line. destruct (ltb 0 (re (p_pole q))); cbn [orb]; [reflexivity|].
  rewrite (IH _ _ B). destruct (existsb _ ps); [reflexivity|]. destruct q as [[] []]. reflexivity.
Qed.
Lemma ltb_lt x y : ltb x y = true <-> (x < y)%R.
Proof. unfold ltb. destruct (Rlt_dec x y); split; auto; discriminate. Qed.
Lemma ltb_ge x y : ltb x y = false <-> (y <= x)%R.
Proof. unfold ltb. destruct (Rlt_dec x y); split; intros; try discriminate; try lra; reflexivity. Qed.
(** A Debye file is read as written, or the run ends because a value is out of
    range. *)
Theorem C17_debye_text : forall e s m ps t, debye_text e s m ps t ->
  ((1 <= e /\ 0 <= s /\ 1 <= m /\ forall q, In q ps -> re (p_pole q) <= 0)%R -> readDebyeText (Some t) = Some (mkMP MT_DEBYE e s m ps)) /\
  (~ (1 <= e /\ 0 <= s /\ 1 <= m /\ forall q, In q ps -> re (p_pole q) <= 0)%R -> readDebyeText (Some t) = None).
Proof.
  intros e s m ps t (t1 & t2 & rest & A & B & D). unfold readDebyeText. rewrite (int_scan _ _ _ A), (reals_scan _ _ _ B : scanReals 3 t1 = _).
  destruct (Z.ltb_spec (Z.of_nat (List.length ps)) 0); [lia|]. rewrite Nat2Z.id, (debye_lines _ _ _ D). split.
  - intros (E & S & M & P). apply ltb_ge in E, S, M. rewrite E, S, M.
    replace (existsb _ ps) with false; [reflexivity|]. symmetry. apply not_true_iff_false. rewrite existsb_exists. intros (q & I & L). apply ltb_lt in L. specialize (P q I). lra.
  - intros N. destruct (ltb e 1) eqn:E; [reflexivity|]. destruct (ltb s 0) eqn:S; [reflexivity|]. destruct (ltb m 1) eqn:M; [reflexivity|].
    destruct (existsb _ ps) eqn:X; [reflexivity|]. exfalso. apply N. apply ltb_ge in E, S, M. do 3 (split; [assumption|]). intros q I.
    apply Rnot_lt_le. intros L. apply ltb_lt in L. apply not_true_iff_false in X. apply X, existsb_exists. eauto.
Qed.
(** A Debye file with fewer numbers than its first line announces is refused. *)
Lemma short_reals xs : forall k t rest, reals_at xs t rest -> blanks rest -> (List.length xs < k)%nat -> scanReals k t = None.
Proof.
  induction xs as [|x xs IH]; intros k t rest H B K; inversion H; subst; (destruct k as [|k]; [cbn in K; lia|]); cbn [scanReals].
  - unfold scanReal. rewrite (skip_all _ B). reflexivity.
  - erewrite real_scan by eassumption. erewrite IH; [reflexivity|eassumption|eassumption|cbn in K; lia].
Qed.
Lemma short_poles ps : forall n t rest xs t4, lines_at debye_line ps t rest -> reals_at xs rest t4 -> (List.length xs < 4)%nat -> blanks t4 -> (List.length ps < n)%nat -> debyePoles n t = None.
Proof.
  induction ps as [|q ps IH]; intros n t rest xs t4 H X K B N; inversion H as [|? ? ? t1 ? A D]; subst; (destruct n as [|n]; [cbn in N; lia|]); cbn [debyePoles].
  - now rewrite (short_reals xs 4 _ _ X B K).
  - rewrite (reals_scan _ _ _ A : scanReals 4 t = _). unfold debye_line. destruct (ltb 0 _); [reflexivity|]. rewrite (IH n t1 rest xs t4 D X K B) by (cbn in N; lia). reflexivity.
Qed.
Theorem C17_debye_short : forall t, debye_short t -> readDebyeText (Some t) = None.
Proof.
  intros t (n & e & s & m & ps & xs & t1 & t2 & t3 & t4 & A & B & D & X & K & N & BL). unfold readDebyeText. rewrite (int_scan _ _ _ A), (reals_scan _ _ _ B : scanReals 3 t1 = _).
  destruct (n <? 0); [reflexivity|]. do 3 (destruct (ltb _ _); [reflexivity|]). rewrite (short_poles ps (Z.to_nat n) t2 t3 xs t4 D X K BL) by lia. reflexivity.
Qed.
(** The reading of a named file by the MT card (Front.v, Medium.v) is this one. *)
Lemma debye_rows n : forall l, debyePoles n l = match debyeRows n l with
  | Some ps => if existsb (fun q => let '(_, _, a, _) := q in ltb 0 a) ps then None else Some (map (fun q => let '(r, s, a, b) := q in mkPole (mkC r s) (mkC a b)) ps)
  | None => debyePoles n l end.
Proof.
  induction n as [|n IH]; intros l; cbn [debyePoles debyeRows]; [reflexivity|].
  destruct (scanReals 4 l) as [[[|a [|b [|c [|d [|]]]]] l1]|]; try reflexivity. rewrite (IH l1).
  destruct (debyeRows n l1) as [ps|] eqn:E; [|reflexivity]. cbn [existsb map]. destruct (ltb 0 c); cbn [orb]; [reflexivity|]. destruct (existsb _ ps); reflexivity.
Qed.
Lemma debye_rows_none n : forall l, debyeRows n l = None -> debyePoles n l = None.
Proof.
  induction n as [|n IH]; intros l E; cbn [debyePoles debyeRows] in *; [discriminate|].
  destruct (scanReals 4 l) as [[[|a [|b [|c [|d [|]]]]] l1]|]; try reflexivity. destruct (debyeRows n l1) eqn:D; [discriminate|]. rewrite (IH _ D). destruct (ltb 0 c); reflexivity.
Qed.
Theorem C17_debye_reader : forall file, readDebyeText file = match debyeFileOf file with Some d => readDebyeParameters d | None => None end.
Proof.
  intros [l|]; [|reflexivity]. unfold readDebyeText, debyeFileOf. destruct (scanInt l) as [[n l1]|]; [|reflexivity].
  destruct (scanReals 3 l1) as [[[|e [|s [|m [|]]]] l2]|]; try reflexivity. destruct (n <? 0); [reflexivity|].
  destruct (debyeRows (Z.to_nat n) l2) as [ps|] eqn:D.
  - unfold readDebyeParameters. cbn [df_eps df_sigma df_mu df_poles]. rewrite debye_rows, D. do 3 (destruct (ltb _ _); [reflexivity|]). destruct (existsb _ ps); reflexivity.
  - rewrite (debye_rows_none _ _ D). do 3 (destruct (ltb _ _); [reflexivity|]). reflexivity.
Qed.

(** Cases of the hypotheses: files with asymptote 5, pole -1 and residue 2. *)
Definition demoF : PoleResidue := mkPR 5 [(mkC (- 1) 0, mkC 2 0)].
Lemma demo_at tail : at_break tail -> filter_at pole_first demoF (onePole [32; 45; 49] [32; 50] tail) tail.
Proof.
  intros T. apply (onePole_at false [32; 45; 49] [32; 50] (- 1) 2); try reflexivity; [exact T| | |eexists; reflexivity|eexists; reflexivity].
  - intros u U. apply (at_neg 1); [lia|exact U].
  - intros u U. apply (at_real 2); [lia|exact U].
Qed.
Fixpoint demoText (n : nat) : list Z := match n with O => [] | S n' => onePole [32; 45; 49] [32; 50] (demoText n') end.
Lemma demo_filters n : filters_at pole_first (repeat demoF n) (demoText n) [].
Proof.
  induction n as [|n IH]; cbn [repeat demoText]; [apply fs_nil|]. eapply fs_cons; [|exact IH]. apply demo_at. destruct n; [apply break_nil|apply onePole_break].
Qed.
Example C71_nonvacuous :
  impedance_file pole_first 4 (repeat demoF 16) ([32; 52; 32; 52] ++ demoText 16) /\
  impedance_file pole_first 2 (repeat demoF 4) ([32; 50; 32; 50] ++ demoText 4) /\
  (exists t1 t2 t3, int_at 2 ([32; 50; 32; 50] ++ demoText 1) t1 /\ int_at 2 t1 t2 /\ filter_at pole_first demoF t2 t3 /\ blanks t3) /\
  (exists t1 t2, int_at 3 [32; 51; 32; 50] t1 /\ int_at 2 t1 t2).
Proof.
  split; [|split; [|split]].
  - split; [lia|]. exists ([32; 52] ++ demoText 16), (demoText 16), []. split; [apply (at_int 4); [lia|apply break_sp]|]. split; [apply (at_int 4); [lia|apply onePole_break]|]. split; [reflexivity|apply demo_filters].
  - split; [lia|]. exists ([32; 50] ++ demoText 4), (demoText 4), []. split; [apply (at_int 2); [lia|apply break_sp]|]. split; [apply (at_int 2); [lia|apply onePole_break]|]. split; [reflexivity|apply demo_filters].
  - exists ([32; 50] ++ demoText 1), (demoText 1), []. split; [apply (at_int 2); [lia|apply break_sp]|]. split; [apply (at_int 2); [lia|apply onePole_break]|]. split; [apply demo_at, break_nil|constructor].
  - exists [32; 50], []. split; [apply (at_int 3); [lia|apply break_sp]|apply (at_int 2); [lia|apply break_nil]].
Qed.
(** one Debye pole: " 1 2 0 1 3 0 -1 0"; without the last number it is short *)
Example C17_debye_text_nonvacuous :
  debye_text 2 0 1 [mkPole (mkC 3 0) (mkC (- 1) 0)] [32; 49; 32; 50; 32; 48; 32; 49; 32; 51; 32; 48; 32; 45; 49; 32; 48] /\
  debye_short [32; 49; 32; 50; 32; 48; 32; 49; 32; 51; 32; 48; 32; 45; 49].
Proof.
  split.
  - do 3 eexists. split; [apply (at_int 1); [lia|apply break_sp]|]. split.
    + eapply rs_cons; [apply (at_real 2); [lia|apply break_sp]|]. eapply rs_cons; [apply (at_real 0); [lia|apply break_sp]|]. eapply rs_cons; [apply (at_real 1); [lia|apply break_sp]|]. apply rs_nil.
    + eapply ls_cons; [|apply ls_nil]. unfold debye_line. cbn [p_residue p_pole re im].
      eapply rs_cons; [apply (at_real 3); [lia|apply break_sp]|]. eapply rs_cons; [apply (at_real 0); [lia|apply break_sp]|]. eapply rs_cons; [apply (at_neg 1); [lia|apply break_sp]|].
      eapply rs_cons; [apply (at_real 0); [lia|apply break_nil]|]. apply rs_nil.
  - exists 1, 2%R, 0%R, 1%R, [], [3%R; 0%R; (- 1)%R]. do 4 eexists. split; [apply (at_int 1); [lia|apply break_sp]|]. split.
    + eapply rs_cons; [apply (at_real 2); [lia|apply break_sp]|]. eapply rs_cons; [apply (at_real 0); [lia|apply break_sp]|]. eapply rs_cons; [apply (at_real 1); [lia|apply break_sp]|]. apply rs_nil.
    + split; [apply ls_nil|]. split.
      * eapply rs_cons; [apply (at_real 3); [lia|apply break_sp]|]. eapply rs_cons; [apply (at_real 0); [lia|apply break_sp]|]. eapply rs_cons; [apply (at_neg 1); [lia|apply break_nil]|]. apply rs_nil.
      * cbn. split; [lia|]. split; [lia|constructor].
Qed.
