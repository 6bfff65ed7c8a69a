(** C39: the recursive-convolution filter is the exact convolution for inputs
    that are linear between the samples. *)
From Coq Require Import ZArith List Bool Reals Lra Lia.
From Coquelicot Require Import Coquelicot.
From Verif Require Import Medium Filter SpecFilter.
Import ListNotations.
Open Scope R_scope.

(** real and imaginary part of r e^(p t) *)
Definition kre (a b c d t : R) : R := exp (a * t) * (c * cos (b * t) - d * sin (b * t)).
Definition kim (a b c d t : R) : R := exp (a * t) * (c * sin (b * t) + d * cos (b * t)).

Section One.
Variables (a b e f : R). (* pole a + ib; e + if = residue / pole^2 *)
Let c1r := a * e - b * f.
Let c1i := a * f + b * e.
Let c := a * c1r - b * c1i.
Let d := a * c1i + b * c1r.
(** antiderivatives on one interval, end point [t1], slope [m] *)
Lemma int_re t0 t1 x0 m :
  is_RInt (fun s => kre a b c d (t1 - s) * (x0 + (s - t0) * m)) t0 t1
    (- (c1r * (x0 + (t1 - t0) * m) + e * m) + exp (a * (t1 - t0)) * (cos (b * (t1 - t0)) * (c1r * x0 + e * m) - sin (b * (t1 - t0)) * (c1i * x0 + f * m))).
Proof.
  set (F := fun s => - (exp (a * (t1 - s)) * (cos (b * (t1 - s)) * (c1r * (x0 + (s - t0) * m) + e * m) - sin (b * (t1 - s)) * (c1i * (x0 + (s - t0) * m) + f * m)))).
  set (G := fun s => kre a b c d (t1 - s) * (x0 + (s - t0) * m)).
  assert (D : forall s, is_derive F s (G s)).
  { intros s. unfold F, G, kre. auto_derive; [exact I|]. unfold c, d, c1r, c1i. match goal with |- @eq _ ?x ?y => change (@eq R x y) end. replace (t1 + - s) with (t1 - s) by ring. ring. }
  assert (C : forall s, continuous G s).
  { intros s. apply (ex_derive_continuous (K:=R_AbsRing) (V:=R_NormedModule)). unfold G, kre. auto_derive. exact I. }
  pose proof (is_RInt_derive (V:=R_CompleteNormedModule) F G t0 t1 (fun s _ => D s) (fun s _ => C s)) as H.
  replace (- (c1r * (x0 + (t1 - t0) * m) + e * m) + exp (a * (t1 - t0)) * (cos (b * (t1 - t0)) * (c1r * x0 + e * m) - sin (b * (t1 - t0)) * (c1i * x0 + f * m))) with (F t1 - F t0); [exact H|].
  unfold F. replace (t1 - t1) with 0 by ring. rewrite !Rmult_0_r, exp_0, cos_0, sin_0. ring.
Qed.
Lemma int_im t0 t1 x0 m :
  is_RInt (fun s => kim a b c d (t1 - s) * (x0 + (s - t0) * m)) t0 t1
    (- (c1i * (x0 + (t1 - t0) * m) + f * m) + exp (a * (t1 - t0)) * (cos (b * (t1 - t0)) * (c1i * x0 + f * m) + sin (b * (t1 - t0)) * (c1r * x0 + e * m))).
Proof.
  set (F := fun s => - (exp (a * (t1 - s)) * (cos (b * (t1 - s)) * (c1i * (x0 + (s - t0) * m) + f * m) + sin (b * (t1 - s)) * (c1r * (x0 + (s - t0) * m) + e * m)))).
  set (G := fun s => kim a b c d (t1 - s) * (x0 + (s - t0) * m)).
  assert (D : forall s, is_derive F s (G s)).
  { intros s. unfold F, G, kim. auto_derive; [exact I|]. unfold c, d, c1r, c1i. match goal with |- @eq _ ?x ?y => change (@eq R x y) end. replace (t1 + - s) with (t1 - s) by ring. ring. }
  assert (C : forall s, continuous G s).
  { intros s. apply (ex_derive_continuous (K:=R_AbsRing) (V:=R_NormedModule)). unfold G, kim. auto_derive. exact I. }
  pose proof (is_RInt_derive (V:=R_CompleteNormedModule) F G t0 t1 (fun s _ => D s) (fun s _ => C s)) as H.
  replace (- (c1i * (x0 + (t1 - t0) * m) + f * m) + exp (a * (t1 - t0)) * (cos (b * (t1 - t0)) * (c1i * x0 + f * m) + sin (b * (t1 - t0)) * (c1r * x0 + e * m))) with (F t1 - F t0); [exact H|].
  unfold F. replace (t1 - t1) with 0 by ring. rewrite !Rmult_0_r, exp_0, cos_0, sin_0. ring.
Qed.
End One.

Lemma cx_eq x y : re x = re y -> im x = im y -> x = y.
Proof. destruct x, y; cbn; intros; subst; reflexivity. Qed.
(** residue / pole^2, and the residue from it *)
Lemma residue_from p r : cnorm2 p <> 0 -> let g := cdiv (cdiv r p) p in r = cmul p (cmul p g).
Proof.
  intros H g. unfold g, cdiv, cmul. unfold cnorm2 in *. apply cx_eq; cbn; field; exact H.
Qed.
Lemma alpha_beta a b e f T : cnorm2 (mkC a b) <> 0 -> T <> 0 ->
  cdiv (cdiv (cmul (mkC a b) (cmul (mkC a b) (mkC e f))) (mkC a b)) (cmul (mkC a b) (cxR T)) = mkC (e / T) (f / T).
Proof.
  intros H HT. unfold cdiv, cmul, cxR, cnorm2 in *. cbn in *.
  assert (K : (a * T - b * 0) * (a * T - b * 0) + (a * 0 + b * T) * (a * 0 + b * T) <> 0).
  { replace (_ + _) with ((a * a + b * b) * (T * T)) by ring. apply Rmult_integral_contrapositive_currified; [exact H|].
    apply Rmult_integral_contrapositive_currified; exact HT. }
  apply cx_eq; cbn; field; repeat split; auto; match goal with |- ?x <> 0 => replace x with ((a * T - b * 0) * (a * T - b * 0) + (a * 0 + b * T) * (a * 0 + b * T)) by ring; exact K end.
Qed.

(** the value of the convolution of the pole/residue pair with the signal up to
    time [t] *)
Definition conv (T : R) (u : R -> R) (pr : Cx * Cx) (t : R) (z : Cx) : Prop :=
  let '(p, r) := pr in
  is_RInt (fun s => kre (re p) (im p) (re r) (im r) (t - s) * u s) (- T) t (re z) /\
  is_RInt (fun s => kim (re p) (im p) (re r) (im r) (t - s) * u s) (- T) t (im z).

Lemma conv_start T u pr : conv T u pr (- T) (cxR 0).
Proof. destruct pr as [p r]. split; apply (is_RInt_point (V:=R_NormedModule)). Qed.

Lemma kre_shift a b c d t h : kre a b c d (t + h) = exp (a * h) * cos (b * h) * kre a b c d t - exp (a * h) * sin (b * h) * kim a b c d t.
Proof. unfold kre, kim. rewrite !Rmult_plus_distr_l, exp_plus, cos_plus, sin_plus. ring. Qed.
Lemma kim_shift a b c d t h : kim a b c d (t + h) = exp (a * h) * cos (b * h) * kim a b c d t + exp (a * h) * sin (b * h) * kre a b c d t.
Proof. unfold kre, kim. rewrite !Rmult_plus_distr_l, exp_plus, cos_plus, sin_plus. ring. Qed.

Lemma conv_step T u p r t0 z x0 x1 : 0 < T -> cnorm2 p <> 0 -> conv T u (p, r) t0 z ->
  (forall s, t0 <= s <= t0 + T -> u s = x0 + (s - t0) / T * (x1 - x0)) ->
  let '(q0, q1, q2) := recConvQ T (p, r) in
  conv T u (p, r) (t0 + T) (cadd (cadd (cmul q0 z) (cmul q1 (cxR x0))) (cmul q2 (cxR x1))).
Proof.
  intros HT HP (Z1 & Z2) U. unfold recConvQ.
  destruct p as [a b]. pose proof (residue_from (mkC a b) r HP) as HR. cbn zeta in HR.
  destruct (cdiv (cdiv r (mkC a b)) (mkC a b)) as [e f]. subst r. rewrite alpha_beta by (auto; lra).
  unfold conv in *. cbn [re im] in *.
  set (m := (x1 - x0) / T).
  pose proof (int_re a b e f t0 (t0 + T) x0 m) as I1. pose proof (int_im a b e f t0 (t0 + T) x0 m) as I2. cbn zeta in I1, I2.
  replace (t0 + T - t0) with T in I1, I2 by ring.
  set (c := re (cmul (mkC a b) (cmul (mkC a b) (mkC e f)))) in *. set (d := im (cmul (mkC a b) (cmul (mkC a b) (mkC e f)))) in *.
  change (a * (a * e - b * f) - b * (a * f + b * e)) with c in I1, I2. change (a * (a * f + b * e) + b * (a * e - b * f)) with d in I1, I2.
  assert (UE : forall s, Rmin t0 (t0 + T) < s < Rmax t0 (t0 + T) -> x0 + (s - t0) * m = u s).
  { intros s. rewrite Rmin_left, Rmax_right by lra. intros Hs. rewrite U by lra. unfold m. field. lra. }
  assert (J1 : is_RInt (fun s => kre a b c d (t0 + T - s) * u s) (- T) t0 (exp (a * T) * cos (b * T) * re z - exp (a * T) * sin (b * T) * im z)).
  { eapply is_RInt_ext; [|apply (is_RInt_minus (V:=R_NormedModule)); [apply (is_RInt_scal (V:=R_NormedModule) _ _ _ (exp (a * T) * cos (b * T)) _ Z1)|apply (is_RInt_scal (V:=R_NormedModule) _ _ _ (exp (a * T) * sin (b * T)) _ Z2)]].
    intros s _. replace (t0 + T - s) with ((t0 - s) + T) by ring. rewrite kre_shift. unfold scal, minus, plus, opp. cbn. unfold mult. cbn. ring. }
  assert (J2 : is_RInt (fun s => kim a b c d (t0 + T - s) * u s) (- T) t0 (exp (a * T) * cos (b * T) * im z + exp (a * T) * sin (b * T) * re z)).
  { eapply is_RInt_ext; [|apply (is_RInt_plus (V:=R_NormedModule)); [apply (is_RInt_scal (V:=R_NormedModule) _ _ _ (exp (a * T) * cos (b * T)) _ Z2)|apply (is_RInt_scal (V:=R_NormedModule) _ _ _ (exp (a * T) * sin (b * T)) _ Z1)]].
    intros s _. replace (t0 + T - s) with ((t0 - s) + T) by ring. rewrite kim_shift. unfold scal, plus. cbn. unfold mult. cbn. ring. }
  assert (K1 : is_RInt (fun s => kre a b c d (t0 + T - s) * u s) t0 (t0 + T) (- ((a * e - b * f) * (x0 + T * m) + e * m) +
     exp (a * T) * (cos (b * T) * ((a * e - b * f) * x0 + e * m) - sin (b * T) * ((a * f + b * e) * x0 + f * m)))).
  { eapply is_RInt_ext; [|exact I1]. intros s Hs. cbn beta. rewrite (UE s Hs). reflexivity. }
  assert (K2 : is_RInt (fun s => kim a b c d (t0 + T - s) * u s) t0 (t0 + T) (- ((a * f + b * e) * (x0 + T * m) + f * m) +
     exp (a * T) * (cos (b * T) * ((a * f + b * e) * x0 + f * m) + sin (b * T) * ((a * e - b * f) * x0 + e * m)))).
  { eapply is_RInt_ext; [|exact I2]. intros s Hs. cbn beta. rewrite (UE s Hs). reflexivity. }
  split.
  - pose proof (is_RInt_Chasles (V:=R_NormedModule) _ _ _ _ _ _ J1 K1) as X. unfold plus in X. cbn in X.
    eapply eq_ind; [exact X|]. unfold cexp, cmul, cadd, csub, cxR. cbn. 
    replace (a * T - b * 0) with (a * T) by ring. replace (a * 0 + b * T) with (b * T) by ring. unfold m. field. lra.
  - pose proof (is_RInt_Chasles (V:=R_NormedModule) _ _ _ _ _ _ J2 K2) as X. unfold plus in X. cbn in X.
    eapply eq_ind; [exact X|]. unfold cexp, cmul, cadd, csub, cxR. cbn.
    replace (a * T - b * 0) with (a * T) by ring. replace (a * 0 + b * T) with (b * T) by ring. unfold m. field. lra.
Qed.

Lemma stepPoles_conv T u x0 x1 t0 : 0 < T -> (forall s, t0 <= s <= t0 + T -> u s = x0 + (s - t0) / T * (x1 - x0)) ->
  forall prs zs y, (forall p r, In (p, r) prs -> cnorm2 p <> 0) -> Forall2 (fun pr z => conv T u pr t0 z) prs zs ->
  exists zs', stepPoles (map (recConvQ T) prs) zs x0 x1 y = (zs', y + fold_right Rplus 0 (map re zs')) /\
  Forall2 (fun pr z => conv T u pr (t0 + T) z) prs zs'.
Proof.
  intros HT U prs. induction prs as [|[p r] prs IH]; intros zs y HP H.
  - inversion H; subst. exists []. cbn. split; [f_equal; ring|constructor].
  - inversion H as [|? z ? zs' Hz Hzs E1 E2]; subst.
    pose proof (conv_step T u p r t0 z x0 x1 HT (HP p r (or_introl eq_refl)) Hz U) as S.
    cbn [map stepPoles]. destruct (recConvQ T (p, r)) as [[q0 q1] q2].
    set (z' := cadd _ _) in *. destruct (IH zs' (y + re z') (fun p0 r0 I => HP p0 r0 (or_intror I)) Hzs) as (zs2 & E & F2).
    rewrite E. exists (z' :: zs2). cbn [map fold_right]. split; [f_equal; ring|]. constructor; assumption.
Qed.

Lemma filtLoop_len rc : forall x s, length (filtLoop rc s x) = length x.
Proof. induction x as [|x0 x IH]; intros s; cbn [filtLoop]; [reflexivity|]. destruct (recConvStep rc s x0). cbn. f_equal. apply IH. Qed.

Lemma filtLoop_conv pr T u x : 0 < T -> (forall p r, In (p, r) (prPoles pr) -> cnorm2 p <> 0) -> linear_between T x u ->
  forall l2 l1 s, x = (l1 ++ l2)%list -> rsOld s = before x (length l1) ->
  Forall2 (fun pr z => conv T u pr ((INR (length l1) - 1) * T) z) (prPoles pr) (rsZeta s) ->
  forall n, (n < length l2)%nat -> exists zs, Forall2 (fun pr z => conv T u pr (INR (length l1 + n) * T) z) (prPoles pr) zs /\
  nth n (filtLoop (poleResidue2RecConv pr T) s l2) 0 = prAsymp pr * sample x (length l1 + n) + fold_right Rplus 0 (map re zs).
Proof.
  intros HT HP U. induction l2 as [|x1 l2 IH]; intros l1 s EX HO HZ n Hn; [cbn in Hn; lia|].
  assert (SX : sample x (length l1) = x1) by (rewrite EX; unfold sample; rewrite app_nth2, Nat.sub_diag by lia; reflexivity).
  assert (US : forall t, (INR (length l1) - 1) * T <= t <= (INR (length l1) - 1) * T + T ->
     u t = rsOld s + (t - (INR (length l1) - 1) * T) / T * (x1 - rsOld s)).
  { intros t Ht. rewrite HO, <- SX. apply U; [rewrite EX, app_length; cbn; lia|lra]. }
  destruct (stepPoles_conv T u (rsOld s) x1 _ HT US (prPoles pr) (rsZeta s) (prAsymp pr * x1) HP HZ) as (zs & E & F2).
  replace ((INR (length l1) - 1) * T + T) with (INR (length l1) * T) in F2 by ring.
  cbn [filtLoop]. unfold recConvStep, poleResidue2RecConv. cbn [rcAsymp rcQ]. rewrite E.
  destruct n as [|n].
  - exists zs. rewrite Nat.add_0_r. split; [exact F2|]. cbn [nth]. rewrite SX. reflexivity.
  - cbn [nth]. destruct (IH (l1 ++ [x1])%list (mkRS x1 zs)) with (n := n) as (zs' & F' & E').
    + rewrite <- app_assoc. exact EX.
    + rewrite app_length, Nat.add_1_r. cbn [before rsOld]. symmetry. exact SX.
    + rewrite app_length, Nat.add_1_r, S_INR. cbn [rsZeta]. replace ((INR (length l1) + 1 - 1) * T) with (INR (length l1) * T) by ring. exact F2.
    + cbn in Hn. lia.
    + rewrite app_length in F', E'. cbn [length] in F', E'. replace (length l1 + Datatypes.S n)%nat with (length l1 + 1 + n)%nat by lia.
      exists zs'. split; [exact F'|]. exact E'.
Qed.

(** the output of the filter at sample n is the asymptote times the input plus
    the convolution of the input with the impulse response of every pole *)
Theorem C39_exact : forall pr T x u, 0 < T -> (forall p r, In (p, r) (prPoles pr) -> p <> mkC 0 0) -> linear_between T x u ->
  let y := recConvFiltSeq (poleResidue2RecConv pr T) x in
  length y = length x /\ forall n, (n < length x)%nat ->
  let t := INR n * T in
  let h '(p, r) s := response (re p) (im p) (re r) (im r) (t - s) * u s in
  (forall q, In q (prPoles pr) -> ex_RInt (h q) (- T) t) /\
  nth n y 0 = prAsymp pr * sample x n + fold_right Rplus 0 (map (fun q => RInt (h q) (- T) t) (prPoles pr)).
Proof.
  intros pr T x u HT HP U y. split; [apply filtLoop_len|]. intros n Hn t h.
  assert (HP' : forall p r, In (p, r) (prPoles pr) -> cnorm2 p <> 0).
  { intros p r I E. apply (HP p r I). unfold cnorm2 in E. destruct p as [a b]. cbn in E. 
    pose proof (Rle_0_sqr a). pose proof (Rle_0_sqr b). unfold Rsqr in *.
    apply cx_eq; cbn; apply Rsqr_0_uniq; unfold Rsqr; lra. }
  assert (Z0 : Forall2 (fun q z => conv T u q ((INR (length (@nil R)) - 1) * T) z) (prPoles pr) (rsZeta (allocRecConvState (poleResidue2RecConv pr T)))).
  { cbn [length INR]. replace ((0 - 1) * T) with (- T) by ring. unfold allocRecConvState, poleResidue2RecConv. cbn [rsZeta rcQ]. rewrite map_map.
    clear. induction (prPoles pr); cbn [map]; constructor; [apply conv_start|assumption]. }
  destruct (filtLoop_conv pr T u x HT HP' U x [] (allocRecConvState (poleResidue2RecConv pr T)) eq_refl eq_refl Z0 n Hn) as (zs & F & E). cbn [length Nat.add] in F, E.
  fold (recConvFiltSeq (poleResidue2RecConv pr T) x) in E. fold t in F.
  assert (V : forall q z, conv T u q t z -> is_RInt (h q) (- T) t (re z)) by (intros [p r] z [C _]; exact C).
  assert (Q : (forall q, In q (prPoles pr) -> ex_RInt (h q) (- T) t) /\ map re zs = map (fun q => RInt (h q) (- T) t) (prPoles pr)).
  { clear E Z0 HP HP' y. induction F as [|q z prs zs C F IH]; [split; [intros q []|reflexivity]|].
    destruct IH as [I1 I2]. split.
    - intros q' [<-|I]; [|auto]. exists (re z). auto.
    - cbn [map]. rewrite I2. apply (f_equal (fun v => v :: _)). symmetry. apply is_RInt_unique. auto. }
  destruct Q as [Q1 Q2]. split; [exact Q1|]. rewrite <- Q2. exact E.
Qed.

(** a signal that is linear between the samples exists for every input *)
Lemma linear_between_exists T x : 0 < T -> exists u, linear_between T x u.
Proof.
  intros HT. set (piece := fun (n : nat) t => before x n + (t - (INR n - 1) * T) / T * (sample x n - before x n)).
  exists (fun t => piece (Z.to_nat (up (t / T))) t). intros n t _ [H1 H2]. change (piece (Z.to_nat (up (t / T))) t = piece n t).
  destruct (archimed (t / T)) as [A1 A2].
  assert (B1 : INR n - 1 <= t / T) by (apply Rmult_le_reg_r with T; [lra|]; unfold Rdiv; rewrite Rmult_assoc, Rinv_l by lra; lra).
  assert (B2 : t / T <= INR n) by (apply Rmult_le_reg_r with T; [lra|]; unfold Rdiv; rewrite Rmult_assoc, Rinv_l by lra; lra).
  assert (LO : (Z.of_nat n <= up (t / T))%Z).
  { apply Zlt_succ_le. apply lt_IZR. unfold Z.succ. rewrite plus_IZR, <- INR_IZR_INZ. lra. }
  assert (HI : (up (t / T) <= Z.of_nat n + 1)%Z).
  { apply le_IZR. rewrite plus_IZR, <- INR_IZR_INZ. lra. }
  destruct (Z.eq_dec (up (t / T)) (Z.of_nat n)) as [E|E]; [rewrite E, Nat2Z.id; reflexivity|].
  assert (E' : up (t / T) = Z.of_nat (Datatypes.S n)) by lia. rewrite E', Nat2Z.id.
  rewrite E', <- INR_IZR_INZ, S_INR in A2.
  assert (TT : t = INR n * T). { replace t with (t / T * T) by (field; lra). f_equal. lra. }
  unfold piece. cbn [before]. rewrite S_INR, TT. field. lra.
Qed.
(** C39 at work: a first-order filter, a complex pole and three samples *)
Example C39_nonvacuous : exists u : R -> R, let pr := mkPR 2 [(mkC (-1) 0, mkC 3 0); (mkC (-1) 5, mkC 1 1)] in
  linear_between (1/2) [1; 4; -1] u /\ (forall p r, In (p, r) (prPoles pr) -> p <> mkC 0 0) /\
  nth 1 (recConvFiltSeq (poleResidue2RecConv pr (1/2)) [1; 4; -1]) 0 =
  2 * 4 + (RInt (fun s => response (-1) 0 3 0 (1 * (1/2) - s) * u s) (- (1/2)) (1 * (1/2)) +
           (RInt (fun s => response (-1) 5 1 1 (1 * (1/2) - s) * u s) (- (1/2)) (1 * (1/2)) + 0)).
Proof.
  destruct (linear_between_exists (1/2) [1; 4; -1]) as (u & U); [lra|]. exists u. cbn zeta. split; [exact U|].
  assert (NZ : forall p r, In (p, r) (prPoles (mkPR 2 [(mkC (-1) 0, mkC 3 0); (mkC (-1) 5, mkC 1 1)])) -> p <> mkC 0 0).
  { intros p r [E|[E|[]]]; injection E as <- _; intros X; injection X; intros; lra. }
  split; [exact NZ|].
  destruct (C39_exact (mkPR 2 [(mkC (-1) 0, mkC 3 0); (mkC (-1) 5, mkC 1 1)]) (1/2) [1; 4; -1] u ltac:(lra) NZ U) as (_ & H).
  destruct (H 1%nat) as (_ & E); [cbn; lia|]. exact E.
Qed.
