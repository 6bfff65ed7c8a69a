(** Axis-parallel plane waves looked up in the auxiliary grid solve the
    leapfrog equations of the box. *)
From Coq Require Import ZArith List Bool Lia Reals Lra Psatz.
From Verif Require Import Types Lang LangProofs BBox Grid CArr Edges PmlProfile PlaneWave PwProofs SpecPhys SpecYee SpecPw SpecPwAxis P_Grid P_Pml P_PwVectors PwAux P_PwAux.
Import ListNotations.
Open Scope R_scope.
Local Arguments Z.mul : simpl never.
Local Arguments Z.add : simpl never.
Local Arguments Z.sub : simpl never.

Lemma rad_0 : rad 0 = 0. Proof. unfold rad. lra. Qed.
Lemma rad_90 : rad 90 = PI / 2. Proof. unfold rad. lra. Qed.
Lemma rad_180 : rad 180 = PI. Proof. unfold rad. lra. Qed.
Lemma rad_270 : rad 270 = 3 * (PI / 2). Proof. unfold rad. lra. Qed.
Lemma cos_270 : cos (3 * (PI / 2)) = 0.
Proof. replace (3 * (PI / 2)) with (PI / 2 + PI) by lra. rewrite neg_cos, cos_PI2. lra. Qed.
Lemma sin_270 : sin (3 * (PI / 2)) = -1.
Proof. replace (3 * (PI / 2)) with (PI / 2 + PI) by lra. rewrite neg_sin, sin_PI2. lra. Qed.
Ltac trigval := rewrite ?rad_0, ?rad_90, ?rad_180, ?rad_270, ?cos_0, ?sin_0, ?cos_PI2, ?sin_PI2, ?cos_PI, ?sin_PI, ?cos_270, ?sin_270.

Definition sgn (fw : bool) : R := if fw then 1 else -1.
Lemma along_k th ph a fw : along th ph a fw -> forall a', kinc th ph a' = if axis_eqb a' a then sgn fw else 0.
Proof. intros H a'. unfold kinc. rewrite !rad_deg. destruct H; trigval; destruct a'; cbn [axis_eqb sgn]; lra. Qed.
Lemma along_o g th ph a fw o : along th ph a fw -> origin g th ph = Some o -> o a = g (if fw then face_lo a else face_hi a).
Proof.
  intros H HO. unfold origin in HO. destruct H as [ph P|ph P| | | |].
  1,2: revert HO; repeat match goal with |- context [rle ?x ?y] => let q := fresh in let E := fresh in set (q := rle x y); assert (E : q = rle x y) by reflexivity; clearbody q; destruct q; unfold rle in E; destruct (Rle_dec x y); try discriminate E; clear E; try (exfalso; lra)
     | |- context [rlt ?x ?y] => let q := fresh in let E := fresh in set (q := rlt x y); assert (E : q = rlt x y) by reflexivity; clearbody q; destruct q; unfold rlt in E; destruct (Rlt_dec x y); try discriminate E; clear E; try (exfalso; lra) end;
     cbn [andb obind]; try discriminate; intros [= <-]; reflexivity.
  all: rewrite ?(rle_true 0 90), ?(rle_true 90 90), ?(rle_true 0 0), ?(rle_true 0 180), ?(rle_false 180 90), ?(rlt_true 90 180), ?(rle_true 180 180), ?(rle_true 0 270), ?(rle_false 270 90), ?(rlt_true 90 270), ?(rle_false 270 180), ?(rlt_true 180 270), ?(rle_true 270 270) in HO by lra;
  cbn [andb obind] in HO; injection HO as <-; reflexivity.
Qed.
Lemma along_range th ph a fw : along th ph a fw -> 0 <= th <= 180 /\ 0 <= ph < 360.
Proof. intros []; lra. Qed.

Lemma floor_IZR n : rfloor (IZR n) = n.
Proof. apply floor_int. lra. Qed.
Lemma len_diag g a : (g (face_lo a) <= g (face_hi a))%Z -> (g (face_hi a) - g (face_lo a) <= diagF g)%Z.
Proof.
  intros N. assert (X : IZR (g (face_hi a) - g (face_lo a)) <= sqrt (IZR (diag2 g))).
  { rewrite <- (sqrt_square (IZR (g (face_hi a) - g (face_lo a)))) by (apply IZR_le; lia). apply sqrt_le_1_alt. rewrite <- mult_IZR. apply IZR_le.
    unfold diag2. pose proof (Z.square_nonneg (g XHI - g XLO)). pose proof (Z.square_nonneg (g YHI - g YLO)). pose proof (Z.square_nonneg (g ZHI - g ZLO)).
    destruct a; cbn [face_lo face_hi]; lia. }
  pose proof (floor_spec (sqrt (IZR (diag2 g)))) as F. fold (diagF g) in F.
  assert (Y : IZR (g (face_hi a) - g (face_lo a)) < IZR (diagF g + 1)) by (rewrite plus_IZR; lra). apply lt_IZR in Y. lia.
Qed.

Ltac lkup ic VH VE :=
  repeat match goal with
    | |- context [ic ?y ?q ?a ?b ?c] => match q with
        | HX => rewrite (VH y q a b c) by (first [assumption|reflexivity|discriminate|cbn [ind]; lia])
        | HY => rewrite (VH y q a b c) by (first [assumption|reflexivity|discriminate|cbn [ind]; lia])
        | HZ => rewrite (VH y q a b c) by (first [assumption|reflexivity|discriminate|cbn [ind]; lia])
        | _ => rewrite (VE y q a b c) by (first [assumption|reflexivity|discriminate|cbn [ind]; lia]) end end.
Section Axis.
Variables (g : BBox) (th ph et size : R) (a0 : Axis) (fw : bool) (o : Axis -> Z).
Hypothesis N : (g (face_lo a0) <= g (face_hi a0))%Z.
Hypothesis AL : along th ph a0 fw.
Hypothesis HO : origin g th ph = Some o.
Notation Fi := (Finc size th ph et).
Notation kv := (kinc th ph).
Notation inc x := (incAux size th ph et o x).

(** index into the auxiliary arrays of node [n] / half-node [n+1/2] along the axis *)
Definition eIdx (n : Z) : Z := if fw then (m0 + (n - g (face_lo a0)))%Z else (m0 + (g (face_hi a0) - n))%Z.
Definition hIdx (n : Z) : Z := if fw then (m0 + (n - g (face_lo a0)))%Z else (m0 - 1 + (g (face_hi a0) - n))%Z.

Lemma dist_axis f i j k : auxDist kv o f i j k = sgn fw * (IZR (2 * ind i j k a0 + offset f a0) / 2 - IZR (g (if fw then face_lo a0 else face_hi a0))).
Proof.
  rewrite dist_position. unfold dot. rewrite !(along_k _ _ _ _ AL). rewrite <- (along_o _ _ _ _ _ _ AL HO). unfold position.
  destruct a0; cbn [axis_eqb]; ring.
Qed.
Lemma along_E0 : Fi (Ealong a0) = 0.
Proof.
  destruct (C28_vectors size th ph et) as (_ & _ & _ & D & _). unfold dot in D. rewrite !(along_k _ _ _ _ AL) in D.
  unfold incE in D. destruct a0, fw; cbn [axis_eqb sgn Ealong] in *; lra.
Qed.
Lemma along_H a : Fi (Halong a) * eta0 = cross kv (incE size th ph et) a.
Proof.
  destruct (C28_vectors size th ph et) as (_ & _ & _ & _ & _ & D). specialize (D a). unfold incH in D. rewrite D.
  pose proof eta0_pos. field. lra.
Qed.
Lemma along_H0 : Fi (Halong a0) = 0.
Proof.
  pose proof eta0_pos as P. pose proof (along_H a0) as H. unfold cross in H. rewrite !(along_k _ _ _ _ AL) in H.
  destruct a0; cbn [succA axis_eqb] in H; ring_simplify in H; apply Rmult_integral in H; destruct H; auto; lra.
Qed.
Lemma along_H1 : Fi (Halong (succA a0)) * eta0 = - sgn fw * Fi (Ealong (succA (succA a0))).
Proof.
  rewrite along_H. unfold cross. rewrite !(along_k _ _ _ _ AL). unfold incE. destruct a0; cbn [succA axis_eqb]; ring.
Qed.
Lemma along_H2 : Fi (Halong (succA (succA a0))) * eta0 = sgn fw * Fi (Ealong (succA a0)).
Proof.
  rewrite along_H. unfold cross. rewrite !(along_k _ _ _ _ AL). unfold incE. destruct a0; cbn [succA axis_eqb]; ring.
Qed.

Lemma inc_zero x f i j k : Fi f = 0 -> inc x f i j k = 0.
Proof. intros Z. unfold incAux, incidentFieldAuxGrid. destruct (auxLookup _ _ _); cbn [obind]; [rewrite Z; ring|reflexivity]. Qed.
Lemma inc_E x f i j k : aux_ok g x -> is_E f = true -> fld_axis f <> a0 ->
  (g (face_lo a0) <= ind i j k a0 <= g (face_hi a0))%Z -> inc x f i j k = Fi f * adat (Eyi x) (eIdx (ind i j k a0)).
Proof.
  intros OK E A B. unfold incAux, incidentFieldAuxGrid, auxLookup. rewrite E, dist_axis.
  assert (O0 : offset f a0 = 0%Z) by (unfold offset; rewrite E; destruct f, a0; cbn in *; congruence). rewrite O0.
  set (n := ind i j k a0) in *. clearbody n.
  assert (D : sgn fw * (IZR (2 * n + 0) / 2 - IZR (g (if fw then face_lo a0 else face_hi a0))) = IZR (eIdx n - m0)).
  { unfold eIdx. rewrite plus_IZR, mult_IZR. destruct fw; cbn [sgn].
    - replace (m0 + (n - g (face_lo a0)) - m0)%Z with (n - g (face_lo a0))%Z by lia. rewrite minus_IZR. lra.
    - replace (m0 + (g (face_hi a0) - n) - m0)%Z with (g (face_hi a0) - n)%Z by lia. rewrite minus_IZR. lra. }
  rewrite D, floor_IZR. pose proof (nx_diag g). pose proof (len_diag g a0 N). pose proof (ok_E g x OK).
  assert (RG : (0 <= eIdx n /\ eIdx n + 1 < alen (Eyi x))%Z) by (unfold eIdx, m0; destruct fw; lia).
  replace (m0 + (eIdx n - m0))%Z with (eIdx n) by lia.
  rewrite !rd_ok by lia. cbn [obind]. ring.
Qed.
Lemma inc_H x f i j k : aux_ok g x -> is_E f = false -> fld_axis f <> a0 ->
  (g (face_lo a0) - 1 <= ind i j k a0 <= g (face_hi a0))%Z -> inc x f i j k = Fi f * eta0 * adat (Hzi x) (hIdx (ind i j k a0)).
Proof.
  intros OK E A B. unfold incAux, incidentFieldAuxGrid, auxLookup. rewrite E, dist_axis.
  assert (O0 : offset f a0 = 1%Z) by (unfold offset; rewrite E; destruct f, a0; cbn in *; congruence). rewrite O0.
  set (n := ind i j k a0) in *. clearbody n.
  assert (D : sgn fw * (IZR (2 * n + 1) / 2 - IZR (g (if fw then face_lo a0 else face_hi a0))) + / 2 = IZR (hIdx n - m0 + 1)).
  { unfold hIdx. rewrite plus_IZR, mult_IZR. destruct fw; cbn [sgn].
    - replace (m0 + (n - g (face_lo a0)) - m0 + 1)%Z with (n - g (face_lo a0) + 1)%Z by lia. rewrite plus_IZR, minus_IZR. lra.
    - replace (m0 - 1 + (g (face_hi a0) - n) - m0 + 1)%Z with (g (face_hi a0) - n)%Z by lia. rewrite minus_IZR. lra. }
  rewrite D, floor_IZR. pose proof (nx_diag g). pose proof (len_diag g a0 N). pose proof (ok_H g x OK).
  assert (RG : (0 <= hIdx n /\ hIdx n + 1 < alen (Hzi x))%Z) by (unfold hIdx, m0; destruct fw; lia).
  replace (m0 - 1 + (hIdx n - m0 + 1))%Z with (hIdx n) by lia.
  rewrite !rd_ok by lia. cbn [obind]. ring.
Qed.

(** one leapfrog step of the incident field in the box *)
Variables (dt d : R).
Lemma obeys_one m x x' : aux_ok g x -> aux_ok g x' -> free_space_box m g a0 dt d ->
  (forall i, (1 <= i < auxXb g)%Z -> adat (Eyi x') i = adat (Eyi x) i + dt / (eps0 * d) * (adat (Hzi x) (i-1)%Z - adat (Hzi x) i)) ->
  (forall i, (0 <= i < auxXb g)%Z -> adat (Hzi x') i = adat (Hzi x) i + dt / (mu0 * d) * (adat (Eyi x') i - adat (Eyi x') (i+1)%Z)) ->
  d <> 0 ->
  forall f i j k, inBox g f i j k ->
  inc x' f i j k =
  if is_E f then alpha m f i j k * inc x f i j k + beta m f i j k * drive (with_fields m (inc x)) f (mkPt i j k)
  else inc x f i j k + gamma m f i j k * drive (with_fields m (inc x')) f (mkPt i j k).
Proof.
  intros OK OK' (CF & IH & IE) QE QH DN f i j k B.
  pose proof (nx_diag g) as NX. pose proof (xb_diag g) as XB. pose proof (len_diag g a0 N) as LD.
  pose proof eps0_pos as PE. pose proof mu0_pos as PM. pose proof eta0_pos as PT.
  pose proof (CF f i j k B) as CFf.
  assert (ZE : forall y i j k, inc y (Ealong a0) i j k = 0) by (intros; apply inc_zero, along_E0).
  assert (ZH : forall y i j k, inc y (Halong a0) i j k = 0) by (intros; apply inc_zero, along_H0).
  pose proof along_H1 as H1. pose proof along_H2 as H2.
  assert (VE : forall y q i j k, aux_ok g y -> is_E q = true -> fld_axis q <> a0 -> (g (face_lo a0) <= ind i j k a0 <= g (face_hi a0))%Z ->
    inc y q i j k = Fi q * adat (Eyi y) (eIdx (ind i j k a0))) by (intros; apply inc_E; auto).
  assert (VH : forall y q i j k, aux_ok g y -> is_E q = false -> fld_axis q <> a0 -> (g (face_lo a0) - 1 <= ind i j k a0 <= g (face_hi a0))%Z ->
    inc y q i j k = Fi q * eta0 * adat (Hzi y) (hIdx (ind i j k a0))) by (intros; apply inc_H; auto).
  pose proof (B a0) as Ba.
  assert (QE' : forall n, (g (face_lo a0) <= n <= g (face_hi a0))%Z ->
     adat (Eyi x') (eIdx n) = adat (Eyi x) (eIdx n) - sgn fw * (dt / (eps0 * d) * (adat (Hzi x) (hIdx n) - adat (Hzi x) (hIdx (n - 1))))).
  { intros n Hn. unfold eIdx, hIdx, m0. destruct fw; cbn [sgn].
    - rewrite QE by lia. replace (2 + (n - g (face_lo a0)) - 1)%Z with (2 + (n - 1 - g (face_lo a0)))%Z by lia. ring.
    - rewrite QE by lia. replace (2 - 1 + (g (face_hi a0) - n))%Z with (2 + (g (face_hi a0) - n) - 1)%Z by lia.
      replace (2 - 1 + (g (face_hi a0) - (n - 1)))%Z with (2 + (g (face_hi a0) - n))%Z by lia. ring. }
  assert (QH' : forall n, (g (face_lo a0) <= n < g (face_hi a0))%Z ->
     adat (Hzi x') (hIdx n) = adat (Hzi x) (hIdx n) - sgn fw * (dt / (mu0 * d) * (adat (Eyi x') (eIdx (n + 1)) - adat (Eyi x') (eIdx n)))).
  { intros n Hn. unfold eIdx, hIdx, m0. destruct fw; cbn [sgn].
    - rewrite QH by lia. replace (2 + (n + 1 - g (face_lo a0)))%Z with (2 + (n - g (face_lo a0)) + 1)%Z by lia. ring.
    - rewrite QH by lia. replace (2 + (g (face_hi a0) - (n + 1)))%Z with (2 - 1 + (g (face_hi a0) - n))%Z by lia.
      replace (2 + (g (face_hi a0) - n))%Z with (2 - 1 + (g (face_hi a0) - n) + 1)%Z by lia. ring. }
  clear QE QH.
  assert (SQ : sgn fw * sgn fw = 1) by (destruct fw; cbn [sgn]; lra).
  revert ZE ZH H1 H2 VE VH Ba QE' QH' IH IE N LD. generalize eIdx hIdx (sgn fw) SQ (Finc size th ph et) (incAux size th ph et o).
  clear - CFf OK OK' PE PM PT DN B. intros eI hI s SQ FI ic.
  generalize eps0 mu0 eta0 PE PM PT CFf. clear PE PM PT CFf. intros e0 u0 t0 PE PM PT CFf.
  unfold drive, curlH, curlE, val, fld, with_fields, idh, ide.
  destruct a0; intros ZE ZH H1 H2 VE VH Ba QE' QH' IH IE N LD;
    destruct f; cbn [is_E fld_axis succA Ealong Halong arr li lj lk ptx pty ptz crd move ind face_lo face_hi axis_eqb offset] in *;
    unfold offset in Ba; cbn [is_E fld_axis axis_eqb] in Ba; rewrite ?ZE, ?ZH;
    lkup ic VH VE; cbn [ind];
    (match type of CFf with _ /\ _ => destruct CFf as [CFa CFb]; rewrite CFa, CFb | _ => rewrite CFf end);
    try ring; change (i + -1)%Z with (i - 1)%Z; change (j + -1)%Z with (j - 1)%Z; change (k + -1)%Z with (k - 1)%Z;
    rewrite ?H1, ?H2;
    first [rewrite QE' by lia; rewrite IH by lia|rewrite QH' by lia; rewrite IE by lia];
    assert (S2 : s ^ 2 = 1) by (simpl; lra);
    field [S2]; repeat split; lra.
Qed.
End Axis.
