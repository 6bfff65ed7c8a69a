(** Periodic faces with any boundary on the other faces: proofs. *)
From Coq Require Import ZArith List Bool Lia.
From Verif Require Import Types Lang LangProofs BBox Grid SpecGrid Pml Mur Ghost Step StepShape StepBounds StepCount StepOnce
  SpecCone StepValue GhostValue StepClosed PmlValue MurValue MurThin SpecPeriodic Periodic.
Import ListNotations.
Open Scope Z_scope.
Local Arguments Z.mul : simpl never.
Local Arguments Z.add : simpl never.
Local Arguments Z.sub : simpl never.

Lemma off_only {V} c a isE (it : list (item V)) : off_faces c a isE it -> forall s, In s (flat it) -> kind (dst s) = Some isE.
Proof. intros H s Hs. destruct (H s Hs) as (f & i & j & k & -> & E & _). cbn. rewrite E. reflexivity. Qed.
Section Per.
Context {V : Type} (A : Arith V).
Variable c : Cfg.
Hypothesis W : wf c.
Variable a : Axis.
Hypothesis PLO : outerSurfaceType c (face_lo a) = BT_PERIODIC.
Hypothesis PHI : outerSurfaceType c (face_hi a) = BT_PERIODIC.
Variables xE xH : list (item V).
Hypothesis offE : off_faces c a true xE.
Hypothesis offH : off_faces c a false xH.
Hypothesis onlyE : forall s, In s (flat xE) -> kind (dst s) = Some true.
Hypothesis onlyH : forall s, In s (flat xH) -> kind (dst s) = Some false.
Notation lo := (gobox c (face_lo a)). Notation hi := (gobox c (face_hi a)).
Notation stp := (stepxx A c xE xH).

Lemma Hfld_isE b : is_E (Hfld b) = false.
Proof. destruct b; reflexivity. Qed.
Lemma in_face_cases f : in_face a f -> (exists b, b <> a /\ f = Efld b) \/ f = Hfld a.
Proof.
  unfold in_face. destruct f; cbn [is_E fld_axis]; intros H;
  [left; exists XDIR|left; exists YDIR|left; exists ZDIR|right|right|right]; try (split; [congruence|reflexivity]); rewrite <- H; reflexivity.
Qed.
Lemma in_face_E b : b <> a -> in_face a (Efld b).
Proof. intros H. unfold in_face. destruct b; cbn; congruence. Qed.
Lemma in_face_H : in_face a (Hfld a).
Proof. unfold in_face. destruct a; reflexivity. Qed.
Lemma in_face_inb f : in_face a f -> fieldIsInBoundary f (face_lo a) = true /\ fieldIsInBoundary f (face_hi a) = true.
Proof. unfold in_face. destruct f, a; cbn; intros H; split; congruence || reflexivity. Qed.

(** no layers along the periodic axis *)
Lemma gi_go : gibox c (face_lo a) = lo /\ gibox c (face_hi a) = hi.
Proof.
  assert (L1 : outerSurfaceNumLayers c (face_lo a) = 0) by (apply (wf_nopml c W); congruence).
  assert (L2 : outerSurfaceNumLayers c (face_hi a) = 0) by (apply (wf_nopml c W); congruence).
  cfg_facts c W. destruct a; cbn [face_lo face_hi] in *; lia.
Qed.
(** the limits of a zone span the periodic axis *)
Definition spans (lim : BBox) : Prop := lim (face_lo a) = lo /\ lim (face_hi a) = hi.
Lemma spans_grid f : in_face a f -> spans (gfilim c f).
Proof.
  intros H. destruct (in_face_inb f H) as [B1 B2]. destruct gi_go as [G1 G2]. unfold spans, gfilim, setFieldLimits, includeInnerBoundary.
  destruct a; cbn [face_lo face_hi] in *; rewrite ?B1, ?B2, ?PLO, ?PHI; cbn [btype_eqb negb]; lia.
Qed.
Lemma spans_outer f : in_face a f -> spans (gfolim c f).
Proof.
  intros H. destruct (in_face_inb f H) as [B1 B2]. unfold spans, gfolim, setFieldLimits.
  destruct a; cbn [face_lo face_hi] in *; rewrite ?B1, ?B2; lia.
Qed.
Lemma spans_pml r f : in_face a f -> outerSurfaceType c r = BT_PML -> spans (fplim c r f).
Proof.
  intros H T. destruct (in_face_inb f H) as [B1 B2]. destruct gi_go as [G1 G2].
  unfold spans, fplim, setFieldLimits, pbox, pmlInclude, setBoundingBoxBoundaryFlags.
  destruct a, r; cbn [face_lo face_hi] in *; try congruence; rewrite ?B1, ?B2; cbn [mkbox]; lia.
Qed.
Lemma spans_mur r f : in_face a f -> outerSurfaceType c r = BT_MUR -> spans (fmlim c r f).
Proof.
  intros H T. destruct (in_face_inb f H) as [B1 B2]. destruct gi_go as [G1 G2].
  unfold spans, fmlim, setFieldLimits, murbox, getFaceOfBoundingBox, murInclude.
  destruct a, r; cbn [face_lo face_hi] in *; try congruence; rewrite ?B1, ?B2; cbn [face_axis axis_eqb negb andb mkbox]; rewrite ?PLO, ?PHI; cbn [btype_eqb negb andb mkbox]; lia.
Qed.
Lemma spans_iff lim l : spans lim -> (inp lim (setc a lo l) <-> inp lim (setc a hi l)).
Proof.
  intros [S1 S2]. pose proof (hi_gt c W a). unfold inp, inl. destruct a; cbn [setc li lj lk face_lo face_hi] in *; rewrite S1, S2; intuition lia.
Qed.
Lemma sample_hi f l : in_face a f -> sample c a f l -> inp (gfolim c f) (setc a hi l).
Proof. intros F S. apply (spans_iff _ l (spans_outer f F)). exact S. Qed.
Lemma sample_E b l : b <> a -> (sample c a (Efld b) l <-> forall d, d <> a -> gobox c (face_lo d) <= coord d l <= gobox c (face_hi d) - (if axis_eqb d b then 1 else 0)).
Proof.
  intros N. unfold sample, inp, inl, gfolim, setFieldLimits. pose proof (hi_gt c W a) as G. split.
  - intros H d Nd. destruct a, b; try congruence; destruct d; try congruence; cbn [Efld fieldIsInBoundary setc li lj lk coord face_lo face_hi axis_eqb] in *; lia.
  - intros H. pose proof (H XDIR) as H1. pose proof (H YDIR) as H2. pose proof (H ZDIR) as H3.
    destruct a, b; try congruence; cbn [Efld fieldIsInBoundary setc li lj lk coord face_lo face_hi axis_eqb] in *;
    repeat match goal with H : ?x <> ?x -> _ |- _ => clear H | H : ?x <> ?y -> _ |- _ => specialize (H ltac:(discriminate)) end; lia.
Qed.
Lemma sample_H l : (sample c a (Hfld a) l <-> forall d, d <> a -> gobox c (face_lo d) <= coord d l <= gobox c (face_hi d) - 1).
Proof.
  unfold sample, inp, inl, gfolim, setFieldLimits. pose proof (hi_gt c W a) as G. split.
  - intros H d Nd. destruct a; destruct d; try congruence; cbn [Hfld fieldIsInBoundary setc li lj lk coord face_lo face_hi] in *; lia.
  - intros H. pose proof (H XDIR) as H1. pose proof (H YDIR) as H2. pose proof (H ZDIR) as H3.
    destruct a; cbn [Hfld fieldIsInBoundary setc li lj lk coord face_lo face_hi] in *;
    repeat match goal with H : ?x <> ?x -> _ |- _ => clear H | H : ?x <> ?y -> _ |- _ => specialize (H ltac:(discriminate)) end; lia.
Qed.
Lemma third b : b <> a -> exists e, e <> a /\ e <> b /\ forall d, d <> a -> d = b \/ d = e.
Proof. destruct a, b; try congruence; intros _; [exists ZDIR|exists YDIR|exists ZDIR|exists XDIR|exists YDIR|exists XDIR]; repeat split; try congruence; intros []; auto; congruence. Qed.

(** normal H of the faces, one coordinate possibly just outside the grid *)
Lemma plane m l b e : per_state A c a m -> b <> a -> e <> a -> e <> b ->
  gobox c (face_lo b) <= coord b l <= gobox c (face_hi b) - 1 -> gobox c (face_lo e) - 1 <= coord e l <= gobox c (face_hi e) ->
  m (on a (AF (Hfld a)) lo l) = m (on a (AF (Hfld a)) hi l).
Proof.
  intros PS NB NE NEB Hb He.
  assert (D : forall d, d <> a -> d = b \/ d = e).
  { intros d Nd. destruct (third b NB) as (e' & E1 & E2 & E3). destruct (E3 e NE) as [|<-]; [congruence|]. auto. }
  pose proof (hi_gt c W a) as HG. pose proof (hi_gt c W e) as HE.
  assert (GO : forall F, face_axis F = e -> coord e l = ghostIdx c F -> m (on a (AF (Hfld a)) lo l) = m (on a (AF (Hfld a)) hi l)).
  { intros F FE CG. destruct (active (outerSurfaceType c F)) eqn:AC.
    - assert (X : forall n, gobox c (face_lo a) - 1 <= n <= gobox c (face_hi a) ->
        m (on a (AF (Hfld a)) n l) = sgn A (outerSurfaceType c F) (m (on a (AF (Hfld a)) n (setc e (srcIdx c F) l)))).
      { intros n Hn. unfold on. pose proof (ps_g A c a m PS F AC (wa (AF (Hfld a)) (setc a n l))) as R.
        rewrite FE in R. rewrite <- !wa_setc in R. rewrite !(setc_comm e a _ _ l) in R by auto. rewrite <- CG, setc_same in R. apply R.
        - apply carriedH. congruence.
        - intros d Nd. rewrite coord_wa. destruct (axis_dec d a) as [->|Nda]; [rewrite coord_setc; exact Hn|].
          rewrite coord_setc_other by auto. destruct (D d Nda) as [->| ->]; [lia|congruence]. }
      rewrite !X by lia. f_equal. apply (ps_F A c a m PS _ _ in_face_H). apply sample_H.
      intros d Nd. destruct (D d Nd) as [->| ->].
      + rewrite coord_setc_other by auto. lia.
      + rewrite coord_setc. pose proof (src_inside c W F) as S. rewrite FE in S. lia.
    - apply (ps_o A c a m PS F); [congruence|exact AC|rewrite FE; exact CG|].
      intros d Nd Nf. destruct (D d Nd) as [->| ->]; [lia|congruence]. }
  destruct (face_cases e) as [A1 A2].
  destruct (Z.eq_dec (coord e l) (gobox c (face_lo e) - 1)) as [Q|N1].
  { apply (GO (face_lo e)); auto. rewrite ghostIdx_lo. exact Q. }
  destruct (Z.eq_dec (coord e l) (gobox c (face_hi e))) as [Q|N2].
  { apply (GO (face_hi e)); auto. rewrite ghostIdx_hi. exact Q. }
  apply (ps_F A c a m PS _ _ in_face_H). apply sample_H. intros d Nd. destruct (D d Nd) as [->| ->]; lia.
Qed.
(** tangential H on the two sides of the wrapped planes *)
Lemma wrap m b l : per_state A c a m -> b <> a -> (forall d, d <> a -> gobox c (face_lo d) - 1 <= coord d l <= gobox c (face_hi d)) ->
  m (wa (AF (Hfld b)) (setc a (lo - 1) l)) = m (wa (AF (Hfld b)) (setc a (hi - 1) l)) /\
  m (wa (AF (Hfld b)) (setc a hi l)) = m (wa (AF (Hfld b)) (setc a lo l)).
Proof.
  intros PS NB HR. destruct (face_cases a) as [A1 A2]. split.
  - pose proof (ps_g A c a m PS (face_lo a)) as R. unfold rel, srcIdx, wrapIdx in R. rewrite PLO, A1, ghostIdx_lo in R.
    specialize (R eq_refl (wa (AF (Hfld b)) l)). rewrite <- !wa_setc in R.
    replace (is_lo (face_lo a)) with true in R by (destruct a; reflexivity). apply R.
    + apply carriedH. congruence.
    + intros d Nd. rewrite coord_wa. auto.
  - pose proof (ps_g A c a m PS (face_hi a)) as R. unfold rel, srcIdx, wrapIdx in R. rewrite PHI, A2, ghostIdx_hi in R.
    specialize (R eq_refl (wa (AF (Hfld b)) l)). rewrite <- !wa_setc in R.
    replace (is_lo (face_hi a)) with false in R by (destruct a; reflexivity). apply R.
    + apply carriedH. congruence.
    + intros d Nd. rewrite coord_wa. auto.
Qed.
Lemma curl_H_agree m b l : per_data c a m -> per_state A c a m -> b <> a -> sample c a (Efld b) l ->
  curlH A m b (setc a lo l) = curlH A m b (setc a hi l).
Proof.
  intros PD PS NB HS. rewrite sample_E in HS by auto. rename HS into HI.
  set (b1 := nx b). set (d1 := nx b1).
  assert (EX1 : a = b1 \/ a = d1) by (destruct a, b; try congruence; cbn; auto).
  assert (NB1 : b1 <> b) by (destruct b; discriminate). assert (ND1 : d1 <> b) by (destruct b; discriminate).
  assert (NBD : d1 <> b1) by (destruct b; discriminate).
  assert (RNG : forall d, d <> a -> gobox c (face_lo d) - 1 <= coord d l <= gobox c (face_hi d)).
  { intros d Nd. specialize (HI d Nd). destruct (axis_eqb d b); lia. }
  assert (PLN : forall e, e <> a -> e <> b -> m (on a (AF (Hfld a)) lo l) = m (on a (AF (Hfld a)) hi l) /\
     m (on a (AF (Hfld a)) lo (dec e l)) = m (on a (AF (Hfld a)) hi (dec e l))).
  { intros e Ne Neb. pose proof (HI b NB) as Hb. rewrite axis_eqb_refl in Hb. pose proof (HI e Ne) as He. rewrite axis_eqb_ne in He by auto.
    split; apply (plane m _ b e); auto; unfold dec; rewrite ?coord_setc, ?(coord_setc_other b e) by auto; lia. }
  assert (DECA : forall n, dec a (setc a n l) = setc a (n - 1) l) by (intros; unfold dec; rewrite coord_setc, setc_setc; reflexivity).
  assert (DECO : forall e n, e <> a -> dec e (setc a n l) = setc a n (dec e l))
    by (intros e n Ne; unfold dec; rewrite coord_setc_other by auto; apply setc_comm; auto).
  unfold curlH. fold b1. fold d1. destruct EX1 as [Ea|Ea].
  - rewrite <- Ea in *. rewrite !coord_setc, !DECA, !(DECO d1) by auto. rewrite !(coord_setc_other d1 a) by auto.
    destruct (wrap m d1 l PS ltac:(auto) RNG) as [R1 R2]. destruct (PLN d1) as [P1 P2]; auto. unfold on in P1, P2.
    rewrite R1, R2, P1, P2. rewrite (pd_d c a m PD). reflexivity.
  - rewrite <- Ea in *. rewrite !coord_setc, !DECA, !(DECO b1) by auto. rewrite !(coord_setc_other b1 a) by auto.
    destruct (wrap m b1 l PS ltac:(auto) RNG) as [R1 R2]. destruct (PLN b1) as [P1 P2]; auto. unfold on in P1, P2.
    rewrite R1, R2, P1, P2. rewrite (pd_d c a m PD). reflexivity.
Qed.
Lemma curl_E_agree (m : mem V) l : (forall e l, e <> a -> sample c a (Efld e) l -> m (on a (AF (Efld e)) lo l) = m (on a (AF (Efld e)) hi l)) -> sample c a (Hfld a) l ->
  curlE A m a (setc a lo l) = curlE A m a (setc a hi l).
Proof.
  intros PF HS. rewrite sample_H in HS. rename HS into HI.
  set (b := nx a). set (d := nx b).
  assert (N1 : b <> a) by (destruct a; discriminate). assert (N2 : d <> a) by (destruct a; discriminate).
  assert (N3 : d <> b) by (destruct a; discriminate).
  unfold curlE. fold b. fold d.
  rewrite !(coord_setc_other b a), !(coord_setc_other d a) by auto.
  assert (INCO : forall e n, e <> a -> inc e (setc a n l) = setc a n (inc e l))
      by (intros e n Ne; unfold inc; rewrite coord_setc_other by auto; apply setc_comm; auto).
  rewrite !(INCO b), !(INCO d) by auto.
  assert (R1 : forall e, e <> a -> sample c a (Efld e) l).
  { intros e Ne. apply sample_E; auto. intros x Nx. specialize (HI x Nx). destruct (axis_eqb x e); lia. }
  assert (R2 : forall e x, e <> a -> x <> a -> x <> e -> sample c a (Efld e) (inc x l)).
  { intros e x Ne Nx Nxe. apply sample_E; auto. intros y Ny. unfold inc. destruct (axis_dec y x) as [->|Nyx].
    - rewrite coord_setc, axis_eqb_ne by auto. specialize (HI x Nx). lia.
    - rewrite coord_setc_other by auto. specialize (HI y Ny). destruct (axis_eqb y e); lia. }
  pose proof PF as Q. unfold on in Q.
  rewrite (Q b l), (Q d l), (Q b (inc d l)), (Q d (inc b l)) by auto. reflexivity.
Qed.

(** drives do not touch the faces nor the auxiliary arrays *)
Lemma off_plane isE (it : list (item V)) f n l : off_faces c a isE it -> in_face a f -> n = lo \/ n = hi -> writes (on a (AF f) n l) (flat it) = 0%nat.
Proof.
  intros OF IF Hn. apply flat_zero. intros s Hs D. destruct (OF s Hs) as (g & i & j & k & D' & _ & _ & X). rewrite D' in D.
  unfold on, wa in D. pose proof (f_equal arr D) as Da. cbn [arr] in Da. injection Da as ->. specialize (X IF).
  pose proof (f_equal (coord a) D) as Dc. assert (coord a (L (AF f) (li (setc a n l)) (lj (setc a n l)) (lk (setc a n l))) = n) by (destruct a; reflexivity). 
  destruct Hn as [-> | ->]; lia.
Qed.
Lemma off_aux isE (it : list (item V)) X r f x y z : off_faces c a isE it -> isAux X -> writes (L (X r f) x y z) (flat it) = 0%nat.
Proof.
  intros OF IX. apply flat_zero. intros s Hs D. destruct (OF s Hs) as (g & i & j & k & D' & _). rewrite D' in D. destruct IX; discriminate D.
Qed.

Lemma owner f i j k : inl (gfolim c f) i j k ->
  (exists r, outerSurfaceType c r = BT_PML /\ inl (fplim c r f) i j k) \/
  (exists r, outerSurfaceType c r = BT_MUR /\ fieldIsInBoundary f r = true /\ inl (fmlim c r f) i j k) \/
  inl (gfilim c f) i j k \/ mur_edge c f i j k = true.
Proof.
  intros H. destruct (mur_edge c f i j k) eqn:M; [auto|].
  pose proof (cover_value c f i j k W H) as CV. rewrite M in CV. unfold cover, sum6 in CV.
  destruct (inlb (gfilim c f) i j k) eqn:G; [right; right; left; apply inlb_iff; exact G|].
  assert (P : forall r, b2n (isT c BT_PML r && inlb (fplim c r f) i j k) = 0%nat \/ (outerSurfaceType c r = BT_PML /\ inl (fplim c r f) i j k)).
  { intros r. unfold isT. destruct (btype_eqb (outerSurfaceType c r) BT_PML) eqn:T; [|left; reflexivity]. apply btype_eqb_spec in T.
    destruct (inlb (fplim c r f) i j k) eqn:I; [right; split; [exact T|apply inlb_iff; exact I]|left; reflexivity]. }
  assert (Q : forall r, b2n (isT c BT_MUR r && fieldIsInBoundary f r && inlb (fmlim c r f) i j k) = 0%nat \/ (outerSurfaceType c r = BT_MUR /\ fieldIsInBoundary f r = true /\ inl (fmlim c r f) i j k)).
  { intros r. unfold isT. destruct (btype_eqb (outerSurfaceType c r) BT_MUR) eqn:T; [|left; reflexivity]. apply btype_eqb_spec in T.
    destruct (fieldIsInBoundary f r) eqn:B; [|left; reflexivity].
    destruct (inlb (fmlim c r f) i j k) eqn:I; [right; split; [exact T|split; [reflexivity|apply inlb_iff; exact I]]|left; reflexivity]. }
  cbn [b2n] in CV.
  destruct (P XLO) as [P1|]; [|eauto 6]. destruct (P XHI) as [P2|]; [|eauto 6]. destruct (P YLO) as [P3|]; [|eauto 6].
  destruct (P YHI) as [P4|]; [|eauto 6]. destruct (P ZLO) as [P5|]; [|eauto 6]. destruct (P ZHI) as [P6|]; [|eauto 6].
  destruct (Q XLO) as [Q1|]; [|eauto 6]. destruct (Q XHI) as [Q2|]; [|eauto 6]. destruct (Q YLO) as [Q3|]; [|eauto 6].
  destruct (Q YHI) as [Q4|]; [|eauto 6]. destruct (Q ZLO) as [Q5|]; [|eauto 6]. destruct (Q ZHI) as [Q6|]; [|eauto 6].
  exfalso. lia.
Qed.
Lemma on_eq x n l : on a x n l = L x (li (setc a n l)) (lj (setc a n l)) (lk (setc a n l)).
Proof. reflexivity. Qed.
Lemma PCa (m : mem V) co b l : per_data c a m ->
  m (L (APml co b) (at3 (li (setc a lo l)) (lj (setc a lo l)) (lk (setc a lo l)) b) 0 0) =
  m (L (APml co b) (at3 (li (setc a hi l)) (lj (setc a hi l)) (lk (setc a hi l)) b) 0 0).
Proof.
  intros PD. destruct (axis_dec b a) as [->|N].
  - replace (at3 (li (setc a lo l)) (lj (setc a lo l)) (lk (setc a lo l)) a) with lo by (destruct a; reflexivity).
    replace (at3 (li (setc a hi l)) (lj (setc a hi l)) (lk (setc a hi l)) a) with hi by (destruct a; reflexivity). apply (pd_p c a m PD).
  - destruct a, b; try congruence; reflexivity.
Qed.

Section Step.
Variable m : mem V.
Hypothesis PD : per_data c a m.
Hypothesis PS : per_state A c a m.

Lemma pmlE_agree r b l : b <> a -> outerSurfaceType c r = BT_PML -> inp (fplim c r (Efld b)) (setc a lo l) ->
  stp m (aux_on c a APP r (Efld b) lo l) = stp m (aux_on c a APP r (Efld b) hi l) /\
  stp m (aux_on c a AP r (Efld b) lo l) = stp m (aux_on c a AP r (Efld b) hi l) /\
  stp m (on a (AF (Efld b)) lo l) = stp m (on a (AF (Efld b)) hi l).
Proof.
  intros NB T I1. assert (I2 : inp (fplim c r (Efld b)) (setc a hi l)) by (apply spans_iff; auto using spans_pml, in_face_E).
  pose proof (in_face_E b NB) as IF.
  assert (SA : sample c a (Efld b) l) by (apply (fplim_outer c W r); exact I1).
  pose proof (curl_H_agree m b l PD PS NB SA) as CU.
  pose proof (ps_x A c a m PS APP r (Efld b) l (or_introl (conj eq_refl (Efld_isE b))) T IF I1) as XPP.
  pose proof (ps_x A c a m PS AP r (Efld b) l (or_intror (or_introl (conj eq_refl (Efld_isE b)))) T IF I1) as XP.
  pose proof (ps_F A c a m PS _ l IF SA) as XF.
  pose proof (pd_c c a m PD AAlpha _ l (or_introl eq_refl) IF SA) as XA.
  pose proof (pd_c c a m PD ABeta _ l (or_intror (or_introl eq_refl)) IF SA) as XB.
  destruct (pml_E_step A c W xE xH onlyH r (Efld b) _ _ _ (Efld_isE b) T I1 (off_aux true xE APP r _ _ _ _ offE aux_PP) (off_aux true xE AP r _ _ _ _ offE aux_P) (off_plane true xE _ lo l offE IF (or_introl eq_refl)) m) as (L1 & L2 & L3).
  destruct (pml_E_step A c W xE xH onlyH r (Efld b) _ _ _ (Efld_isE b) T I2 (off_aux true xE APP r _ _ _ _ offE aux_PP) (off_aux true xE AP r _ _ _ _ offE aux_P) (off_plane true xE _ hi l offE IF (or_intror eq_refl)) m) as (H1 & H2 & H3).
  unfold aux_on in *. cbv zeta in *. rewrite !on_eq in *. rewrite L1, L2, L3, H1, H2, H3.
  assert (EPP : pmlPP' A c r (Efld b) (li (setc a lo l)) (lj (setc a lo l)) (lk (setc a lo l)) m = pmlPP' A c r (Efld b) (li (setc a hi l)) (lj (setc a hi l)) (lk (setc a hi l)) m).
  { unfold pmlPP', newPP. rewrite !eval_cH, CU, XA, XB, XPP. reflexivity. }
  assert (EP : pmlP' A c r (Efld b) (li (setc a lo l)) (lj (setc a lo l)) (lk (setc a lo l)) m = pmlP' A c r (Efld b) (li (setc a hi l)) (lj (setc a hi l)) (lk (setc a hi l)) m).
  { unfold pmlP', newP. unfold pmlPP' in EPP. rewrite EPP, XP, XPP. unfold PC. cbn [eval]. rewrite !(PCa m _ _ l PD). reflexivity. }
  split; [exact EPP|split; [exact EP|]].
  unfold pmlE', newE. unfold pmlP' in EP. rewrite EP, XP, XF. unfold PC. cbn [eval]. rewrite !(PCa m _ _ l PD). reflexivity.
Qed.

(** a MUR point: the neighbour is the point one cell further in *)
Definition inwd (r : Face) (l : Loc) : Loc := setc (face_axis r) (coord (face_axis r) l + inw r (face_axis r)) l.
Lemma inwd_eq r n l : face_axis r <> a -> 
  (li (setc a n l) + inw r XDIR, lj (setc a n l) + inw r YDIR, lk (setc a n l) + inw r ZDIR) =
  (li (setc a n (inwd r l)), lj (setc a n (inwd r l)), lk (setc a n (inwd r l))).
Proof. intros N. unfold inwd, inw. destruct r, a; cbn [face_axis] in N; try congruence; cbn [face_axis axis_eqb is_lo setc li lj lk coord]; rewrite ?Z.add_0_r; reflexivity. Qed.
Lemma murE_agree r b l : b <> a -> outerSurfaceType c r = BT_MUR -> fieldIsInBoundary (Efld b) r = true -> inp (fmlim c r (Efld b)) (setc a lo l) ->
  (thin c r (Efld b) (li (setc a lo (inwd r l))) (lj (setc a lo (inwd r l))) (lk (setc a lo (inwd r l))) = true ->
   stp m (on a (AF (Efld b)) lo (inwd r l)) = stp m (on a (AF (Efld b)) hi (inwd r l))) ->
  stp m (on a (AF (Efld b)) lo l) = stp m (on a (AF (Efld b)) hi l).
Proof.
  intros NB T B I1 TH. assert (I2 : inp (fmlim c r (Efld b)) (setc a hi l)) by (apply spans_iff; auto using spans_mur, in_face_E).
  pose proof (in_face_E b NB) as IF.
  assert (NR : face_axis r <> a) by (intros Q; destruct r, a; cbn [face_axis face_lo face_hi] in *; congruence).
  assert (NF : fld_axis (Efld b) <> face_axis r) by (destruct b, r; try discriminate B; discriminate).
  pose proof (inwd_eq r lo l NR) as EL. pose proof (inwd_eq r hi l NR) as EH. injection EL as EL1 EL2 EL3. injection EH as EH1 EH2 EH3.
  assert (SS : sample c a (Efld b) l /\ sample c a (Efld b) (inwd r l)).
  { revert I1. unfold sample, inp. rewrite <- EL1, <- EL2, <- EL3. generalize (li (setc a lo l)), (lj (setc a lo l)), (lk (setc a lo l)). intros i j k.
    cfg_facts c W. unfold inl, fmlim, gfolim, setFieldLimits, murInclude, murbox, inw.
    destruct r, b; try discriminate B;
    cbn [Efld fieldIsInBoundary getFaceOfBoundingBox face_axis axis_eqb negb andb is_lo face_lo face_hi] in *; rewrite ?Z.add_0_r, ?T; cbn [btype_eqb negb];
    repeat match goal with |- context [btype_eqb ?x BT_MUR] => destruct (btype_eqb x BT_MUR) end; cbn [negb]; cbn [mkbox]; lia. }
  destruct SS as [SA SI].
  pose proof (curl_H_agree m b _ PD PS NB SI) as CU.
  pose proof (ps_F A c a m PS _ l IF SA) as XF. pose proof (ps_F A c a m PS _ _ IF SI) as XI.
  pose proof (pd_c c a m PD AAlpha _ _ (or_introl eq_refl) IF SI) as XA.
  pose proof (pd_c c a m PD ABeta _ _ (or_intror (or_introl eq_refl)) IF SI) as XB.
  assert (OL : writes (on a (AF (Efld b)) lo (inwd r l)) (flat xE) = 0%nat) by (apply (off_plane true); auto).
  assert (OH : writes (on a (AF (Efld b)) hi (inwd r l)) (flat xE) = 0%nat) by (apply (off_plane true); auto).
  rewrite !on_eq in *.
  rewrite <- EL1, <- EL2, <- EL3 in OL. rewrite <- EH1, <- EH2, <- EH3 in OH.
  rewrite (mur_E_step_gen A c W xE xH onlyH r (Efld b) _ _ _ m (Efld_isE b) T NF I1 (off_plane true xE _ lo l offE IF (or_introl eq_refl)) OL).
  rewrite (mur_E_step_gen A c W xE xH onlyH r (Efld b) _ _ _ m (Efld_isE b) T NF I2 (off_plane true xE _ hi l offE IF (or_intror eq_refl)) OH).
  rewrite EL1, EL2, EL3, EH1, EH2, EH3. rewrite !eval_cH, CU, XA, XB, XF.
  assert (TT : thin c r (Efld b) (li (setc a lo (inwd r l))) (lj (setc a lo (inwd r l))) (lk (setc a lo (inwd r l))) =
               thin c r (Efld b) (li (setc a hi (inwd r l))) (lj (setc a hi (inwd r l))) (lk (setc a hi (inwd r l)))).
  { unfold thin. destruct (negb (is_lo r)); [|reflexivity]. cbn [andb]. unfold isT. destruct (btype_eqb (outerSurfaceType c (opp r)) BT_MUR) eqn:TO; [|reflexivity].
    cbn [andb]. apply btype_eqb_spec in TO. apply eq_true_iff_eq. rewrite !inlb_iff. apply (spans_iff _ (inwd r l) (spans_mur (opp r) _ IF TO)). }
  rewrite <- TT in *. destruct (thin _ _ _ _ _ _); [rewrite TH by reflexivity; reflexivity|rewrite XI; reflexivity].
Qed.
Lemma E_agree b l : b <> a -> sample c a (Efld b) l -> stp m (on a (AF (Efld b)) lo l) = stp m (on a (AF (Efld b)) hi l).
Proof.
  intros NB SA. pose proof (in_face_E b NB) as IF.
  destruct (owner (Efld b) _ _ _ SA) as [(r & T & I)|[(r & T & B & I)|[I|M]]].
  - apply (pmlE_agree r b l NB T I).
  - apply (murE_agree r b l NB T B I). intros TH. unfold thin in TH. apply andb_true_iff in TH. destruct TH as [TH TI].
    apply andb_true_iff in TH. destruct TH as [TL TO]. apply inlb_iff in TI. unfold isT in TO. apply btype_eqb_spec in TO.
    apply (murE_agree (opp r) b _ NB TO).
    + destruct r, b; try discriminate B; reflexivity.
    + exact TI.
    + intros TH. exfalso. unfold thin in TH. destruct r; discriminate TL || discriminate TH.
  - assert (I2 : inp (gfilim c (Efld b)) (setc a hi l)) by (apply spans_iff; auto using spans_grid).
    pose proof (off_plane true xE _ lo l offE IF (or_introl eq_refl)) as OL. pose proof (off_plane true xE _ hi l offE IF (or_intror eq_refl)) as OH.
    pose proof (pd_c c a m PD AAlpha _ l (or_introl eq_refl) IF SA) as XA.
    pose proof (pd_c c a m PD ABeta _ l (or_intror (or_introl eq_refl)) IF SA) as XB.
    pose proof (ps_F A c a m PS _ l IF SA) as XF.
    rewrite !on_eq in *. rewrite !(grid_E_step A c W xE xH onlyH) by (auto using Efld_isE).
    rewrite !eval_cH, (curl_H_agree m b l PD PS NB SA), XA, XB, XF. reflexivity.
  - exfalso. revert M. unfold mur_edge, on_mur, isT. clear - PLO PHI NB.
    destruct a, b; try congruence; cbn [Efld face_lo face_hi] in *; rewrite PLO, PHI; cbn [btype_eqb andb orb]; rewrite ?andb_false_r; discriminate.
Qed.
Lemma pmlH_agree r l : outerSurfaceType c r = BT_PML -> inp (fplim c r (Hfld a)) (setc a lo l) ->
  stp m (aux_on c a AB r (Hfld a) lo l) = stp m (aux_on c a AB r (Hfld a) hi l) /\
  stp m (on a (AF (Hfld a)) lo l) = stp m (on a (AF (Hfld a)) hi l).
Proof.
  intros T I1. pose proof in_face_H as IF.
  assert (I2 : inp (fplim c r (Hfld a)) (setc a hi l)) by (apply spans_iff; auto using spans_pml).
  assert (SA : sample c a (Hfld a) l) by (apply (fplim_outer c W r); exact I1).
  pose proof (curl_E_agree (stp m) l E_agree SA) as CU.
  pose proof (ps_x A c a m PS AB r (Hfld a) l (or_intror (or_intror (conj eq_refl (Hfld_isE a)))) T IF I1) as XB.
  pose proof (ps_F A c a m PS _ l IF SA) as XF.
  pose proof (pd_c c a m PD AGamma _ l (or_intror (or_intror eq_refl)) IF SA) as XG.
  destruct (pml_H_step A c W xE xH onlyE onlyH r (Hfld a) _ _ _ (Hfld_isE a) T I1 (off_aux false xH AB r _ _ _ _ offH aux_B) (off_plane false xH _ lo l offH IF (or_introl eq_refl)) m) as (L1 & L2).
  destruct (pml_H_step A c W xE xH onlyE onlyH r (Hfld a) _ _ _ (Hfld_isE a) T I2 (off_aux false xH AB r _ _ _ _ offH aux_B) (off_plane false xH _ hi l offH IF (or_intror eq_refl)) m) as (H1 & H2).
  unfold aux_on in *. cbv zeta in *. rewrite !on_eq in *. rewrite L1, L2, H1, H2.
  assert (EB : pmlB' A c r (Hfld a) (li (setc a lo l)) (lj (setc a lo l)) (lk (setc a lo l)) m (stp m) = pmlB' A c r (Hfld a) (li (setc a hi l)) (lj (setc a hi l)) (lk (setc a hi l)) m (stp m)).
  { unfold pmlB'. rewrite !eval_cE, CU, XG, XB, !(PCa m _ _ l PD). reflexivity. }
  split; [exact EB|]. unfold pmlH'. rewrite EB, XB, XF, !(PCa m _ _ l PD). reflexivity.
Qed.
Lemma H_agree l : sample c a (Hfld a) l -> stp m (on a (AF (Hfld a)) lo l) = stp m (on a (AF (Hfld a)) hi l).
Proof.
  intros SA. pose proof in_face_H as IF.
  destruct (owner (Hfld a) _ _ _ SA) as [(r & T & I)|[(r & T & B & I)|[I|M]]].
  - apply (pmlH_agree r l T I).
  - exfalso. clear - T B PLO PHI. destruct a, r; try discriminate B; cbn [face_lo face_hi] in *; congruence.
  - assert (I2 : inp (gfilim c (Hfld a)) (setc a hi l)) by (apply spans_iff; auto using spans_grid).
    assert (MH : forall i j k, inl (gfilim c (Hfld a)) i j k -> in_meshH c (Hfld a) i j k).
    { intros i j k. cfg_facts c W. unfold in_meshH, inl, gfilim, setFieldLimits, includeInnerBoundary.
      destruct a; cbn [Hfld fieldIsInBoundary face_lo face_hi] in *; rewrite PLO, PHI; cbn [btype_eqb negb]; lia. }
    pose proof (off_plane false xH _ lo l offH IF (or_introl eq_refl)) as OL. pose proof (off_plane false xH _ hi l offH IF (or_intror eq_refl)) as OH.
    pose proof (pd_c c a m PD AGamma _ l (or_intror (or_intror eq_refl)) IF SA) as XG.
    pose proof (ps_F A c a m PS _ l IF SA) as XF.
    rewrite !on_eq in *. rewrite !(mesh_H_step A c W xE xH onlyE onlyH) by (auto using Hfld_isE; apply MH; assumption).
    rewrite !eval_cE, (curl_E_agree (stp m) l E_agree SA), XG, XF. reflexivity.
  - exfalso. destruct a; discriminate M.
Qed.
(** samples just outside a PML or MUR face are not written at all *)
Lemma rim_kept F n l : face_axis F <> a -> active (outerSurfaceType c F) = false -> coord (face_axis F) l = ghostIdx c F ->
  (forall d, d <> a -> d <> face_axis F -> gobox c (face_lo d) <= coord d l <= gobox c (face_hi d) - 1) -> lo <= n <= hi ->
  stp m (on a (AF (Hfld a)) n l) = m (on a (AF (Hfld a)) n l).
Proof.
  intros NF AC CG HB Hn.
  assert (GI : ghostIdx c F < gobox c (face_lo (face_axis F)) \/ gobox c (face_hi (face_axis F)) - 1 < ghostIdx c F).
  { destruct (face_cases (face_axis F)) as [Q1 Q2]. destruct F; cbn [face_axis face_lo face_hi] in *; unfold ghostIdx; cbn [is_lo face_axis face_lo face_hi]; lia. }
  assert (OUT : ~ inp (gfolim c (Hfld a)) (setc a n l)).
  { unfold inp, inl, gfolim, setFieldLimits. destruct a, F; cbn [face_axis] in *; try congruence;
    cbn [Hfld fieldIsInBoundary setc li lj lk coord face_lo face_hi] in *; lia. }
  assert (G0 : writes (on a (AF (Hfld a)) n l) (flat (updateGhostHfield (V:=V) c)) = 0%nat).
  { apply flat_zero. intros s Hs D. unfold updateGhostHfield, flat in Hs. cbn [flat_map flat_item] in Hs. rewrite app_nil_r in Hs.
    apply in_flat_map in Hs. destruct Hs as (G & _ & Hs). apply (ghostF_stmts c false G) in Hs. destruct Hs as (AG & l' & (f & Ef & E & B) & _ & CG' & ->).
    cbn [dst] in D. subst l'. cbn [arr on wa] in Ef. unfold on in Ef. injection Ef as <-. unfold on in CG'. rewrite coord_wa in CG'.
    assert (NG : face_axis G <> a) by (intros Q; clear - B Q; destruct a, G; cbn [face_axis] in Q; congruence || discriminate B).
    rewrite coord_setc_other in CG' by auto.
    destruct (axis_dec (face_axis G) (face_axis F)) as [Q|Q].
    - rewrite Q in CG'. assert (face_axis F = face_axis G -> ghostIdx c F = ghostIdx c G -> F = G).
      { clear - W a. cfg_facts c W. intros Q1 Q2. unfold ghostIdx in Q2. destruct F, G; try discriminate Q1; try reflexivity; cbn [is_lo face_axis face_lo face_hi] in Q2; lia. }
      assert (F = G) by (apply H; congruence). congruence.
    - specialize (HB _ NG Q). revert HB CG'. clear - W. cfg_facts c W. unfold ghostIdx. destruct G; cbn [is_lo face_axis face_lo face_hi]; lia. }
  assert (X0 : writes (on a (AF (Hfld a)) n l) (flat xH) = 0%nat).
  { apply flat_zero. intros s Hs D. destruct (offH s Hs) as (g & i & j & k & D' & _ & I & _). rewrite D' in D. unfold on, wa in D. injection D as -> -> -> ->. apply OUT. exact I. }
  assert (P0 : writes (on a (AF (Hfld a)) n l) (flat (phaseH (V:=V) c)) = 0%nat).
  { rewrite on_eq, writes_phaseH by apply Hfld_isE. unfold inp in OUT. revert OUT. generalize (li (setc a n l)), (lj (setc a n l)), (lk (setc a n l)). intros i j k OUT.
    assert (K1 : forall r, inlb (fplim c r (Hfld a)) i j k = false) by (intros r; destruct (inlb (fplim c r (Hfld a)) i j k) eqn:Q; auto; apply inlb_iff in Q; exfalso; apply OUT; apply (fplim_outer c W r); exact Q).
    assert (K2 : forall r, inlb (fmlim c r (Hfld a)) i j k = false) by (intros r; destruct (inlb (fmlim c r (Hfld a)) i j k) eqn:Q; auto; apply inlb_iff in Q; exfalso; apply OUT; apply (mur_lim_outer c r _ _ _ _ W); exact Q).
    assert (K3 : inlb (gfilim c (Hfld a)) i j k = false) by (destruct (inlb (gfilim c (Hfld a)) i j k) eqn:Q; auto; apply inlb_iff in Q; exfalso; apply OUT; apply (grid_lim_outer c); auto).
    unfold cover, sum6. rewrite !K1, !K2, K3, !andb_false_r. reflexivity. }
  unfold stepxx, Step.timeStep. rewrite !flat_app, !run_app.
  rewrite (writes_0_frame A (flat (updateGhostHfield c))), (writes_0_frame A (flat xH)), (writes_0_frame A (flat (phaseH c))) by assumption.
  change (midE A c xE m (on a (AF (Hfld a)) n l) = m (on a (AF (Hfld a)) n l)).
  apply (midE_other A c xE onlyE). unfold on, wa. cbn. rewrite Hfld_isE. congruence.
Qed.
End Step.

Theorem per_step_all m : per_data c a m -> per_state A c a m -> per_data c a (stp m) /\ per_state A c a (stp m).
Proof.
  intros PD PS. assert (DT : forall l, kind l = None -> stp m l = m l) by (intros; apply stepxx_data; auto). split.
  { destruct PD as [D1 D2 D3]. constructor; intros; rewrite !DT; auto; destruct H as [->|[->| ->]]; reflexivity. }
  assert (PE := E_agree m PD PS). assert (PH := H_agree m PD PS). constructor.
  - intros f l IF SA. destruct (in_face_cases f IF) as [(b & NB & ->)| ->]; auto.
  - intros X r f l HX T IF I. destruct (in_face_cases f IF) as [(b & NB & ->)| ->].
    + rewrite Efld_isE in HX. destruct HX as [[-> _]|[[-> _]|[_ Q]]]; [| |discriminate Q]; apply (pmlE_agree m PD PS r b l NB T I).
    + rewrite Hfld_isE in HX. destruct HX as [[_ Q]|[[_ Q]|[-> _]]]; [discriminate Q|discriminate Q|]. apply (pmlH_agree m PD PS r l T I).
  - intros F l NF AC CG HB. pose proof (hi_gt c W a). rewrite !(rim_kept m PD PS F) by (auto; lia). apply (ps_o A c a m PS F); auto.
  - intros F. unfold stepxx, Step.timeStep. rewrite !flat_app, !run_app. apply rel_ghostH. exact W.
Qed.
End Per.
