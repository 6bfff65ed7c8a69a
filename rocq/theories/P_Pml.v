(** C33: the perfectly matched layer. *)
From Coq Require Import ZArith List Bool Reals Lra Lia.
From Verif Require Import Types Lang LangProofs BBox Grid Setup SpecGeom SpecGrid BBoxProofs SetupProofs Pml Mur Ghost Step
  StepShape StepBounds StepCount StepOnce SpecCone StepValue SpecPhys PmlValue SpecYee CArr Edges SpecEdges EdgesProofs
  PmlProfile SpecPml PmlProfileProofs P_Setup P_Step P_Yee.
Import ListNotations.
Open Scope R_scope.
Local Arguments Z.mul : simpl never.
Local Arguments Z.add : simpl never.
Local Arguments Z.sub : simpl never.

(** ** Vocabulary: the profile a user asks for with the BT/BR cards.  [p] is a
    position along axis [a] in half cells. *)
Section Vocab.
Variables (c : Cfg) (lines : Axis -> carr R) (par : Face -> PmlPar) (dt : R) (a : Axis).
Definition side (p : Z) : Face := if (p <? 2 * gibox c (face_lo a))%Z then face_lo a else face_hi a.
Definition depth (p : Z) : R :=
  rel_depth (gibox c (face_lo a)) (gibox c (face_hi a))
            (outerSurfaceNumLayers c (face_lo a)) (outerSurfaceNumLayers c (face_hi a)) p.
(** size of the mesh cell next to a face *)
Definition edge_cell (f : Face) : R := if is_lo f then cell lines a 0 else cell lines a (numLines c a - 2).
Definition ord (f : Face) : nat := Z.to_nat (pOrder (par f)).
Definition sigma_max (f : Face) : R :=
  if Rlt_dec 0 (pRef (par f))
  then sigma_for_reflection eta0 (pNeff (par f)) (IZR (outerSurfaceNumLayers c f) * edge_cell f) (pRef (par f)) (ord f)
  else sigma_optimum eta0 (pNeff (par f)) (edge_cell f) (ord f).
Definition kappa (p : Z) : R := graded_kappa (ord (side p)) (pKmax (par (side p))) (depth p).
Definition sigma (p : Z) : R := graded_sigma (ord (side p)) (sigma_max (side p)) (depth p).
(** sigma dt / (2 eps0) *)
Definition loss (p : Z) : R := sigma p * dt / (2 * eps0).
End Vocab.

(** sensible orders: graded profile, non-zero index *)
Definition graded (par : Face -> PmlPar) : Prop := forall f, (1 <= pOrder (par f))%Z /\ pNeff (par f) <> 0.

Lemma mu0_pos : 0 < mu0. Proof. unfold mu0. pose proof PI_RGT_0. apply Rmult_lt_0_compat; [lra|]. apply Rinv_0_lt_compat. lra. Qed.
Lemma eps0_pos : 0 < eps0.
Proof. unfold eps0, c0. pose proof mu0_pos. apply Rdiv_lt_0_compat; [lra|]. generalize mu0, H. intros x Hx. apply Rmult_lt_0_compat; [apply Rmult_lt_0_compat|]; lra. Qed.
Lemma eta0_pos : 0 < eta0.
Proof. unfold eta0. apply sqrt_lt_R0. apply Rdiv_lt_0_compat; [apply mu0_pos|apply eps0_pos]. Qed.

Lemma grade_spec c lines par dt a f n d x : graded par -> IZR n * d <> 0 -> d <> 0 ->
  n = outerSurfaceNumLayers c f -> d = edge_cell c lines a f ->
  grade (par f) dt (IZR n * d) d x =
  (graded_kappa (ord par f) (pKmax (par f)) x, graded_sigma (ord par f) (sigma_max c lines par a f) x * dt / (2 * eps0)).
Proof.
  intros G HT Hd Hn Hd'. destruct (G f) as [G1 G2]. unfold grade, graded_kappa, graded_sigma, sigma_max, ord.
  assert (PW : powerRZ x (pOrder (par f)) = x ^ Z.to_nat (pOrder (par f))) by (rewrite pow_powerRZ, Z2Nat.id by lia; reflexivity).
  assert (IN : INR (Z.to_nat (pOrder (par f))) = IZR (pOrder (par f))) by (rewrite INR_IZR_INZ, Z2Nat.id by lia; reflexivity).
  rewrite PW. f_equal. unfold sigmaMax, sigma_for_reflection, sigma_optimum. rewrite IN, <- Hn, <- Hd'.
  pose proof eta0_pos. pose proof eps0_pos.
  destruct (Rgt_dec (pRef (par f)) 0), (Rlt_dec 0 (pRef (par f))); try lra; field; repeat split; try lra; auto;
  intros Q; apply HT; rewrite Q; ring.
Qed.

(** All six arrays of an axis at once: (kappa, loss) at nodes (p = 2i) and half nodes (p = 2i+1). *)
Lemma profile_rep c lines g cn e dt par garbage a : wf c -> has_lines c lines -> increasing c lines ->
  initCellEdges c lines g cn = Some (e, dt) -> graded par ->
  exists s fD fH, setPmlParameters1 c a (eDe (e a)) (eDh (e a)) par dt garbage = Some s /\
    rep (numCells c a) (numCells c a) s fD fH /\
    (forall i, (gobox c (face_lo a) <= i <= gobox c (face_hi a))%Z ->
       fD i = (kappa c par a (2 * i), loss c lines par dt a (2 * i))) /\
    (forall i, (gobox c (face_lo a) <= i < gobox c (face_hi a))%Z ->
       fH i = (kappa c par a (2 * i + 1), loss c lines par dt a (2 * i + 1))).
Proof.
  intros W HL IN EI G.
  destruct (edges_run c lines g cn W HL) as (e' & dt' & E' & _ & EA). rewrite E' in EI. injection EI as <- <-. rename e' into e. rename dt' into dt.
  pose proof (axis_edges c lines g a (e a) W HL (EA a)) as (Ho & NC & (LN1 & _ & LN2 & _) & V & _ & VH & _).
  set (il := gibox c (face_lo a)) in *. set (ih := gibox c (face_hi a)) in *. set (oh := gobox c (face_hi a)) in *.
  assert (X : (gobox c (face_lo a) = 1 /\ il = 1 + outerSurfaceNumLayers c (face_lo a) /\ ih = il + numLines c a - 1 /\
     oh = ih + outerSurfaceNumLayers c (face_hi a) /\ 2 <= numLines c a /\
     0 <= outerSurfaceNumLayers c (face_lo a) /\ 0 <= outerSurfaceNumLayers c (face_hi a))%Z).
  { unfold il, ih, oh. cfg_facts c W. destruct a; cbn [face_lo face_hi] in *; unfold NUM_GHOST_CELLS in *; lia. }
  destruct X as (X1 & X2 & X3 & X4 & X5 & X6 & X7).
  set (dl := cell lines a 0). set (dr := cell lines a (numLines c a - 2)).
  assert (Dl : forall i, (0 <= i <= il)%Z -> adat (eDe (e a)) i = dl).
  { intros i Hi. rewrite V by lia. unfold dl. f_equal. unfold mesh_cell. fold il. lia. }
  assert (Dr : forall i, (ih - 1 <= i <= oh)%Z -> adat (eDe (e a)) i = dr).
  { intros i Hi. rewrite V by lia. unfold dr. f_equal. unfold mesh_cell. fold il. lia. }
  assert (Pl : 0 < dl) by (unfold dl, cell; pose proof (IN a 0%Z ltac:(lia)); lra).
  assert (Pr : 0 < dr) by (unfold dr, cell; pose proof (IN a (numLines c a - 2)%Z ltac:(lia)); lra).
  unfold setPmlParameters1. rewrite X1, NC. fold il ih oh.
  destruct (fillOnes_rep (oh + 1) (let A0 := mkArr (oh + 1) garbage in mkAr A0 A0 A0 A0 A0 A0) ltac:(lia)) as (s0 & E0 & R0).
  { cbn. tauto. }
  replace (1 - 1)%Z with 0%Z by lia. replace (oh + 1 - 1)%Z with oh in E0 by lia. cbv zeta in *. rewrite E0. cbn [obind].
  assert (LO : exists s1 fD fH, (if btype_eqb (outerSurfaceType c (face_lo a)) BT_PML
           then setProfile (eDe (e a)) (eDh (e a)) 1 (il - 1) (-1) (par (face_lo a)) dt s0 else Some s0) = Some s1 /\
     rep (oh + 1) (oh + 1) s1 fD fH /\
     (forall i, (1 <= i < il)%Z -> fD i = (kappa c par a (2 * i), loss c lines par dt a (2 * i)) /\
        fH i = (kappa c par a (2 * i + 1), loss c lines par dt a (2 * i + 1))) /\
     (forall i, (il <= i)%Z -> fD i = (1, 0) /\ fH i = (1, 0))).
  { destruct (btype_eqb (outerSurfaceType c (face_lo a)) BT_PML) eqn:B.
    - assert (T : outerSurfaceType c (face_lo a) = BT_PML) by (destruct (outerSurfaceType c (face_lo a)); cbn in B; congruence).
      pose proof (wf_pml c W _ T) as NL.
      destruct (setProfile_lo (eDe (e a)) (eDh (e a)) 1 (il - 1) (oh + 1) (par (face_lo a)) dt dl (fun _ => (1, 0)) (fun _ => (1, 0)) s0) as (s1 & E1 & R1); auto; try lia.
      + intros i Hi. apply Dl. lia.
      + intros i Hi. rewrite VH, !Dl by lia. lra.
      + assert (GS : forall x, grade (par (face_lo a)) dt (IZR (il - 1 - 1 + 1) * dl) dl x = (graded_kappa (ord par (face_lo a)) (pKmax (par (face_lo a))) x, graded_sigma (ord par (face_lo a)) (sigma_max c lines par a (face_lo a)) x * dt / (2 * eps0))).
        { intros x. apply grade_spec; auto; try lra; try lia.
          - apply Rgt_not_eq. apply Rmult_lt_0_compat; [apply IZR_lt; lia|exact Pl].
          - unfold edge_cell. destruct a; reflexivity. }
        exists s1. do 2 eexists. split; [exact E1|]. split; [exact R1|]. split; intros i Hi; cbn beta.
        * destruct (Z.leb_spec 1 i), (Z.leb_spec i (il - 1)); cbn [andb]; try lia. rewrite !GS.
          unfold kappa, loss, sigma, side, depth, rel_depth. fold il ih.
          destruct (Z.ltb_spec (2 * i) (2 * il)), (Z.ltb_spec (2 * i + 1) (2 * il)); try lia.
          replace (il - 1 + 1)%Z with il by lia. replace (il - 1 - 1 + 1)%Z with (outerSurfaceNumLayers c (face_lo a)) by lia. split; reflexivity.
        * destruct (Z.leb_spec 1 i), (Z.leb_spec i (il - 1)); cbn [andb]; try lia; auto.
    - exists s0, (fun _ => (1, 0)), (fun _ => (1, 0)). split; [reflexivity|]. split; [exact R0|].
      assert (NP : outerSurfaceType c (face_lo a) <> BT_PML) by (intros T; rewrite T in B; discriminate).
      pose proof (wf_nopml c W _ NP). split; [intros; lia|auto]. }
  destruct LO as (s1 & fD1 & fH1 & E1 & R1 & A1 & A2). rewrite E1. cbn [obind].
  assert (MID : forall p, (2 * il <= p <= 2 * ih)%Z -> kappa c par a p = 1 /\ loss c lines par dt a p = 0).
  { intros p Hp. unfold kappa, loss, sigma, depth, rel_depth. fold il ih.
    destruct (Z.ltb_spec p (2 * il)), (Z.ltb_spec (2 * ih) p); try lia. unfold graded_kappa, graded_sigma.
    destruct (G (side c a p)) as [G1 _]. rewrite pow_i by (unfold ord; lia). split; [ring|]. unfold Rdiv. ring. }
  destruct (btype_eqb (outerSurfaceType c (face_hi a)) BT_PML) eqn:B.
  - assert (T : outerSurfaceType c (face_hi a) = BT_PML) by (destruct (outerSurfaceType c (face_hi a)); cbn in B; congruence).
    pose proof (wf_pml c W _ T) as NL.
    destruct (setProfile_hi (eDe (e a)) (eDh (e a)) ih (oh - 1) (oh + 1) (par (face_hi a)) dt dr fD1 fH1 s1) as (s2 & E2 & R2); auto; try lia.
    + intros i Hi. apply Dr. lia.
    + intros i Hi. rewrite VH, !Dr by lia. lra.
    + assert (GS : forall x, grade (par (face_hi a)) dt (IZR (oh - 1 - ih + 1) * dr) dr x = (graded_kappa (ord par (face_hi a)) (pKmax (par (face_hi a))) x, graded_sigma (ord par (face_hi a)) (sigma_max c lines par a (face_hi a)) x * dt / (2 * eps0))).
      { intros x. apply grade_spec; auto; try lra; try lia.
        - apply Rgt_not_eq. apply Rmult_lt_0_compat; [apply IZR_lt; lia|exact Pr].
        - unfold edge_cell. destruct a; reflexivity. }
      exists s2. do 2 eexists. split; [exact E2|]. split; [exact R2|]. split; intros i Hi; cbn beta.
      * destruct (Z.leb_spec ih i), (Z.leb_spec i (oh - 1 + 1)); cbn [andb]; try lia.
        -- rewrite GS. replace (oh - 1 - ih + 1)%Z with (outerSurfaceNumLayers c (face_hi a)) by lia.
           destruct (Z.eq_dec i ih) as [->|N].
           ++ destruct (MID (2 * ih)%Z ltac:(lia)) as [M1 M2]. rewrite M1, M2. replace (2 * ih - 2 * ih)%Z with 0%Z by lia.
              destruct (G (face_hi a)) as [G1 _]. unfold graded_kappa, graded_sigma. replace (0 / IZR (2 * outerSurfaceNumLayers c (face_hi a))) with 0 by (unfold Rdiv; ring).
              rewrite pow_i by (unfold ord; lia). f_equal; [ring|unfold Rdiv; ring].
           ++ unfold kappa, loss, sigma, side, depth, rel_depth. fold il ih.
              destruct (Z.ltb_spec (2 * i) (2 * il)), (Z.ltb_spec (2 * ih) (2 * i)); try lia. reflexivity.
        -- destruct (Z_lt_ge_dec i il); [apply A1; lia|]. destruct (A2 i ltac:(lia)) as [-> _]. destruct (MID (2 * i)%Z ltac:(lia)) as [-> ->]. reflexivity.
      * destruct (Z.leb_spec ih i), (Z.leb_spec i (oh - 1)); cbn [andb]; try lia.
        -- rewrite GS. replace (oh - 1 - ih + 1)%Z with (outerSurfaceNumLayers c (face_hi a)) by lia.
           unfold kappa, loss, sigma, side, depth, rel_depth. fold il ih.
           destruct (Z.ltb_spec (2 * i + 1) (2 * il)), (Z.ltb_spec (2 * ih) (2 * i + 1)); try lia. reflexivity.
        -- destruct (Z_lt_ge_dec i il); [apply A1; lia|]. destruct (A2 i ltac:(lia)) as [_ ->]. destruct (MID (2 * i + 1)%Z ltac:(lia)) as [-> ->]. reflexivity.
  - assert (NP : outerSurfaceType c (face_hi a) <> BT_PML) by (intros T; rewrite T in B; discriminate).
    pose proof (wf_nopml c W _ NP) as NL. exists s1, fD1, fH1. split; [reflexivity|]. split; [exact R1|]. split; intros i Hi.
    + destruct (Z_lt_ge_dec i il); [apply A1; lia|]. destruct (A2 i ltac:(lia)) as [-> _]. destruct (MID (2 * i)%Z ltac:(lia)) as [-> ->]. reflexivity.
    + destruct (Z_lt_ge_dec i il); [apply A1; lia|]. destruct (A2 i ltac:(lia)) as [_ ->]. destruct (MID (2 * i + 1)%Z ltac:(lia)) as [-> ->]. reflexivity.
Qed.

(** ** C33 profile.  For every accepted mesh with increasing lines and every
    choice of PML parameters with order >= 1 and non-zero index, the set-up of
    the six coefficient arrays of an axis stays inside the arrays, its assert
    never fires, and at every node (half node) of the extended grid the
    coefficients are those of the polynomially graded kappa and sigma at the
    depth of that node (half node). *)
Theorem C33_profile : forall nx ny nz reg c, setupCfg nx ny nz reg = Some c ->
  forall lines g cn e dt, has_lines c lines -> increasing c lines -> initCellEdges c lines g cn = Some (e, dt) ->
  forall par garbage a, graded par ->
  exists s, setPmlParameters1 c a (eDe (e a)) (eDh (e a)) par dt garbage = Some s /\
  (forall i, (gobox c (face_lo a) <= i <= gobox c (face_hi a))%Z ->
     let k := kappa c par a (2 * i) in let u := loss c lines par dt a (2 * i) in
     adat (pad s) i = (k - u) / (k + u) /\ adat (pbd s) i = 1 / (k + u) /\ adat (pibd s) i = k + u) /\
  (forall i, (gobox c (face_lo a) <= i < gobox c (face_hi a))%Z ->
     let k := kappa c par a (2 * i + 1) in let u := loss c lines par dt a (2 * i + 1) in
     adat (pah s) i = (k - u) / (k + u) /\ adat (pbh s) i = 1 / (k + u) /\ adat (pibh s) i = k + u).
Proof.
  intros nx ny nz reg c H lines g cn e dt HL IN EI par garbage a G. apply setup_wf in H. rename H into W.
  destruct (profile_rep c lines g cn e dt par garbage a W HL IN EI G) as (s & fD & fH & E & (_ & R) & D & Hh).
  exists s. split; [exact E|].
  pose proof (extents_arith c a) as (X1 & _ & _ & _ & X5).
  split; intros i Hi; cbv zeta.
  - destruct (R i ltac:(lia)) as (R1 & R2 & R3 & _). rewrite R1, R2, R3, (D i Hi). unfold aof, bof, ibof. cbn [fst snd]. auto.
  - destruct (R i ltac:(lia)) as (_ & _ & _ & R1 & R2 & R3). rewrite R1, R2, R3, (Hh i Hi). unfold aof, bof, ibof. cbn [fst snd]. auto.
Qed.

Lemma depth01 c a p : wf c -> (2 * gobox c (face_lo a) <= p <= 2 * gobox c (face_hi a))%Z -> 0 <= depth c a p <= 1.
Proof.
  intros W Hp. unfold depth, rel_depth.
  assert (X : (gobox c (face_lo a) = gibox c (face_lo a) - outerSurfaceNumLayers c (face_lo a) /\
               gobox c (face_hi a) = gibox c (face_hi a) + outerSurfaceNumLayers c (face_hi a))%Z)
    by (pose proof (extents_arith c a); lia).
  assert (Q : forall x y : Z, (0 <= x <= y)%Z -> (0 < y)%Z -> 0 <= IZR x / IZR y <= 1).
  { intros x y Hx Hy. assert (0 < IZR y) by (apply IZR_lt; lia). split.
    - apply Rmult_le_pos; [apply IZR_le; lia|left; apply Rinv_0_lt_compat; auto].
    - apply (Rmult_le_reg_r (IZR y)); auto. unfold Rdiv. rewrite Rmult_assoc, Rinv_l, Rmult_1_r, Rmult_1_l by lra. apply IZR_le. lia. }
  destruct (Z.ltb_spec p (2 * gibox c (face_lo a))); [apply Q; lia|].
  destruct (Z.ltb_spec (2 * gibox c (face_hi a)) p); [apply Q; lia|lra].
Qed.

(** parameters of a passive layer *)
Definition passive (par : Face -> PmlPar) : Prop :=
  forall f, (1 <= pOrder (par f))%Z /\ 0 < pNeff (par f) /\ 1 <= pKmax (par f) /\ pRef (par f) <= 1.
Lemma passive_graded par : passive par -> graded par.
Proof. intros P f. destruct (P f) as (? & ? & _). split; [auto|lra]. Qed.

Lemma sigma_max_pos c lines par a f : wf c -> increasing c lines -> passive par ->
  face_axis f = a -> outerSurfaceType c f = BT_PML -> 0 <= sigma_max c lines par a f.
Proof.
  intros W IN P FA T. destruct (P f) as (P1 & P2 & P3 & P4). pose proof (wf_pml c W f T) as NL. pose proof eta0_pos.
  pose proof (wf_lines c W a) as NLn.
  assert (D : 0 < edge_cell c lines a f).
  { unfold edge_cell. destruct (is_lo f); unfold cell; [pose proof (IN a 0%Z ltac:(lia))|pose proof (IN a (numLines c a - 2)%Z ltac:(lia))]; lra. }
  unfold sigma_max. pose proof (pos_INR (ord par f)) as HI.
  destruct (Rlt_dec 0 (pRef (par f))).
  - unfold sigma_for_reflection.
    assert (L : ln (pRef (par f)) <= 0).
    { destruct (Req_dec (pRef (par f)) 1) as [->|N]; [rewrite ln_1; lra|]. left. rewrite <- ln_1. apply ln_increasing; lra. }
    assert (0 < IZR (outerSurfaceNumLayers c f)) by (apply IZR_lt; lia).
    apply Rmult_le_pos.
    + replace (- (INR (ord par f) + 1) * ln (pRef (par f))) with ((INR (ord par f) + 1) * - ln (pRef (par f))) by ring.
      apply Rmult_le_pos; lra.
    + left. apply Rinv_0_lt_compat. repeat apply Rmult_lt_0_compat; auto; lra.
  - unfold sigma_optimum. apply Rmult_le_pos; [lra|]. left. apply Rinv_0_lt_compat. repeat apply Rmult_lt_0_compat; auto; lra.
Qed.

Lemma kappa_ge1 c par a p : wf c -> passive par -> (2 * gobox c (face_lo a) <= p <= 2 * gobox c (face_hi a))%Z -> 1 <= kappa c par a p.
Proof.
  intros W P Hp. destruct (depth01 c a p W Hp) as [D0 _]. unfold kappa, graded_kappa. destruct (P (side c a p)) as (_ & _ & P3 & _).
  pose proof (pow_le _ (ord par (side c a p)) D0). assert (0 <= (pKmax (par (side c a p)) - 1) * depth c a p ^ ord par (side c a p)) by (apply Rmult_le_pos; lra). lra.
Qed.
Lemma interior c lines par dt a p : graded par -> (2 * gibox c (face_lo a) <= p <= 2 * gibox c (face_hi a))%Z ->
  kappa c par a p = 1 /\ loss c lines par dt a p = 0.
Proof.
  intros G Hp. unfold kappa, loss, sigma, depth, rel_depth.
  destruct (Z.ltb_spec p (2 * gibox c (face_lo a))), (Z.ltb_spec (2 * gibox c (face_hi a)) p); try lia. unfold graded_kappa, graded_sigma.
  destruct (G (side c a p)) as [G1 _]. rewrite pow_i by (unfold ord; lia). split; [ring|]. unfold Rdiv. ring.
Qed.
Lemma loss_ge0 c lines par dt a p : wf c -> increasing c lines -> passive par -> 0 <= dt ->
  (2 * gobox c (face_lo a) <= p <= 2 * gobox c (face_hi a))%Z -> 0 <= loss c lines par dt a p.
Proof.
  intros W IN P DT Hp. destruct (depth01 c a p W Hp) as [D0 _].
  destruct (Z_lt_ge_dec p (2 * gibox c (face_lo a))) as [L1|L1]; [|destruct (Z_lt_ge_dec (2 * gibox c (face_hi a)) p) as [L2|L2]].
  3: { destruct (interior c lines par dt a p (passive_graded par P)) as [_ ->]; [lia|lra]. }
  - assert (X : (outerSurfaceNumLayers c (face_lo a) > 0)%Z) by (pose proof (extents_arith c a); lia).
    assert (T : outerSurfaceType c (face_lo a) = BT_PML).
    { destruct (btype_dec (outerSurfaceType c (face_lo a)) BT_PML) as [T|T]; auto. rewrite (wf_nopml c W _ T) in X. lia. }
    unfold loss, sigma, graded_sigma. assert (S : side c a p = face_lo a) by (unfold side; destruct (Z.ltb_spec p (2 * gibox c (face_lo a))); auto; lia).
    rewrite S. pose proof (sigma_max_pos c lines par a (face_lo a) W IN P ltac:(destruct a; reflexivity) T). pose proof eps0_pos.
    pose proof (pow_le _ (ord par (face_lo a)) D0).
    apply Rmult_le_pos; [repeat apply Rmult_le_pos; auto|]. left. apply Rinv_0_lt_compat. lra.
  - assert (X : (outerSurfaceNumLayers c (face_hi a) > 0)%Z) by (pose proof (extents_arith c a); lia).
    assert (T : outerSurfaceType c (face_hi a) = BT_PML).
    { destruct (btype_dec (outerSurfaceType c (face_hi a)) BT_PML) as [T|T]; auto. rewrite (wf_nopml c W _ T) in X. lia. }
    unfold loss, sigma, graded_sigma. assert (S : side c a p = face_hi a) by (unfold side; destruct (Z.ltb_spec p (2 * gibox c (face_lo a))); auto; lia).
    rewrite S. pose proof (sigma_max_pos c lines par a (face_hi a) W IN P ltac:(destruct a; reflexivity) T). pose proof eps0_pos.
    pose proof (pow_le _ (ord par (face_hi a)) D0).
    apply Rmult_le_pos; [repeat apply Rmult_le_pos; auto|]. left. apply Rinv_0_lt_compat. lra.
Qed.

(** a coefficient triple (a, b, 1/b) that damps *)
Definition damping (x b ib : R) : Prop := -1 < x <= 1 /\ 0 < b <= 1 /\ b * ib = 1.
Lemma damping_of k u : 1 <= k -> 0 <= u -> damping ((k - u) / (k + u)) (1 / (k + u)) (k + u).
Proof.
  intros Hk Hu. assert (P : 0 < k + u) by lra. assert (I : 0 < / (k + u)) by (apply Rinv_0_lt_compat; lra).
  assert (M : (k + u) * / (k + u) = 1) by (apply Rinv_r; lra).
  assert (I1 : / (k + u) <= 1) by (rewrite <- Rinv_1; apply Rinv_le_contravar; lra).
  unfold damping, Rdiv. split; [split|split; [split|]].
  - apply (Rmult_lt_reg_r (k + u)); [lra|]. rewrite Rmult_assoc, Rinv_l by lra. lra.
  - apply (Rmult_le_reg_r (k + u)); [lra|]. rewrite Rmult_assoc, Rinv_l by lra. lra.
  - lra.
  - lra.
  - rewrite Rmult_1_l. apply Rinv_l. lra.
Qed.

(** ** C33 passivity.  With a positive time step and order >= 1, n_eff > 0,
    kmax >= 1, refCoeff <= 1 (negative = optimum profile, the default), every
    coefficient of the layer damps, and in the mesh proper - interfaces
    included - all coefficients are exactly one, so the layer starts
    continuously. *)
Theorem C33_passive : forall nx ny nz reg c, setupCfg nx ny nz reg = Some c ->
  forall lines g cn e dt, has_lines c lines -> increasing c lines -> initCellEdges c lines g cn = Some (e, dt) ->
  0 <= dt -> forall par garbage a s, passive par ->
  setPmlParameters1 c a (eDe (e a)) (eDh (e a)) par dt garbage = Some s ->
  (forall i, (gobox c (face_lo a) <= i <= gobox c (face_hi a))%Z ->
     damping (adat (pad s) i) (adat (pbd s) i) (adat (pibd s) i)) /\
  (forall i, (gobox c (face_lo a) <= i < gobox c (face_hi a))%Z ->
     damping (adat (pah s) i) (adat (pbh s) i) (adat (pibh s) i)) /\
  (forall i, (gibox c (face_lo a) <= i <= gibox c (face_hi a))%Z ->
     adat (pad s) i = 1 /\ adat (pbd s) i = 1 /\ adat (pibd s) i = 1) /\
  (forall i, (gibox c (face_lo a) <= i < gibox c (face_hi a))%Z ->
     adat (pah s) i = 1 /\ adat (pbh s) i = 1 /\ adat (pibh s) i = 1).
Proof.
  intros nx ny nz reg c H lines g cn e dt HL IN EI DT par garbage a s P ES.
  destruct (C33_profile nx ny nz reg c H lines g cn e dt HL IN EI par garbage a (passive_graded par P)) as (s' & ES' & D & Hh).
  rewrite ES in ES'. injection ES' as <-. apply setup_wf in H. rename H into W.
  assert (X : (gobox c (face_lo a) <= gibox c (face_lo a) /\ gibox c (face_hi a) <= gobox c (face_hi a))%Z).
  { pose proof (extents_arith c a). pose proof (layers_ge0 c (face_lo a) W). pose proof (layers_ge0 c (face_hi a) W). lia. }
  split; [|split; [|split]]; intros i Hi.
  - destruct (D i Hi) as (-> & -> & ->). apply damping_of; [apply kappa_ge1|apply loss_ge0]; auto; lia.
  - destruct (Hh i Hi) as (-> & -> & ->). apply damping_of; [apply kappa_ge1|apply loss_ge0]; auto; lia.
  - destruct (D i ltac:(lia)) as (-> & -> & ->).
    destruct (interior c lines par dt a (2 * i) (passive_graded par P)) as [-> ->]; [lia|]. repeat split; lra.
  - destruct (Hh i ltac:(lia)) as (-> & -> & ->).
    destruct (interior c lines par dt a (2 * i + 1) (passive_graded par P)) as [-> ->]; [lia|]. repeat split; lra.
Qed.
(** the defaults are passive, and so is any explicit reflection coefficient below one *)
Lemma C33_defaults_passive : passive (fun _ => pmlDefaults) /\ snd (parsePmlCard 0 0 0 0 0 0) = pmlDefaults /\
  passive (fun _ => snd (parsePmlCard 5 10 3 2 (/ 1000) 5)).
Proof.
  split; [|split].
  - intros f. cbn. repeat split; try lra; lia.
  - reflexivity.
  - intros f. cbn. repeat split; try lra; lia.
Qed.

(** The PML card: the values written on it, in the order layers, order, n_eff,
    reflection coefficient, kmax; the missing ones have the documented defaults
    6, 4, 1, -1, 1 (UserManual.tex:1195-1206). *)
Theorem C33_card : forall (n : nat) layers order n_eff refCoeff kmax,
  let '(nl, p) := parsePmlCard n layers order n_eff refCoeff kmax in
  ((n < 1)%nat -> nl = 6%Z) /\ ((1 <= n)%nat -> nl = layers) /\
  ((n < 2)%nat -> pOrder p = 4%Z) /\ ((2 <= n)%nat -> pOrder p = order) /\
  ((n < 3)%nat -> pNeff p = 1) /\ ((3 <= n)%nat -> pNeff p = n_eff) /\
  ((n < 4)%nat -> pRef p = -1) /\ ((4 <= n)%nat -> pRef p = refCoeff) /\
  ((n < 5)%nat -> pKmax p = 1) /\ ((5 <= n)%nat -> pKmax p = kmax).
Proof.
  intros. do 6 (destruct n as [|n]; [cbn; repeat split; intros; try reflexivity; exfalso; lia|]).
  cbn. repeat split; intros; try reflexivity; exfalso; lia.
Qed.

(** ** C33 update equations *)
(** the coefficient arrays of the three axes are in memory *)
Definition pml_loaded (S : Axis -> PmlAr) (m : mem R) : Prop := forall a i,
  m (L (APml ad a) i 0 0) = adat (pad (S a)) i /\ m (L (APml bd a) i 0 0) = adat (pbd (S a)) i /\
  m (L (APml ibd a) i 0 0) = adat (pibd (S a)) i /\ m (L (APml ah a) i 0 0) = adat (pah (S a)) i /\
  m (L (APml bh a) i 0 0) = adat (pbh (S a)) i /\ m (L (APml ibh a) i 0 0) = adat (pibh (S a)) i.
(** element of an auxiliary array of region [r] belonging to the point (i,j,k) of component [f] *)
Definition aux (c : Cfg) (X : Face -> Fld -> Arr) (r : Face) (f : Fld) (i j k : Z) : Loc :=
  L (X r f) (i - fplim c r f XLO) (j - fplim c r f YLO) (k - fplim c r f ZLO).

Definition triple (m : mem R) (st : bool) (b : Axis) (x : Z) : R * R * R :=
  if st then (m (L (APml ah b) x 0 0), m (L (APml bh b) x 0 0), m (L (APml ibh b) x 0 0))
  else (m (L (APml ad b) x 0 0), m (L (APml bd b) x 0 0), m (L (APml ibd b) x 0 0)).

Lemma triple_at c lines g cn e dt par garbage S m f i j k b :
  wf c -> has_lines c lines -> increasing c lines -> initCellEdges c lines g cn = Some (e, dt) -> graded par ->
  (forall a, setPmlParameters1 c a (eDe (e a)) (eDh (e a)) par dt garbage = Some (S a)) -> pml_loaded S m ->
  inl (gfolim c f) i j k ->
  let p := ypos f b (SpecGeom.coord i j k b) in let K := kappa c par b p in let U := loss c lines par dt b p in
  triple m (staggered f b) b (SpecGeom.coord i j k b) = ((K - U) / (K + U), 1 / (K + U), K + U).
Proof.
  intros W HL IN EI G ES LD HI. cbv zeta.
  destruct (profile_rep c lines g cn e dt par garbage b W HL IN EI G) as (s & fD & fH & E & (_ & R) & D & Hh).
  rewrite ES in E. injection E as <-.
  pose proof (extents_arith c b) as (X1 & _ & _ & _ & X5).
  apply gfolim_range in HI. unfold nodeRange, halfRange in HI.
  assert (Q : (if staggered f b then gobox c (face_lo b) <= SpecGeom.coord i j k b < gobox c (face_hi b) else gobox c (face_lo b) <= SpecGeom.coord i j k b <= gobox c (face_hi b))%Z).
  { rewrite X1. destruct f, b; cbn [fieldIsInBoundary staggered is_E fld_axis axis_eqb negb SpecGeom.coord] in *; lia. }
  set (x := SpecGeom.coord i j k b) in *. unfold triple, ypos. destruct (LD b x) as (L1 & L2 & L3 & L4 & L5 & L6). rewrite L1, L2, L3, L4, L5, L6.
  destruct (R x) as (R1 & R2 & R3 & R4 & R5 & R6). { destruct (staggered f b); lia. }
  rewrite R1, R2, R3, R4, R5, R6. destruct (staggered f b).
  - rewrite (Hh x Q). reflexivity.
  - rewrite (D x Q). rewrite Z.add_0_r. reflexivity.
Qed.

(** For every state whose PML coefficients are those set up, one step takes
    the fields at every point of every PML region along the semi-implicit
    equations of the stretched-coordinate layer, with kappa and sigma of each
    axis at the position of the component: for a component along axis a,
    with n, q the next axes,
       electric:  D' = alpha D + beta curl H   (D: the flux-like PP),
                  s_n P = D,   s_q E = s_a P
       magnetic:  s_n B = - gamma curl E,   s_q H = s_a B. *)
Theorem C33_update : forall nx ny nz reg c, setupCfg nx ny nz reg = Some c ->
  forall lines g cn e dt, has_lines c lines -> increasing c lines -> initCellEdges c lines g cn = Some (e, dt) ->
  forall par garbage S, graded par ->
  (forall a, setPmlParameters1 c a (eDe (e a)) (eDh (e a)) par dt garbage = Some (S a)) ->
  forall (xE xH : list (item R)), E_source xE -> H_source xH ->
  forall m, pml_loaded S m -> let m' := run rArith (flat (Step.timeStep c xE xH)) m in
  forall r f i j k, outerSurfaceType c r = BT_PML -> inl (fplim c r f) i j k ->
  let K b := kappa c par b (ypos f b (SpecGeom.coord i j k b)) in
  let U b := loss c lines par dt b (ypos f b (SpecGeom.coord i j k b)) in
  let a := fld_axis f in let n := succA a in let q := succA n in let p := mkPt i j k in
  (forall b, K b + U b <> 0) ->
  (is_E f = true ->
   untouched xE (aux c APP r f i j k) -> untouched xE (aux c AP r f i j k) -> untouched xE (L (AF f) i j k) ->
   let D := m (aux c APP r f i j k) in let D' := m' (aux c APP r f i j k) in
   let P := m (aux c AP r f i j k) in let P' := m' (aux c AP r f i j k) in
   D' = alpha m f i j k * D + beta m f i j k * curlH m a p /\
   relax (K n) (U n) P P' (D' - D) /\
   relax (K q) (U q) (val m f p) (val m' f p) (K a * (P' - P) + U a * (P' + P))) /\
  (is_E f = false ->
   untouched xH (aux c AB r f i j k) -> untouched xH (L (AF f) i j k) ->
   let B := m (aux c AB r f i j k) in let B' := m' (aux c AB r f i j k) in
   relax (K n) (U n) B B' (- gamma m f i j k * curlE m' a p) /\
   relax (K q) (U q) (val m f p) (val m' f p) (K a * (B' - B) + U a * (B' + B))).
Proof.
  intros nx ny nz reg c H lines g cn e dt HL IN EI par garbage S G ES xE xH OE OH m LD m' r f i j k T I K U a n q p KU.
  apply setup_wf in H. rename H into W.
  pose proof (fplim_outer c W r f i j k I) as HO.
  assert (TA : forall b, triple m (staggered f b) b (SpecGeom.coord i j k b) = ((K b - U b) / (K b + U b), 1 / (K b + U b), K b + U b)).
  { intros b. eapply triple_at; eauto. }
  assert (AX : forall b, at3 i j k b = SpecGeom.coord i j k b) by (intros []; reflexivity).
  assert (AN : nextA a = n) by (unfold n; destruct a; reflexivity). assert (AQ : prevA a = q) by (unfold q, n; destruct a; reflexivity).
  split; intros E.
  - intros U1 U2 U3. cbv zeta. apply untouched_writes in U1, U2, U3.
    destruct (pml_E_step rArith c W xE xH OH r f i j k E T I U1 U2 U3 m) as (S1 & S2 & S3).
    unfold stepxx in S1, S2, S3. fold m' in S1, S2, S3. unfold aux in *. unfold val, fld. cbn [ptx pty ptz p].
    unfold pmlPP', pmlP', pmlE', newE, newP, newPP, PC in S1, S2, S3. cbv zeta in S1, S2, S3. cbn [eval] in S1, S2, S3. rewrite drive_eval in S1, S2, S3.
    fold a in S1, S2, S3. rewrite AN in S2, S3. rewrite AQ in S3. rewrite (AX n) in S2, S3. rewrite (AX q), (AX a) in S3.
    assert (SN : staggered f n = false) by (unfold staggered; rewrite E; unfold n, a; destruct f; try discriminate E; reflexivity).
    assert (SQ : staggered f q = false) by (unfold staggered; rewrite E; unfold q, n, a; destruct f; try discriminate E; reflexivity).
    assert (SA : staggered f a = true) by (unfold staggered; rewrite E; unfold a; destruct f; try discriminate E; reflexivity).
    pose proof (TA n) as Tn. pose proof (TA q) as Tq. pose proof (TA a) as Ta. rewrite SN in Tn. rewrite SQ in Tq. rewrite SA in Ta.
    injection Tn as N1 N2 N3. injection Tq as Q1 Q2 Q3. injection Ta as A1 A2 A3.
    rewrite N1, N2 in S2, S3. rewrite Q1, Q2, A1, A3 in S3.
    unfold drive in S1, S2, S3. rewrite E in S1, S2, S3. fold a p in S1, S2, S3.
    cbn [rArith vadd vmul vsub] in S1, S2, S3. rewrite <- S1 in S2, S3. rewrite <- S2 in S3.
    split; [exact S1|]. pose proof (KU n) as KUn. pose proof (KU q) as KUq. pose proof (KU a) as KUa.
    rewrite S3. clearbody m' K U. clear - S2 KUn KUq KUa. split; unfold relax.
    + rewrite S2 at 1 2. field. exact KUn.
    + field. split; assumption.
  - intros U1 U2. cbv zeta. apply untouched_writes in U1, U2.
    destruct (pml_H_step rArith c W xE xH OE OH r f i j k E T I U1 U2 m) as (S1 & S2).
    unfold stepxx in S1, S2. fold m' in S1, S2. unfold aux in *. unfold val, fld. cbn [ptx pty ptz p].
    unfold pmlH' in S2. cbv zeta in S2. rewrite <- S1 in S2. unfold pmlB' in S1. cbv zeta in S1. rewrite drive_eval in S1.
    fold a in S1, S2. rewrite AN in S1. rewrite AQ in S2. rewrite (AX n) in S1. rewrite (AX q), (AX a) in S2.
    assert (SN : staggered f n = true) by (unfold staggered; rewrite E; unfold n, a; destruct f; try discriminate E; reflexivity).
    assert (SQ : staggered f q = true) by (unfold staggered; rewrite E; unfold q, n, a; destruct f; try discriminate E; reflexivity).
    assert (SA : staggered f a = false) by (unfold staggered; rewrite E; unfold a; destruct f; try discriminate E; reflexivity).
    pose proof (TA n) as Tn. pose proof (TA q) as Tq. pose proof (TA a) as Ta. rewrite SN in Tn. rewrite SQ in Tq. rewrite SA in Ta.
    injection Tn as N1 N2 N3. injection Tq as Q1 Q2 Q3. injection Ta as A1 A2 A3.
    rewrite N1, N2 in S1. rewrite Q1, Q2, A1, A3 in S2.
    unfold drive in S1. rewrite E in S1. fold a p in S1.
    cbn [rArith vadd vmul vsub] in S1, S2.
    pose proof (KU n) as KUn. pose proof (KU q) as KUq. pose proof (KU a) as KUa.
    rewrite S2. unfold gamma. clearbody m' K U. clear - S1 KUn KUq KUa. split; unfold relax.
    + rewrite S1 at 1 2. field. exact KUn.
    + field. split; assumption.
Qed.

(** a point of a PML region exists, and a state with the arrays loaded *)
Definition unitLines (c : Cfg) (a : Axis) : carr R := mkArr (numLines c a) IZR.
Lemma unit_lines c : has_lines c (unitLines c) /\ increasing c (unitLines c).
Proof.
  split; [intros a; reflexivity|]. intros a i Hi. unfold line, unitLines. cbn [adat]. apply IZR_lt. lia.
Qed.
Example C33_update_nonvacuous : exists c e dt S m, setupCfg 4 5 6 exampleReg = Some c /\
  initCellEdges c (unitLines c) (fun _ => 0) (/ 2) = Some (e, dt) /\ 0 <= dt /\
  graded (fun _ => pmlDefaults) /\ passive (fun _ => pmlDefaults) /\
  (forall a, setPmlParameters1 c a (eDe (e a)) (eDh (e a)) (fun _ => pmlDefaults) dt (fun _ => 0) = Some (S a)) /\
  pml_loaded S m /\ outerSurfaceType c ZHI = BT_PML /\ inl (fplim c ZHI EX) 2 3 14 /\ inl (fplim c YHI HZ) 2 9 14 /\
  (forall a p, (2 * gobox c (face_lo a) <= p <= 2 * gobox c (face_hi a))%Z ->
     kappa c (fun _ => pmlDefaults) a p + loss c (unitLines c) (fun _ => pmlDefaults) dt a p <> 0).
Proof.
  destruct (setupCfg 4 5 6 exampleReg) as [c|] eqn:SC; [|discriminate SC]. pose proof (setup_wf _ _ _ _ _ SC) as W.
  destruct (unit_lines c) as [HL IN].
  destruct (edges_run c (unitLines c) (fun _ => 0) (/ 2) W HL) as (e & dt & E & ET & EA).
  destruct C33_defaults_passive as (P & _ & _).
  assert (DT : 0 <= dt).
  { rewrite ET. unfold timeStep. assert (forall a, 0 < eMin (e a)) by (intros a; destruct (axis_pos c _ _ a (e a) W HL IN (EA a)); auto).
    apply Rmult_le_pos; [unfold c0; lra|]. left. apply Rinv_0_lt_compat, sqrt_lt_R0.
    assert (forall a, 0 < 1 / eMin (e a)) by (intros a; apply Rdiv_lt_0_compat; [lra|auto]).
    pose proof (H0 XDIR); pose proof (H0 YDIR); pose proof (H0 ZDIR).
    repeat apply Rplus_lt_0_compat; apply Rmult_lt_0_compat; auto. }
  pose proof (fun a => C33_profile 4 5 6 exampleReg c SC _ _ _ _ _ HL IN E (fun _ => pmlDefaults) (fun _ => 0) a (passive_graded _ P)) as PF.
  destruct (PF XDIR) as (sx & Sx & _). destruct (PF YDIR) as (sy & Sy & _). destruct (PF ZDIR) as (sz & Sz & _).
  set (S := fun a => match a with XDIR => sx | YDIR => sy | ZDIR => sz end).
  exists c, e, dt, S, (fun l => match arr l with
     | APml ad a => adat (pad (S a)) (li l) | APml bd a => adat (pbd (S a)) (li l) | APml ibd a => adat (pibd (S a)) (li l)
     | APml ah a => adat (pah (S a)) (li l) | APml bh a => adat (pbh (S a)) (li l) | APml ibh a => adat (pibh (S a)) (li l) | _ => 0 end).
  split; [reflexivity|]. split; [exact E|]. split; [exact DT|]. split; [apply passive_graded; exact P|]. split; [exact P|].
  split; [intros []; assumption|]. split; [intros a i; cbn; tauto|].
  assert (C : c = match setupCfg 4 5 6 exampleReg with Some c => c | None => c end) by (rewrite SC; reflexivity).
  split; [rewrite C; reflexivity|].
  split; [rewrite C; clear; unfold inl; repeat split; vm_compute; congruence|].
  split; [rewrite C; clear; unfold inl; repeat split; vm_compute; congruence|].
  intros a p Hp. pose proof (kappa_ge1 c _ a p W P Hp). pose proof (loss_ge0 c (unitLines c) _ dt a p W IN P DT Hp). lra.
Qed.

(** ** C33 transparency.  A layer without loss and stretching (kmax = 1,
    refCoeff = 1) is ordinary space: if the auxiliary fields start equal to the
    field (as they do, all being cleared to zero), then at every step the field
    in the layer follows the plain update of C57. *)
Definition lossless (par : Face -> PmlPar) : Prop := graded par /\ forall f, pKmax (par f) = 1 /\ pRef (par f) = 1.
Lemma lossless_flat c lines par dt a p : lossless par -> kappa c par a p = 1 /\ loss c lines par dt a p = 0.
Proof.
  intros (G & Q). destruct (Q (side c a p)) as [Q1 Q2]. unfold kappa, loss, sigma, graded_kappa, graded_sigma, sigma_max.
  rewrite Q1, Q2. destruct (Rlt_dec 0 1); [|lra]. unfold sigma_for_reflection. rewrite ln_1. split; [ring|]. unfold Rdiv. ring.
Qed.

Lemma loaded_step S c xE xH m : E_source xE -> H_source xH -> wf c -> pml_loaded S m ->
  pml_loaded S (run rArith (flat (Step.timeStep c xE xH)) m).
Proof.
  intros OE OH W LD a i.
  assert (X : forall l, kind l = None -> run rArith (flat (Step.timeStep c xE xH)) m l = m l) by (intros l; apply (stepxx_data rArith c xE xH OE OH m l)).
  rewrite !X by reflexivity. apply LD.
Qed.

Definition calm (c : Cfg) (r : Face) (f : Fld) (i j k : Z) (m : mem R) : Prop :=
  if is_E f then m (aux c APP r f i j k) = m (L (AF f) i j k) /\ m (aux c AP r f i j k) = m (L (AF f) i j k)
  else m (aux c AB r f i j k) = m (L (AF f) i j k).

Theorem C33_transparent : forall nx ny nz reg c, setupCfg nx ny nz reg = Some c ->
  forall lines g cn e dt, has_lines c lines -> increasing c lines -> initCellEdges c lines g cn = Some (e, dt) ->
  forall par garbage S, lossless par ->
  (forall a, setPmlParameters1 c a (eDe (e a)) (eDh (e a)) par dt garbage = Some (S a)) ->
  forall r f i j k, outerSurfaceType c r = BT_PML -> inl (fplim c r f) i j k ->
  forall (xE xH : nat -> list (item R)),
  (forall t, E_source (xE t) /\ H_source (xH t) /\ forall l, In l [aux c APP r f i j k; aux c AP r f i j k; aux c AB r f i j k; L (AF f) i j k] ->
     untouched (xE t) l /\ untouched (xH t) l) ->
  forall n t m, pml_loaded S m -> calm c r f i j k m ->
  let mn := run rArith (flat (steps c xE xH t n)) m in
  let mn' := run rArith (flat (Step.timeStep c (xE (t + n)%nat) (xH (t + n)%nat))) mn in let p := mkPt i j k in
  calm c r f i j k mn /\ calm c r f i j k mn' /\
  (is_E f = true -> val mn' f p = alpha mn f i j k * val mn f p + beta mn f i j k * curlH mn (fld_axis f) p) /\
  (is_E f = false -> val mn' f p = val mn f p - gamma mn f i j k * curlE mn' (fld_axis f) p).
Proof.
  intros nx ny nz reg c H lines g cn e dt HL IN EI par garbage S LL ES r f i j k T I xE xH HX.
  assert (ST : forall t m, pml_loaded S m -> calm c r f i j k m ->
    let m' := run rArith (flat (Step.timeStep c (xE t) (xH t))) m in let p := mkPt i j k in
    pml_loaded S m' /\ calm c r f i j k m' /\
    (is_E f = true -> val m' f p = alpha m f i j k * val m f p + beta m f i j k * curlH m (fld_axis f) p) /\
    (is_E f = false -> val m' f p = val m f p - gamma m f i j k * curlE m' (fld_axis f) p)).
  { intros t m LD CM. destruct (HX t) as (OE & OH & UT). cbv zeta.
    split; [apply loaded_step; auto; eapply setup_wf; eauto|].
    pose proof (C33_update nx ny nz reg c H lines g cn e dt HL IN EI par garbage S (proj1 LL) ES (xE t) (xH t) OE OH m LD r f i j k T I) as CU.
    cbv zeta in CU. destruct CU as [CE CH]. { intros b. destruct (lossless_flat c lines par dt b (ypos f b (SpecGeom.coord i j k b)) LL) as [-> ->]. lra. }
    unfold calm in *. destruct (is_E f) eqn:E.
    - destruct (CE eq_refl) as (C1 & C2 & C3); try (apply UT; simpl; tauto).
      repeat match goal with H : context [kappa c par ?b ?p] |- _ => destruct (lossless_flat c lines par dt b p LL) as [Q1 Q2]; rewrite ?Q1, ?Q2 in *; clear Q1 Q2 end.
      destruct CM as [M1 M2]. rewrite M1, M2 in *. unfold relax, val, fld in *. cbn [ptx pty ptz] in *.
      split; [|split; [intros _; lra|discriminate]]. split; lra.
    - destruct (CH eq_refl) as (C1 & C2); try (apply UT; simpl; tauto).
      repeat match goal with H : context [kappa c par ?b ?p] |- _ => destruct (lossless_flat c lines par dt b p LL) as [Q1 Q2]; rewrite ?Q1, ?Q2 in *; clear Q1 Q2 end.
      rewrite CM in *. unfold relax, val, fld in *. cbn [ptx pty ptz] in *.
      split; [lra|]. split; [discriminate|intros _; lra]. }
  induction n; intros t m LD CM; cbv zeta.
  - cbn [steps]. rewrite Nat.add_0_r. cbn [flat run]. destruct (ST t m LD CM) as (_ & S2 & S3). auto.
  - cbn [steps]. rewrite flat_app, run_app. destruct (ST t m LD CM) as (S1 & S2 & _).
    specialize (IHn (t + 1)%nat _ S1 S2). cbv zeta in IHn. replace (t + 1 + n)%nat with (t + Datatypes.S n)%nat in IHn by lia.
    replace (Datatypes.S t) with (t + 1)%nat by lia. exact IHn.
Qed.
Example C33_transparent_nonvacuous : lossless (fun _ => snd (parsePmlCard 4 6 3 1 1 0)) /\
  (forall c r f i j k, calm c r f i j k (fun l => match kind l with None => 1 | Some _ => 0 end)).
Proof.
  split.
  - split; intros f; cbn; [split; [lia|lra]|lra].
  - intros c r f i j k. unfold calm. destruct f; cbn; auto.
Qed.

(** ** The part of C33 that does not hold: the parameters of the card are not
    checked, and a reflection coefficient above one is accepted.  The layer
    then amplifies: here the decay coefficient at the outermost node is 3. *)
Theorem C33_gain_refuted : exists c e dt refl S, setupCfg 4 5 6 exampleReg = Some c /\
  initCellEdges c (unitLines c) (fun _ => 0) (/ 2) = Some (e, dt) /\ 0 < dt /\ 1 < refl /\
  let par := fun _ : Face => snd (parsePmlCard 5 8 1 1 refl 1) in
  graded par /\
  setPmlParameters1 c ZDIR (eDe (e ZDIR)) (eDh (e ZDIR)) par dt (fun _ => 0) = Some S /\
  adat (pad S) (gobox c ZHI) = 3.
Proof.
  destruct (setupCfg 4 5 6 exampleReg) as [c|] eqn:SC; [|discriminate SC]. pose proof (setup_wf _ _ _ _ _ SC) as W.
  destruct (unit_lines c) as [HL IN].
  destruct (edges_run c (unitLines c) (fun _ => 0) (/ 2) W HL) as (e & dt & E & ET & EA).
  assert (DT : 0 < dt).
  { rewrite ET. unfold timeStep. assert (forall a, 0 < eMin (e a)) by (intros a; destruct (axis_pos c _ _ a (e a) W HL IN (EA a)); auto).
    apply Rmult_lt_0_compat; [unfold c0; lra|]. apply Rinv_0_lt_compat, sqrt_lt_R0.
    assert (forall a, 0 < 1 / eMin (e a)) by (intros a; apply Rdiv_lt_0_compat; [lra|auto]).
    pose proof (H0 XDIR); pose proof (H0 YDIR); pose proof (H0 ZDIR).
    repeat apply Rplus_lt_0_compat; apply Rmult_lt_0_compat; auto. }
  pose proof eps0_pos as PE. pose proof eta0_pos as PT.
  set (X := eps0 * eta0 * 8 / dt).
  assert (PX : 0 < X) by (unfold X; generalize eps0, eta0, PE, PT; intros x y Hx Hy; apply Rdiv_lt_0_compat; [apply Rmult_lt_0_compat; [apply Rmult_lt_0_compat; assumption|lra]|exact DT]).
  set (par := fun _ : Face => snd (parsePmlCard 5 8 1 1 (exp X) 1)).
  assert (G : graded par) by (intros f; cbn; split; [lia|lra]).
  destruct (C33_profile 4 5 6 exampleReg c SC _ _ _ _ _ HL IN E par (fun _ => 0) ZDIR G) as (s & Es & PD & _).
  exists c, e, dt, (exp X), s. split; [reflexivity|]. split; [exact E|]. split; [exact DT|].
  split; [rewrite <- exp_0; apply exp_increasing; exact PX|]. cbv zeta. fold par. split; [exact G|]. split; [exact Es|].
  destruct (PD (gobox c ZHI)) as (-> & _).
  { cbn [face_lo face_hi]. pose proof (extents_arith c ZDIR) as (? & ? & ? & ? & ?). pose proof (wf_lines c W ZDIR).
    pose proof (layers_ge0 c ZLO W). pose proof (layers_ge0 c ZHI W). cbn [face_lo face_hi] in *. lia. }
  assert (C : c = match setupCfg 4 5 6 exampleReg with Some c => c | None => c end) by (rewrite SC; reflexivity).
  assert (NL : outerSurfaceNumLayers c ZHI = 8%Z) by (rewrite C; reflexivity).
  assert (GI : gibox c ZHI = 7%Z) by (rewrite C; reflexivity). assert (GO : gobox c ZHI = 15%Z) by (rewrite C; reflexivity).
  assert (GL : gibox c ZLO = 1%Z) by (rewrite C; reflexivity).
  unfold kappa, loss, sigma, side, depth, rel_depth. cbn [face_lo face_hi]. rewrite GO, GI, GL, NL. 
  replace (2 * 15 <? 2 * 1)%Z with false by reflexivity. replace (2 * 7 <? 2 * 15)%Z with true by reflexivity.
  replace (2 * 15 - 2 * 7)%Z with 16%Z by reflexivity. replace (2 * 8)%Z with 16%Z by reflexivity.
  unfold graded_kappa, graded_sigma, sigma_max, ord, par. cbn [parsePmlCard snd pOrder pNeff pRef pKmax Nat.leb].
  destruct (Rlt_dec 0 (exp X)) as [_|N]; [|exfalso; apply N, exp_pos].
  unfold sigma_for_reflection. rewrite ln_exp. unfold edge_cell. cbn [is_lo]. rewrite NL.
  replace (cell (unitLines c) ZDIR (numLines c ZDIR - 2)) with 1
    by (unfold cell, line, unitLines; cbn [adat]; rewrite <- minus_IZR; f_equal; lia).
  change (Z.to_nat 1) with 1%nat. cbn [INR pow]. unfold X.
  replace (-(1 + 1) * (eps0 * eta0 * 8 / dt) / (2 * eta0 * 1 * (8 * 1)) * (16 / 16 * 1) * dt / (2 * eps0)) with (- / 2)
    by (field; repeat split; lra).
  field.
Qed.
