(** C72: plane waves in the gnuplot drawing. *)
From Coq Require Import ZArith Ascii String List Bool Lia Reals Lra.
From Verif Require Import Types Lang BBox Grid CArr Edges PmlProfile Waveform PlaneWave SpecYee SpecPw P_Pml P_Grid P_PwVectors Gmsh SpecGmsh SpecGeom Gnuplot SpecGnuplot P_Gnuplot GnuplotPw SpecGnuplotPw.
Import ListNotations.
Open Scope R_scope.

Lemma vpt_ext f g : (forall a, f a = g a) -> vpt f = Pt (triple g).
Proof. intros E. unfold vpt, triple. rewrite !E. reflexivity. Qed.
Lemma cons_eq {A} (x y : A) l l' : x = y -> l = l' -> x :: l = y :: l'.
Proof. intros -> ->. reflexivity. Qed.
Section One.
Variables (n : Axis -> Z) (physical : bool) (lines : Axis -> carr R).
Hypothesis HL : has_n_lines n lines.
Lemma point_ok r : exists p, arrowPoint physical lines r = Some p /\ forall a, spot physical lines n a (r a) (p a).
Proof.
  unfold arrowPoint, spot. destruct physical; [|exists r; split; reflexivity].
  assert (E : forall a, exists v, nodeInPhysicalUnits1 (alen (lines a)) (lines a) (r a) = Some v /\
    (forall i, (0 <= i < n a)%Z -> IZR i <= r a <= IZR (i + 1) -> v = adat (lines a) i + (r a - IZR i) * (adat (lines a) (i + 1)%Z - adat (lines a) i)) /\
    (r a <= 0 -> v = adat (lines a) 0%Z + r a * (adat (lines a) 1%Z - adat (lines a) 0%Z)) /\
    (IZR (n a) <= r a -> v = adat (lines a) (n a) + (r a - IZR (n a)) * (adat (lines a) (n a) - adat (lines a) (n a - 1)%Z))).
  { intros a. destruct (HL a) as (N & L). destruct (C42_node_position (alen (lines a)) (lines a) ltac:(lia) eq_refl) as (_ & B & C & D & _).
    rewrite (node_seg (alen (lines a)) (lines a) (r a) ltac:(lia) eq_refl) in *. eexists. split; [reflexivity|].
    split; [|split].
    - intros i I Q. specialize (B i (r a) ltac:(lia) Q). rewrite node_seg in B by lia. injection B as B. exact B.
    - intros Q. specialize (C (r a) Q). rewrite node_seg in C by lia. injection C as C. exact C.
    - intros Q. specialize (D (r a)). rewrite node_seg in D by lia. replace (alen (lines a) - 1)%Z with (n a) in D by lia.
      replace (alen (lines a) - 2)%Z with (n a - 1)%Z in D by lia. specialize (D Q). injection D as D. exact D. }
  destruct (E XDIR) as (x & -> & X). destruct (E YDIR) as (y & -> & Y). destruct (E ZDIR) as (z & -> & Z). cbn [obind].
  eexists. split; [reflexivity|]. intros []; assumption.
Qed.
Lemma node_place o p : (forall a, 0 <= o a <= n a)%Z -> (forall a, spot physical lines n a (IZR (o a)) (p a)) -> forall a, p a = place physical lines a (o a).
Proof.
  intros IO S a. specialize (S a). specialize (IO a). unfold spot, place in *. destruct physical; [|exact S]. cbv zeta in S. destruct S as (A & _ & C).
  destruct (Z.eq_dec (o a) (n a)) as [E|E].
  - rewrite E in *. rewrite C by lra. ring.
  - rewrite (A (o a)); [ring|lia|rewrite plus_IZR; lra].
Qed.
Lemma arrow_ok o len d d' side side' h : (forall a, 0 <= o a <= n a)%Z -> (forall a, d a = d' a) -> (forall a, side a = side' a) ->
  exists recs, gnuplotArrow physical lines (fun a => IZR (o a)) (fun a => IZR (o a) + len * d a) side (match h with OpenHead => 2 | ClosedHead => 1 | DoubleHead => 3 end) = Some recs /\
    arrow_from physical lines n h o len d' side' recs.
Proof.
  intros IO D S. destruct (point_ok (fun a => IZR (o a))) as (ps & EP & SP). destruct (point_ok (fun a => IZR (o a) + len * d a)) as (pe & EE & SE).
  unfold gnuplotArrow. rewrite EP, EE. cbn [obind].
  set (L := sqrt _).
  assert (EL : L = sqrt (dot (fun a => pe a - ps a) (fun a => pe a - ps a))) by (unfold L, dot; f_equal).
  clearbody L.
  assert (RR : forall f w (g : Axis -> R), (forall a, g a = pe a - f * (pe a - ps a) + w * L * side a) -> vpt g = barb ps pe side' f w).
  { intros f w g G. unfold barb. apply vpt_ext. intros a. rewrite G, EL, S. reflexivity. }
  destruct h; cbv [Z.eqb Pos.eqb obind]; eexists; (split; [reflexivity|]); exists ps, pe;
    (split; [exact (node_place o ps IO SP)|split; [intros a; rewrite <- D; apply SE|]]); unfold arrow_recs; cbn [app];
    repeat (apply cons_eq; [first [reflexivity|apply RR; intros a; field]|]); reflexivity.
Qed.
Lemma unit_is v w m : 0 < m -> (forall a, v a = m * w a) -> dot w w = 1 -> forall a, unit3 v a = w a.
Proof.
  intros M E N a. unfold unit3. rewrite !E. unfold dot in N.
  replace (m * w XDIR * (m * w XDIR) + m * w YDIR * (m * w YDIR) + m * w ZDIR * (m * w ZDIR)) with (m * m) by (replace (m * m) with (m * m * (w XDIR * w XDIR + w YDIR * w YDIR + w ZDIR * w ZDIR)) by (rewrite N; ring); ring).
  rewrite sqrt_square by lra. field. lra.
Qed.
Lemma cross_unit k e : dot k k = 1 -> dot e e = 1 -> dot e k = 0 -> dot (cross k e) (cross k e) = 1.
Proof.
  intros K E O. assert (Q : dot (cross k e) (cross k e) = dot k k * dot e e - dot e k * dot e k) by (unfold dot, cross; cbn; ring).
  rewrite Q, K, E, O. ring.
Qed.
Lemma shortest b : shortest_side b (IZR (Z.min (Z.min (b XHI - b XLO) (b YHI - b YLO)) (b ZHI - b ZLO))).
Proof.
  split; [intros []; cbn [face_lo face_hi]; apply IZR_le; lia|].
  destruct (Z.min_dec (Z.min (b XHI - b XLO) (b YHI - b YLO)) (b ZHI - b ZLO)) as [->| ->]; [|exists ZDIR; reflexivity].
  destruct (Z.min_dec (b XHI - b XLO) (b YHI - b YLO)) as [->| ->]; [exists XDIR|exists YDIR]; reflexivity.
Qed.
Lemma wave_ok b th ph et : within_mesh n b -> 0 <= th <= 180 -> 0 <= ph < 360 ->
  exists recs, gnuplotPlaneWave physical lines b th ph et = Some recs /\ wave_drawn physical lines n b th ph et recs.
Proof.
  intros W T P. destruct (box_drawn n physical lines HL b W) as (box & EB & WB). destruct (C28_origin b th ph T P) as (o & EO & CO & FO).
  destruct (C28_vectors 1 th ph et) as (K & E & KK & EK & EE & HH). fold (rad th) (rad ph) (rad et) in *.
  set (k := r_hat (rad th) (rad ph)) in *. set (e := fun a => - cos (rad et) * phi_hat (rad th) (rad ph) a - sin (rad et) * theta_hat (rad th) (rad ph) a).
  assert (E' : forall a, incE 1 th ph et a = e a) by (intros a; rewrite E; unfold e; ring).
  assert (DK : dot k k = 1) by (unfold dot in *; rewrite !K in KK; exact KK).
  assert (DE : dot e e = 1) by (unfold dot in *; rewrite !E' in EE; rewrite EE; ring).
  assert (DO : dot e k = 0) by (unfold dot in *; rewrite !E', !K in EK; exact EK).
  assert (UE : forall a, unit3 (fun a => match a with XDIR => Finc 1 th ph et EX | YDIR => Finc 1 th ph et EY | ZDIR => Finc 1 th ph et EZ end) a = e a).
  { apply (unit_is _ e 1); [lra| |exact DE]. intros a. rewrite Rmult_1_l, <- E'. destruct a; reflexivity. }
  assert (UH : forall a, unit3 (fun a => match a with XDIR => Finc 1 th ph et HX | YDIR => Finc 1 th ph et HY | ZDIR => Finc 1 th ph et HZ end) a = cross k e a).
  { apply (unit_is _ (cross k e) (/ eta0)); [apply Rinv_0_lt_compat, eta0_pos| |apply cross_unit; assumption].
    intros a. transitivity (incH 1 th ph et a); [destruct a; reflexivity|]. rewrite HH. unfold cross. destruct a; rewrite !K, !E'; unfold Rdiv; ring. }
  assert (IO : forall a, (0 <= o a <= n a)%Z) by (intros a; specialize (W a); destruct (CO a) as [->| ->]; lia).
  unfold gnuplotPlaneWave. rewrite EB, EO. cbn [obind]. set (s := IZR (Z.min _ _)).
  destruct (arrow_ok o (3 / 10 * s) (kinc th ph) k _ e OpenHead IO K UE) as (mk_ & -> & AK). cbn [obind].
  destruct (arrow_ok o (3 / 10 * s) _ e (kinc th ph) k ClosedHead IO UE K) as (me & -> & AE). cbn [obind].
  destruct (arrow_ok o (3 / 10 * s) _ (cross k e) _ e DoubleHead IO UH UE) as (mh & -> & AH). cbn [obind].
  eexists. split; [reflexivity|]. exists o, s, box, mk_, me, mh. split; [split; [exact CO|]|].
  { intros r R0. specialize (FO r R0). unfold dot in *. rewrite !K in FO. exact FO. }
  split; [apply shortest|]. auto.
Qed.
End One.

(** ** C72, plane waves: the extent of the mesh and then, for each wave in turn, its
    box and the directions of propagation, electric and magnetic field, drawn from
    the corner of the box that it reaches first *)
Theorem C72_planewaves n physical lines mbox pws : has_n_lines n lines -> is_mesh n mbox ->
  Forall (fun p => within_mesh n (pw_mbbox p) /\ 0 <= pw_theta p <= 180 /\ 0 <= pw_phi p < 360) pws ->
  exists h ps, gnuplotPlaneWaves physical lines mbox pws = Some (h ++ concat ps)%list /\ extent_first (place physical lines) mbox h /\
    Forall2 (fun p => wave_drawn physical lines n (pw_mbbox p) (pw_theta p) (pw_phi p) (pw_eta p)) pws ps.
Proof.
  intros HL HM F. destruct (header_ok n physical lines HL mbox HM) as (h & EH & XH).
  destruct (concatO_map (fun p => gnuplotPlaneWave physical lines (pw_mbbox p) (pw_theta p) (pw_phi p) (pw_eta p))
    (fun p => wave_drawn physical lines n (pw_mbbox p) (pw_theta p) (pw_phi p) (pw_eta p)) pws) as (ps & EP & FP).
  { intros p I. destruct (proj1 (Forall_forall _ _) F p I) as (A & B & C). apply wave_ok; assumption. }
  exists h, ps. unfold gnuplotPlaneWaves, withSize. rewrite EH, EP. auto.
Qed.
(** the three arrows are unit vectors at right angles (so all three are as long, in
    units of cells), and the magnetic field is that of a wave travelling along the first *)
Theorem C72_planewave_axes t p e : let k := r_hat t p in let E a := - cos e * phi_hat t p a - sin e * theta_hat t p a in let H := cross k E in
  dot k k = 1 /\ dot E E = 1 /\ dot H H = 1 /\ dot k E = 0 /\ dot k H = 0 /\ dot E H = 0 /\ forall a, cross E H a = k a.
Proof.
  intros k E H.
  destruct (C28_vectors 1 (t * 180 / PI) (p * 180 / PI) (e * 180 / PI)) as (K & EV & KK & EK & EE & _).
  pose proof PI_RGT_0 as PP.
  assert (RD : forall x, rad (x * 180 / PI) = x) by (intros x; unfold rad; field; lra). rewrite !RD in *. fold k in K.
  assert (E' : forall a, incE 1 (t * 180 / PI) (p * 180 / PI) (e * 180 / PI) a = E a) by (intros a; rewrite EV; unfold E; ring).
  assert (DK : dot k k = 1) by (unfold dot in *; rewrite !K in KK; exact KK).
  assert (DE : dot E E = 1) by (unfold dot in *; rewrite !E' in EE; rewrite EE; ring).
  assert (DO : dot E k = 0) by (unfold dot in *; rewrite !E', !K in EK; exact EK).
  split; [exact DK|]. split; [exact DE|]. split; [apply cross_unit; assumption|].
  clearbody k E. unfold H. clear - DK DE DO. unfold dot, cross in *. cbn [succA] in *.
  split; [lra|]. split; [ring|]. split; [ring|].
  intros a. assert (Q : cross E (cross k E) a = dot E E * k a - dot E k * E a) by (unfold dot, cross; destruct a; cbn [succA]; ring).
  unfold cross, dot in Q. rewrite DE, DO in Q. rewrite Q. ring.
Qed.
(** Refuted: a wave from phi = 360 degrees is accepted by its card but stops the
    drawing on an assertion *)
Theorem C72_phi360_refuted : exists p, parsePW (mkbox 0 8 0 8 0 8) aWave [] (mkbox 2 5 2 5 2 5) "w" "f" 45 360 90 None None None = Some [p] /\
  forall physical lines, gnuplotPlaneWaves physical lines (mkbox 0 8 0 8 0 8) [p] = None.
Proof.
  destruct C28_phi360_refuted as (p & A & B). exists p. split; [exact A|]. intros physical lines.
  unfold gnuplotPlaneWaves, withSize. destruct (gnuplotProblemSize physical lines (mkbox 0 8 0 8 0 8)); [|reflexivity].
  cbn [obind map concatO]. unfold gnuplotPlaneWave. rewrite B. destruct (gnuplotBoundingBox physical lines (pw_mbbox p)); reflexivity.
Qed.
(** Refuted: for a wave whose box is reversed along z, which its card also accepts,
    the first arrow points against the direction of propagation *)
Theorem C72_backwards_refuted : exists p, parsePW (mkbox 0 8 0 8 0 8) aWave [] (mkbox 2 5 2 5 5 2) "w" "f" 45 30 90 None None None = Some [p] /\
  forall lines, has_n_lines (fun _ => 8%Z) lines -> exists h box rest o s, s < 0 /\
    gnuplotPlaneWaves false lines (mkbox 0 8 0 8 0 8) [p] = Some (h ++ box ++ Pt (triple o) :: Pt (triple (fun a => o a + s * r_hat (45 * PI / 180) (30 * PI / 180) a)) :: rest)%list.
Proof.
  unfold parsePW, isPlaneWave. cbn [existsb]. replace (bboxIsNormal _) with true by reflexivity. replace (bboxIsWithin _ _) with true by reflexivity.
  replace (isWaveform _ _) with true by reflexivity. rewrite !rlt_false by lra. rewrite rle_false by lra.
  cbn [orb negb app]. eexists. split; [reflexivity|]. intros lines HL.
  assert (HM : is_mesh (fun _ => 8%Z) (mkbox 0 8 0 8 0 8)) by (intros []; split; reflexivity).
  match goal with |- context [gnuplotPlaneWaves _ _ _ [?p]] => destruct (C72_planewaves (fun _ => 8%Z) false lines (mkbox 0 8 0 8 0 8) [p] HL HM) as (h & ps & E & _ & F) end.
  { constructor; [|constructor]. cbn [pw_mbbox pw_theta pw_phi]. split; [|lra]. intros []; cbn [mkbox face_lo face_hi]; lia. }
  inversion F as [|? recs ? ps' WD F']. subst. inversion F'. subst. cbn [pw_mbbox pw_theta pw_phi pw_eta] in WD.
  destruct WD as (o & s & box & mk_ & me & mh & _ & (S1 & _) & -> & _ & (base & tip & BA & TI & ->) & _).
  rewrite E. specialize (S1 ZDIR). cbn [mkbox face_lo face_hi] in S1.
  exists h, box. eexists. exists base, (3 / 10 * s). split; [cbn in S1; lra|].
  f_equal. cbn [concat]. rewrite app_nil_r. f_equal. f_equal. unfold arrow_recs. cbn [app].
  f_equal. f_equal. f_equal. unfold triple. unfold spot in TI. rewrite !TI. unfold place in BA. rewrite !BA. reflexivity.
Qed.
(** a wave accepted by its card, in a mesh of cells of two metres *)
Example C72_planewaves_nonvacuous : exists p, parsePW (mkbox 0 8 0 8 0 8) aWave [] (mkbox 2 5 2 5 2 6) "w" "f" 45 30 90 None None None = Some [p] /\
  exists h recs, gnuplotPlaneWaves true (fun _ => {| alen := 9; adat := fun i => 2 * IZR i |}) (mkbox 0 8 0 8 0 8) [p] = Some (h ++ recs)%list /\
    wave_drawn true (fun _ => {| alen := 9; adat := fun i => 2 * IZR i |}) (fun _ => 8%Z) (mkbox 2 5 2 5 2 6) 45 30 90 recs.
Proof.
  unfold parsePW, isPlaneWave. cbn [existsb]. replace (bboxIsNormal _) with true by reflexivity. replace (bboxIsWithin _ _) with true by reflexivity.
  replace (isWaveform _ _) with true by reflexivity. rewrite !rlt_false by lra. rewrite rle_false by lra.
  cbn [orb negb app]. eexists. split; [reflexivity|].
  match goal with |- context [gnuplotPlaneWaves _ ?l _ [?p]] => destruct (C72_planewaves (fun _ => 8%Z) true l (mkbox 0 8 0 8 0 8) [p]) as (h & ps & E & _ & F) end.
  { intros a. cbn [alen]. lia. }
  { intros []; split; reflexivity. }
  { constructor; [|constructor]. cbn [pw_mbbox pw_theta pw_phi]. split; [|lra]. intros []; cbn [mkbox face_lo face_hi]; lia. }
  inversion F as [|? recs ? ps' WD F']. subst. inversion F'. subst. exists h, recs. split; [rewrite E; cbn [concat]; rewrite app_nil_r; reflexivity|exact WD].
Qed.
