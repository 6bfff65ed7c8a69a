(** C28: incidence vectors and origin of a plane wave. *)
From Coq Require Import ZArith Ascii String List Bool Lia Reals Lra.
From Verif Require Import Types Lang BBox Grid CArr Edges PmlProfile Waveform PlaneWave SpecYee SpecPw P_Pml.
Import ListNotations.
Open Scope R_scope.

Definition incE (size th ph et : R) (a : Axis) : R := Finc size th ph et (Ealong a).
Definition incH (size th ph et : R) (a : Axis) : R := Finc size th ph et (Halong a).
Definition rad (x : R) : R := x * PI / 180.
Lemma rad_deg x : degrees2radians x = rad x.
Proof. unfold degrees2radians, rad. field. Qed.

Ltac trig t p e :=
  assert (Ct : cos t * cos t = 1 - sin t * sin t) by (pose proof (sin2_cos2 t); unfold Rsqr in *; lra);
  assert (Cp : cos p * cos p = 1 - sin p * sin p) by (pose proof (sin2_cos2 p); unfold Rsqr in *; lra);
  assert (Ce : cos e * cos e = 1 - sin e * sin e) by (pose proof (sin2_cos2 e); unfold Rsqr in *; lra).

(** direction of propagation, polarisation and magnetic field, for every real
    angle: a right-handed transverse wave of the requested strength *)
Theorem C28_vectors : forall size th ph et,
  let t := rad th in let p := rad ph in let e := rad et in
  (forall a, kinc th ph a = r_hat t p a) /\
  (forall a, incE size th ph et a = size * (- cos e * phi_hat t p a - sin e * theta_hat t p a)) /\
  dot (kinc th ph) (kinc th ph) = 1 /\
  dot (incE size th ph et) (kinc th ph) = 0 /\
  dot (incE size th ph et) (incE size th ph et) = size * size /\
  (forall a, incH size th ph et a = cross (kinc th ph) (incE size th ph et) a / eta0).
Proof.
  intros size th ph et t p e. pose proof eta0_pos as P.
  unfold incE, incH, dot, cross, Finc, kinc. rewrite !rad_deg. fold t p e. trig t p e.
  generalize eta0 P. clear P. intros h P.
  assert (TW : forall a, r_hat t p a = match a with XDIR => sin t * cos p | YDIR => sin t * sin p | ZDIR => cos t end) by (intros []; reflexivity).
  unfold r_hat, theta_hat, phi_hat in *. cbn [succA Ealong Halong]. split; [intros []; reflexivity|].
  split; [intros []; cbn [Ealong]; ring|].
  clear TW. revert Ct Cp Ce. generalize (cos t) (sin t) (cos p) (sin p) (cos e) (sin e). clear t p e.
  intros ct st cp sp ce se Ct Cp Ce.
  assert (Q2 : ct ^ 2 = 1 - st ^ 2) by (simpl; lra). assert (Q3 : cp ^ 2 = 1 - sp ^ 2) by (simpl; lra).
  assert (Q4 : ce ^ 2 = 1 - se ^ 2) by (simpl; lra).
  split; [ring [Q2 Q3 Q4]|]. split; [ring [Q2 Q3 Q4]|]. split; [ring [Q2 Q3 Q4]|].
  intros []; cbn [succA Ealong Halong]; field [Q2 Q3 Q4]; lra.
Qed.

Lemma rle_true x y : x <= y -> rle x y = true.
Proof. unfold rle. destruct (Rle_dec x y); auto; lra. Qed.
Lemma rle_false x y : y < x -> rle x y = false.
Proof. unfold rle. destruct (Rle_dec x y); auto; lra. Qed.
Lemma rlt_true x y : x < y -> rlt x y = true.
Proof. unfold rlt. destruct (Rlt_dec x y); auto; lra. Qed.
Lemma rlt_false x y : y <= x -> rlt x y = false.
Proof. unfold rlt. destruct (Rlt_dec x y); auto; lra. Qed.

(** The reference point is the corner of the box that the wave reaches first:
    every point of the box lies at a non-negative distance along the direction
    of propagation, so the retarded time never exceeds the time. *)
Theorem C28_origin : forall b th ph, 0 <= th <= 180 -> 0 <= ph < 360 ->
  exists o, origin b th ph = Some o /\
  (forall a, o a = b (face_lo a) \/ o a = b (face_hi a)) /\
  forall r, pt_in b r -> 0 <= dot (kinc th ph) (fun a => r a - IZR (o a)).
Proof.
  intros b th ph HT HP.
  set (t := rad th). set (p := rad ph). pose proof PI_RGT_0 as PP.
  assert (ST : 0 <= sin t) by (apply sin_ge_0; unfold t, rad; nra).
  assert (CT1 : th <= 90 -> 0 <= cos t) by (intros; apply cos_ge_0; unfold t, rad; nra).
  assert (CT2 : 90 <= th -> cos t <= 0) by (intros; apply cos_le_0; unfold t, rad; nra).
  assert (SP1 : ph <= 180 -> 0 <= sin p) by (intros; apply sin_ge_0; unfold p, rad; nra).
  assert (SP2 : 180 <= ph -> sin p <= 0) by (intros; apply sin_le_0; unfold p, rad; nra).
  assert (CP1 : ph <= 90 -> 0 <= cos p) by (intros; apply cos_ge_0; unfold p, rad; nra).
  assert (CP2 : 90 <= ph <= 270 -> cos p <= 0) by (intros; apply cos_le_0; unfold p, rad; nra).
  assert (CP3 : 270 <= ph -> 0 <= cos p).
  { intros.
    replace (cos p) with (cos (2 * PI - p)).
    - apply cos_ge_0; unfold p, rad; nra.
    - rewrite cos_minus, cos_2PI, sin_2PI. ring. }
  assert (FIN : forall o : Axis -> Z, (forall a, o a = b (face_lo a) \/ o a = b (face_hi a)) ->
     (forall a, (o a = b (face_lo a) /\ 0 <= r_hat t p a) \/ (o a = b (face_hi a) /\ r_hat t p a <= 0)) ->
     forall r, pt_in b r -> 0 <= dot (kinc th ph) (fun a => r a - IZR (o a))).
  { intros o _ HO r HR. unfold dot.
    assert (K : forall a, kinc th ph a = r_hat t p a) by (intros []; unfold kinc, r_hat; rewrite !rad_deg; reflexivity).
    rewrite !K.
    assert (Q : forall a, 0 <= r_hat t p a * (r a - IZR (o a))).
    { intros a. specialize (HO a). specialize (HR a). destruct HO as [[-> S]|[-> S]].
      - apply Rmult_le_pos; lra.
      - replace (r_hat t p a * (r a - IZR (b (face_hi a)))) with ((- r_hat t p a) * (IZR (b (face_hi a)) - r a)) by ring.
        apply Rmult_le_pos; lra. }
    pose proof (Q XDIR). pose proof (Q YDIR). pose proof (Q ZDIR). lra. }
  set (fz := if Rle_dec th 90 then ZLO else ZHI).
  set (fx := if Rle_dec ph 90 then XLO else if Rle_dec ph 270 then XHI else XLO).
  set (fy := if Rle_dec ph 180 then YLO else YHI).
  exists (fun a => match a with XDIR => b fx | YDIR => b fy | ZDIR => b fz end).
  assert (NN : forall x y, 0 <= x -> 0 <= y -> 0 <= x * y) by (intros; apply Rmult_le_pos; auto).
  assert (NP : forall x y, 0 <= x -> y <= 0 -> x * y <= 0) by (intros; nra).
  assert (HC : forall a, (match a with XDIR => b fx | YDIR => b fy | ZDIR => b fz end = b (face_lo a) /\ 0 <= r_hat t p a) \/
              (match a with XDIR => b fx | YDIR => b fy | ZDIR => b fz end = b (face_hi a) /\ r_hat t p a <= 0)).
  { intros []; unfold fx, fy, fz, r_hat;
    repeat match goal with |- context [Rle_dec ?x ?y] => destruct (Rle_dec x y) end;
    cbn [face_lo face_hi];
    first [left; split; [reflexivity|]; first [apply NN; [auto|apply CP1; lra] | apply NN; [auto|apply CP3; lra] | apply NN; [auto|apply SP1; lra] | apply CT1; lra]
          |right; split; [reflexivity|]; first [apply NP; [auto|apply CP2; lra] | apply NP; [auto|apply SP2; lra] | apply CT2; lra]]. }
  split; [|split; [intros a; destruct (HC a) as [[X _]|[X _]]; auto|apply FIN; auto; intros a; destruct (HC a) as [[X _]|[X _]]; auto]].
  unfold origin, fz, fx, fy.
  rewrite (rle_true 0 ph), (rle_true 0 th), (rlt_true ph 360) by lra.
  destruct (Rle_dec th 90) as [T|T].
  - rewrite (rle_true th 90) by lra. cbn [andb obind].
    destruct (Rle_dec ph 90); [rewrite (rle_true ph 90) by lra; destruct (Rle_dec ph 180); [reflexivity|lra]|].
    rewrite (rle_false ph 90), (rlt_true 90 ph) by lra. cbn [andb].
    destruct (Rle_dec ph 180); [rewrite (rle_true ph 180) by lra; destruct (Rle_dec ph 270); [reflexivity|lra]|].
    rewrite (rle_false ph 180), (rlt_true 180 ph) by lra. cbn [andb].
    destruct (Rle_dec ph 270); [rewrite (rle_true ph 270) by lra; reflexivity|].
    rewrite (rle_false ph 270), (rlt_true 270 ph) by lra. reflexivity.
  - rewrite (rle_false th 90), (rlt_true 90 th), (rle_true th 180) by lra. cbn [andb obind].
    destruct (Rle_dec ph 90); [rewrite (rle_true ph 90) by lra; destruct (Rle_dec ph 180); [reflexivity|lra]|].
    rewrite (rle_false ph 90), (rlt_true 90 ph) by lra. cbn [andb].
    destruct (Rle_dec ph 180); [rewrite (rle_true ph 180) by lra; destruct (Rle_dec ph 270); [reflexivity|lra]|].
    rewrite (rle_false ph 180), (rlt_true 180 ph) by lra. cbn [andb].
    destruct (Rle_dec ph 270); [rewrite (rle_true ph 270) by lra; reflexivity|].
    rewrite (rle_false ph 270), (rlt_true 270 ph) by lra. reflexivity.
Qed.

(** ** Which cards are accepted, and what they set. *)
Definition mask_ok (m : option string) (active : Face -> bool) : Prop :=
  match m with
  | None => forall f, active f = true
  | Some s => String.length s = 6%nat /\
      forall f, String.get (faceNo f) s = Some (if active f then "1" else "0")%char
  end.
Definition nonneg (x : option R) : Prop := match x with Some s => 0 <= s | None => True end.
Definition or_else (x : option R) (d : R) : R := match x with Some s => s | None => d end.
Definition card_ok (mbox : BBox) (wfs : list WfItem) (l : list PW) (b : BBox) (name wf : string) (th ph et : R)
    (mask : option string) (size : option R) : Prop :=
  (forall p, In p l -> pw_name p <> name) /\ (exists w, In w wfs /\ wName w = wf) /\
  (b XLO <= b XHI)%Z /\ (b YLO <= b YHI)%Z /\ (forall a, mbox (face_lo a) <= b (face_lo a) /\ b (face_hi a) <= mbox (face_hi a))%Z /\
  0 <= th <= 180 /\ 0 <= ph <= 360 /\ 0 <= et < 360 /\ nonneg size /\ (exists act, mask_ok mask act).

Lemma exists_name {X} (nm : X -> string) l name : existsb (fun x => String.eqb name (nm x)) l = true <-> exists x, In x l /\ nm x = name.
Proof.
  rewrite existsb_exists. split; intros (x & I & E); exists x; split; auto.
  - apply String.eqb_eq in E. auto.
  - apply String.eqb_eq. auto.
Qed.
Lemma maskBit_spec ch v : maskBit ch = Some v <-> ch = (if v then "1" else "0")%char.
Proof.
  unfold maskBit. destruct (Ascii.eqb_spec ch "0"); [subst|destruct (Ascii.eqb_spec ch "1"); [subst|]]; split.
  - intros [= <-]. reflexivity.
  - destruct v; [discriminate|reflexivity].
  - intros [= <-]. reflexivity.
  - destruct v; [reflexivity|discriminate].
  - discriminate.
  - destruct v; congruence.
Qed.
Lemma decode_spec s : match decodeFaceMask s with
  | Some act => forall f, String.get (faceNo f) s = Some (if act f then "1" else "0")%char
  | None => forall act : Face -> bool, ~ (forall f, String.get (faceNo f) s = Some (if act f then "1" else "0")%char)
  end.
Proof.
  unfold decodeFaceMask. match goal with |- context [forallb ?g faces] => destruct (forallb g faces) eqn:X end.
  - rewrite forallb_forall in X. intros f. specialize (X f (ltac:(destruct f; cbn; tauto))).
    destruct (String.get (faceNo f) s); [|discriminate]. f_equal. apply maskBit_spec.
    destruct (maskBit a); [reflexivity|discriminate].
  - intros act H. apply not_true_iff_false in X. apply X. apply forallb_forall. intros f _. rewrite H.
    rewrite (proj2 (maskBit_spec _ (act f)) eq_refl). reflexivity.
Qed.

Theorem C28_card : forall mbox wfs l b name wf th ph et mask size delay,
  match parsePW mbox wfs l b name wf th ph et mask size delay with
  | Some l' => card_ok mbox wfs l b name wf th ph et mask size /\
      exists act, mask_ok mask act /\
      l' = l ++ [mkPW name b wf act th ph et (or_else size 1) (or_else delay 0)]
  | None => ~ card_ok mbox wfs l b name wf th ph et mask size
  end.
Proof.
  intros. unfold parsePW, card_ok.
  destruct (isPlaneWave l name) eqn:E1.
  { unfold isPlaneWave in E1. apply exists_name in E1. destruct E1 as (p & I & E). intros (H & _). exact (H p I E). }
  assert (H1 : forall p, In p l -> pw_name p <> name).
  { intros p I E. apply not_true_iff_false in E1. apply E1. apply exists_name. eauto. }
  destruct (bboxIsNormal b) eqn:E2; cbn [negb].
  2:{ intros (_ & _ & X & Y & _). apply not_true_iff_false in E2. apply E2. unfold bboxIsNormal. rewrite !andb_true_iff, !Z.leb_le. lia. }
  unfold bboxIsNormal in E2. rewrite !andb_true_iff, !Z.leb_le in E2.
  assert (WI : bboxIsWithin b mbox = true <-> forall a, (mbox (face_lo a) <= b (face_lo a) /\ b (face_hi a) <= mbox (face_hi a))%Z).
  { unfold bboxIsWithin. rewrite !andb_true_iff, !Z.leb_le. split.
    - intros H []; cbn [face_lo face_hi]; lia.
    - intros H. pose proof (H XDIR); pose proof (H YDIR); pose proof (H ZDIR). cbn [face_lo face_hi] in *. lia. }
  destruct (bboxIsWithin b mbox) eqn:E3; cbn [negb].
  2:{ intros (_ & _ & _ & _ & X & _). apply WI in X. discriminate. }
  destruct (isWaveform wfs wf) eqn:E4; cbn [negb].
  2:{ intros (_ & X & _). apply not_true_iff_false in E4. apply E4. apply exists_name. auto. }
  unfold isWaveform in E4. apply exists_name in E4.
  unfold rlt, rle.
  destruct (Rlt_dec th 0); cbn [orb]; [let H := fresh in intros H; lra|].
  destruct (Rlt_dec 180 th); cbn [orb]; [let H := fresh in intros H; lra|].
  destruct (Rlt_dec ph 0); cbn [orb]; [let H := fresh in intros H; lra|].
  destruct (Rlt_dec 360 ph); cbn [orb]; [let H := fresh in intros H; lra|].
  destruct (Rlt_dec et 0); cbn [orb]; [let H := fresh in intros H; lra|].
  destruct (Rle_dec 360 et); cbn [orb]; [let H := fresh in intros H; lra|].
  set (bad := match size with Some s => if Rlt_dec s 0 then true else false | None => false end).
  assert (SZ : bad = true <-> ~ nonneg size).
  { unfold bad. destruct size as [s|]; cbn; [destruct (Rlt_dec s 0); split; intros; try lra; try discriminate; exfalso; lra|].
    split; [discriminate|tauto]. }
  assert (SZ2 : bad = false -> nonneg size).
  { unfold bad. destruct size as [s|]; cbn; auto. destruct (Rlt_dec s 0); [discriminate|lra]. }
  clearbody bad.
  assert (WX := proj1 WI eq_refl).
  assert (FIN : forall act, mask_ok mask act ->
    match (if bad then None
       else Some (l ++ [mkPW name b wf act th ph et (match size with Some s => s | None => 1 end) (match delay with Some d => d | None => 0 end)])) with
    | Some l' => card_ok mbox wfs l b name wf th ph et mask size /\
      exists act, mask_ok mask act /\ l' = l ++ [mkPW name b wf act th ph et (or_else size 1) (or_else delay 0)]
    | None => ~ card_ok mbox wfs l b name wf th ph et mask size end).
  { intros act MA. unfold card_ok. destruct bad.
    - intros H. tauto.
    - split; [|exists act; split; auto].
      split; [exact H1|]. split; [exact E4|]. split; [lia|]. split; [lia|]. split; [exact WX|].
      split; [lra|]. split; [lra|]. split; [lra|]. split; [auto|eauto]. }
  destruct mask as [s|].
  - destruct (Nat.eqb_spec (String.length s) 6) as [LN|LN].
    + pose proof (decode_spec s) as D. destruct (decodeFaceMask s) as [act|].
      * apply FIN. split; auto.
      * intros H. destruct H as (_ & _ & _ & _ & _ & _ & _ & _ & _ & act & _ & H). exact (D act H).
    + intros H. destruct H as (_ & _ & _ & _ & _ & _ & _ & _ & _ & act & H & _). exact (LN H).
  - apply FIN. intros f. reflexivity.
Qed.
Definition aWave : list WfItem := [mkWf "f"%string GAUSSIAN_PULSE 1 0 1 1].
Example C28_nonvacuous : exists p, parsePW (mkbox 0 8 0 8 0 8) aWave [] (mkbox 2 5 2 5 2 5) "w" "f" 45 30 90 (Some "111101"%string) None None = Some [p] /\
  pw_active p ZLO = false /\ pw_active p ZHI = true /\ pw_size p = 1.
Proof.
  unfold parsePW, isPlaneWave. cbn [existsb]. replace (bboxIsNormal _) with true by reflexivity. replace (bboxIsWithin _ _) with true by reflexivity.
  replace (isWaveform _ _) with true by reflexivity. rewrite !rlt_false by lra. rewrite rle_false by lra.
  cbn. eexists. split; [reflexivity|]. repeat split.
Qed.

(** ** Refuted: azimuth 360.  The card accepts it (the limit is inclusive), but
    the origin is then undefined: the program aborts on an assertion. *)
Theorem C28_phi360_refuted : exists p, parsePW (mkbox 0 8 0 8 0 8) aWave [] (mkbox 2 5 2 5 2 5) "w" "f" 45 360 90 None None None = Some [p] /\
  forall b, origin b (pw_theta p) (pw_phi p) = None.
Proof.
  unfold parsePW, isPlaneWave. cbn [existsb]. replace (bboxIsNormal _) with true by reflexivity. replace (bboxIsWithin _ _) with true by reflexivity.
  replace (isWaveform _ _) with true by reflexivity. rewrite !rlt_false by lra. rewrite rle_false by lra.
  cbn [orb negb app]. eexists. split; [reflexivity|]. intros b. cbn [pw_theta pw_phi]. unfold origin.
  rewrite (rle_true 0 360), (rle_true 0 45), (rle_true 45 90), (rle_false 360 90), (rle_false 360 180), (rle_false 360 270), (rlt_false 360 360) by lra.
  rewrite !andb_false_r. cbn [andb obind]. reflexivity.
Qed.
(** Refuted: the box may be inverted in z (the ordering test compares ZLO with
    itself). *)
Theorem C28_inverted_refuted : exists p, parsePW (mkbox 0 8 0 8 0 8) aWave [] (mkbox 2 5 2 5 5 2) "w" "f" 45 30 90 None None None = Some [p] /\
  (pw_mbbox p ZHI < pw_mbbox p ZLO)%Z.
Proof.
  unfold parsePW, isPlaneWave. cbn [existsb]. replace (bboxIsNormal _) with true by reflexivity. replace (bboxIsWithin _ _) with true by reflexivity.
  replace (isWaveform _ _) with true by reflexivity. rewrite !rlt_false by lra. rewrite rle_false by lra.
  cbn [orb negb app]. eexists. split; [reflexivity|]. reflexivity.
Qed.
