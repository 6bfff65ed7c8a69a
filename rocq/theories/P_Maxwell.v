(** C75: the run of a mesh file solves the discretised Maxwell equations of the
    problem the file describes. *)
From Coq Require Import ZArith List Bool Ascii String Reals Lia Lra FunctionalExtensionality.
From Verif Require Import Types CArr CStr Sim Scan Lang BBox Grid SpecGrid Step Setup SetupProofs P_Setup PmlProfile Media Medium SpecMedium MediumProofs Debye Waveform Source
  PlaneWave Observer Edges SpecEdges SpecText Mesh SpecGeom SpecCards P_Cards SpecMedia P_Media SpecPhys SpecEnergy SpecStable P_Grid P_Stable Front Program SpecFront P_Front P_FrontRun
  LangProofs StepShape StepBounds StepCount StepOnce Ghost Linear BBoxProofs MediaProofs Sibc SpecSource SourceProofs P_Source P_PwBounds SpecPw Whole P_Whole SpecFile P_Step StepValue PmlValue SpecCone SpecYee P_Yee P_FrontStable Energy SpecMaxwell.
Import ListNotations.
Local Open Scope list_scope.
Open Scope Z_scope.

(** ** Materials *)
Definition law (dt : R) (mat : Material) (co : Coef R) : Prop :=
  match mat with
  | Metal => cbeta co = 0 /\ cgamma co = dt / mu0
  | Simple e s u => (1 <= e /\ 0 <= s /\ 1 <= u)%R /\ (forall E curl, ampere (e * eps0) s dt E (calpha co * E + cbeta co * curl) curl) /\
      (forall H curl, faraday (u * mu0) dt H (H + cgamma co * curl) curl)
  end%R.
Lemma free_law dt : (0 < dt)%R -> law dt (Simple 1 0 1) (mkCoef 1 (dt / eps0) (dt / mu0))%R.
Proof.
  intros DT. destruct eps0_mu0 as (E0 & M0 & _). cbn [law calpha cbeta cgamma]. split; [lra|]. generalize dependent eps0. generalize dependent mu0. intros u U e Ee. split; intros; unfold ampere, faraday; field; lra.
Qed.
Lemma simple_law dt p : (0 < dt)%R -> paramOk p -> m_poles p = [] -> law dt (Simple (m_eps p) (m_sigma p) (m_mu p)) (calcCoeffFromParam eps0 mu0 dt p).
Proof.
  intros DT P Q. destruct eps0_mu0 as (E0 & M0 & _). destruct (simple_coef eps0 mu0 dt E0 M0 DT p Q P) as (_ & _ & _ & _ & A & B). destruct P as (P1 & P2 & P3).
  cbn [law]. auto.
Qed.
Lemma media_law h dt n : (0 < dt)%R -> good_media (h_media h) -> plain_media h -> one_conductor h -> law dt (materialOf h n) (initMedia eps0 mu0 dt (h_media h) n).
Proof.
  intros DT GM PM OC. destruct n as [|[|n]]; [exact (free_law dt DT)|cbn; auto|]. cbn [materialOf initMedia].
  destruct (nth_error (h_media h) (Datatypes.S (Datatypes.S n))) as [it|] eqn:N; [|exact (free_law dt DT)].
  destruct (GM _ _ N) as [X|[X|(_ & _ & P & Q)]]; [discriminate X|discriminate X|]. specialize (Q (PM _ _ N)).
  pose proof (simple_law dt (idata it) DT P Q) as X. assert (T : m_type (idata it) <> MT_PEC) by (apply (OC _ _ (ltac:(lia) : (2 <= Datatypes.S (Datatypes.S n))%nat) N)). destruct (m_type (idata it)); try congruence; exact X.
Qed.
Lemma paint_made h f x y z ps r : last_paint f x y z ps r ->
  made_of f x y z (map (fun p => mkRegion (p_box p) (p_incl p) (materialOf h (p_medium p))) ps) (materialOf h (match r with Some n => n | None => 0%nat end)).
Proof.
  induction 1 as [|ps p C|ps p r NC LP IH]; [constructor| |]; rewrite map_app; cbn [map].
  - apply (mo_in f x y z _ (mkRegion (p_box p) (p_incl p) (materialOf h (p_medium p)))). exact C.
  - apply (mo_out f x y z _ (mkRegion (p_box p) (p_incl p) (materialOf h (p_medium p)))); assumption.
Qed.
Lemma made_total f x y z rs : exists m, made_of f x y z rs m.
Proof.
  induction rs as [|r rs IH] using rev_ind; [eexists; constructor|]. destruct IH as (m & M).
  destruct (yee_in_dec f (g_box r) (g_incl r) x y z); eexists; [apply mo_in; assumption|apply mo_out; eassumption].
Qed.
Lemma made_fun f x y z rs : forall m m', made_of f x y z rs m -> made_of f x y z rs m' -> m = m'.
Proof.
  induction rs as [|r rs IH] using rev_ind; intros m m' A B.
  - inversion A as [|q r0 Y E|q r0 ? Y Q E]; subst; try (destruct q; discriminate). inversion B as [|q r0 Y E|q r0 ? Y Q E]; subst; try (destruct q; discriminate). reflexivity.
  - inversion A as [E|q r0 Y E|q r0 ? Y Q E]; subst; [destruct rs; discriminate| |]; apply app_inj_tail in E; destruct E as (-> & ->);
    (inversion B as [E'|q' r' Y' E'|q' r' ? Y' Q' E']; subst; [destruct rs; discriminate| |]; apply app_inj_tail in E'; destruct E' as (-> & ->)); try contradiction; eauto.
Qed.
(** ** Sources *)
Lemma total_ex (P : Src -> Prop) (v : Src -> R) (dec : forall s, {P s} + {~ P s}) l : exists t, total_of P v l t.
Proof. induction l as [|s l (t & IH)]; [eexists; constructor|]. destruct (dec s); eexists; [apply to_in|apply to_out]; eassumption. Qed.
Lemma total_fun (P : Src -> Prop) (v : Src -> R) l : forall t t', total_of P v l t -> total_of P v l t' -> t = t'.
Proof. induction l as [|s l IH]; intros t t' A B; inversion A; subst; inversion B; subst; try contradiction; auto. f_equal; auto. Qed.
Lemma total_ext (P Q : Src -> Prop) (v w : Src -> R) l : (forall s, In s l -> (P s <-> Q s) /\ v s = w s) -> forall t, total_of P v l t -> total_of Q w l t.
Proof.
  induction l as [|s l IH]; intros X t A; inversion A as [|? ? t' Y T|? ? t' Y T]; subst; [constructor| |].
  - destruct (X s (or_introl eq_refl)) as (PQ & ->). apply to_in; [apply PQ; exact Y|]. apply IH; [intros; apply X; right; auto|exact T].
  - destruct (X s (or_introl eq_refl)) as (PQ & _). apply to_out; [intros Z; apply Y, PQ; exact Z|]. apply IH; [intros; apply X; right; auto|exact T].
Qed.
Lemma covered_dec f x y z s : {covered f x y z s} + {~ covered f x y z s}.
Proof.
  unfold covered. assert (D : {f = t_field (s_tag s)} + {f <> t_field (s_tag s)}) by decide equality. destruct D as [D|D]; [|right; intros (X & _); auto].
  destruct (yee_in_dec f (s_mbbox s) (fun _ => true) x y z) as [Y|Y]; [left; auto|right; intros (_ & X); auto].
Qed.
Lemma on_covered c s f i j k : on_source c s f i j k <-> covered f (i - gibox c XLO) (j - gibox c YLO) (k - gibox c ZLO) s.
Proof. reflexivity. Qed.

Section Sizes.
Variables (c : Cfg) (lines : Axis -> carr R) (de dh : Axis -> Z -> R).
Hypothesis DE : forall a n, 0 <= n <= numLines c a - 2 -> de a (gibox c (face_lo a) + n) = edge lines a n.
Hypothesis DH : forall a n, 0 <= n <= numLines c a - 1 -> dh a (gibox c (face_lo a) + n) = dual c lines a n.
Lemma len_edge s a : in_mesh_box c (s_mbbox s) -> accum (de a) (gbox c s (face_lo a)) (gbox c s (face_hi a) - 1) = len (edge lines) (s_mbbox s) a false.
Proof.
  intros IM. rewrite (proj2 (esum c de dh s a IM)). unfold len, pe. apply sum_ext. intros n Hn. apply DE. specialize (IM a). lia.
Qed.
Lemma len_dual s a : in_mesh_box c (s_mbbox s) -> accum (dh a) (gbox c s (face_lo a)) (gbox c s (face_hi a)) = len (dual c lines) (s_mbbox s) a true.
Proof.
  intros IM. rewrite (proj1 (esum c de dh s a IM)). unfold len, se. apply sum_ext. intros n Hn. apply DH. specialize (IM a). lia.
Qed.
Lemma sizes_of s : in_mesh_box c (s_mbbox s) -> let p := t_pol (s_tag s) in
  elecLength de (gbox c s) p = elecLen lines s /\ magLength dh (gbox c s) p = magnLen c lines s /\
  elecArea dh (gbox c s) p = elecFace c lines s /\ magArea de (gbox c s) p = magnFace lines s.
Proof.
  intros IM p. unfold elecLength, magLength, elecArea, magArea, elecSide, magSide, elecLen, magnLen, elecFace, magnFace. fold p.
  rewrite !(len_edge s), !(len_dual s) by exact IM. assert (N : axis_eqb (nextAxis p) p = false /\ axis_eqb (nextAxis (nextAxis p)) p = false /\ nextAxis p = upA p /\ nextAxis (nextAxis p) = upA (upA p)) by (destruct p; auto).
  destruct N as (N1 & N2 & N3 & N4). rewrite N1, N2, N4, N3. auto.
Qed.
(** what initSources makes of a source *)
Lemma convert_drive s : in_mesh_box c (s_mbbox s) ->
  match t_type (s_tag s) with
  | ST_ELEC_SURF_CURR_DENSITY | ST_MAGN_SURF_CURR_DENSITY => False | ST_THEVENIN_VOLTAGE | ST_NORTON_CURRENT => (1 / 100 < s_resist s)%R | _ => True end ->
  forall A, (snd (fst (convert de dh (gbox c s) s)) * A = impressed c lines s (s_size s * A))%R /\
  snd (convert de dh (gbox c s) s) = (if isLumped (t_type (s_tag s)) then Resistive (elecLen lines s / (elecFace c lines s * s_resist s)) else NoLoad) /\
  fst (fst (convert de dh (gbox c s) s)) =
    (if impresses_field s then (match t_type (s_tag s) with ST_HFIELD => ST_HFIELD | _ => ST_EFIELD end)
     else match t_type (s_tag s) with ST_MAGN_CURR_DENSITY | ST_MAGN_CURRENT | ST_MAGN_CURRENT_MOMENT => ST_MAGN_CURR_DENSITY | _ => ST_ELEC_CURR_DENSITY end).
Proof.
  intros IM OK A. destruct (sizes_of s IM) as (L1 & L2 & L3 & L4). unfold convert, impressed, impresses_field, MIN_RESISTANCE. rewrite L1, L2, L3, L4.
  destruct (t_type (s_tag s)) eqn:T; try contradiction; cbn [fst snd isLumped]; try (destruct (Rlt_dec (1 / 100) (s_resist s)); [|lra]); cbn [fst snd];
  (split; [unfold Rdiv; try ring|split; reflexivity]).
  rewrite (Rmult_assoc (s_resist s)). 
  replace (s_resist s * (s_size s * / elecFace c lines s) * / s_resist s * A)%R with ((s_resist s * / s_resist s) * (s_size s * A * / elecFace c lines s))%R by ring. rewrite Rinv_r by lra. ring.
Qed.
End Sizes.
(** ** Soft sources add up *)
Lemma src_data electric a m l : kind l = None -> run rArith (src electric a) m l = m l.
Proof. intros K. apply run_frame. unfold twrites. rewrite in_map_iff. intros (s & D & I). apply src_kind in I. rewrite D in I. congruence. Qed.
Lemma srcs_data electric acts l : kind l = None -> forall m, run rArith (flat_map (src electric) acts) m l = m l.
Proof. intros K. induction acts as [|a acts IH]; intros m; [reflexivity|]. cbn [flat_map]. rewrite run_app, IH. apply src_data; exact K. Qed.

Section Add.
Variables (c : Cfg) (lines : Axis -> carr R) (de dh : Axis -> Z -> R).
Hypothesis DE : forall a n, 0 <= n <= numLines c a - 2 -> de a (gibox c (face_lo a) + n) = edge lines a n.
Hypothesis DH : forall a n, 0 <= n <= numLines c a - 1 -> dh a (gibox c (face_lo a) + n) = dual c lines a n.
Variables (wfs : list WfItem) (w : Src -> R).
Definition good_src (s : Src) : Prop := accepted_src c wfs s /\ t_soft (s_tag s) = true /\
  match t_type (s_tag s) with ST_ELEC_SURF_CURR_DENSITY | ST_MAGN_SURF_CURR_DENSITY => False | ST_THEVENIN_VOLTAGE | ST_NORTON_CURRENT => (1 / 100 < s_resist s)%R | _ => True end.
Lemma one_src electric s m f i j k : good_src s -> is_E f = electric -> let v := impressed c lines s (s_size s * w s) in
  (on_source c s f i j k -> run rArith (src electric (actOf c de dh s (w s))) m (L (AF f) i j k) =
     (m (L (AF f) i j k) + if impresses_field s then v else - ((if electric then beta m f i j k else gamma m f i j k) * v))%R) /\
  (~ on_source c s f i j k -> run rArith (src electric (actOf c de dh s (w s))) m (L (AF f) i j k) = m (L (AF f) i j k)).
Proof.
  intros (AC & SF & OK) E v. destruct (accepted_src_ok c wfs s AC) as ((IM & _) & (hard & q & p & M & T) & _). destruct (tag_fields hard q p _ M T) as (T1 & T2 & T3 & T4).
  destruct (convert_drive c lines de dh DE DH s IM OK (w s)) as (V & _ & TY). fold v in V.
  pose proof (act_applied c de dh electric s (w s) m (if impresses_field s then DField else DCurrent) v) as X.
  assert (HD : driveOf (fst (fst (convert de dh (gbox c s) s))) = Some (is_E (t_field (s_tag s)), if impresses_field s then DField else DCurrent)).
  { rewrite TY, T3. unfold impresses_field. rewrite T1 in *. destruct q; cbn [typeOf fieldOf magnetic driveOf] in *; try contradiction; destruct p; reflexivity. }
  specialize (X HD (eq_sym V) (L (AF f) i j k)). destruct X as (X1 & X2). split.
  - intros O. rewrite (X1 f i j k eq_refl E O). unfold carried. rewrite SF. destruct (impresses_field s); reflexivity.
  - intros O. apply X2. intros (f' & i' & j' & k' & Q & _ & O'). injection Q as <- <- <- <-. contradiction.
Qed.
Lemma srcs_add electric f i j k : is_E f = electric -> forall l, (forall s, In s l -> good_src s) -> forall J F,
  total_of (fun s => covered f (i - gibox c XLO) (j - gibox c YLO) (k - gibox c ZLO) s /\ impresses_field s = false) (fun s => impressed c lines s (s_size s * w s)) l J ->
  total_of (fun s => covered f (i - gibox c XLO) (j - gibox c YLO) (k - gibox c ZLO) s /\ impresses_field s = true) (fun s => impressed c lines s (s_size s * w s)) l F ->
  forall m, run rArith (flat_map (src electric) (map (fun s => actOf c de dh s (w s)) l)) m (L (AF f) i j k) =
    (m (L (AF f) i j k) + F - (if electric then beta m f i j k else gamma m f i j k) * J)%R.
Proof.
  intros E. induction l as [|s l IH]; intros G J F TJ TF m.
  - inversion TJ; inversion TF; subst. cbn [map flat_map]. change (run rArith [] m) with m. ring.
  - cbn [map flat_map]. rewrite run_app. destruct (one_src electric s m f i j k (G s (or_introl eq_refl)) E) as (A & B).
    assert (KD : beta (run rArith (src electric (actOf c de dh s (w s))) m) f i j k = beta m f i j k /\ gamma (run rArith (src electric (actOf c de dh s (w s))) m) f i j k = gamma m f i j k)
      by (split; apply src_data; reflexivity). destruct KD as (KB & KG).
    rewrite on_covered in A, B. inversion TJ as [|? ? J' (C1 & I1) TJ'|? ? J' N1 TJ']; subst; inversion TF as [|? ? F' (C2 & I2) TF'|? ? F' N2 TF']; subst;
    try congruence; rewrite (IH (fun x I => G x (or_intror I)) _ _ TJ' TF'), KB, KG.
    + rewrite (A C1), I1. ring.
    + rewrite (A C2), I2. ring.
    + rewrite B; [ring|]. intros X. destruct (impresses_field s) eqn:Q; [apply N2|apply N1]; auto.
Qed.
End Add.
(** ** Cell sizes *)
Lemma mesh_sizes nx ny nz reg c lines garbage cn e dt : setupCfg nx ny nz reg = Some c -> has_lines c lines -> increasing c lines -> initCellEdges c lines garbage cn = Some (e, dt) ->
  (forall a n, 0 <= n <= numLines c a - 2 -> adat (eDe (e a)) (gibox c (face_lo a) + n) = edge lines a n /\ (0 < edge lines a n)%R /\ adat (eIde (e a)) (gibox c (face_lo a) + n) = (/ edge lines a n)%R) /\
  (forall a n, 0 <= n <= numLines c a - 1 -> adat (eDh (e a)) (gibox c (face_lo a) + n) = dual c lines a n /\ (0 < dual c lines a n)%R /\ adat (eIdh (e a)) (gibox c (face_lo a) + n) = (/ dual c lines a n)%R).
Proof.
  intros H HL IN HE. pose proof (setup_wf _ _ _ _ _ H) as W. destruct (C23_edge_lengths nx ny nz reg c H lines garbage cn HL) as (e2 & dt2 & E2 & CE). rewrite HE in E2. injection E2 as <- <-.
  assert (RN : forall a, 1 <= gibox c (face_lo a) /\ gibox c (face_hi a) = gibox c (face_lo a) + numLines c a - 1 /\ gibox c (face_hi a) < numCells c a /\ 2 <= numLines c a).
  { intros a. cfg_facts c W. destruct a; cbn [face_lo face_hi] in *; unfold NUM_GHOST_CELLS in *; lia. }
  assert (INV : forall x y : R, (0 < x)%R -> (x * y = 1)%R -> y = (/ x)%R). { intros x y P Q. apply Rmult_eq_reg_l with x; [|lra]. rewrite Q, Rinv_r by lra. reflexivity. }
  assert (D1 : forall a n, -1 <= n <= numLines c a - 1 -> adat (eDe (e a)) (gibox c (face_lo a) + n) = edge lines a (inner c a n)).
  { intros a n Hn. destruct (CE a) as (_ & C1 & C2 & C3 & _). destruct (RN a) as (R1 & R2 & R3 & R4). unfold inner, edge.
    destruct (Z.eq_dec n (-1)) as [->|N1]; [rewrite C2 by lia; f_equal; lia|]. destruct (Z.eq_dec n (numLines c a - 1)) as [->|N2]; [rewrite C3 by lia; f_equal; lia|].
    rewrite C1 by lia. unfold cell. replace (Z.max 0 (Z.min (numLines c a - 2) n)) with n by lia. f_equal; f_equal; lia. }
  split; intros a n Hn; destruct (CE a) as (_ & C1 & C2 & C3 & C4 & C5 & _); destruct (RN a) as (R1 & R2 & R3 & R4); destruct (C5 IN (gibox c (face_lo a) + n)) as (P1 & P2 & P3 & P4); try lia.
  - assert (X : adat (eDe (e a)) (gibox c (face_lo a) + n) = edge lines a n). { rewrite D1 by lia. f_equal. unfold inner. lia. }
    rewrite X in *. split; [reflexivity|]. split; [exact P1|apply INV; assumption].
  - assert (X : adat (eDh (e a)) (gibox c (face_lo a) + n) = dual c lines a n).
    { rewrite C4 by lia. unfold dual. replace (gibox c (face_lo a) + n - 1) with (gibox c (face_lo a) + (n - 1)) by lia. rewrite !D1 by lia. reflexivity. }
    rewrite X in *. split; [reflexivity|]. split; [exact P2|apply INV; assumption].
Qed.

(** ** One time step *)
Section OneStep.
Variables (c : Cfg) (W : wf c) (aE aH : list (Act (V := R))).
Definition xprogE : list (item R) := updateSourcesEfield aE.
Definition xprogH : list (item R) := updateSourcesHfield aH.
Definition next (m : mem R) : mem R := run rArith (flat (Step.timeStep c xprogE xprogH)) m.
Lemma onlyE : forall s, In s (flat xprogE) -> kind (dst s) = Some true.
Proof. intros s. unfold xprogE. rewrite flat_srcE, in_flat_map. intros (a & _ & I). exact (src_kind _ _ _ I). Qed.
Lemma onlyH : forall s, In s (flat xprogH) -> kind (dst s) = Some false.
Proof. intros s. unfold xprogH. rewrite flat_srcH, in_flat_map. intros (a & _ & I). exact (src_kind _ _ _ I). Qed.
Lemma next_data m l : kind l = None -> next m l = m l.
Proof. intros K. exact (stepxx_data rArith c xprogE xprogH onlyE onlyH m l K). Qed.
Lemma next_E m f i j k : is_E f = true -> inl (gfilim c f) i j k ->
  exists m1, m1 (L (AF f) i j k) = (alpha m f i j k * fld m f i j k + beta m f i j k * drive m f (mkPt i j k))%R /\ beta m1 f i j k = beta m f i j k /\
  next m (L (AF f) i j k) = run rArith (flat_map (src true) aE) m1 (L (AF f) i j k).
Proof.
  intros E H. pose proof (grid_lim_outer c f i j k W H) as HO. exists (run rArith (flat (phaseE c)) m). split; [|split].
  - rewrite (phaseE_grid c W m f i j k E H), drive_eval. reflexivity.
  - unfold beta. apply writes_0_frame. apply phaseE_other. cbn. congruence.
  - unfold next, Step.timeStep. rewrite !flat_app, !run_app.
    rewrite writes_0_frame by (apply ghostH_inside; auto).
    rewrite (run_frame rArith (flat xprogH)). 2:{ unfold twrites. rewrite in_map_iff. intros (s & D & I). apply onlyH in I. rewrite D in I. cbn in I. rewrite E in I. congruence. }
    rewrite writes_0_frame by (apply phaseH_other; cbn; congruence). rewrite writes_0_frame by (apply ghostE_inside; auto). unfold xprogE. rewrite flat_srcE. reflexivity.
Qed.
Lemma next_H m f i j k : is_E f = false -> in_meshH c f i j k ->
  exists m1, m1 (L (AF f) i j k) = (fld m f i j k + gamma m f i j k * drive (next m) f (mkPt i j k))%R /\ gamma m1 f i j k = gamma m f i j k /\
  next m (L (AF f) i j k) = run rArith (flat_map (src false) aH) m1 (L (AF f) i j k).
Proof.
  intros E H. pose proof (meshH_outer c W f i j k H) as HO.
  set (m4 := run rArith (flat (updateGhostEfield c)) (run rArith (flat xprogE) (run rArith (flat (phaseE c)) m))).
  assert (SX : forall l, writes l (flat (updateGhostHfield (V := R) c)) = 0%nat -> stepx rArith c xprogE m l = run rArith (flat (phaseH c)) m4 l).
  { intros l Q. unfold stepx, Step.timeStep. cbn [app]. rewrite !flat_app, !run_app. rewrite writes_0_frame by exact Q. reflexivity. }
  exists (run rArith (flat (phaseH c)) m4). split; [|split].
  - rewrite <- SX by (apply ghostH_inside; auto). rewrite (stepx_meshH rArith c W xprogE onlyE m f i j k E H). cbn [rArith vadd vmul]. unfold fld, gamma. do 2 f_equal.
    rewrite drive_eval. rewrite <- !drive_eval. apply eval_ext. intros l Hl. assert (K : kind l <> Some false).
    { destruct (cE_reads c f i j k l E HO Hl) as [->|(g & i' & j' & k' & Eg & -> & _)]; cbn; [congruence|rewrite Eg; congruence]. }
    unfold next, stepx, Step.timeStep. cbn [app]. rewrite !flat_app, !run_app.
    rewrite !(writes_0_frame rArith (flat (updateGhostHfield c))) by (apply ghostH_other; congruence).
    rewrite (run_frame rArith (flat xprogH)). 2:{ unfold twrites. rewrite in_map_iff. intros (s & D & I). apply onlyH in I. rewrite D in I. congruence. }
    reflexivity.
  - unfold gamma. change (run rArith (flat (phaseH c)) m4 (L (AGamma f) i j k)) with (run rArith (flat (phaseH c)) m4 (L (AGamma f) i j k)).
    rewrite <- SX; [|apply ghostH_other; cbn; congruence]. apply (stepx_data rArith c xprogE onlyE). reflexivity.
  - unfold next, Step.timeStep. rewrite !flat_app, !run_app. rewrite writes_0_frame by (apply ghostH_inside; auto).
    unfold m4. unfold xprogH. rewrite flat_srcH. reflexivity.
Qed.
End OneStep.
(** ** Coefficients of the points of the mesh *)
Lemma yee_mesh c incl f x y z : wf c -> (yee_in f (meshAll c) incl x y z <-> yee_in f (gibox c) incl (gibox c XLO + x) (gibox c YLO + y) (gibox c ZLO + z)).
Proof.
  intros W. assert (RN : forall a, gibox c (face_hi a) = gibox c (face_lo a) + numLines c a - 1).
  { intros a. cfg_facts c W. destruct a; cbn [face_lo face_hi] in *; lia. }
  unfold yee_in, meshAll, ypos. split; intros Y a; specialize (Y a); specialize (RN a); cbv zeta in *;
  destruct a; cbn [face_lo face_hi is_lo face_axis SpecGeom.coord] in *; destruct (staggered _ _); destruct Y as (Y1 & Y2 & Y3); (split; [lia|split; intros Q; [specialize (Y2 Q)|specialize (Y3 Q)]; lia]).
Qed.
Lemma mesh_range c f x y z : wf c -> in_mesh c f x y z -> forall a, mesh_lo c a <= SpecGeom.coord (gibox c XLO + x) (gibox c YLO + y) (gibox c ZLO + z) a <= mesh_hi c f a.
Proof.
  intros W Y a. apply (yee_mesh c _ f x y z W) in Y. specialize (Y a). cbv zeta in Y. unfold mesh_lo, mesh_hi, ypos in *. destruct Y as (Y & _). destruct (staggered f a); lia.
Qed.
Lemma mesh_outer c f x y z : wf c -> in_mesh c f x y z -> inl (gfolim c f) (gibox c XLO + x) (gibox c YLO + y) (gibox c ZLO + z).
Proof.
  intros W Y. apply (yee_mesh c _ f x y z W) in Y. apply setFieldLimits_spec in Y. unfold gfolim. revert Y. apply setFieldLimits_mono; intros []; cfg_facts c W; cbn [face_lo face_hi]; lia.
Qed.
Lemma back c x y z : gibox c XLO + x - gibox c XLO = x /\ gibox c YLO + y - gibox c YLO = y /\ gibox c ZLO + z - gibox c ZLO = z.
Proof. lia. Qed.

Section Coefs.
Variables (c : Cfg) (lines : Axis -> carr R) (de dh : Axis -> Z -> R) (dt : R).
Hypothesis DE : forall a n, 0 <= n <= numLines c a - 2 -> de a (gibox c (face_lo a) + n) = edge lines a n.
Hypothesis DH : forall a n, 0 <= n <= numLines c a - 1 -> dh a (gibox c (face_lo a) + n) = dual c lines a n.
Hypothesis PE : forall a n, 0 <= n <= numLines c a - 2 -> (0 < edge lines a n)%R.
Hypothesis PD : forall a n, 0 <= n <= numLines c a - 1 -> (0 < dual c lines a n)%R.
Hypothesis DT : (0 < dt)%R.
Lemma load_sigma s : in_mesh_box c (s_mbbox s) -> ordered (s_mbbox s) -> (1 / 100 < s_resist s)%R -> (0 <= elecLen lines s / (elecFace c lines s * s_resist s))%R.
Proof.
  intros IM OR RS.
  assert (L : (0 <= elecLen lines s)%R).
  { unfold elecLen, len. set (p := t_pol (s_tag s)). pose proof (IM p) as I1. assert (G : forall l, (forall n, In n l -> 0 <= n <= numLines c p - 2) -> (0 <= fold_right Rplus 0 (map (edge lines p) l))%R).
    { induction l as [|n l IH]; intros X; cbn [map fold_right]; [lra|]. pose proof (PE p n (X n (or_introl eq_refl))). pose proof (IH (fun q I => X q (or_intror I))). lra. }
    unfold sum. apply G. intros n Hn. apply in_zrange in Hn. lia. }
  assert (A : forall a, (0 < len (dual c lines) (s_mbbox s) a true)%R).
  { intros a. unfold len. apply sum_pos; [apply OR|]. intros n Hn. apply PD. pose proof (IM a). lia. }
  assert (F : (0 < elecFace c lines s)%R) by (apply Rmult_lt_0_compat; apply A).
  apply Rmult_le_pos; [exact L|]. apply Rlt_le, Rinv_0_lt_compat. apply Rmult_lt_0_compat; lra.
Qed.
Lemma loads_made f i j k : forall l rs mat co m, (forall s, In s l -> in_mesh_box c (s_mbbox s) /\ ordered (s_mbbox s) /\
    match t_type (s_tag s) with ST_ELEC_SURF_CURR_DENSITY | ST_MAGN_SURF_CURR_DENSITY => False | ST_THEVENIN_VOLTAGE | ST_NORTON_CURRENT => (1 / 100 < s_resist s)%R | _ => True end) ->
  let P := made_of f (i - gibox c XLO) (j - gibox c YLO) (k - gibox c ZLO) in
  P rs mat -> law dt mat co -> getc m f i j k = cval co f ->
  exists mat' co', P (rs ++ flat_map (loadRegion c lines) l) mat' /\ law dt mat' co' /\
  getc (run rArith (flat_map (fun s => let g := offsetBoundingBox (s_mbbox s) (gibox c) in let '(_, _, ld) := convert de dh g s in loadProg eps0 mu0 dt g ld) l) m) f i j k = cval co' f.
Proof.
  induction l as [|s l IH]; intros rs mat co m G P MO LA GC.
  - exists mat, co. cbn [flat_map]. rewrite app_nil_r. auto.
  - cbn [flat_map]. rewrite run_app. destruct (G s (or_introl eq_refl)) as (IM & OR & OK). specialize (IH (rs ++ loadRegion c lines s)%list).
    rewrite <- app_assoc in IH. cbv zeta. fold (gbox c s). destruct (convert_drive c lines de dh DE DH s IM OK 0) as (_ & LD & _).
    destruct (convert de dh (gbox c s) s) as [[ty sz] ld]. cbn [snd] in LD. subst ld.
    assert (NE : exists mat1 co1, P (rs ++ loadRegion c lines s)%list mat1 /\ law dt mat1 co1 /\
       getc (run rArith (loadProg eps0 mu0 dt (gbox c s) (if isLumped (t_type (s_tag s)) then Resistive (elecLen lines s / (elecFace c lines s * s_resist s)) else NoLoad)) m) f i j k = cval co1 f).
    { unfold loadRegion. destruct (isLumped (t_type (s_tag s))) eqn:LU; cbn [loadProg].
      - assert (RS : (1 / 100 < s_resist s)%R) by (destruct (t_type (s_tag s)); try discriminate LU; exact OK). pose proof (load_sigma s IM OR RS) as SG.
        set (sg := (elecLen lines s / (elecFace c lines s * s_resist s))%R) in *.
        destruct (setMedium_getc rArith (fun _ => calcCoeffFromParam eps0 mu0 dt (mkMP MT_SIMPLE 1 sg 1 [])) (gbox c s) 2 FACE_MASK_ALL m f i j k) as (S1 & S2).
        assert (YI : yee_in f (gbox c s) (faceMask2boolArray FACE_MASK_ALL) i j k <-> yee_in f (s_mbbox s) (fun _ => true) (i - gibox c XLO) (j - gibox c YLO) (k - gibox c ZLO)).
        { unfold gbox. rewrite yee_in_offset. apply yee_in_ext; [reflexivity|]. intros []; reflexivity. }
        destruct (yee_in_dec f (s_mbbox s) (fun _ => true) (i - gibox c XLO) (j - gibox c YLO) (k - gibox c ZLO)) as [Y|Y].
        + exists (Simple 1 sg 1), (calcCoeffFromParam eps0 mu0 dt (mkMP MT_SIMPLE 1 sg 1 [])). split; [|split].
          * apply (mo_in f _ _ _ rs (mkRegion (s_mbbox s) (fun _ => true) (Simple 1 sg 1))). exact Y.
          * apply (simple_law dt (mkMP MT_SIMPLE 1 sg 1 [])); [exact DT| |reflexivity]. unfold paramOk. cbn [m_eps m_sigma m_mu]. lra.
          * apply S1, YI, Y.
        + exists mat, co. split; [|split; [exact LA|]].
          * apply (mo_out f _ _ _ rs (mkRegion (s_mbbox s) (fun _ => true) (Simple 1 sg 1))); assumption.
          * rewrite S2; [exact GC|]. rewrite YI. exact Y.
      - exists mat, co. rewrite app_nil_r. auto. }
    destruct NE as (mat1 & co1 & M1 & L1 & G1). exact (IH mat1 co1 _ (fun x I => G x (or_intror I)) M1 L1 G1).
Qed.
End Coefs.
(** ** The curls in mesh coordinates *)
Definition fieldE (c : Cfg) (m : mem R) : Vec := fun a x y z => fld m (Eat a) (gibox c XLO + x) (gibox c YLO + y) (gibox c ZLO + z).
Definition fieldH (c : Cfg) (m : mem R) : Vec := fun a x y z => fld m (Hat a) (gibox c XLO + x) (gibox c YLO + y) (gibox c ZLO + z).
Lemma rot_E c lines m a x y z : (forall b n, 0 <= n <= numLines c b - 1 -> idh m b (gibox c (face_lo b) + n) = (/ dual c lines b n)%R) -> in_mesh c (Eat a) x y z ->
  drive m (Eat a) (mkPt (gibox c XLO + x) (gibox c YLO + y) (gibox c ZLO + z)) = rotH c lines (fieldH c m) a x y z.
Proof.
  intros IH Y. pose proof (Y (upA a)) as Y1. pose proof (Y (upA (upA a))) as Y2. cbv zeta in Y1, Y2. destruct Y1 as (Y1 & _). destruct Y2 as (Y2 & _). unfold meshAll, ypos in Y1, Y2.
  unfold drive, rotH, curlH, shift, fieldH, val, SpecYee.move. 
  destruct a; cbn [Eat Hat upA succA Ealong Halong is_E fld_axis crd ptx pty ptz staggered axis_eqb negb SpecGeom.coord face_lo face_hi is_lo face_axis] in *;
  rewrite <- !Z.add_assoc; unfold Rdiv;
  pose proof (IH XDIR x) as QX; pose proof (IH YDIR y) as QY; pose proof (IH ZDIR z) as QZ; cbn [face_lo] in QX, QY, QZ;
  try rewrite QX by lia; try rewrite QY by lia; try rewrite QZ by lia; reflexivity.
Qed.
Lemma rot_H c lines m a x y z : (forall b n, 0 <= n <= numLines c b - 2 -> ide m b (gibox c (face_lo b) + n) = (/ edge lines b n)%R) -> in_mesh c (Hat a) x y z ->
  drive m (Hat a) (mkPt (gibox c XLO + x) (gibox c YLO + y) (gibox c ZLO + z)) = (- rotE lines (fieldE c m) a x y z)%R.
Proof.
  intros IH Y. pose proof (Y (upA a)) as Y1. pose proof (Y (upA (upA a))) as Y2. cbv zeta in Y1, Y2. destruct Y1 as (Y1 & _). destruct Y2 as (Y2 & _). unfold meshAll, ypos in Y1, Y2.
  unfold drive, rotE, curlE, shift, fieldE, val, SpecYee.move. 
  destruct a; cbn [Eat Hat upA succA Ealong Halong is_E fld_axis crd ptx pty ptz staggered axis_eqb negb SpecGeom.coord face_lo face_hi is_lo face_axis] in *;
  rewrite <- !Z.add_assoc; unfold Rdiv;
  pose proof (IH XDIR x) as QX; pose proof (IH YDIR y) as QY; pose proof (IH ZDIR z) as QZ; cbn [face_lo] in QX, QY, QZ;
  try rewrite QX by lia; try rewrite QY by lia; try rewrite QZ by lia; reflexivity.
Qed.
Lemma steps_snoc c (xE xH : nat -> list (item R)) : forall n t m,
  run rArith (flat (steps c xE xH t (Datatypes.S n))) m = run rArith (flat (Step.timeStep c (xE (t + n)%nat) (xH (t + n)%nat))) (run rArith (flat (steps c xE xH t n)) m).
Proof.
  induction n as [|n IH]; intros t m.
  - cbn [steps]. rewrite app_nil_r, Nat.add_0_r. reflexivity.
  - change (steps c xE xH t (Datatypes.S (Datatypes.S n))) with (Step.timeStep c (xE t) (xH t) ++ steps c xE xH (Datatypes.S t) (Datatypes.S n)).
    change (steps c xE xH t (Datatypes.S n)) with (Step.timeStep c (xE t) (xH t) ++ steps c xE xH (Datatypes.S t) n).
    rewrite !flat_app, !run_app, IH. replace (Datatypes.S t + n)%nat with (t + Datatypes.S n)%nat by lia. reflexivity.
Qed.
Lemma plain_prog c h rcm ep ts de dh : plain_media h -> no_sheets h -> g_blocks (progOf c h rcm ep ts de dh) = [] /\ g_sheets (progOf c h rcm ep ts de dh) = [].
Proof.
  intros PM NS. split.
  - cbn [progOf g_blocks]. unfold initDebyeBlocks. induction (h_blocks h) as [|b bs IH]; [reflexivity|]. cbn [flat_map]. rewrite IH.
    assert (M : fst (medOf h (medium_b b)) <> MT_DEBYE). { unfold medOf. destruct (nth_error (h_media h) (medium_b b)) as [it|] eqn:N; [exact (PM _ _ N)|discriminate]. }
    destruct (medOf h (medium_b b)) as [[] ps]; cbn [fst] in M; try reflexivity. congruence.
  - cbn [progOf g_sheets]. assert (Q : sheetsOf c h rcm = []); [|rewrite Q; reflexivity]. unfold sheetsOf. unfold no_sheets in NS. induction (h_surfs h) as [|[sf a] l IH]; [reflexivity|].
    cbn [flat_map]. rewrite IH by (intros; apply NS; right; auto). specialize (NS (sf, a) (or_introl eq_refl)). cbn [fst] in NS. destruct (boundOf h (boundary_s sf)); try reflexivity. congruence.
Qed.

(** ** An accepted file *)
Section File.
Variables (df : string -> option DebyeFile) (file : list Z) (st : MState) (h : MeshData) (cards : list Card) (c : Cfg).
Hypothesis RD : readMeshFile df file = Acc (st, h, cards).
Hypothesis CF : cfgFor h = Some c.
Hypothesis WD : wide c.
Hypothesis PM : plain_media h.
Hypothesis NS : no_sheets h.
Hypothesis SS : soft_sources h.
Hypothesis OC : one_conductor h.
Hypothesis SO : sources_ok h.
Variables (lines : Axis -> carr R) (cn : R) (garbage : Z -> R) (e : Axis -> Edges) (dt : R).
Hypothesis HM : forall a, h_mesh h a = Some (lines a).
Hypothesis IN : increasing c lines.
Hypothesis CN : courantOf (h_cn h) = Some cn.
Hypothesis PC : (0 < cn)%R.
Hypothesis HE : initCellEdges c lines garbage cn = Some (e, dt).
Let de := fun a n => adat (eDe (e a)) n.
Let dh := fun a n => adat (eDh (e a)) n.

Lemma file_wf : wf c.
Proof. pose proof CF as C. unfold cfgFor in C. exact (setup_wf _ _ _ _ _ C). Qed.
Lemma file_lines : has_lines c lines.
Proof.
  pose proof CF as C'. unfold cfgFor in C'. destruct (read_inv2 _ _ _ _ _ RD) as [_ GM I3 _ _ _ _]. destruct (read_inv _ _ _ _ _ RD) as [_ D _ _ _ _ _].
  intros a. rewrite (I3 a _ (HM a)). destruct D as [D|D]; [rewrite !D in C'; discriminate C'|].
  unfold setupCfg in C'. rewrite D in C'. destruct (initExternalSurfaceParameters _) as [[reg' num]|]; [|discriminate]. injection C' as <-. reflexivity.
Qed.
Lemma file_dt : (0 < dt)%R.
Proof.
  pose proof CF as C'. unfold cfgFor in C'. destruct (C22_courant_partial _ _ _ _ c C' lines garbage (h_cn h) cn file_lines IN CN PC) as (e2 & dt2 & E2 & D2 & _).
  rewrite HE in E2. injection E2 as _ <-. exact D2.
Qed.
Lemma file_sizes : (forall a n, 0 <= n <= numLines c a - 2 -> de a (gibox c (face_lo a) + n) = edge lines a n /\ (0 < edge lines a n)%R /\ adat (eIde (e a)) (gibox c (face_lo a) + n) = (/ edge lines a n)%R) /\
  (forall a n, 0 <= n <= numLines c a - 1 -> dh a (gibox c (face_lo a) + n) = dual c lines a n /\ (0 < dual c lines a n)%R /\ adat (eIdh (e a)) (gibox c (face_lo a) + n) = (/ dual c lines a n)%R).
Proof. pose proof CF as C'. unfold cfgFor in C'. exact (mesh_sizes _ _ _ _ c lines garbage cn e dt C' file_lines IN HE). Qed.
Lemma file_src s : In s (h_srcs h) -> good_src c (h_wfs h) s.
Proof.
  intros IS. pose proof (cfg_box _ _ _ _ _ _ RD CF) as MB. destruct (read_inv _ _ _ _ _ RD) as [_ _ I _ _ _ _]. pose proof (io_src _ I) as A. unfold ok_src in A. rewrite <- MB in A. rewrite Forall_forall in A.
  split; [|split].
  - destruct (A s IS) as (w0 & r & l & name & ty & wf & args & W & P). exists l, name, ty, wf, args. rewrite W. apply parseEX_mono. exact P.
  - apply SS. exact IS.
  - destruct (SO s IS) as (_ & Q). destruct (t_type (s_tag s)); tauto.
Qed.
Lemma point_coefs m m0 f x y z : (forall l, coefficient l -> m l = run rArith (coefProg c h eps0 mu0 dt de dh) m0 l) -> in_mesh c f x y z ->
  exists mat co, made_of f x y z (regions c h lines) mat /\ law dt mat co /\ getc m f (gibox c XLO + x) (gibox c YLO + y) (gibox c ZLO + z) = cval co f.
Proof.
  intros MC Y. pose proof file_wf as W. pose proof (read_scene _ _ _ _ _ _ RD CF) as SC. pose proof (read_srcs _ _ _ _ _ _ RD CF) as RS. destruct (read_inv2 _ _ _ _ _ RD) as [_ GM I3 _ _ _ _].
  pose proof CF as C'. unfold cfgFor in C'. pose proof (mesh_range c f x y z W Y) as MR. pose proof (mesh_outer c f x y z W Y) as MO. destruct file_sizes as (S1 & S2).
  destruct (back c x y z) as (B1 & B2 & B3).
  set (i := gibox c XLO + x) in *. set (j := gibox c YLO + y) in *. set (k := gibox c ZLO + z) in *.
  assert (NX : nearest c f XDIR i = i /\ nearest c f YDIR j = j /\ nearest c f ZDIR k = k).
  { pose proof (MR XDIR). pose proof (MR YDIR). pose proof (MR ZDIR). cbn [SpecGeom.coord] in *. unfold nearest. lia. }
  destruct (continued_scene _ _ _ _ c C' WD (sceneOf h) SC R rArith (initMedia eps0 mu0 dt (h_media h)) (wireOf h) (boundOf h) m0 f i j k MO
     (or_introl (MR XDIR)) (or_introl (MR YDIR)) (or_introl (MR ZDIR)) (fun a => or_intror (proj1 (MR a)))) as (r & LP & CV).
  cbv zeta in LP, CV. destruct NX as (N1 & N2 & N3). rewrite N1, N2, N3, B1, B2, B3 in LP. set (n := match r with Some n => n | None => 0%nat end) in *.
  pose proof (paint_made h f x y z _ r LP) as PMD. fold n in PMD. pose proof (media_law h dt n file_dt GM PM OC) as ML.
  destruct (loads_made c lines de dh dt (fun a q Hq => proj1 (S1 a q Hq)) (fun a q Hq => proj1 (S2 a q Hq)) (fun a q Hq => proj1 (proj2 (S1 a q Hq))) (fun a q Hq => proj1 (proj2 (S2 a q Hq))) file_dt
     f i j k (h_srcs h) (map (fun p => mkRegion (p_box p) (p_incl p) (materialOf h (p_medium p))) (paints c (wireOf h) (boundOf h) (sceneOf h))) (materialOf h n) (initMedia eps0 mu0 dt (h_media h) n)
     (run rArith (mediaProgPml (initMedia eps0 mu0 dt (h_media h)) c (wireOf h) (boundOf h) (sceneOf h)) m0)) as (mat & co & A1 & A2 & A3).
  - intros s IS. split; [apply (RS s IS)|]. destruct (SO s IS) as (Q1 & Q2). split; [exact Q1|]. destruct (t_type (s_tag s)); tauto.
  - rewrite B1, B2, B3. exact PMD.
  - exact ML.
  - unfold getc, cval. destruct (is_E f); [destruct CV as (-> & ->)|rewrite CV]; reflexivity.
  - exists mat, co. split; [|split; [exact A2|]].
    + rewrite B1, B2, B3 in A1. exact A1.
    + rewrite <- A3. unfold getc. rewrite !MC by exact Logic.I. unfold coefProg. rewrite run_app. reflexivity.
Qed.

Section Hist.
Variables (rcm : nat -> I4 -> I4 -> Filter.RecConv) (ep ts : R) (d : Drv) (s : WState).
Hypothesis SU : set_up c h e dt (w_m s).
Hypothesis QU : quiet (w_m s).
Let M := fun n => w_m (wrun c (progOf c h rcm ep ts de dh) d 0 n s).
Let aE := fun n => map (fun x => actOf c de dh x (d_wE d n x)) (h_srcs h).
Let aH := fun n => map (fun x => actOf c de dh x (d_wH d n x)) (h_srcs h).
Lemma hist_next n : M (Datatypes.S n) = next c (aE n) (aH n) (M n).
Proof.
  destruct (plain_prog c h rcm ep ts de dh PM NS) as (B0 & S0). destruct SS as (NP & _). unfold M. rewrite !(C64_plain_run c _ d B0 S0).
  rewrite steps_snoc. unfold next. do 2 f_equal. cbn [progOf g_de g_dh g_srcs g_pws]. rewrite NP. unfold exciteE, exciteH. cbn [flat_map Nat.add]. rewrite !app_nil_r. reflexivity.
Qed.
Lemma hist_data n l : kind l = None -> M n l = w_m s l.
Proof. intros K. induction n as [|n IH]; [reflexivity|]. rewrite hist_next, next_data by exact K. exact IH. Qed.
Lemma hist_coefs n f x y z : in_mesh c f x y z ->
  exists mat co, made_of f x y z (regions c h lines) mat /\ law dt mat co /\ getc (M n) f (gibox c XLO + x) (gibox c YLO + y) (gibox c ZLO + z) = cval co f.
Proof.
  intros Y. destruct SU as (_ & m0 & MC). destruct (point_coefs (w_m s) m0 f x y z MC Y) as (mat & co & A & B & G). exists mat, co. split; [exact A|]. split; [exact B|].
  rewrite <- G. unfold getc. rewrite !hist_data by reflexivity. reflexivity.
Qed.
Lemma hist_ide n b q : 0 <= q <= numLines c b - 2 -> ide (M n) b (gibox c (face_lo b) + q) = (/ edge lines b q)%R.
Proof.
  intros Hq. destruct SU as (ED & _). assert (R : 0 <= gibox c (face_lo b) + q < numCells c b). { pose proof file_wf as W. cfg_facts c W. destruct b; cbn [face_lo face_hi] in *; unfold NUM_GHOST_CELLS in *; lia. }
  destruct (ED b _ R) as (_ & X & _). destruct file_sizes as (S1 & _). rewrite <- (proj2 (proj2 (S1 b q Hq))), <- X. unfold ide. apply hist_data. reflexivity.
Qed.
Lemma hist_idh n b q : 0 <= q <= numLines c b - 1 -> idh (M n) b (gibox c (face_lo b) + q) = (/ dual c lines b q)%R.
Proof.
  intros Hq. destruct SU as (ED & _). assert (R : 0 <= gibox c (face_lo b) + q < numCells c b). { pose proof file_wf as W. cfg_facts c W. destruct b; cbn [face_lo face_hi] in *; unfold NUM_GHOST_CELLS in *; lia. }
  destruct (ED b _ R) as (_ & _ & _ & X). destruct file_sizes as (_ & S2). rewrite <- (proj2 (proj2 (S2 b q Hq))), <- X. unfold idh. apply hist_data. reflexivity.
Qed.
(** one step at a point of the mesh off the MUR walls *)
Lemma mur_mesh f x y z : off_mur_walls c f x y z -> in_mesh c f x y z /\ inl (gfilim c f) (gibox c XLO + x) (gibox c YLO + y) (gibox c ZLO + z).
Proof.
  intros Y. split.
  - unfold in_mesh. unfold off_mur_walls in Y. intros a. specialize (Y a). cbv zeta in *. split; [tauto|split; discriminate].
  - apply setFieldLimits_spec. apply (yee_mesh c _ f x y z file_wf). exact Y.
Qed.
Lemma hist_E n a x y z J F : off_mur_walls c (Eat a) x y z -> drives c h lines (d_wE d n) (Eat a) x y z J F -> exists mat co, made_of (Eat a) x y z (regions c h lines) mat /\ law dt mat co /\
  (fieldE c (M (Datatypes.S n)) a x y z - F = calpha co * fieldE c (M n) a x y z + cbeta co * (rotH c lines (fieldH c (M n)) a x y z - J))%R.
Proof.
  intros Y (TJ & TF). destruct (mur_mesh _ _ _ _ Y) as (YM & GL). assert (Ea : is_E (Eat a) = true) by (destruct a; reflexivity). destruct (hist_coefs n (Eat a) x y z YM) as (mat & co & A & B & G).
  exists mat, co. split; [exact A|]. split; [exact B|]. unfold getc, cval in G. rewrite Ea in G. pose proof (f_equal fst G) as GA. pose proof (f_equal snd G) as GB. cbn [fst snd] in GA, GB.
  unfold fieldE at 1, fld at 1. rewrite hist_next. destruct (next_E c file_wf (aE n) (aH n) (M n) (Eat a) _ _ _ Ea GL) as (m1 & V1 & B1 & ->).
  destruct (back c x y z) as (b1 & b2 & b3). destruct file_sizes as (S1 & S2). unfold aE.
  rewrite (srcs_add c lines de dh (fun b q Hq => proj1 (S1 b q Hq)) (fun b q Hq => proj1 (S2 b q Hq)) (h_wfs h) (d_wE d n) true (Eat a) _ _ _ Ea (h_srcs h) file_src J F); [|rewrite b1, b2, b3; exact TJ|rewrite b1, b2, b3; exact TF].
  rewrite V1, B1. unfold alpha, beta. rewrite GA, GB. rewrite (rot_E c lines (M n) a x y z (hist_idh n) YM). unfold fieldE. ring.
Qed.
Lemma hist_H n a x y z J F : in_mesh c (Hat a) x y z -> drives c h lines (d_wH d n) (Hat a) x y z J F -> exists mat co, made_of (Hat a) x y z (regions c h lines) mat /\ law dt mat co /\
  (fieldH c (M (Datatypes.S n)) a x y z - F = fieldH c (M n) a x y z + cgamma co * (- rotE lines (fieldE c (M (Datatypes.S n))) a x y z - J))%R.
Proof.
  intros YM (TJ & TF). assert (Ea : is_E (Hat a) = false) by (destruct a; reflexivity). destruct (hist_coefs n (Hat a) x y z YM) as (mat & co & A & B & G).
  assert (GL : in_meshH c (Hat a) (gibox c XLO + x) (gibox c YLO + y) (gibox c ZLO + z)) by (apply setFieldLimits_spec; apply (yee_mesh c _ (Hat a) x y z file_wf); exact YM).
  exists mat, co. split; [exact A|]. split; [exact B|]. unfold getc, cval in G. rewrite Ea in G. pose proof (f_equal fst G) as GA. cbn [fst snd] in GA.
  unfold fieldH at 1, fld at 1. destruct (next_H c file_wf (aE n) (aH n) (M n) (Hat a) _ _ _ Ea GL) as (m1 & V1 & B1 & V2). rewrite <- (hist_next n) in V1, V2. rewrite V2.
  destruct (back c x y z) as (b1 & b2 & b3). destruct file_sizes as (S1 & S2). unfold aH.
  rewrite (srcs_add c lines de dh (fun b q Hq => proj1 (S1 b q Hq)) (fun b q Hq => proj1 (S2 b q Hq)) (h_wfs h) (d_wH d n) false (Hat a) _ _ _ Ea (h_srcs h) file_src J F); [|rewrite b1, b2, b3; exact TJ|rewrite b1, b2, b3; exact TF].
  rewrite V1, B1. unfold gamma. rewrite GA. rewrite (rot_H c lines (M (Datatypes.S n)) a x y z (hist_ide (Datatypes.S n)) YM). unfold fieldH. ring.
Qed.
Lemma drives_ex w f x y z : exists J F, drives c h lines w f x y z J F.
Proof.
  unfold drives.
  destruct (total_ex (fun q => covered f x y z q /\ impresses_field q = false) (fun q => impressed c lines q (s_size q * w q))) with (l := h_srcs h) as (J & TJ).
  { intros q. destruct (covered_dec f x y z q), (impresses_field q); try (right; intros (X1 & X2); (discriminate X2 || contradiction)). left; auto. }
  destruct (total_ex (fun q => covered f x y z q /\ impresses_field q = true) (fun q => impressed c lines q (s_size q * w q))) with (l := h_srcs h) as (F & TF).
  { intros q. destruct (covered_dec f x y z q), (impresses_field q); try (right; intros (X1 & X2); (discriminate X2 || contradiction)). left; auto. }
  exists J, F. auto.
Qed.
Lemma total_none (P : Src -> Prop) v l : (forall q, In q l -> ~ P q) -> forall t, total_of P v l t -> t = 0%R.
Proof. induction l as [|q l IH]; intros N t T; inversion T; subst; [reflexivity|exfalso; apply (N q (or_introl eq_refl)); assumption|apply IH; auto; intros; apply N; right; auto]. Qed.
Lemma hist_maxwell : maxwell c h lines dt (d_wE d) (d_wH d) (fun n => fieldE c (M n)) (fun n => fieldH c (M n)).
Proof.
  constructor.
  - intros a x y z. split; intros _; apply QU; unfold is_state; cbn [kind arr]; destruct a; discriminate.
  - intros n a x y z Y MO NF. induction n as [|n IH].
    + apply QU; unfold is_state; cbn [kind arr]; destruct a; discriminate.
    + destruct (drives_ex (d_wE d n) (Eat a) x y z) as (J & F & D). destruct (hist_E n a x y z J F Y D) as (mat & co & A & B & G).
      rewrite (made_fun _ _ _ _ _ _ _ A MO) in B. cbn [law] in B. destruct B as (B & _). rewrite B, IH in G.
      assert (F0 : F = 0%R). { destruct D as (_ & TF). apply (total_none _ _ _ (fun q I => ltac:(intros (X1 & X2); exact (NF q I X2 X1)) : ~ (covered (Eat a) x y z q /\ impresses_field q = true)) _ TF). }
      rewrite F0 in G. transitivity (fieldE c (M (Datatypes.S n)) a x y z - 0)%R; [ring|]. rewrite G. ring.
  - intros n a x y z eps sigma mu J F Y MO D.
    assert (YM : off_mur_walls c (Eat a) x y z). { intros q. specialize (Y q). cbv zeta in *. destruct Y as (Y1 & Y2 & Y3). split; [lia|]. split; intros _; [apply Y2|apply Y3]; reflexivity. }
    destruct (hist_E n a x y z J F YM D) as (mat & co & A & B & G). rewrite (made_fun _ _ _ _ _ _ _ A MO) in B. destruct B as (_ & B & _). rewrite G. apply B.
  - intros n a x y z mat0 J F Y MO D. destruct (hist_H n a x y z J F Y D) as (mat & co & A & B & G). rewrite (made_fun _ _ _ _ _ _ _ A MO) in B. rewrite G.
    destruct mat0; cbn [law] in B; [|apply B]. destruct B as (_ & ->). unfold faraday. destruct eps0_mu0 as (_ & M0 & _). pose proof file_dt. field. lra.
Qed.
End Hist.

(** ** Uniqueness in a conducting box *)
Section Unique.
Hypothesis PEC : forall f, outerSurfaceType c f = BT_PEC.
Hypothesis LI : loads_inside h.
Lemma made_out f x y z rs rs' mat : made_of f x y z rs mat -> (forall r, In r rs' -> ~ yee_in f (g_box r) (g_incl r) x y z) -> made_of f x y z (rs ++ rs') mat.
Proof.
  intros MO. induction rs' as [|r rs' IH] using rev_ind; intros N; [rewrite app_nil_r; exact MO|]. rewrite app_assoc. apply mo_out.
  - apply N. apply in_or_app. right. left. reflexivity.
  - apply IH. intros q I. apply N. apply in_or_app. auto.
Qed.
Lemma wall_metal a b x y z : in_mesh c (Eat a) x y z -> b <> a -> (SpecGeom.coord x y z b = 0 \/ SpecGeom.coord x y z b = numLines c b - 1) -> made_of (Eat a) x y z (regions c h lines) Metal.
Proof.
  intros Y BA CW. pose proof file_wf as W. assert (NL : forall f, outerSurfaceNumLayers c f = 0%Z) by (intros g; apply (wf_nopml c W); rewrite PEC; discriminate).
  assert (GG : forall f, gibox c f = gobox c f) by (intros; apply gibox_gobox; auto).
  pose proof (mesh_outer c (Eat a) x y z W Y) as MO. destruct (back c x y z) as (B1 & B2 & B3). unfold regions. apply made_out.
  - set (face := if SpecGeom.coord x y z b =? 0 then face_lo b else face_hi b).
    assert (OF : on_face c face (Eat a) (gibox c XLO + x) (gibox c YLO + y) (gibox c ZLO + z)).
    { unfold on_face, face. split; [destruct a; reflexivity|]. assert (FA : forall b, face_axis (face_lo b) = b /\ face_axis (face_hi b) = b) by (intros []; auto). destruct (FA b) as (F1 & F2).
      assert (AX : fld_axis (Eat a) = a) by (destruct a; reflexivity). assert (HI : gibox c (face_hi b) = gibox c (face_lo b) + numLines c b - 1).
      { cfg_facts c W. destruct b; cbn [face_lo face_hi] in *; lia. }
      destruct (Z.eqb_spec (SpecGeom.coord x y z b) 0) as [Q|Q]; rewrite ?F1, ?F2, AX; (split; [congruence|]); rewrite <- GG; destruct b; cbn [SpecGeom.coord face_lo face_hi] in *; lia. }
    pose proof (wall_painted c (wireOf h) (boundOf h) (sceneOf h) face (Eat a) _ _ _ W (or_introl (PEC face)) OF MO) as LP. rewrite B1, B2, B3 in LP.
    exact (paint_made h _ _ _ _ _ _ LP).
  - intros r IR YB. apply in_flat_map in IR. destruct IR as (s & IS & IR). unfold loadRegion in IR. destruct (isLumped (t_type (s_tag s))) eqn:LU; [|destruct IR]. destruct IR as [<-|[]]. cbn [g_box g_incl] in YB.
    destruct (read_srcs _ _ _ _ _ _ RD CF s IS) as (IM & BT). destruct (line_box _ (BT LU)) as (q & DD & ND). pose proof (LI s IS LU b) as IL. pose proof (cfg_box _ _ _ _ _ _ RD CF) as MB. rewrite <- MB in IL.
    assert (EA : staggered (Eat a) a = true /\ staggered (Eat a) b = false) by (destruct a, b; auto; congruence). destruct EA as (E1 & E2).
    pose proof (YB a) as Ya. pose proof (YB b) as Yb. cbv zeta in Ya, Yb. destruct Ya as (Ya & _). destruct Yb as (Yb & _). unfold ypos in Ya, Yb. rewrite E1 in Ya. rewrite E2 in Yb.
    assert (QA : q = a). { destruct (axis_eqb q a) eqn:Q; [destruct q, a; try discriminate Q; reflexivity|]. assert (a <> q) as N by (intros <-; destruct a; discriminate Q). specialize (DD _ N). lia. }
    subst q. pose proof (DD _ BA) as EQ. specialize (IL EQ). unfold meshBox in IL. pose proof (IM b). destruct b; cbn [SpecGeom.coord face_lo face_hi is_lo face_axis] in *; lia.
Qed.
Lemma edge_cases a x y z : in_mesh c (Eat a) x y z -> interior c (Eat a) x y z \/ made_of (Eat a) x y z (regions c h lines) Metal.
Proof.
  intros Y. destruct (yee_in_dec (Eat a) (meshAll c) (fun _ => false) x y z) as [I|N]; [left; exact I|right].
  assert (X : exists b, b <> a /\ (SpecGeom.coord x y z b = 0 \/ SpecGeom.coord x y z b = numLines c b - 1)).
  { assert (D : forall b, (b <> a /\ (SpecGeom.coord x y z b = 0 \/ SpecGeom.coord x y z b = numLines c b - 1)) \/ ~ (b <> a /\ (SpecGeom.coord x y z b = 0 \/ SpecGeom.coord x y z b = numLines c b - 1))).
    { intros b. assert (BA : b = a \/ b <> a) by (destruct a, b; first [left; reflexivity|right; discriminate]). destruct (Z.eq_dec (SpecGeom.coord x y z b) 0), (Z.eq_dec (SpecGeom.coord x y z b) (numLines c b - 1)), BA; tauto. }
    destruct (D XDIR) as [A|A]; [eauto|]. destruct (D YDIR) as [B|B]; [eauto|]. destruct (D ZDIR) as [G|G]; [eauto|]. exfalso. apply N. intros b. specialize (Y b). cbv zeta in *. unfold meshAll, ypos in *.
    destruct Y as (Y & _). split; [exact Y|]. clear N D. destruct a, b; cbn [Eat staggered is_E fld_axis axis_eqb negb SpecGeom.coord face_lo face_hi is_lo face_axis] in *; split; intros _; try lia;
    first [assert (x <> 0 /\ x <> numLines c XDIR - 1) by (split; intros ?; apply A; (split; [discriminate|auto])); lia
          |assert (y <> 0 /\ y <> numLines c YDIR - 1) by (split; intros ?; apply B; (split; [discriminate|auto])); lia
          |assert (z <> 0 /\ z <> numLines c ZDIR - 1) by (split; intros ?; apply G; (split; [discriminate|auto])); lia]. }
  destruct X as (b & BA & CW). exact (wall_metal a b x y z Y BA CW).
Qed.
Lemma simple_bounds f x y z ep sg mu : in_mesh c f x y z -> made_of f x y z (regions c h lines) (Simple ep sg mu) -> (1 <= ep /\ 0 <= sg /\ 1 <= mu)%R.
Proof.
  intros Y MO. destruct (point_coefs (run rArith (coefProg c h eps0 mu0 dt de dh) (fun _ => 0%R)) (fun _ => 0%R) f x y z (fun l _ => eq_refl) Y) as (mat & co & A & B & _).
  rewrite (made_fun _ _ _ _ _ _ _ A MO) in B. apply B.
Qed.
Lemma rotH_mesh (H1 H2 : Vec) a x y z : interior c (Eat a) x y z -> (forall b x y z, in_mesh c (Hat b) x y z -> H1 b x y z = H2 b x y z) -> rotH c lines H1 a x y z = rotH c lines H2 a x y z.
Proof.
  intros I EQ. pose proof (I XDIR) as IX. pose proof (I YDIR) as IY. pose proof (I ZDIR) as IZ. cbv zeta in IX, IY, IZ. unfold meshAll, ypos in IX, IY, IZ.
  destruct IX as (X1 & X2 & X3), IY as (Y1 & Y2 & Y3), IZ as (Z1 & Z2 & Z3). specialize (X2 eq_refl). specialize (X3 eq_refl). specialize (Y2 eq_refl). specialize (Y3 eq_refl). specialize (Z2 eq_refl). specialize (Z3 eq_refl).
  unfold rotH, shift. destruct a; cbn [Eat upA staggered is_E fld_axis axis_eqb negb SpecGeom.coord face_lo face_hi is_lo face_axis] in *;
  rewrite !EQ; try reflexivity; intros q; unfold meshAll, ypos; cbv zeta; destruct q; cbn [Hat staggered is_E fld_axis axis_eqb negb SpecGeom.coord face_lo face_hi is_lo face_axis];
  (split; [lia|split; discriminate]).
Qed.
Lemma rotE_mesh (E1 E2 : Vec) a x y z : in_mesh c (Hat a) x y z -> (forall b x y z, in_mesh c (Eat b) x y z -> E1 b x y z = E2 b x y z) -> rotE lines E1 a x y z = rotE lines E2 a x y z.
Proof.
  intros I EQ. pose proof (I XDIR) as IX. pose proof (I YDIR) as IY. pose proof (I ZDIR) as IZ. cbv zeta in IX, IY, IZ. unfold meshAll, ypos in IX, IY, IZ.
  destruct IX as (X1 & _), IY as (Y1 & _), IZ as (Z1 & _).
  unfold rotE, shift. destruct a; cbn [Hat upA staggered is_E fld_axis axis_eqb negb SpecGeom.coord face_lo face_hi is_lo face_axis] in *;
  rewrite !EQ; try reflexivity; intros q; unfold meshAll, ypos; cbv zeta; destruct q; cbn [Eat staggered is_E fld_axis axis_eqb negb SpecGeom.coord face_lo face_hi is_lo face_axis];
  (split; [lia|split; discriminate]).
Qed.
Lemma ampere_unique ep sg E A B curl : (1 <= ep)%R -> (0 <= sg)%R -> ampere (ep * eps0) sg dt E A curl -> ampere (ep * eps0) sg dt E B curl -> A = B.
Proof.
  intros P Q X Y. unfold ampere in *. pose proof file_dt as DT. destruct eps0_mu0 as (E0 & _). assert (PE : (0 < ep * eps0)%R) by (apply Rmult_lt_0_compat; lra).
  set (q := (ep * eps0)%R) in *. assert (Z : ((q / dt + sg / 2) * (A - B) = 0)%R). { replace ((q / dt + sg / 2) * (A - B))%R with ((q * ((A - E) / dt) + sg * ((A + E) / 2)) - (q * ((B - E) / dt) + sg * ((B + E) / 2)))%R by (field; lra). lra. }
  assert (0 < q / dt)%R by (apply Rdiv_lt_0_compat; lra). apply Rmult_integral in Z. lra.
Qed.
Lemma faraday_unique u H A B curl : (0 < u)%R -> faraday u dt H A curl -> faraday u dt H B curl -> A = B.
Proof.
  intros P X Y. unfold faraday in *. pose proof file_dt as DT. assert (Z : ((u / dt) * (A - B) = 0)%R). { replace ((u / dt) * (A - B))%R with (u * ((A - H) / dt) - u * ((B - H) / dt))%R by (field; lra). lra. }
  assert (0 < u / dt)%R by (apply Rdiv_lt_0_compat; lra). apply Rmult_integral in Z. lra.
Qed.
Variables (wE wH : nat -> Src -> R).
Hypothesis FM : free_metal c h lines.
Lemma maxwell_unique E1 H1 E2 H2 : maxwell c h lines dt wE wH E1 H1 -> maxwell c h lines dt wE wH E2 H2 ->
  forall n, (forall a x y z, in_mesh c (Eat a) x y z -> E1 n a x y z = E2 n a x y z) /\ (forall a x y z, in_mesh c (Hat a) x y z -> H1 n a x y z = H2 n a x y z).
Proof.
  intros [R1 M1 A1 F1] [R2 M2 A2 F2]. induction n as [|n (IE & IH)].
  - split; intros a x y z Y; destruct (R1 a x y z) as (P1 & P2), (R2 a x y z) as (Q1 & Q2); [rewrite P1, Q1|rewrite P2, Q2]; auto.
  - assert (SE : forall a x y z, in_mesh c (Eat a) x y z -> E1 (Datatypes.S n) a x y z = E2 (Datatypes.S n) a x y z).
    { intros a x y z Y. assert (MM : made_of (Eat a) x y z (regions c h lines) Metal -> E1 (Datatypes.S n) a x y z = E2 (Datatypes.S n) a x y z).
      { intros MO. assert (OM : off_mur_walls c (Eat a) x y z). { intros q. specialize (Y q). cbv zeta in *. destruct Y as (Y & _). split; [exact Y|]. rewrite !PEC. split; discriminate. }
        rewrite (M1 _ a x y z OM MO), (M2 _ a x y z OM MO); [reflexivity| |]; intros s IS FS CV; exact (FM s a x y z IS FS CV MO). }
      destruct (made_total (Eat a) x y z (regions c h lines)) as ([|ep sg mu] & MO); [exact (MM MO)|]. destruct (edge_cases a x y z Y) as [I|I]; [|exact (MM I)].
      destruct (drives_ex (wE n) (Eat a) x y z) as (J & F & D). pose proof (A1 n a x y z ep sg mu J F I MO D) as X1. pose proof (A2 n a x y z ep sg mu J F I MO D) as X2.
      rewrite (IE a x y z Y), (rotH_mesh (H1 n) (H2 n) a x y z I IH) in X1. destruct (simple_bounds _ _ _ _ _ _ _ Y MO) as (B1 & B2 & _).
      pose proof (ampere_unique ep sg _ _ _ _ B1 B2 X1 X2). lra. }
    split; [exact SE|]. intros a x y z Y. destruct (made_total (Hat a) x y z (regions c h lines)) as (mat & MO). destruct (drives_ex (wH n) (Hat a) x y z) as (J & F & D).
    pose proof (F1 n a x y z mat J F Y MO D) as X1. pose proof (F2 n a x y z mat J F Y MO D) as X2. rewrite (IH a x y z Y), (rotE_mesh (E1 (Datatypes.S n)) (E2 (Datatypes.S n)) a x y z Y SE) in X1.
    assert (PU : (0 < match mat with Metal => mu0 | Simple _ _ mu => mu * mu0 end)%R).
    { destruct eps0_mu0 as (_ & M0 & _). destruct mat as [|ep sg mu]; [exact M0|]. destruct (simple_bounds _ _ _ _ _ _ _ Y MO) as (_ & _ & B3). apply Rmult_lt_0_compat; lra. }
    pose proof (faraday_unique _ _ _ _ _ PU X1 X2). lra.
Qed.
End Unique.
End File.

(** C75: the complete time loop, run from rest on any accepted mesh file with
    increasing mesh lines and a positive Courant number, without DEBYE media,
    impedance surfaces, plane waves and hard sources, with sources of a meaningful
    extent and no second perfect conductor: the fields solve the discretised Maxwell
    equations of the described problem, at every step and every point of the mesh
    (Ampere's law: off the walls), with the walls, media, wires and loads where the
    cards put them, for every waveform. *)
Theorem C75_solution : forall debyeFile file st h cards c, readMeshFile debyeFile file = Acc (st, h, cards) -> cfgFor h = Some c -> wide c ->
  plain_media h -> no_sheets h -> soft_sources h -> one_conductor h -> sources_ok h ->
  forall lines cn garbage e dt, (forall a, h_mesh h a = Some (lines a)) -> increasing c lines -> courantOf (h_cn h) = Some cn -> (0 < cn)%R ->
  initCellEdges c lines garbage cn = Some (e, dt) ->
  forall rcm ep ts d s, set_up c h e dt (w_m s) -> quiet (w_m s) ->
  let m n := w_m (wrun c (progOf c h rcm ep ts (fun a n => adat (eDe (e a)) n) (fun a n => adat (eDh (e a)) n)) d 0 n s) in
  maxwell c h lines dt (d_wE d) (d_wH d) (fun n => fieldE c (m n)) (fun n => fieldH c (m n)).
Proof.
  intros df file st h tr c E C WD PM NS SS OC SO lines cn garbage e dt HM IN CN PC HE rcm ep ts d s SU QU. exact (hist_maxwell df file st h tr c E C WD PM NS SS OC SO lines cn garbage e dt HM IN CN PC HE rcm ep ts d s SU QU).
Qed.

(** In a conducting box the equations determine the fields: whatever solves them
    with the same waveforms is what the program computes. *)
Theorem C75_unique : forall debyeFile file st h cards c, readMeshFile debyeFile file = Acc (st, h, cards) -> cfgFor h = Some c ->
  (forall f, outerSurfaceType c f = BT_PEC) -> plain_media h -> no_sheets h -> soft_sources h -> one_conductor h -> sources_ok h -> loads_inside h ->
  forall lines cn garbage e dt, (forall a, h_mesh h a = Some (lines a)) -> increasing c lines -> courantOf (h_cn h) = Some cn -> (0 < cn)%R ->
  initCellEdges c lines garbage cn = Some (e, dt) -> free_metal c h lines ->
  forall rcm ep ts d s, set_up c h e dt (w_m s) -> quiet (w_m s) ->
  forall E H, maxwell c h lines dt (d_wE d) (d_wH d) E H ->
  forall n, let m := w_m (wrun c (progOf c h rcm ep ts (fun a n => adat (eDe (e a)) n) (fun a n => adat (eDh (e a)) n)) d 0 n s) in
  (forall a x y z, in_mesh c (Eat a) x y z -> fieldE c m a x y z = E n a x y z) /\ (forall a x y z, in_mesh c (Hat a) x y z -> fieldH c m a x y z = H n a x y z).
Proof.
  intros df file st h tr c E0 C PEC PM NS SS OC SO LI lines cn garbage e dt HM IN CN PC HE FM rcm ep ts d s SU QU E H MX n.
  assert (WD : wide c) by (intros a; right; rewrite PEC; discriminate).
  exact (maxwell_unique df file st h tr c E0 C WD PM OC SO lines cn garbage e dt HM IN CN PC HE PEC LI (d_wE d) (d_wH d) FM _ _ E H
    (hist_maxwell df file st h tr c E0 C WD PM NS SS OC SO lines cn garbage e dt HM IN CN PC HE rcm ep ts d s SU QU) MX n).
Qed.
