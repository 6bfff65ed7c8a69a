(** C27: total-field / scattered-field plane wave injection. *)
From Coq Require Import ZArith String List Bool Lia Reals Lra.
From Verif Require Import Types Lang LangProofs BBox Grid Setup SpecGeom SpecGrid SetupProofs Pml Mur Ghost Step StepShape StepBounds
  StepCount StepOnce SpecCone StepValue PmlValue StepRace StepCone PlaneWave PwProofs SpecPhys SpecYee Linear P_Setup P_Yee P_Phys
  SpecPw PwTfsf PwGlobal.
Import ListNotations.
Open Scope R_scope.
Local Arguments Z.mul : simpl never.
Local Arguments Z.add : simpl never.
Local Arguments Z.sub : simpl never.

(** One step with the corrections of one plane wave whose six faces are all
    active.  [inc n] is the incident field at the start of step [n]: the E
    correction of step [n] looks up incident H, which is still [inc n]; the H
    correction looks up incident E, which is already [inc (n+1)]. *)
Definition pwItemsE (c : Cfg) (p : PW) (inc : nat -> Field) (n : nat) : list (item R) :=
  updatePlaneWaveE (inc n) (pwFlim c p) (pw_active p).
Definition pwItemsH (c : Cfg) (p : PW) (inc : nat -> Field) (n : nat) : list (item R) :=
  updatePlaneWaveH (inc (S n)) (pwFlim c p) (pw_active p).
Definition pwStep (c : Cfg) (p : PW) (inc : nat -> Field) (n : nat) (m : mem R) : mem R :=
  run rArith (flat (Step.timeStep c (pwItemsE c p inc n) (pwItemsH c p inc n))) m.
Definition pwRun (c : Cfg) (p : PW) (inc : nat -> Field) (n : nat) (m : mem R) : mem R :=
  run rArith (flat (steps c (pwItemsE c p inc) (pwItemsH c p inc) 0 n)) m.
Definition plainRun (c : Cfg) (n : nat) (m : mem R) : mem R :=
  run rArith (flat (steps c (fun _ => []) (fun _ => []) 0 n)) m.
Definition all_faces (p : PW) : Prop := forall f, pw_active p f = true.

Lemma itemsE_on c p inc n : all_faces p -> pwItemsE c p inc n = xE c (pwGbbox c p) (inc n).
Proof.
  intros A. unfold pwItemsE, xE, updatePlaneWaveE, pwE, pwFlim, flim, edgeIsActive, allOn. rewrite !A. reflexivity.
Qed.
Lemma itemsH_on c p inc n : all_faces p -> pwItemsH c p inc n = xH c (pwGbbox c p) (inc (S n)).
Proof.
  intros A. unfold pwItemsH, xH, updatePlaneWaveH, pwH, pwFlim, flim, edgeIsActive, allOn. rewrite !A. reflexivity.
Qed.

(** an E sample whose update is the plain leapfrog update: inside the mesh and
    not on a face that overrides it *)
Definition grid_point (c : Cfg) (f : Fld) (i j k : Z) : Prop :=
  if is_E f then inl (gfilim c f) i j k else in_meshH c f i j k.

(** ** The equations solved, for every state, scatterers allowed.  Inside the
    box the stored field obeys the scheme with the total field (stored inside,
    stored plus incident outside); outside the box it obeys the scheme with the
    scattered field (stored minus incident inside, stored outside).  The surface
    of the box must be lossless (see [C27_lossy_refuted]). *)
Theorem C27_equations : forall nx ny nz reg c, setupCfg nx ny nz reg = Some c ->
  forall p, all_faces p -> let b := pwGbbox c p in (forall a, b (face_lo a) <= b (face_hi a))%Z ->
  forall inc n m, lossless_surface m b -> let m' := pwStep c p inc n m in
  forall f i j k, grid_point c f i j k ->
  fld m' f i j k =
  if is_E f then
    alpha m f i j k * fld m f i j k + beta m f i j k *
      drive (if inBoxb b f i j k then total m b (inc n) else scattered m b (inc n)) f (mkPt i j k)
  else
    fld m f i j k + gamma m f i j k *
      drive (if inBoxb b f i j k then total m' b (inc (S n)) else scattered m' b (inc (S n))) f (mkPt i j k).
Proof.
  intros nx ny nz reg c H p AF b Hb inc n m LS m' f i j k G. pose proof (setup_wf _ _ _ _ _ H) as W.
  unfold m', pwStep in *. rewrite (itemsE_on c p inc n AF), (itemsH_on c p inc n AF) in *. fold b in m' |- *.
  change (run rArith (flat (Step.timeStep c (xE c b (inc n)) (xH c b (inc (S n))))) m) with
    (stepxx rArith c (xE c b (inc n)) (xH c b (inc (S n))) m).
  set (s := stepxx rArith c (xE c b (inc n)) (xH c b (inc (S n))) m) in *.
  unfold fld at 1. unfold grid_point in G. destruct (is_E f) eqn:E; destruct (inBoxb b f i j k) eqn:B.
  - apply (local_E_in c W b Hb); auto. apply inBoxb_iff; auto.
  - unfold s. rewrite (local_E_out c W b Hb); auto.
    2:{ rewrite <- inBoxb_iff. congruence. }
    f_equal. f_equal. apply drive_ext. intros l Hl.
    assert (X : ~ inBox3 b f i j k) by (rewrite <- inBox3_iff; congruence).
    unfold scattered, with_fields, fld. destruct l as [[] i' j' k']; auto. cbn [arr li lj lk].
    unfold window. rewrite notin; [ring|]. clear - X E Hl.
    destruct f; try discriminate E; open_reads Hl; try discriminate Hl; injection Hl; intros; subst; unfold inBox3, offset in *; cbn [is_E fld_axis axis_eqb] in *; lia.
  - unfold s at 1. rewrite (local_H_in c W b Hb); auto.
    2:{ apply inBoxb_iff; auto. }
    fold s. f_equal. f_equal. apply drive_ext. intros l Hl.
    assert (X : inBox3 b f i j k) by (rewrite <- inBox3_iff; congruence).
    unfold total, with_fields, fld. destruct (kind l) eqn:K.
    + destruct (H_in_reads b f i j k l E X Hl) as (g & i' & j' & k' & -> & Eg & Bg).
      { unfold is_state. congruence. }
      cbn [arr li lj lk]. apply inBox3_iff in Bg. rewrite Bg. ring.
    + destruct l as [[] ? ? ?]; auto. discriminate K.
  - apply (local_H_out c W b Hb); auto. rewrite <- inBoxb_iff. congruence.
Qed.

(** ** Injection into an empty mesh.  If the incident field obeys the scheme
    inside the box then, starting from the incident field inside the box and
    nothing elsewhere, after any number of steps the box holds exactly the
    incident field and every other state value of the simulation (fields,
    boundary and absorber memory) is exactly zero. *)
Lemma holds_only_data m m' b u : (forall l, m l = m' l) -> holds_only b m u -> holds_only b m' u.
Proof. intros X H l S. rewrite <- X. auto. Qed.

Lemma obeys_same m m' b inc : (forall l, is_data l -> m l = m' l) -> obeys m b inc -> obeys m' b inc.
Proof.
  intros D O n f i j k B. rewrite (O n f i j k B). unfold alpha, beta, gamma. rewrite !D by reflexivity.
  assert (X : forall u, drive (with_fields m u) f (mkPt i j k) = drive (with_fields m' u) f (mkPt i j k)).
  { intros u. apply drive_ext. intros l Hl. unfold with_fields. destruct l as [[] ? ? ?]; auto;
    try (apply D; reflexivity); exfalso; clear - Hl; destruct f; open_reads Hl; discriminate. }
  destruct (is_E f); rewrite X; reflexivity.
Qed.
Lemma pw_step_ok c p inc n m : wf c -> all_faces p -> let b := pwGbbox c p in
  clear_box (outerSurfaceType c) (gibox c) b -> lossless_surface m b -> obeys m b inc ->
  holds_only b m (inc n) -> holds_only b (pwStep c p inc n m) (inc (S n)) /\
  (forall l, is_data l -> pwStep c p inc n m l = m l).
Proof.
  intros W AF b CB LS O HO. unfold pwStep. rewrite itemsE_on, itemsH_on by auto. fold b.
  apply (tfsf_one c W b CB); auto.
Qed.
Theorem C27_injection : forall nx ny nz reg c, setupCfg nx ny nz reg = Some c ->
  forall p, all_faces p -> let b := pwGbbox c p in clear_box (outerSurfaceType c) (gibox c) b ->
  forall inc m, lossless_surface m b -> obeys m b inc -> holds_only b m (inc 0%nat) ->
  forall n, let m' := pwRun c p inc n m in
  (forall f i j k, inBox b f i j k -> fld m' f i j k = inc n f i j k) /\
  (forall l, is_state l -> (forall f i j k, inBox b f i j k -> l <> L (AF f) i j k) -> m' l = 0).
Proof.
  intros nx ny nz reg c H p AF b CB inc m LS O HO n m'. pose proof (setup_wf _ _ _ _ _ H) as W.
  assert (G : forall n t m, lossless_surface m b -> obeys m b inc -> holds_only b m (inc t) ->
    holds_only b (run rArith (flat (steps c (pwItemsE c p inc) (pwItemsH c p inc) t n)) m) (inc (t + n)%nat)).
  { clear - W AF CB. induction n; intros t m LS O HO.
    - cbn [steps flat flat_map run fold_left]. rewrite Nat.add_0_r. exact HO.
    - cbn [steps]. rewrite flat_app, run_app. destruct (pw_step_ok c p inc t m W AF CB LS O HO) as [H1 D].
      change (run rArith (flat (Step.timeStep c (pwItemsE c p inc t) (pwItemsH c p inc t))) m) with (pwStep c p inc t m).
      rewrite <- Nat.add_succ_comm. apply IHn; auto.
      + intros f i j k S. unfold alpha. rewrite D by reflexivity. apply LS; auto.
      + apply (obeys_same m); [|exact O]. intros l K. symmetry. apply D. exact K. }
  specialize (G n 0%nat m LS O HO). cbn [Nat.add] in G. split.
  - intros f i j k B. unfold fld, m', pwRun. rewrite G by discriminate. cbn [arr li lj lk]. apply win_in.
    apply inBox3_iff, inBoxb_iff. auto.
  - intros l S N. unfold m', pwRun. rewrite G by auto. destruct l as [a i j k]. cbn [arr li lj lk]. destruct a; auto.
    unfold window. destruct (inBoxb b f i j k) eqn:X; auto. exfalso. apply (N f i j k); auto. apply inBoxb_iff; auto.
Qed.


(** ** Superposition.  Any initial state: the run with the plane wave is the run
    without it, started from the state minus the incident field in the box, plus
    the incident field in the box. *)
Lemma sup_for a b lo hi (g1 g2 g3 : Z -> list (stmt R)) : (forall x, sup_prog a b (g1 x) (g2 x) (g3 x)) ->
  sup_prog a b (for_ lo hi g1) (for_ lo hi g2) (for_ lo hi g3).
Proof. intros H. unfold for_. induction (zrange lo hi); cbn [flat_map]; [constructor|apply sup_prog_app; auto]. Qed.
Lemma sup_nest a b lim (g1 g2 g3 : Z -> Z -> Z -> list (stmt R)) : (forall x y z, sup_prog a b (g1 x y z) (g2 x y z) (g3 x y z)) ->
  sup_prog a b (flat_item (nest3 lim g1)) (flat_item (nest3 lim g2)) (flat_item (nest3 lim g3)).
Proof. intros H. unfold nest3. rewrite !flat_par_for. apply sup_for. intros x. apply sup_for. intros y. apply sup_for. auto. Qed.

Definition zeroF : Field := fun _ _ _ _ => 0.
Ltac sup_stmt :=
  unfold coItem, aE, sE, aH, sH, dHdx, dHdy, dHdz, dEdx, dEdy, dEdz; cbn [co_f co_lim co_s];
  apply sup_nest; intros x y z; constructor; [discriminate| |constructor];
  constructor; try (apply linb_sup; reflexivity);
  apply sup_mull; [intros l Hl; cbn in Hl; repeat (destruct Hl as [<-|Hl]; [reflexivity|]); contradiction|];
  apply sup_mull; [intros l Hl; cbn in Hl; repeat (destruct Hl as [<-|Hl]; [reflexivity|]); contradiction|].

Lemma sup_inc u f i j k : sup 1 1 (Cst (zeroF f i j k)) (Cst (u f i j k)) (Cst (u f i j k)).
Proof.
  replace (Cst (u f i j k)) with (Cst (1 * zeroF f i j k + 1 * u f i j k)) at 2.
  - constructor.
  - f_equal. unfold zeroF. ring.
Qed.
Lemma sup_cos (os1 os2 : list (Corr R)) :
  Forall2 (fun o1 o2 => sup_prog 1 1 (flat_item (coItem o1)) (flat_item (coItem o2)) (flat_item (coItem o2))) os1 os2 ->
  sup_prog 1 1 (flat (map coItem os1)) (flat (map coItem os2)) (flat (map coItem os2)).
Proof. induction 1; cbn [map]; [constructor|]. rewrite !flat_cons. apply sup_prog_app; auto. Qed.
Lemma sup_xE c b u : sup_prog 1 1 (flat (xE c b zeroF)) (flat (xE c b u)) (flat (xE c b u)).
Proof.
  unfold xE. rewrite !updE_co by apply flim_collapsed. apply sup_cos. unfold pwFaces, coE, allOn. cbn [flat_map app].
  repeat constructor. all: sup_stmt. all: apply sup_inc.
Qed.
Lemma sup_xH c b u : sup_prog 1 1 (flat (xH c b zeroF)) (flat (xH c b u)) (flat (xH c b u)).
Proof.
  unfold xH. rewrite !updH_co by apply flim_collapsed. apply sup_cos. unfold pwFaces, coH, allOn. cbn [flat_map app].
  repeat constructor. all: sup_stmt. all: apply sup_inc.
Qed.

Lemma sumE_zero c b m f i j k : sumE c b zeroF m f i j k = 0.
Proof. unfold sumE, zeroF, gr. destruct f; repeat match goal with |- context [gate ?x ?y ?z ?f ?i ?j ?k] => destruct (gate x y z f i j k) end; ring. Qed.
Lemma sumH_zero c b m f i j k : sumH c b zeroF m f i j k = 0.
Proof. unfold sumH, zeroF, gr. destruct f; repeat match goal with |- context [gate ?x ?y ?z ?f ?i ?j ?k] => destruct (gate x y z f i j k) end; ring. Qed.
Lemma xE_zero c b m l : (forall a, b (face_lo a) <= b (face_hi a))%Z -> lossless_surface m b -> run rArith (flat (xE c b zeroF)) m l = m l.
Proof.
  intros HB LS.
  assert (D : (exists f i j k, is_E f = true /\ l = L (AF f) i j k) \/ ~ In l (map (dst (V:=R)) (flat (xE c b zeroF)))).
  { destruct (in_dec loc_dec l (map (dst (V:=R)) (flat (xE c b zeroF)))) as [H|H]; [left|right; auto].
    apply in_map_iff in H. destruct H as (s & <- & H). apply xE_dst in H. exact H. }
  destruct D as [(f & i & j & k & E & ->)|D]; [|apply run_frame; exact D].
  rewrite xE_value; auto; [rewrite sumE_zero; unfold fld; ring|]. apply surface_or; auto.
Qed.
Lemma xH_zero c b m l : run rArith (flat (xH c b zeroF)) m l = m l.
Proof.
  assert (D : (exists f i j k, is_E f = false /\ l = L (AF f) i j k) \/ ~ In l (map (dst (V:=R)) (flat (xH c b zeroF)))).
  { destruct (in_dec loc_dec l (map (dst (V:=R)) (flat (xH c b zeroF)))) as [H|H]; [left|right; auto].
    apply in_map_iff in H. destruct H as (s & <- & H). apply xH_dst in H. exact H. }
  destruct D as [(f & i & j & k & E & ->)|D]; [|apply run_frame; exact D].
  rewrite xH_value; auto; rewrite sumH_zero; unfold fld; ring.
Qed.
Lemma step_zero c b m : (forall a, b (face_lo a) <= b (face_hi a))%Z -> lossless_surface m b ->
  meq (run rArith (flat (Step.timeStep c (xE c b zeroF) (xH c b zeroF))) m) (run rArith (flat (coreStep c)) m).
Proof.
  intros HB LS. unfold coreStep, Step.timeStep. cbn [app]. rewrite !flat_app, !run_app.
  apply run_meq. intros l. rewrite xH_zero. revert l. apply run_meq, run_meq. intros l. apply xE_zero; auto.
  intros f i j k S. unfold alpha. rewrite writes_0_frame by (apply phaseE_other; discriminate). apply LS; auto.
Qed.
Theorem C27_superposition : forall nx ny nz reg c, setupCfg nx ny nz reg = Some c ->
  forall p, all_faces p -> let b := pwGbbox c p in clear_box (outerSurfaceType c) (gibox c) b ->
  forall inc m, lossless_surface m b -> obeys m b inc ->
  forall n l, is_state l ->
  pwRun c p inc n m l =
  plainRun c n (scattered m b (inc 0%nat)) l +
  match arr l with AF f => window b (inc n) f (li l) (lj l) (lk l) | _ => 0 end.
Proof.
  intros nx ny nz reg c H p AF b CB inc m LS O n l Sl. pose proof (setup_wf _ _ _ _ _ H) as W.
  assert (HB : forall a, (b (face_lo a) <= b (face_hi a))%Z) by (intros a; apply CB).
  set (w := fun l => match arr l with AF f => window b (inc 0%nat) f (li l) (lj l) (lk l) | _ => match kind l with None => m l | _ => 0 end end : R).
  assert (WD : forall l, is_data l -> w l = m l).
  { intros [a i j k] D. unfold w. unfold is_data in D. cbn [arr li lj lk]. destruct a; cbn [kind arr] in *; try discriminate D; reflexivity. }
  assert (HW : holds_only b w (inc 0%nat)).
  { intros [a i j k] S. unfold w. unfold is_state in S. cbn [arr li lj lk] in *. destruct a; cbn [kind arr] in *; try reflexivity; exfalso; apply S; reflexivity. }
  assert (SUP : sup_mem 1 1 (scattered m b (inc 0%nat)) w m).
  { split; intros [a i j k] D.
    - split; [|apply WD; exact D]. unfold scattered, with_fields. cbn [arr li lj lk]. destruct a; auto. discriminate D.
    - rewrite (HW _ D). unfold scattered, with_fields. cbn [arr li lj lk]. destruct a; unfold fld; ring. }
  assert (LD : forall m m' : mem R, (forall l, is_data l -> m l = m' l) -> lossless_surface m b -> lossless_surface m' b).
  { intros a a' D L f i j k S. unfold alpha. rewrite <- D by reflexivity. apply L. exact S. }
  assert (G : forall n t m1 w m3, sup_mem 1 1 m1 w m3 -> holds_only b w (inc t) -> lossless_surface w b -> obeys w b inc ->
     sup_mem 1 1 (run rArith (flat (steps c (fun _ => []) (fun _ => []) t n)) m1)
                 (run rArith (flat (steps c (pwItemsE c p inc) (pwItemsH c p inc) t n)) w)
                 (run rArith (flat (steps c (pwItemsE c p inc) (pwItemsH c p inc) t n)) m3) /\
     holds_only b (run rArith (flat (steps c (pwItemsE c p inc) (pwItemsH c p inc) t n)) w) (inc (t + n)%nat)).
  { clear - W AF CB HB LD. induction n; intros t m1 w m3 SU HO LS O.
    - cbn [steps flat flat_map run fold_left]. rewrite Nat.add_0_r. auto.
    - cbn [steps]. rewrite !flat_app, !run_app. destruct (pw_step_ok c p inc t w W AF CB LS O HO) as [H1 D].
      rewrite <- Nat.add_succ_comm. apply IHn; auto.
      + rewrite itemsE_on, itemsH_on by auto. fold b.
        assert (X : sup_mem 1 1 (run rArith (flat (Step.timeStep c (xE c b zeroF) (xH c b zeroF))) m1)
           (run rArith (flat (Step.timeStep c (xE c b (inc t)) (xH c b (inc (S t))))) w)
           (run rArith (flat (Step.timeStep c (xE c b (inc t)) (xH c b (inc (S t))))) m3)).
        { apply sup_run; auto. apply timeStep_sup; [apply sup_xE|apply sup_xH]. }
        assert (Y : lossless_surface m1 b).
        { apply (LD w); auto. intros l K. destruct (proj1 SU l K). congruence. }
        pose proof (step_zero c b m1 HB Y) as Z. unfold coreStep in Z. destruct X as [X1 X2]. split; intros l K.
        * rewrite <- (Z l). auto.
        * rewrite <- (Z l). auto.
      + apply (LD w); auto. intros l K. symmetry. apply D. exact K.
      + apply (obeys_same w); [|exact O]. intros l K. symmetry. apply D. exact K. }
  destruct (G n 0%nat _ w m SUP HW) as [[_ G1] G2].
  - apply (LD m); auto. intros. symmetry. auto.
  - apply (obeys_same m); auto. intros. symmetry. auto.
  - cbn [Nat.add] in G2. unfold pwRun, plainRun. rewrite (G1 l Sl), (G2 l Sl). ring.
Qed.

(** ** Lossy surface refuted.  Where the surface of the box crosses a lossy
    medium the E corrections multiply the field by the loss factor once more: even
    a wave of zero amplitude changes the fields, here 1/4 instead of 1/2. *)
Lemma xE_single c b u m i j k : gate c b YLO EX i j k = true -> gate c b YHI EX i j k = false ->
  gate c b ZLO EX i j k = false -> gate c b ZHI EX i j k = false ->
  run rArith (flat (xE c b u)) m (L (AF EX) i j k) =
  alpha m EX i j k * fld m EX i j k - beta m EX i j k * (idh m YDIR j * u HZ i (j-1)%Z k).
Proof.
  intros G1 G2 G3 G4. unfold xE. rewrite updE_co by apply flim_collapsed.
  rewrite (run_cos rArith _ m m); [|apply good_E|auto].
  unfold pwFaces, coE, allOn; cbn [flat_map app]; fold allOn; cbn [fold_left]; unfold coStep; cbn [co_f co_lim co_s fld_eqb andb].
  repeat match goal with |- context [inlb (flim c b allOn ?g ?h) i j k] => change (inlb (flim c b allOn g h) i j k) with (gate c b g h i j k) end.
  rewrite G1, G2, G3, G4. unfold sE, dHdy, ALPHA, BETA, F, idhy; cbn [eval rArith vadd vsub vmul]; rewrite ?upd_same;
  repeat match goal with |- context [upd m ?p ?v ?l] => rewrite (upd_data m) by reflexivity end. reflexivity.
Qed.
Definition lossyMem : mem R := fun l => match arr l with AF EX => 1 | AAlpha EX => / 2 | _ => 0 end.
Definition lossyPW : PW := mkPW "w"%string (mkbox 2 5 2 5 2 5) "f"%string (fun _ => true) 0 0 0 1 0.
Theorem C27_lossy_refuted : exists c f i j k, setupCfg 9 9 9 exampleReg = Some c /\
  clear_box (outerSurfaceType c) (gibox c) (pwGbbox c lossyPW) /\ inBox (pwGbbox c lossyPW) f i j k /\
  fld (run rArith (flat (coreStep c)) lossyMem) f i j k = / 2 /\
  fld (pwStep c lossyPW (fun _ => zeroF) 0 lossyMem) f i j k = / 4.
Proof.
  destruct (setupCfg 9 9 9 exampleReg) as [c|] eqn:HC; [|discriminate HC].
  pose proof (setup_wf _ _ _ _ _ HC) as W.
  exists c, EX, 3%Z, 3%Z, 4%Z. split; [reflexivity|]. injection HC as HC.
  assert (B : forall f, pwGbbox c lossyPW f = mkbox 3 6 3 6 3 6 f) by (subst c; intros []; reflexivity).
  assert (CB : clear_box (outerSurfaceType c) (gibox c) (pwGbbox c lossyPW)).
  { intros a. rewrite !B. subst c. destruct a; vm_compute; repeat split; discriminate. }
  assert (IN : inl (gfilim c EX) 3 3 4) by (subst c; repeat split; vm_compute; discriminate).
  assert (PH : run rArith (flat (phaseE c)) lossyMem (L (AF EX) 3 3 4) = / 2).
  { rewrite (phaseE_grid c W) by auto. unfold updStmt. cbn [is_E rhs eval ALPHA BETA F lossyMem arr cH cHx rArith vadd vmul]. ring. }
  split; [exact CB|]. split; [intros []; rewrite !B; cbn; lia|]. split.
  - change (coreStep c) with (Step.timeStep (V:=R) c [] []).
    assert (X : forall s : stmt R, In s (flat []) -> kind (dst s) = Some false) by (intros s []).
    unfold fld. change (stepxx rArith c [] [] lossyMem (L (AF EX) 3 3 4) = / 2).
    rewrite (stepxx_E rArith c [] [] X) by discriminate. unfold midE. cbn [flat flat_map run fold_left].
    rewrite writes_0_frame by (apply ghostE_inside; auto using grid_lim_outer). exact PH.
  - unfold pwStep. rewrite itemsE_on, itemsH_on by (intros f; reflexivity). unfold fld.
    set (b := pwGbbox c lossyPW) in *.
    change (stepxx rArith c (xE c b zeroF) (xH c b zeroF) lossyMem (L (AF EX) 3 3 4) = / 4).
    rewrite (stepxx_E rArith c _ _ (xH_on c b zeroF)) by discriminate. unfold midE.
    rewrite writes_0_frame by (apply ghostE_inside; auto using grid_lim_outer).
    rewrite xE_single.
    + unfold fld. rewrite PH. unfold alpha, zeroF.
      rewrite writes_0_frame by (apply phaseE_other; discriminate). cbn [lossyMem arr]. lra.
    + unfold gate. apply flim_on. rewrite !B. unfold inl, setFieldLimits, mkbox. cbn [fieldIsInBoundary]. lia.
    + unfold gate. apply not_true_iff_false. rewrite flim_on. rewrite !B. unfold inl, setFieldLimits, mkbox. cbn [fieldIsInBoundary]. lia.
    + unfold gate. apply not_true_iff_false. rewrite flim_on. rewrite !B. unfold inl, setFieldLimits, mkbox. cbn [fieldIsInBoundary]. lia.
    + unfold gate. apply not_true_iff_false. rewrite flim_on. rewrite !B. unfold inl, setFieldLimits, mkbox. cbn [fieldIsInBoundary]. lia.
Qed.
