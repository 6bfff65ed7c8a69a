(** C77: balance of electric charge and of magnetic flux. *)
From Coq Require Import ZArith List Bool Ascii String Reals Lia Lra.
From Verif Require Import Types CArr CStr Sim Scan Lang BBox Grid SpecGrid Step Setup SetupProofs PmlProfile Media Medium Debye Waveform Source
  PlaneWave Edges SpecEdges Mesh SpecGeom SpecMedia P_Media SpecPhys SpecMedium SpecStable Front Program P_Front P_FrontRun
  LangProofs StepShape BBoxProofs MediaProofs Whole P_Whole SpecFile P_FrontStable SpecMaxwell P_Maxwell P_Grid SpecRecip P_Recip SpecGauss.
Import ListNotations.
Local Open Scope list_scope.
Open Scope R_scope.

Section Div.
Variables (c : Cfg) (lines : Axis -> carr R).
Hypothesis PE : forall a n, (0 <= n <= numLines c a - 2)%Z -> 0 < edge lines a n.
Hypothesis PD : forall a n, (0 <= n <= numLines c a - 1)%Z -> 0 < dual c lines a n.
Lemma div_rotH H x y z : inner_node c x y z -> outOfNode c lines (rotH c lines H) x y z = 0.
Proof.
  intros I. pose proof (PD XDIR x ltac:(specialize (I XDIR); cbn in I; lia)). pose proof (PD YDIR y ltac:(specialize (I YDIR); cbn in I; lia)). pose proof (PD ZDIR z ltac:(specialize (I ZDIR); cbn in I; lia)).
  pose proof (PD XDIR (x - 1)%Z ltac:(specialize (I XDIR); cbn in I; lia)). pose proof (PD YDIR (y - 1)%Z ltac:(specialize (I YDIR); cbn in I; lia)). pose proof (PD ZDIR (z - 1)%Z ltac:(specialize (I ZDIR); cbn in I; lia)).
  unfold outOfNode, areaE, rotH, shift. cbv zeta. cbn [upA SpecGeom.coord]. replace (x + -1)%Z with (x - 1)%Z by lia. replace (y + -1)%Z with (y - 1)%Z by lia. replace (z + -1)%Z with (z - 1)%Z by lia. field. repeat split; lra.
Qed.
Lemma div_rotE E x y z : mesh_cell c x y z -> outOfCell lines (rotE lines E) x y z = 0.
Proof.
  intros I. pose proof (PE XDIR x ltac:(specialize (I XDIR); cbn in I; lia)). pose proof (PE YDIR y ltac:(specialize (I YDIR); cbn in I; lia)). pose proof (PE ZDIR z ltac:(specialize (I ZDIR); cbn in I; lia)).
  unfold outOfCell, areaH, rotE, shift. cbv zeta. cbn [upA SpecGeom.coord]. field. repeat split; lra.
Qed.
Lemma outNode_lin p q f g x y z : outOfNode c lines (fun a u v w => p * f a u v w + q * g a u v w) x y z = p * outOfNode c lines f x y z + q * outOfNode c lines g x y z.
Proof. unfold outOfNode. ring. Qed.
Lemma outCell_lin p q f g x y z : outOfCell lines (fun a u v w => p * f a u v w + q * g a u v w) x y z = p * outOfCell lines f x y z + q * outOfCell lines g x y z.
Proof. unfold outOfCell. ring. Qed.
Lemma outNode_ext f g x y z : (forall a u v w, meets x y z a u v w -> f a u v w = g a u v w) -> outOfNode c lines f x y z = outOfNode c lines g x y z.
Proof. intros X. unfold outOfNode. rewrite !X by (cbn; auto). reflexivity. Qed.
Lemma outCell_ext f g x y z : (forall a u v w, bounds x y z a u v w -> f a u v w = g a u v w) -> outOfCell lines f x y z = outOfCell lines g x y z.
Proof. intros X. unfold outOfCell. rewrite !X by (cbn; auto). reflexivity. Qed.
Lemma meets_interior x y z a u v w : inner_node c x y z -> meets x y z a u v w -> interior c (Eat a) u v w.
Proof.
  intros I M b. pose proof (I XDIR) as IX. pose proof (I YDIR) as IY. pose proof (I ZDIR) as IZ. cbn [SpecGeom.coord] in IX, IY, IZ. cbv zeta. unfold meshAll, ypos.
  destruct a, b; cbn [meets] in M; cbn [Eat staggered is_E fld_axis axis_eqb negb face_lo face_hi is_lo face_axis SpecGeom.coord]; (split; [lia|split; intros _; lia]).
Qed.
Lemma bounds_mesh x y z a u v w : mesh_cell c x y z -> bounds x y z a u v w -> in_mesh c (Hat a) u v w.
Proof.
  intros I M b. pose proof (I XDIR) as IX. pose proof (I YDIR) as IY. pose proof (I ZDIR) as IZ. cbn [SpecGeom.coord] in IX, IY, IZ. cbv zeta. unfold meshAll, ypos.
  destruct a, b; cbn [bounds] in M; cbn [Hat staggered is_E fld_axis axis_eqb negb face_lo face_hi is_lo face_axis SpecGeom.coord]; (split; [lia|split; discriminate]).
Qed.
Variables (h : MeshData) (dt : R) (wE wH : nat -> Src -> R) (E H : nat -> Vec).
Hypothesis DT : 0 < dt.
Hypothesis MX : maxwell c h lines dt wE wH E H.
Lemma charge x y z n (ep sg J : Vec) : inner_node c x y z ->
  (forall a u v w, meets x y z a u v w -> (exists mu, made_of (Eat a) u v w (regions c h lines) (Simple (ep a u v w) (sg a u v w) mu)) /\ drives c h lines (wE n) (Eat a) u v w (J a u v w) 0) ->
  outOfNode c lines (fun a u v w => ep a u v w * eps0 * E (S n) a u v w) x y z =
  outOfNode c lines (fun a u v w => ep a u v w * eps0 * E n a u v w) x y z - dt * outOfNode c lines (fun a u v w => sg a u v w * ((E (S n) a u v w + E n a u v w) / 2) + J a u v w) x y z.
Proof.
  intros I X. pose proof (div_rotH (H n) x y z I) as Q.
  rewrite (outNode_ext _ (fun a u v w => / dt * (1 * (ep a u v w * eps0 * E (S n) a u v w) + - 1 * (ep a u v w * eps0 * E n a u v w)) + 1 * (sg a u v w * ((E (S n) a u v w + E n a u v w) / 2) + J a u v w))) in Q.
  2:{ intros a u v w M. destruct (X a u v w M) as ((mu & MO) & D). pose proof (mx_ampere _ _ _ _ _ _ _ _ MX n a u v w _ _ _ _ _ (meets_interior _ _ _ _ _ _ _ I M) MO D) as A. unfold ampere in A.
      replace (rotH c lines (H n) a u v w) with ((rotH c lines (H n) a u v w - J a u v w) + J a u v w) by ring. rewrite <- A. field. lra. }
  rewrite (outNode_lin (/ dt) 1 (fun a u v w => 1 * (ep a u v w * eps0 * E (S n) a u v w) + - 1 * (ep a u v w * eps0 * E n a u v w)) (fun a u v w => sg a u v w * ((E (S n) a u v w + E n a u v w) / 2) + J a u v w)) in Q.
  rewrite (outNode_lin 1 (- 1) (fun a u v w => ep a u v w * eps0 * E (S n) a u v w) (fun a u v w => ep a u v w * eps0 * E n a u v w)) in Q.
  set (A := outOfNode c lines (fun a u v w => ep a u v w * eps0 * E (S n) a u v w) x y z) in *. set (B := outOfNode c lines (fun a u v w => ep a u v w * eps0 * E n a u v w) x y z) in *.
  match goal with |- A = B - dt * ?t => set (T := t) in * end. clearbody A B T. assert (X2 : dt * (/ dt * (1 * A + -1 * B) + 1 * T) = 0) by (rewrite Q; ring). replace (dt * (/ dt * (1 * A + -1 * B) + 1 * T)) with (A - B + dt * T) in X2 by (field; lra). lra.
Qed.
Lemma flux x y z n (m : Axis -> Z -> Z -> Z -> Material) (K : Vec) : mesh_cell c x y z ->
  (forall a u v w, bounds x y z a u v w -> made_of (Hat a) u v w (regions c h lines) (m a u v w) /\ drives c h lines (wH n) (Hat a) u v w (K a u v w) 0) ->
  outOfCell lines (fun a u v w => muOf (m a u v w) * mu0 * H (S n) a u v w) x y z =
  outOfCell lines (fun a u v w => muOf (m a u v w) * mu0 * H n a u v w) x y z - dt * outOfCell lines K x y z.
Proof.
  intros I X. pose proof (div_rotE (E (S n)) x y z I) as Q.
  rewrite (outCell_ext _ (fun a u v w => / dt * (- 1 * (muOf (m a u v w) * mu0 * H (S n) a u v w) + 1 * (muOf (m a u v w) * mu0 * H n a u v w)) + - 1 * K a u v w)) in Q.
  2:{ intros a u v w M. destruct (X a u v w M) as (MO & D). pose proof (mx_faraday _ _ _ _ _ _ _ _ MX n a u v w _ _ _ (bounds_mesh _ _ _ _ _ _ _ I M) MO D) as A. unfold faraday in A.
      replace (match m a u v w with Metal => mu0 | Simple _ _ mu => mu * mu0 end) with (muOf (m a u v w) * mu0) in A by (destruct (m a u v w); cbn [muOf]; ring).
      assert (A2 : rotE lines (E (S n)) a u v w = - (- rotE lines (E (S n)) a u v w - K a u v w) - K a u v w) by ring. rewrite A2, <- A. field. lra. }
  rewrite (outCell_lin (/ dt) (- 1) (fun a u v w => - 1 * (muOf (m a u v w) * mu0 * H (S n) a u v w) + 1 * (muOf (m a u v w) * mu0 * H n a u v w)) K) in Q.
  rewrite (outCell_lin (- 1) 1 (fun a u v w => muOf (m a u v w) * mu0 * H (S n) a u v w) (fun a u v w => muOf (m a u v w) * mu0 * H n a u v w)) in Q.
  set (A := outOfCell lines (fun a u v w => muOf (m a u v w) * mu0 * H (S n) a u v w) x y z) in *. set (B := outOfCell lines (fun a u v w => muOf (m a u v w) * mu0 * H n a u v w) x y z) in *.
  set (T := outOfCell lines K x y z) in *. clearbody A B T. assert (X2 : dt * (/ dt * (- 1 * A + 1 * B) + - 1 * T) = 0) by (rewrite Q; ring). replace (dt * (/ dt * (- 1 * A + 1 * B) + - 1 * T)) with (B - A - dt * T) in X2 by (field; lra). lra.
Qed.
End Div.

Section File.
Variables (c : Cfg) (h : MeshData) (lines : Axis -> carr R) (e : Axis -> Edges) (dt : R).
Hypothesis P : plain_problem c h lines e dt.
Lemma plain_sizes : (forall a n, (0 <= n <= numLines c a - 2)%Z -> 0 < edge lines a n) /\ (forall a n, (0 <= n <= numLines c a - 1)%Z -> 0 < dual c lines a n) /\ 0 < dt.
Proof.
  destruct P as [(df & file & st & tr & RD) CF WD PM NS SS OC SO HM IN (cn & garbage & CN & PC & HE)].
  pose proof (file_sizes df file st h tr c RD CF WD lines cn garbage e dt HM IN HE) as (S1 & S2).
  split; [intros a n Hn; apply (S1 a n Hn)|]. split; [intros a n Hn; apply (S2 a n Hn)|].
  exact (file_dt df file st h tr c RD CF WD lines cn garbage e dt HM IN CN PC HE).
Qed.
Lemma plain_maxwell : forall rcm ep ts d s, set_up c h e dt (w_m s) -> quiet (w_m s) ->
  let m n := w_m (wrun c (progOf c h rcm ep ts (fun a n => adat (eDe (e a)) n) (fun a n => adat (eDh (e a)) n)) d 0 n s) in
  maxwell c h lines dt (d_wE d) (d_wH d) (fun n => fieldE c (m n)) (fun n => fieldH c (m n)).
Proof.
  destruct P as [(df & file & st & tr & RD) CF WD PM NS SS OC SO HM IN (cn & garbage & CN & PC & HE)]. intros.
  exact (hist_maxwell df file st h tr c RD CF WD PM NS SS OC SO lines cn garbage e dt HM IN CN PC HE rcm ep ts d s H H0).
Qed.
End File.
Lemma drives_none c h lines w f x y z : (forall s, In s (h_srcs h) -> ~ covered f x y z s) -> drives c h lines w f x y z 0 0.
Proof.
  intros N. destruct (drives_ex h c lines w f x y z) as (J & F & DJ & DF). split.
  - rewrite <- (total_none _ _ _ (fun q I X => N q I (proj1 X)) J DJ) at 1. exact DJ.
  - rewrite <- (total_none _ _ _ (fun q I X => N q I (proj1 X)) F DF) at 1. exact DF.
Qed.

(** C77.  Around every inner node with edges in non-metallic media: the electric
    flux out of the secondary cell (its charge) changes in a time step by minus
    what the conduction current, with the mean of the old and the new field, and
    the impressed current carry out of it. *)
Theorem C77_charge : forall c h lines e dt, plain_problem c h lines e dt -> forall rcm ep ts d s, set_up c h e dt (w_m s) -> quiet (w_m s) ->
  let E n := fieldE c (w_m (wrun c (progOf c h rcm ep ts (fun a n => adat (eDe (e a)) n) (fun a n => adat (eDh (e a)) n)) d 0 n s)) in
  forall x y z, inner_node c x y z -> forall (eps sigma : Vec) (J : nat -> Vec),
  (forall a u v w, meets x y z a u v w -> (exists mu, made_of (Eat a) u v w (regions c h lines) (Simple (eps a u v w) (sigma a u v w) mu)) /\ forall n, drives c h lines (d_wE d n) (Eat a) u v w (J n a u v w) 0) ->
  let q n := outOfNode c lines (fun a u v w => eps a u v w * eps0 * E n a u v w) x y z in
  q O = 0 /\ forall n, q (S n) - q n = - (dt * outOfNode c lines (fun a u v w => sigma a u v w * ((E (S n) a u v w + E n a u v w) / 2) + J n a u v w) x y z).
Proof.
  intros c h lines e dt P rcm ep ts d s SU QU E x y z I eps sigma J X q. destruct (plain_sizes c h lines e dt P) as (PE & PD & DT). pose proof (plain_maxwell c h lines e dt P rcm ep ts d s SU QU) as MX. cbv zeta in MX. split.
  - unfold q. rewrite (outNode_ext c lines _ (fun _ _ _ _ => 0)); [unfold outOfNode; ring|]. intros a u v w M. unfold E. rewrite (proj1 (mx_rest _ _ _ _ _ _ _ _ MX a u v w)); [ring|]. pose proof (meets_interior c _ _ _ _ _ _ _ I M) as Y. intros b. destruct (Y b) as (Y1 & _). split; [exact Y1|split; discriminate].
  - intros n. unfold q. pose proof (charge c lines PD h dt _ _ _ _ DT MX x y z n eps sigma (J n) I (fun a u v w M => conj (proj1 (X a u v w M)) (proj2 (X a u v w M) n))) as Q. cbv beta in Q. fold (E (S n)) in Q. fold (E n) in Q. lra.
Qed.
(** No charge appears where there is no loss and no source. *)
Theorem C77_neutral : forall c h lines e dt, plain_problem c h lines e dt -> forall rcm ep ts d s, set_up c h e dt (w_m s) -> quiet (w_m s) ->
  let E n := fieldE c (w_m (wrun c (progOf c h rcm ep ts (fun a n => adat (eDe (e a)) n) (fun a n => adat (eDh (e a)) n)) d 0 n s)) in
  forall x y z, inner_node c x y z -> forall eps : Vec,
  (forall a u v w, meets x y z a u v w -> (exists mu, made_of (Eat a) u v w (regions c h lines) (Simple (eps a u v w) 0 mu)) /\ forall t, In t (h_srcs h) -> ~ covered (Eat a) u v w t) ->
  forall n, outOfNode c lines (fun a u v w => eps a u v w * eps0 * E n a u v w) x y z = 0.
Proof.
  intros c h lines e dt P rcm ep ts d s SU QU E x y z I eps X.
  destruct (C77_charge c h lines e dt P rcm ep ts d s SU QU x y z I eps (fun _ _ _ _ => 0) (fun _ _ _ _ _ => 0)) as (Q0 & QS).
  { intros a u v w M. destruct (X a u v w M) as (M1 & M2). split; [exact M1|]. intros n. apply drives_none. exact M2. }
  intros n. induction n as [|n IH]; [exact Q0|]. specialize (QS n). cbv zeta in QS. fold (E (S n)) in QS. fold (E n) in QS. rewrite IH in QS.
  rewrite (outNode_ext c lines (fun a u v w => 0 * ((E (S n) a u v w + E n a u v w) / 2) + 0) (fun _ _ _ _ => 0)) in QS by (intros; ring). replace (outOfNode c lines (fun _ _ _ _ => 0) x y z) with 0 in QS by (unfold outOfNode; ring). lra.
Qed.
(** The magnetic flux out of every cell of the mesh changes only by impressed
    magnetic currents; *)
Theorem C77_flux : forall c h lines e dt, plain_problem c h lines e dt -> forall rcm ep ts d s, set_up c h e dt (w_m s) -> quiet (w_m s) ->
  let H n := fieldH c (w_m (wrun c (progOf c h rcm ep ts (fun a n => adat (eDe (e a)) n) (fun a n => adat (eDh (e a)) n)) d 0 n s)) in
  forall x y z, mesh_cell c x y z -> forall (mat : Axis -> Z -> Z -> Z -> Material) (K : nat -> Vec),
  (forall a u v w, bounds x y z a u v w -> made_of (Hat a) u v w (regions c h lines) (mat a u v w) /\ forall n, drives c h lines (d_wH d n) (Hat a) u v w (K n a u v w) 0) ->
  let phi n := outOfCell lines (fun a u v w => muOf (mat a u v w) * mu0 * H n a u v w) x y z in
  phi O = 0 /\ forall n, phi (S n) - phi n = - (dt * outOfCell lines (K n) x y z).
Proof.
  intros c h lines e dt P rcm ep ts d s SU QU H x y z I mat K X phi. destruct (plain_sizes c h lines e dt P) as (PE & PD & DT). pose proof (plain_maxwell c h lines e dt P rcm ep ts d s SU QU) as MX. cbv zeta in MX. split.
  - unfold phi. rewrite (outCell_ext lines _ (fun _ _ _ _ => 0)); [unfold outOfCell; ring|]. intros a u v w M. unfold H. rewrite (proj2 (mx_rest _ _ _ _ _ _ _ _ MX a u v w)); [ring|]. exact (bounds_mesh c _ _ _ _ _ _ _ I M).
  - intros n. unfold phi. pose proof (flux c lines PE h dt _ _ _ _ DT MX x y z n mat (K n) I (fun a u v w M => conj (proj1 (X a u v w M)) (proj2 (X a u v w M) n))) as Q. cbv beta in Q. fold (H (S n)) in Q. fold (H n) in Q. lra.
Qed.
(** it stays zero where there is no magnetic source. *)
Theorem C77_solenoidal : forall c h lines e dt, plain_problem c h lines e dt -> forall rcm ep ts d s, set_up c h e dt (w_m s) -> quiet (w_m s) ->
  let H n := fieldH c (w_m (wrun c (progOf c h rcm ep ts (fun a n => adat (eDe (e a)) n) (fun a n => adat (eDh (e a)) n)) d 0 n s)) in
  forall x y z, mesh_cell c x y z -> forall (mat : Axis -> Z -> Z -> Z -> Material),
  (forall a u v w, bounds x y z a u v w -> made_of (Hat a) u v w (regions c h lines) (mat a u v w) /\ forall t, In t (h_srcs h) -> ~ covered (Hat a) u v w t) ->
  forall n, outOfCell lines (fun a u v w => muOf (mat a u v w) * mu0 * H n a u v w) x y z = 0.
Proof.
  intros c h lines e dt P rcm ep ts d s SU QU H x y z I mat X.
  destruct (C77_flux c h lines e dt P rcm ep ts d s SU QU x y z I mat (fun _ _ _ _ _ => 0)) as (Q0 & QS).
  { intros a u v w M. destruct (X a u v w M) as (M1 & M2). split; [exact M1|]. intros n. apply drives_none. exact M2. }
  intros n. induction n as [|n IH]; [exact Q0|]. specialize (QS n). cbv zeta in QS. fold (H (S n)) in QS. fold (H n) in QS. rewrite IH in QS.
  replace (outOfCell lines (fun _ _ _ _ => 0) x y z) with 0 in QS by (unfold outOfCell; ring). lra.
Qed.
