(** C76: reciprocity. *)
From Coq Require Import ZArith List Bool Ascii String Reals Lia Lra FunctionalExtensionality Classical_Prop Wf_nat.
From Verif Require Import Types CArr CStr Sim Scan Lang BBox Grid SpecGrid Step Setup SetupProofs P_Setup PmlProfile Media Medium SpecMedium MediumProofs Debye Waveform Source
  PlaneWave Observer Edges SpecEdges SpecText Mesh SpecGeom SpecCards P_Cards SpecMedia P_Media SpecPhys SpecEnergy SpecStable P_Grid P_Stable Front Program SpecFront P_Front P_FrontRun
  LangProofs StepShape BBoxProofs MediaProofs SpecSource SourceProofs P_Source Whole P_Whole SpecFile P_FrontStable Energy SpecMaxwell P_Maxwell SpecRecip.
Import ListNotations.
Local Open Scope list_scope.
Open Scope R_scope.

(** ** Convolution *)
Lemma conv_ext u u' v v' N : (forall n, (n <= N)%nat -> u n = u' n /\ v n = v' n) -> conv u v N = conv u' v' N.
Proof. intros X. unfold conv. apply sum_eq. intros n Hn. destruct (X n Hn) as (-> & _). destruct (X (N - n)%nat ltac:(lia)) as (_ & ->). reflexivity. Qed.
Lemma sum_rev f N : sum_f_R0 f N = sum_f_R0 (fun n => f (N - n)%nat) N.
Proof.
  revert f. induction N as [|N IH]; intros f; [reflexivity|]. rewrite tech5, IH. rewrite (decomp_sum (fun n => f (S N - n)%nat) (S N)) by lia. cbn [pred]. rewrite Nat.sub_0_r, Rplus_comm. f_equal.
Qed.
Lemma conv_comm u v N : conv u v N = conv v u N.
Proof. unfold conv. rewrite sum_rev. apply sum_eq. intros n Hn. replace (N - (N - n))%nat with n by lia. ring. Qed.
Lemma conv_late u v N : conv u (late v) (S N) = conv u v N.
Proof.
  unfold conv. rewrite tech5. replace (S N - S N)%nat with 0%nat by lia. cbn [late]. rewrite Rmult_0_r, Rplus_0_r. apply sum_eq. intros n Hn. replace (S N - n)%nat with (S (N - n)) by lia. reflexivity.
Qed.
Lemma conv_late_sym u v N : conv u (late v) N = conv v (late u) N.
Proof. destruct N as [|N]; [unfold conv; cbn; ring|]. rewrite !conv_late. apply conv_comm. Qed.
Lemma conv_next u v N : u O = 0 -> conv (fun n => u (S n)) v N = conv u v (S N).
Proof. intros U. unfold conv. rewrite (decomp_sum _ (S N)) by lia. rewrite U. cbn [pred]. rewrite Rmult_0_l, Rplus_0_l. reflexivity. Qed.
Lemma conv_lin a b u u' v N : conv (fun n => a * u n + b * u' n) v N = a * conv u v N + b * conv u' v N.
Proof. unfold conv. rewrite !scal_sum, <- sum_plus. apply sum_eq. intros. cbv beta. ring. Qed.
Lemma conv_zero u N : conv (fun _ => 0) u N = 0.
Proof. apply sum_eq_R0. intros. ring. Qed.

(** ** Sums over the mesh *)
Section Mesh.
Variables (c : Cfg) (lines : Axis -> carr R).
Lemma sumMesh_ext f g g' : (forall x y z, in_mesh c f x y z -> g x y z = g' x y z) -> sumMesh c f g = sumMesh c f g'.
Proof.
  intros X. unfold sumMesh. apply sumZ_ext. intros x Hx. apply sumZ_ext. intros y Hy. apply sumZ_ext. intros z Hz. apply X. intros a. cbv zeta. unfold meshAll, ypos, last in *.
  destruct a; cbn [face_lo face_hi is_lo face_axis SpecGeom.coord] in *; (split; [destruct (staggered f XDIR), (staggered f YDIR), (staggered f ZDIR); lia|split; discriminate]).
Qed.
Lemma sumMesh_plus f g g' : sumMesh c f (fun x y z => g x y z + g' x y z) = sumMesh c f g + sumMesh c f g'.
Proof. unfold sumMesh. rewrite <- sumZ_plus. apply sumZ_ext. intros. rewrite <- sumZ_plus. apply sumZ_ext. intros. apply sumZ_plus. Qed.
Lemma overE_ext g g' : (forall a x y z, in_mesh c (Eat a) x y z -> g a x y z = g' a x y z) -> overE c g = overE c g'.
Proof. intros X. unfold overE. f_equal; [f_equal|]; apply sumMesh_ext; apply X. Qed.
Lemma overH_ext g g' : (forall a x y z, in_mesh c (Hat a) x y z -> g a x y z = g' a x y z) -> overH c g = overH c g'.
Proof. intros X. unfold overH. f_equal; [f_equal|]; apply sumMesh_ext; apply X. Qed.
Lemma overE_plus g g' : overE c (fun a x y z => g a x y z + g' a x y z) = overE c g + overE c g'.
Proof. unfold overE. rewrite !sumMesh_plus. ring. Qed.
Lemma overH_plus g g' : overH c (fun a x y z => g a x y z + g' a x y z) = overH c g + overH c g'.
Proof. unfold overH. rewrite !sumMesh_plus. ring. Qed.
Lemma overE_sum (g : nat -> Vec) N : overE c (fun a x y z => sum_f_R0 (fun n => g n a x y z) N) = sum_f_R0 (fun n => overE c (g n)) N.
Proof. induction N as [|N IH]; [reflexivity|]. cbn [sum_f_R0]. rewrite <- IH. rewrite <- overE_plus. reflexivity. Qed.
Lemma overH_sum (g : nat -> Vec) N : overH c (fun a x y z => sum_f_R0 (fun n => g n a x y z) N) = sum_f_R0 (fun n => overH c (g n)) N.
Proof. induction N as [|N IH]; [reflexivity|]. cbn [sum_f_R0]. rewrite <- IH. rewrite <- overH_plus. reflexivity. Qed.

(** the two curls are adjoint on fields that vanish on the walls *)
Hypothesis W : wf c.
Hypothesis PE : forall a n, (0 <= n <= numLines c a - 2)%Z -> 0 < edge lines a n.
Hypothesis PD : forall a n, (0 <= n <= numLines c a - 1)%Z -> 0 < dual c lines a n.
Variables E H : Vec.
Hypothesis WZ : forall a b x y z, in_mesh c (Eat a) x y z -> b <> a -> (SpecGeom.coord x y z b = 0 \/ SpecGeom.coord x y z b = numLines c b - 1)%Z -> E a x y z = 0.
Lemma by_parts : overE c (fun a x y z => volE c lines a x y z * (E a x y z * rotH c lines H a x y z)) = overH c (fun a x y z => volH c lines a x y z * (H a x y z * rotE lines E a x y z)).
Proof.
  pose proof (wf_lines c W) as NL.
  set (nx := (numLines c XDIR - 1)%Z). set (ny := (numLines c YDIR - 1)%Z). set (nz := (numLines c ZDIR - 1)%Z).
  assert (N0 : (0 <= nx /\ 0 <= ny /\ 0 <= nz)%Z). { pose proof (NL XDIR). pose proof (NL YDIR). pose proof (NL ZDIR). unfold nx, ny, nz. lia. }
  set (dx := edge lines XDIR). set (dy := edge lines YDIR). set (dz := edge lines ZDIR). set (hx := dual c lines XDIR). set (hy := dual c lines YDIR). set (hz := dual c lines ZDIR).
  assert (DX : forall n, (0 <= n <= nx - 1)%Z -> dx n <> 0). { intros n Hn. pose proof (PE XDIR n ltac:(unfold nx in *; lia)). unfold dx. lra. }
  assert (DY : forall n, (0 <= n <= ny - 1)%Z -> dy n <> 0). { intros n Hn. pose proof (PE YDIR n ltac:(unfold ny in *; lia)). unfold dy. lra. }
  assert (DZ : forall n, (0 <= n <= nz - 1)%Z -> dz n <> 0). { intros n Hn. pose proof (PE ZDIR n ltac:(unfold nz in *; lia)). unfold dz. lra. }
  assert (QX : forall n, (0 <= n <= nx)%Z -> hx n <> 0). { intros n Hn. pose proof (PD XDIR n ltac:(unfold nx in *; lia)). unfold hx. lra. }
  assert (QY : forall n, (0 <= n <= ny)%Z -> hy n <> 0). { intros n Hn. pose proof (PD YDIR n ltac:(unfold ny in *; lia)). unfold hy. lra. }
  assert (QZ : forall n, (0 <= n <= nz)%Z -> hz n <> 0). { intros n Hn. pose proof (PD ZDIR n ltac:(unfold nz in *; lia)). unfold hz. lra. }
  assert (WX : forall y z, (0 <= y <= ny)%Z -> (0 <= z <= nz)%Z -> ((y <= ny - 1)%Z -> E YDIR 0%Z y z = 0 /\ E YDIR nx y z = 0) /\ ((z <= nz - 1)%Z -> E ZDIR 0%Z y z = 0 /\ E ZDIR nx y z = 0)).
  { intros y z Hy Hz. split; intros L; split; apply (WZ _ XDIR); try discriminate; try (cbn [SpecGeom.coord]; unfold nx; lia);
    intros q; cbv zeta; unfold meshAll, ypos, nx, ny, nz in *; destruct q; cbn [Eat staggered is_E fld_axis axis_eqb negb face_lo face_hi is_lo face_axis SpecGeom.coord]; (split; [lia|split; discriminate]). }
  assert (WY : forall x z, (0 <= x <= nx)%Z -> (0 <= z <= nz)%Z -> ((x <= nx - 1)%Z -> E XDIR x 0%Z z = 0 /\ E XDIR x ny z = 0) /\ ((z <= nz - 1)%Z -> E ZDIR x 0%Z z = 0 /\ E ZDIR x ny z = 0)).
  { intros x z Hx Hz. split; intros L; split; apply (WZ _ YDIR); try discriminate; try (cbn [SpecGeom.coord]; unfold ny; lia);
    intros q; cbv zeta; unfold meshAll, ypos, nx, ny, nz in *; destruct q; cbn [Eat staggered is_E fld_axis axis_eqb negb face_lo face_hi is_lo face_axis SpecGeom.coord]; (split; [lia|split; discriminate]). }
  assert (WW : forall x y, (0 <= x <= nx)%Z -> (0 <= y <= ny)%Z -> ((x <= nx - 1)%Z -> E XDIR x y 0%Z = 0 /\ E XDIR x y nz = 0) /\ ((y <= ny - 1)%Z -> E YDIR x y 0%Z = 0 /\ E YDIR x y nz = 0)).
  { intros x y Hx Hy. split; intros L; split; apply (WZ _ ZDIR); try discriminate; try (cbn [SpecGeom.coord]; unfold nz; lia);
    intros q; cbv zeta; unfold meshAll, ypos, nx, ny, nz in *; destruct q; cbn [Eat staggered is_E fld_axis axis_eqb negb face_lo face_hi is_lo face_axis SpecGeom.coord]; (split; [lia|split; discriminate]). }
  unfold overE, overH, sumMesh, last. cbn [Eat Hat staggered is_E fld_axis axis_eqb negb].
  replace (numLines c XDIR - 2)%Z with (nx - 1)%Z by (unfold nx; lia). replace (numLines c YDIR - 2)%Z with (ny - 1)%Z by (unfold ny; lia). replace (numLines c ZDIR - 2)%Z with (nz - 1)%Z by (unfold nz; lia).
  fold nx ny nz.
  change (S3 0 (nx-1) 0 ny 0 nz (fun i j k => volE c lines XDIR i j k * (E XDIR i j k * rotH c lines H XDIR i j k)) + S3 0 nx 0 (ny-1) 0 nz (fun i j k => volE c lines YDIR i j k * (E YDIR i j k * rotH c lines H YDIR i j k)) + S3 0 nx 0 ny 0 (nz-1) (fun i j k => volE c lines ZDIR i j k * (E ZDIR i j k * rotH c lines H ZDIR i j k))
    = S3 0 nx 0 (ny-1) 0 (nz-1) (fun i j k => volH c lines XDIR i j k * (H XDIR i j k * rotE lines E XDIR i j k)) + S3 0 (nx-1) 0 ny 0 (nz-1) (fun i j k => volH c lines YDIR i j k * (H YDIR i j k * rotE lines E YDIR i j k)) + S3 0 (nx-1) 0 (ny-1) 0 nz (fun i j k => volH c lines ZDIR i j k * (H ZDIR i j k * rotE lines E ZDIR i j k))).
  set (e1 := E XDIR) in *. set (e2 := E YDIR) in *. set (e3 := E ZDIR) in *. set (h1 := H XDIR). set (h2 := H YDIR). set (h3 := H ZDIR).
  rewrite (S3_ext 0 (nx-1) 0 ny 0 nz _ (fun i j k => (dx i * hz k) * (e1 i j k * (h3 i j k - h3 i (j-1)%Z k)) + (- (dx i * hy j)) * (e1 i j k * (h2 i j k - h2 i j (k-1)%Z)))).
  2:{ intros i j k Hi Hj Hk. unfold volE, rotH, shift; cbn [upA SpecGeom.coord]. fold dx hy hz e1 h2 h3. pose proof (QY j Hj). pose proof (QZ k Hk). replace (j + -1)%Z with (j - 1)%Z by lia. replace (k + -1)%Z with (k - 1)%Z by lia. field. auto. }
  rewrite (S3_ext 0 nx 0 (ny-1) 0 nz _ (fun i j k => (hx i * dy j) * (e2 i j k * (h1 i j k - h1 i j (k-1)%Z)) + (- (dy j * hz k)) * (e2 i j k * (h3 i j k - h3 (i-1)%Z j k)))).
  2:{ intros i j k Hi Hj Hk. unfold volE, rotH, shift; cbn [upA SpecGeom.coord]. fold dy hx hz e2 h1 h3. pose proof (QX i Hi). pose proof (QZ k Hk). replace (i + -1)%Z with (i - 1)%Z by lia. replace (k + -1)%Z with (k - 1)%Z by lia. field. auto. }
  rewrite (S3_ext 0 nx 0 ny 0 (nz-1) _ (fun i j k => (hy j * dz k) * (e3 i j k * (h2 i j k - h2 (i-1)%Z j k)) + (- (hx i * dz k)) * (e3 i j k * (h1 i j k - h1 i (j-1)%Z k)))).
  2:{ intros i j k Hi Hj Hk. unfold volE, rotH, shift; cbn [upA SpecGeom.coord]. fold dz hx hy e3 h1 h2. pose proof (QX i Hi). pose proof (QY j Hj). replace (i + -1)%Z with (i - 1)%Z by lia. replace (j + -1)%Z with (j - 1)%Z by lia. field. auto. }
  rewrite (S3_ext 0 nx 0 (ny-1) 0 (nz-1) _ (fun i j k => - ((hx i * dy j) * (h1 i j k * (e2 i j (k+1)%Z - e2 i j k)) + (- (hx i * dz k)) * (h1 i j k * (e3 i (j+1)%Z k - e3 i j k))))).
  2:{ intros i j k Hi Hj Hk. unfold volH, rotE, shift; cbn [upA SpecGeom.coord]. fold hx dy dz e2 e3 h1. pose proof (DY j Hj). pose proof (DZ k Hk). field. auto. }
  rewrite (S3_ext 0 (nx-1) 0 ny 0 (nz-1) _ (fun i j k => - ((hy j * dz k) * (h2 i j k * (e3 (i+1)%Z j k - e3 i j k)) + (- (dx i * hy j)) * (h2 i j k * (e1 i j (k+1)%Z - e1 i j k))))).
  2:{ intros i j k Hi Hj Hk. unfold volH, rotE, shift; cbn [upA SpecGeom.coord]. fold hy dx dz e1 e3 h2. pose proof (DX i Hi). pose proof (DZ k Hk). field. auto. }
  rewrite (S3_ext 0 (nx-1) 0 (ny-1) 0 nz _ (fun i j k => - ((dx i * hz k) * (h3 i j k * (e1 i (j+1)%Z k - e1 i j k)) + (- (dy j * hz k)) * (h3 i j k * (e2 (i+1)%Z j k - e2 i j k))))).
  2:{ intros i j k Hi Hj Hk. unfold volH, rotE, shift; cbn [upA SpecGeom.coord]. fold hz dx dy e1 e2 h3. pose proof (DX i Hi). pose proof (DY j Hj). field. auto. }
  assert (OPP : forall a b d e f q g, S3 a b d e f q (fun i j k => - g i j k) = - S3 a b d e f q g).
  { intros. assert (X : S3 a b d e f q (fun i j k => - g i j k + g i j k) = 0). { rewrite (S3_ext _ _ _ _ _ _ _ (fun _ _ _ => 0)) by (intros; ring). unfold S3. rewrite (sumZ_ext a b _ (fun _ => 0)); [apply sumZ_zero|]. intros. rewrite (sumZ_ext d e _ (fun _ => 0)); [apply sumZ_zero|]. intros. apply sumZ_zero. } rewrite S3_plus in X. lra. }
  rewrite !OPP, !S3_plus.
  pose proof (sbp_y 0 (nx-1) 0 ny 0 nz (fun i k => dx i * hz k) e1 h3 ltac:(lia) (fun i k Hi Hk => proj1 (WY i k ltac:(lia) Hk) ltac:(lia))) as P1.
  pose proof (sbp_z 0 (nx-1) 0 ny 0 nz (fun i j => - (dx i * hy j)) e1 h2 ltac:(lia) (fun i j Hi Hj => proj1 (WW i j ltac:(lia) Hj) ltac:(lia))) as P2.
  pose proof (sbp_z 0 nx 0 (ny-1) 0 nz (fun i j => hx i * dy j) e2 h1 ltac:(lia) (fun i j Hi Hj => proj2 (WW i j Hi ltac:(lia)) ltac:(lia))) as P3.
  pose proof (sbp_x 0 nx 0 (ny-1) 0 nz (fun j k => - (dy j * hz k)) e2 h3 ltac:(lia) (fun j k Hj Hk => proj1 (WX j k ltac:(lia) Hk) ltac:(lia))) as P4.
  pose proof (sbp_x 0 nx 0 ny 0 (nz-1) (fun j k => hy j * dz k) e3 h2 ltac:(lia) (fun j k Hj Hk => proj2 (WX j k Hj ltac:(lia)) ltac:(lia))) as P5.
  pose proof (sbp_y 0 nx 0 ny 0 (nz-1) (fun i k => - (hx i * dz k)) e3 h1 ltac:(lia) (fun i k Hi Hk => proj2 (WY i k Hi ltac:(lia)) ltac:(lia))) as P6.
  cbv beta in *. lra.
Qed.
End Mesh.

(** ** Two solutions *)
Section Two.
Variables (c : Cfg) (lines : Axis -> carr R) (dt : R).
Hypothesis W : wf c.
Hypothesis PE : forall a n, (0 <= n <= numLines c a - 2)%Z -> 0 < edge lines a n.
Hypothesis PD : forall a n, (0 <= n <= numLines c a - 1)%Z -> 0 < dual c lines a n.
Hypothesis DT : 0 < dt.
Hypothesis PEC : forall f, outerSurfaceType c f = BT_PEC.
Variables (h h' : MeshData) (wE wH wE' wH' : nat -> Src -> R) (E H E' H' J K J' K' : nat -> Vec).
Hypothesis MX : maxwell c h lines dt wE wH E H.
Hypothesis MX' : maxwell c h' lines dt wE' wH' E' H'.
Hypothesis CU : currents c h lines wE wH J K.
Hypothesis CU' : currents c h' lines wE' wH' J' K'.
Hypothesis SC : same_scene c h h' lines.
Hypothesis CA : forall a x y z, in_mesh c (Eat a) x y z -> interior c (Eat a) x y z \/ made_of (Eat a) x y z (regions c h lines) Metal.
Hypothesis WM : forall a b x y z, in_mesh c (Eat a) x y z -> b <> a -> (SpecGeom.coord x y z b = 0 \/ SpecGeom.coord x y z b = numLines c b - 1)%Z -> made_of (Eat a) x y z (regions c h lines) Metal.
Lemma metal_zero a x y z : in_mesh c (Eat a) x y z -> made_of (Eat a) x y z (regions c h lines) Metal -> forall n, E n a x y z = 0 /\ E' n a x y z = 0.
Proof.
  intros Y MO n. assert (OM : off_mur_walls c (Eat a) x y z). { intros q. specialize (Y q). cbv zeta in *. destruct Y as (Y & _). split; [exact Y|]. rewrite !PEC. split; discriminate. }
  destruct CU as (NF & _). destruct CU' as (NF' & _). split.
  - apply (mx_metal _ _ _ _ _ _ _ _ MX n a x y z OM MO). intros s I F. rewrite (NF s I) in F. discriminate F.
  - apply (mx_metal _ _ _ _ _ _ _ _ MX' n a x y z OM (proj1 (SC _ _ _ _ _ Y) MO)). intros s I F. rewrite (NF' s I) in F. discriminate F.
Qed.
Lemma point_E a x y z N : in_mesh c (Eat a) x y z ->
  conv (fun n => J n a x y z) (fun n => E' n a x y z) N - conv (fun n => J' n a x y z) (fun n => E n a x y z) N =
  conv (fun n => rotH c lines (H n) a x y z) (fun n => E' n a x y z) N - conv (fun n => rotH c lines (H' n) a x y z) (fun n => E n a x y z) N.
Proof.
  intros Y. assert (ML : made_of (Eat a) x y z (regions c h lines) Metal -> forall u u', conv u (fun n => E' n a x y z) N = 0 /\ conv u' (fun n => E n a x y z) N = 0).
  { intros MO u u'. split; rewrite conv_comm; [apply eq_trans with (conv (fun _ => 0) u N)|apply eq_trans with (conv (fun _ => 0) u' N)]; try apply conv_zero; apply conv_ext; intros n _; (split; [apply (metal_zero a x y z Y MO)|reflexivity]). }
  destruct (made_total (Eat a) x y z (regions c h lines)) as ([|ep sg mu] & MO).
  { pose proof (ML MO) as M. rewrite !(proj1 (M _ (fun _ => 0))), !(proj2 (M (fun _ => 0) _)). ring. }
  destruct (CA a x y z Y) as [I|I].
  2:{ pose proof (ML I) as M. rewrite !(proj1 (M _ (fun _ => 0))), !(proj2 (M (fun _ => 0) _)). ring. }
  set (A := ep * eps0 / dt + sg / 2). set (B := ep * eps0 / dt - sg / 2).
  assert (X : forall n, J n a x y z = 1 * rotH c lines (H n) a x y z + 1 * (- A * E (S n) a x y z + B * E n a x y z)).
  { intros n. destruct CU as (_ & C1). pose proof (mx_ampere _ _ _ _ _ _ _ _ MX n a x y z ep sg mu _ _ I MO (proj1 (C1 n a x y z) Y)) as Q. unfold ampere in Q. unfold A, B.
    assert (Q2 : rotH c lines (H n) a x y z - J n a x y z = (ep * eps0 / dt + sg / 2) * E (S n) a x y z - (ep * eps0 / dt - sg / 2) * E n a x y z) by (rewrite <- Q; field; lra). lra. }
  assert (X' : forall n, J' n a x y z = 1 * rotH c lines (H' n) a x y z + 1 * (- A * E' (S n) a x y z + B * E' n a x y z)).
  { intros n. destruct CU' as (_ & C1). pose proof (mx_ampere _ _ _ _ _ _ _ _ MX' n a x y z ep sg mu _ _ I (proj1 (SC _ _ _ _ _ Y) MO) (proj1 (C1 n a x y z) Y)) as Q. unfold ampere in Q. unfold A, B.
    assert (Q2 : rotH c lines (H' n) a x y z - J' n a x y z = (ep * eps0 / dt + sg / 2) * E' (S n) a x y z - (ep * eps0 / dt - sg / 2) * E' n a x y z) by (rewrite <- Q; field; lra). lra. }
  rewrite (conv_ext (fun n => J n a x y z) (fun n => 1 * rotH c lines (H n) a x y z + 1 * (- A * E (S n) a x y z + B * E n a x y z)) (fun n => E' n a x y z) (fun n => E' n a x y z) N (fun n _ => conj (X n) eq_refl)).
  rewrite (conv_ext (fun n => J' n a x y z) (fun n => 1 * rotH c lines (H' n) a x y z + 1 * (- A * E' (S n) a x y z + B * E' n a x y z)) (fun n => E n a x y z) (fun n => E n a x y z) N (fun n _ => conj (X' n) eq_refl)).
  rewrite (conv_lin 1 1 (fun n => rotH c lines (H n) a x y z) (fun n => - A * E (S n) a x y z + B * E n a x y z)), (conv_lin 1 1 (fun n => rotH c lines (H' n) a x y z) (fun n => - A * E' (S n) a x y z + B * E' n a x y z)).
  rewrite (conv_lin (- A) B (fun n => E (S n) a x y z) (fun n => E n a x y z)), (conv_lin (- A) B (fun n => E' (S n) a x y z) (fun n => E' n a x y z)).
  rewrite (conv_next (fun n => E n a x y z)), (conv_next (fun n => E' n a x y z)) by first [exact (proj1 (mx_rest _ _ _ _ _ _ _ _ MX a x y z) Y)|exact (proj1 (mx_rest _ _ _ _ _ _ _ _ MX' a x y z) Y)].
  rewrite (conv_comm (fun n => E' n a x y z) (fun n => E n a x y z)), (conv_comm (fun n => E' n a x y z) (fun n => E n a x y z)). ring.
Qed.
Lemma point_H a x y z N : in_mesh c (Hat a) x y z ->
  conv (fun n => H n a x y z) (fun n => rotE lines (E' n) a x y z) N - conv (fun n => H' n a x y z) (fun n => rotE lines (E n) a x y z) N =
  conv (late (fun n => K n a x y z)) (fun n => H' n a x y z) N - conv (late (fun n => K' n a x y z)) (fun n => H n a x y z) N.
Proof.
  intros Y. destruct (made_total (Hat a) x y z (regions c h lines)) as (mat & MO). set (u := match mat with Metal => mu0 | Simple _ _ mu => mu * mu0 end).
  assert (R0 : forall D : nat -> Vec, (forall b x y z, in_mesh c (Eat b) x y z -> D O b x y z = 0) -> rotE lines (D O) a x y z = 0).
  { intros D Z. rewrite (rotE_mesh c lines (D O) (fun _ _ _ _ => 0) a x y z Y Z). unfold rotE, shift, Rdiv. cbv zeta; destruct a; cbn [upA SpecGeom.coord]; ring. }
  assert (X : forall n, rotE lines (E n) a x y z = - u / dt * H n a x y z + 1 * (u / dt * late (fun n => H n a x y z) n + - 1 * late (fun n => K n a x y z) n)).
  { intros [|n]; cbn [late].
    - rewrite (R0 E) by (intros; apply (mx_rest _ _ _ _ _ _ _ _ MX); assumption). rewrite (proj2 (mx_rest _ _ _ _ _ _ _ _ MX a x y z) Y). ring.
    - destruct CU as (_ & C1). pose proof (mx_faraday _ _ _ _ _ _ _ _ MX n a x y z mat _ _ Y MO (proj2 (C1 n a x y z) Y)) as Q. fold u in Q. unfold faraday in Q.
      assert (Q2 : - rotE lines (E (S n)) a x y z - K n a x y z = u / dt * H (S n) a x y z - u / dt * H n a x y z) by (rewrite <- Q; field; lra). unfold Rdiv in *. lra. }
  assert (X' : forall n, rotE lines (E' n) a x y z = - u / dt * H' n a x y z + 1 * (u / dt * late (fun n => H' n a x y z) n + - 1 * late (fun n => K' n a x y z) n)).
  { intros [|n]; cbn [late].
    - rewrite (R0 E') by (intros; apply (mx_rest _ _ _ _ _ _ _ _ MX'); assumption). rewrite (proj2 (mx_rest _ _ _ _ _ _ _ _ MX' a x y z) Y). ring.
    - destruct CU' as (_ & C1). pose proof (mx_faraday _ _ _ _ _ _ _ _ MX' n a x y z mat _ _ Y (proj1 (SC _ _ _ _ _ Y) MO) (proj2 (C1 n a x y z) Y)) as Q. fold u in Q. unfold faraday in Q.
      assert (Q2 : - rotE lines (E' (S n)) a x y z - K' n a x y z = u / dt * H' (S n) a x y z - u / dt * H' n a x y z) by (rewrite <- Q; field; lra). unfold Rdiv in *. lra. }
  rewrite (conv_comm (fun n => H n a x y z) (fun n => rotE lines (E' n) a x y z)), (conv_comm (fun n => H' n a x y z) (fun n => rotE lines (E n) a x y z)).
  rewrite (conv_ext (fun n => rotE lines (E' n) a x y z) _ (fun n => H n a x y z) (fun n => H n a x y z) N (fun n _ => conj (X' n) eq_refl)).
  rewrite (conv_ext (fun n => rotE lines (E n) a x y z) _ (fun n => H' n a x y z) (fun n => H' n a x y z) N (fun n _ => conj (X n) eq_refl)).
  rewrite (conv_lin (- u / dt) 1 (fun n => H' n a x y z) (fun n => u / dt * late (fun n => H' n a x y z) n + - 1 * late (fun n => K' n a x y z) n)), (conv_lin (- u / dt) 1 (fun n => H n a x y z) (fun n => u / dt * late (fun n => H n a x y z) n + - 1 * late (fun n => K n a x y z) n)).
  rewrite (conv_lin (u / dt) (- 1) (late (fun n => H' n a x y z)) (late (fun n => K' n a x y z))), (conv_lin (u / dt) (- 1) (late (fun n => H n a x y z)) (late (fun n => K n a x y z))).
  rewrite (conv_comm (fun n => H' n a x y z) (fun n => H n a x y z)). rewrite (conv_comm (late (fun n => H' n a x y z))), (conv_comm (late (fun n => H n a x y z))). rewrite (conv_late_sym (fun n => H n a x y z) (fun n => H' n a x y z)). ring.
Qed.
Lemma curl_sums (D : nat -> Vec) (G : nat -> Vec) N : (forall n a b x y z, in_mesh c (Eat a) x y z -> b <> a -> (SpecGeom.coord x y z b = 0 \/ SpecGeom.coord x y z b = numLines c b - 1)%Z -> D n a x y z = 0) ->
  overE c (fun a x y z => volE c lines a x y z * conv (fun n => rotH c lines (G n) a x y z) (fun n => D n a x y z) N) =
  overH c (fun a x y z => volH c lines a x y z * conv (fun n => G n a x y z) (fun n => rotE lines (D n) a x y z) N).
Proof.
  intros Z. unfold conv.
  rewrite (overE_ext c _ (fun a x y z => sum_f_R0 (fun n => volE c lines a x y z * (D (N - n)%nat a x y z * rotH c lines (G n) a x y z)) N)).
  2:{ intros a x y z _. rewrite scal_sum. apply sum_eq. intros. cbv beta. ring. }
  rewrite (overH_ext c _ (fun a x y z => sum_f_R0 (fun n => volH c lines a x y z * (G n a x y z * rotE lines (D (N - n)%nat) a x y z)) N)).
  2:{ intros a x y z _. rewrite scal_sum. apply sum_eq. intros. cbv beta. ring. }
  rewrite (overE_sum c (fun n a x y z => volE c lines a x y z * (D (N - n)%nat a x y z * rotH c lines (G n) a x y z))), (overH_sum c (fun n a x y z => volH c lines a x y z * (G n a x y z * rotE lines (D (N - n)%nat) a x y z))).
  apply sum_eq. intros n _. apply (by_parts c lines W PE PD (D (N - n)%nat) (G n)). intros. eapply Z; eassumption.
Qed.
Lemma reactions N : reaction c lines E' H' J K N = reaction c lines E H J' K' N.
Proof.
  unfold reaction.
  assert (ZE : forall n a b x y z, in_mesh c (Eat a) x y z -> b <> a -> (SpecGeom.coord x y z b = 0 \/ SpecGeom.coord x y z b = numLines c b - 1)%Z -> E n a x y z = 0 /\ E' n a x y z = 0).
  { intros n a b x y z Y BA CW. apply (metal_zero a x y z Y). exact (WM a b x y z Y BA CW). }
  pose proof (curl_sums E' H N (fun n a b x y z Y BA CW => proj2 (ZE n a b x y z Y BA CW))) as P1. pose proof (curl_sums E H' N (fun n a b x y z Y BA CW => proj1 (ZE n a b x y z Y BA CW))) as P2.
  assert (S1 : overE c (fun a x y z => volE c lines a x y z * conv (fun n => J n a x y z) (fun n => E' n a x y z) N) + overE c (fun a x y z => volE c lines a x y z * conv (fun n => rotH c lines (H' n) a x y z) (fun n => E n a x y z) N) =
     overE c (fun a x y z => volE c lines a x y z * conv (fun n => J' n a x y z) (fun n => E n a x y z) N) + overE c (fun a x y z => volE c lines a x y z * conv (fun n => rotH c lines (H n) a x y z) (fun n => E' n a x y z) N)).
  { rewrite <- !overE_plus. apply overE_ext. intros a x y z Y. pose proof (point_E a x y z N Y) as Q. rewrite <- !Rmult_plus_distr_l. f_equal. lra. }
  assert (S2 : overH c (fun a x y z => volH c lines a x y z * conv (late (fun n => K n a x y z)) (fun n => H' n a x y z) N) + overH c (fun a x y z => volH c lines a x y z * conv (fun n => H' n a x y z) (fun n => rotE lines (E n) a x y z) N) =
     overH c (fun a x y z => volH c lines a x y z * conv (late (fun n => K' n a x y z)) (fun n => H n a x y z) N) + overH c (fun a x y z => volH c lines a x y z * conv (fun n => H n a x y z) (fun n => rotE lines (E' n) a x y z) N)).
  { rewrite <- !overH_plus. apply overH_ext. intros a x y z Y. pose proof (point_H a x y z N Y) as Q. rewrite <- !Rmult_plus_distr_l. f_equal. lra. }
  lra.
Qed.
End Two.

(** ** The files *)
Section Closed.
Variables (c : Cfg) (lines : Axis -> carr R) (e : Axis -> Edges) (dt : R).
Lemma closed_facts h : closed_problem c h lines e dt -> wf c /\ (forall a n, (0 <= n <= numLines c a - 2)%Z -> 0 < edge lines a n) /\ (forall a n, (0 <= n <= numLines c a - 1)%Z -> 0 < dual c lines a n) /\ 0 < dt /\
  (forall a x y z, in_mesh c (Eat a) x y z -> interior c (Eat a) x y z \/ made_of (Eat a) x y z (regions c h lines) Metal) /\
  (forall a b x y z, in_mesh c (Eat a) x y z -> b <> a -> (SpecGeom.coord x y z b = 0 \/ SpecGeom.coord x y z b = numLines c b - 1)%Z -> made_of (Eat a) x y z (regions c h lines) Metal) /\
  (forall s, In s (h_srcs h) -> good_src c (h_wfs h) s) /\ NoDup (map s_name (h_srcs h)).
Proof.
  intros [(df & file & st & tr & RD) CF PEC PM NS SS OC SO LI HM IN (cn & garbage & CN & PC & HE)].
  assert (WD : wide c) by (intros a; right; rewrite PEC; discriminate).
  split; [exact (file_wf h c CF)|]. pose proof (file_sizes df file st h tr c RD CF WD lines cn garbage e dt HM IN HE) as (S1 & S2).
  split; [intros a n Hn; apply (S1 a n Hn)|]. split; [intros a n Hn; apply (S2 a n Hn)|].
  split; [exact (file_dt df file st h tr c RD CF WD lines cn garbage e dt HM IN CN PC HE)|].
  split; [exact (edge_cases df file st h tr c RD CF lines e PEC LI)|]. split; [exact (wall_metal df file st h tr c RD CF lines PEC LI)|].
  split; [exact (file_src df file st h tr c RD CF SS SO)|]. apply (C69_consistent df file st h tr RD).
Qed.
Lemma closed_maxwell h : closed_problem c h lines e dt -> forall rcm ep ts d s, set_up c h e dt (w_m s) -> quiet (w_m s) ->
  let m n := w_m (wrun c (progOf c h rcm ep ts (fun a n => adat (eDe (e a)) n) (fun a n => adat (eDh (e a)) n)) d 0 n s) in
  maxwell c h lines dt (d_wE d) (d_wH d) (fun n => fieldE c (m n)) (fun n => fieldH c (m n)).
Proof.
  intros [(df & file & st & tr & RD) CF PEC PM NS SS OC SO LI HM IN (cn & garbage & CN & PC & HE)]. intros.
  assert (WD : wide c) by (intros a; right; rewrite PEC; discriminate).
  exact (hist_maxwell df file st h tr c RD CF WD PM NS SS OC SO lines cn garbage e dt HM IN CN PC HE rcm ep ts d s H H0).
Qed.
Lemma closed_reaction h h' : closed_problem c h lines e dt -> closed_problem c h' lines e dt -> same_scene c h h' lines ->
  forall wE wH wE' wH' E H E' H' J K J' K', maxwell c h lines dt wE wH E H -> maxwell c h' lines dt wE' wH' E' H' -> currents c h lines wE wH J K -> currents c h' lines wE' wH' J' K' ->
  forall N, reaction c lines E' H' J K N = reaction c lines E H J' K' N.
Proof.
  intros P P' SC wE wH wE' wH' E H E' H' J K J' K' MX MX' CU CU' N. destruct (closed_facts h P) as (W & PE & PD & DT & CA & WM & _ & _).
  exact (reactions c lines dt W PE PD DT (cp_walls _ _ _ _ _ P) h h' wE wH wE' wH' E H E' H' J K J' K' MX MX' CU CU' SC CA WM N).
Qed.

(** *** One source *)
Lemma total_one (P : Src -> Prop) v l s : NoDup (map s_name l) -> In s l -> (forall q, In q l -> q <> s -> v q = 0) -> forall t, total_of P v l t -> (P s -> t = v s) /\ (~ P s -> t = 0).
Proof.
  intros ND I Z t T. induction T as [|q l t Q T IH|q l t Q T IH]; [destruct I| |].
  - cbn in ND. apply NoDup_cons_iff in ND as (N1 & N2). destruct I as [-> | I].
    + split; [|tauto]. intros _. assert (t = 0); [|lra]. clear IH. assert (ZZ : forall q, In q l -> v q = 0). { intros q Iq. apply Z; [right; exact Iq|]. intros ->. apply N1. apply in_map. exact Iq. }
      clear Z N1 N2. induction T as [|q' l t Q' T IH|q' l t Q' T IH]; [reflexivity| |]. { rewrite (ZZ q' (or_introl eq_refl)), IH; [ring|]. intros; apply ZZ; right; assumption. } { apply IH. intros; apply ZZ; right; assumption. }
    + rewrite (Z q (or_introl eq_refl)). 2:{ intros ->. apply N1. apply in_map. exact I. } destruct (IH N2 I (fun q' I' => Z q' (or_intror I'))) as (A & B). split; intros X; [rewrite A by exact X|rewrite B by exact X]; ring.
  - cbn in ND. apply NoDup_cons_iff in ND as (N1 & N2). destruct I as [-> | I].
    + split; [tauto|]. intros _. clear IH. assert (ZZ : forall q, In q l -> v q = 0). { intros q Iq. apply Z; [right; exact Iq|]. intros ->. apply N1. apply in_map. exact Iq. }
      clear Z N1 N2. induction T as [|q' l t Q' T IH|q' l t Q' T IH]; [reflexivity| |]. { rewrite (ZZ q' (or_introl eq_refl)), IH; [ring|]. intros; apply ZZ; right; assumption. } { apply IH. intros; apply ZZ; right; assumption. }
    + exact (IH N2 I (fun q' I' => Z q' (or_intror I'))).
Qed.
Definition at_edge (a : Axis) (x y z : Z) (b : Axis) (u v w : Z) : bool := axis_eqb a b && (x =? u)%Z && (y =? v)%Z && (z =? w)%Z.
Lemma axis_eqb_iff a b : axis_eqb a b = true <-> a = b.
Proof. destruct a, b; split; intros; try reflexivity; discriminate. Qed.
Lemma sumZ_pick lo hi f x : (lo <= x <= hi)%Z -> (forall y, (lo <= y <= hi)%Z -> y <> x -> f y = 0) -> sumZ lo hi f = f x.
Proof.
  intros Hx Z. remember (Z.to_nat (hi - x)) as n eqn:N. revert hi Hx Z N. induction n as [|n IH]; intros hi Hx Z N.
  - assert (hi = x) by lia. subst hi. rewrite sumZ_snoc by lia. rewrite (sumZ_ext lo (x - 1) _ (fun _ => 0)); [rewrite sumZ_zero; ring|]. intros y Hy. apply Z; lia.
  - rewrite sumZ_snoc by lia. rewrite (IH (hi - 1)%Z) by (try lia; intros; apply Z; lia). rewrite (Z hi) by lia. ring.
Qed.
Lemma sumMesh_pick f g x y z : in_mesh c f x y z -> (forall u v w, (u, v, w) <> (x, y, z) -> g u v w = 0) -> sumMesh c f g = g x y z.
Proof.
  intros Y Z. assert (B : forall a, (0 <= SpecGeom.coord x y z a <= last c f a)%Z).
  { intros a. specialize (Y a). cbv zeta in Y. destruct Y as (Y & _). unfold meshAll, ypos, last in *. destruct a; cbn [face_lo face_hi is_lo face_axis SpecGeom.coord] in *; destruct (staggered f XDIR), (staggered f YDIR), (staggered f ZDIR); lia. }
  pose proof (B XDIR) as BX. pose proof (B YDIR) as BY. pose proof (B ZDIR) as BZ. cbn [SpecGeom.coord] in *. unfold sumMesh. rewrite (sumZ_pick _ _ _ x BX).
  - rewrite (sumZ_pick _ _ _ y BY). { apply (sumZ_pick _ _ _ z BZ). intros w _ N. apply Z. congruence. } intros v _ N. rewrite (sumZ_ext _ _ _ (fun _ => 0)); [apply sumZ_zero|]. intros. apply Z. congruence.
  - intros u _ N. rewrite (sumZ_ext _ _ _ (fun _ => 0)); [apply sumZ_zero|]. intros. rewrite (sumZ_ext _ _ _ (fun _ => 0)); [apply sumZ_zero|]. intros. apply Z. congruence.
Qed.
Lemma sumMesh_none f g : (forall u v w, g u v w = 0) -> sumMesh c f g = 0.
Proof. intros Z. unfold sumMesh. rewrite (sumZ_ext _ _ _ (fun _ => 0)); [apply sumZ_zero|]. intros. rewrite (sumZ_ext _ _ _ (fun _ => 0)); [apply sumZ_zero|]. intros. rewrite (sumZ_ext _ _ _ (fun _ => 0)); [apply sumZ_zero|]. intros. apply Z. Qed.
Lemma overE_pick g a x y z : in_mesh c (Eat a) x y z -> (forall b u v w, at_edge a x y z b u v w = false -> g b u v w = 0) -> overE c g = g a x y z.
Proof.
  intros Y Z. assert (P : sumMesh c (Eat a) (g a) = g a x y z). { apply (sumMesh_pick _ _ x y z Y). intros u v w N. apply Z. unfold at_edge. rewrite (proj2 (axis_eqb_iff a a) eq_refl). cbn [andb]. destruct (x =? u)%Z eqn:A, (y =? v)%Z eqn:B, (z =? w)%Z eqn:D; try reflexivity. exfalso. apply N. f_equal; [f_equal|]; lia. }
  assert (O : forall b, a <> b -> sumMesh c (Eat b) (g b) = 0). { intros b N. apply sumMesh_none. intros. apply Z. unfold at_edge. destruct (axis_eqb a b) eqn:Q; [apply axis_eqb_iff in Q; contradiction|reflexivity]. }
  unfold overE. destruct a; rewrite P, !O by discriminate; ring.
Qed.
Lemma overH_none g : (forall b u v w, g b u v w = 0) -> overH c g = 0.
Proof. intros Z. unfold overH. rewrite !sumMesh_none by (intros; apply Z). ring. Qed.
Lemma deconv w u : (exists n, w n <> 0) -> (forall N, conv w u N = 0) -> forall m, u m = 0.
Proof.
  intros (n1 & W1) CV. assert (L : exists n0, w n0 <> 0 /\ forall n, (n < n0)%nat -> w n = 0).
  { revert W1. induction n1 as [n1 IH] using (well_founded_induction lt_wf). intros W1. destruct (Classical_Prop.classic (exists n, (n < n1)%nat /\ w n <> 0)) as [(n & L & Q)|NX]; [exact (IH n L Q)|].
    exists n1. split; [exact W1|]. intros n L. destruct (Req_dec (w n) 0); [assumption|]. exfalso. apply NX. exists n. auto. }
  destruct L as (n0 & W0 & L0). intros m. induction m as [m IH] using (well_founded_induction lt_wf). specialize (CV (n0 + m)%nat). unfold conv in CV.
  assert (X : w n0 * u m = 0).
  { destruct n0 as [|n0].
    - cbn [Nat.add] in CV. destruct m as [|m]; [cbn in CV; lra|]. rewrite decomp_sum in CV by lia. rewrite Nat.sub_0_r in CV. cbn [pred] in CV. rewrite (sum_eq_R0 _ m) in CV; [lra|]. intros n Ln. rewrite IH by lia. ring.
    - rewrite (tech2 _ n0 (S n0 + m)) in CV by lia. rewrite (sum_eq_R0 _ n0) in CV. 2:{ intros n Ln. rewrite L0 by lia. ring. }
      rewrite Rplus_0_l in CV. replace (S n0 + m - S n0)%nat with m in CV by lia. destruct m as [|m].
      + cbn [sum_f_R0] in CV. rewrite !Nat.add_0_r in CV. rewrite Nat.sub_diag in CV. exact CV.
      + rewrite decomp_sum in CV by lia. cbn [pred] in CV. rewrite (sum_eq_R0 _ m) in CV.
        * rewrite Nat.add_0_r in CV. replace (S n0 + S m - S n0)%nat with (S m) in CV by lia. lra.
        * intros n Ln. rewrite (IH (S n0 + S m - (S n0 + S n))%nat) by lia. ring. }
  apply Rmult_integral in X. destruct X; [contradiction|assumption].
Qed.
Lemma conv_scal k u v N : conv (fun n => k * u n) v N = k * conv u v N.
Proof. unfold conv. rewrite scal_sum. apply sum_eq. intros. ring. Qed.

Definition Jof (k : R) (w : nat -> R) (a : Axis) (x y z : Z) : nat -> Vec := fun n b u v q => if at_edge a x y z b u v q then k * w n else 0.
Lemma edge_source h s a x y z wE wH w : closed_problem c h lines e dt -> on_edge s a x y z -> only_source h wE wH s w ->
  in_mesh c (Eat a) x y z /\ 0 < volE c lines a x y z /\ currents c h lines wE wH (Jof (s_size s * arm c lines s / volE c lines a x y z) w a x y z) (fun _ _ _ _ _ => 0).
Proof.
  intros P (POL & BOX) (IS & EC & NI & OFF & ON). destruct (closed_facts h P) as (W & PE & PD & DT & CA & WM & GS & ND).
  destruct (GS s IS) as (AC & _ & RS). destruct (accepted_src_ok c (h_wfs h) s AC) as ((IM & _) & (hard & q & p & M & T) & _). destruct (tag_fields hard q p _ M T) as (T1 & T2 & T3 & T4).
  assert (FE : t_field (s_tag s) = Eat a). { rewrite T3. assert (PA : p = a) by congruence. rewrite PA. unfold electric_current in EC. rewrite T1 in EC. unfold fieldOf. destruct q; cbn [typeOf magnetic] in *; try contradiction; destruct a; reflexivity. }
  assert (YM : in_mesh c (Eat a) x y z).
  { intros b. cbv zeta. specialize (IM b). destruct (BOX b) as (B1 & B2). rewrite B1, B2 in IM. unfold meshAll, ypos. split; [|split; discriminate].
    destruct a, b; cbn [Eat staggered is_E fld_axis axis_eqb negb face_lo face_hi is_lo face_axis SpecGeom.coord] in *; lia. }
  assert (RG : forall b, (0 <= SpecGeom.coord x y z b <= numLines c b - 1)%Z /\ (b = a -> SpecGeom.coord x y z b <= numLines c b - 2)%Z).
  { intros b. specialize (IM b). destruct (BOX b) as (B1 & B2). rewrite B1, B2 in IM. destruct a, b; cbn [axis_eqb] in *; split; try lia; intros; try discriminate; lia. }
  assert (LE : elecLen lines s = edge lines a (SpecGeom.coord x y z a)).
  { unfold elecLen, len. rewrite POL. destruct (BOX a) as (B1 & B2). rewrite B1, B2. rewrite (proj2 (axis_eqb_iff a a) eq_refl). unfold sum. replace (SpecGeom.coord x y z a + 1 - 1)%Z with (SpecGeom.coord x y z a) by lia. rewrite zrange_cons, zrange_nil by lia. cbn. ring. }
  assert (LD : forall b, b <> a -> len (dual c lines) (s_mbbox s) b true = dual c lines b (SpecGeom.coord x y z b)).
  { intros b NB. unfold len. destruct (BOX b) as (B1 & B2). rewrite B1, B2. destruct (axis_eqb a b) eqn:Q; [apply axis_eqb_iff in Q; congruence|]. unfold sum. rewrite Z.add_0_r. rewrite zrange_cons, zrange_nil by lia. cbn. ring. }
  assert (FA : elecFace c lines s = dual c lines (upA a) (SpecGeom.coord x y z (upA a)) * dual c lines (upA (upA a)) (SpecGeom.coord x y z (upA (upA a)))).
  { unfold elecFace. rewrite POL. rewrite !LD by (destruct a; discriminate). reflexivity. }
  assert (VO : volE c lines a x y z = elecLen lines s * elecFace c lines s). { rewrite LE, FA. unfold volE. cbv zeta. ring. }
  assert (P1 : 0 < elecLen lines s). { rewrite LE. apply PE. destruct (RG a) as (A & B). specialize (B eq_refl). lia. }
  assert (P2 : 0 < elecFace c lines s). { rewrite FA. apply Rmult_lt_0_compat; apply PD; apply RG. }
  split; [exact YM|]. split; [rewrite VO; apply Rmult_lt_0_compat; assumption|]. split; [exact NI|].
  assert (CV : forall f u v q, covered f u v q s <-> f = Eat a /\ (u, v, q) = (x, y, z)).
  { intros f u v q0. unfold covered. rewrite FE. split.
    - intros (-> & Y). split; [reflexivity|]. pose proof (BOX XDIR) as BX. pose proof (BOX YDIR) as BY. pose proof (BOX ZDIR) as BZ. pose proof (Y XDIR) as YX. pose proof (Y YDIR) as YY. pose proof (Y ZDIR) as YZ. cbv zeta in YX, YY, YZ. destruct YX as (YX & _), YY as (YY & _), YZ as (YZ & _).
      rewrite (proj1 BX), (proj2 BX) in YX. rewrite (proj1 BY), (proj2 BY) in YY. rewrite (proj1 BZ), (proj2 BZ) in YZ. unfold ypos in *. destruct a; cbn [Eat staggered is_E fld_axis axis_eqb negb SpecGeom.coord] in *; f_equal; [f_equal| |f_equal| |f_equal|]; lia.
    - intros (-> & Q). injection Q as -> -> ->. split; [reflexivity|]. intros b. cbv zeta. destruct (BOX b) as (B1 & B2). rewrite B1, B2. split; [|split; discriminate]. unfold ypos. destruct a, b; cbn [Eat staggered is_E fld_axis axis_eqb negb SpecGeom.coord] in *; lia. }
  assert (AE : forall b u v r, at_edge a x y z b u v r = true <-> covered (Eat b) u v r s).
  { intros b u v r. rewrite CV. unfold at_edge. split.
    - intros Q. apply andb_prop in Q as (Q & Q3). apply andb_prop in Q as (Q & Q2). apply andb_prop in Q as (Q0 & Q1). apply axis_eqb_iff in Q0. subst b. split; [reflexivity|]. f_equal; [f_equal|]; lia.
    - intros (Q0 & Q). injection Q as -> -> ->. assert (b = a) as -> by (destruct a, b; first [reflexivity|discriminate Q0]). rewrite (proj2 (axis_eqb_iff a a) eq_refl), !Z.eqb_refl. reflexivity. }
  assert (VS : forall n, impressed c lines s (s_size s * wE n s) = s_size s * arm c lines s / volE c lines a x y z * w n).
  { intros n. rewrite ON, VO. unfold impressed, arm, electric_current in *. destruct (t_type (s_tag s)); try contradiction; field; split; lra. }
  assert (V0 : forall q, impressed c lines q (s_size q * 0) = 0). { intros q0. unfold impressed, Rdiv. destruct (t_type (s_tag q0)); ring. }
  assert (V1 : forall q r, impressed c lines q (0 * r) = 0). { intros q0 r. unfold impressed, Rdiv. destruct (t_type (s_tag q0)); ring. }
  intros n b u v r. split; intros Y.
  - destruct (drives_ex h c lines (wE n) (Eat b) u v r) as (J0 & F0 & DJ & DF). split.
    + replace (Jof _ w a x y z n b u v r) with J0; [exact DJ|].
      destruct (total_one (fun s => covered (Eat b) u v r s /\ impresses_field s = false) (fun s => impressed c lines s (s_size s * wE n s)) (h_srcs h) s ND IS) with (t := J0) as (A & B); [|exact DJ|].
      { intros q0 Iq Nq. destruct (OFF q0 n Iq Nq) as [-> | (-> & _)]; [apply V1|apply V0]. }
      unfold Jof. destruct (at_edge a x y z b u v r) eqn:Q.
      * rewrite A; [apply VS|]. split; [apply AE; exact Q|apply NI; exact IS].
      * apply B. intros (X & _). apply AE in X. congruence.
    + replace 0 with F0; [exact DF|]. revert DF. apply total_none. intros q0 Iq (_ & X). rewrite (NI q0 Iq) in X. discriminate X.
  - destruct (drives_ex h c lines (wH n) (Hat b) u v r) as (J0 & F0 & DJ & DF). split.
    + replace 0 with J0; [exact DJ|].
      destruct (total_one (fun s => covered (Hat b) u v r s /\ impresses_field s = false) (fun s => impressed c lines s (s_size s * wH n s)) (h_srcs h) s ND IS) with (t := J0) as (A & B); [|exact DJ|].
      { intros q0 Iq Nq. destruct (OFF q0 n Iq Nq) as [-> | (_ & ->)]; [apply V1|apply V0]. }
      apply B. intros (X & _). apply CV in X. destruct X as (X & _). destruct a, b; discriminate X.
    + replace 0 with F0; [exact DF|]. revert DF. apply total_none. intros q0 Iq (_ & X). rewrite (NI q0 Iq) in X. discriminate X.
Qed.
Lemma reaction_edge E H k w a x y z N : in_mesh c (Eat a) x y z -> reaction c lines E H (Jof k w a x y z) (fun _ _ _ _ _ => 0) N = volE c lines a x y z * (k * conv w (fun n => E n a x y z) N).
Proof.
  intros Y. unfold reaction. rewrite (overE_pick _ a x y z Y).
  - rewrite overH_none. 2:{ intros. rewrite (conv_ext _ (fun _ => 0) _ (fun n => H n b u v w0) N). { rewrite conv_zero. ring. } intros [|n] _; split; reflexivity. }
    rewrite Rminus_0_r. f_equal. rewrite <- conv_scal. apply conv_ext. intros n _. split; [|reflexivity]. unfold Jof, at_edge. rewrite (proj2 (axis_eqb_iff a a) eq_refl), !Z.eqb_refl. reflexivity.
  - intros b u v r Q. rewrite (conv_ext _ (fun _ => 0) _ (fun n => E n b u v r) N). { rewrite conv_zero. ring. } intros n _. unfold Jof. rewrite Q. split; reflexivity.
Qed.
Lemma swap h h' : closed_problem c h lines e dt -> closed_problem c h' lines e dt -> same_scene c h h' lines ->
  forall wE wH wE' wH' E H E' H' w s s' a x y z a' x' y' z', maxwell c h lines dt wE wH E H -> maxwell c h' lines dt wE' wH' E' H' ->
  on_edge s a x y z -> only_source h wE wH s w -> on_edge s' a' x' y' z' -> only_source h' wE' wH' s' w -> (exists n, w n <> 0) ->
  forall n, s_size s * arm c lines s * E' n a x y z = s_size s' * arm c lines s' * E n a' x' y' z'.
Proof.
  intros P P' SC wE wH wE' wH' E H E' H' w s s' a x y z a' x' y' z' MX MX' OE OS OE' OS' NZ.
  destruct (edge_source h s a x y z wE wH w P OE OS) as (Y & V & C). destruct (edge_source h' s' a' x' y' z' wE' wH' w P' OE' OS') as (Y' & V' & C').
  pose proof (closed_reaction h h' P P' SC _ _ _ _ E H E' H' _ _ _ _ MX MX' C C') as Q.
  assert (U : forall N, conv w (fun n => s_size s * arm c lines s * E' n a x y z - s_size s' * arm c lines s' * E n a' x' y' z') N = 0).
  { intros N. specialize (Q N). rewrite (reaction_edge E' H' _ w a x y z N Y), (reaction_edge E H _ w a' x' y' z' N Y') in Q. rewrite conv_comm.
    rewrite (conv_ext _ (fun n => s_size s * arm c lines s * E' n a x y z + - (s_size s' * arm c lines s') * E n a' x' y' z') w w N) by (intros; split; [ring|reflexivity]).
    rewrite (conv_lin _ _ (fun n => E' n a x y z) (fun n => E n a' x' y' z')). rewrite !(conv_comm _ w).
    set (A := conv w (fun n => E' n a x y z) N) in *. set (B := conv w (fun n => E n a' x' y' z') N) in *.
    replace (volE c lines a x y z * (s_size s * arm c lines s / volE c lines a x y z * A)) with (s_size s * arm c lines s * A) in Q by (field; lra).
    replace (volE c lines a' x' y' z' * (s_size s' * arm c lines s' / volE c lines a' x' y' z' * B)) with (s_size s' * arm c lines s' * B) in Q by (field; lra). lra. }
  intros n. pose proof (deconv w _ NZ U n) as X. cbv beta in X. lra.
Qed.
End Closed.

(** C76.  Two accepted mesh files of the same conducting box and scene, with
    sources of currents: the reaction (up to any step, as a convolution in time) of
    the fields of the second run on the currents of the first is that of the first
    run on the currents of the second. *)
Theorem C76_reciprocity : forall c lines e dt h h', closed_problem c h lines e dt -> closed_problem c h' lines e dt -> same_scene c h h' lines ->
  forall rcm ep ts d s rcm' ep' ts' d' s', set_up c h e dt (w_m s) -> quiet (w_m s) -> set_up c h' e dt (w_m s') -> quiet (w_m s') ->
  let m n := w_m (wrun c (progOf c h rcm ep ts (fun a n => adat (eDe (e a)) n) (fun a n => adat (eDh (e a)) n)) d 0 n s) in
  let m' n := w_m (wrun c (progOf c h' rcm' ep' ts' (fun a n => adat (eDe (e a)) n) (fun a n => adat (eDh (e a)) n)) d' 0 n s') in
  forall J K J' K', currents c h lines (d_wE d) (d_wH d) J K -> currents c h' lines (d_wE d') (d_wH d') J' K' ->
  forall N, reaction c lines (fun n => fieldE c (m' n)) (fun n => fieldH c (m' n)) J K N = reaction c lines (fun n => fieldE c (m n)) (fun n => fieldH c (m n)) J' K' N.
Proof.
  intros c lines e dt h h' P P' SC rcm ep ts d s rcm' ep' ts' d' s' SU QU SU' QU' m m' J K J' K' CU CU' N.
  exact (closed_reaction c lines e dt h h' P P' SC _ _ _ _ _ _ _ _ J K J' K' (closed_maxwell c lines e dt h P rcm ep ts d s SU QU) (closed_maxwell c lines e dt h' P' rcm' ep' ts' d' s' SU' QU') CU CU' N).
Qed.
(** Transmitter and receiver can be exchanged: if one run has a source of an
    electric current on one edge and the other a source with the same waveform on
    another edge, then each records at the other's place, at every step, the same
    field per unit of moment. *)
Theorem C76_swap : forall c lines e dt h h', closed_problem c h lines e dt -> closed_problem c h' lines e dt -> same_scene c h h' lines ->
  forall rcm ep ts d s rcm' ep' ts' d' s', set_up c h e dt (w_m s) -> quiet (w_m s) -> set_up c h' e dt (w_m s') -> quiet (w_m s') ->
  let m n := w_m (wrun c (progOf c h rcm ep ts (fun a n => adat (eDe (e a)) n) (fun a n => adat (eDh (e a)) n)) d 0 n s) in
  let m' n := w_m (wrun c (progOf c h' rcm' ep' ts' (fun a n => adat (eDe (e a)) n) (fun a n => adat (eDh (e a)) n)) d' 0 n s') in
  forall w t t' a x y z a' x' y' z', on_edge t a x y z -> only_source h (d_wE d) (d_wH d) t w -> on_edge t' a' x' y' z' -> only_source h' (d_wE d') (d_wH d') t' w -> (exists n, w n <> 0) ->
  forall n, s_size t * arm c lines t * fieldE c (m' n) a x y z = s_size t' * arm c lines t' * fieldE c (m n) a' x' y' z'.
Proof.
  intros c lines e dt h h' P P' SC rcm ep ts d s rcm' ep' ts' d' s' SU QU SU' QU' m m' w t t' a x y z a' x' y' z' OE OS OE' OS' NZ n.
  exact (swap c lines e dt h h' P P' SC _ _ _ _ (fun n => fieldE c (m n)) (fun n => fieldH c (m n)) (fun n => fieldE c (m' n)) (fun n => fieldH c (m' n)) w t t' a x y z a' x' y' z'
    (closed_maxwell c lines e dt h P rcm ep ts d s SU QU) (closed_maxwell c lines e dt h' P' rcm' ep' ts' d' s' SU' QU') OE OS OE' OS' NZ n).
Qed.
