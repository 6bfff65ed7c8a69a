(** C73: the media dump. *)
From Coq Require Import ZArith List Bool Ascii String Reals Lra Lia.
From Verif Require Import Types Lang LangProofs BBox Grid Step StepBounds SpecGrid SpecGeom Medium Media SpecMedia Setup SetupProofs MediaProofs P_Media SpecPhys Dump StepShape.
Import ListNotations.
Open Scope Z_scope.

Lemma ltbT x y : (x < y)%R -> ltb x y = true.
Proof. intros H. unfold ltb. destruct (Rlt_dec x y); [reflexivity|contradiction]. Qed.
Lemma ltbF x y : (y <= x)%R -> ltb x y = false.
Proof. intros H. unfold ltb. destruct (Rlt_dec x y); [lra|reflexivity]. Qed.
Lemma seqO_map {A B} (f : A -> option B) (g : A -> B) l : (forall x, In x l -> f x = Some (g x)) -> seqO (map f l) = Some (map g l).
Proof. induction l as [|x l IH]; intros K; [reflexivity|]. cbn [map seqO]. rewrite (K x (or_introl eq_refl)), IH by (intros y I; apply K; right; exact I). reflexivity. Qed.
(** what one point shows *)
Definition shown (eps0 mu0 dt : R) (m : mem R) (f : Fld) (i j k : Z) : ascii :=
  if is_E f then decodeAlphaBeta eps0 dt (m (L (AAlpha f) i j k)) (m (L (ABeta f) i j k)) else decodeGamma mu0 dt (m (L (AGamma f) i j k)).
Section One.
Variables (eps0 mu0 dt : R) (itoa : Z -> list ascii) (c : Cfg) (m : mem R).
Hypothesis W : wf c.
Lemma char_ok f i j k : 0 <= i <= gobox c XHI -> 0 <= j <= gobox c YHI -> 0 <= k <= gobox c ZHI -> dumpChar eps0 mu0 dt c m f i j k = Some (shown eps0 mu0 dt m f i j k).
Proof.
  intros I J K. pose proof (extents_arith c XDIR) as (_ & _ & _ & _ & X). pose proof (extents_arith c YDIR) as (_ & _ & _ & _ & Y). pose proof (extents_arith c ZDIR) as (_ & _ & _ & _ & Z0).
  cbn [face_hi] in X, Y, Z0.
  assert (B : forall ar, dims c ar = Some (dims3 c) -> inb (dims c) (L ar i j k) = true).
  { intros ar D. unfold inb. cbn [arr li lj lk]. rewrite D. unfold dims3. rewrite X, Y, Z0. rewrite !andb_true_iff, !Z.leb_le, !Z.ltb_lt. lia. }
  unfold dumpChar, shown, rdO. rewrite !B by reflexivity. destruct (is_E f); reflexivity.
Qed.
Lemma row_ok f j k : 0 <= j <= gobox c YHI -> 0 <= k <= gobox c ZHI -> dumpRow eps0 mu0 dt itoa c m f j k =
  Some (repeat " "%char (Z.to_nat j) ++ map (fun i => shown eps0 mu0 dt m f i j k) (zrange 0 (gobox c XHI)) ++ dumpLabel itoa c j k)%list.
Proof.
  intros J K. unfold dumpRow. pose proof (extents_arith c XDIR) as (X & _). pose proof (extents_arith c YDIR) as (Y & _). cbn [face_lo] in X, Y. rewrite X, Y.
  change (1 - 1) with 0. rewrite (seqO_map _ (fun i => shown eps0 mu0 dt m f i j k)).
  2:{ intros i I. apply in_zrange in I. apply char_ok; assumption. }
  rewrite Z.sub_0_r. reflexivity.
Qed.
Lemma zdown_nth lo hi n : lo <= n <= hi -> nth_error (zdown lo hi) (Z.to_nat (hi - n)) = Some n.
Proof.
  intros I. unfold zdown, zrange. rewrite <- map_rev.
  remember (Z.to_nat (hi - lo + 1)) as N eqn:EN.
  assert (K : forall N q, (q < N)%nat -> nth_error (rev (seq 0 N)) q = Some (N - 1 - q)%nat).
  { clear. induction N as [|N IH]; intros q L; [lia|]. rewrite seq_S, rev_app_distr. cbn [rev app plus]. destruct q as [|q]; [cbn; f_equal; lia|]. cbn [nth_error]. rewrite IH by lia. f_equal. lia. }
  rewrite (map_nth_error _ _ _ (K N (Z.to_nat (hi - n)) ltac:(lia))). f_equal. lia.
Qed.
Lemma zdown_len lo hi : lo <= hi + 1 -> Z.of_nat (List.length (zdown lo hi)) = hi - lo + 1.
Proof. intros L. unfold zdown, zrange. rewrite rev_length, map_length, seq_length. lia. Qed.
Lemma flat_nth {A B} (g : A -> list B) (L : nat) l : (forall x, In x l -> List.length (g x) = L) -> forall p q x y, nth_error l p = Some x -> nth_error (g x) q = Some y -> (q < L)%nat ->
  nth_error (flat_map g l) (p * L + q) = Some y.
Proof.
  induction l as [|a l IH]; intros K p q x y P Q QL; [destruct p; discriminate|].
  cbn [flat_map]. destruct p as [|p]; cbn [nth_error] in P.
  - injection P as <-. rewrite nth_error_app1 by (rewrite (K a (or_introl eq_refl)); lia). exact Q.
  - rewrite nth_error_app2 by (rewrite (K a (or_introl eq_refl)); lia). rewrite (K a (or_introl eq_refl)).
    replace (Datatypes.S p * L + q - L)%nat with (p * L + q)%nat by lia. eapply IH; eauto. intros z I. apply K. right. exact I.
Qed.
Lemma dump_ok f : exists rows, dumpMediaOnGrid eps0 mu0 dt itoa c m f = Some rows /\
  forall j k, 0 <= j <= gobox c YHI -> 0 <= k <= gobox c ZHI -> exists label,
    nth_error rows (Z.to_nat ((gobox c ZHI - k) * (gobox c YHI + 1) + (gobox c YHI - j))) =
    Some (repeat " "%char (Z.to_nat j) ++ map (fun i => shown eps0 mu0 dt m f i j k) (zrange 0 (gobox c XHI)) ++ label)%list.
Proof.
  unfold dumpMediaOnGrid. pose proof (extents_arith c YDIR) as (Y & _). pose proof (extents_arith c ZDIR) as (Z0 & _). cbn [face_lo] in Y, Z0. rewrite Y, Z0. change (1 - 1) with 0.
  set (row := fun j k => (repeat " "%char (Z.to_nat j) ++ map (fun i => shown eps0 mu0 dt m f i j k) (zrange 0 (gobox c XHI)) ++ dumpLabel itoa c j k)%list).
  assert (E : flat_map (fun k => map (fun j => dumpRow eps0 mu0 dt itoa c m f j k) (zdown 0 (gobox c YHI))) (zdown 0 (gobox c ZHI)) =
    map (fun x => x) (flat_map (fun k => map (fun j => Some (row j k)) (zdown 0 (gobox c YHI))) (zdown 0 (gobox c ZHI)))).
  { rewrite map_id. rewrite !flat_map_concat_map. f_equal. apply map_ext_in. intros k K. apply map_ext_in. intros j J. unfold zdown in *. apply in_rev, in_zrange in J. apply in_rev, in_zrange in K. apply row_ok; assumption. }
  rewrite E, map_id. clear E.
  assert (F : flat_map (fun k => map (fun j => Some (row j k)) (zdown 0 (gobox c YHI))) (zdown 0 (gobox c ZHI)) = map Some (flat_map (fun k => map (fun j => row j k) (zdown 0 (gobox c YHI))) (zdown 0 (gobox c ZHI)))).
  { rewrite !flat_map_concat_map, concat_map, map_map. f_equal. apply map_ext. intros k. rewrite map_map. reflexivity. }
  rewrite F. rewrite (seqO_map Some (fun x => x)) by reflexivity. rewrite map_id. eexists. split; [reflexivity|].
  intros j k J K. exists (dumpLabel itoa c j k). fold (row j k).
  replace (Z.to_nat ((gobox c ZHI - k) * (gobox c YHI + 1) + (gobox c YHI - j))) with (Z.to_nat (gobox c ZHI - k) * Z.to_nat (gobox c YHI + 1) + Z.to_nat (gobox c YHI - j))%nat.
  2:{ rewrite (Z2Nat.inj_add (_ * _)) by nia. rewrite Z2Nat.inj_mul by lia. reflexivity. }
  eapply flat_nth; [| exact (zdown_nth 0 _ k K)|exact (map_nth_error (fun j => row j k) _ _ (zdown_nth 0 _ j J))|lia].
  intros x _. rewrite map_length. pose proof (zdown_len 0 (gobox c YHI) ltac:(lia)). lia.
Qed.
End One.

(** ** C73 *)
(** The dump stays within the arrays for every grid, and the line of (j,k), which
    is number (kmax - k) (jmax + 1) + (jmax - j), shows the points with i = 0, 1, ...
    from column j on. *)
Theorem C73_layout eps0 mu0 dt itoa nx ny nz reg c m f : setupCfg nx ny nz reg = Some c ->
  exists rows, dumpMediaOnGrid eps0 mu0 dt itoa c m f = Some rows /\
  forall i j k, 0 <= i <= gobox c XHI -> 0 <= j <= gobox c YHI -> 0 <= k <= gobox c ZHI -> exists line,
    nth_error rows (Z.to_nat ((gobox c ZHI - k) * (gobox c YHI + 1) + (gobox c YHI - j))) = Some line /\
    nth_error line (Z.to_nat (j + i)) = Some (shown eps0 mu0 dt m f i j k).
Proof.
  intros S. pose proof (setup_wf _ _ _ _ _ S) as W. destruct (dump_ok eps0 mu0 dt itoa c m f) as (rows & E & K). exists rows. split; [exact E|].
  intros i j k I J K0. destruct (K j k J K0) as (label & N). eexists. split; [exact N|].
  rewrite nth_error_app2 by (rewrite repeat_length; lia). rewrite repeat_length. rewrite nth_error_app1.
  2:{ rewrite map_length. unfold zrange. rewrite map_length, seq_length. lia. }
  replace (Z.to_nat (j + i) - Z.to_nat j)%nat with (Z.to_nat i) by lia.
  apply (map_nth_error (fun i => shown eps0 mu0 dt m f i j k)). unfold zrange.
  assert (Q : forall N q, (q < N)%nat -> nth_error (seq 0 N) q = Some q).
  { clear. intros N q L. rewrite (nth_error_nth' _ 0%nat) by (rewrite seq_length; exact L). rewrite seq_nth by exact L. reflexivity. }
  rewrite (map_nth_error _ _ _ (Q (Z.to_nat (gobox c XHI - 0 + 1)) (Z.to_nat i) ltac:(lia))). f_equal. lia.
Qed.
(** what the media show: free space a dot, PEC a star *)
Theorem C73_free_space eps0 mu0 dt reg : decodeAlphaBeta eps0 dt (calpha (initMedia eps0 mu0 dt reg 0)) (cbeta (initMedia eps0 mu0 dt reg 0)) = "."%char /\
  decodeGamma mu0 dt (cgamma (initMedia eps0 mu0 dt reg 0)) = "."%char.
Proof.
  cbn [initMedia calpha cbeta cgamma]. unfold decodeAlphaBeta, decodeGamma. rewrite !Rminus_eq_0, Rabs_R0. rewrite !ltbT by lra. split; reflexivity.
Qed.
Theorem C73_pec eps0 mu0 dt reg : decodeAlphaBeta eps0 dt (calpha (initMedia eps0 mu0 dt reg 1)) (cbeta (initMedia eps0 mu0 dt reg 1)) = "*"%char.
Proof.
  cbn [initMedia calpha cbeta cgamma]. unfold decodeAlphaBeta. rewrite ltbF by (rewrite Rabs_left by lra; lra). cbn [andb].
  replace (-1 + 1)%R with 0%R by lra. rewrite Rabs_R0. rewrite !ltbT by lra. reflexivity.
Qed.

(** a lossless dielectric is an o if its permittivity is not too close to that of
    free space, and a magnetic medium likewise *)
Theorem C73_dielectric_partial eps0 mu0 dt reg n it : nth_error reg n = Some it -> (2 <= n)%nat -> (0 < eps0)%R -> (0 < dt)%R ->
  (1 <= m_eps (idata it))%R -> m_sigma (idata it) = 0%R -> m_poles (idata it) = [] ->
  let co := initMedia eps0 mu0 dt reg n in
  decodeAlphaBeta eps0 dt (calpha co) (cbeta co) = if Rlt_dec (dt / eps0 * (1 - / m_eps (idata it))) (/ 1000000) then "."%char else "o"%char.
Proof.
  intros N L E0 D E S P co.
  assert (CO : calpha co = 1%R /\ cbeta co = (dt / eps0 * / m_eps (idata it))%R).
  { unfold co, initMedia. destruct n as [|[|n]]; [lia|lia|]. rewrite N. unfold calcCoeffFromParam. cbn [calpha cbeta]. rewrite P, S. cbn [dsum fold_left]. unfold dsum. cbn [fold_left].
    split; field; lra. }
  destruct CO as (-> & ->). unfold decodeAlphaBeta. rewrite Rminus_eq_0, Rabs_R0. rewrite ltbT by lra. cbn [andb].
  assert (I1 : (/ m_eps (idata it) <= 1)%R) by (rewrite <- Rinv_1; apply Rinv_le_contravar; lra).
  assert (DP : (0 < dt / eps0)%R) by (apply Rdiv_lt_0_compat; assumption).
  assert (AB : (Rabs (dt / eps0 * / m_eps (idata it) - dt / eps0) = dt / eps0 * (1 - / m_eps (idata it)))%R).
  { rewrite Rabs_left1; [ring|]. assert (0 <= dt / eps0 * (1 - / m_eps (idata it)))%R by (apply Rmult_le_pos; lra). lra. }
  rewrite AB. unfold ltb at 1. destruct (Rlt_dec _ _); [reflexivity|]. replace (1 + 1)%R with 2%R by lra. rewrite ltbF by (rewrite Rabs_right by lra; lra). reflexivity.
Qed.
Theorem C73_magnetic_partial eps0 mu0 dt reg n it : nth_error reg n = Some it -> (2 <= n)%nat -> (0 < mu0)%R -> (0 < dt)%R -> (1 <= m_mu (idata it))%R ->
  decodeGamma mu0 dt (cgamma (initMedia eps0 mu0 dt reg n)) = if Rlt_dec (dt / mu0 * (1 - / m_mu (idata it))) (/ 1000000) then "."%char else "o"%char.
Proof.
  intros N L E0 D E.
  assert (CO : cgamma (initMedia eps0 mu0 dt reg n) = (dt / mu0 * / m_mu (idata it))%R).
  { unfold initMedia. destruct n as [|[|n]]; [lia|lia|]. rewrite N. unfold calcCoeffFromParam. cbn [cgamma]. field. lra. }
  rewrite CO. unfold decodeGamma.
  assert (I1 : (/ m_mu (idata it) <= 1)%R) by (rewrite <- Rinv_1; apply Rinv_le_contravar; lra).
  assert (DP : (0 < dt / mu0)%R) by (apply Rdiv_lt_0_compat; assumption).
  assert (AB : (Rabs (dt / mu0 * / m_mu (idata it) - dt / mu0) = dt / mu0 * (1 - / m_mu (idata it)))%R).
  { rewrite Rabs_left1; [ring|]. assert (0 <= dt / mu0 * (1 - / m_mu (idata it)))%R by (apply Rmult_le_pos; lra). lra. }
  rewrite AB. unfold ltb. destruct (Rlt_dec _ _); reflexivity.
Qed.
(** The threshold is absolute: with a time step below 1.26 ps (cells below about 0.7
    mm) every magnetic medium is shown as free space. *)
Theorem C73_magnetic_refuted eps0 mu0 dt reg n it : nth_error reg n = Some it -> (2 <= n)%nat -> (0 < mu0)%R -> (0 < dt <= mu0 / 1000000)%R -> (1 <= m_mu (idata it))%R ->
  decodeGamma mu0 dt (cgamma (initMedia eps0 mu0 dt reg n)) = "."%char.
Proof.
  intros N L E0 (D0 & D) E. rewrite (C73_magnetic_partial eps0 mu0 dt reg n it N L E0 D0 E). destruct (Rlt_dec _ _) as [|F]; [reflexivity|]. exfalso. apply F.
  assert (I1 : (0 < / m_mu (idata it))%R) by (apply Rinv_0_lt_compat; lra).
  assert (Q : (dt / mu0 <= / 1000000)%R).
  { apply (Rmult_le_reg_r mu0); [assumption|]. unfold Rdiv. rewrite Rmult_assoc, Rinv_l by lra. lra. }
  assert (DP : (0 < dt / mu0)%R) by (apply Rdiv_lt_0_compat; assumption).
  assert (X : (0 < dt / mu0 * / m_mu (idata it))%R) by (apply Rmult_lt_0_compat; assumption). lra.
Qed.
(** Together: after the set-up of an accepted scene, a point of the mesh (or of the
    PML off its outer wall) shows the medium last painted over it. *)
Theorem C73_media nx ny nz reg c : setupCfg nx ny nz reg = Some c -> wide c ->
  forall M1 M2 M3 (media : Registry M1) (wires : Registry M2) (bounds : Registry M3) sc, accepted c media wires bounds sc ->
  forall eps0 mu0 dt itoa mreg wt bt m0 f i j k, inl (gfolim c f) i j k ->
  off_wall c f XDIR i -> off_wall c f YDIR j -> off_wall c f ZDIR k -> (forall a, staggered f a = false \/ mesh_lo c a <= SpecGeom.coord i j k a) ->
  exists rows line r, dumpMediaOnGrid eps0 mu0 dt itoa c (run rArith (mediaProgPml (initMedia eps0 mu0 dt mreg) c wt bt sc) m0) f = Some rows /\
    nth_error rows (Z.to_nat ((gobox c ZHI - k) * (gobox c YHI + 1) + (gobox c YHI - j))) = Some line /\
    last_paint f (nearest c f XDIR i - gibox c XLO) (nearest c f YDIR j - gibox c YLO) (nearest c f ZDIR k - gibox c ZLO) (paints c wt bt sc) r /\
    let co := initMedia eps0 mu0 dt mreg (match r with Some n => n | None => 0%nat end) in
    nth_error line (Z.to_nat (j + i)) = Some (if is_E f then decodeAlphaBeta eps0 dt (calpha co) (cbeta co) else decodeGamma mu0 dt (cgamma co)).
Proof.
  intros S WD M1 M2 M3 media wires bounds sc HA eps0 mu0 dt itoa mreg wt bt m0 f i j k RG OX OY OZ FN.
  destruct (C35_continued_partial nx ny nz reg c S WD M1 M2 M3 media wires bounds sc HA R rArith (initMedia eps0 mu0 dt mreg) wt bt m0 f i j k RG OX OY OZ FN) as (r & LP & V).
  set (m := run rArith _ m0) in *. clearbody m.
  destruct (C73_layout eps0 mu0 dt itoa nx ny nz reg c m f S) as (rows & E & K).
  pose proof (setup_wf _ _ _ _ _ S) as W. cfg_facts c W.
  assert (RNG : 0 <= i <= gobox c XHI /\ 0 <= j <= gobox c YHI /\ 0 <= k <= gobox c ZHI).
  { unfold inl, gfolim, setFieldLimits in RG. clear - RG GX1 GY1 GZ1. cbn [face_lo] in *. set (g := gobox c) in *. clearbody g.
    repeat match type of RG with context [if ?b then _ else _] => destruct b end; lia. }
  destruct RNG as (I & J & K0). destruct (K i j k I J K0) as (line & N1 & N2). exists rows, line, r. split; [exact E|]. split; [exact N1|]. split; [exact LP|].
  cbv zeta in *. rewrite N2. unfold shown. destruct (is_E f); [destruct V as (-> & ->)|rewrite V]; reflexivity.
Qed.
(** *** Non-vacuity: the dielectric block of c35scene in the corner of a 4x4x4 mesh *)
Example C73_nonvacuous : exists c, setupCfg 4 4 4 initBoundaryReg = Some c /\ wide c /\ accepted c c18reg initWireReg initBoundaryReg c35scene /\
  inl (gfolim c EZ) 15 15 12 /\ off_wall c EZ XDIR 15 /\ off_wall c EZ YDIR 15 /\ off_wall c EZ ZDIR 12.
Proof. destruct C35_nonvacuous as (c & A & B & C & D & E & F & G & _). exists c. auto 10. Qed.
Example C73_magnetic_nonvacuous : (0 < / 10000000000000 <= (4 * PI / 10000000) / 1000000)%R.
Proof. pose proof PI2_3_2. pose proof PI_RGT_0. split; [lra|]. unfold PI2 in *. lra. Qed.
