(** Lemmas about sources. *)
From Coq Require Import ZArith List Bool Lia Reals Lra String.
From Verif Require Import Types Lang LangProofs BBox Grid Setup SpecGeom BBoxProofs SpecGrid SetupProofs Pml Mur Ghost Step
  StepShape StepBounds StepCount StepOnce SpecCone StepValue SpecPhys Linear
  Media SpecMedia MediaProofs Medium Waveform Source SpecSource.
Import ListNotations.
Open Scope Z_scope.
Local Arguments Z.mul : simpl never.
Local Arguments Z.add : simpl never.
Local Arguments Z.sub : simpl never.
Local Notation length := List.length.

(** ** One nest of point-wise assignments *)
Section Nest.
Context {V : Type} (A : Arith V).
Variables (f : Fld) (lim : BBox) (e : Z -> Z -> Z -> expr V).
Hypothesis local : forall i j k l, In l (reads (e i j k)) -> l = L (AF f) i j k \/ kind l = None.
Definition pointProg : list (stmt V) := nestS lim (fun i j k => [Asg (L (AF f) i j k) (e i j k)]).

Lemma nestS_nest3 (g : Z -> Z -> Z -> list (stmt V)) : nestS lim g = flat_item (nest3 lim g).
Proof. unfold nestS, nest3, par_for. cbn [flat_item]. rewrite <- flat_map_concat_map. reflexivity. Qed.
Lemma pointProg_writes i j k : writes (L (AF f) i j k) pointProg = b2n (inlb lim i j k).
Proof.
  unfold pointProg. rewrite nestS_nest3, writes_nest3.
  - rewrite writes_cons. cbn [dst]. destruct (loc_dec _ _); [|congruence]. rewrite writes_nil. destruct (inlb lim i j k); reflexivity.
  - intros i' j' k' H. rewrite writes_cons. cbn [dst]. destruct (loc_dec _ _) as [E|]; [|reflexivity].
    injection E; intros; subst; tauto.
Qed.
Lemma pointProg_dst s : In s pointProg -> exists i j k, inl lim i j k /\ s = Asg (L (AF f) i j k) (e i j k).
Proof. unfold pointProg. rewrite in_nestS. intros (i & j & k & H & [<-|[]]). eauto. Qed.
Lemma pointProg_other l m : (forall i j k, inl lim i j k -> l <> L (AF f) i j k) -> run A pointProg m l = m l.
Proof.
  intros H. apply run_frame. unfold twrites. rewrite in_map_iff. intros (s & D & I).
  apply pointProg_dst in I. destruct I as (i & j & k & I & ->). cbn [dst] in D. apply (H i j k I). auto.
Qed.
Lemma pointProg_at i j k m : inl lim i j k -> run A pointProg m (L (AF f) i j k) = eval A m (e i j k).
Proof.
  intros H. change (L (AF f) i j k) with (dst (Asg (L (AF f) i j k) (e i j k))) at 1.
  change (e i j k) with (rhs (Asg (L (AF f) i j k) (e i j k))). apply run_once.
  - unfold pointProg. apply in_nestS. exists i, j, k. split; auto. left. reflexivity.
  - cbn [dst]. rewrite pointProg_writes. apply inlb_iff in H. rewrite H. reflexivity.
  - intros l Hl. cbn [dst]. destruct (local i j k l Hl) as [->|K]; [left; reflexivity|right].
    unfold writes. apply count_occ_not_In. unfold twrites. rewrite in_map_iff. intros (s & D & I).
    apply pointProg_dst in I. destruct I as (i' & j' & k' & I & ->). cbn [dst] in D. subst l. discriminate K.
Qed.
End Nest.

(** ** Shape of the source programs *)
Section Shape.
Context {V : Type}.
Definition rhsOf (d : Drive) (f : Fld) (soft v : V) (i j k : Z) : expr V :=
  match d with
  | DField => Add (Mul (Cst soft) (F f i j k)) (Cst v)
  | DCurrent => Sub (Mul (Cst soft) (F f i j k)) (Mul (if is_E f then BETA f i j k else GAMMA f i j k) (Cst v))
  end.
Definition driveOf (t : SType) : option (bool * Drive) :=
  match t with
  | ST_EFIELD => Some (true, DField) | ST_ELEC_CURR_DENSITY => Some (true, DCurrent)
  | ST_HFIELD => Some (false, DField) | ST_MAGN_CURR_DENSITY => Some (false, DCurrent)
  | _ => None
  end.
Definition src (electric : bool) (a : Act (V:=V)) : list (stmt V) := if electric then srcE a else srcH a.
Lemma src_shape electric a :
  src electric a = match driveOf (a_type a) with
    | Some (b, d) => if Bool.eqb b electric && Bool.eqb (is_E (a_field a)) electric
        then pointProg (a_field a) (a_lim a (a_field a)) (rhsOf d (a_field a) (a_soft a) (a_val a)) else []
    | None => [] end.
Proof.
  unfold src, srcE, srcH, pointProg, rhsOf. destruct electric, (a_type a); cbn [driveOf]; try reflexivity;
  destruct (a_field a); reflexivity.
Qed.
Lemma rhsOf_local d f soft v i j k l : In l (reads (rhsOf d f soft v i j k)) -> l = L (AF f) i j k \/ kind l = None.
Proof.
  unfold rhsOf, F, BETA, GAMMA. destruct d; cbn [reads app In]; [intros [<-|[]]; auto|].
  destruct (is_E f); cbn [reads app In]; intros [<-|[<-|[]]]; auto.
Qed.
Lemma src_in electric a s : In s (src electric a) -> exists d i j k, inl (a_lim a (a_field a)) i j k /\ is_E (a_field a) = electric /\
  s = Asg (L (AF (a_field a)) i j k) (rhsOf d (a_field a) (a_soft a) (a_val a) i j k).
Proof.
  rewrite src_shape. destruct (driveOf _) as [[b d]|]; [|contradiction].
  destruct (Bool.eqb b electric) eqn:E1; cbn [andb]; [|contradiction].
  destruct (Bool.eqb (is_E (a_field a)) electric) eqn:E2; cbn [andb]; [|contradiction]. apply eqb_prop in E2.
  intros H. apply pointProg_dst in H. destruct H as (i & j & k & H & ->). exists d, i, j, k. auto.
Qed.
Lemma flat_srcE l : flat (updateSourcesEfield l) = flat_map (src true) l.
Proof. unfold updateSourcesEfield, flat. induction l; cbn [map flat_map flat_item src]; [reflexivity|f_equal; auto]. Qed.
Lemma flat_srcH l : flat (updateSourcesHfield l) = flat_map (src false) l.
Proof. unfold updateSourcesHfield, flat. induction l; cbn [map flat_map flat_item src]; [reflexivity|f_equal; auto]. Qed.

Lemma src_inb c electric a s : wf c -> (exists b, in_mesh_box c b /\
     a_lim a = setFieldLimits (offsetBoundingBox b (gibox c)) (fun _ => true)) ->
  In s (src electric a) -> sinb (dims c) s = true.
Proof.
  intros W (b & HB & HL) H. apply src_in in H. destruct H as (d & i & j & k & H & _ & ->).
  assert (R : inl (gfolim c (a_field a)) i j k).
  { rewrite HL in H. revert H. pose proof (fits_mesh c b W HB) as HF. apply setFieldLimits_mono; intros x; destruct (HF x); lia. }
  apply gfolim_range in R. unfold nodeRange, halfRange in R.
  assert (I : within (dims3 c) i j k).
  { unfold within, dims3. destruct (a_field a); cbn [fieldIsInBoundary face_lo] in R; lia. }
  unfold sinb. cbn [dst sreads rhs]. apply andb_true_iff. split.
  - apply (inb_iff _ _ _ _ _ (dims3 c)); [reflexivity|exact I].
  - unfold rhsOf, F, BETA, GAMMA, sreads. cbn [rhs]. destruct d; [|destruct (is_E _)]; cbn [reads app forallb]; rewrite ?andb_true_r, ?andb_true_iff; repeat split;
    (apply (inb_iff _ _ _ _ _ (dims3 c)); [reflexivity|exact I]).
Qed.
Lemma src_in_place electric a s : In s (src electric a) -> kind (dst s) <> None /\
    forall l, In l (sreads s) -> l = dst s \/ kind l = None.
Proof.
  intros H. apply src_in in H. destruct H as (d & i & j & k & H & _ & ->). split; [discriminate|].
  intros l. cbn [dst sreads rhs]. apply rhsOf_local.
Qed.
Lemma src_kind electric a s : In s (src electric a) -> kind (dst s) = Some electric.
Proof. intros H. apply src_in in H. destruct H as (d & i & j & k & H & E & ->). cbn. congruence. Qed.
End Shape.

(** ** Sums *)
Open Scope R_scope.
Lemma fold_left_plus (l : list Z) (f : Z -> R) a : fold_left (fun s i => s + f i) l a = a + fold_right Rplus 0 (map f l).
Proof. revert a. induction l as [|x l IH]; intros a; cbn [fold_left fold_right map]; [ring|]. rewrite IH. ring. Qed.
Lemma accum_sum f lo hi : accum f lo hi = sum lo hi f.
Proof. unfold accum, sum. rewrite fold_left_plus. ring. Qed.
Lemma sum_ext lo hi f g : (forall n, (lo <= n <= hi)%Z -> f n = g n) -> sum lo hi f = sum lo hi g.
Proof.
  intros H. unfold sum. f_equal. apply map_ext_in. intros n Hn. apply H. apply in_zrange. auto.
Qed.
Lemma sum_scale lo hi x f : sum lo hi (fun n => x * f n) = x * sum lo hi f.
Proof. unfold sum. induction (zrange lo hi) as [|y l IH]; cbn [map fold_right]; [ring|]. rewrite IH. ring. Qed.
Lemma sum_scale_r lo hi x f : sum lo hi (fun n => f n * x) = sum lo hi f * x.
Proof. unfold sum. induction (zrange lo hi) as [|y l IH]; cbn [map fold_right]; [ring|]. rewrite IH. ring. Qed.
Lemma sum_pos lo hi f : (lo <= hi)%Z -> (forall n, (lo <= n <= hi)%Z -> 0 < f n) -> 0 < sum lo hi f.
Proof.
  intros H P. unfold sum. rewrite zrange_cons by auto. cbn [map fold_right].
  apply Rplus_lt_le_0_compat; [apply P; lia|].
  assert (forall l, (forall n, In n l -> 0 < f n) -> 0 <= fold_right Rplus 0 (map f l)).
  { induction l as [|y l IH]; intros Q; cbn [map fold_right]; [lra|].
    apply Rplus_le_le_0_compat; [left; apply Q; left; reflexivity|apply IH; intros; apply Q; right; auto]. }
  apply H0. intros n Hn. apply in_zrange in Hn. apply P. lia.
Qed.
Lemma sum_shift lo hi d f : sum (lo + d)%Z (hi + d)%Z f = sum lo hi (fun n => f (d + n)%Z).
Proof.
  unfold sum, zrange. rewrite !map_map. replace (hi + d - (lo + d) + 1)%Z with (hi - lo + 1)%Z by lia.
  f_equal. apply map_ext. intros n. f_equal. lia.
Qed.
