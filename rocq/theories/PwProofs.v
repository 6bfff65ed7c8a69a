(** Proofs about the plane wave corrections: what they write and with what
    value. *)
From Coq Require Import ZArith List Bool Lia.
From Verif Require Import Types Lang LangProofs BBox Grid Pml Mur Ghost Step SpecGrid StepShape StepBounds StepCount StepOnce
  SpecCone StepValue PmlValue StepRace PlaneWave.
Import ListNotations.
Open Scope Z_scope.
Local Arguments Z.mul : simpl never.
Local Arguments Z.add : simpl never.
Local Arguments Z.sub : simpl never.

Section Loops.
Context {V : Type} (A : Arith V).

(** a correction loop: every field value of the limits is reassigned once *)
Record Corr := mkCo { co_f : Fld; co_lim : BBox; co_s : Z -> Z -> Z -> expr V }.
Definition coItem (o : Corr) : item V :=
  nest3 (co_lim o) (fun i j k => [Asg (L (AF (co_f o)) i j k) (co_s o i j k)]).
Definition good (o : Corr) : Prop := forall i j k l, In l (reads (co_s o i j k)) ->
  l = L (AF (co_f o)) i j k \/ kind l = None.

Lemma in_coItem o s : In s (flat_item (coItem o)) <-> exists i j k, inl (co_lim o) i j k /\
  s = Asg (L (AF (co_f o)) i j k) (co_s o i j k).
Proof.
  unfold coItem. rewrite in_nest3. split.
  - intros (i & j & k & H & [<-|[]]). exists i, j, k. auto.
  - intros (i & j & k & H & ->). exists i, j, k. split; auto. left; auto.
Qed.

Lemma run_co m o f i j k : good o ->
  run A (flat_item (coItem o)) m (L (AF f) i j k) =
  if fld_eqb (co_f o) f && inlb (co_lim o) i j k then eval A m (co_s o i j k) else m (L (AF f) i j k).
Proof.
  intros G.
  assert (WR : writes (L (AF f) i j k) (flat_item (coItem o)) = b2n (fld_eqb (co_f o) f && inlb (co_lim o) i j k)).
  { unfold coItem. rewrite (writes_nest3_gen _ i j k).
    - rewrite writes_cons, writes_nil. cbn [dst]. destruct (fld_eqb (co_f o) f) eqn:E.
      + apply fld_eqb_spec in E. rewrite E. rewrite loc_dec_eq. destruct (inlb _ _ _ _); reflexivity.
      + rewrite loc_dec_ne. 2:{ intros X. injection X as X. apply fld_eqb_spec in X. congruence. }
        destruct (inlb _ _ _ _); reflexivity.
    - intros. rewrite writes_cons, writes_nil. cbn [dst]. rewrite loc_dec_ne; [reflexivity|].
      intros X. injection X. intros. lia. }
  destruct (fld_eqb (co_f o) f && inlb (co_lim o) i j k) eqn:B; cbn [b2n] in WR.
  - apply andb_true_iff in B. destruct B as [B1 B2]. apply fld_eqb_spec in B1. apply inlb_iff in B2. subst f.
    set (s := Asg (L (AF (co_f o)) i j k) (co_s o i j k)).
    change (L (AF (co_f o)) i j k) with (dst s) at 1. change (co_s o i j k) with (rhs s). apply run_once.
    + apply in_coItem. exists i, j, k. auto.
    + exact WR.
    + intros l Hl. destruct (G i j k l Hl) as [->|K]; [left; reflexivity|right].
      unfold writes. apply count_occ_not_In. intros X. apply in_map_iff in X. destruct X as (s' & E & X).
      apply in_coItem in X. destruct X as (i' & j' & k' & _ & ->). cbn [dst] in E. subst l. cbn in K. congruence.
  - apply writes_0_frame. exact WR.
Qed.

(** corrections in sequence *)
Definition coStep (f : Fld) (i j k : Z) (m : mem V) (v : V) (o : Corr) : V :=
  if fld_eqb (co_f o) f && inlb (co_lim o) i j k then eval A (upd m (L (AF f) i j k) v) (co_s o i j k) else v.
Lemma run_cos os m m' f i j k : (forall o, In o os -> good o) ->
  (forall l, kind l = None -> m l = m' l) ->
  run A (flat (map coItem os)) m (L (AF f) i j k) =
  fold_left (coStep f i j k m') os (m (L (AF f) i j k)).
Proof.
  revert m. induction os as [|o os IH]; intros m G D; [reflexivity|].
  cbn [map fold_left]. rewrite flat_cons, run_app.
  assert (Go : good o) by (apply G; left; auto).
  rewrite IH; [| intros; apply G; right; auto |].
  - f_equal. rewrite run_co by auto. unfold coStep.
    destruct (fld_eqb (co_f o) f && inlb (co_lim o) i j k) eqn:B; auto.
    apply andb_true_iff in B. destruct B as [B _]. apply fld_eqb_spec in B.
    apply eval_ext. intros l Hl. destruct (Go i j k l Hl) as [->|K].
    + rewrite B, upd_same. reflexivity.
    + rewrite upd_other; [auto|]. intros ->. cbn in K. congruence.
  - intros l K. rewrite <- D by auto. apply run_frame. intros X. apply in_map_iff in X. destruct X as (s & E & X).
    apply in_coItem in X. destruct X as (i' & j' & k' & _ & ->). cbn [dst] in E. subst l. cbn in K. congruence.
Qed.

(** the face loops are loop nests with one collapsed range *)
Lemma for_one {S} x (g : Z -> list S) : for_ x x g = g x.
Proof. unfold for_, zrange. replace (Z.to_nat (x - x + 1)) with 1%nat by lia. cbn. rewrite app_nil_r. f_equal. lia. Qed.
Lemma for_ext {S} lo hi (g h : Z -> list S) : (forall x, g x = h x) -> for_ lo hi g = for_ lo hi h.
Proof. intros H. unfold for_. induction (zrange lo hi); cbn; [auto|]. rewrite H, IHl. auto. Qed.
Lemma flat_par_for lo hi (g : Z -> list (stmt V)) : flat_item (par_for lo hi g) = for_ lo hi g.
Proof. unfold par_for, for_. cbn [flat_item]. symmetry. apply flat_map_concat_map. Qed.
Lemma loopXZ_nest (l : BBox) (b : Z -> Z -> Z -> list (stmt V)) : l YLO = l YHI ->
  flat_item (loopXZ l (fun i k => b i (l YLO) k)) = flat_item (nest3 l b).
Proof.
  intros H. unfold loopXZ, nest3. rewrite !flat_par_for. apply for_ext. intros i. rewrite <- H, for_one. reflexivity.
Qed.
Lemma loopXY_nest (l : BBox) (b : Z -> Z -> Z -> list (stmt V)) : l ZLO = l ZHI ->
  flat_item (loopXY l (fun i j => b i j (l ZLO))) = flat_item (nest3 l b).
Proof.
  intros H. unfold loopXY, nest3. rewrite !flat_par_for. apply for_ext. intros i. apply for_ext. intros j.
  rewrite <- H, for_one. reflexivity.
Qed.
Lemma loopYZ_nest (l : BBox) (b : Z -> Z -> Z -> list (stmt V)) : l XLO = l XHI ->
  flat_item (loopYZ l (fun j k => b (l XLO) j k)) = flat_item (nest3 l b).
Proof.
  intros H. unfold loopYZ, nest3. rewrite !flat_par_for. rewrite <- H, for_one. reflexivity.
Qed.
End Loops.
Arguments Corr : clear implicits.
Arguments mkCo {V}.

Section Lists.
Context {V : Type}.
Variable inc : Fld -> Z -> Z -> Z -> V.
Variable fl : Face -> FLimits.
Variable active : BFlags.
Notation Inc f i j k := (@Cst V (inc f i j k)).
Definition aE f d (i j k : Z) : expr V := Add (Mul (ALPHA f i j k) (F f i j k)) (Mul (BETA f i j k) (d i j k)).
Definition sE f d (i j k : Z) : expr V := Sub (Mul (ALPHA f i j k) (F f i j k)) (Mul (BETA f i j k) (d i j k)).
Definition aH f d (i j k : Z) : expr V := Add (F f i j k) (Mul (GAMMA f i j k) (d i j k)).
Definition sH f d (i j k : Z) : expr V := Sub (F f i j k) (Mul (GAMMA f i j k) (d i j k)).

Definition coE (face : Face) : list (Corr V) :=
  if active face then
  match face with
  | YLO => [mkCo EX (fl YLO EX) (sE EX (fun i j k => dHdy (Inc HZ i (j-1) k) j));
            mkCo EZ (fl YLO EZ) (aE EZ (fun i j k => dHdy (Inc HX i (j-1) k) j))]
  | YHI => [mkCo EX (fl YHI EX) (aE EX (fun i j k => dHdy (Inc HZ i j k) j));
            mkCo EZ (fl YHI EZ) (sE EZ (fun i j k => dHdy (Inc HX i j k) j))]
  | ZLO => [mkCo EX (fl ZLO EX) (aE EX (fun i j k => dHdz (Inc HY i j (k-1)) k));
            mkCo EY (fl ZLO EY) (sE EY (fun i j k => dHdz (Inc HX i j (k-1)) k))]
  | ZHI => [mkCo EX (fl ZHI EX) (sE EX (fun i j k => dHdz (Inc HY i j k) k));
            mkCo EY (fl ZHI EY) (aE EY (fun i j k => dHdz (Inc HX i j k) k))]
  | XLO => [mkCo EY (fl XLO EY) (aE EY (fun i j k => dHdx (Inc HZ (i-1) j k) i));
            mkCo EZ (fl XLO EZ) (sE EZ (fun i j k => dHdx (Inc HY (i-1) j k) i))]
  | XHI => [mkCo EY (fl XHI EY) (sE EY (fun i j k => dHdx (Inc HZ i j k) i));
            mkCo EZ (fl XHI EZ) (aE EZ (fun i j k => dHdx (Inc HY i j k) i))]
  end else [].
Definition coH (face : Face) : list (Corr V) :=
  if active face then
  match face with
  | YLO => [mkCo HZ (fl YLO HZ) (sH HZ (fun i j k => dEdy (Inc EX i (j+1) k) j));
            mkCo HX (fl YLO HX) (aH HX (fun i j k => dEdy (Inc EZ i (j+1) k) j))]
  | YHI => [mkCo HZ (fl YHI HZ) (aH HZ (fun i j k => dEdy (Inc EX i j k) j));
            mkCo HX (fl YHI HX) (sH HX (fun i j k => dEdy (Inc EZ i j k) j))]
  | ZLO => [mkCo HY (fl ZLO HY) (aH HY (fun i j k => dEdz (Inc EX i j (k+1)) k));
            mkCo HX (fl ZLO HX) (sH HX (fun i j k => dEdz (Inc EY i j (k+1)) k))]
  | ZHI => [mkCo HY (fl ZHI HY) (sH HY (fun i j k => dEdz (Inc EX i j k) k));
            mkCo HX (fl ZHI HX) (aH HX (fun i j k => dEdz (Inc EY i j k) k))]
  | XLO => [mkCo HZ (fl XLO HZ) (aH HZ (fun i j k => dEdx (Inc EY (i+1) j k) i));
            mkCo HY (fl XLO HY) (sH HY (fun i j k => dEdx (Inc EZ (i+1) j k) i))]
  | XHI => [mkCo HZ (fl XHI HZ) (sH HZ (fun i j k => dEdx (Inc EY i j k) i));
            mkCo HY (fl XHI HY) (aH HY (fun i j k => dEdx (Inc EZ i j k) i))]
  end else [].
Definition pwFaces : list Face := [YLO; YHI; ZLO; ZHI; XLO; XHI].

Hypothesis collapsed : forall face f, fieldIsParallelToBoundary f face = true ->
  fl face f (face_lo (face_axis face)) = fl face f (face_hi (face_axis face)).

Lemma flat_two (a b : item V) : flat [a; b] = flat_item a ++ flat_item b.
Proof. unfold flat. cbn. rewrite app_nil_r. reflexivity. Qed.

Lemma pwE_co face : flat (pwE inc fl active face) = flat (map coItem (coE face)).
Proof.
  unfold pwE, coE. destruct (active face); [|reflexivity].
  destruct face; cbn [map]; rewrite !flat_two; unfold coItem; cbn [co_f co_lim co_s];
   [pose proof (collapsed XLO EY eq_refl) as C1; pose proof (collapsed XLO EZ eq_refl) as C2
   |pose proof (collapsed XHI EY eq_refl) as C1; pose proof (collapsed XHI EZ eq_refl) as C2
   |pose proof (collapsed YLO EX eq_refl) as C1; pose proof (collapsed YLO EZ eq_refl) as C2
   |pose proof (collapsed YHI EX eq_refl) as C1; pose proof (collapsed YHI EZ eq_refl) as C2
   |pose proof (collapsed ZLO EX eq_refl) as C1; pose proof (collapsed ZLO EY eq_refl) as C2
   |pose proof (collapsed ZHI EX eq_refl) as C1; pose proof (collapsed ZHI EY eq_refl) as C2];
   cbn [face_lo face_hi face_axis] in C1, C2;
   try rewrite <- C1; try rewrite <- C2;
   unfold aE, sE; first
   [ rewrite <- (loopXZ_nest (fl _ EX)), <- (loopXZ_nest (fl _ EZ)) by assumption; reflexivity
   | rewrite <- (loopXY_nest (fl _ EX)), <- (loopXY_nest (fl _ EY)) by assumption; reflexivity
   | rewrite <- (loopYZ_nest (fl _ EY)), <- (loopYZ_nest (fl _ EZ)) by assumption; reflexivity ].
Qed.
Lemma pwH_co face : flat (pwH inc fl active face) = flat (map coItem (coH face)).
Proof.
  unfold pwH, coH. destruct (active face); [|reflexivity].
  destruct face; cbn [map]; rewrite !flat_two; unfold coItem; cbn [co_f co_lim co_s];
   [pose proof (collapsed XLO HZ eq_refl) as C1; pose proof (collapsed XLO HY eq_refl) as C2
   |pose proof (collapsed XHI HZ eq_refl) as C1; pose proof (collapsed XHI HY eq_refl) as C2
   |pose proof (collapsed YLO HZ eq_refl) as C1; pose proof (collapsed YLO HX eq_refl) as C2
   |pose proof (collapsed YHI HZ eq_refl) as C1; pose proof (collapsed YHI HX eq_refl) as C2
   |pose proof (collapsed ZLO HY eq_refl) as C1; pose proof (collapsed ZLO HX eq_refl) as C2
   |pose proof (collapsed ZHI HY eq_refl) as C1; pose proof (collapsed ZHI HX eq_refl) as C2];
   cbn [face_lo face_hi face_axis] in C1, C2;
   try rewrite <- C1; try rewrite <- C2;
   unfold aH, sH; first
   [ rewrite <- (loopXZ_nest (fl _ HZ)), <- (loopXZ_nest (fl _ HX)) by assumption; reflexivity
   | rewrite <- (loopXY_nest (fl _ HY)), <- (loopXY_nest (fl _ HX)) by assumption; reflexivity
   | rewrite <- (loopYZ_nest (fl _ HZ)), <- (loopYZ_nest (fl _ HY)) by assumption; reflexivity ].
Qed.
Lemma updE_co : flat (updatePlaneWaveE inc fl active) = flat (map coItem (flat_map coE pwFaces)).
Proof.
  unfold updatePlaneWaveE, pwFaces. cbn [flat_map]. rewrite !flat_app, !pwE_co, !map_app, !flat_app, app_nil_r. reflexivity.
Qed.
Lemma updH_co : flat (updatePlaneWaveH inc fl active) = flat (map coItem (flat_map coH pwFaces)).
Proof.
  unfold updatePlaneWaveH, pwFaces. cbn [flat_map]. rewrite !flat_app, !pwH_co, !map_app, !flat_app, app_nil_r. reflexivity.
Qed.

Lemma good_E o : In o (flat_map coE pwFaces) -> good o.
Proof.
  intros H. apply in_flat_map in H. destruct H as (face & _ & H). unfold coE in H. destruct (active face); [|contradiction].
  destruct face; destruct H as [<-|[<-|[]]]; intros i j k l Hl; cbn in Hl;
  repeat (destruct Hl as [<-|Hl]; [first [left; reflexivity|right; reflexivity]|]); contradiction.
Qed.
Lemma good_H o : In o (flat_map coH pwFaces) -> good o.
Proof.
  intros H. apply in_flat_map in H. destruct H as (face & _ & H). unfold coH in H. destruct (active face); [|contradiction].
  destruct face; destruct H as [<-|[<-|[]]]; intros i j k l Hl; cbn in Hl;
  repeat (destruct Hl as [<-|Hl]; [first [left; reflexivity|right; reflexivity]|]); contradiction.
Qed.
End Lists.

Lemma flim_collapsed c g active face f : fieldIsParallelToBoundary f face = true ->
  flim c g active face f (face_lo (face_axis face)) = flim c g active face f (face_hi (face_axis face)).
Proof.
  destruct face, f; intros E; try discriminate E; unfold flim, setFieldLimits, setBoundingBoxFromNodes, mkbox, setBoundingBoxBoundaryFlags;
  cbn [face_axis face_lo face_hi fieldIsInBoundary]; lia.
Qed.
