(** Lemmas about the time loop and the observers. *)
From Coq Require Import ZArith List Bool Lia Reals Lra.
From Verif Require Import Types Lang LangProofs BBox Grid Setup SpecGeom BBoxProofs SpecGrid SetupProofs Step StepShape StepBounds
  SpecMedia Waveform Sim Observer SpecObs.
Import ListNotations.
Open Scope Z_scope.
Local Arguments Z.mul : simpl never.
Local Arguments Z.add : simpl never.
Local Arguments Z.sub : simpl never.
Local Notation length := List.length.

(** ** The time loop *)
Section Loop.
Context {S : Type}.
Variable body : Z -> S -> res S.
Variable P : Z -> S -> Prop.
Lemma timeLoop_inv NT : 1 <= NT < ULONG ->
  (forall t s, 0 <= t < NT -> P t s -> exists s', body t s = Fin s' /\ P (t + 1) s') ->
  forall fuel t s, 0 <= t <= NT -> (NT - t < Z.of_nat fuel) -> P t s ->
  exists s', timeLoop body fuel NT t s = Fin s' /\ P NT s'.
Proof.
  intros HN HB. induction fuel as [|fuel IH]; intros t s Ht Hf HP; [lia|].
  cbn [timeLoop]. unfold ulong at 1. rewrite Z.mod_small by lia.
  destruct (Z.leb_spec t (NT - 1)).
  - destruct (HB t s) as (s' & E & HP'); [lia|exact HP|]. rewrite E. cbn [rbind].
    unfold ulong. rewrite Z.mod_small by lia. apply IH; [lia|lia|exact HP'].
  - exists s. split; [reflexivity|]. replace NT with t by lia. exact HP.
Qed.
End Loop.

Lemma zrange_snoc lo hi : lo <= hi + 1 -> zrange lo (hi + 1) = zrange lo hi ++ [hi + 1].
Proof.
  intros H. unfold zrange. replace (Z.to_nat (hi + 1 - lo + 1)) with (S (Z.to_nat (hi - lo + 1))) by lia.
  rewrite seq_S, map_app. cbn [map]. f_equal. f_equal. lia.
Qed.
Lemma zrange_empty lo hi : hi < lo -> zrange lo hi = [].
Proof. intros. unfold zrange. replace (Z.to_nat (hi - lo + 1)) with O by lia. reflexivity. Qed.

(** ** The stride loops *)
Lemma stride_nil lo hi st : 1 <= st -> hi < lo -> stride lo hi st = [].
Proof.
  intros. unfold stride. replace (Z.to_nat (1 + (hi - lo) / st)) with O; [reflexivity|].
  assert ((hi - lo) / st < 0) by (apply Z.div_lt_upper_bound; lia). lia.
Qed.
Lemma stride_cons lo hi st : 1 <= st -> lo <= hi -> stride lo hi st = lo :: stride (lo + st) hi st.
Proof.
  intros. unfold stride.
  assert (E : (hi - lo) / st = 1 + (hi - (lo + st)) / st).
  { replace (hi - lo) with (hi - (lo + st) + 1 * st) by lia. rewrite Z.div_add by lia. lia. }
  assert (0 <= (hi - lo) / st) by (apply Z.div_pos; lia).
  replace (Z.to_nat (1 + (hi - lo) / st)) with (S (Z.to_nat (1 + (hi - (lo + st)) / st))) by lia.
  cbn [seq map]. f_equal; [lia|]. rewrite <- seq_shift, map_map. apply map_ext. intros n. lia.
Qed.
Lemma stride_in lo hi st x : 1 <= st -> In x (stride lo hi st) -> lo <= x <= hi.
Proof.
  intros Hs H. unfold stride in H. apply in_map_iff in H. destruct H as (n & <- & I). apply in_seq in I.
  assert (Z.of_nat n <= (hi - lo) / st) by lia.
  assert ((hi - lo) / st * st <= hi - lo) by (rewrite Z.mul_comm; apply Z.mul_div_le; lia). nia.
Qed.
Lemma forStep_fin {S : Type} (body : Z -> S -> res S) (g : Z -> S -> S) hi st : 1 <= st -> hi + st <= INT_MAX ->
  forall fuel lo s, hi - lo + 1 < Z.of_nat fuel ->  (0 < fuel)%nat ->
  (forall i s, lo <= i <= hi -> body i s = Fin (g i s)) ->
  forStep body fuel lo hi st s = Fin (fold_left (fun s i => g i s) (stride lo hi st) s).
Proof.
  intros Hs Ho. induction fuel as [|fuel IH]; intros lo s Hf Hp HB; [lia|]. cbn [forStep].
  destruct (Z.leb_spec lo hi).
  - rewrite HB by lia. cbn [rbind]. destruct (Z.ltb_spec INT_MAX (lo + st)); [lia|].
    rewrite stride_cons by lia. cbn [fold_left]. apply IH; [lia|lia|]. intros; apply HB; lia.
  - rewrite stride_nil by lia. reflexivity.
Qed.
(** a step of zero never gets past the first index *)
Lemma forStep_zero {S : Type} (body : Z -> S -> res S) (g : Z -> S -> S) lo hi : lo <= hi -> lo <= INT_MAX ->
  (forall s, body lo s = Fin (g lo s)) -> forall fuel s, forStep body fuel lo hi 0 s = More.
Proof.
  intros H Hm HB. induction fuel as [|fuel IH]; intros s; cbn [forStep]; [reflexivity|].
  destruct (Z.leb_spec lo hi); [|lia]. rewrite HB. cbn [rbind]. rewrite Z.add_0_r.
  destruct (Z.ltb_spec INT_MAX lo); [lia|]. apply IH.
Qed.

(** ** Sampling *)
Section Sample.
Variables (c : Cfg) (W : wf c) (wv : R -> nat -> R) (oc : OutCfg) (dt : R).

Definition ascii_ok (o : Obs) : Prop :=
  forall a, 0 <= o_mbbox o (face_lo a) <= numLines c a - 1.
Definition binary_ok (o : Obs) : Prop :=
  in_mesh_box c (o_mbbox o) /\ forall a, 1 <= o_step o a /\ numCells c a + o_step o a <= INT_MAX.
Definition obs_ok (o : Obs) : Prop :=
  match o_quantity o, o_format o with OQ_WF, OF_ASCII => True | OQ_WF, OF_BINARY => False | OQ_EH, OF_ASCII => ascii_ok o
  | OQ_EH, OF_BINARY => binary_ok o end.

Lemma node_in i j k f : 0 <= i <= numLines c XDIR - 1 -> 0 <= j <= numLines c YDIR - 1 -> 0 <= k <= numLines c ZDIR - 1 ->
  inb (dims c) (L (AF f) (gibox c XLO + i) (gibox c YLO + j) (gibox c ZLO + k)) = true.
Proof.
  intros. apply (inb_iff _ _ _ _ _ (dims3 c)); [reflexivity|]. unfold within, dims3. cfg_facts c W. lia.
Qed.
Lemma rdAll_fin m i j k : 0 <= i <= numLines c XDIR - 1 -> 0 <= j <= numLines c YDIR - 1 -> 0 <= k <= numLines c ZDIR - 1 ->
  rdAll c m comps (gibox c XLO + i) (gibox c YLO + j) (gibox c ZLO + k) = Fin (sixFields c m i j k).
Proof.
  intros. unfold rdAll, comps, rdF. rewrite !node_in by lia. reflexivity.
Qed.

Definition active (o : Obs) (t : Z) : bool :=
  match o_quantity o with OQ_WF => true | OQ_EH => (oc_start oc <=? t) && (t <=? oc_stop oc) end.
Definition vals (m : mem R) (o : Obs) (t : Z) : list R :=
  match o_quantity o with OQ_WF => [wv (IZR t * dt)%R (o_wf o)] | OQ_EH => sixAt c m o end.
Definition recsOf (m : mem R) (n : nat) (o : Obs) (t : Z) : list (nat * Z * Z * Z * list R) :=
  if isBinary o && active o t
  then map (fun p => let '(i, j, k) := p in (n, i, j, k, sixFields c m i j k)) (strideNodes (o_mbbox o) (o_step o)) else [].
Definition isTime (o : Obs) : bool := match o_domain o with OD_TIME => true | _ => false end.
Definition rowOf (m : mem R) (o : Obs) (t : Z) : list (Z * R * list R) :=
  if negb (isBinary o) && isTime o && active o t then [(t, (IZR t * dt)%R, vals m o t)] else [].
Definition contrib (trig : R -> R) (m : mem R) (o : Obs) (comp : nat) (f t : Z) : R :=
  if negb (isBinary o) && negb (isTime o) && active o t && (comp <? length (vals m o t))%nat && (0 <=? f) && (f <? oc_nf oc)
  then (nth comp (vals m o t) 0 * trig (omega oc f * (IZR t * dt)))%R else 0%R.

Lemma obsValues_fin m o t : (o_quantity o = OQ_EH -> ascii_ok o) ->
  obsValues c wv m o (IZR t * dt)%R = Fin (vals m o t).
Proof.
  intros H. unfold obsValues, vals. destruct (o_quantity o); [reflexivity|]. specialize (H eq_refl).
  unfold obs_gbbox, offsetBoundingBox, sixAt, nodeOf. cbn [face_lo].
  pose proof (H XDIR); pose proof (H YDIR); pose proof (H ZDIR). cbn [face_lo] in *.
  rewrite <- rdAll_fin by assumption. rewrite !(Z.add_comm (gibox c _)); reflexivity.
Qed.

Lemma fold_app_map {X Y : Type} (h : X -> list Y) (l : list X) (acc : list Y) :
  fold_left (fun s x => s ++ h x) l acc = acc ++ flat_map h l.
Proof. revert acc. induction l as [|x l IH]; intros acc; cbn [fold_left flat_map]; [rewrite app_nil_r; reflexivity|].
  rewrite IH, <- app_assoc. reflexivity. Qed.

Definition addImp (out : Out) (r : list (nat * Z * Z * Z * list R)) : Out :=
  mkOut (excite out) (impulse out ++ r) (rows out) (dftRe out) (dftIm out).
Lemma addImp_nil out : addImp out [] = out.
Proof. destruct out. unfold addImp. cbn. rewrite app_nil_r. reflexivity. Qed.
Lemma fold_addImp {X : Type} (h : X -> list (nat * Z * Z * Z * list R)) (l : list X) out :
  fold_left (fun s x => addImp s (h x)) l out = addImp out (flat_map h l).
Proof.
  revert out. induction l as [|x l IH]; intros out; cbn [fold_left flat_map]; [rewrite addImp_nil; reflexivity|].
  rewrite IH. unfold addImp. cbn. rewrite <- app_assoc. reflexivity.
Qed.
Lemma stride_shift d lo hi st : stride (d + lo) (d + hi) st = map (fun x => d + x) (stride lo hi st).
Proof. unfold stride. replace (d + hi - (d + lo)) with (hi - lo) by lia. rewrite map_map. apply map_ext. intros; lia. Qed.
Lemma flat_map_map {X Y Z' : Type} (g : X -> Y) (h : Y -> list Z') l : flat_map h (map g l) = flat_map (fun x => h (g x)) l.
Proof. induction l; cbn [map flat_map]; [reflexivity|f_equal; auto]. Qed.
Lemma flat_map_in {X Y : Type} (h h' : X -> list Y) l : (forall x, In x l -> h x = h' x) -> flat_map h l = flat_map h' l.
Proof. induction l; intros H; cbn [flat_map]; [reflexivity|]. rewrite H by (left; reflexivity). f_equal. apply IHl. intros; apply H; right; auto. Qed.

Lemma offset_eq o : obs_gbbox c o XLO = gibox c XLO + o_mbbox o XLO /\ obs_gbbox c o XHI = gibox c XLO + o_mbbox o XHI /\
  obs_gbbox c o YLO = gibox c YLO + o_mbbox o YLO /\ obs_gbbox c o YHI = gibox c YLO + o_mbbox o YHI /\
  obs_gbbox c o ZLO = gibox c ZLO + o_mbbox o ZLO /\ obs_gbbox c o ZHI = gibox c ZLO + o_mbbox o ZHI.
Proof. unfold obs_gbbox, offsetBoundingBox. cbn. repeat split; lia. Qed.

Lemma cells_big a : numLines c a <= numCells c a /\ 0 < numLines c a /\ 0 <= gibox c (face_lo a) /\
  gibox c (face_lo a) + numLines c a <= numCells c a.
Proof.
  cfg_facts c W. destruct a; cbn [face_lo face_hi] in *; lia.
Qed.

Lemma updateImpulseDat_fin fuel m n o out : binary_ok o -> (forall a, numCells c a + 1 < Z.of_nat fuel) ->
  updateImpulseDat c fuel m n o out =
  Fin (addImp out (map (fun p => let '(i, j, k) := p in (n, i, j, k, sixFields c m i j k)) (strideNodes (o_mbbox o) (o_step o)))).
Proof.
  intros [HB HS] HF. unfold updateImpulseDat.
  destruct (offset_eq o) as (X0 & X1 & Y0 & Y1 & Z0 & Z1). rewrite X0, X1, Y0, Y1, Z0, Z1.
  pose proof (HB XDIR) as BX; pose proof (HB YDIR) as BY; pose proof (HB ZDIR) as BZ. cbn [face_lo face_hi] in *.
  destruct (HS XDIR) as [SX OX], (HS YDIR) as [SY OY], (HS ZDIR) as [SZ OZ].
  pose proof (cells_big XDIR) as CX; pose proof (cells_big YDIR) as CY; pose proof (cells_big ZDIR) as CZ. cbn [face_lo] in *.
  pose proof (HF XDIR) as FX; pose proof (HF YDIR) as FY; pose proof (HF ZDIR) as FZ.
  set (rec := fun i j k => (n, i - gibox c XLO, j - gibox c YLO, k - gibox c ZLO,
                            sixFields c m (i - gibox c XLO) (j - gibox c YLO) (k - gibox c ZLO))).
  rewrite (forStep_fin _ (fun k s => addImp s
     (flat_map (fun j => flat_map (fun i => [rec i j k]) (stride (gibox c XLO + o_mbbox o XLO) (gibox c XLO + o_mbbox o XHI) (o_step o XDIR)))
       (stride (gibox c YLO + o_mbbox o YLO) (gibox c YLO + o_mbbox o YHI) (o_step o YDIR))))); [|lia|lia|lia|lia|].
  - rewrite fold_addImp. f_equal. f_equal.
    rewrite !stride_shift. rewrite flat_map_map. unfold strideNodes.
    rewrite (flat_map_concat_map _ (stride (o_mbbox o ZLO) _ _)), (flat_map_concat_map _ (stride (o_mbbox o ZLO) _ _)), concat_map, map_map.
    f_equal. apply map_ext. intros k. rewrite flat_map_map.
    rewrite (flat_map_concat_map _ (stride (o_mbbox o YLO) _ _)), (flat_map_concat_map _ (stride (o_mbbox o YLO) _ _)), concat_map, map_map.
    f_equal. apply map_ext. intros j. rewrite flat_map_map, flat_map_concat_map, map_map.
    induction (stride (o_mbbox o XLO) (o_mbbox o XHI) (o_step o XDIR)) as [|i l IH]; cbn [map concat app]; [reflexivity|].
    f_equal; [|exact IH]. unfold rec. rewrite !Z.add_simpl_l. reflexivity.
  - intros k s Hk.
    rewrite (forStep_fin _ (fun j s => addImp s (flat_map (fun i => [rec i j k]) (stride (gibox c XLO + o_mbbox o XLO) (gibox c XLO + o_mbbox o XHI) (o_step o XDIR)))));
      [rewrite fold_addImp; reflexivity|lia|lia|lia|lia|].
    intros j s' Hj.
    rewrite (forStep_fin _ (fun i s => addImp s [rec i j k])); [rewrite fold_addImp; reflexivity|lia|lia|lia|lia|].
    intros i s'' Hi.
    assert (E : rdAll c m comps i j k = Fin (sixFields c m (i - gibox c XLO) (j - gibox c YLO) (k - gibox c ZLO))).
    { rewrite <- rdAll_fin by lia. f_equal; lia. }
    rewrite E. reflexivity.
Qed.

(** One observer. *)
Lemma updateObserver_fin fuel m n o t out : obs_ok o -> (forall a, numCells c a + 1 < Z.of_nat fuel) ->
  exists out', updateObserver c wv fuel oc t (IZR t * dt)%R m n o out = Fin out' /\
  excite out' = excite out /\
  impulse out' = impulse out ++ recsOf m n o t /\
  (forall q, rows out' q = rows out q ++ (if Nat.eqb q n then rowOf m o t else [])) /\
  (forall q comp f, dftRe out' q comp f = (dftRe out q comp f + if Nat.eqb q n then contrib cos m o comp f t else 0)%R) /\
  (forall q comp f, dftIm out' q comp f = (dftIm out q comp f - if Nat.eqb q n then contrib sin m o comp f t else 0)%R).
Proof.
  intros HO HF. unfold updateObserver. 
  assert (ID : forall out', out' = out -> recsOf m n o t = [] -> rowOf m o t = [] ->
     (forall g comp f, contrib g m o comp f t = 0%R) ->
     exists out'', Fin out' = Fin out'' /\ excite out'' = excite out /\ impulse out'' = impulse out ++ recsOf m n o t /\
     (forall q, rows out'' q = rows out q ++ (if Nat.eqb q n then rowOf m o t else [])) /\
  (forall q comp f, dftRe out'' q comp f = (dftRe out q comp f + if Nat.eqb q n then contrib cos m o comp f t else 0)%R) /\
  (forall q comp f, dftIm out'' q comp f = (dftIm out q comp f - if Nat.eqb q n then contrib sin m o comp f t else 0)%R)).
  { intros out' -> H1 H2 H3. exists out. rewrite H1, H2. repeat split; intros; rewrite ?H3, ?app_nil_r; try reflexivity;
    destruct (Nat.eqb q n); rewrite ?app_nil_r; try reflexivity; lra. }
  assert (TI : (o_quantity o = OQ_EH -> ascii_ok o) -> isBinary o = false -> isTime o = true -> active o t = true ->
     exists out'', updateAsciiTime c wv m n o t (IZR t * dt)%R out = Fin out'' /\ excite out'' = excite out /\ impulse out'' = impulse out ++ recsOf m n o t /\
     (forall q, rows out'' q = rows out q ++ (if Nat.eqb q n then rowOf m o t else [])) /\
  (forall q comp f, dftRe out'' q comp f = (dftRe out q comp f + if Nat.eqb q n then contrib cos m o comp f t else 0)%R) /\
  (forall q comp f, dftIm out'' q comp f = (dftIm out q comp f - if Nat.eqb q n then contrib sin m o comp f t else 0)%R)).
  { intros H1 H2 H3 H4. unfold updateAsciiTime. rewrite (obsValues_fin m o t H1). cbn [rbind]. eexists. split; [reflexivity|].
    unfold recsOf, rowOf, contrib. rewrite H2, H3, H4. cbn [andb negb excite impulse rows dftRe dftIm].
    rewrite app_nil_r. repeat split; intros.
    - destruct (Nat.eqb q n); rewrite ?app_nil_r; reflexivity.
    - destruct (Nat.eqb q n); lra.
    - destruct (Nat.eqb q n); lra. }
  assert (FR : (o_quantity o = OQ_EH -> ascii_ok o) -> isBinary o = false -> isTime o = false -> active o t = true ->
     exists out'', updateAsciiFreq c wv oc m n o (IZR t * dt)%R out = Fin out'' /\ excite out'' = excite out /\ impulse out'' = impulse out ++ recsOf m n o t /\
     (forall q, rows out'' q = rows out q ++ (if Nat.eqb q n then rowOf m o t else [])) /\
  (forall q comp f, dftRe out'' q comp f = (dftRe out q comp f + if Nat.eqb q n then contrib cos m o comp f t else 0)%R) /\
  (forall q comp f, dftIm out'' q comp f = (dftIm out q comp f - if Nat.eqb q n then contrib sin m o comp f t else 0)%R)).
  { intros H1 H2 H3 H4. unfold updateAsciiFreq. rewrite (obsValues_fin m o t H1). cbn [rbind]. eexists. split; [reflexivity|].
    unfold recsOf, rowOf, contrib. rewrite H2, H3, H4. cbn [andb negb excite impulse rows dftRe dftIm].
    rewrite app_nil_r. repeat split; intros.
    - destruct (Nat.eqb q n); rewrite ?app_nil_r; reflexivity.
    - destruct (Nat.eqb q n); cbn [andb]; [|lra]. destruct ((comp <? length (vals m o t))%nat && (0 <=? f) && (f <? oc_nf oc)); lra.
    - destruct (Nat.eqb q n); cbn [andb]; [|lra]. destruct ((comp <? length (vals m o t))%nat && (0 <=? f) && (f <? oc_nf oc)); lra. }
  unfold obs_ok in HO. unfold isBinary, isTime, active in *.
  destruct (o_quantity o) eqn:Q, (o_domain o) eqn:D, (o_format o) eqn:F; try contradiction.
  - apply TI; auto; congruence.
  - apply FR; auto; congruence.
  - destruct ((oc_start oc <=? t) && (t <=? oc_stop oc)) eqn:AC; [apply TI; auto|].
    apply ID; auto; unfold recsOf, rowOf, contrib, isBinary, isTime, active; rewrite ?Q, ?D, ?F, ?AC; reflexivity.
  - destruct ((oc_start oc <=? t) && (t <=? oc_stop oc)) eqn:AC.
    + rewrite updateImpulseDat_fin by assumption. eexists. split; [reflexivity|].
      unfold recsOf, rowOf, contrib, isBinary, isTime, active. rewrite ?Q, ?D, ?F, ?AC. cbn [andb negb excite addImp impulse rows dftRe dftIm].
      repeat split; intros; try (destruct (Nat.eqb q n)); rewrite ?app_nil_r; try reflexivity; lra.
    + apply ID; auto; unfold recsOf, rowOf, contrib, isBinary, isTime, active; rewrite ?Q, ?D, ?F, ?AC; reflexivity.
  - destruct ((oc_start oc <=? t) && (t <=? oc_stop oc)) eqn:AC; [apply FR; auto|].
    apply ID; auto; unfold recsOf, rowOf, contrib, isBinary, isTime, active; rewrite ?Q, ?D, ?F, ?AC; reflexivity.
  - destruct ((oc_start oc <=? t) && (t <=? oc_stop oc)) eqn:AC.
    + rewrite updateImpulseDat_fin by assumption. eexists. split; [reflexivity|].
      unfold recsOf, rowOf, contrib, isBinary, isTime, active. rewrite ?Q, ?D, ?F, ?AC. cbn [andb negb excite addImp impulse rows dftRe dftIm].
      repeat split; intros; try (destruct (Nat.eqb q n)); rewrite ?app_nil_r; try reflexivity; lra.
    + apply ID; auto; unfold recsOf, rowOf, contrib, isBinary, isTime, active; rewrite ?Q, ?D, ?F, ?AC; reflexivity.
Qed.

(** All observers at one time step. *)
Fixpoint recsAll (m : mem R) (n : nat) (l : list Obs) (t : Z) : list (nat * Z * Z * Z * list R) :=
  match l with [] => [] | o :: l' => recsOf m n o t ++ recsAll m (S n) l' t end.
Definition at_ {X : Type} (l : list Obs) (n q : nat) (h : Obs -> X) (d : X) : X :=
  if (n <=? q)%nat then match nth_error l (q - n) with Some o => h o | None => d end else d.
Lemma at_cons {X : Type} o l n q (h : Obs -> X) d : at_ (o :: l) n q h d = if Nat.eqb q n then h o else at_ l (S n) q h d.
Proof.
  unfold at_. destruct (Nat.eqb_spec q n) as [->|E].
  - rewrite Nat.leb_refl, Nat.sub_diag. reflexivity.
  - destruct (Nat.leb_spec n q), (Nat.leb_spec (S n) q); try lia; [|reflexivity].
    replace (q - n)%nat with (S (q - S n)) by lia. reflexivity.
Qed.
Lemma at_low {X : Type} l n q (h : Obs -> X) d : (q < n)%nat -> at_ l n q h d = d.
Proof. unfold at_. destruct (Nat.leb_spec n q); [lia|reflexivity]. Qed.

Lemma updateAll_fin fuel m t : (forall a, numCells c a + 1 < Z.of_nat fuel) ->
  forall l n out, Forall obs_ok l ->
  exists out', updateAll c wv fuel oc t (IZR t * dt)%R m n l out = Fin out' /\
  excite out' = excite out /\
  impulse out' = impulse out ++ recsAll m n l t /\
  (forall q, rows out' q = rows out q ++ at_ l n q (fun o => rowOf m o t) []) /\
  (forall q comp f, dftRe out' q comp f = (dftRe out q comp f + at_ l n q (fun o => contrib cos m o comp f t) 0)%R) /\
  (forall q comp f, dftIm out' q comp f = (dftIm out q comp f - at_ l n q (fun o => contrib sin m o comp f t) 0)%R).
Proof.
  intros HF. induction l as [|o l IH]; intros n out HO; cbn [updateAll recsAll].
  - exists out. rewrite app_nil_r. repeat split; intros; unfold at_; destruct (n <=? q)%nat; try rewrite nth_error_nil;
    try (destruct (q - n)%nat); cbn [nth_error]; rewrite ?app_nil_r; try reflexivity; lra.
  - inversion HO as [|? ? H1 H2]; subst.
    destruct (updateObserver_fin fuel m n o t out H1 HF) as (o1 & E1 & A1 & A2 & A3 & A4 & A5).
    destruct (IH (S n) o1 H2) as (o2 & E2 & B1 & B2 & B3 & B4 & B5).
    rewrite E1. cbn [rbind]. exists o2. split; [exact E2|]. rewrite B1, A1, B2, A2, <- app_assoc.
    repeat split; intros.
    + rewrite B3, A3, at_cons, <- app_assoc. f_equal. destruct (Nat.eqb_spec q n) as [->|]; [|reflexivity].
      rewrite at_low by lia. apply app_nil_r.
    + rewrite B4, A4, at_cons. destruct (Nat.eqb_spec q n) as [->|]; [rewrite at_low by lia|]; lra.
    + rewrite B5, A5, at_cons. destruct (Nat.eqb_spec q n) as [->|]; [rewrite at_low by lia|]; lra.
Qed.

(** ** The whole run *)
Variables (A : Arith R) (xE xH : nat -> list (item R)) (m0 : mem R).
Notation M := (fieldsAfter c A xE xH m0).
Lemma steps_app t n : steps c xE xH t (S n) = steps c xE xH t n ++ timeStep c (xE (t + n)%nat) (xH (t + n)%nat).
Proof.
  revert t. induction n as [|n IH]; intros t.
  - cbn [steps app]. rewrite app_nil_r, Nat.add_0_r. reflexivity.
  - change (steps c xE xH t (S (S n))) with (timeStep c (xE t) (xH t) ++ steps c xE xH (S t) (S n)).
    rewrite IH. cbn [steps]. rewrite <- app_assoc. replace (S t + n)%nat with (t + S n)%nat by lia. reflexivity.
Qed.
Lemma flat_app {V} (p q : list (item V)) : flat (p ++ q) = flat p ++ flat q.
Proof. unfold flat. apply flat_map_app. Qed.
Lemma fieldsAfter_S t : 0 <= t -> M (t + 1) = run A (flat (timeStep c (xE (Z.to_nat t)) (xH (Z.to_nat t)))) (M t).
Proof.
  intros. unfold fieldsAfter. replace (Z.to_nat (t + 1)) with (S (Z.to_nat t)) by lia.
  rewrite steps_app, flat_app, run_app. reflexivity.
Qed.

Definition outInv (l : list Obs) (N : Z) (out : Out) : Prop :=
  excite out = (if existsb isBinary l then map (fun t => wv (IZR t * dt)%R O) (zrange 0 (N - 1)) else []) /\
  impulse out = flat_map (fun t => recsAll (M t) 0 l t) (zrange 0 (N - 1)) /\
  (forall q o, nth_error l q = Some o ->
     rows out q = flat_map (fun t => rowOf (M t) o t) (zrange 0 (N - 1)) /\
     forall comp f, dftRe out q comp f = sumOver (zrange 0 (N - 1)) (fun t => contrib cos (M t) o comp f t) /\
                    dftIm out q comp f = (- sumOver (zrange 0 (N - 1)) (fun t => contrib sin (M t) o comp f t))%R).

Lemma sumOver_app l l' x : sumOver (l ++ l') x = (sumOver l x + sumOver l' x)%R.
Proof. unfold sumOver. induction l; cbn [app map fold_right]; [lra|]. rewrite IHl. lra. Qed.

Lemma simulate_inv l fuel NT : Forall obs_ok l -> 1 <= NT < ULONG -> NT < Z.of_nat fuel ->
  (forall a, numCells c a + 1 < Z.of_nat fuel) ->
  exists out, simulate c wv A xE xH fuel oc l dt NT m0 = Fin (M NT, out) /\ outInv l NT out.
Proof.
  intros HO HN HF HC. unfold simulate, propagate.
  destruct (timeLoop_inv (runBody c wv A xE xH fuel oc l dt) (fun t s => fst s = M t /\ outInv l t (snd s)) NT HN) with (fuel := fuel) (t := 0)
    (s := (m0, initOut)) as ([m' out'] & E & H1 & H2).
  - intros t [m out] Ht [HM HI]. cbn [fst snd] in *. subst m. unfold runBody, updateObservers. cbn [fst snd].
    set (out1 := if existsb isBinary l then _ else out).
    destruct (updateAll_fin fuel (M t) t HC l 0 out1 HO) as (out' & E & B1 & B2 & B3 & B4 & B5).
    rewrite E. cbn [rbind]. eexists. split; [reflexivity|]. cbn [fst snd].
    split; [symmetry; apply fieldsAfter_S; lia|].
    destruct HI as (I1 & I2 & I3). replace (t + 1 - 1) with (t - 1 + 1) by lia.
    unfold outInv. replace (t + 1 - 1) with (t - 1 + 1) by lia. rewrite zrange_snoc by lia. replace (t - 1 + 1) with t by lia.
    repeat split.
    + rewrite B1. unfold out1. destruct (existsb isBinary l); cbn [excite]; rewrite I1; [rewrite map_app; reflexivity|reflexivity].
    + rewrite B2. unfold out1. rewrite flat_map_app. cbn [flat_map]. rewrite app_nil_r.
      destruct (existsb isBinary l); cbn [impulse]; rewrite I2; reflexivity.
    + rewrite B3. unfold out1. rewrite flat_map_app. cbn [flat_map]. rewrite app_nil_r.
      destruct (I3 q o H) as (J & _). unfold at_. cbn [Nat.leb]. rewrite Nat.sub_0_r, H.
      destruct (existsb isBinary l); cbn [rows]; rewrite J; reflexivity.
    + rewrite B4. unfold out1. rewrite sumOver_app. destruct (I3 q o H) as (_ & J). destruct (J comp f) as (J1 & _).
      unfold at_. cbn [Nat.leb]. rewrite Nat.sub_0_r, H. unfold sumOver at 2. cbn [map fold_right].
      destruct (existsb isBinary l); cbn [dftRe]; rewrite J1; lra.
    + rewrite B5. unfold out1. rewrite sumOver_app. destruct (I3 q o H) as (_ & J). destruct (J comp f) as (_ & J1).
      unfold at_. cbn [Nat.leb]. rewrite Nat.sub_0_r, H. unfold sumOver at 2. cbn [map fold_right].
      destruct (existsb isBinary l); cbn [dftIm]; rewrite J1; lra.
  - lia.
  - lia.
  - cbn [fst snd]. split; [reflexivity|]. unfold outInv, initOut. cbn [excite impulse rows dftRe dftIm].
    rewrite (zrange_empty 0 (0 - 1)) by lia. cbn [map flat_map]. repeat split; intros; try (destruct (existsb isBinary l)); try reflexivity.
    all: unfold sumOver; cbn; lra.
  - cbn [fst snd] in H1, H2. subst m'. exists out'. split; [exact E|exact H2].
Qed.
End Sample.
