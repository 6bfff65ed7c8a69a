(** Proofs about the mesh export. *)
From Coq Require Import ZArith String List Bool Lia.
From Verif Require Import Types Lang LangProofs BBox CArr SpecGeom Gmsh SpecGmsh.
Import ListNotations.
Open Scope Z_scope.
Local Arguments Z.mul : simpl never.
Local Arguments Z.add : simpl never.
Local Arguments Z.sub : simpl never.

Definition inMesh (n : Axis -> Z) (p : Z * Z * Z) : Prop := forall a, 0 <= coord3 p a < n a.
Definition num (n : Axis -> Z) (p : Z * Z * Z) : Z :=
  let '(i, j, k) := p in i + 1 + j * n XDIR + k * n XDIR * n YDIR.
Lemma inMesh3 n i j k : inMesh n (i, j, k) <-> 0 <= i < n XDIR /\ 0 <= j < n YDIR /\ 0 <= k < n ZDIR.
Proof.
  split; [intros H; pose proof (H XDIR); pose proof (H YDIR); pose proof (H ZDIR); simpl in *; lia|].
  intros (A & B & C) []; assumption.
Qed.
Lemma num_pos n p : inMesh n p -> 0 < num n p.
Proof. destruct p as [[i j] k]. rewrite inMesh3. simpl. intros (A & B & C).
  assert (0 <= j * n XDIR) by (apply Z.mul_nonneg_nonneg; lia). assert (0 <= k * n XDIR) by (apply Z.mul_nonneg_nonneg; lia).
  assert (0 <= k * n XDIR * n YDIR) by (apply Z.mul_nonneg_nonneg; lia). lia. Qed.
Lemma num_le n p : inMesh n p -> num n p <= n XDIR * n YDIR * n ZDIR.
Proof. destruct p as [[i j] k]. rewrite inMesh3. simpl. intros (A & B & C).
  assert (k * (n XDIR * n YDIR) <= (n ZDIR - 1) * (n XDIR * n YDIR)) by (apply Z.mul_le_mono_nonneg_r; nia). nia. Qed.
Lemma num_inj n p q : inMesh n p -> inMesh n q -> num n p = num n q -> p = q.
Proof.
  destruct p as [[i j] k], q as [[i' j'] k']. rewrite !inMesh3. simpl. intros (A & B & C) (A' & B' & C') E.
  assert (E2 : i + n XDIR * (j + n YDIR * k) = i' + n XDIR * (j' + n YDIR * k')) by nia.
  assert (I : i = i').
  { rewrite <- (Z.mod_small i (n XDIR)), <- (Z.mod_small i' (n XDIR)) by lia.
    rewrite <- (Z.mod_add i (j + n YDIR * k) (n XDIR)), <- (Z.mod_add i' (j' + n YDIR * k') (n XDIR)) by lia.
    f_equal. lia. }
  subst i'. assert (E3 : j + n YDIR * k = j' + n YDIR * k') by nia.
  assert (J : j = j').
  { rewrite <- (Z.mod_small j (n YDIR)), <- (Z.mod_small j' (n YDIR)) by lia.
    rewrite <- (Z.mod_add j k (n YDIR)), <- (Z.mod_add j' k' (n YDIR)) by lia. f_equal. lia. }
  subst j'. assert (k = k') by nia. congruence.
Qed.

Lemma int_some x y : int x = Some y -> y = x /\ x <= INT_MAX.
Proof. unfold int. destruct (Z.leb_spec (- INT_MAX - 1) x), (Z.leb_spec x INT_MAX); simpl; try discriminate. intros [= <-]. auto. Qed.
Lemma encode_some n i j k v : encodeNodeNumber n i j k = Some v -> v = num n (i, j, k) /\ v <= INT_MAX.
Proof.
  unfold encodeNodeNumber, obind. 
  repeat match goal with |- context [int ?x] => let y := fresh "y" in let E := fresh "E" in
    destruct (int x) as [y|] eqn:E; [apply int_some in E; destruct E; subst|discriminate] end.
  intros [= <-]. simpl. split; [lia|assumption].
Qed.
Lemma int_ok x : 0 <= x <= INT_MAX -> int x = Some x.
Proof. unfold int, INT_MAX. intros.
  rewrite (proj2 (Z.leb_le _ _)) by lia. rewrite (proj2 (Z.leb_le _ _)) by lia. reflexivity. Qed.
Lemma encode_ok n i j k : inMesh n (i, j, k) -> num n (i, j, k) <= INT_MAX -> encodeNodeNumber n i j k = Some (num n (i, j, k)).
Proof.
  rewrite inMesh3. simpl. intros (A & B & C) L. unfold encodeNodeNumber, obind.
  assert (0 <= j * n XDIR) by (apply Z.mul_nonneg_nonneg; lia). assert (0 <= k * n XDIR) by (apply Z.mul_nonneg_nonneg; lia).
  assert (0 <= k * n XDIR * n YDIR) by (apply Z.mul_nonneg_nonneg; lia).
  assert (k * n XDIR <= k * n XDIR * n YDIR) by nia.
  rewrite !int_ok by lia. f_equal. 
Qed.

(** [g'] is [g] with the given cells (lists of corners) added *)
Definition eqp (p q : Z * Z * Z) : bool := let '(i, j, k) := p in let '(i', j', k') := q in (i =? i') && (j =? j') && (k =? k').
Lemma eqp_spec p q : eqp p q = true <-> p = q.
Proof.
  destruct p as [[i j] k], q as [[i' j'] k']. simpl. rewrite !andb_true_iff, !Z.eqb_eq. 
  split; [intros [[-> ->] ->]; reflexivity|intros [= -> -> ->]; auto].
Qed.
Lemma p_dec (p q : Z * Z * Z) : {p = q} + {p <> q}.
Proof. destruct (eqp p q) eqn:E; [left; apply eqp_spec; assumption|right; intros H; apply eqp_spec in H; congruence]. Qed.
Definition mapAt (m : Z -> Z -> Z -> Z) (p : Z * Z * Z) : Z := let '(i, j, k) := p in m i j k.
Record Ext (t : ElementType) (grp ent : Z) (g g' : Gmsh) (cs : list (list (Z * Z * Z))) : Prop := {
  x_nn : nn g' = nn g;
  x_grp : numGroup g' = numGroup g /\ groupHash g' = groupHash g /\ nextEntityNumber g' = nextEntityNumber g;
  x_num : numElement g' = numElement g + Z.of_nat (List.length cs);
  x_el : elementList g' = elementList g ++ map (fun ps => mkElem t (map (num (nn g)) ps) grp ent) cs;
  x_in : forall p, In p (List.concat cs) -> inMesh (nn g) p /\ num (nn g) p <= INT_MAX;
  x_map : forall p, (In p (List.concat cs) -> mapAt (nodeMap g') p = num (nn g) p) /\
                    (~ In p (List.concat cs) -> mapAt (nodeMap g') p = mapAt (nodeMap g) p) }.

Lemma Ext_nil t grp ent g : Ext t grp ent g g [].
Proof. split; simpl; auto. - lia. - rewrite app_nil_r. reflexivity. - intros p []. - intros p. split; [intros []|auto]. Qed.
Lemma Ext_app t grp ent g g1 g2 c1 c2 : Ext t grp ent g g1 c1 -> Ext t grp ent g1 g2 c2 -> Ext t grp ent g g2 (c1 ++ c2).
Proof.
  intros A B. destruct A, B. split.
  - congruence.
  - destruct x_grp0 as (? & ? & ?), x_grp1 as (? & ? & ?). repeat split; congruence.
  - rewrite app_length. lia.
  - rewrite x_el1, x_el0, map_app, <- app_assoc, x_nn0. reflexivity.
  - intros p. rewrite concat_app, in_app_iff. intros [H|H]; [auto|]. rewrite <- x_nn0. auto.
  - intros p. rewrite concat_app, in_app_iff. destruct (x_map0 p), (x_map1 p). rewrite x_nn0 in *. split.
    + intros H'. destruct (in_dec p_dec p (List.concat c2)) as [I|I]; [auto|].
      rewrite H2 by assumption. destruct H'; [auto|contradiction].
    + intros H'. rewrite H2, H0; tauto.
Qed.

Lemma setNodes_some g ps g' vs : setNodes g ps = Some (g', vs) ->
  vs = map (num (nn g)) ps /\ (forall p, In p ps -> inMesh (nn g) p /\ num (nn g) p <= INT_MAX) /\
  nn g' = nn g /\ numElement g' = numElement g /\ elementList g' = elementList g /\ numGroup g' = numGroup g /\
  groupHash g' = groupHash g /\ nextEntityNumber g' = nextEntityNumber g /\
  forall p, (In p ps -> mapAt (nodeMap g') p = num (nn g) p) /\ (~ In p ps -> mapAt (nodeMap g') p = mapAt (nodeMap g) p).
Proof.
  revert g g' vs. induction ps as [|[[i j] k] ps IH]; simpl; intros g g' vs.
  - intros [= <- <-]. repeat split; auto; contradiction.
  - unfold setNode, obind at 1 2. destruct (encodeNodeNumber (nn g) i j k) as [v|] eqn:E; [|discriminate].
    destruct (_ && _) eqn:B; [|discriminate].
    rewrite !andb_true_iff, !Z.leb_le, !Z.ltb_lt in B.
    destruct (setNodes _ ps) as [[g2 vs2]|] eqn:S; simpl; [|discriminate]. intros [= <- <-].
    apply IH in S. simpl in S. destruct S as (-> & I & -> & -> & -> & -> & -> & -> & M).
    apply encode_some in E. destruct E as [-> L].
    split; [reflexivity|]. split.
    { intros p [<-|H]; [split; [apply inMesh3; lia|assumption]|apply I; assumption]. }
    do 6 (split; [reflexivity|]). intros p. split.
    + intros H. destruct (M p) as [M1 M2].
      destruct (in_dec p_dec p ps) as [X|X]; [auto|].
      rewrite M2 by assumption. destruct H as [<-|H]; [|contradiction]. simpl. rewrite !Z.eqb_refl. reflexivity.
    + intros H. destruct (M p) as [M1 M2]. rewrite M2 by tauto. destruct p as [[i' j'] k']. simpl.
      destruct (Z.eqb_spec i' i), (Z.eqb_spec j' j), (Z.eqb_spec k' k); simpl; auto. subst. tauto.
Qed.
Lemma setNodes_ok g ps : (forall p, In p ps -> inMesh (nn g) p /\ num (nn g) p <= INT_MAX) ->
  exists g', setNodes g ps = Some (g', map (num (nn g)) ps) .
Proof.
  revert g. induction ps as [|[[i j] k] ps IH]; intros g H; [exists g; reflexivity|].
  destruct (H (i, j, k)) as [I L]; [left; reflexivity|].
  cbn [setNodes setNode]. rewrite encode_ok by assumption. unfold obind. 
  assert (B : (0 <=? i) && (i <? nn g XDIR) && (0 <=? j) && (j <? nn g YDIR) && (0 <=? k) && (k <? nn g ZDIR) = true).
  { rewrite !andb_true_iff, !Z.leb_le, !Z.ltb_lt. apply inMesh3 in I. lia. }
  rewrite B. set (g1 := mkGmsh _ _ _ _ _ _ _).
  destruct (IH g1) as [g2 E]. { intros p Hp. apply (H p). right. assumption. }
  exists g2. rewrite E. reflexivity.
Qed.

Lemma addCell_ext t grp ent g ps g' : addCell t grp ent g ps = Some g' -> Ext t grp ent g g' [ps].
Proof.
  unfold addCell, obind. destruct (setNodes g ps) as [[g1 vs]|] eqn:S; [|discriminate].
  apply setNodes_some in S. destruct S as (-> & I & A1 & A2 & A3 & A4 & A5 & A6 & M).
  unfold addElement. destruct (_ =? _); [discriminate|]. intros [= <-].
  split; simpl; auto.
  - lia. - rewrite A3. reflexivity.
  - intros p. rewrite app_nil_r. apply I.
  - intros p. rewrite app_nil_r. apply M.
Qed.
Lemma addCell_ok t grp ent g ps : (forall p, In p ps -> inMesh (nn g) p /\ num (nn g) p <= INT_MAX) -> numElement g < UINT_MAX ->
  exists g', addCell t grp ent g ps = Some g'.
Proof.
  intros I L. destruct (setNodes_ok g ps I) as [g1 E]. unfold addCell. rewrite E. simpl.
  apply setNodes_some in E. destruct E as (_ & _ & _ & A2 & _). unfold addElement. rewrite A2.
  destruct (Z.eqb_spec (numElement g) UINT_MAX); [lia|]. eauto.
Qed.

(** a loop body that adds [f x], whenever it succeeds; and that succeeds when
    there is room *)
Definition adds (t : ElementType) (grp ent : Z) (n : Axis -> Z) (F : Gmsh -> option Gmsh) (cs : list (list (Z * Z * Z))) : Prop :=
  (forall g g', F g = Some g' -> Ext t grp ent g g' cs) /\
  (forall g, nn g = n -> (forall p, In p (List.concat cs) -> inMesh n p /\ num n p <= INT_MAX) ->
             numElement g + Z.of_nat (List.length cs) <= UINT_MAX -> exists g', F g = Some g').
Lemma adds_cell t grp ent n ps : adds t grp ent n (fun g => addCell t grp ent g ps) [ps].
Proof.
  split; [intros; apply addCell_ext; assumption|]. intros g <- I L. apply addCell_ok.
  - intros p Hp. apply I. simpl. rewrite app_nil_r. assumption. - simpl in L. lia.
Qed.
Lemma adds_ofold t grp ent n body f l : (forall x, adds t grp ent n (fun g => body g x) (f x)) ->
  adds t grp ent n (ofold body l) (flat_map f l).
Proof.
  intros H. induction l as [|x l [IH1 IH2]]; split; simpl.
  - intros g g' [= <-]. apply Ext_nil.
  - eauto.
  - intros g g'. unfold obind. destruct (body g x) as [g1|] eqn:E; [|discriminate]. intros E2.
    eapply Ext_app; [apply (H x); exact E|apply IH1; exact E2].
  - intros g Hn I L. rewrite app_length in L. destruct (H x) as [X1 X2].
    destruct (X2 g Hn) as [g1 E1]; [|lia|].
    { intros p Hp. apply I. rewrite concat_app. apply in_or_app. auto. }
    rewrite E1. simpl. pose proof (X1 g g1 E1) as X. destruct X. apply IH2; [congruence| |lia].
    intros p Hp. apply I. rewrite concat_app. apply in_or_app. auto.
Qed.
Lemma adds_cfor t grp ent n lo hi body f : (forall x, adds t grp ent n (fun g => body g x) (f x)) ->
  adds t grp ent n (cfor lo hi body) (flat_map f (zrange lo hi)).
Proof. unfold cfor. apply adds_ofold. Qed.

(** the lowest corners of the cells of a box *)
Definition rng (b : BBox) (a : Axis) : list Z :=
  if degenerate b a then [b (face_lo a)] else zrange (b (face_lo a)) (b (face_hi a) - 1).
Definition prod3 (xs ys zs : list Z) : list (Z * Z * Z) :=
  flat_map (fun i => flat_map (fun j => map (fun k => (i, j, k)) zs) ys) xs.
Definition cellsOf (b : BBox) : list (Z * Z * Z) := prod3 (rng b XDIR) (rng b YDIR) (rng b ZDIR).
Lemma in_prod3 xs ys zs i j k : In (i, j, k) (prod3 xs ys zs) <-> In i xs /\ In j ys /\ In k zs.
Proof.
  unfold prod3. rewrite in_flat_map. split.
  - intros (x & X & H). apply in_flat_map in H. destruct H as (y & Y & H). apply in_map_iff in H.
    destruct H as (z & [= <- <- <-] & Z). auto.
  - intros (X & Y & Z). exists i. split; [assumption|]. apply in_flat_map. exists j. split; [assumption|]. apply in_map. assumption.
Qed.
Lemma NoDup_flat_map {A B} (f : A -> list B) l : NoDup l -> (forall x, In x l -> NoDup (f x)) ->
  (forall x y b, In x l -> In y l -> In b (f x) -> In b (f y) -> x = y) -> NoDup (flat_map f l).
Proof.
  induction 1 as [|x l N ND IH]; intros H D; simpl; [constructor|].
  assert (NoDup (flat_map f l)). { apply IH; intros; [apply H; right; assumption|eapply D; eauto; right; assumption]. }
  assert (NoDup (f x)) by (apply H; left; reflexivity).
  assert (forall b, In b (f x) -> ~ In b (flat_map f l)).
  { intros b B1 B2. apply in_flat_map in B2. destruct B2 as (y & Y & B2). apply N.
    rewrite (D x y b); auto; [left; reflexivity|right; assumption]. }
  clear -H0 H1 H2. revert H0 H1 H2. generalize (flat_map f l). induction (f x) as [|b bs IHb]; simpl; intros m M1 M2 M3; [assumption|].
  inversion M2; subst. constructor.
  - rewrite in_app_iff. intros [?|?]; [contradiction|]. apply (M3 b); auto.
  - apply IHb; auto.
Qed.
Lemma NoDup_prod3 xs ys zs : NoDup xs -> NoDup ys -> NoDup zs -> NoDup (prod3 xs ys zs).
Proof.
  intros X Y Z. unfold prod3. apply NoDup_flat_map; [assumption| |].
  - intros i _. apply NoDup_flat_map; [assumption| |].
    + intros j _. apply FinFun.Injective_map_NoDup; [|assumption]. intros a b [= ->]. reflexivity.
    + intros x y b _ _ H1 H2. apply in_map_iff in H1, H2. destruct H1 as (? & <- & _), H2 as (? & [= ] & _). auto.
  - intros x y b _ _ H1 H2. apply in_flat_map in H1, H2. destruct H1 as (? & _ & H1), H2 as (? & _ & H2).
    apply in_map_iff in H1, H2. destruct H1 as (? & <- & _), H2 as (? & [= ] & _). auto.
Qed.
Lemma in_rng b a x : In x (rng b a) <-> b (face_lo a) <= x /\ (if degenerate b a then x <= b (face_hi a) else x < b (face_hi a)).
Proof.
  unfold rng, degenerate. destruct (Z.eqb_spec (b (face_lo a)) (b (face_hi a))).
  - simpl. split; [intros [<-|[]]; lia|intros; left; lia].
  - rewrite in_zrange. lia.
Qed.
Lemma NoDup_rng b a : NoDup (rng b a).
Proof. unfold rng. destruct (degenerate b a); [repeat constructor; simpl; tauto|apply NoDup_zrange]. Qed.
Lemma in_cellsOf b p : In p (cellsOf b) <-> is_cell b p.
Proof.
  destruct p as [[i j] k]. unfold cellsOf. rewrite in_prod3, !in_rng. unfold is_cell. split.
  - intros (X & Y & Z) []; assumption.
  - intros H. exact (conj (H XDIR) (conj (H YDIR) (H ZDIR))).
Qed.
Lemma NoDup_cellsOf b : NoDup (cellsOf b).
Proof. apply NoDup_prod3; apply NoDup_rng. Qed.

Lemma flat_map_map {A B C} (f : A -> B) (g : B -> list C) l : flat_map g (map f l) = flat_map (fun x => g (f x)) l.
Proof. induction l; simpl; congruence. Qed.
Lemma map_flat_map {A B C} (f : A -> list B) (g : B -> C) l : map g (flat_map f l) = flat_map (fun x => map g (f x)) l.
Proof. induction l; simpl; [reflexivity|]. rewrite map_app. congruence. Qed.
Lemma flat_map_single {A B} (f : A -> B) l : flat_map (fun x => [f x]) l = map f l.
Proof. induction l; simpl; congruence. Qed.
Lemma map_prod3 {B} (f : Z * Z * Z -> B) xs ys zs :
  map f (prod3 xs ys zs) = flat_map (fun i => flat_map (fun j => flat_map (fun k => [f (i, j, k)]) zs) ys) xs.
Proof.
  unfold prod3. rewrite map_flat_map. apply flat_map_ext. intros i. rewrite map_flat_map. apply flat_map_ext. intros j.
  rewrite map_map, flat_map_single. reflexivity.
Qed.

Lemma mask_cases b : bboxMask b = b2z (degenerate b XDIR) + 2 * b2z (degenerate b YDIR) + 4 * b2z (degenerate b ZDIR).
Proof. reflexivity. Qed.
(** samples *)
Lemma zsteps_in lo hi st l : zsteps lo hi st = Some l -> NoDup l /\
  (forall x, In x l <-> lo <= x <= hi /\ exists n, 0 <= n /\ x = lo + n * st).
Proof.
  unfold zsteps. destruct (Z.ltb_spec hi lo).
  - intros [= <-]. split; [constructor|]. intros x. simpl. split; [tauto|lia].
  - destruct (Z.leb_spec st 0); [discriminate|]. intros [= <-]. split.
    + apply FinFun.Injective_map_NoDup; [|apply seq_NoDup]. intros a b E. nia.
    + intros x. rewrite in_map_iff.
      assert (D : st * ((hi - lo) / st) <= hi - lo < st * ((hi - lo) / st) + st).
      { pose proof (Z.div_mod (hi - lo) st). pose proof (Z.mod_pos_bound (hi - lo) st). lia. }
      assert (0 <= (hi - lo) / st) by (apply Z.div_pos; lia).
      split.
      * intros (n & <- & I). apply in_seq in I. split; [|exists (Z.of_nat n); lia].
        assert (Z.of_nat n <= (hi - lo) / st) by lia. nia.
      * intros [R (n & N & ->)]. exists (Z.to_nat n). split; [lia|]. apply in_seq.
        assert (n <= (hi - lo) / st) by (apply Z.div_le_lower_bound; lia). lia.
Qed.

Definition Entity (e : Z) (t : BBType) (name : string) (b : BBox) (step : Axis -> Z) (et : ElementType)
  (cs : list (list (Z * Z * Z))) : Prop :=
  exists F, (forall g, gmshAddEntity e t name b step g =
               obind (addGroupIfNew g name (ELEM_TYPE_DIMS et)) (fun r => F (snd r) (fst r))) /\
    forall grp n, adds et grp e n (F grp) cs.

Ltac prodnorm := cbn [flat_map app]; rewrite ?app_nil_r.
Lemma entity_cells e t name b step : bboxType b = t ->
  Entity e t name b step (cell_type (spans b)) (map (corners (spans b)) (cellsOf b)).
Proof.
  intros <-. unfold Entity, gmshAddEntity, cellsOf. rewrite map_prod3.
  unfold bboxType, bboxDirection, spans, rng. rewrite mask_cases.
  cbn [axes filter].
  destruct (degenerate b XDIR) eqn:DX, (degenerate b YDIR) eqn:DY, (degenerate b ZDIR) eqn:DZ;
    cbn [b2z nth negb];
    match goal with |- context [Z.to_nat ?x] => let n := eval vm_compute in (Z.to_nat x) in change (Z.to_nat x) with n end;
    cbn [nth cell_type corners off map app face_lo face_hi];
    eexists; (split;
      [intros g; match goal with |- obind ?X _ = _ => destruct X as [[g0 grp]|] end; cbn [obind fst snd];
        [|reflexivity]; reflexivity |]).
  all: intros grp n; cbn [flat_map]; rewrite ?app_nil_r;
    repeat (apply adds_cfor; intros ?x; cbv beta; cbn [flat_map]; rewrite ?app_nil_r);
    apply adds_cell.
Qed.

Definition samples (b : BBox) (step : Axis -> Z) : list (Z * Z * Z) :=
  let sm a := match zsteps (b (face_lo a)) (b (face_hi a)) (step a) with Some l => l | None => [] end in
  prod3 (sm XDIR) (sm YDIR) (sm ZDIR).
Definition ptcells (b : BBox) (step : Axis -> Z) := map (fun p => [p]) (samples b step).

Definition addsP (ok : Prop) (t : ElementType) (grp ent : Z) (n : Axis -> Z) (F : Gmsh -> option Gmsh) (cs : list (list (Z * Z * Z))) : Prop :=
  (forall g g', F g = Some g' -> Ext t grp ent g g' cs) /\
  (forall g, ok -> nn g = n -> (forall p, In p (List.concat cs) -> inMesh n p /\ num n p <= INT_MAX) ->
             numElement g + Z.of_nat (List.length cs) <= UINT_MAX -> exists g', F g = Some g').
Lemma adds_P ok t grp ent n F cs : adds t grp ent n F cs -> addsP ok t grp ent n F cs.
Proof. intros [A B]. split; auto. Qed.
Lemma addsP_ofold (ok : Prop) t grp ent n body f l : (forall x, addsP ok t grp ent n (fun g => body g x) (f x)) ->
  addsP ok t grp ent n (ofold body l) (flat_map f l).
Proof.
  intros H. induction l as [|x l [IH1 IH2]]; split; simpl.
  - intros g g' [= <-]. apply Ext_nil.
  - eauto.
  - intros g g'. unfold obind. destruct (body g x) as [g1|] eqn:E; [|discriminate]. intros E2.
    eapply Ext_app; [apply (H x); exact E|apply IH1; exact E2].
  - intros g OK Hn I L. rewrite app_length in L. destruct (H x) as [X1 X2].
    destruct (X2 g OK Hn) as [g1 E1]; [|lia|].
    { intros p Hp. apply I. rewrite concat_app. apply in_or_app. auto. }
    rewrite E1. simpl. pose proof (X1 g g1 E1) as X. destruct X. apply IH2; [assumption|congruence| |lia].
    intros p Hp. apply I. rewrite concat_app. apply in_or_app. auto.
Qed.
(** a loop with a stride *)
Lemma addsP_zsteps (ok : Prop) t grp ent n lo hi st body f : (ok -> 1 <= st) -> (forall x, addsP ok t grp ent n (fun g => body g x) (f x)) ->
  addsP ok t grp ent n (fun g => obind (zsteps lo hi st) (fun xs => ofold body xs g))
    (flat_map f (match zsteps lo hi st with Some l => l | None => [] end)).
Proof.
  intros K H. destruct (zsteps lo hi st) as [l|] eqn:E; simpl; [apply (addsP_ofold ok); assumption|].
  split; [discriminate|]. intros g O. exfalso. apply K in O. unfold zsteps in E.
  destruct (hi <? lo); [discriminate|]. destruct (Z.leb_spec st 0); [lia|discriminate].
Qed.

Definition addPoints' (entity group : Z) (b : BBox) (step : Axis -> Z) (g : Gmsh) : option Gmsh :=
  do xs <- zsteps (b XLO) (b XHI) (step XDIR);
  ofold (fun g i =>
    do ys <- zsteps (b YLO) (b YHI) (step YDIR);
    ofold (fun g j =>
      do zs <- zsteps (b ZLO) (b ZHI) (step ZDIR);
      ofold (fun g k => addCell ET_NODE1 group entity g [(i, j, k)]) zs g) ys g) xs g.
Lemma addPoints_adds e grp n b step :
  addsP (forall a, 1 <= step a) ET_NODE1 grp e n (addPoints' e grp b step) (ptcells b step).
Proof.
  unfold ptcells, samples. rewrite map_prod3. unfold addPoints'.
  apply addsP_zsteps; [auto|]. intros i. apply addsP_zsteps; [auto|]. intros j. apply addsP_zsteps; [auto|]. intros k.
  apply adds_P, adds_cell.
Qed.

Lemma NoDup_samples b step : NoDup (samples b step).
Proof.
  apply NoDup_prod3; match goal with |- context [zsteps ?a ?b ?c] => destruct (zsteps a b c) eqn:E end;
    try constructor; apply zsteps_in in E; tauto.
Qed.
Lemma in_samples b step : (forall a, zsteps (b (face_lo a)) (b (face_hi a)) (step a) <> None) ->
  forall p, In p (samples b step) <-> is_sample b step p.
Proof.
  intros H [[i j] k]. unfold samples. rewrite in_prod3. unfold is_sample.
  pose proof (H XDIR) as H1. pose proof (H YDIR) as H2. pose proof (H ZDIR) as H3. simpl in H1, H2, H3.
  cbn [face_lo face_hi].
  destruct (zsteps (b XLO) _ _) eqn:E1; [|congruence]. destruct (zsteps (b YLO) _ _) eqn:E2; [|congruence].
  destruct (zsteps (b ZLO) _ _) eqn:E3; [|congruence].
  apply zsteps_in in E1, E2, E3. destruct E1 as [_ E1], E2 as [_ E2], E3 as [_ E3]. rewrite E1, E2, E3.
  split; [intros (A & B & C) []; assumption|intros X; exact (conj (X XDIR) (conj (X YDIR) (X ZDIR)))].
Qed.
Lemma zsteps_ok lo hi st : 1 <= st -> zsteps lo hi st <> None.
Proof. intros. unfold zsteps. destruct (hi <? lo); [congruence|]. destruct (Z.leb_spec st 0); [lia|congruence]. Qed.
Lemma zsteps_nil lo hi st : zsteps lo hi st = Some [] -> hi < lo.
Proof.
  intros E. apply zsteps_in in E. destruct E as [_ E]. destruct (Z.lt_ge_cases hi lo); [assumption|].
  exfalso. apply (proj2 (E lo)). split; [lia|]. exists 0. lia.
Qed.
Lemma points_samples e grp b step g g' : addPoints' e grp b step g = Some g' ->
  forall p, In p (samples b step) <-> is_sample b step p.
Proof.
  unfold addPoints', obind at 1. intros E.
  destruct (zsteps (b XLO) (b XHI) (step XDIR)) as [xs|] eqn:EX; [|discriminate].
  assert (N : forall a, b (face_hi a) < b (face_lo a) -> forall p, is_sample b step p -> False).
  { intros a L p S. destruct (S a) as [? _]. lia. }
  destruct xs as [|x xs].
  { apply zsteps_nil in EX as L. intros p. split; [|intros S; destruct (N XDIR L p S)].
    destruct p as [[i j] k]. unfold samples. rewrite in_prod3. cbn [face_lo face_hi]. rewrite EX. simpl. tauto. }
  cbn [ofold] in E. unfold obind at 1 2 in E.
  destruct (zsteps (b YLO) (b YHI) (step YDIR)) as [ys|] eqn:EY; [|discriminate].
  destruct ys as [|y ys].
  { apply zsteps_nil in EY as L. intros p. split; [|intros S; destruct (N YDIR L p S)].
    destruct p as [[i j] k]. unfold samples. rewrite in_prod3. cbn [face_lo face_hi]. rewrite EY. simpl. tauto. }
  cbn [ofold] in E. unfold obind at 1 2 in E.
  destruct (zsteps (b ZLO) (b ZHI) (step ZDIR)) as [zs|] eqn:EZ; [|discriminate].
  apply in_samples. intros []; simpl; congruence.
Qed.

(** what gmshAddEntity does when it succeeds *)
Definition d_type (d : Draw) := cell_type (draw_axes d).
Lemma entity_sound e d g g' : gmshAddEntity e (dType d) (dName d) (dBox d) (dStep d) g = Some g' ->
  exists g1 grp pts, addGroupIfNew g (dName d) (ELEM_TYPE_DIMS (d_type d)) = Some (g1, grp) /\
    Ext (d_type d) grp e g1 g' (map (corners (draw_axes d)) pts) /\ NoDup pts /\ (forall p, In p pts <-> drawn d p).
Proof.
  destruct d as [t name b step]. cbn [dType dName dBox dStep]. intros E.
  unfold d_type, draw_axes, drawn; cbn [dType dName dBox dStep].
  destruct (bboxType b) eqn:TB, t; try (unfold gmshAddEntity in E; rewrite TB in E; discriminate).
  all: try (destruct (entity_cells e _ name b step TB) as (F & HF & HA); rewrite HF in E;
    destruct (addGroupIfNew g name (ELEM_TYPE_DIMS (cell_type (spans b)))) as [[g1 grp]|] eqn:EG; [|discriminate];
    exists g1, grp, (cellsOf b); split; [reflexivity|]; split; [apply (proj1 (HA grp (nn g1))); exact E|];
    split; [apply NoDup_cellsOf|apply in_cellsOf]).
  all: unfold gmshAddEntity in E; rewrite TB in E.
  2,3,4: unfold addPoints in E; unfold obind at 1 in E; cbn [cell_type ELEM_TYPE_DIMS] in *;
    destruct (addGroupIfNew g name 0) as [[g1 grp]|] eqn:EG; [|discriminate];
    exists g1, grp, (samples b step); split; [reflexivity|]; fold (addPoints' e grp b step g1) in E;
    split; [apply (proj1 (addPoints_adds e grp (nn g1) b step)); exact E|];
    split; [apply NoDup_samples|eapply points_samples; exact E].
  cbn [cell_type ELEM_TYPE_DIMS] in *.
  destruct (addGroupIfNew g name 0) as [[g1 grp]|] eqn:EG; [|discriminate]. simpl in E.
  exists g1, grp, [(b XLO, b YLO, b ZLO)]. split; [reflexivity|]. split; [apply addCell_ext in E; exact E|].
  split; [repeat constructor; simpl; tauto|].
  unfold bboxType in TB. rewrite mask_cases in TB.
  destruct (degenerate b XDIR) eqn:DX, (degenerate b YDIR) eqn:DY, (degenerate b ZDIR) eqn:DZ; try discriminate TB.
  unfold degenerate in *. rewrite Z.eqb_eq in *. simpl in DX, DY, DZ.
  intros [[i j] k]. simpl. split.
  - intros [[= <- <- <-]|[]] []; simpl; (split; [lia|exists 0; lia]).
  - intros S. left. destruct (S XDIR) as [? _], (S YDIR) as [? _], (S ZDIR) as [? _]. simpl in *.
    f_equal; [f_equal|]; lia.
Qed.

(** ** The whole export *)
Definition elsOf (n : Axis -> Z) (d : Draw) (grp e : Z) (pts : list (Z * Z * Z)) : list Elem :=
  map (fun p => mkElem (d_type d) (map (num n) (corners (draw_axes d) p)) grp e) pts.
Definition shown (n : Axis -> Z) (groups : list Group) (e : Z) (d : Draw) (els : list Elem) : Prop :=
  exists h pts, In h groups /\ gName h = dName d /\ gDim h = ELEM_TYPE_DIMS (d_type d) /\ NoDup pts /\
    (forall p, In p pts <-> drawn d p) /\ els = elsOf n d (gNumber h) e pts /\
    forall p q, In p pts -> In q (corners (draw_axes d) p) -> inMesh n q.
Record Inv (n : Axis -> Z) (ds : list Draw) (g : Gmsh) : Prop := {
  i_nn : nn g = n;
  i_ent : nextEntityNumber g = Z.of_nat (List.length ds) + 1;
  i_el : numElement g = Z.of_nat (List.length (elementList g));
  i_ng : numGroup g = Z.of_nat (List.length (groupHash g));
  i_gn : map gNumber (groupHash g) = map (fun k => Z.of_nat k + 1) (seq 0 (List.length (groupHash g)));
  i_names : NoDup (map gName (groupHash g));
  i_ds : exists elss, elementList g = List.concat elss /\ List.length elss = List.length ds /\
     forall i d, nth_error ds i = Some d -> exists els, nth_error elss i = Some els /\ shown n (groupHash g) (Z.of_nat i + 1) d els;
  i_nodes : exists css, map eNodes (elementList g) = map (map (num n)) css /\
     (forall p, In p (List.concat css) -> inMesh n p /\ num n p <= INT_MAX) /\
     forall p, (In p (List.concat css) -> mapAt (nodeMap g) p = num n p) /\
               (~ In p (List.concat css) -> mapAt (nodeMap g) p = UINT_MAX) }.

Lemma Inv_init cells : Inv (fun a => cells a + 1) [] (gmshInit cells).
Proof.
  split; try reflexivity.
  - constructor.
  - exists []. split; [reflexivity|]. split; [reflexivity|]. intros [|i] d H; discriminate.
  - exists []. split; [reflexivity|]. split; [intros p []|]. intros [[i j] k]. split; [intros []|reflexivity].
Qed.

Lemma addGroup_spec g name dim g1 grp : addGroupIfNew g name dim = Some (g1, grp) ->
  nn g1 = nn g /\ nodeMap g1 = nodeMap g /\ numElement g1 = numElement g /\ elementList g1 = elementList g /\
  nextEntityNumber g1 = nextEntityNumber g /\
  ((groupHash g1 = groupHash g /\ numGroup g1 = numGroup g) \/
   (numGroup g1 = numGroup g + 1 /\ groupHash g1 = groupHash g ++ [mkGroup name (numGroup g + 1) dim] /\
    forall h, In h (groupHash g) -> gName h <> name)) /\
  exists h, In h (groupHash g1) /\ gName h = name /\ gDim h = dim /\ gNumber h = grp.
Proof.
  unfold addGroupIfNew, isGroup. destruct (find _ _) as [h|] eqn:F.
  - apply find_some in F. destruct F as [I N]. apply String.eqb_eq in N.
    destruct (Z.eqb_spec (gDim h) dim); [|discriminate]. intros [= <- <-].
    repeat (split; [reflexivity|]). split; [left; auto|]. exists h. auto.
  - destruct (_ =? _); [discriminate|]. intros [= <- <-]. cbn.
    repeat (split; [reflexivity|]). split.
    + right. split; [reflexivity|]. split; [reflexivity|]. intros h I E.
      pose proof (find_none _ _ F h I) as X. cbv beta in X. rewrite E, String.eqb_refl in X. discriminate.
    + eexists. split; [apply in_or_app; right; left; reflexivity|]. auto.
Qed.

Lemma Inv_draw n ds g d g' : Inv n ds g -> draw g d = Some g' -> Inv n (ds ++ [d]) g'.
Proof.
  intros I. unfold draw, obind, gmshGetEntityNumber. destruct (_ =? _); [discriminate|].
  intros E. apply entity_sound in E. destruct E as (g1 & grp & pts & EG & X & ND & DR).
  apply addGroup_spec in EG. cbn in EG. destruct EG as (A1 & A2 & A3 & A4 & A5 & A6 & (h & H1 & H2 & H3 & H4)).
  destruct X as [x_nn (x_ng & x_gh & x_ne) x_num x_el x_in x_map]. destruct I.
  assert (GR : forall h, In h (groupHash g) -> In h (groupHash g')).
  { intros h' Hh. rewrite x_gh. destruct A6 as [[-> _]|(_ & -> & _)]; [assumption|apply in_or_app; auto]. }
  split.
  - congruence.
  - rewrite x_ne, A5, i_ent0, app_length. simpl. lia.
  - rewrite x_num, A3, x_el, A4, app_length, !map_length. lia.
  - rewrite x_ng, x_gh. destruct A6 as [(-> & ->)|(-> & -> & _)]; [assumption|]. rewrite app_length. simpl. lia.
  - rewrite x_gh. destruct A6 as [(-> & _)|(_ & -> & _)]; [assumption|].
    rewrite map_app, app_length, seq_app, map_app, i_gn0. simpl. f_equal. f_equal. lia.
  - rewrite x_gh. destruct A6 as [(-> & _)|(_ & -> & N)]; [assumption|].
    rewrite map_app. simpl. apply NoDup_rev in i_names0. rewrite <- rev_involutive. apply NoDup_rev. rewrite rev_app_distr. simpl.
    constructor; [|assumption]. rewrite <- in_rev, in_map_iff. intros (h' & E & I). exact (N h' I E).
  - destruct i_ds0 as (elss & E1 & E2 & E3).
    exists (elss ++ [elsOf n d grp (Z.of_nat (List.length ds) + 1) pts]). split; [|split].
    + rewrite x_el, A4, E1, concat_app. f_equal. simpl. rewrite app_nil_r, map_map. unfold elsOf.
      rewrite i_ent0. rewrite A1, i_nn0. reflexivity.
    + rewrite !app_length. simpl. lia.
    + intros i d' Hd. destruct (Nat.lt_ge_cases i (List.length ds)) as [L|L].
      * rewrite nth_error_app1 in Hd by assumption. destruct (E3 i d' Hd) as (els & N & S).
        exists els. split; [rewrite nth_error_app1 by lia; assumption|].
        destruct S as (h' & pts' & S1 & S2). exists h', pts'. split; [apply GR; assumption|assumption].
      * assert (i = List.length ds). { 
          assert (nth_error (ds ++ [d]) i <> None) by congruence. apply nth_error_Some in H. rewrite app_length in H. simpl in H. lia. }
        subst i. rewrite nth_error_app2, Nat.sub_diag in Hd by lia. injection Hd as <-.
        eexists. split; [rewrite nth_error_app2, E2, Nat.sub_diag by lia; reflexivity|].
        exists h, pts. rewrite H4, x_gh. do 6 (split; [auto|]). intros p q Hp Hq.
        rewrite <- i_nn0, <- A1. apply x_in. apply in_concat. exists (corners (draw_axes d) p). split; [apply in_map|]; assumption.
  - destruct i_nodes0 as (css & C1 & C2 & C3). rewrite A1, A2, i_nn0 in *.
    exists (css ++ map (corners (draw_axes d)) pts). split; [|split].
    + rewrite x_el, A4, !map_app, C1. f_equal. rewrite map_map. apply map_ext. reflexivity.
    + intros p. rewrite concat_app, in_app_iff. intros [H|H]; auto.
    + intros p. rewrite concat_app, in_app_iff. destruct (C3 p) as [U1 U2], (x_map p) as [V1 V2]. split.
      * intros H. destruct (in_dec p_dec p (List.concat (map (corners (draw_axes d)) pts))) as [Y|Y]; [auto|].
        rewrite V2 by assumption. destruct H; [auto|contradiction].
      * intros H. rewrite V2, U2; tauto.
Qed.
Lemma Inv_drawAll n ds0 ds g g' : Inv n ds0 g -> drawAll g ds = Some g' -> Inv n (ds0 ++ ds) g'.
Proof.
  revert ds0 g. induction ds as [|d ds IH]; simpl; intros ds0 g I.
  - intros [= <-]. rewrite app_nil_r. assumption.
  - unfold obind. destruct (draw g d) as [g1|] eqn:E; [|discriminate]. intros E2.
    replace (ds0 ++ d :: ds) with ((ds0 ++ [d]) ++ ds) by (rewrite <- app_assoc; reflexivity).
    eapply IH; [eapply Inv_draw; eassumption|assumption].
Qed.

(** ** gmshWrite *)
Definition pick (g : Gmsh) (p : Z * Z * Z) : list (Z * (Z * Z * Z)) :=
  if negb (mapAt (nodeMap g) p =? UINT_MAX) then [(mapAt (nodeMap g) p, p)] else [].
Definition allNodes (n : Axis -> Z) : list (Z * Z * Z) :=
  prod3 (zrange 0 (n XDIR - 1)) (zrange 0 (n YDIR - 1)) (zrange 0 (n ZDIR - 1)).
Lemma flat_map_flat_map {A B C} (f : A -> list B) (g : B -> list C) l :
  flat_map g (flat_map f l) = flat_map (fun x => flat_map g (f x)) l.
Proof. induction l; simpl; [reflexivity|]. rewrite flat_map_app. congruence. Qed.
Lemma flat_map_prod3 {B} (f : Z * Z * Z -> list B) xs ys zs :
  flat_map f (prod3 xs ys zs) = flat_map (fun i => flat_map (fun j => flat_map (fun k => f (i, j, k)) zs) ys) xs.
Proof.
  unfold prod3. rewrite flat_map_flat_map. apply flat_map_ext. intros i. rewrite flat_map_flat_map. apply flat_map_ext.
  intros j. rewrite flat_map_map. reflexivity.
Qed.
Lemma usedNodes_pick g : usedNodes g = flat_map (pick g) (allNodes (nn g)).
Proof. unfold allNodes. rewrite flat_map_prod3. reflexivity. Qed.
Lemma in_allNodes n p : In p (allNodes n) <-> inMesh n p.
Proof. destruct p as [[i j] k]. unfold allNodes. rewrite in_prod3, !in_zrange, inMesh3. lia. Qed.
Lemma in_used g v p : In (v, p) (usedNodes g) <-> inMesh (nn g) p /\ v = mapAt (nodeMap g) p /\ v <> UINT_MAX.
Proof.
  rewrite usedNodes_pick, in_flat_map. unfold pick. split.
  - intros (q & Q & H). apply in_allNodes in Q. destruct (Z.eqb_spec (mapAt (nodeMap g) q) UINT_MAX); simpl in H; [contradiction|].
    destruct H as [[= <- <-]|[]]. auto.
  - intros (I & -> & N). exists p. split; [apply in_allNodes; assumption|].
    destruct (Z.eqb_spec (mapAt (nodeMap g) p) UINT_MAX); [contradiction|]. left. reflexivity.
Qed.
Lemma NoDup_used_snd g : NoDup (map snd (usedNodes g)).
Proof.
  rewrite usedNodes_pick, map_flat_map. apply NoDup_flat_map.
  - apply NoDup_prod3; apply NoDup_zrange.
  - intros p _. unfold pick. destruct (negb _); simpl; [repeat constructor; simpl; tauto|constructor].
  - intros p q b _ _. unfold pick. destruct (negb (mapAt (nodeMap g) p =? _)), (negb (mapAt (nodeMap g) q =? _)); simpl; try tauto.
    intros [<-|[]] [<-|[]]. reflexivity.
Qed.
Lemma NoDup_map_inj {A B} (f : A -> B) l : (forall x y, In x l -> In y l -> f x = f y -> x = y) -> NoDup l -> NoDup (map f l).
Proof.
  intros H ND. induction ND as [|x l N ND IH]; simpl; constructor.
  - rewrite in_map_iff. intros (y & E & I). apply N. rewrite (H x y); auto; [left; reflexivity|right; assumption].
  - apply IH. intros; apply H; auto; right; assumption.
Qed.
Lemma fold_count {A} (f : A -> bool) (h : A -> Z) l s :
  fold_left (fun s x => if f x then s + 1 else s) l s = s + Z.of_nat (List.length (flat_map (fun x => if f x then [h x] else []) l)).
Proof. revert s. induction l as [|x l IH]; simpl; intros s; [lia|]. rewrite IH, app_length. destruct (f x); simpl; lia. Qed.
Lemma fold_flat {A B} (h : A -> list B) (step : Z -> A -> Z) l : (forall s x, step s x = s + Z.of_nat (List.length (h x))) ->
  forall s, fold_left step l s = s + Z.of_nat (List.length (flat_map h l)).
Proof. intros H. induction l as [|x l IH]; simpl; intros s; [lia|]. rewrite IH, H, app_length. lia. Qed.
Lemma count_used g : countNodes g = Z.of_nat (List.length (usedNodes g)).
Proof.
  unfold countNodes, usedNodes. rewrite <- (Z.add_0_l (Z.of_nat _)).
  apply fold_flat. intros s i. apply fold_flat. intros s' j. apply fold_flat. intros s2 k.
  destruct (negb _); simpl; lia.
Qed.

Lemma numbered_nth {A} (l : list A) i x : nth_error (numbered l) i = Some x ->
  fst x = Z.of_nat i + 1 /\ nth_error l i = Some (snd x).
Proof.
  unfold numbered. 
  assert (G : forall l o, nth_error (combine (map (fun n => Z.of_nat n + 1) (seq o (List.length l))) l) i = Some x ->
     fst x = Z.of_nat (o + i) + 1 /\ nth_error l i = Some (snd x)).
  { clear l. revert x. induction i as [|i IH]; intros x [|y l] o; simpl; try discriminate.
    - intros [= <-]. simpl. rewrite Nat.add_0_r. auto.
    - intros H. apply IH in H. replace (o + Datatypes.S i)%nat with (Datatypes.S o + i)%nat by lia. exact H. }
  apply (G l 0%nat).
Qed.
Lemma numbered_snd {A} (l : list A) : map snd (numbered l) = l.
Proof.
  unfold numbered. generalize 0%nat. induction l; simpl; intros; [reflexivity|]. rewrite IHl. reflexivity.
Qed.
Lemma numbered_length {A} (l : list A) : List.length (numbered l) = List.length l.
Proof. rewrite <- (numbered_snd l) at 2. rewrite map_length. reflexivity. Qed.

Section File.
  Context (n : Axis -> Z) (ds : list Draw) (g : Gmsh) (I : Inv n ds g).
  Let f := gmshWrite g.
  Lemma used_iff css : map eNodes (elementList g) = map (map (num n)) css ->
     (forall p, In p (List.concat css) -> inMesh n p /\ num n p <= INT_MAX) ->
     (forall p, (In p (List.concat css) -> mapAt (nodeMap g) p = num n p) /\
               (~ In p (List.concat css) -> mapAt (nodeMap g) p = UINT_MAX)) ->
     forall v p, In (v, p) (usedNodes g) <-> In p (List.concat css) /\ v = num n p.
  Proof.
    intros C1 C2 C3 v p. rewrite in_used, (i_nn _ _ _ I). destruct (C3 p) as [U V]. split.
    - intros (M & -> & N). destruct (in_dec p_dec p (List.concat css)) as [Y|Y]; [|rewrite V in N by assumption; congruence].
      split; [assumption|auto].
    - intros [Y ->]. destruct (C2 p Y) as [M L]. split; [assumption|]. split; [symmetry; auto|]. unfold INT_MAX, UINT_MAX in *. lia.
  Qed.
  Lemma shown_dim h pts d e el : gDim h = ELEM_TYPE_DIMS (d_type d) -> In el (elsOf n d (gNumber h) e pts) ->
     eGroup el = gNumber h /\ eType el = d_type d.
  Proof. intros _ H. apply in_map_iff in H. destruct H as (p & <- & _). auto. Qed.
  Lemma el_shown el : In el (elementList g) -> exists i d els, nth_error ds i = Some d /\ shown n (groupHash g) (Z.of_nat i + 1) d els /\ In el els.
  Proof.
    intros H. destruct (i_ds _ _ _ I) as (elss & E1 & E2 & E3). rewrite E1 in H. apply in_concat in H. destruct H as (els & H1 & H2).
    apply In_nth_error in H1. destruct H1 as [i H1].
    assert (L : (i < List.length ds)%nat) by (rewrite <- E2; apply nth_error_Some; congruence).
    apply nth_error_Some in L. destruct (nth_error ds i) as [d|] eqn:Ed; [|congruence].
    destruct (E3 i d Ed) as (els' & H3 & H4). rewrite H1 in H3. injection H3 as <-. exists i, d, els. auto.
  Qed.
  Lemma file_wf cells : (forall a, n a = cells a + 1) -> wellformed cells f.
  Proof.
    intros HN. destruct (i_nodes _ _ _ I) as (css & C1 & C2 & C3). pose proof (used_iff css C1 C2 C3) as U.
    assert (EL : forall i el, In (i, el) (fElems f) -> In el (elementList g)).
    { intros i el H. rewrite <- (numbered_snd (elementList g)). apply (in_map snd) in H. exact H. }
    split.
    - simpl. rewrite numbered_length. rewrite count_used. split; [apply I|]. split; [reflexivity|apply I].
    - intros i x H. apply (numbered_nth _ _ _ H).
    - simpl. split; [|split].
      + apply NoDup_map_inj.
        * intros [v p] [w q] A B. simpl. intros <-. apply U in A, B. destruct A as [A ->], B as [B E].
          apply num_inj in E; [congruence|apply C2; assumption|apply C2; assumption].
        * eapply NoDup_map_inv. apply NoDup_used_snd.
      + apply NoDup_used_snd.
      + intros v p H. apply U in H. destruct H as [H ->]. destruct (C2 p H) as [M _]. split; [apply num_pos; assumption|].
        intros a. specialize (M a). rewrite HN in M. lia.
    - simpl. split; [apply I|]. split.
      + rewrite (i_gn _ _ _ I). apply FinFun.Injective_map_NoDup; [|apply seq_NoDup]. intros x y. lia.
      + intros h H. apply (in_map gNumber) in H. rewrite (i_gn _ _ _ I), in_map_iff in H. destruct H as (k & <- & _). lia.
    - intros i el H. apply EL in H. destruct (el_shown el H) as (j & d & els & _ & (h & pts & S1 & S2 & S3 & S4 & S5 & -> & S6) & IN).
      split.
      + exists h. destruct (shown_dim h pts d _ el S3 IN) as [-> ->]. auto.
      + intros v Hv. apply (in_map eNodes) in H. rewrite C1 in H. apply in_map_iff in H. destruct H as (ps & Hp & Hc).
        rewrite <- Hp in Hv. apply in_map_iff in Hv. destruct Hv as (p & <- & Ip). exists p. apply U. split; [|reflexivity].
        apply in_concat. eauto.
    - intros v p H. apply U in H. destruct H as [H ->]. apply in_concat in H. destruct H as (ps & H1 & H2).
      apply (in_map (map (num n))) in H1. rewrite <- C1, in_map_iff in H1. destruct H1 as (el & E1 & E2).
      apply (in_map (num n)) in H2. rewrite <- E1 in H2.
      rewrite <- (numbered_snd (elementList g)), in_map_iff in E2. destruct E2 as ([i el'] & E & E2). simpl in E. subst el'.
      exists i, el. auto.
  Qed.
  Lemma file_depicts : exists elss, map snd (fElems f) = List.concat elss /\ List.length elss = List.length ds /\
     forall i d, nth_error ds i = Some d -> exists els, nth_error elss i = Some els /\ depicts f (Z.of_nat i + 1) d els.
  Proof.
    destruct (i_nodes _ _ _ I) as (css & C1 & C2 & C3). pose proof (used_iff css C1 C2 C3) as U.
    destruct (i_ds _ _ _ I) as (elss & E1 & E2 & E3). exists elss. split; [simpl; rewrite numbered_snd; exact E1|]. split; [exact E2|].
    intros i d Hd. destruct (E3 i d Hd) as (els & N & (h & pts & S1 & S2 & S3 & S4 & S5 & -> & S6)).
    exists (elsOf n d (gNumber h) (Z.of_nat i + 1) pts). split; [exact N|]. exists pts. split; [exact S4|]. split; [exact S5|].
    assert (A : forall p, In p pts -> forall q, In q (corners (draw_axes d) p) -> In (num n q, q) (usedNodes g)).
    { intros p Hp q Hq. apply U. split; [|reflexivity].
      assert (X : In (map (num n) (corners (draw_axes d) p)) (map (map (num n)) css)).
      { rewrite <- C1. rewrite E1. apply in_map_iff.
        exists (mkElem (d_type d) (map (num n) (corners (draw_axes d) p)) (gNumber h) (Z.of_nat i + 1)). split; [reflexivity|].
        apply in_concat. eexists. split; [apply nth_error_In with (1 := N)|]. unfold elsOf. apply in_map_iff. exists p. auto. }
      apply in_map_iff in X. destruct X as (ps & X1 & X2).
      assert (Y : In (num n q) (map (num n) ps)) by (rewrite X1; apply in_map; assumption).
      apply in_map_iff in Y. destruct Y as (q' & Y1 & Y2).
      assert (q' = q).
      { apply (num_inj n); [|eapply S6; eassumption|assumption].
        apply C2. apply in_concat. eauto. }
      subst q'. apply in_concat. eauto. }
    clear S4 S5 S6 N E3 Hd. unfold elsOf. revert A. induction pts as [|p pts IH]; intros A; simpl; constructor.
    - split; [reflexivity|]. split; [reflexivity|]. split; [exists h; auto|]. simpl.
      assert (B : forall q, In q (corners (draw_axes d) p) -> In (num n q, q) (usedNodes g)) by (apply A; left; reflexivity).
      revert B. generalize (corners (draw_axes d) p). induction l as [|q l IHl]; simpl; intros B; constructor; auto.
    - apply IH. intros p' Hp. apply A. right. assumption.
  Qed.
End File.

(** ** When the export succeeds *)
Lemma spans_le b : (List.length (spans b) <= 3)%nat.
Proof. unfold spans, axes. simpl. destruct (degenerate b XDIR), (degenerate b YDIR), (degenerate b ZDIR); simpl; lia. Qed.
Lemma dims_spans l : (List.length l <= 3)%nat -> ELEM_TYPE_DIMS (cell_type l) = Z.of_nat (List.length l).
Proof. destruct l as [|? [|? [|? [|? ?]]]]; simpl; intros; try reflexivity; lia. Qed.
Lemma dims_eq d d' : List.length (draw_axes d) = List.length (draw_axes d') -> ELEM_TYPE_DIMS (d_type d) = ELEM_TYPE_DIMS (d_type d').
Proof.
  intros E. assert (L : forall d, (List.length (draw_axes d) <= 3)%nat).
  { intros x. unfold draw_axes. destruct (dType x); try apply spans_le. simpl. lia. }
  unfold d_type. rewrite !dims_spans by apply L. congruence.
Qed.

Lemma prod3_length xs ys zs : List.length (prod3 xs ys zs) = (List.length xs * List.length ys * List.length zs)%nat.
Proof.
  unfold prod3. induction xs as [|x xs IH]; simpl; [reflexivity|]. rewrite app_length, IH.
  assert (E : List.length (flat_map (fun j => map (fun k => (x, j, k)) zs) ys) = (List.length ys * List.length zs)%nat).
  { clear. induction ys as [|y ys IH]; simpl; [reflexivity|]. rewrite app_length, IH, map_length. reflexivity. }
  rewrite E. lia.
Qed.
Lemma rng_len b a : b (face_lo a) <= b (face_hi a) -> 0 <= Z.of_nat (List.length (rng b a)) <= b (face_hi a) - b (face_lo a) + 1.
Proof.
  intros. unfold rng. destruct (degenerate b a); simpl; [lia|]. unfold zrange. rewrite map_length, seq_length. lia.
Qed.
Lemma zsteps_len lo hi st : lo <= hi ->
  0 <= Z.of_nat (List.length (match zsteps lo hi st with Some l => l | None => [] end)) <= hi - lo + 1.
Proof.
  intros. unfold zsteps. destruct (Z.ltb_spec hi lo); [simpl; lia|]. destruct (Z.leb_spec st 0); [simpl; lia|].
  rewrite map_length, seq_length. assert (0 <= (hi - lo) / st <= hi - lo).
  { split; [apply Z.div_pos; lia|]. apply Z.div_le_upper_bound; nia. }
  lia.
Qed.
Lemma prod_bound a b c a' b' c' : 0 <= a <= a' -> 0 <= b <= b' -> 0 <= c <= c' -> a * b * c <= a' * b' * c'.
Proof. intros. apply Z.mul_le_mono_nonneg; [nia|nia|lia|lia]. Qed.
Lemma cells_bound b : (forall a, b (face_lo a) <= b (face_hi a)) -> Z.of_nat (List.length (cellsOf b)) <= box_nodes b.
Proof.
  intros H. unfold cellsOf, box_nodes. rewrite prod3_length, !Nat2Z.inj_mul.
  apply prod_bound; apply (rng_len b); apply H.
Qed.
Lemma samples_bound b step : (forall a, b (face_lo a) <= b (face_hi a)) -> Z.of_nat (List.length (samples b step)) <= box_nodes b.
Proof.
  intros H. unfold samples, box_nodes. rewrite prod3_length, !Nat2Z.inj_mul.
  pose proof (H XDIR). pose proof (H YDIR). pose proof (H ZDIR).
  apply prod_bound; apply zsteps_len; assumption.
Qed.

Lemma corners_in (n : Axis -> Z) b p q : (forall a, 0 <= b (face_lo a) /\ b (face_hi a) < n a) -> is_cell b p ->
  In q (corners (spans b) p) -> inMesh n q.
Proof.
  intros H C. destruct p as [[i j] k].
  pose proof (H XDIR) as H1. pose proof (H YDIR) as H2. pose proof (H ZDIR) as H3.
  pose proof (C XDIR) as C1. pose proof (C YDIR) as C2. pose proof (C ZDIR) as C3. simpl in *.
  unfold spans, axes. cbn [filter].
  destruct (degenerate b XDIR) eqn:DX, (degenerate b YDIR) eqn:DY, (degenerate b ZDIR) eqn:DZ; cbn [negb corners off map app In];
    intros I; repeat destruct I as [<-|I]; try contradiction; apply inMesh3; lia.
Qed.

Lemma spans_point b : bboxType b = BB_POINT -> spans b = [].
Proof.
  unfold bboxType, spans. rewrite mask_cases. unfold axes. cbn [filter].
  destruct (degenerate b XDIR), (degenerate b YDIR), (degenerate b ZDIR); try discriminate. reflexivity.
Qed.
Section Success.
  Context (cells : Axis -> Z).
  Let n a := cells a + 1.
  Hypothesis HNODES : n XDIR * n YDIR * n ZDIR <= INT_MAX.
  Record Ok1 (d : Draw) : Prop := {
    o_in : forall a, 0 <= dBox d (face_lo a) <= dBox d (face_hi a) /\ dBox d (face_hi a) <= cells a;
    o_type : dType d = bboxType (dBox d) \/ (dType d = BB_POINT /\ forall a, 1 <= dStep d a) }.

  Lemma entity_ok d e g g1 grp : Ok1 d -> addGroupIfNew g (dName d) (ELEM_TYPE_DIMS (d_type d)) = Some (g1, grp) ->
    nn g1 = n -> numElement g1 + box_nodes (dBox d) <= UINT_MAX ->
    exists g', gmshAddEntity e (dType d) (dName d) (dBox d) (dStep d) g = Some g' /\ numElement g' <= numElement g1 + box_nodes (dBox d).
  Proof.
    intros [OI OT] EG HN HL.
    assert (LE : forall a, dBox d (face_lo a) <= dBox d (face_hi a)) by (intros a; specialize (OI a); lia).
    assert (RNG : forall a, 0 <= dBox d (face_lo a) /\ dBox d (face_hi a) < n a) by (intros a; specialize (OI a); unfold n; lia).
    assert (NUM : forall q, inMesh n q -> num n q <= INT_MAX) by (intros q Hq; pose proof (num_le n q Hq); lia).
    destruct d as [t name b step]. cbn [dType dName dBox dStep] in *.
    assert (CASE : t = bboxType b \/ (t = BB_POINT /\ bboxType b <> BB_POINT /\ forall a, 1 <= step a)).
    { destruct OT as [->|[-> S]]; [auto|]. destruct (bboxType b); [left; reflexivity|right..]; repeat split; auto; discriminate. }
    destruct CASE as [->|(-> & NP & S)].
    - destruct (entity_cells e _ name b step eq_refl) as (F & HF & HA). rewrite HF.
      assert (ET : d_type (mkDraw (bboxType b) name b step) = cell_type (spans b)).
      { unfold d_type, draw_axes. cbn [dType dBox]. destruct (bboxType b) eqn:TB; try reflexivity.
        rewrite (spans_point b TB). reflexivity. }
      rewrite ET in EG. rewrite EG. cbn [obind fst snd].
      destruct (HA grp n) as [A1 A2].
      pose proof (cells_bound b LE) as CB.
      destruct (A2 g1 HN) as [g' E].
      + intros p Hp. apply in_concat in Hp. destruct Hp as (ps & H1 & H2). apply in_map_iff in H1. destruct H1 as (q & <- & Hq).
        apply in_cellsOf in Hq. assert (inMesh n p) by (eapply corners_in; eauto). auto.
      + rewrite map_length. lia.
      + exists g'. split; [exact E|]. apply A1 in E. destruct E. rewrite x_num0, map_length. lia.
    - assert (ET : d_type (mkDraw BB_POINT name b step) = ET_NODE1) by reflexivity. rewrite ET in EG.
      assert (E0 : gmshAddEntity e BB_POINT name b step g = addPoints' e grp b step g1).
      { unfold gmshAddEntity. destruct (bboxType b); [congruence| | |]; unfold addPoints; rewrite EG; reflexivity. }
      rewrite E0. destruct (addPoints_adds e grp n b step) as [A1 A2].
      pose proof (samples_bound b step LE) as CB. unfold ptcells in *.
      destruct (A2 g1 S HN) as [g' E].
      + intros p Hp. apply in_concat in Hp. destruct Hp as (ps & H1 & H2). apply in_map_iff in H1. destruct H1 as (q & <- & Hq).
        destruct H2 as [->|[]]. apply in_samples in Hq; [|intros a; apply zsteps_ok, S].
        assert (inMesh n p). { intros a. destruct (Hq a) as [? _]. specialize (RNG a). lia. } auto.
      + rewrite map_length. lia.
      + exists g'. split; [exact E|]. apply A1 in E. destruct E. rewrite x_num0, map_length. lia.
  Qed.

  Definition GI (ds : list Draw) (g : Gmsh) : Prop := numGroup g <= Z.of_nat (List.length ds) /\
    forall h, In h (groupHash g) -> exists d, In d ds /\ gName h = dName d /\ gDim h = ELEM_TYPE_DIMS (d_type d).

  Lemma draw_ok ds d g : Inv n ds g -> GI ds g -> Ok1 d -> Z.of_nat (List.length ds) + 1 < UINT_MAX ->
    (forall d', In d' ds -> dName d' = dName d -> List.length (draw_axes d') = List.length (draw_axes d)) ->
    numElement g + box_nodes (dBox d) <= UINT_MAX ->
    exists g', draw g d = Some g' /\ GI (ds ++ [d]) g' /\ numElement g' <= numElement g + box_nodes (dBox d).
  Proof.
    intros I [G1 G2] O L DIM LE. unfold draw, gmshGetEntityNumber, obind at 1.
    rewrite (i_ent _ _ _ I). destruct (Z.eqb_spec (Z.of_nat (List.length ds) + 1) UINT_MAX); [lia|].
    set (g0 := mkGmsh _ _ _ _ _ _ _).
    assert (EG : exists g1 grp, addGroupIfNew g0 (dName d) (ELEM_TYPE_DIMS (d_type d)) = Some (g1, grp)).
    { unfold addGroupIfNew. destruct (isGroup g0 (dName d)) as [h|] eqn:F.
      - unfold isGroup in F. apply find_some in F. destruct F as [F1 F2]. apply String.eqb_eq in F2.
        destruct (G2 h F1) as (d' & D1 & D2 & D3). rewrite D3.
        rewrite (dims_eq d' d) by (apply DIM; congruence). rewrite Z.eqb_refl. eauto.
      - subst g0. cbn [numGroup]. destruct (Z.eqb_spec (numGroup g) UINT_MAX); [lia|]. eauto. }
    destruct EG as (g1 & grp & EG). pose proof (addGroup_spec _ _ _ _ _ EG) as (A1 & A2 & A3 & A4 & A5 & A6 & _).
    subst g0. cbn in A1, A2, A3, A4, A5, A6.
    destruct (entity_ok d (Z.of_nat (List.length ds) + 1) _ g1 grp O EG) as (g' & E & E2).
    { rewrite A1. apply I. } { rewrite A3. exact LE. }
    exists g'. split; [exact E|]. split; [|rewrite A3 in E2; exact E2].
    destruct (entity_sound _ _ _ _ E) as (g1' & grp' & pts & EG' & X & _). rewrite EG in EG'. injection EG' as <- <-.
    destruct X as [_ (X1 & X2 & _) _ _ _ _]. unfold GI. rewrite app_length. cbn [List.length]. rewrite X1, X2.
    destruct A6 as [(-> & ->)|(-> & -> & _)].
    - split; [lia|]. intros h Hh. destruct (G2 h Hh) as (d' & D1 & D2). exists d'. split; [apply in_or_app; auto|assumption].
    - split; [lia|]. intros h Hh. apply in_app_or in Hh. destruct Hh as [Hh|[<-|[]]].
      + destruct (G2 h Hh) as (d' & D1 & D2). exists d'. split; [apply in_or_app; auto|assumption].
      + exists d. split; [apply in_or_app; right; left; reflexivity|]. auto.
  Qed.
  Lemma box_nodes_nonneg d : Ok1 d -> 0 <= box_nodes (dBox d).
  Proof.
    intros [H _]. unfold box_nodes. pose proof (H XDIR). pose proof (H YDIR). pose proof (H ZDIR). simpl in *.
    apply Z.mul_nonneg_nonneg; [apply Z.mul_nonneg_nonneg|]; lia.
  Qed.
  Lemma drawAll_ok ds0 ds g : Inv n ds0 g -> GI ds0 g -> (forall d, In d ds -> Ok1 d) ->
    Z.of_nat (List.length (ds0 ++ ds)) < UINT_MAX ->
    (forall d d', In d (ds0 ++ ds) -> In d' (ds0 ++ ds) -> dName d = dName d' -> List.length (draw_axes d) = List.length (draw_axes d')) ->
    numElement g + sum_nodes ds <= UINT_MAX -> exists g', drawAll g ds = Some g'.
  Proof.
    revert ds0 g. induction ds as [|d ds IH]; intros ds0 g I G O L D S; simpl; [eauto|].
    assert (P : 0 <= sum_nodes ds).
    { clear -O. induction ds as [|x ds IH]; simpl; [lia|]. pose proof (box_nodes_nonneg x (O x (or_intror (or_introl eq_refl)))).
      assert (0 <= sum_nodes ds) by (apply IH; intros y [<-|Hy]; apply O; simpl; auto). unfold sum_nodes in *. lia. }
    cbn [sum_nodes fold_right] in S. fold (sum_nodes ds) in S.
    rewrite app_length in L. cbn [List.length] in L.
    destruct (draw_ok ds0 d g I G) as (g' & E & G' & N).
    - apply O. left. reflexivity.
    - lia.
    - intros d' H1 H2. apply D; [apply in_or_app; auto|apply in_or_app; right; left; reflexivity|assumption].
    - lia.
    - rewrite E. simpl. apply (IH (ds0 ++ [d])); auto.
      + eapply Inv_draw; eassumption.
      + intros x Hx. apply O. right. assumption.
      + rewrite <- app_assoc, app_length. simpl. lia.
      + rewrite <- app_assoc. exact D.
      + lia.
  Qed.
End Success.
