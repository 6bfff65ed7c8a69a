(** C61: impedance sheets on the mesh. *)
From Coq Require Import ZArith List Bool Reals Lra Lia.
From Verif Require Import Types Lang LangProofs BBox Grid PmlProfile Medium Filter Sibc SpecSibc SpecCone SpecPhys SpecSibcMesh.
Import ListNotations.
Open Scope Z_scope.
Local Arguments Z.mul : simpl never.
Local Arguments Z.add : simpl never.
Local Arguments Z.sub : simpl never.

(** ** Accumulating runs *)
Definition hits (l : Loc) (s : stmt R) : bool := if loc_dec (dst s) l then true else false.
Definition isAt (f : Fld) (i j k : Z) (s : stmt R) : bool :=
  match dst s with L (AF f') i' j' k' => fld_eqb f' f && (i' =? i) && (j' =? j) && (k' =? k) | _ => false end.
Definition amount (f : Fld) (i j k : Z) (m : mem R) (s : stmt R) : R :=
  if isAt f i j k s then
    match s with Asg _ (Add _ d) => eval rArith m d | Asg _ (Sub _ d) => (- eval rArith m d)%R | _ => 0%R end else 0%R.
Definition tot f i j k m (ss : list (stmt R)) : R := total ss (amount f i j k m).
Definition additive (s : stmt R) : Prop := exists l d, is_state l /\ (forall x, In x (reads d) -> is_data x) /\
  (s = Asg l (Add (Rd l) d) \/ s = Asg l (Sub (Rd l) d)).
(** a statement that is additive, or stores to another place *)
Definition harmless f i j k (s : stmt R) : Prop := additive s \/ (is_state (dst s) /\ dst s <> L (AF f) i j k).

Lemma isAt_spec f i j k s : isAt f i j k s = true <-> dst s = L (AF f) i j k.
Proof.
  unfold isAt. destruct (dst s) as [a x y z]. destruct a; try (split; intros; discriminate).
  rewrite !andb_true_iff, fld_eqb_spec, !Z.eqb_eq. split; [intros (((-> & ->) & ->) & ->); reflexivity|intros E; injection E; intros; subst; auto].
Qed.
Lemma total_app {X} (a b : list X) f : total (a ++ b) f = (total a f + total b f)%R.
Proof. unfold total. induction a; cbn; [lra|]. rewrite IHa. lra. Qed.
Lemma total_ext {X} (l : list X) f g : (forall x, In x l -> f x = g x) -> total l f = total l g.
Proof. unfold total. induction l; cbn; intros H; [reflexivity|]. rewrite H, IHl; auto. Qed.

Lemma amount_data f i j k m m' s : additive s -> (forall l, is_data l -> m' l = m l) -> amount f i j k m' s = amount f i j k m s.
Proof.
  intros (l & d & _ & D & E) H. unfold amount. destruct (isAt f i j k s); [|reflexivity].
  assert (Q : eval rArith m' d = eval rArith m d) by (apply eval_ext; intros; apply H; auto).
  destruct E as [-> | ->]; rewrite Q; reflexivity.
Qed.

Lemma run_acc f i j k ss : forall m, Forall (harmless f i j k) ss ->
  run rArith ss m (L (AF f) i j k) = (m (L (AF f) i j k) + tot f i j k m ss)%R /\ (forall l, is_data l -> run rArith ss m l = m l).
Proof.
  induction ss as [|s ss IH]; intros m H; [cbn; split; [unfold tot, total; cbn; lra|reflexivity]|].
  inversion H as [|? ? Hs Hss]; subst. rewrite run_cons.
  assert (ST : is_state (dst s)) by (destruct Hs as [(l & d & S & _ & [-> | ->])|[S _]]; exact S).
  assert (D : forall l, is_data l -> run1 rArith m s l = m l).
  { intros l Hl. unfold run1. destruct s as [d e]. cbn [dst] in ST. apply upd_other. intros E. subst l. exact (ST Hl). }
  destruct (IH (run1 rArith m s) Hss) as [I1 I2]. rewrite I1. split.
  2: { intros l Hl. rewrite I2, D; auto. }
  assert (T : tot f i j k (run1 rArith m s) ss = tot f i j k m ss).
  { apply total_ext. intros x Hx. rewrite Forall_forall in Hss. destruct (Hss x Hx) as [A|[_ A]]; [apply amount_data; auto|].
    unfold amount. destruct (isAt f i j k x) eqn:E; [apply isAt_spec in E; contradiction|reflexivity]. }
  rewrite T. unfold tot at 2, total. cbn [map fold_right]. fold (total ss (amount f i j k m)). fold (tot f i j k m ss).
  destruct Hs as [(l & d & S & DD & E)|[_ N]].
  - unfold amount, isAt. destruct E as [-> | ->]; cbn [dst run1]; unfold run1; cbn [dst].
    + destruct l as [a x y z]. unfold upd. destruct (loc_dec (L (AF f) i j k) (L a x y z)) as [E|E].
      * injection E; intros; subst. rewrite (proj2 (fld_eqb_spec f f) eq_refl), !Z.eqb_refl. cbn. lra.
      * assert (Q : match a with AF f' => fld_eqb f' f && (x =? i) && (y =? j) && (z =? k) | _ => false end = false).
        { destruct a; try reflexivity. apply not_true_is_false. rewrite !andb_true_iff, fld_eqb_spec, !Z.eqb_eq. intros (((-> & ->) & ->) & ->). congruence. }
        rewrite Q. lra.
    + destruct l as [a x y z]. unfold upd. destruct (loc_dec (L (AF f) i j k) (L a x y z)) as [E|E].
      * injection E; intros; subst. rewrite (proj2 (fld_eqb_spec f f) eq_refl), !Z.eqb_refl. cbn. lra.
      * assert (Q : match a with AF f' => fld_eqb f' f && (x =? i) && (y =? j) && (z =? k) | _ => false end = false).
        { destruct a; try reflexivity. apply not_true_is_false. rewrite !andb_true_iff, fld_eqb_spec, !Z.eqb_eq. intros (((-> & ->) & ->) & ->). congruence. }
        rewrite Q. lra.
  - unfold amount. destruct (isAt f i j k s) eqn:E; [apply isAt_spec in E; contradiction|].
    unfold run1. rewrite upd_other by congruence. lra.
Qed.

(** sums over loops *)
Lemma total_flat_map {X Y} (g : X -> list Y) l f : total (flat_map g l) f = total l (fun x => total (g x) f).
Proof. induction l; cbn [flat_map]; [reflexivity|]. rewrite total_app, IHl. reflexivity. Qed.
Lemma total_for {Y} lo hi (g : Z -> list Y) f : total (for_ lo hi g) f = total (zrange lo hi) (fun x => total (g x) f).
Proof. unfold for_. apply total_flat_map. Qed.
Lemma total_zero {X} (l : list X) f : (forall x, In x l -> f x = 0%R) -> total l f = 0%R.
Proof. intros H. rewrite (total_ext l f (fun _ => 0%R)) by assumption. unfold total. clear H. induction l; cbn; [reflexivity|]. lra. Qed.
Lemma total_add {X} (l : list X) f g : total l (fun x => f x + g x)%R = (total l f + total l g)%R.
Proof. unfold total. induction l; cbn; [lra|]. rewrite IHl. lra. Qed.
Lemma total_scal {X} (l : list X) a f : total l (fun x => a * f x)%R = (a * total l f)%R.
Proof. unfold total. induction l; cbn; [lra|]. rewrite IHl. lra. Qed.
Lemma total_pick lo hi a (f : Z -> R) : total (zrange lo hi) (fun x => if x =? a then f x else 0%R) = if (lo <=? a) && (a <=? hi) then f a else 0%R.
Proof.
  destruct ((lo <=? a) && (a <=? hi)) eqn:E.
  - assert (I : In a (zrange lo hi)) by (apply in_zrange; lia). assert (ND := NoDup_zrange lo hi). revert I ND.
    induction (zrange lo hi) as [|x l IH]; [intros []|]. intros I ND. inversion ND as [|? ? N1 N2]; subst.
    unfold total. cbn [map fold_right]. fold (total l (fun x => if x =? a then f x else 0%R)).
    destruct (x =? a) eqn:X.
    + apply Z.eqb_eq in X. subst. rewrite (total_zero l); [lra|]. intros y Hy. destruct (y =? a) eqn:Y; [|reflexivity]. apply Z.eqb_eq in Y. subst. contradiction.
    + destruct I as [-> | I]; [rewrite Z.eqb_refl in X; discriminate|]. rewrite IH; auto. lra.
  - apply total_zero. intros x Hx. apply in_zrange in Hx. destruct (x =? a) eqn:X; [|reflexivity]. apply Z.eqb_eq in X. subst. exfalso. lia.
Qed.

Definition sum3 (g : BBox) (F : Z -> Z -> Z -> R) : R :=
  total (zrange (g XLO) (g XHI - 1)) (fun i => total (zrange (g YLO) (g YHI - 1)) (fun j => total (zrange (g ZLO) (g ZHI - 1)) (fun k => F i j k))).
Lemma tot_faces3 f x y z m g body : tot f x y z m (faces3 g body) = sum3 g (fun i j k => tot f x y z m (body i j k)).
Proof.
  unfold tot, faces3, sum3. rewrite total_for. apply total_ext. intros i _. rewrite total_for. apply total_ext. intros j _. apply total_for.
Qed.
Lemma sum3_ext g F G : (forall i j k, F i j k = G i j k) -> sum3 g F = sum3 g G.
Proof. intros H. unfold sum3. apply total_ext; intros i _. apply total_ext; intros j _. apply total_ext; intros k _. apply H. Qed.
Lemma sum3_add g F G : sum3 g (fun i j k => F i j k + G i j k)%R = (sum3 g F + sum3 g G)%R.
Proof.
  unfold sum3. rewrite <- total_add. apply total_ext; intros i _. rewrite <- total_add. apply total_ext; intros j _. apply total_add.
Qed.
Definition inFace (g : BBox) (a b c : Z) : bool :=
  (g XLO <=? a) && (a <? g XHI) && ((g YLO <=? b) && (b <? g YHI)) && ((g ZLO <=? c) && (c <? g ZHI)).
Lemma sum3_pick g a b c v : sum3 g (fun i j k => if (i =? a) && (j =? b) && (k =? c) then v else 0%R) = if inFace g a b c then v else 0%R.
Proof.
  unfold sum3.
  rewrite (total_ext _ _ (fun i => if i =? a then (if (g YLO <=? b) && (b <=? g YHI - 1) then (if (g ZLO <=? c) && (c <=? g ZHI - 1) then v else 0) else 0) else 0)%R).
  2: { intros i _. destruct (i =? a); cbn [andb].
    - rewrite (total_ext _ _ (fun j => if j =? b then (if (g ZLO <=? c) && (c <=? g ZHI - 1) then v else 0) else 0)%R).
      2: { intros j _. destruct (j =? b); cbn [andb]; [apply (total_pick _ _ c (fun _ => v))|apply total_zero; reflexivity]. }
      apply (total_pick _ _ b (fun _ => if (g ZLO <=? c) && (c <=? g ZHI - 1) then v else 0%R)).
    - apply total_zero. intros. apply total_zero. reflexivity. }
  rewrite (total_pick _ _ a (fun _ => _)). unfold inFace.
  replace (a <? g XHI) with (a <=? g XHI - 1) by lia. replace (b <? g YHI) with (b <=? g YHI - 1) by lia. replace (c <? g ZHI) with (c <=? g ZHI - 1) by lia.
  destruct (g XLO <=? a), (a <=? g XHI - 1), (g YLO <=? b), (b <=? g YHI - 1), (g ZLO <=? c), (c <=? g ZHI - 1); reflexivity.
Qed.
Lemma sum3_pick4 g F a b c v a' b' c' v' a2 b2 c2 v2 a3 b3 c3 v3 :
  (forall i j k, F i j k = (if (i =? a) && (j =? b) && (k =? c) then v else 0) + (if (i =? a') && (j =? b') && (k =? c') then v' else 0)
    + (if (i =? a2) && (j =? b2) && (k =? c2) then v2 else 0) + (if (i =? a3) && (j =? b3) && (k =? c3) then v3 else 0))%R ->
  sum3 g F = ((if inFace g a b c then v else 0) + (if inFace g a' b' c' then v' else 0) + (if inFace g a2 b2 c2 then v2 else 0) + (if inFace g a3 b3 c3 then v3 else 0))%R.
Proof. intros H. rewrite (sum3_ext _ _ _ H), !sum3_add, !sum3_pick. reflexivity. Qed.

Definition wgt (c : Cfg) (a : Axis) (x : Z) : R := (/ 2 * (1 + b2r (isPmcEdge c a x)))%R.

Section Tan.
Variables (c : Cfg) (isA isB : Z -> Z -> Z -> Flags) (E : Z -> Z -> Z -> V4) (m : mem R) (x y z : Z) (g : BBox).
Let T f body := sum3 g (fun i j k => tot f x y z m (body i j k)).
Let face n i j k := sibcHface c (isA i j k) (isB i j k) (E i j k) i j k n.
Ltac go := intros i j k; unfold face, sibcHface, sibcHx, sibcHy, sibcHz, tot, total, amount, isAt, hAdd, hSub; cbn -[Z.eqb];
  repeat match goal with |- context [(?a - 1 =? ?b)] => replace (a - 1 =? b) with (a =? b + 1) by lia end;
  repeat match goal with |- context [(?a + 1 =? ?b)] => replace (a + 1 =? b) with (a =? b - 1) by lia end;
  repeat match goal with |- context [if ?b then _ else _] => let Q := fresh "Q" in destruct b eqn:Q end;
  rewrite ?andb_true_iff, ?andb_false_iff, ?Z.eqb_eq, ?Z.eqb_neq in *; try (exfalso; lia);
  repeat match goal with H : _ /\ _ |- _ => destruct H end; subst;
  rewrite ?Z.add_simpl_r, ?Z.sub_add; unfold gamma, ide, wgt; try ring.
Lemma tan_X_Y : T HY (face XDIR) =
  ((if inFace g (x+1) y z then (gamma m HY x y z * (wgt c YDIR y * (ide m XDIR x * v2 (E (x+1) y z)))) else 0)
  + (if inFace g (x+1) (y-1) z then (gamma m HY x y z * (wgt c YDIR y * (ide m XDIR x * v2 (E (x+1) (y-1) z)))) else 0)
  + (if inFace g x y z then - (gamma m HY x y z * (wgt c YDIR y * (ide m XDIR x * v3 (E x y z)))) else 0)
  + (if inFace g x (y-1) z then - (gamma m HY x y z * (wgt c YDIR y * (ide m XDIR x * v3 (E x (y-1) z)))) else 0))%R.
Proof. apply sum3_pick4. go. Qed.
Lemma tan_X_Z : T HZ (face XDIR) =
  ((if inFace g (x+1) y z then - (gamma m HZ x y z * (wgt c ZDIR z * (ide m XDIR x * v0 (E (x+1) y z)))) else 0)
  + (if inFace g (x+1) y (z-1) then - (gamma m HZ x y z * (wgt c ZDIR z * (ide m XDIR x * v0 (E (x+1) y (z-1))))) else 0)
  + (if inFace g x y z then (gamma m HZ x y z * (wgt c ZDIR z * (ide m XDIR x * v1 (E x y z)))) else 0)
  + (if inFace g x y (z-1) then (gamma m HZ x y z * (wgt c ZDIR z * (ide m XDIR x * v1 (E x y (z-1))))) else 0))%R.
Proof. apply sum3_pick4. go. Qed.
Lemma tan_Y_Z : T HZ (face YDIR) =
  ((if inFace g x (y+1) z then (gamma m HZ x y z * (wgt c ZDIR z * (ide m YDIR y * v2 (E x (y+1) z)))) else 0)
  + (if inFace g x (y+1) (z-1) then (gamma m HZ x y z * (wgt c ZDIR z * (ide m YDIR y * v2 (E x (y+1) (z-1))))) else 0)
  + (if inFace g x y z then - (gamma m HZ x y z * (wgt c ZDIR z * (ide m YDIR y * v3 (E x y z)))) else 0)
  + (if inFace g x y (z-1) then - (gamma m HZ x y z * (wgt c ZDIR z * (ide m YDIR y * v3 (E x y (z-1))))) else 0))%R.
Proof. apply sum3_pick4. go. Qed.
Lemma tan_Y_X : T HX (face YDIR) =
  ((if inFace g x (y+1) z then - (gamma m HX x y z * (wgt c XDIR x * (ide m YDIR y * v0 (E x (y+1) z)))) else 0)
  + (if inFace g (x-1) (y+1) z then - (gamma m HX x y z * (wgt c XDIR x * (ide m YDIR y * v0 (E (x-1) (y+1) z)))) else 0)
  + (if inFace g x y z then (gamma m HX x y z * (wgt c XDIR x * (ide m YDIR y * v1 (E x y z)))) else 0)
  + (if inFace g (x-1) y z then (gamma m HX x y z * (wgt c XDIR x * (ide m YDIR y * v1 (E (x-1) y z)))) else 0))%R.
Proof. apply sum3_pick4. go. Qed.
Lemma tan_Z_X : T HX (face ZDIR) =
  ((if inFace g x y (z+1) then (gamma m HX x y z * (wgt c XDIR x * (ide m ZDIR z * v2 (E x y (z+1))))) else 0)
  + (if inFace g (x-1) y (z+1) then (gamma m HX x y z * (wgt c XDIR x * (ide m ZDIR z * v2 (E (x-1) y (z+1))))) else 0)
  + (if inFace g x y z then - (gamma m HX x y z * (wgt c XDIR x * (ide m ZDIR z * v3 (E x y z)))) else 0)
  + (if inFace g (x-1) y z then - (gamma m HX x y z * (wgt c XDIR x * (ide m ZDIR z * v3 (E (x-1) y z)))) else 0))%R.
Proof. apply sum3_pick4. go. Qed.
Lemma tan_Z_Y : T HY (face ZDIR) =
  ((if inFace g x y (z+1) then - (gamma m HY x y z * (wgt c YDIR y * (ide m ZDIR z * v0 (E x y (z+1))))) else 0)
  + (if inFace g x (y-1) (z+1) then - (gamma m HY x y z * (wgt c YDIR y * (ide m ZDIR z * v0 (E x (y-1) (z+1))))) else 0)
  + (if inFace g x y z then (gamma m HY x y z * (wgt c YDIR y * (ide m ZDIR z * v1 (E x y z)))) else 0)
  + (if inFace g x (y-1) z then (gamma m HY x y z * (wgt c YDIR y * (ide m ZDIR z * v1 (E x (y-1) z)))) else 0))%R.
Proof. apply sum3_pick4. go. Qed.
End Tan.

Lemma pmcEdge_mirror c a v : isPmcEdge c a v = true <-> mirrorPlane c a v.
Proof.
  unfold isPmcEdge, mirrorPlane.
  assert (B : forall f, btype_eqb (outerSurfaceType c f) BT_PMC || btype_eqb (outerSurfaceType c f) BT_PERIODIC = true <-> (outerSurfaceType c f = BT_PMC \/ outerSurfaceType c f = BT_PERIODIC)).
  { intros f. rewrite orb_true_iff. destruct (outerSurfaceType c f); cbn; split; intros [H|H]; try discriminate H; auto. }
  rewrite orb_true_iff, !andb_true_iff, !B, !Z.eqb_eq. split.
  - intros [[H ->]|[H ->]]; [exists (face_lo a)|exists (face_hi a)]; (split; [destruct a; reflexivity|split; [reflexivity|exact H]]).
  - intros (f & Q & -> & H). destruct f, a; cbn in Q; try discriminate Q; cbn [face_lo face_hi]; [left|right|left|right|left|right]; auto.
Qed.
Lemma wgt_spec c t q wt : isWeight c t q wt -> wt = wgt c t (q t).
Proof.
  intros [A B]. unfold wgt. destruct (isPmcEdge c t (q t)) eqn:Q; cbn [b2r].
  - rewrite A by (apply pmcEdge_mirror; exact Q). lra.
  - rewrite B; [lra|]. intros M. apply pmcEdge_mirror in M. congruence.
Qed.
Lemma inFace_has s q : inFace (sb_box s) (q XDIR) (q YDIR) (q ZDIR) = hasFace s q.
Proof.
  unfold inFace, hasFace. cbn [forallb face_lo face_hi]. rewrite andb_true_r. 
  destruct (_ <=? q XDIR), (q XDIR <? _), (_ <=? q YDIR), (q YDIR <? _), (_ <=? q ZDIR), (q ZDIR <? _); reflexivity.
Qed.

(** statements of the sheets' H update *)
Lemma in_faces3 {S} g (body : Z -> Z -> Z -> list S) s : In s (faces3 g body) -> exists i j k, faceIn g i j k /\ In s (body i j k).
Proof.
  unfold faces3, faceIn. intros H. apply in_for in H. destruct H as (i & ? & H). apply in_for in H. destruct H as (j & ? & H).
  apply in_for in H. destruct H as (k & ? & H). exists i, j, k. repeat split; try lia. exact H.
Qed.
Lemma sibcHface_additive c isA isB e i j k n s : In s (sibcHface c isA isB e i j k n) -> additive s \/ dst s = L (AF (hfld n)) i j k.
Proof.
  intros H. destruct n; cbn [sibcHface] in H; unfold sibcHx, sibcHy, sibcHz, hAdd, hSub in H; cbn [In] in H;
  (destruct H as [<-|H]; [right; reflexivity|left]);
  repeat (destruct H as [<-|H]; [eexists; eexists; split; [|split; [|first [left; reflexivity|right; reflexivity]]]; 
    [unfold is_state; cbn; discriminate|intros l Hl; cbn in Hl; repeat (destruct Hl as [<-|Hl]); try contradiction; reflexivity]|]); contradiction.
Qed.
Lemma updateSibcH_harmless c l n f x y z : Forall (fun s => sb_normal (ss_sheet s) = n) l -> f <> hfld n ->
  Forall (harmless f x y z) (updateSibcH c l).
Proof.
  intros N NF. rewrite Forall_forall in N. apply Forall_forall. intros s H. unfold updateSibcH in H. apply in_app_iff in H.
  assert (D : forall i j k, is_state (L (AF (hfld n)) i j k)) by (intros; unfold is_state; cbn; discriminate).
  destruct H as [H|H]; apply in_flat_map in H; destruct H as (sh & I & H); apply in_faces3 in H; destruct H as (i & j & k & _ & H).
  - apply sibcHface_additive in H. destruct H as [H|H]; [left; exact H|right]. rewrite H, (N sh I). split; [apply D|]. congruence.
  - right. destruct H as [<-|[]]. cbn [dst]. rewrite (N sh I). fold (hfld n). split; [apply D|]. congruence.
Qed.
Lemma tot_app f x y z m a b : tot f x y z m (a ++ b) = (tot f x y z m a + tot f x y z m b)%R.
Proof. apply total_app. Qed.
Lemma tot_H c l f x y z m : tot f x y z m (updateSibcH c l) =
  total l (fun s => sum3 (sb_box (ss_sheet s)) (fun i j k => tot f x y z m (sibcHface c (ss_A s i j k) (ss_B s i j k) (ss_E s i j k) i j k (sb_normal (ss_sheet s))))).
Proof.
  unfold updateSibcH. rewrite tot_app. unfold tot at 2. rewrite total_flat_map.
  rewrite (total_zero l).
  - unfold tot at 1. rewrite total_flat_map, Rplus_0_r. apply total_ext. intros s _. apply tot_faces3.
  - intros s _. apply total_zero. intros st H. apply in_faces3 in H. destruct H as (i & j & k & _ & [<-|[]]). unfold amount. destruct (isAt _ _ _ _ _); reflexivity.
Qed.

(** Parallel flat sheets act on the H next to them exactly as the Yee update
    does with, on each side, an electric field on the sheet's plane that is the
    average of the sheet's own field on the two faces at each edge. *)
Theorem C61_curl : forall c l n m q w1 w2,
  Forall (fun s => let b := sb_box (ss_sheet s) in sb_normal (ss_sheet s) = n /\ b (face_hi n) = b (face_lo n) + 1) l ->
  isWeight c (t1 n) q w1 -> isWeight c (t2 n) q w2 ->
  let m' := run rArith (updateSibcH c l) m in
  at_ m' (hfld (t1 n)) q = (at_ m (hfld (t1 n)) q + gammaAt m (hfld (t1 n)) q *
    total l (fun s => slope s n m q (edgeE w1 s n true false (t1 n) q) (edgeE w1 s n true true (t1 n) q)))%R /\
  at_ m' (hfld (t2 n)) q = (at_ m (hfld (t2 n)) q - gammaAt m (hfld (t2 n)) q *
    total l (fun s => slope s n m q (edgeE w2 s n false false (t2 n) q) (edgeE w2 s n false true (t2 n) q)))%R.
Proof.
  intros c l n m q w1 w2 HL W1 W2 m'. rewrite (wgt_spec _ _ _ _ W1), (wgt_spec _ _ _ _ W2). clear W1 W2.
  assert (N : Forall (fun s => sb_normal (ss_sheet s) = n) l) by (eapply Forall_impl; [|exact HL]; cbn; tauto).
  assert (NF : hfld (t1 n) <> hfld n /\ hfld (t2 n) <> hfld n) by (destruct n; split; discriminate).
  unfold at_, fld, m'.
  rewrite (proj1 (run_acc _ _ _ _ _ m (updateSibcH_harmless c l n _ _ _ _ N (proj1 NF)))).
  rewrite (proj1 (run_acc _ _ _ _ _ m (updateSibcH_harmless c l n _ _ _ _ N (proj2 NF)))).
  rewrite !tot_H. unfold Rminus. rewrite Ropp_mult_distr_l. rewrite <- !total_scal. clear N NF m'.
  rewrite Forall_forall in HL.
  split; f_equal; apply total_ext; intros s I; destruct (HL s I) as [-> HF]; clear HL I;
    destruct n; cbn [t1 t2 hfld face_lo face_hi] in *;
    first [rewrite tan_X_Y|rewrite tan_X_Z|rewrite tan_Y_Z|rewrite tan_Y_X|rewrite tan_Z_X|rewrite tan_Z_Y];
    unfold slope, edgeE, faceE, gammaAt; rewrite <- !inFace_has; unfold opposite, back; cbn [axis_eqb face_lo];
    set (g := sb_box (ss_sheet s)) in *; generalize (ss_E s); intros E.
  all: match goal with |- context [?x =? ?p - 1] => 
    destruct (Z.eqb_spec x (p - 1)) as [Q|Q]; [destruct (Z.eqb_spec x p) as [Q'|Q']; [exfalso; lia|]; replace (x + 1) with p by lia
    |destruct (Z.eqb_spec x p) as [Q'|Q']; [rewrite <- ?Q' in *|]] end.
  all: repeat match goal with |- context [inFace ?gg ?a ?b ?d] => let K := fresh "K" in assert (K : inFace gg a b d = false) by (unfold inFace; rewrite !andb_false_iff, !Z.leb_gt, !Z.ltb_ge; lia); rewrite K; clear K end.
  all: repeat match goal with |- context [if ?b then _ else _] => destruct b end; try ring.
Qed.

(** and the H through the sheets stays zero *)
Theorem C61_normal : forall c l n m s q, 
  Forall (fun s => sb_normal (ss_sheet s) = n) l -> In s l -> hasFace (ss_sheet s) q = true ->
  at_ (run rArith (updateSibcH c l) m) (hfld n) q = 0%R.
Proof.
  intros c l n m s q N I H. unfold updateSibcH. rewrite run_app. unfold at_, fld.
  set (m1 := run rArith _ m). clearbody m1.
  assert (Z0 : forall ss (m : mem R) d, In d (map (@dst R) ss) -> (forall s, In s ss -> exists d, s = Asg d (Cst 0%R)) -> run rArith ss m d = 0%R).
  { induction ss as [|s0 ss IH]; intros m0 d J K; [destruct J|]. rewrite run_cons.
    destruct (in_dec loc_dec d (map (@dst R) ss)) as [J'|J']; [apply IH; [exact J'|intros; apply K; right; assumption]|].
    rewrite run_frame by exact J'. destruct J as [J|J]; [|contradiction]. destruct (K s0 (or_introl eq_refl)) as (d0 & ->). cbn [dst] in J. subst.
    unfold run1. rewrite upd_same. reflexivity. }
  apply Z0.
  - apply in_map_iff. rewrite Forall_forall in N. exists (Asg (L (AF (hfld n)) (q XDIR) (q YDIR) (q ZDIR)) (Cst 0%R)). split; [reflexivity|].
    apply in_flat_map. exists s. split; [exact I|]. rewrite <- inFace_has in H. unfold inFace in H. rewrite !andb_true_iff, !Z.leb_le, !Z.ltb_lt in H.
    unfold faces3. apply in_for. exists (q XDIR). split; [lia|]. apply in_for. exists (q YDIR). split; [lia|]. apply in_for. exists (q ZDIR). split; [lia|].
    rewrite (N s I). left. destruct n; reflexivity.
  - intros s0 J. apply in_flat_map in J. destruct J as (sh & _ & J). apply in_faces3 in J. destruct J as (i & j & k & _ & [<-|[]]). eexists. reflexivity.
Qed.

(** ** Memory *)
From Coq Require Import String.
From Verif Require Import SpecGrid SpecGeom SpecMedia SpecPw SetupProofs CArr Pml Mur Ghost Step Setup StepBounds Media P_Media P_Step.
Open Scope list_scope.

(** [s] is the sheet made for a surface accepted by a TB card on the mesh of
    [c] (sibc.c:241-262) *)
Definition accepted_sheet (c : Cfg) (s : Sheet) : Prop :=
  exists A (bounds : Registry A) b name o ang t, parseTB (meshBox c) bounds b name o ang = Some t /\
  bboxDirection b = Some (sb_normal s) /\ sb_box s = sheetBox c b (sb_normal s) /\ sb_plus s = (o =? 1).


Lemma dir_deg b n : bboxType b = BB_SURFACE -> bboxDirection b = Some n -> b (face_lo n) = b (face_hi n).
Proof.
  unfold bboxType, bboxDirection, bboxMask.
  destruct (b XLO =? b XHI) eqn:X, (b YLO =? b YHI) eqn:Y, (b ZLO =? b ZHI) eqn:Z; cbn; intros T D; try discriminate; injection D as <-; cbn [face_lo face_hi]; lia.
Qed.
Lemma sheet_faces c s : wf c -> accepted_sheet c s -> 
  sb_box s (face_hi (sb_normal s)) = sb_box s (face_lo (sb_normal s)) + 1 /\
  forall i j k, faceIn (sb_box s) i j k -> forall a, gibox c (face_lo a) <= ind i j k a /\
   (if axis_eqb a (sb_normal s) then ind i j k a <= gibox c (face_hi a) else ind i j k a < gibox c (face_hi a)).
Proof.
  intros W (A & bounds & b & name & o & ang & t & P & D & B & _). unfold parseTB in P.
  destruct (bboxIsNormal b) eqn:N; cbn [negb] in P; try discriminate P.
  destruct (bboxIsWithin b (meshBox c)) eqn:I; cbn [negb] in P; try discriminate P.
  destruct (bboxType b) eqn:T; try discriminate P. clear P.
  pose proof (normal_within c b N I) as (IM & OX & OY). pose proof (dir_deg _ _ T D) as G. clear N I T D.
  rewrite B. clear B.
  pose proof (IM XDIR) as MX. pose proof (IM YDIR) as MY. pose proof (IM ZDIR) as MZ. cfg_facts c W.
  unfold faceIn, sheetBox, offsetBoundingBox. destruct (sb_normal s); cbn [face_eqb face_lo face_hi] in *; (split; [lia|]);
  intros i j k (FX & FY & FZ) a; destruct a; cbn [axis_eqb ind face_lo face_hi]; lia.
Qed.

Lemma within3 c i j k : (forall a, 0 <= ind i j k a < numCells c a) -> within (dims3 c) i j k.
Proof. intros H. pose proof (H XDIR). pose proof (H YDIR). pose proof (H ZDIR). unfold within, dims3. cbn [ind] in *. lia. Qed.

(** Every field, coefficient and cell size a sheet reads or writes is inside its
    array. *)
Theorem C61_in_bounds : forall nx ny nz reg c, setupCfg nx ny nz reg = Some c ->
  forall l, Forall (fun s => accepted_sheet c (ss_sheet s)) l ->
  (forall m, exists m', runO rArith (dims c) (updateSibcE l) m = Some m') /\
  (forall m, exists m', runO rArith (dims c) (updateSibcH c l) m = Some m') /\
  (forall s i j k p, In s l -> faceIn (sb_box (ss_sheet s)) i j k -> 
     let '(x, y) := htanReads (sb_normal (ss_sheet s)) i j k p in inb (dims c) x = true /\ inb (dims c) y = true).
Proof.
  intros nx ny nz reg c HS l HL. pose proof (setup_wf _ _ _ _ _ HS) as W. rewrite Forall_forall in HL.
  split; [|split].
  - intros m. eexists. apply runO_some. intros s H. apply in_flat_map in H. destruct H as (sh & I & H). apply in_faces3 in H. destruct H as (i & j & k & F & H).
    destruct (sheet_faces c _ W (HL sh I)) as [_ Q]. specialize (Q i j k F). pose proof (Q XDIR) as QX. pose proof (Q YDIR) as QY. pose proof (Q ZDIR) as QZ.
    clear F Q. cfg_facts c W. destruct (sb_normal (ss_sheet sh)); cbn [axis_eqb ind face_lo face_hi zeroE In] in *;
    repeat (destruct H as [<-|H]; [unfold sinb; apply andb_true_iff; split; [eapply inb_iff; [reflexivity|]; unfold within, dims3; lia|reflexivity]|]); contradiction.
  - intros m. eexists. apply runO_some. intros s H. unfold updateSibcH in H. apply in_app_iff in H.
    destruct H as [H|H]; apply in_flat_map in H; destruct H as (sh & I & H); apply in_faces3 in H; destruct H as (i & j & k & F & H);
    destruct (sheet_faces c _ W (HL sh I)) as [_ Q]; specialize (Q i j k F); pose proof (Q XDIR) as QX; pose proof (Q YDIR) as QY; pose proof (Q ZDIR) as QZ;
    clear F Q; cfg_facts c W; destruct (sb_normal (ss_sheet sh)); cbn [axis_eqb ind face_lo face_hi] in *;
    cbn [sibcHface zeroH] in H; unfold sibcHx, sibcHy, sibcHz, hAdd, hSub in H; cbn [In] in H;
    repeat (destruct H as [<-|H]; [unfold sinb; apply andb_true_iff; split; [eapply inb_iff; [reflexivity|]; unfold within, dims3; lia|
      apply forallb_forall; intros x Hx; cbn in Hx; repeat (destruct Hx as [<-|Hx]; [eapply inb_iff; [reflexivity|]; unfold within, dims3, dims1; lia|]); contradiction]|]); contradiction.
  - intros s i j k p I F. destruct (sheet_faces c _ W (HL s I)) as [_ Q]; specialize (Q i j k F); pose proof (Q XDIR) as QX; pose proof (Q YDIR) as QY; pose proof (Q ZDIR) as QZ.
    clear F Q. cfg_facts c W. destruct (sb_normal (ss_sheet s)), p; cbn [htanReads axis_eqb ind face_lo face_hi] in *; split; (eapply inb_iff; [reflexivity|]; unfold within, dims3; lia).
Qed.

(** ** Adjacency flags *)
(** Parallel sheets in a mesh with PML on all sides: all flags are defined, and
    false. *)
Theorem C61_flags_partial : forall nx ny nz reg c, setupCfg nx ny nz reg = Some c -> (forall f, outerSurfaceType c f = BT_PML) ->
  forall l n, Forall (fun s => sb_normal s = n) l -> Forall (accepted_sheet c) l ->
  forall s i j k p, In s l -> faceIn (sb_box s) i j k ->
  rdFace c (faceArray c l) (adjA n i j k p) = Some false /\ rdFace c (faceArray c l) (adjB n i j k p) = Some false.
Proof.
  intros nx ny nz reg c HS PM l n N HA s i j k p I F. pose proof (setup_wf _ _ _ _ _ HS) as W.
  assert (G : forall a0 d i j k, d <> n -> fold_left (fun a s => setSibcFace a (sb_box s) (sb_normal s) true) l a0 i j k d = a0 i j k d).
  { clear HA I. induction l as [|s1 l IH]; intros a0 d i0 j0 k0 ND; [reflexivity|]. inversion N; subst. cbn [fold_left]. rewrite IH by assumption.
    unfold setSibcFace. replace (axis_eqb d (sb_normal s1)) with false; [rewrite andb_false_r; reflexivity|].
    symmetry. apply not_true_is_false. rewrite axis_eqb_spec. assumption. }
  rewrite Forall_forall in HA, N. destruct (sheet_faces c _ W (HA s I)) as [_ Q]. specialize (Q i j k F). rewrite (N s I) in Q. clear F I HA N.
  pose proof (Q XDIR) as QX. pose proof (Q YDIR) as QY. pose proof (Q ZDIR) as QZ. clear Q.
  cfg_facts c W.
  pose proof (wf_pml c W _ (PM XLO)). pose proof (wf_pml c W _ (PM XHI)). pose proof (wf_pml c W _ (PM YLO)). pose proof (wf_pml c W _ (PM YHI)).
  pose proof (wf_pml c W _ (PM ZLO)). pose proof (wf_pml c W _ (PM ZHI)).
  assert (RD : forall x y z d, d <> n -> gobox c XLO <= x < gobox c XHI -> gobox c YLO <= y < gobox c YHI -> gobox c ZLO <= z < gobox c ZHI ->
     rdFace c (faceArray c l) (x, y, z, d) = Some false).
  { intros x y z d ND X Y Z. unfold rdFace, faceArray. rewrite G by assumption. unfold setSibcFace.
    repeat match goal with |- context [?a <=? ?b] => rewrite (proj2 (Z.leb_le a b)) by lia end.
    repeat match goal with |- context [?a <? ?b] => rewrite (proj2 (Z.ltb_lt a b)) by lia end.
    destruct d; reflexivity. }
  destruct n, p; cbn [adjA adjB axis_eqb ind face_lo face_hi] in *; split; apply RD; first [discriminate | lia].
Qed.

(** ** Where the claim fails *)
Definition c61sheet (c : Cfg) (n : Axis) (b : BBox) : Sheet := mkSheet (sheetBox c b n) n true 1 0 (recConvM (fun _ _ => constPR 0) 1).
Lemma c61_accept c b n t : parseTB (meshBox c) [mkItem "S"%string tt] b "S" 1 true = Some t -> bboxDirection b = Some n -> accepted_sheet c (c61sheet c n b).
Proof. intros P D. exists unit, [mkItem "S"%string tt], b, "S"%string, 1, true, t. auto. Qed.

(** Without PML: a sheet across the whole mesh reads flags that were never
    written. *)
Theorem C61_uninitialised_refuted : exists c s i j k, setupCfg 4 4 4 pecReg = Some c /\ accepted_sheet c s /\ faceIn (sb_box s) i j k /\
  let '(x, y, z, d) := adjA (sb_normal s) i j k p1 in
  (0 <= x < numCells c XDIR /\ 0 <= y < numCells c YDIR /\ 0 <= z < numCells c ZDIR) /\ faceArray c [s] x y z d = None.
Proof.
  destruct (setupCfg 4 4 4 pecReg) as [c|] eqn:HC; [|discriminate HC].
  exists c, (c61sheet c XDIR (mkbox 2 2 0 4 0 4)), 3, 4, 1. split; [reflexivity|]. injection HC as <-. split.
  - eapply c61_accept; vm_compute; reflexivity.
  - split; [|split]; vm_compute; try reflexivity; intuition discriminate.
Qed.
(** The element looked up for flag [p] of a face, on either side, is the face
    across it that has that edge of the face in common and lies on that side; for
    all flags but the last one of side b (next theorem). *)
Theorem C61_adjacent_partial : forall n q p (sideb : bool), (sideb = true -> p <> p3) ->
  let '(i, j, k, d) := (if sideb then adjB else adjA) n (q XDIR) (q YDIR) (q ZDIR) p in
  let q' := at3p i j k in
  d <> n /\ (forall x, corner n q x -> edge n q p x -> corner d q' x) /\
  exists x, corner d q' x /\ x n = if sideb then q n + 1 else q n - 1.
Proof.
  intros n q p sideb NP.
  assert (EX : forall d q', exists x, corner d q' x /\ forall a, a <> d -> sideb = true -> x a = q' a + 1).
  { intros d q'. exists (fun a => if axis_eqb a d then q' a else q' a + 1). split.
    - intros a. destruct (axis_eqb a d); lia.
    - intros a N _. replace (axis_eqb a d) with false; [reflexivity|]. symmetry. apply not_true_is_false. rewrite axis_eqb_spec. exact N. }
  assert (EY : forall d q', corner d q' q') by (intros d q' a; destruct (axis_eqb a d); lia).
  destruct sideb; [specialize (NP eq_refl)|clear NP]; destruct n, p; try contradiction; cbn [adjA adjB];
  (split; [discriminate|]); split;
  try (intros x C ED a; pose proof (C XDIR); pose proof (C YDIR); pose proof (C ZDIR); destruct a; cbn in *; lia);
  match goal with |- exists x, corner ?d ?q' x /\ _ =>
    first [exists q'; split; [apply EY|cbn; lia] | destruct (EX d q') as (x & C & V); exists x; split; [exact C|rewrite V by (reflexivity || discriminate); cbn; lia]] end.
Qed.
(** A sheet that joins another at the upper z edge of its far side is not seen
    there, and one that does not touch that edge is. *)
Theorem C61_adjacency_refuted : exists c s near far i j k, setupCfg 8 8 8 initBoundaryReg = Some c /\
  accepted_sheet c s /\ accepted_sheet c near /\ accepted_sheet c far /\ sb_normal s = XDIR /\
  faceIn (sb_box s) i j k /\
  (* near has the face that shares the edge at k+1 of the face, far only one beyond it *)
  faceIn (sb_box near) i j (k+1) /\ sb_normal near = ZDIR /\ ~ faceIn (sb_box far) i j (k+1) /\ sb_normal far = ZDIR /\
  rdFace c (faceArray c [s; near]) (adjB XDIR i j k p3) = Some false /\
  rdFace c (faceArray c [s; far]) (adjB XDIR i j k p3) = Some true.
Proof.
  destruct (setupCfg 8 8 8 initBoundaryReg) as [c|] eqn:HC; [|discriminate HC].
  exists c, (c61sheet c XDIR (mkbox 4 4 2 3 2 3)), (c61sheet c ZDIR (mkbox 4 5 2 3 3 3)), (c61sheet c ZDIR (mkbox 4 5 3 4 3 3)), 11, 9, 9.
  split; [reflexivity|]. injection HC as <-.
  do 3 (split; [eapply c61_accept; vm_compute; reflexivity|]). split; [reflexivity|].
  repeat split; try (vm_compute; first [reflexivity|discriminate]).
  intros (_ & H & _). vm_compute in H. destruct H as [H _]. apply H. reflexivity.
Qed.
(** An accepted sheet whose z limits are inverted asks for arrays of negative
    extent. *)
Theorem C61_inverted_refuted : exists c s, setupCfg 8 8 8 initBoundaryReg = Some c /\ accepted_sheet c s /\
  sb_box s ZHI - sb_box s ZLO < 0.
Proof.
  destruct (setupCfg 8 8 8 initBoundaryReg) as [c|] eqn:HC; [|discriminate HC].
  exists c, (c61sheet c XDIR (mkbox 4 4 2 3 5 2)). split; [reflexivity|]. injection HC as <-. split; [eapply c61_accept; vm_compute; reflexivity|reflexivity].
Qed.

(** The correction of H beyond the rim of a sheet is not the same for the three
    orientations: the same sheet, with the same fields, turned from normal x to
    normal y. *)
Definition forward (a : Axis) (q : Pt) : Pt := fun x => if axis_eqb x a then q x + 1 else q x.
Definition c61box : BBox := mkbox 10 11 10 11 10 11.
Definition c61one (c : Cfg) (n : Axis) : SheetState :=
  mkSS (mkSheet c61box n true 1 0 (recConvM (fun _ _ => constPR 0) 1))
    (fun _ _ _ _ => false) (fun _ _ _ _ => false) (fun _ _ _ => mkV 1 0 0 0).
Definition c61mem : mem R := fun l => match kind l with None => 1%R | Some _ => 0%R end.
Definition c61q : Pt := fun _ => 10.
Theorem C61_rotation_refuted : exists c, setupCfg 8 8 8 initBoundaryReg = Some c /\
  let h n := at_ (run rArith (updateSibcH c [c61one c n]) c61mem) (hfld n) (forward (t1 n) c61q) in
  h XDIR = 0%R /\ h YDIR = (/ 4)%R.
Proof.
  destruct (setupCfg 8 8 8 initBoundaryReg) as [c|] eqn:HC; [|discriminate HC].
  exists c. split; [reflexivity|]. injection HC as HC.
  assert (B : forall a x, isPmcEdge c a x = false) by (intros a x; subst c; destruct a; reflexivity). clear HC.
  assert (HH : forall n, Forall (harmless (hfld n) (forward (t1 n) c61q XDIR) (forward (t1 n) c61q YDIR) (forward (t1 n) c61q ZDIR)) (updateSibcH c [c61one c n])).
  { intros n. apply Forall_forall. intros s H. unfold updateSibcH in H. cbn [flat_map] in H. rewrite !app_nil_r in H. apply in_app_iff in H.
    destruct H as [H|H]; apply in_faces3 in H; destruct H as (i & j & k & F & H); unfold faceIn in F; cbn in F;
    assert (i = 10 /\ j = 10 /\ k = 10) as (-> & -> & ->) by lia.
    - apply sibcHface_additive in H. destruct H as [H|H]; [left; exact H|]. right. rewrite H. cbn [sb_normal ss_sheet c61one].
      split; [unfold is_state; cbn; discriminate|]. destruct n; cbn; discriminate.
    - destruct H as [<-|[]]. right. split; [unfold is_state; cbn; discriminate|]. destruct n; cbn; discriminate. }
  cbv zeta. unfold at_, fld.
  rewrite (proj1 (run_acc _ _ _ _ _ c61mem (HH XDIR))), (proj1 (run_acc _ _ _ _ _ c61mem (HH YDIR))). rewrite !tot_H.
  unfold SpecSibcMesh.total. cbn [map fold_right]. cbn [ss_sheet c61one sb_box sb_normal ss_E ss_A ss_B].
  assert (S1 : forall F, sum3 c61box F = F 10 10 10).
  { intros F. unfold sum3. cbn [c61box mkbox]. change (11 - 1) with 10. change (zrange 10 10) with [10]. unfold SpecSibcMesh.total. cbn. lra. }
  rewrite !S1. unfold tot, SpecSibcMesh.total, amount, isAt. cbn -[Z.eqb isPmcEdge c61mem]. 
  change (11 =? 10) with false. change (10 =? 11) with false. rewrite !Z.eqb_refl. cbn -[Z.eqb isPmcEdge c61mem].
  unfold b2r. rewrite !B. unfold c61mem; cbn.
  change (c61q XDIR) with 10. change (c61q ZDIR) with 10. change (c61q YDIR) with 10. change (10 + 1) with 11. change (10 - 1) with 9.
  change (9 =? 11) with false. change (11 =? 10) with false. change (9 =? 10) with false. cbn. lra.
Qed.
(** A case of the hypotheses: a 2 x 3 sheet in the middle of an 8x8x8 mesh with
    PML all round. *)
Example C61_nonvacuous : exists c s, setupCfg 8 8 8 initBoundaryReg = Some c /\ (forall f, outerSurfaceType c f = BT_PML) /\
  accepted_sheet c s /\ faceIn (sb_box s) 9 11 10 /\ sb_box s (face_hi (sb_normal s)) = sb_box s (face_lo (sb_normal s)) + 1.
Proof.
  destruct (setupCfg 8 8 8 initBoundaryReg) as [c|] eqn:HC; [|discriminate HC].
  exists c, (c61sheet c YDIR (mkbox 2 4 4 4 3 6)). split; [reflexivity|]. injection HC as <-.
  split; [intros []; reflexivity|]. split; [eapply c61_accept; vm_compute; reflexivity|].
  split; [|reflexivity]. vm_compute. intuition discriminate.
Qed.
