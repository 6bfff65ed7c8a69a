(** How many times each field value is written in each phase of a time step. *)
From Coq Require Import ZArith List Bool Lia.
From Verif Require Import Types Lang LangProofs BBox Grid Pml Mur Ghost Step SpecGrid StepShape StepBounds.
Import ListNotations.
Open Scope Z_scope.
Local Arguments Z.mul : simpl never.
Local Arguments Z.add : simpl never.
Local Arguments Z.sub : simpl never.

(** number of assignments to [l] in a statement list *)
Definition writes {V} (l : Loc) (ss : list (stmt V)) : nat := count_occ loc_dec (twrites ss) l.

Definition rng (lo hi x : Z) : bool := (lo <=? x) && (x <=? hi).
Definition inlb (l : BBox) (i j k : Z) : bool :=
  rng (l XLO) (l XHI) i && rng (l YLO) (l YHI) j && rng (l ZLO) (l ZHI) k.
Lemma rng_iff lo hi x : rng lo hi x = true <-> lo <= x <= hi.
Proof. unfold rng. rewrite andb_true_iff, !Z.leb_le. tauto. Qed.
Lemma inlb_iff l i j k : inlb l i j k = true <-> inl l i j k.
Proof. unfold inlb, inl. rewrite !andb_true_iff, !rng_iff. tauto. Qed.

Definition b2n (b : bool) : nat := if b then 1%nat else 0%nat.

Section Count.
Context {V : Type}.
Implicit Types (ss : list (stmt V)).

Lemma writes_nil l : writes (V:=V) l [] = 0%nat. Proof. reflexivity. Qed.
Lemma writes_cons l s ss : writes l (s :: ss) = (b2n (if loc_dec (dst s) l then true else false) + writes l ss)%nat.
Proof. unfold writes. cbn [twrites map count_occ]. destruct (loc_dec (dst s) l); reflexivity. Qed.
Lemma writes_app l ss ss' : writes l (ss ++ ss') = (writes l ss + writes l ss')%nat.
Proof. unfold writes, twrites. rewrite map_app, count_occ_app. reflexivity. Qed.

Lemma writes_flat_map_zero {X} l (g : X -> list (stmt V)) xs :
  (forall x, In x xs -> writes l (g x) = 0%nat) -> writes l (flat_map g xs) = 0%nat.
Proof.
  intros H. induction xs as [|x xs IH]; cbn [flat_map]; [reflexivity|].
  rewrite writes_app, H, IH; simpl; auto. intros; apply H; simpl; auto.
Qed.
Lemma writes_flat_map_one l (g : Z -> list (stmt V)) xs x : NoDup xs -> 
  (forall y, y <> x -> writes l (g y) = 0%nat) ->
  writes l (flat_map g xs) = if in_dec Z.eq_dec x xs then writes l (g x) else 0%nat.
Proof.
  intros ND H. induction xs as [|y xs IH]; cbn [flat_map]; [reflexivity|].
  inversion ND as [|? ? Hn ND']; subst. rewrite writes_app.
  destruct (Z.eq_dec y x) as [->|NE].
  - rewrite writes_flat_map_zero; [|intros y Hy; apply H; intros ->; auto].
    destruct (in_dec Z.eq_dec x (x :: xs)) as [|C]; [lia|]. exfalso; apply C; simpl; auto.
  - rewrite H, IH by auto. destruct (in_dec Z.eq_dec x xs), (in_dec Z.eq_dec x (y :: xs)); auto.
    + exfalso; simpl in *; tauto.
    + exfalso; simpl in *; intuition.
Qed.
Lemma writes_for l lo hi (g : Z -> list (stmt V)) x :
  (forall y, y <> x -> writes l (g y) = 0%nat) ->
  writes l (for_ lo hi g) = if rng lo hi x then writes l (g x) else 0%nat.
Proof.
  intros H. unfold for_. rewrite (writes_flat_map_one l g _ x) by (auto using NoDup_zrange).
  destruct (in_dec Z.eq_dec x (zrange lo hi)) as [I|I]; rewrite in_zrange in I;
  destruct (rng lo hi x) eqn:E; auto.
  - rewrite <- rng_iff in I. congruence.
  - rewrite rng_iff in E. tauto.
Qed.
Lemma writes_par_for l lo hi (g : Z -> list (stmt V)) x :
  (forall y, y <> x -> writes l (g y) = 0%nat) ->
  writes l (flat_item (par_for lo hi g)) = if rng lo hi x then writes l (g x) else 0%nat.
Proof.
  intros H. unfold par_for. cbn [flat_item]. rewrite <- flat_map_concat_map. apply writes_for; auto.
Qed.
Lemma writes_nest3 a i j k lim (g : Z -> Z -> Z -> list (stmt V)) :
  (forall i' j' k', i' <> i \/ j' <> j \/ k' <> k -> writes (L a i j k) (g i' j' k') = 0%nat) ->
  writes (L a i j k) (flat_item (nest3 lim g)) = if inlb lim i j k then writes (L a i j k) (g i j k) else 0%nat.
Proof.
  intros H. unfold nest3.
  assert (HZ : forall i' j', i' <> i \/ j' <> j -> writes (L a i j k)
      (for_ (lim ZLO) (lim ZHI) (fun k0 => g i' j' k0)) = 0%nat).
  { intros i' j' Hn. apply writes_flat_map_zero. intros k' _. apply H. tauto. }
  assert (HY : forall i', i' <> i -> writes (L a i j k)
      (for_ (lim YLO) (lim YHI) (fun j0 => for_ (lim ZLO) (lim ZHI) (fun k0 => g i' j0 k0))) = 0%nat).
  { intros i' Hn. apply writes_flat_map_zero. intros j' _. apply HZ. tauto. }
  rewrite (writes_par_for _ _ _ _ i) by (intros; apply HY; auto).
  rewrite (writes_for _ _ _ _ j) by (intros; apply HZ; auto).
  rewrite (writes_for _ _ _ _ k) by (intros; apply H; auto).
  unfold inlb. destruct (rng (lim XLO) (lim XHI) i); auto.
  destruct (rng (lim YLO) (lim YHI) j); auto.
Qed.

(** two nested loops *)
Lemma writes_for2 l lo hi lo' hi' (g : Z -> Z -> list (stmt V)) x y :
  (forall x' y', x' <> x \/ y' <> y -> writes l (g x' y') = 0%nat) ->
  writes l (for_ lo hi (fun p => for_ lo' hi' (g p))) =
  if rng lo hi x && rng lo' hi' y then writes l (g x y) else 0%nat.
Proof.
  intros H. rewrite (writes_for _ _ _ _ x).
  - rewrite (writes_for _ _ _ _ y) by (intros; apply H; auto).
    destruct (rng lo hi x); auto.
  - intros x' Hn. apply writes_flat_map_zero. intros; apply H; auto.
Qed.
Lemma writes_par2 l lo hi lo' hi' (g : Z -> Z -> list (stmt V)) x y :
  (forall x' y', x' <> x \/ y' <> y -> writes l (g x' y') = 0%nat) ->
  writes l (flat_item (par_for lo hi (fun p => for_ lo' hi' (g p)))) =
  if rng lo hi x && rng lo' hi' y then writes l (g x y) else 0%nat.
Proof.
  intros H. unfold par_for. cbn [flat_item]. rewrite <- flat_map_concat_map.
  apply (writes_for2 l lo hi lo' hi' g x y H).
Qed.
Lemma writes_for2_zero l lo hi lo' hi' (g : Z -> Z -> list (stmt V)) :
  (forall x y, writes l (g x y) = 0%nat) ->
  writes l (for_ lo hi (fun p => for_ lo' hi' (g p))) = 0%nat.
Proof. intros H. apply writes_flat_map_zero. intros. apply writes_flat_map_zero. auto. Qed.
Lemma writes_par2_zero l lo hi lo' hi' (g : Z -> Z -> list (stmt V)) :
  (forall x y, writes l (g x y) = 0%nat) ->
  writes l (flat_item (par_for lo hi (fun p => for_ lo' hi' (g p)))) = 0%nat.
Proof.
  intros H. unfold par_for. cbn [flat_item]. rewrite <- flat_map_concat_map.
  apply (writes_for2_zero l lo hi lo' hi' g H).
Qed.

(** the kernels write their own component at their own point, once *)
Definition same3 (i j k i' j' k' : Z) : bool := (i =? i') && (j =? j') && (k =? k').
Lemma same3_true i j k : same3 i j k i j k = true.
Proof. unfold same3. rewrite !Z.eqb_refl. reflexivity. Qed.
Lemma same3_false i j k i' j' k' : i' <> i \/ j' <> j \/ k' <> k -> same3 i j k i' j' k' = false.
Proof.
  intros H. unfold same3. destruct (Z.eqb_spec i i'), (Z.eqb_spec j j'), (Z.eqb_spec k k'); auto.
  subst. intuition congruence.
Qed.
Lemma dec_AF f g i j k i' j' k' :
  (if loc_dec (L (AF g) i' j' k') (L (AF f) i j k) then true else false) = fld_eqb g f && same3 i j k i' j' k'.
Proof.
  destruct (loc_dec (L (AF g) i' j' k') (L (AF f) i j k)) as [E|N].
  - injection E as -> -> -> ->. rewrite same3_true. destruct f; reflexivity.
  - destruct (fld_eqb g f) eqn:E1; auto. destruct (same3 i j k i' j' k') eqn:E2; auto.
    exfalso. apply N. apply fld_eqb_spec in E1. unfold same3 in E2.
    rewrite !andb_true_iff, !Z.eqb_eq in E2. destruct E2 as [[-> ->] ->]. congruence.
Qed.
Lemma dec_other f a i j k i' j' k' : (forall g, a <> AF g) ->
  (if loc_dec (L a i' j' k') (L (AF f) i j k) then true else false) = false.
Proof. intros H. destruct (loc_dec _ _) as [E|N]; auto. injection E; intros; subst. exfalso; eapply H; eauto. Qed.

Lemma writes_updF f g i j k i' j' k' :
  writes (L (AF f) i j k) (updF (V:=V) g i' j' k') = b2n (fld_eqb g f && same3 i j k i' j' k').
Proof. destruct g; cbn [updF]; unfold updEx, updEy, updEz, updHx, updHy, updHz; rewrite writes_cons; cbn [dst];
  rewrite dec_AF, writes_nil; lia. Qed.
Lemma writes_pmlF r l f g i j k i' j' k' :
  writes (L (AF f) i j k) (pmlF (V:=V) r g l i' j' k') = b2n (fld_eqb g f && same3 i j k i' j' k').
Proof.
  destruct g; cbn [pmlF]; unfold pmlEx, pmlEy, pmlEz, pmlHx, pmlHy, pmlHz, pmlEbody, pmlHbody;
  rewrite !writes_cons; cbn [dst]; rewrite !dec_AF, !dec_other, writes_nil by discriminate; cbn [b2n]; lia.
Qed.
Lemma writes_murBody face f g e i1 j1 k1 i j k i' j' k' :
  writes (L (AF f) i j k) (murBody (V:=V) face g e i1 j1 k1 i' j' k') = b2n (fld_eqb g f && same3 i j k i' j' k').
Proof.
  unfold murBody. rewrite !writes_cons; cbn [dst]; rewrite !dec_AF, !dec_other, writes_nil by discriminate; cbn [b2n]; lia.
Qed.

Lemma nest_updF f g lim i j k :
  writes (L (AF f) i j k) (flat_item (nest3 (V:=V) lim (updF g))) = b2n (fld_eqb g f && inlb lim i j k).
Proof.
  rewrite writes_nest3.
  - rewrite writes_updF, same3_true. destruct (inlb lim i j k), (fld_eqb g f); reflexivity.
  - intros. rewrite writes_updF, same3_false by auto. rewrite andb_false_r. reflexivity.
Qed.
Lemma nest_pmlF r l f g lim i j k :
  writes (L (AF f) i j k) (flat_item (nest3 (V:=V) lim (pmlF r g l))) = b2n (fld_eqb g f && inlb lim i j k).
Proof.
  rewrite writes_nest3.
  - rewrite writes_pmlF, same3_true. destruct (inlb lim i j k), (fld_eqb g f); reflexivity.
  - intros. rewrite writes_pmlF, same3_false by auto. rewrite andb_false_r. reflexivity.
Qed.

(** phase counts as sums of membership tests *)
Definition isT (c : Cfg) (t : BType) (f : Face) : bool := btype_eqb (outerSurfaceType c f) t.

Lemma flat_cons (it : item V) p : flat (it :: p) = flat_item it ++ flat p.
Proof. reflexivity. Qed.

Definition sum6 (g : Face -> nat) : nat := (g XLO + g XHI + g YLO + g YHI + g ZLO + g ZHI)%nat.

Lemma flat_faces (g : Face -> list (item V)) l :
  writes l (flat (flat_map g faces)) = sum6 (fun r => writes l (flat (g r))).
Proof.
  unfold faces. cbn [flat_map]. rewrite !flat_app, app_nil_r, !writes_app. unfold sum6. lia.
Qed.

Lemma count_pmlE c f i j k : is_E f = true ->
  writes (L (AF f) i j k) (flat (updatePmlEfield (V:=V) c)) =
  sum6 (fun r => b2n (isT c BT_PML r && inlb (fplim c r f) i j k)).
Proof.
  intros E. unfold updatePmlEfield. rewrite flat_faces.
  assert (H : forall r, writes (V:=V) (L (AF f) i j k) (flat (if btype_eqb (outerSurfaceType c r) BT_PML
    then [nest3 (fplim c r EX) (pmlEx r (fplim c r EX));
          nest3 (fplim c r EY) (pmlEy r (fplim c r EY));
          nest3 (fplim c r EZ) (pmlEz r (fplim c r EZ))]
    else [])) = b2n (isT c BT_PML r && inlb (fplim c r f) i j k)).
  { intros r. unfold isT. destruct (btype_eqb _ _); [|reflexivity]. cbn [andb].
    rewrite !flat_cons, !writes_app. cbn [flat flat_map]. rewrite writes_nil.
    change (pmlEx r (fplim c r EX)) with (pmlF (V:=V) r EX (fplim c r EX)).
    change (pmlEy r (fplim c r EY)) with (pmlF (V:=V) r EY (fplim c r EY)).
    change (pmlEz r (fplim c r EZ)) with (pmlF (V:=V) r EZ (fplim c r EZ)).
    rewrite (nest_pmlF r _ f EX), (nest_pmlF r _ f EY), (nest_pmlF r _ f EZ).
    destruct f; try discriminate; cbn [fld_eqb andb b2n]; lia. }
  unfold sum6. rewrite !H. reflexivity.
Qed.
Lemma count_pmlH c f i j k : is_E f = false ->
  writes (L (AF f) i j k) (flat (updatePmlHfield (V:=V) c)) =
  sum6 (fun r => b2n (isT c BT_PML r && inlb (fplim c r f) i j k)).
Proof.
  intros E. unfold updatePmlHfield. rewrite flat_faces.
  assert (H : forall r, writes (V:=V) (L (AF f) i j k) (flat (if btype_eqb (outerSurfaceType c r) BT_PML
    then [nest3 (fplim c r HX) (pmlHx r (fplim c r HX));
          nest3 (fplim c r HY) (pmlHy r (fplim c r HY));
          nest3 (fplim c r HZ) (pmlHz r (fplim c r HZ))]
    else [])) = b2n (isT c BT_PML r && inlb (fplim c r f) i j k)).
  { intros r. unfold isT. destruct (btype_eqb _ _); [|reflexivity]. cbn [andb].
    rewrite !flat_cons, !writes_app. cbn [flat flat_map]. rewrite writes_nil.
    change (pmlHx r (fplim c r HX)) with (pmlF (V:=V) r HX (fplim c r HX)).
    change (pmlHy r (fplim c r HY)) with (pmlF (V:=V) r HY (fplim c r HY)).
    change (pmlHz r (fplim c r HZ)) with (pmlF (V:=V) r HZ (fplim c r HZ)).
    rewrite (nest_pmlF r _ f HX), (nest_pmlF r _ f HY), (nest_pmlF r _ f HZ).
    destruct f; try discriminate; cbn [fld_eqb andb b2n]; lia. }
  unfold sum6. rewrite !H. reflexivity.
Qed.
Lemma count_gridE c f i j k : is_E f = true ->
  writes (L (AF f) i j k) (flat (updateGridEfield (V:=V) c)) = b2n (inlb (gfilim c f) i j k).
Proof.
  intros E. unfold updateGridEfield. rewrite !flat_cons, !writes_app. cbn [flat flat_map]. rewrite writes_nil.
  change (@updEx V) with (updF (V:=V) EX).
  change (@updEy V) with (updF (V:=V) EY).
  change (@updEz V) with (updF (V:=V) EZ).
  rewrite (nest_updF f EX), (nest_updF f EY), (nest_updF f EZ).
  destruct f; try discriminate; cbn [fld_eqb andb b2n]; lia.
Qed.
Lemma count_gridH c f i j k : is_E f = false ->
  writes (L (AF f) i j k) (flat (updateGridHfield (V:=V) c)) = b2n (inlb (gfilim c f) i j k).
Proof.
  intros E. unfold updateGridHfield. rewrite !flat_cons, !writes_app. cbn [flat flat_map]. rewrite writes_nil.
  change (@updHx V) with (updF (V:=V) HX).
  change (@updHy V) with (updF (V:=V) HY).
  change (@updHz V) with (updF (V:=V) HZ).
  rewrite (nest_updF f HX), (nest_updF f HY), (nest_updF f HZ).
  destruct f; try discriminate; cbn [fld_eqb andb b2n]; lia.
Qed.

(** Mur: membership in fmlim, whose own-axis range is the single plane *)
Lemma rng_single x y : rng y y x = (x =? y).
Proof. unfold rng. destruct (Z.leb_spec y x), (Z.leb_spec x y), (Z.eqb_spec x y); auto; lia. Qed.
Lemma murE_zero face f g e i j k i' j' k' i1 j1 k1 :
  fld_eqb g f = false \/ i' <> i \/ j' <> j \/ k' <> k ->
  writes (L (AF f) i j k) (murBody (V:=V) face g e i1 j1 k1 i' j' k') = 0%nat.
Proof.
  rewrite writes_murBody. intros [->|H]; [reflexivity|].
  rewrite same3_false by auto. rewrite andb_false_r. reflexivity.
Qed.

Lemma murE_plane f g face lo hi lo' hi' x y (n i j k : Z) (I I1 J J1 K K1 : Z -> Z -> Z)
   (e : Z -> Z -> expr V) :
  I x y = n \/ J x y = n \/ K x y = n ->
  (forall x' y', I x' y' <> i \/ J x' y' <> j \/ K x' y' <> k \/ (x' = x /\ y' = y)) ->
  writes (L (AF f) i j k) (flat_item (par_for lo hi (fun p => for_ lo' hi' (fun q =>
     murBody face g (e p q) (I1 p q) (J1 p q) (K1 p q) (I p q) (J p q) (K p q))))) =
  b2n (fld_eqb g f && (rng lo hi x && rng lo' hi' y) && same3 i j k (I x y) (J x y) (K x y)).
Proof.
  intros _ H. rewrite (writes_par2 _ _ _ _ _ _ x y).
  - rewrite writes_murBody. destruct (rng lo hi x && rng lo' hi' y), (fld_eqb g f), (same3 _ _ _ _ _ _); reflexivity.
  - intros x' y' Hn. apply murE_zero. right. destruct (H x' y') as [|[|[|[]]]]; tauto.
Qed.

Lemma count_murEface c face f i j k : is_E f = true ->
  writes (L (AF f) i j k) (flat (updateMurEface (V:=V) c face)) =
  b2n (isT c BT_MUR face && fieldIsInBoundary f face && inlb (fmlim c face f) i j k).
Proof.
  intros E. unfold updateMurEface, isT. destruct (btype_eqb _ _); [|reflexivity]. cbn [andb].
  destruct face; unfold murEX_, murEY_, murEZ_; cbn zeta;
    rewrite !flat_cons, !writes_app; cbn [flat flat_map]; rewrite writes_nil.
  1,2:
    rewrite (murE_plane f EY _ _ _ _ _ j k (fmlim c _ EY _) i j k (fun _ _ => fmlim c _ EY _) _ (fun j _ => j) (fun j _ => j) (fun _ k => k) (fun _ k => k)) by (auto; intros; lia);
    rewrite (murE_plane f EZ _ _ _ _ _ j k (fmlim c _ EZ _) i j k (fun _ _ => fmlim c _ EZ _) _ (fun j _ => j) (fun j _ => j) (fun _ k => k) (fun _ k => k)) by (auto; intros; lia).
  3,4: 
    rewrite (murE_plane f EX _ _ _ _ _ i k (fmlim c _ EX _) i j k (fun i _ => i) (fun i _ => i) (fun _ _ => fmlim c _ EX _) _ (fun _ k => k) (fun _ k => k)) by (auto; intros; lia);
    rewrite (murE_plane f EZ _ _ _ _ _ i k (fmlim c _ EZ _) i j k (fun i _ => i) (fun i _ => i) (fun _ _ => fmlim c _ EZ _) _ (fun _ k => k) (fun _ k => k)) by (auto; intros; lia).
  5,6: 
    rewrite (murE_plane f EY _ _ _ _ _ i j (fmlim c _ EY _) i j k (fun i _ => i) (fun i _ => i) (fun _ j => j) (fun _ j => j) (fun _ _ => fmlim c _ EY _) _) by (auto; intros; lia);
    rewrite (murE_plane f EX _ _ _ _ _ i j (fmlim c _ EX _) i j k (fun i _ => i) (fun i _ => i) (fun _ j => j) (fun _ j => j) (fun _ _ => fmlim c _ EX _) _) by (auto; intros; lia).
  all: unfold same3, inlb; rewrite ?Z.eqb_refl, ?andb_true_r; cbn [andb].
  all: destruct f; try discriminate; cbn [fld_eqb fieldIsInBoundary andb b2n];
    rewrite ?andb_false_r, ?andb_false_l, ?Nat.add_0_r, ?Nat.add_0_l; try reflexivity;
    match goal with |- context [fmlim ?cc ?face ?f _] =>
       destruct (fmlim_own cc face f eq_refl) as [O1 O2];
       cbn [face_axis face_lo face_hi] in O1, O2; rewrite ?O1, ?O2, ?rng_single end;
    f_equal; repeat match goal with |- context [rng ?a ?b ?x] => destruct (rng a b x) end;
    cbn [andb]; rewrite ?andb_true_r, ?andb_false_r; reflexivity.
Qed.

Lemma count_murHface c face f i j k : is_E f = false ->
  writes (L (AF f) i j k) (flat (updateMurHface (V:=V) c face)) =
  b2n (isT c BT_MUR face && fieldIsInBoundary f face && inlb (fmlim c face f) i j k).
Proof.
  intros E. unfold updateMurHface, isT. destruct (btype_eqb _ _); [|reflexivity]. cbn [andb].
  assert (ZU : forall g i' j' k', g <> f \/ i' <> i \/ j' <> j \/ k' <> k ->
       writes (L (AF f) i j k) (updF (V:=V) g i' j' k') = 0%nat).
  { intros g i' j' k' H. rewrite writes_updF. destruct (fld_eqb g f) eqn:G; [|reflexivity].
    apply fld_eqb_spec in G. rewrite same3_false by tauto. reflexivity. }
  assert (ON : writes (L (AF f) i j k) (updF (V:=V) f i j k) = 1%nat).
  { rewrite writes_updF, same3_true. destruct f; reflexivity. }
  destruct face; cbn zeta; rewrite !flat_cons, !writes_app; cbn [flat flat_map flat_item];
   rewrite writes_nil, Nat.add_0_r.
  1,2: destruct f; try discriminate; cbn [fieldIsInBoundary andb b2n];
    try (apply writes_for2_zero; intros; apply (ZU HX); left; discriminate).
  3,4: destruct f; try discriminate; cbn [fieldIsInBoundary andb b2n];
    try (apply writes_for2_zero; intros; apply (ZU HY); left; discriminate).
  5,6: destruct f; try discriminate; cbn [fieldIsInBoundary andb b2n];
    try (apply writes_for2_zero; intros; apply (ZU HZ); left; discriminate).
  all: cbn [updF] in ON; unfold inlb;
    match goal with |- context [fmlim ?cc ?face ?f _] =>
       destruct (fmlim_own cc face f eq_refl) as [O1 O2];
       cbn [face_axis face_lo face_hi] in O1, O2; rewrite ?O1, ?O2, ?rng_single end.
  1,2: match goal with |- context [?x =? ?g] => destruct (Z.eqb_spec x g) as [EQ|NE] end;
    [rewrite (writes_for2 _ _ _ _ _ _ j k) by (intros; apply (ZU HX); intuition lia);
     rewrite <- EQ, ON; cbn [andb]; destruct (rng _ _ j && rng _ _ k); reflexivity
    |rewrite writes_for2_zero by (intros; apply (ZU HX); intuition lia); reflexivity].
  1,2: match goal with |- context [?x =? ?g] => destruct (Z.eqb_spec x g) as [EQ|NE] end;
    [rewrite (writes_for2 _ _ _ _ _ _ i k) by (intros; apply (ZU HY); intuition lia);
     rewrite <- EQ, ON; cbn [andb]; rewrite ?andb_true_r; destruct (rng _ _ i && rng _ _ k); reflexivity
    |rewrite writes_for2_zero by (intros; apply (ZU HY); intuition lia);
     rewrite ?andb_false_r; reflexivity].
  1,2: match goal with |- context [?x =? ?g] => destruct (Z.eqb_spec x g) as [EQ|NE] end;
    [rewrite (writes_for2 _ _ _ _ _ _ i j) by (intros; apply (ZU HZ); intuition lia);
     rewrite <- EQ, ON; cbn [andb]; rewrite ?andb_true_r; destruct (rng _ _ i && rng _ _ j); reflexivity
    |rewrite writes_for2_zero by (intros; apply (ZU HZ); intuition lia);
     rewrite ?andb_false_r; reflexivity].
Qed.

End Count.
