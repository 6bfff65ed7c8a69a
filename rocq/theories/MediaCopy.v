(** Values of the coefficient arrays after the material copy into the PML. *)
From Coq Require Import ZArith List Bool Lia.
From Verif Require Import Types Lang LangProofs BBox Grid Setup SpecGrid SpecGeom SetupProofs BBoxProofs Pml Ghost Step StepShape StepBounds
  GhostValue Media SpecMedia MediaProofs.
Import ListNotations.
Open Scope Z_scope.
Local Arguments Z.mul : simpl never.
Local Arguments Z.add : simpl never.
Local Arguments Z.sub : simpl never.

Section MC.
Context {V : Type} (A : Arith V).

Lemma run_copy ss (sg : Loc -> Loc) m l :
  (forall s, In s ss -> rhs s = Rd (sg (dst s)) /\ ~ In (sg (dst s)) (twrites ss)) ->
  run A ss m l = if in_dec loc_dec l (twrites ss) then m (sg l) else m l.
Proof.
  intros H. assert (G : forall ss' m, (forall s, In s ss' -> rhs s = Rd (sg (dst s)) /\ ~ In (sg (dst s)) (twrites ss')) ->
    (forall s, In s ss' -> In s ss) -> run A ss' m l = if in_dec loc_dec l (twrites ss') then m (sg l) else m l).
  2: { apply G; auto. }
  clear H. induction ss' as [|s ss' IH]; intros m0 H HI; [reflexivity|].
  rewrite run_cons, IH.
  2: { intros t Ht. destruct (H t) as [H1 H2]; [simpl; auto|]. split; auto. intros X. apply H2. simpl. auto. }
  2: { intros; apply HI; simpl; auto. }
  destruct (H s) as [R N]; [simpl; auto|].
  destruct (in_dec loc_dec l (twrites ss')) as [I|NI].
  - destruct (in_dec _ _ _) as [_|N']; [|exfalso; apply N'; simpl; auto].
    unfold run1. rewrite upd_other; [reflexivity|].
    unfold twrites in I. apply in_map_iff in I. destruct I as [t [<- Ht]].
    destruct (H t) as [_ N2]; [simpl; auto|]. intros X. apply N2. simpl. auto.
  - unfold run1. destruct (loc_dec l (dst s)) as [->|ND].
    + rewrite upd_same, R. cbn [eval]. destruct (in_dec _ _ _) as [_|N']; [reflexivity|exfalso; apply N'; simpl; auto].
    + rewrite upd_other by auto. destruct (in_dec _ _ _) as [I|_]; [|reflexivity].
      simpl in I. destruct I as [I|I]; [congruence|contradiction].
Qed.

Variable c : Cfg.
Hypothesis W : wf c.
Hypothesis WD : wide c.

Definition copyGroup (a : Axis) : list (stmt V) :=
  flat_map (fun region => flat_map (fun f => nestS (fpmlim c region f) (copyBody c region f)) flds) [face_lo a; face_hi a].
Lemma copy_groups : initPmlMaterialArrays c = copyGroup ZDIR ++ copyGroup YDIR ++ copyGroup XDIR.
Proof. unfold initPmlMaterialArrays, copyGroup. rewrite <- !flat_map_app. reflexivity. Qed.

Definition fieldOf (a : Arr) : option Fld :=
  match a with AAlpha f | ABeta f => if is_E f then Some f else None | AGamma f => if is_E f then None else Some f | _ => None end.
Lemma fieldOf_iff a f : isCoefOf a f <-> fieldOf a = Some f.
Proof.
  unfold isCoefOf. destruct a as [g|g|g|g|g|g|g|g|r g|r g|r g|p g| |n]; cbn [fieldOf]; try (split; [intros [[_ [X|X]]|[_ X]]; discriminate X|discriminate]).
  - destruct (is_E g) eqn:E; split; try discriminate.
    + intros [[_ [X|X]]|[_ X]]; congruence.
    + intros X; injection X as ->; auto.
    + intros [[X1 [X|X]]|[_ X]]; congruence.
  - destruct (is_E g) eqn:E; split; try discriminate.
    + intros [[_ [X|X]]|[_ X]]; congruence.
    + intros X; injection X as ->; auto.
    + intros [[X1 [X|X]]|[_ X]]; congruence.
  - destruct (is_E g) eqn:E; split; try discriminate.
    + intros [[_ [X|X]]|[X1 X]]; congruence.
    + intros [[X1 [X|X]]|[_ X]]; congruence.
    + intros X; injection X as ->; auto.
Qed.
Definition side (a : Axis) (l : Loc) : Face := if coord a l <? gibox c (face_lo a) then face_lo a else face_hi a.
Definition sgm (a : Axis) (l : Loc) : Loc :=
  match fieldOf (arr l) with Some f => setc a (copyFrom c (side a l) f) l | None => l end.

Lemma group_stmt a s : In s (copyGroup a) -> exists r f, face_axis r = a /\ fieldOf (arr (dst s)) = Some f /\
  inl (fpmlim c r f) (li (dst s)) (lj (dst s)) (lk (dst s)) /\ rhs s = Rd (setc a (copyFrom c r f) (dst s)).
Proof.
  intros H. unfold copyGroup in H. apply in_flat_map in H. destruct H as [r [Hr H]].
  apply in_flat_map in H. destruct H as [f [_ H]]. apply in_nestS in H. destruct H as (i & j & k & Hl & Hs).
  assert (HR : face_axis r = a) by (cbn [In] in Hr; destruct Hr as [<-|[<-|[]]]; destruct a; reflexivity).
  exists r, f. split; [exact HR|]. subst a. unfold copyBody in Hs.
  destruct r, f; cbn [face_axis is_E In] in Hs |- *;
  (repeat (destruct Hs as [Hs|Hs]; [subst s; cbn [dst arr li lj lk rhs setc]; split; [reflexivity|]; split; [exact Hl|reflexivity]|]));
  contradiction.
Qed.
Lemma group_in a r f ar i j k : face_axis r = a -> fieldOf ar = Some f -> inl (fpmlim c r f) i j k ->
  In (L ar i j k) (twrites (copyGroup a)).
Proof.
  intros HR HF Hl. unfold twrites. apply in_map_iff. 
  exists (Asg (L ar i j k) (Rd (setc a (copyFrom c r f) (L ar i j k)))). split; [reflexivity|].
  unfold copyGroup. apply in_flat_map. exists r. split; [subst a; destruct r; simpl; auto|].
  apply in_flat_map. exists f. split; [apply in_flds|]. apply in_nestS. exists i, j, k. split; [exact Hl|].
  apply fieldOf_iff in HF. subst a. unfold copyBody.
  destruct HF as [[E HF]|[E HF]]; rewrite E.
  - destruct HF as [-> | ->]; destruct r; cbn [face_axis In setc li lj lk arr]; auto.
  - subst ar. destruct r; cbn [face_axis In setc li lj lk arr]; auto.
Qed.
Lemma group_writes a ar f i j k : fieldOf ar = Some f ->
  (In (L ar i j k) (twrites (copyGroup a)) <-> exists r, face_axis r = a /\ inl (fpmlim c r f) i j k).
Proof.
  intros HF. split.
  - unfold twrites. rewrite in_map_iff. intros [s [D Hs]]. apply group_stmt in Hs. rewrite D in Hs.
    destruct Hs as (r & f' & HR & HF' & Hl & _). cbn [arr li lj lk] in *. rewrite HF in HF'. injection HF' as <-. eauto.
  - intros (r & HR & Hl). eapply group_in; eauto.
Qed.

(** extent of the copy zone of a region along its own axis *)
Lemma zone_own r f i j k : inl (fpmlim c r f) i j k ->
  let n := SpecGeom.coord i j k (face_axis r) in
  (is_lo r = true -> gobox c r + (if fieldIsInBoundary f r then 1 else 0) <= n < gibox c r) /\
  (is_lo r = false -> gibox c r + (if fieldIsInBoundary f r then 1 else 0) <= n < gobox c r).
Proof.
  unfold inl, fpmlim, setFieldLimits.
  destruct r, f; unfold pbox, copyInclude, mkbox; cbn [fieldIsInBoundary face_axis axis_eqb negb SpecGeom.coord is_lo];
  intros H; split; intros; try discriminate; lia.
Qed.
Lemma side_region r f i j k ar : inl (fpmlim c r f) i j k -> side (face_axis r) (L ar i j k) = r.
Proof.
  intros H. apply zone_own in H. cbv zeta in H. unfold side. cfg_facts c W.
  destruct (fieldIsInBoundary f r); destruct r; cbn [face_axis is_lo SpecGeom.coord coord li lj lk face_lo face_hi] in *; destruct H as [H1 H2];
  match goal with |- context [?x <? ?y] => destruct (Z.ltb_spec x y) end; try reflexivity;
  exfalso; first [specialize (H1 eq_refl); lia|specialize (H2 eq_refl); lia].
Qed.

Lemma group_val a m l : run A (copyGroup a) m l = if in_dec loc_dec l (twrites (copyGroup a)) then m (sgm a l) else m l.
Proof.
  apply run_copy. intros s Hs. apply group_stmt in Hs. destruct Hs as (r & f & HR & HF & Hl & RH). subst a.
  assert (SG : sgm (face_axis r) (dst s) = setc (face_axis r) (copyFrom c r f) (dst s)).
  { unfold sgm. rewrite HF. destruct (dst s) as [ar i j k]. rewrite (side_region r f) by exact Hl. reflexivity. }
  rewrite SG. split; [exact RH|].
  destruct (dst s) as [ar i j k]. cbn [arr li lj lk] in *.
  intros X.
  assert (exists i' j' k', setc (face_axis r) (copyFrom c r f) (L ar i j k) = L ar i' j' k' /\
      SpecGeom.coord i' j' k' (face_axis r) = copyFrom c r f) as (i' & j' & k' & ES & EC).
  { destruct (face_axis r); cbn [setc arr li lj lk]; do 3 eexists; (split; [reflexivity|reflexivity]). }
  rewrite ES in X. rewrite (group_writes _ _ _ _ _ _ HF) in X. destruct X as (r' & HR' & Hl').
  assert (LN : outerSurfaceNumLayers c r <> 0) by (eapply fpmlim_range; eauto).
  assert (WR : is_lo r = true -> 3 <= numLines c (face_axis r)).
  { intros LO. destruct (WD (face_axis r)) as [Y|Y]; [exact Y|exfalso]. apply LN. apply wf_nopml; auto.
    destruct r; try discriminate LO; exact Y. }
  apply zone_own in Hl'. cbv zeta in Hl'. rewrite HR', EC in Hl'. unfold copyFrom in Hl'.
  cfg_facts c W.
  destruct r, r'; try discriminate HR'; destruct f; cbn [fieldIsInBoundary is_lo face_axis] in *; destruct Hl' as [L1 L2];
  first [specialize (L1 eq_refl)|specialize (L2 eq_refl)]; try specialize (WR eq_refl); lia.
Qed.

(** ** Straight continuation *)
Definition fine (f : Fld) (a : Axis) (n : Z) : Prop := staggered f a = false \/ mesh_lo c a <= n.

Lemma group_axis a ar f i j k m : fieldOf ar = Some f ->
  (forall r, face_axis r = a -> outerSurfaceNumLayers c r <> 0 ->
     forall n, (is_lo r = true -> gobox c r + (if fieldIsInBoundary f r then 1 else 0) <= n < gibox c r) ->
     (is_lo r = false -> gibox c r + (if fieldIsInBoundary f r then 1 else 0) <= n < gobox c r) ->
     forall i' j' k', setc a n (L ar i j k) = L ar i' j' k' -> inl (fpmlim c r f) i' j' k') ->
  (let n := SpecGeom.coord i j k a in off_wall c f a n /\ fine f a n /\
     gobox c (face_lo a) <= n <= (if fieldIsInBoundary f (face_lo a) then gobox c (face_hi a) else gobox c (face_hi a) - 1)) ->
  run A (copyGroup a) m (L ar i j k) = m (setc a (nearest c f a (SpecGeom.coord i j k a)) (L ar i j k)).
Proof.
  intros HF Hin (OW & FN & RG). set (n := SpecGeom.coord i j k a) in *.
  assert (ST : staggered f a = negb (fieldIsInBoundary f (face_lo a)) /\
      fieldIsInBoundary f (face_hi a) = fieldIsInBoundary f (face_lo a))
    by (clear; destruct f, a; split; reflexivity).
  destruct ST as [ST1 ST2].
  assert (XA : forall g, face_axis g = a -> g = face_lo a \/ g = face_hi a) by (intros g; destruct g; intros <-; simpl; auto).
  assert (LOA : is_lo (face_lo a) = true /\ is_lo (face_hi a) = false /\ face_axis (face_lo a) = a /\ face_axis (face_hi a) = a)
    by (clear; destruct a; auto).
  destruct LOA as (LO & HI & ALO & AHI).
  assert (EX : gobox c (face_lo a) <= gibox c (face_lo a) /\ gibox c (face_lo a) < gibox c (face_hi a) /\ gibox c (face_hi a) <= gobox c (face_hi a)
     /\ (outerSurfaceNumLayers c (face_lo a) = gibox c (face_lo a) - gobox c (face_lo a))
     /\ (outerSurfaceNumLayers c (face_hi a) = gobox c (face_hi a) - gibox c (face_hi a))).
  { cfg_facts c W. clear OW FN RG n Hin. destruct a; cbn [face_lo face_hi] in *; lia. }
  rewrite group_val. destruct (in_dec _ _ _) as [I|N].
  - apply (group_writes _ _ _ _ _ _ HF) in I. destruct I as (r & HR & Hl).
    assert (SR : side a (L ar i j k) = r) by (rewrite <- HR; apply (side_region r f); exact Hl).
    f_equal. unfold sgm. cbn [arr]. rewrite HF, SR. clear SR.
    f_equal. apply zone_own in Hl. cbv zeta in Hl. rewrite HR in Hl. fold n in Hl.
    unfold copyFrom, nearest, mesh_lo, mesh_hi, fine, mesh_lo in *. rewrite ST1 in *.
    destruct (XA r HR) as [-> | ->]; clear XA;
      rewrite ?LO, ?HI, ?ST2 in *; destruct Hl as [H1 H2];
      destruct (fieldIsInBoundary f (face_lo a)); cbn [negb] in *;
      first [specialize (H1 eq_refl)|specialize (H2 eq_refl)]; try (destruct FN as [FN|FN]; [discriminate FN|]); lia.
  - f_equal. assert (E : nearest c f a n = n).
    2:{ rewrite E. unfold n. destruct a; reflexivity. }
    assert (NN : forall r, face_axis r = a -> outerSurfaceNumLayers c r <> 0 ->
       (is_lo r = true -> gobox c r + (if fieldIsInBoundary f r then 1 else 0) <= n < gibox c r) ->
       (is_lo r = false -> gibox c r + (if fieldIsInBoundary f r then 1 else 0) <= n < gobox c r) -> False).
    { intros r HR HN H1 H2. apply N. apply (group_writes _ _ _ _ _ _ HF). exists r. split; [exact HR|].
      apply (Hin r HR HN n H1 H2). unfold n. destruct a; reflexivity. }
    pose proof (NN (face_lo a) ALO) as N1. pose proof (NN (face_hi a) AHI) as N2. clear NN N Hin.
    unfold nearest, mesh_lo, mesh_hi, off_wall, fine, mesh_lo, mesh_hi, ypos in *. rewrite ST1, ST2, LO, HI in *.
    destruct (fieldIsInBoundary f (face_lo a)); cbn [negb] in *.
    + destruct (Z_lt_le_dec n (gibox c (face_lo a))) as [B1|B1].
      { exfalso. apply N1; [lia| |discriminate]. intros _. lia. }
      destruct (Z_lt_le_dec (gibox c (face_hi a)) n) as [B2|B2]; [|lia].
      exfalso. apply N2; [lia|discriminate|]. intros _. lia.
    + destruct FN as [FN|FN]; [discriminate FN|].
      destruct (Z_lt_le_dec (gibox c (face_hi a) - 1) n) as [B2|B2]; [|lia].
      exfalso. apply N2; [lia|discriminate|]. intros _. lia.
Qed.

Lemma nearest_mesh f a n : mesh_lo c a <= nearest c f a n <= mesh_hi c f a.
Proof.
  unfold nearest, mesh_hi, mesh_lo.
  assert (gibox c (face_lo a) < gibox c (face_hi a)) by (cfg_facts c W; destruct a; cbn [face_lo face_hi] in *; lia).
  destruct (staggered f a); lia.
Qed.

Ltac zone_tac := unfold inl, fpmlim, setFieldLimits, pbox, copyInclude, mkbox;
  cbn [fieldIsInBoundary face_axis axis_eqb negb] in *.

Lemma continued m ar f i j k : isCoefOf ar f -> inl (gfolim c f) i j k ->
  off_wall c f XDIR i -> off_wall c f YDIR j -> off_wall c f ZDIR k ->
  fine f XDIR i -> fine f YDIR j -> fine f ZDIR k ->
  run A (initPmlMaterialArrays c) m (L ar i j k) =
  m (L ar (nearest c f XDIR i) (nearest c f YDIR j) (nearest c f ZDIR k)).
Proof.
  intros HA R OX OY OZ FX FY FZ. apply fieldOf_iff in HA.
  pose proof (nearest_mesh f XDIR i) as MX. pose proof (nearest_mesh f YDIR j) as MY. pose proof (nearest_mesh f ZDIR k) as MZ.
  set (x := nearest c f XDIR i) in *. set (y := nearest c f YDIR j) in *. set (z := nearest c f ZDIR k) in *.
  unfold inl, gfolim, setFieldLimits in R.
  rewrite copy_groups, !run_app.
  rewrite (group_axis XDIR ar f i j k) by
   (first [exact HA
   | cbv zeta; cbn [SpecGeom.coord face_lo face_hi]; split; [exact OX|]; split; [exact FX|]; clear - R; destruct f; cbn [fieldIsInBoundary] in *; lia
   | clear - R W; intros r HR HN n H1 H2 i' j' k' E; cbn [setc arr li lj lk] in E; injection E as <- <- <-;
     destruct r; try discriminate HR; cbn [is_lo] in *; first [specialize (H1 eq_refl); clear H2|specialize (H2 eq_refl); clear H1]; cfg_facts c W;
     destruct f; zone_tac; lia]).
  cbn [setc arr li lj lk SpecGeom.coord]. fold x.
  rewrite (group_axis YDIR ar f x j k) by
   (first [exact HA
   | cbv zeta; cbn [SpecGeom.coord face_lo face_hi]; split; [exact OY|]; split; [exact FY|]; clear - R; destruct f; cbn [fieldIsInBoundary] in *; lia
   | clear - R W MX; intros r HR HN n H1 H2 i' j' k' E; cbn [setc arr li lj lk] in E; injection E as <- <- <-;
     unfold mesh_lo, mesh_hi in MX; cbn [face_lo face_hi] in MX;
     destruct r; try discriminate HR; cbn [is_lo] in *; first [specialize (H1 eq_refl); clear H2|specialize (H2 eq_refl); clear H1]; cfg_facts c W;
     destruct f; zone_tac; cbn [staggered is_E fld_axis axis_eqb negb xorb eqb] in MX; lia]).
  cbn [setc arr li lj lk SpecGeom.coord]. fold y.
  rewrite (group_axis ZDIR ar f x y k) by
   (first [exact HA
   | cbv zeta; cbn [SpecGeom.coord face_lo face_hi]; split; [exact OZ|]; split; [exact FZ|]; clear - R; destruct f; cbn [fieldIsInBoundary] in *; lia
   | clear - R W MX MY; intros r HR HN n H1 H2 i' j' k' E; cbn [setc arr li lj lk] in E; injection E as <- <- <-;
     unfold mesh_lo, mesh_hi in MX, MY; cbn [face_lo face_hi] in MX, MY;
     destruct r; try discriminate HR; cbn [is_lo] in *; first [specialize (H1 eq_refl); clear H2|specialize (H2 eq_refl); clear H1]; cfg_facts c W;
     destruct f; zone_tac; cbn [staggered is_E fld_axis axis_eqb negb xorb eqb] in MX, MY; lia]).
  cbn [setc arr li lj lk SpecGeom.coord]. fold z. reflexivity.
Qed.
End MC.
