(** Every field value of the outer grid is written exactly once per time step,
    except on the edges shared by two MUR faces. *)
From Coq Require Import ZArith List Bool Lia.
From Verif Require Import Types Lang LangProofs BBox Grid Pml Mur Ghost Step SpecGrid StepShape StepBounds StepCount.
Import ListNotations.
Open Scope Z_scope.
Local Arguments Z.mul : simpl never.
Local Arguments Z.add : simpl never.
Local Arguments Z.sub : simpl never.

(** [x] is the coordinate of a MUR face of axis [a] *)
Definition on_mur (c : Cfg) (a : Axis) (x : Z) : bool :=
  (isT c BT_MUR (face_lo a) && (x =? gibox c (face_lo a))) ||
  (isT c BT_MUR (face_hi a) && (x =? gibox c (face_hi a))).
Definition in_mesh (c : Cfg) (a : Axis) (x : Z) : bool :=
  rng (gibox c (face_lo a)) (gibox c (face_hi a) - 1) x.
(** the E component [f] at (i,j,k) lies on an edge of the mesh shared by two MUR faces *)
Definition mur_edge (c : Cfg) (f : Fld) (i j k : Z) : bool :=
  match f with
  | EX => in_mesh c XDIR i && on_mur c YDIR j && on_mur c ZDIR k
  | EY => in_mesh c YDIR j && on_mur c XDIR i && on_mur c ZDIR k
  | EZ => in_mesh c ZDIR k && on_mur c XDIR i && on_mur c YDIR j
  | _ => false
  end.

Section Zones.
Variables (c : Cfg) (a : Axis).
Let lo := face_lo a. Let hi := face_hi a.
Definition nLo (x : Z) := rng (gobox c lo) (gibox c lo - 1) x.
Definition nIn (x : Z) := rng (gibox c lo) (gibox c hi) x.
Definition nHi (x : Z) := rng (gibox c hi + 1) (gobox c hi) x.
Definition nG (x : Z) := rng (if isT c BT_MUR lo then gibox c lo + 1 else gibox c lo)
                             (if isT c BT_MUR hi then gibox c hi - 1 else gibox c hi) x.
Definition nMl (x : Z) := isT c BT_MUR lo && (x =? gibox c lo).
Definition nMh (x : Z) := isT c BT_MUR hi && (x =? gibox c hi).
Definition hLo (x : Z) := rng (gobox c lo) (gibox c lo - 1) x.
Definition hIn (x : Z) := rng (gibox c lo) (gibox c hi - 1) x.
Definition hHi (x : Z) := rng (gibox c hi) (gobox c hi - 1) x.

Lemma node_zone x : wf c -> nodeRange c a x ->
  (nLo x = true /\ nIn x = false /\ nHi x = false /\ nG x = false /\ nMl x = false /\ nMh x = false) \/
  (nLo x = false /\ nIn x = false /\ nHi x = true /\ nG x = false /\ nMl x = false /\ nMh x = false) \/
  (nLo x = false /\ nIn x = true /\ nHi x = false /\ nG x = true /\ nMl x = false /\ nMh x = false) \/
  (nLo x = false /\ nIn x = true /\ nHi x = false /\ nG x = false /\ nMl x = true /\ nMh x = false) \/
  (nLo x = false /\ nIn x = true /\ nHi x = false /\ nG x = false /\ nMl x = false /\ nMh x = true).
Proof.
  intros W. unfold nodeRange, nLo, nIn, nHi, nG, nMl, nMh, rng, lo, hi.
  pose proof (extents_arith c a) as (G1 & G2 & G3 & G4 & G5). pose proof (wf_lines c W a).
  pose proof (layers_ge0 c (face_lo a) W). pose proof (layers_ge0 c (face_hi a) W).
  destruct (isT c BT_MUR (face_lo a)), (isT c BT_MUR (face_hi a)); cbn [andb]; lia.
Qed.
Lemma half_zone x : wf c -> halfRange c a x ->
  (hLo x = true /\ hIn x = false /\ hHi x = false) \/
  (hLo x = false /\ hIn x = false /\ hHi x = true) \/
  (hLo x = false /\ hIn x = true /\ hHi x = false).
Proof.
  intros W. unfold halfRange, hLo, hIn, hHi, rng, lo, hi.
  pose proof (extents_arith c a) as (G1 & G2 & G3 & G4 & G5). pose proof (wf_lines c W a).
  pose proof (layers_ge0 c (face_lo a) W). pose proof (layers_ge0 c (face_hi a) W). lia.
Qed.
Lemma node_all x : nodeRange c a x -> rng (gobox c lo) (gobox c hi) x = true.
Proof.
  unfold nodeRange, rng, lo, hi. pose proof (extents_arith c a) as (G1 & G2 & G3 & G4 & G5). lia.
Qed.
Lemma half_all x : halfRange c a x -> rng (gobox c lo) (gobox c hi - 1) x = true.
Proof.
  unfold halfRange, rng, lo, hi. pose proof (extents_arith c a) as (G1 & G2 & G3 & G4 & G5). lia.
Qed.
End Zones.

Lemma pml_layers0 c r f i j k : wf c -> isT c BT_PML r && inlb (fplim c r f) i j k = inlb (fplim c r f) i j k.
Proof.
  intros W. destruct (isT c BT_PML r) eqn:T; [reflexivity|]. cbn [andb]. symmetry.
  apply not_true_iff_false. rewrite inlb_iff. unfold isT in T.
  assert (N : outerSurfaceType c r <> BT_PML).
  { intros E. rewrite E in T. discriminate. }
  pose proof (wf_nopml c W r N) as Z0.
  unfold inl, fplim, setFieldLimits. cfg_facts c W.
  destruct r, f; unfold pbox, pmlInclude, setBoundingBoxBoundaryFlags, mkbox;
    cbn [fieldIsInBoundary]; lia.
Qed.

Lemma grid_incl c g : includeInnerBoundary c g = negb (isT c BT_MUR g).
Proof. reflexivity. Qed.

(** sum of the membership tests of the six PML regions, of the MUR faces and of
    the grid *)
Definition cover (c : Cfg) (f : Fld) (i j k : Z) : nat :=
  (sum6 (fun r => b2n (isT c BT_PML r && inlb (fplim c r f) i j k)) +
   sum6 (fun r => b2n (isT c BT_MUR r && fieldIsInBoundary f r && inlb (fmlim c r f) i j k)) +
   b2n (inlb (gfilim c f) i j k))%nat.

(** zones of one axis, for a component that is nodal or staggered on it *)
Record zone := mkZone { zLo : bool; zIn : bool; zHi : bool; zG : bool; zMl : bool; zMh : bool }.
Definition zoneOf (c : Cfg) (f : Fld) (a : Axis) (x : Z) : zone :=
  if fieldIsInBoundary f (face_lo a)
  then mkZone (nLo c a x) (nIn c a x) (nHi c a x) (nG c a x) (nMl c a x) (nMh c a x)
  else mkZone (hLo c a x) (hIn c a x) (hHi c a x) (hIn c a x) false false.
Lemma zone_cases c f a x : wf c ->
  (if fieldIsInBoundary f (face_lo a) then nodeRange c a x else halfRange c a x) ->
  zoneOf c f a x = mkZone true false false false false false \/
  zoneOf c f a x = mkZone false false true false false false \/
  zoneOf c f a x = mkZone false true false true false false \/
  zoneOf c f a x = mkZone false true false false true false \/
  zoneOf c f a x = mkZone false true false false false true.
Proof.
  intros W. unfold zoneOf. destruct (fieldIsInBoundary f (face_lo a)); intros R.
  - destruct (node_zone c a x W R) as [H|[H|[H|[H|H]]]];
    destruct H as (-> & -> & -> & -> & -> & ->); auto.
  - destruct (half_zone c a x W R) as [H|[H|H]]; destruct H as (-> & -> & ->); auto.
Qed.

Definition pmlIn (zx zy zz : zone) (r : Face) : bool :=
  match r with
  | XLO => zLo zx | XHI => zHi zx
  | YLO => zIn zx && zLo zy | YHI => zIn zx && zHi zy
  | ZLO => zIn zx && zIn zy && zLo zz | ZHI => zIn zx && zIn zy && zHi zz
  end.
Definition murIn (zx zy zz : zone) (r : Face) : bool :=
  match r with
  | XLO => zMl zx && zG zy && zG zz | XHI => zMh zx && zG zy && zG zz
  | YLO => zG zx && zMl zy && zG zz | YHI => zG zx && zMh zy && zG zz
  | ZLO => zG zx && zG zy && zMl zz | ZHI => zG zx && zG zy && zMh zz
  end.

Lemma NI (b : bool) (x y : Z) : (if negb b then x else y) = (if b then y else x).
Proof. destruct b; reflexivity. Qed.

Lemma pmlIn_eq c r f i j k : inl (gfolim c f) i j k ->
  inlb (fplim c r f) i j k = pmlIn (zoneOf c f XDIR i) (zoneOf c f YDIR j) (zoneOf c f ZDIR k) r.
Proof.
  intros H. apply gfolim_range in H. destruct H as (RX & RY & RZ).
  unfold inlb, fplim, setFieldLimits, pbox, pmlInclude, setBoundingBoxBoundaryFlags, mkbox, zoneOf.
  destruct f; cbn [fieldIsInBoundary face_lo] in *;
  (first [pose proof (node_all c XDIR i RX) as AX | pose proof (half_all c XDIR i RX) as AX]);
  (first [pose proof (node_all c YDIR j RY) as AY | pose proof (half_all c YDIR j RY) as AY]);
  (first [pose proof (node_all c ZDIR k RZ) as AZ | pose proof (half_all c ZDIR k RZ) as AZ]);
  cbn [face_lo face_hi] in AX, AY, AZ;
  destruct r; cbn [pmlIn zLo zIn zHi]; unfold nLo, nIn, nHi, hLo, hIn, hHi; cbn [face_lo face_hi];
  rewrite ?AX, ?AY, ?AZ, ?andb_true_r; reflexivity.
Qed.

Lemma murIn_eq c r f i j k : wf c -> 
  isT c BT_MUR r && fieldIsInBoundary f r && inlb (fmlim c r f) i j k =
  murIn (zoneOf c f XDIR i) (zoneOf c f YDIR j) (zoneOf c f ZDIR k) r.
Proof.
  intros W. unfold inlb, fmlim, setFieldLimits, murbox, getFaceOfBoundingBox, mkbox, murInclude, zoneOf.
  repeat match goal with |- context [btype_eqb (outerSurfaceType c ?g) BT_MUR] =>
     change (btype_eqb (outerSurfaceType c g) BT_MUR) with (isT c BT_MUR g) end.
  destruct f, r; cbn [fieldIsInBoundary face_lo face_axis axis_eqb negb andb];
  cbn [murIn zMl zMh zG]; rewrite ?andb_false_r, ?andb_true_r; cbn [andb]; try reflexivity;
  unfold nG, nMl, nMh, hIn; cbn [face_lo face_hi]; rewrite ?rng_single, ?NI;
  repeat match goal with |- context [rng ?a ?b ?x] => generalize (rng a b x); intro end;
  repeat match goal with |- context [?x =? ?g] => generalize (x =? g); intro end;
  destruct (isT c BT_MUR XLO), (isT c BT_MUR XHI), (isT c BT_MUR YLO), (isT c BT_MUR YHI),
    (isT c BT_MUR ZLO), (isT c BT_MUR ZHI); cbn [andb]; try reflexivity;
  repeat match goal with b : bool |- _ => destruct b; cbn [andb]; try reflexivity end.
Qed.
Lemma gridIn_eq c f i j k : 
  inlb (gfilim c f) i j k = zG (zoneOf c f XDIR i) && zG (zoneOf c f YDIR j) && zG (zoneOf c f ZDIR k).
Proof.
  unfold inlb, gfilim, setFieldLimits, zoneOf. rewrite !grid_incl, !NI.
  destruct f; cbn [fieldIsInBoundary face_lo]; cbn [zG]; unfold nG, hIn; cbn [face_lo face_hi]; reflexivity.
Qed.
Lemma mur_edge_eq c f i j k : mur_edge c f i j k =
  let mx := zMl (zoneOf c f XDIR i) || zMh (zoneOf c f XDIR i) in
  let my := zMl (zoneOf c f YDIR j) || zMh (zoneOf c f YDIR j) in
  let mz := zMl (zoneOf c f ZDIR k) || zMh (zoneOf c f ZDIR k) in
  (zIn (zoneOf c f ZDIR k) && mx && my) || (zIn (zoneOf c f YDIR j) && mx && mz)
   || (zIn (zoneOf c f XDIR i) && my && mz).
Proof.
  unfold zoneOf. destruct f; cbn [fieldIsInBoundary face_lo zIn zMl zMh mur_edge orb]; unfold in_mesh, hIn; cbn [face_lo face_hi];
  change (on_mur c XDIR i) with (nMl c XDIR i || nMh c XDIR i);
  change (on_mur c YDIR j) with (nMl c YDIR j || nMh c YDIR j);
  change (on_mur c ZDIR k) with (nMl c ZDIR k || nMh c ZDIR k);
  rewrite ?andb_false_r, ?orb_false_r; cbn [andb orb]; rewrite ?andb_false_r, ?orb_false_r; reflexivity.
Qed.

Lemma cover_value c f i j k : wf c -> inl (gfolim c f) i j k ->
  cover c f i j k = if mur_edge c f i j k then 0%nat else 1%nat.
Proof.
  intros W H. unfold cover, sum6. rewrite !(pml_layers0 c _ f i j k W), !(pmlIn_eq c _ f i j k H),
    !(murIn_eq c _ f i j k W), gridIn_eq, mur_edge_eq.
  apply gfolim_range in H. destruct H as (RX & RY & RZ).
  destruct (zone_cases c f XDIR i W RX) as [-> |[-> |[-> |[-> | ->]]]];
  destruct (zone_cases c f YDIR j W RY) as [-> |[-> |[-> |[-> | ->]]]];
  destruct (zone_cases c f ZDIR k W RZ) as [-> |[-> |[-> |[-> | ->]]]]; reflexivity.
Qed.

Section Once.
Context {V : Type}.

Lemma flat_zero (l : Loc) (p : list (item V)) :
  (forall s, In s (flat p) -> dst s <> l) -> writes l (flat p) = 0%nat.
Proof.
  intros H. unfold writes. apply count_occ_not_In. intros Hin. unfold twrites in Hin.
  apply in_map_iff in Hin. destruct Hin as (s & E & Hs). apply (H s Hs E).
Qed.

Lemma stE_dst c (s : stmt V) f : is_E f = false -> stE c s -> arr (dst s) <> AF f.
Proof.
  intros E H. destruct H as [r g i j k s Eg T Hl Hs|face g i j k s Eg T N Hl Hs|g i j k s Eg Hl Hs].
  - destruct g; try discriminate Eg; cbn [pmlF] in Hs;
    unfold pmlEx, pmlEy, pmlEz, pmlEbody in Hs; cbn [In] in Hs;
    repeat (destruct Hs as [Hs|Hs]; [subst s; cbn; intros X; try discriminate; injection X; intros; subst f; discriminate|]); contradiction.
  - unfold murBody in Hs; cbn [In] in Hs.
    destruct Hs as [<-|[<-|[]]]; cbn; intros X; [discriminate|]. injection X as ->. congruence.
  - destruct g; try discriminate Eg; destruct Hs as [<-|[]]; cbn; intros X; injection X; intros; subst f; discriminate.
Qed.
Lemma stH_dst c (s : stmt V) f : is_E f = true -> stH c s -> arr (dst s) <> AF f.
Proof.
  intros E H. destruct H as [r g i j k s Eg T Hl Hs|face g i j k s Eg T N Hl Hs|g i j k s Eg Hl Hs].
  - destruct g; try discriminate Eg; cbn [pmlF] in Hs;
    unfold pmlHx, pmlHy, pmlHz, pmlHbody in Hs; cbn [In] in Hs;
    repeat (destruct Hs as [Hs|Hs]; [subst s; cbn; intros X; try discriminate; injection X; intros; subst f; discriminate|]); contradiction.
  - destruct g; try discriminate Eg; destruct Hs as [<-|[]]; cbn; intros X; injection X; intros; subst f; discriminate.
  - destruct g; try discriminate Eg; destruct Hs as [<-|[]]; cbn; intros X; injection X; intros; subst f; discriminate.
Qed.
Lemma stG_dst c b (s : stmt V) f i j k : wf c -> inl (gfolim c f) i j k -> stG c b s -> dst s <> L (AF f) i j k.
Proof.
  intros W H HG X. destruct HG as [face g p q src s B E T Hp Hq Hs].
  assert (D : dst s = at_axis (AF g) (face_axis face) (ghostIdx c face) p q) by (destruct Hs as [->|[-> _]]; reflexivity).
  rewrite D in X. apply gfolim_range in H. unfold nodeRange, halfRange in H.
  assert (g = f) as -> by (destruct face; cbn in X; injection X; auto).
  unfold ghostIdx in X. cfg_facts c W.
  destruct face, f; try discriminate B; cbn [is_lo face_axis at_axis fieldIsInBoundary] in *; pose proof (f_equal li X); pose proof (f_equal lj X); pose proof (f_equal lk X); cbn [li lj lk] in *; lia.
Qed.

Lemma writes_phaseE c f i j k : is_E f = true -> writes (L (AF f) i j k) (flat (phaseE (V:=V) c)) = cover c f i j k.
Proof.
  intros E. unfold phaseE. rewrite !flat_app, !writes_app, count_pmlE, count_gridE by auto.
  unfold updateMurEfield. rewrite flat_faces. unfold cover, sum6. rewrite !count_murEface by auto. lia.
Qed.
Lemma writes_phaseH c f i j k : is_E f = false -> writes (L (AF f) i j k) (flat (phaseH (V:=V) c)) = cover c f i j k.
Proof.
  intros E. unfold phaseH. rewrite !flat_app, !writes_app, count_pmlH, count_gridH by auto.
  unfold updateMurHfield. rewrite flat_faces. unfold cover, sum6. rewrite !count_murHface by auto. lia.
Qed.

Lemma coreStep_writes c f i j k : wf c -> inl (gfolim c f) i j k ->
  writes (L (AF f) i j k) (flat (coreStep (V:=V) c)) = if mur_edge c f i j k then 0%nat else 1%nat.
Proof.
  intros W H. unfold coreStep, timeStep. rewrite !flat_app, !writes_app.
  rewrite (flat_zero _ (updateGhostEfield c)) by (intros s Hs; apply ghostE_shape in Hs; eapply stG_dst; eauto).
  rewrite (flat_zero _ (updateGhostHfield c)) by (intros s Hs; apply ghostH_shape in Hs; eapply stG_dst; eauto).
  cbn [flat flat_map]. rewrite writes_nil.
  destruct (is_E f) eqn:E.
  - rewrite (flat_zero _ (phaseH c)), writes_phaseE, cover_value by
      (auto; intros s Hs X; apply phaseH_shape in Hs; eapply stH_dst; eauto; rewrite X; reflexivity). lia.
  - rewrite (flat_zero _ (phaseE c)), writes_phaseH, cover_value by
      (auto; intros s Hs X; apply phaseE_shape in Hs; eapply stE_dst; eauto; rewrite X; reflexivity). lia.
Qed.
End Once.
