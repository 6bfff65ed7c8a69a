(** What a time step computes on MUR faces, also across a mesh one cell thick. *)
From Coq Require Import ZArith List Bool Lia.
From Verif Require Import Types Lang LangProofs BBox Grid Pml Mur Ghost Step SpecGrid
  StepShape StepBounds StepCount StepOnce SpecCone StepValue PmlValue MurValue.
Import ListNotations.
Open Scope Z_scope.
Local Arguments Z.mul : simpl never.
Local Arguments Z.add : simpl never.
Local Arguments Z.sub : simpl never.

Section Split.
Context {V : Type}.
Lemma split_murE1 c face f i j k : is_E f = true -> outerSurfaceType c face = BT_MUR -> fld_axis f <> face_axis face ->
  inl (fmlim c face f) i j k ->
  exists p q, flat (updateMurEface (V:=V) c face) = p ++ murAt face f i j k ++ q.
Proof.
  intros E T N I.
  assert (O : fmlim c face f (face_lo (face_axis face)) = gibox c face /\ fmlim c face f (face_hi (face_axis face)) = gibox c face).
  { apply fmlim_own. destruct face, f; try discriminate E; try reflexivity; exfalso; apply N; reflexivity. }
  assert (K : exists it, In it (updateMurEface (V:=V) c face) /\ exists p q, flat_item it = p ++ murAt face f i j k ++ q).
  { unfold updateMurEface. rewrite T. cbn [btype_eqb]. destruct I as (I1 & I2 & I3). unfold murAt.
    destruct face, f; try discriminate E; try (exfalso; apply N; reflexivity); destruct O as (O1 & O2);
    cbn [face_axis face_lo face_hi inw axis_eqb is_lo cH] in *;
    rewrite ?Z.add_0_r; unfold murEX_, murEY_, murEZ_; cbv zeta;
    first
      [ solve [eexists; split; [left; reflexivity|];
        match goal with |- context [murBody ?F ?f _ _ _ _ (fmlim c ?F ?f ?F) _ _] => replace (fmlim c F f F) with i by lia
          | |- context [murBody ?F ?f _ _ _ _ _ (fmlim c ?F ?f ?F) _] => replace (fmlim c F f F) with j by lia
          | |- context [murBody ?F ?f _ _ _ _ _ _ (fmlim c ?F ?f ?F)] => replace (fmlim c F f F) with k by lia end;
        match goal with |- exists p q, flat_item (par_for ?a ?b (fun x => for_ ?u ?v (fun y => @?g x y))) = _ =>
          first [apply (split_par2 a b u v g j k); lia|apply (split_par2 a b u v g i k); lia|apply (split_par2 a b u v g i j); lia] end]
      | solve [eexists; split; [right; left; reflexivity|];
        match goal with |- context [murBody ?F ?f _ _ _ _ (fmlim c ?F ?f ?F) _ _] => replace (fmlim c F f F) with i by lia
          | |- context [murBody ?F ?f _ _ _ _ _ (fmlim c ?F ?f ?F) _] => replace (fmlim c F f F) with j by lia
          | |- context [murBody ?F ?f _ _ _ _ _ _ (fmlim c ?F ?f ?F)] => replace (fmlim c F f F) with k by lia end;
        match goal with |- exists p q, flat_item (par_for ?a ?b (fun x => for_ ?u ?v (fun y => @?g x y))) = _ =>
          first [apply (split_par2 a b u v g j k); lia|apply (split_par2 a b u v g i k); lia|apply (split_par2 a b u v g i j); lia] end] ]. }
  destruct K as (it & K1 & p & q & K2).
  destruct (split_flat _ _ K1) as (a & b & ->). eapply split_trans; eauto.
Qed.
(** the opposite face is updated before a high face *)
Definition opp (face : Face) : Face := match face with XLO => XHI | XHI => XLO | YLO => YHI | YHI => YLO | ZLO => ZHI | ZHI => ZLO end.
Definition before (face : Face) : list Face :=
  match face with XLO => [] | XHI => [XLO] | YLO => [XLO; XHI] | YHI => [XLO; XHI; YLO] | ZLO => [XLO; XHI; YLO; YHI] | ZHI => [XLO; XHI; YLO; YHI; ZLO] end.
Lemma faces_before face : exists l, faces = before face ++ face :: l.
Proof. destruct face; eexists; reflexivity. Qed.
End Split.

Section MurStep.
Context {V : Type} (A : Arith V).
Variables (c : Cfg) (W : wf c) (xE xH : list (item V)).
Hypothesis onlyH : forall s, In s (flat xH) -> kind (dst s) = Some false.
Let step' := stepxx A c xE xH.

(** the neighbour lies on the opposite face, already updated *)
Definition thin (face : Face) (f : Fld) (i j k : Z) : bool :=
  negb (is_lo face) && isT c BT_MUR (opp face) && inlb (fmlim c (opp face) f) i j k.

Lemma before_count face f i j k : is_E f = true -> outerSurfaceType c face = BT_MUR -> fld_axis f <> face_axis face ->
  inl (fmlim c face f) i j k ->
  let i1 := i + inw face XDIR in let j1 := j + inw face YDIR in let k1 := k + inw face ZDIR in
  writes (L (AF f) i1 j1 k1) (flat (flat_map (updateMurEface (V:=V) c) (before face))) = b2n (thin face f i1 j1 k1).
Proof.
  intros E T N I. cbv zeta. set (i1 := i + _). set (j1 := j + _). set (k1 := k + _).
  assert (X : forall r, In r (before face) -> r <> opp face -> isT c BT_MUR r = true -> fieldIsInBoundary f r = true -> inlb (fmlim c r f) i1 j1 k1 = false).
  { intros r Hr Nr TR B. apply not_true_is_false. intros HI. apply inlb_iff in HI. revert I HI. unfold i1, j1, k1.
    assert (TR' : btype_eqb (outerSurfaceType c r) BT_MUR = true) by exact TR.
    unfold inl, fmlim, setFieldLimits, murInclude, murbox, inw.
    destruct face, f; try discriminate E; try (exfalso; apply N; reflexivity);
    cbn [before In] in Hr; repeat (destruct Hr as [<-|Hr]); try contradiction; try (exfalso; apply Nr; reflexivity); try discriminate B;
    cbn [fieldIsInBoundary getFaceOfBoundingBox face_axis axis_eqb negb andb is_lo face_lo face_hi] in *; rewrite ?Z.add_0_r, ?T, ?TR'; cbn [btype_eqb negb];
    repeat match goal with |- context [btype_eqb ?x BT_MUR] => destruct (btype_eqb x BT_MUR) end; cbn [negb]; cbn [mkbox]; lia. }
  assert (C : forall l, flat (flat_map (updateMurEface (V:=V) c) l) = flat_map (fun r => flat (updateMurEface c r)) l).
  { induction l as [|r l IH]; [reflexivity|]. cbn [flat_map]. rewrite flat_app, IH. reflexivity. }
  rewrite C.
  assert (G : forall r, In r (before face) -> writes (L (AF f) i1 j1 k1) (flat (updateMurEface (V:=V) c r)) =
     if face_eqb r (opp face) then b2n (isT c BT_MUR r && inlb (fmlim c r f) i1 j1 k1) else 0%nat).
  { intros r Hr. rewrite count_murEface by auto. destruct (face_eqb r (opp face)) eqn:Q.
    - apply face_eqb_spec in Q. subst r. replace (fieldIsInBoundary f (opp face)) with true; [rewrite andb_true_r; reflexivity|].
      destruct face, f; try discriminate E; try reflexivity; exfalso; apply N; reflexivity.
    - assert (Nr : r <> opp face) by (intros ->; destruct face; discriminate Q).
      destruct (isT c BT_MUR r) eqn:Tr; [|reflexivity]. destruct (fieldIsInBoundary f r) eqn:B; [|reflexivity]. rewrite X by auto. reflexivity. }
  unfold thin.
  destruct face; cbn [before flat_map is_lo negb andb opp] in *; rewrite ?writes_app, ?writes_nil;
  repeat (rewrite G by (simpl; tauto)); cbn [face_eqb b2n]; try reflexivity; rewrite ?Nat.add_0_r, ?Nat.add_0_l; reflexivity.
Qed.

Lemma mur_E_step_gen face f i j k m : is_E f = true -> outerSurfaceType c face = BT_MUR -> fld_axis f <> face_axis face ->
  let i1 := i + inw face XDIR in let j1 := j + inw face YDIR in let k1 := k + inw face ZDIR in
  inl (fmlim c face f) i j k -> writes (L (AF f) i j k) (flat xE) = 0%nat -> writes (L (AF f) i1 j1 k1) (flat xE) = 0%nat ->
  let v := if thin face f i1 j1 k1 then step' m (L (AF f) i1 j1 k1) else m (L (AF f) i1 j1 k1) in
  step' m (L (AF f) i j k) =
  vadd A v (vmul A (m (zetaLoc face))
    (vsub A (vadd A (vmul A (m (L (AAlpha f) i1 j1 k1)) v) (vmul A (m (L (ABeta f) i1 j1 k1)) (eval A m (cH f i1 j1 k1))))
            (m (L (AF f) i j k)))).
Proof.
  intros E T N i1 j1 k1 I Q Q1. cbv zeta.
  assert (OO : inl (gfolim c f) i j k /\ inl (gfolim c f) i1 j1 k1).
  { revert I. unfold i1, j1, k1. cfg_facts c W. unfold inl, fmlim, gfolim, setFieldLimits, murInclude, murbox, inw.
    destruct face, f; try discriminate E; try (exfalso; apply N; reflexivity);
    cbn [fieldIsInBoundary getFaceOfBoundingBox face_axis axis_eqb negb andb is_lo face_lo face_hi] in *; rewrite ?Z.add_0_r, ?T; cbn [btype_eqb negb];
    repeat match goal with |- context [btype_eqb ?x BT_MUR] => destruct (btype_eqb x BT_MUR) end; cbn [negb]; cbn [mkbox]; lia. }
  destruct OO as [HO HO1].
  destruct (split_murE1 (V:=V) c face f i j k E T N I) as (p & q & S0).
  destruct (faces_before face) as (fs & FB).
  assert (CC : flat (updateMurEfield (V:=V) c) = (flat (flat_map (updateMurEface c) (before face)) ++ p) ++ murAt face f i j k ++ (q ++ flat (flat_map (updateMurEface c) fs))).
  { unfold updateMurEfield. rewrite FB, flat_map_app. cbn [flat_map]. rewrite !flat_app, S0. rewrite <- !app_assoc. reflexivity. }
  set (P0 := flat (updatePmlEfield (V:=V) c)) in *. set (PB := flat (flat_map (updateMurEface (V:=V) c) (before face))) in *.
  set (q' := (q ++ flat (flat_map (updateMurEface c) fs)) ++ flat (updateGridEfield (V:=V) c)).
  assert (S' : flat (phaseE (V:=V) c) = (P0 ++ PB ++ p) ++ murAt face f i j k ++ q').
  { unfold phaseE, q'. rewrite !flat_app, CC. fold P0. rewrite <- !app_assoc. reflexivity. }
  set (P := P0 ++ PB ++ p) in *. clearbody q'.
  assert (B1 : writes (L (AF f) i j k) (murAt (V:=V) face f i j k) = 1%nat).
  { unfold murAt, murBody. rewrite !writes_cons, writes_nil. cbn [dst]. rewrite loc_dec_ne by discriminate. rewrite loc_dec_eq. reflexivity. }
  assert (WF : writes (L (AF f) i j k) (flat (phaseE (V:=V) c)) = 1%nat).
  { rewrite writes_phaseE, cover_value by auto. destruct (mur_edge c f i j k) eqn:M; [|reflexivity]. exfalso.
    pose proof (writes_phaseE (V:=V) c f i j k E) as X. rewrite cover_value, M in X by auto.
    rewrite S', !writes_app, B1 in X. lia. }
  (* writes to the neighbour *)
  assert (NN : writes (L (AF f) i1 j1 k1) (flat (updateMurEface (V:=V) c face)) = 0%nat).
  { rewrite count_murEface by auto. destruct (inlb (fmlim c face f) i1 j1 k1) eqn:X; [|rewrite andb_false_r; reflexivity]. exfalso.
    apply inlb_iff in X. revert I X. unfold i1, j1, k1. unfold inl, fmlim, setFieldLimits, murInclude, murbox, inw.
    destruct face, f; try discriminate E; try (exfalso; apply N; reflexivity);
    cbn [fieldIsInBoundary getFaceOfBoundingBox face_axis axis_eqb negb andb is_lo face_lo face_hi] in *; rewrite ?Z.add_0_r, ?T; cbn [btype_eqb negb]; cbn [mkbox]; lia. }
  assert (WP0 : writes (L (AF f) i1 j1 k1) P0 = 0%nat).
  { assert (H0 : forall r, outerSurfaceType c r = BT_PML -> ~ inl (fplim c r f) i1 j1 k1).
    { intros r TR. revert I. unfold i1, j1, k1. unfold inl, fmlim, fplim, pbox, pmlInclude, setBoundingBoxBoundaryFlags, setFieldLimits, murInclude, murbox, inw.
      pose proof (wf_nopml c W) as NP. cfg_facts c W.
      destruct face, f; try discriminate E; try (exfalso; apply N; reflexivity);
      cbn [fieldIsInBoundary getFaceOfBoundingBox face_axis axis_eqb negb andb is_lo face_lo face_hi] in *; rewrite ?Z.add_0_r, ?T; cbn [btype_eqb negb];
      destruct r; try congruence;
      repeat match goal with |- context [btype_eqb ?x BT_MUR] => destruct (btype_eqb x BT_MUR) end; cbn [negb]; cbn [mkbox]; cbn [fieldIsInBoundary]; lia. }
    unfold P0. apply flat_zero. intros s Hs D. apply in_flat in Hs. destruct Hs as (it & Hi & Hs). unfold updatePmlEfield in Hi. apply in_flat_map in Hi.
    destruct Hi as (r & _ & Hi). destruct (btype_eqb (outerSurfaceType c r) BT_PML) eqn:TR; [|destruct Hi]. apply btype_eqb_spec in TR.
    assert (G : forall g, writes (L (AF f) i1 j1 k1) (flat_item (nest3 (fplim c r g) (pmlF (V:=V) r g (fplim c r g)))) = 0%nat).
    { intros g. rewrite (writes_nest3_gen _ i1 j1 k1).
      - destruct (inlb (fplim c r g) i1 j1 k1) eqn:X; [|reflexivity]. rewrite writes_pmlF. destruct (fld_eqb g f) eqn:GF; [|reflexivity].
        apply fld_eqb_spec in GF. subst g. exfalso. apply (H0 r TR). apply inlb_iff. exact X.
      - intros i' j' k' Hn. rewrite writes_pmlF. destruct (fld_eqb g f); [|reflexivity]. rewrite same3_false by tauto. reflexivity. }
    assert (Z : writes (L (AF f) i1 j1 k1) (flat_item it) = 0%nat).
    { destruct Hi as [<-|[<-|[<-|[]]]]; [apply (G EX)|apply (G EY)|apply (G EZ)]. }
    unfold writes in Z. apply count_occ_not_In in Z. apply Z. rewrite <- D. apply in_map. exact Hs. }
  assert (WPp : writes (L (AF f) i1 j1 k1) p = 0%nat) by (rewrite S0, !writes_app in NN; lia).
  assert (WP : writes (L (AF f) i1 j1 k1) P = b2n (thin face f i1 j1 k1)).
  { unfold P. rewrite !writes_app, WP0, WPp. unfold PB. unfold i1, j1, k1. rewrite before_count by auto. lia. }
  pose proof WF as WF'. rewrite S' in WF'. destruct (block_writes _ _ _ _ WF' B1) as (P1 & P2).
  set (mp := run A P m).
  assert (M1 : mp (L (AF f) i1 j1 k1) = if thin face f i1 j1 k1 then step' m (L (AF f) i1 j1 k1) else m (L (AF f) i1 j1 k1)).
  { destruct (thin face f i1 j1 k1); cbn [b2n] in WP; [|apply writes_0_frame; exact WP].
    unfold step'. rewrite stepxx_E by (auto; cbn; congruence). unfold midE.
    rewrite (writes_0_frame A (flat (updateGhostEfield c))) by (apply ghostE_inside; auto).
    rewrite (writes_0_frame A (flat xE)) by assumption. rewrite S', !run_app. fold mp. symmetry.
    pose proof (writes_phaseE (V:=V) c f i1 j1 k1 E) as X. rewrite cover_value in X by auto. rewrite S', !writes_app, WP in X.
    rewrite !(writes_0_frame A); [reflexivity| |]; destruct (mur_edge c f i1 j1 k1); lia. }
  set (v := if thin face f i1 j1 k1 then _ else _) in *. clearbody v.
  unfold step'. rewrite stepxx_E by (auto; cbn; congruence). unfold midE.
  rewrite (writes_0_frame A (flat (updateGhostEfield c))) by (apply ghostE_inside; auto).
  rewrite (writes_0_frame A (flat xE)) by assumption.
  rewrite S', !run_app. rewrite (writes_0_frame A q') by assumption. fold mp.
  assert (M : forall l, kind l <> Some true -> mp l = m l).
  { intros l K. apply writes_0_frame. pose proof (phaseE_other (V:=V) c l K) as X. rewrite S', !writes_app in X. lia. }
  assert (HRD : forall l, In l (reads (cH (V:=V) f i1 j1 k1)) -> kind l <> Some true).
  { intros l Hl. eapply (pml_E_reads f i1 j1 k1); eauto. left; reflexivity. }
  unfold murAt. fold i1 j1 k1. rewrite mur_body_run.
  - rewrite !(M (zetaLoc _)), !(M (L (AAlpha _) _ _ _)), !(M (L (ABeta _) _ _ _)) by discriminate.
    assert (M0 : mp (L (AF f) i j k) = m (L (AF f) i j k)) by (apply writes_0_frame; auto).
    assert (ME : eval A mp (cH f i1 j1 k1) = eval A m (cH f i1 j1 k1)) by (apply eval_ext; intros l Hl; apply M; auto).
    rewrite M1, M0, ME. reflexivity.
  - exact HRD.
  - unfold i1, j1, k1, inw. intros X. injection X. destruct face; cbn [face_axis axis_eqb is_lo]; lia.
Qed.
End MurStep.
