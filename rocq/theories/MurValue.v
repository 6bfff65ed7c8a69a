(** What a time step computes on MUR faces (any arithmetic). *)
From Coq Require Import ZArith List Bool Lia.
From Verif Require Import Types Lang LangProofs BBox Grid Pml Mur Ghost Step SpecGrid
  StepShape StepBounds StepCount StepOnce SpecCone StepValue PmlValue.
Import ListNotations.
Open Scope Z_scope.
Local Arguments Z.mul : simpl never.
Local Arguments Z.add : simpl never.
Local Arguments Z.sub : simpl never.

Section Split.
Context {V : Type}.
Definition murAt (face : Face) (f : Fld) (i j k : Z) : list (stmt V) :=
  let i1 := i + inw face XDIR in let j1 := j + inw face YDIR in let k1 := k + inw face ZDIR in
  murBody face f (cH f i1 j1 k1) i1 j1 k1 i j k.

Lemma split_par2 lo1 hi1 lo2 hi2 (g : Z -> Z -> list (stmt V)) x y : lo1 <= x <= hi1 -> lo2 <= y <= hi2 ->
  exists p q, flat_item (par_for lo1 hi1 (fun x => for_ lo2 hi2 (fun y => g x y))) = p ++ g x y ++ q.
Proof.
  intros Hx Hy. unfold par_for. cbn [flat_item]. rewrite <- flat_map_concat_map.
  destruct (split_flat_map (fun x => for_ lo2 hi2 (fun y => g x y)) (zrange lo1 hi1) x) as (p1 & q1 & E1); [apply in_zrange; auto|].
  destruct (split_flat_map (fun y => g x y) (zrange lo2 hi2) y) as (p2 & q2 & E2); [apply in_zrange; auto|].
  rewrite E1. unfold for_ at 1. rewrite E2. exists (p1 ++ p2), (q2 ++ q1). rewrite <- !app_assoc. reflexivity.
Qed.

Lemma split_murE c face f i j k : is_E f = true -> outerSurfaceType c face = BT_MUR -> fld_axis f <> face_axis face ->
  inl (fmlim c face f) i j k ->
  exists p q, flat (updateMurEfield (V:=V) c) = p ++ murAt face f i j k ++ q.
Proof.
  intros E T N I.
  assert (O : fmlim c face f (face_lo (face_axis face)) = gibox c face /\ fmlim c face f (face_hi (face_axis face)) = gibox c face).
  { apply fmlim_own. destruct face, f; try discriminate E; try reflexivity; exfalso; apply N; reflexivity. }
  assert (K : exists it, In it (updateMurEface (V:=V) c face) /\ exists p q, flat_item it = p ++ murAt face f i j k ++ q).
  { unfold updateMurEface. rewrite T. cbn [btype_eqb]. destruct I as (I1 & I2 & I3). unfold murAt.
    destruct face, f; try discriminate E; try (exfalso; apply N; reflexivity); destruct O as (O1 & O2);
    cbn [face_axis face_lo face_hi inw axis_eqb is_lo cH] in *;
    rewrite ?Z.add_0_r; unfold murEX_, murEY_, murEZ_; cbv zeta;
    first
      [ solve [eexists; split; [left; reflexivity|];
        match goal with |- context [murBody ?F ?f _ _ _ _ (fmlim c ?F ?f ?F) _ _] => replace (fmlim c F f F) with i by lia
          | |- context [murBody ?F ?f _ _ _ _ _ (fmlim c ?F ?f ?F) _] => replace (fmlim c F f F) with j by lia
          | |- context [murBody ?F ?f _ _ _ _ _ _ (fmlim c ?F ?f ?F)] => replace (fmlim c F f F) with k by lia end;
        match goal with |- exists p q, flat_item (par_for ?a ?b (fun x => for_ ?u ?v (fun y => @?g x y))) = _ =>
          first [apply (split_par2 a b u v g j k); lia|apply (split_par2 a b u v g i k); lia|apply (split_par2 a b u v g i j); lia] end]
      | solve [eexists; split; [right; left; reflexivity|];
        match goal with |- context [murBody ?F ?f _ _ _ _ (fmlim c ?F ?f ?F) _ _] => replace (fmlim c F f F) with i by lia
          | |- context [murBody ?F ?f _ _ _ _ _ (fmlim c ?F ?f ?F) _] => replace (fmlim c F f F) with j by lia
          | |- context [murBody ?F ?f _ _ _ _ _ _ (fmlim c ?F ?f ?F)] => replace (fmlim c F f F) with k by lia end;
        match goal with |- exists p q, flat_item (par_for ?a ?b (fun x => for_ ?u ?v (fun y => @?g x y))) = _ =>
          first [apply (split_par2 a b u v g j k); lia|apply (split_par2 a b u v g i k); lia|apply (split_par2 a b u v g i j); lia] end] ]. }
  destruct K as (it & K1 & p & q & K2).
  assert (K3 : In it (updateMurEfield (V:=V) c)) by (unfold updateMurEfield; apply in_flat_map; exists face; split; [apply in_faces|exact K1]).
  destruct (split_flat _ _ K3) as (a & b & ->). eapply split_trans; eauto.
Qed.
End Split.

Section MurStep.
Context {V : Type} (A : Arith V).
Variables (c : Cfg) (W : wf c) (xE xH : list (item V)).
Hypothesis onlyE : forall s, In s (flat xE) -> kind (dst s) = Some true.
Hypothesis onlyH : forall s, In s (flat xH) -> kind (dst s) = Some false.
Let step' := stepxx A c xE xH.

Definition zetaLoc (face : Face) : Loc :=
  L AZeta (match face with XLO => 0 | XHI => 1 | YLO => 2 | YHI => 3 | ZLO => 4 | ZHI => 5 end) 0 0.

Lemma mur_body_run (m : mem V) face f curl i1 j1 k1 i j k :
  (forall l, In l (reads curl) -> kind l <> Some true) -> (i1, j1, k1) <> (i, j, k) ->
  run A (murBody face f curl i1 j1 k1 i j k) m (L (AF f) i j k) =
  vadd A (m (L (AF f) i1 j1 k1)) (vmul A (m (zetaLoc face))
    (vsub A (vadd A (vmul A (m (L (AAlpha f) i1 j1 k1)) (m (L (AF f) i1 j1 k1))) (vmul A (m (L (ABeta f) i1 j1 k1)) (eval A m curl)))
            (m (L (AF f) i j k)))).
Proof.
  intros HR NE. unfold murBody. rewrite !run_cons, run_nil. unfold run1. cbn [dst rhs eval zeta F ALPHA BETA].
  rewrite upd_same. rewrite upd_same. rewrite !upd_other by discriminate. unfold zetaLoc. reflexivity.
Qed.

Lemma mur_pt c' face f i j k : wf c' -> is_E f = true -> fld_axis f <> face_axis face -> inl (fmlim c' face f) i j k ->
  outerSurfaceType c' face = BT_MUR -> 2 <= gibox c' (face_hi (face_axis face)) - gibox c' (face_lo (face_axis face)) ->
  inl (gfolim c' f) i j k /\ inl (gfilim c' f) (i + inw face XDIR) (j + inw face YDIR) (k + inw face ZDIR).
Proof.
  intros W' E N I T W2. cfg_facts c' W'. revert I. unfold inl, fmlim, gfolim, gfilim, setFieldLimits, murInclude, murbox, includeInnerBoundary.
  destruct face, f; try discriminate E; try (exfalso; apply N; reflexivity);
  cbn [fieldIsInBoundary getFaceOfBoundingBox face_axis axis_eqb negb andb is_lo inw face_lo face_hi] in *; rewrite ?Z.add_0_r, ?T; cbn [btype_eqb negb];
  repeat match goal with |- context [btype_eqb ?x BT_MUR] => destruct (btype_eqb x BT_MUR) end; cbn [negb]; cbn [mkbox]; lia.
Qed.
Lemma mur_E_step face f i j k m : is_E f = true -> outerSurfaceType c face = BT_MUR -> fld_axis f <> face_axis face ->
  2 <= gibox c (face_hi (face_axis face)) - gibox c (face_lo (face_axis face)) ->
  inl (fmlim c face f) i j k -> writes (L (AF f) i j k) (flat xE) = 0%nat ->
  let i1 := i + inw face XDIR in let j1 := j + inw face YDIR in let k1 := k + inw face ZDIR in
  step' m (L (AF f) i j k) =
  vadd A (m (L (AF f) i1 j1 k1)) (vmul A (m (zetaLoc face))
    (vsub A (vadd A (vmul A (m (L (AAlpha f) i1 j1 k1)) (m (L (AF f) i1 j1 k1))) (vmul A (m (L (ABeta f) i1 j1 k1)) (eval A m (cH f i1 j1 k1))))
            (m (L (AF f) i j k)))).
Proof.
  intros E T N W2 I Q. cbv zeta. set (i1 := i + _). set (j1 := j + _). set (k1 := k + _).
  destruct (mur_pt c face f i j k W E N I T W2) as (HO & HG). fold i1 j1 k1 in HG.
  destruct (split_murE (V:=V) c face f i j k E T N I) as (p & q & S).
  assert (S' : flat (phaseE (V:=V) c) = (flat (updatePmlEfield c) ++ p) ++ murAt face f i j k ++ (q ++ flat (updateGridEfield c))).
  { unfold phaseE. rewrite !flat_app, S. rewrite <- !app_assoc. reflexivity. }
  set (P := flat (updatePmlEfield c) ++ p) in *.
  assert (B1 : writes (L (AF f) i j k) (murAt (V:=V) face f i j k) = 1%nat).
  { unfold murAt, murBody. rewrite !writes_cons, writes_nil. cbn [dst]. rewrite loc_dec_ne by discriminate. rewrite loc_dec_eq. reflexivity. }
  assert (WF : writes (L (AF f) i j k) (flat (phaseE (V:=V) c)) = 1%nat).
  { rewrite writes_phaseE, cover_value by auto. destruct (mur_edge c f i j k) eqn:M; [|reflexivity]. exfalso.
    pose proof (writes_phaseE (V:=V) c f i j k E) as X. rewrite cover_value, M in X by auto.
    rewrite S', !writes_app, B1 in X. lia. }
  assert (WG : writes (L (AF f) i1 j1 k1) P = 0%nat).
  { pose proof (grid_lim_outer c f i1 j1 k1 W HG) as HO1.
    pose proof (writes_phaseE (V:=V) c f i1 j1 k1 E) as X. rewrite cover_value in X by auto.
    rewrite S', !writes_app in X. rewrite count_gridE in X by auto.
    assert (Y : inlb (gfilim c f) i1 j1 k1 = true) by (apply inlb_iff; auto). rewrite Y in X.
    cbn [b2n] in X. destruct (mur_edge c f i1 j1 k1); lia. }
  pose proof WF as WF'. rewrite S' in WF'. destruct (block_writes _ _ _ _ WF' B1) as (P1 & P2).
  unfold step'. rewrite stepxx_E by (auto; cbn; congruence). unfold midE.
  rewrite (writes_0_frame A (flat (updateGhostEfield c))) by (apply ghostE_inside; auto).
  rewrite (writes_0_frame A (flat xE)) by assumption.
  set (q' := q ++ flat (updateGridEfield c)) in *.
  rewrite S', !run_app. rewrite (writes_0_frame A q') by assumption.
  set (mp := run A P m).
  assert (M : forall l, kind l <> Some true -> mp l = m l).
  { intros l K. apply writes_0_frame. pose proof (phaseE_other (V:=V) c l K) as X. rewrite S', !writes_app in X. lia. }
  assert (HRD : forall l, In l (reads (cH (V:=V) f i1 j1 k1)) -> kind l <> Some true).
  { intros l Hl. eapply (pml_E_reads f i1 j1 k1); eauto. left; reflexivity. }
  unfold murAt. fold i1 j1 k1. rewrite mur_body_run.
  - rewrite !(M (zetaLoc _)), !(M (L (AAlpha _) _ _ _)), !(M (L (ABeta _) _ _ _)) by discriminate.
    assert (M1 : mp (L (AF f) i1 j1 k1) = m (L (AF f) i1 j1 k1)) by (apply writes_0_frame; auto).
    assert (M0 : mp (L (AF f) i j k) = m (L (AF f) i j k)) by (apply writes_0_frame; auto).
    assert (ME : eval A mp (cH f i1 j1 k1) = eval A m (cH f i1 j1 k1)) by (apply eval_ext; intros l Hl; apply M; auto).
    rewrite M1, M0, ME. reflexivity.
  - exact HRD.
  - unfold i1, j1, k1, inw. intros X. injection X. destruct face; cbn [face_axis axis_eqb is_lo]; lia.
Qed.
End MurStep.
