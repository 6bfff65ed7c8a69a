(** Values after a time step when no face is PML or MUR, in coordinate-free
    form. *)
From Coq Require Import ZArith List Bool Lia.
From Verif Require Import Types Lang LangProofs BBox Grid SpecGrid Pml Mur Ghost Step StepShape StepBounds StepCount StepOnce
  SpecCone StepValue GhostValue.
Import ListNotations.
Open Scope Z_scope.
Local Arguments Z.mul : simpl never.
Local Arguments Z.add : simpl never.
Local Arguments Z.sub : simpl never.

(** cyclic successor of an axis *)
Definition nx (a : Axis) : Axis := match a with XDIR => YDIR | YDIR => ZDIR | ZDIR => XDIR end.
Definition Hfld (a : Axis) : Fld := match a with XDIR => HX | YDIR => HY | ZDIR => HZ end.
Definition wa (x : Arr) (l : Loc) : Loc := L x (li l) (lj l) (lk l).
Definition inp (lim : BBox) (l : Loc) : Prop := inl lim (li l) (lj l) (lk l).
Definition dec (a : Axis) (l : Loc) : Loc := setc a (coord a l - 1) l.
Definition inc (a : Axis) (l : Loc) : Loc := setc a (coord a l + 1) l.

Section SC.
Context {V : Type} (A : Arith V).
Definition curlH (m : mem V) (a : Axis) (l : Loc) : V :=
  let b := nx a in let d := nx b in
  vadd A (vmul A (m (L (AIdh b) (coord b l) 0 0)) (vsub A (m (wa (AF (Hfld d)) l)) (m (wa (AF (Hfld d)) (dec b l)))))
         (vmul A (m (L (AIdh d) (coord d l) 0 0)) (vsub A (m (wa (AF (Hfld b)) (dec d l))) (m (wa (AF (Hfld b)) l)))).
Definition curlE (m : mem V) (a : Axis) (l : Loc) : V :=
  let b := nx a in let d := nx b in
  vadd A (vmul A (m (L (AIde d) (coord d l) 0 0)) (vsub A (m (wa (AF (Efld b)) (inc d l))) (m (wa (AF (Efld b)) l))))
         (vmul A (m (L (AIde b) (coord b l) 0 0)) (vsub A (m (wa (AF (Efld d)) l)) (m (wa (AF (Efld d)) (inc b l))))).
Lemma eval_cH m a l : eval A m (cH (Efld a) (li l) (lj l) (lk l)) = curlH m a l.
Proof. destruct a; reflexivity. Qed.
Lemma eval_cE m a l : eval A m (cH (Hfld a) (li l) (lj l) (lk l)) = curlE m a l.
Proof. destruct a; reflexivity. Qed.

Variable c : Cfg.
Hypothesis W : wf c.
Hypothesis NL : forall F, active (outerSurfaceType c F) = true.

Lemma closed_gibox f : gibox c f = gobox c f.
Proof.
  assert (X : forall g, outerSurfaceNumLayers c g = 0).
  { intros g; apply (wf_nopml c W). intros E. specialize (NL g). rewrite E in NL. discriminate. }
  destruct f; unfold gobox, gibox; rewrite ?X; unfold NUM_GHOST_CELLS; lia.
Qed.
Lemma closed_inl f i j k : inl (gfolim c f) i j k -> inl (gfilim c f) i j k.
Proof.
  assert (X : forall g, btype_eqb (outerSurfaceType c g) BT_MUR = false).
  { intros g. specialize (NL g). destruct (outerSurfaceType c g); reflexivity || discriminate. }
  unfold inl, gfilim, gfolim, setFieldLimits, includeInnerBoundary. rewrite !X, !closed_gibox. auto.
Qed.
Lemma closed_meshH f i j k : inl (gfolim c f) i j k -> in_meshH c f i j k.
Proof. unfold in_meshH, inl, gfolim, setFieldLimits. rewrite !closed_gibox. auto. Qed.

Notation stp := (step A c).
Lemma stc_E m a l : inp (gfolim c (Efld a)) l ->
  stp m (wa (AF (Efld a)) l) = vadd A (vmul A (m (wa (AAlpha (Efld a)) l)) (m (wa (AF (Efld a)) l)))
                                      (vmul A (m (wa (ABeta (Efld a)) l)) (curlH m a l)).
Proof.
  intros H. unfold wa. rewrite (step_gridE A c W) by (apply Efld_isE || apply closed_inl; exact H).
  unfold updStmt. rewrite Efld_isE. cbn [rhs eval ALPHA BETA F]. rewrite eval_cH. reflexivity.
Qed.
Lemma stc_H m a l : inp (gfolim c (Hfld a)) l ->
  stp m (wa (AF (Hfld a)) l) = vadd A (m (wa (AF (Hfld a)) l)) (vmul A (m (wa (AGamma (Hfld a)) l)) (curlE (stp m) a l)).
Proof.
  intros H. unfold wa. unfold step, coreStep.
  change (run A (flat (timeStep c [] [])) m) with (stepx A c [] m).
  rewrite (stepx_meshH A c W [] (fun s (Hs : In s (flat [])) => match Hs with end))
    by (first [destruct a; reflexivity|apply closed_meshH; exact H]).
  rewrite eval_cE. reflexivity.
Qed.
Lemma stc_data m l : kind l = None -> stp m l = m l.
Proof. apply step_data. Qed.
Lemma stc_rel m F : rel A c false F (stp m).
Proof.
  unfold step, coreStep, timeStep. cbn [app]. rewrite !flat_app, !run_app. apply rel_ghostH. exact W.
Qed.
End SC.
