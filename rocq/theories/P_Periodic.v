(** C16: periodic boundaries. *)
From Coq Require Import ZArith List Bool Lia.
From Verif Require Import Types Lang LangProofs BBox Grid Setup SpecGrid SetupProofs Pml Mur Ghost Step StepShape StepBounds
  SpecCone StepValue GhostValue StepClosed PmlValue SpecWalls SpecPeriodic Periodic PeriodicAll P_Setup P_Step.
Import ListNotations.
Open Scope Z_scope.
Local Arguments Z.mul : simpl never.
Local Arguments Z.add : simpl never.
Local Arguments Z.sub : simpl never.

(** ** C16.  A mesh that set-up accepts, with a periodic axis [a] and any
    boundary - PEC, PMC, PML, MUR, periodic - on the other four faces; any
    arithmetic; any sources, at each step, that do not drive the two periodic
    faces themselves.  If the media, PML coefficients and cell size, and the
    fields, agree on the two faces at the start then after every number of time
    steps the tangential E and the normal H of the two faces are exactly equal. *)
Theorem C16_periodic_faces_equal : forall nx ny nz reg c, setupCfg nx ny nz reg = Some c ->
  forall a, outerSurfaceType c (face_lo a) = BT_PERIODIC ->
  forall V (A : Arith V) (xE xH : nat -> list (item V)),
  (forall t, off_faces c a true (xE t) /\ off_faces c a false (xH t)) ->
  forall m, per_data c a m -> per_state A c a m ->
  forall n, faces_agree c a (run A (flat (steps c xE xH 0 n)) m).
Proof.
  intros nx ny nz reg c H a P V A xE xH X m PD PS n. apply setup_wf in H.
  assert (P2 : outerSurfaceType c (face_hi a) = BT_PERIODIC).
  { pose proof (wf_periodic c H _ P) as Q. destruct a; exact Q. }
  cut (per_state A c a (run A (flat (steps c xE xH 0 n)) m)); [apply ps_F|].
  revert m PD PS. generalize 0%nat at 1. induction n; intros t m PD PS; cbn [steps]; [exact PS|].
  rewrite flat_app, run_app. destruct (X t) as [X1 X2].
  destruct (per_step_all A c H a P P2 (xE t) (xH t) X1 X2 (off_only _ _ _ _ X1) (off_only _ _ _ _ X2) m PD PS) as [PD' PS']. apply IHn; auto.
Qed.
(** In particular, a run started from rest. *)
Theorem C16_from_rest : forall nx ny nz reg c, setupCfg nx ny nz reg = Some c ->
  forall a, outerSurfaceType c (face_lo a) = BT_PERIODIC ->
  forall V (A : Arith V) (xE xH : nat -> list (item V)),
  (forall t, off_faces c a true (xE t) /\ off_faces c a false (xH t)) ->
  forall z m, vneg A z = z -> at_rest z m -> per_data c a m ->
  forall n, let m' := run A (flat (steps c xE xH 0 n)) m in
  (forall b i j k, b <> a -> inl (gfolim c (Efld b)) i j k ->
     at_plane m' (Efld b) a (gobox c (face_lo a)) i j k = at_plane m' (Efld b) a (gobox c (face_hi a)) i j k) /\
  (forall i j k, inl (gfolim c (Hfld a)) i j k ->
     at_plane m' (Hfld a) a (gobox c (face_lo a)) i j k = at_plane m' (Hfld a) a (gobox c (face_hi a)) i j k).
Proof.
  intros nx ny nz reg c H a P V A xE xH X z m NZ Z0 PD n m'. pose proof (setup_wf _ _ _ _ _ H) as W.
  assert (F0 : forall f i j k, m (L (AF f) i j k) = z) by (intros; apply (Z0 (L (AF f) i j k))).
  assert (PS : per_state A c a m).
  { constructor.
    - intros f l _ _. unfold on, wa. rewrite !F0. reflexivity.
    - intros Y r f l HY _ _ _. assert (Q : forall r f i j k, m (L (Y r f) i j k) = z) by (intros r' f' i' j' k'; pose proof (Z0 (L (Y r' f') i' j' k')) as Q; destruct HY as [[-> _]|[[-> _]|[-> _]]]; exact Q).
      unfold aux_on. rewrite !Q. reflexivity.
    - intros F l _ _ _ _. unfold on, wa. rewrite !F0. reflexivity.
    - intros F AC l (f & Ef & _) _. assert (Q : forall a' n', m (setc a' n' l) = z).
      { intros a' n'. pose proof (Z0 (setc a' n' l)) as Q. rewrite arr_setc, Ef in Q. exact Q. }
      rewrite !Q. unfold sgn. destruct (outerSurfaceType c F); auto. }
  pose proof (C16_periodic_faces_equal _ _ _ _ _ H a P V A xE xH X m PD PS n) as FA. fold m' in FA.
  assert (S : forall f i j k, in_face a f -> inl (gfolim c f) i j k -> sample c a f (L (AF f) i j k)).
  { intros f i j k IF I. unfold sample, inp. pose proof (hi_gt c W a). revert I. unfold inl, gfolim, setFieldLimits.
    destruct a; cbn [setc li lj lk face_lo face_hi] in *; destruct (fieldIsInBoundary f _); try lia;
    repeat match goal with |- context [if ?b then _ else _] => destruct b end; lia. }
  split.
  - intros b i j k NB I. pose proof (FA (Efld b) (L (AF (Efld b)) i j k) (in_face_E a b NB) (S _ _ _ _ (in_face_E a b NB) I)) as Q.
    unfold on, at_plane in *. rewrite !wa_setc in Q. exact Q.
  - intros i j k I. assert (IF : in_face a (Hfld a)) by (destruct a; reflexivity).
    pose proof (FA (Hfld a) (L (AF (Hfld a)) i j k) IF (S _ _ _ _ IF I)) as Q.
    unfold on, at_plane in *. rewrite !wa_setc in Q. exact Q.
Qed.
(** periodic in x, PML on the y faces, MUR on the z faces, and a source *)
Definition perReg2 : BReg := initBoundaryReg ++
  map (fun f => mkItem (FACE f) (match f with XLO | XHI => mkB BT_PERIODIC 0 | YLO | YHI => mkB BT_PML 2 | _ => mkB BT_MUR 0 end)) faces.
Definition perSrc : list (item Z) := [Seq [Asg (L (AF EZ) 2 5 2) (Cst 7)]].
Definition perMem : mem Z := fun l => match arr l with AF f => if is_E f then lj l * lj l * lk l else 0 | _ => 1 end.
Example C16_nonvacuous : exists c, setupCfg 3 3 3 perReg2 = Some c /\ outerSurfaceType c XLO = BT_PERIODIC /\
  outerSurfaceType c YLO = BT_PML /\ outerSurfaceType c ZHI = BT_MUR /\
  off_faces c XDIR true perSrc /\ off_faces (V:=Z) c XDIR false [] /\ per_data c XDIR perMem /\ per_state zArith c XDIR perMem /\
  at_plane (run zArith (flat (Step.timeStep c perSrc [])) perMem) HX XDIR (gobox c XLO) 1 4 2 <> 0 /\
  at_rest 0 (fun l => match arr l with AF _ | APP _ _ | AP _ _ | AB _ _ => 0 | _ => 1 end).
Proof.
  eexists. split; [reflexivity|]. do 3 (split; [reflexivity|]).
  split. { intros s [<-|[]]. exists EZ, 2, 5, 2. split; [reflexivity|]. split; [reflexivity|]. split; [vm_compute; intuition congruence|]. intros _. vm_compute. split; congruence. }
  split; [intros s []|].
  split; [constructor; try reflexivity; intros X f l [->|[->| ->]] _ _; reflexivity|].
  split. { constructor.
  - intros f l IF _. destruct (in_face_cases XDIR f IF) as [(b & NB & ->)| ->]; [destruct b; try congruence|]; reflexivity.
  - intros X r f l HX _ _ _. destruct HX as [[-> _]|[[-> _]|[-> _]]]; reflexivity.
  - intros F l _ _ _ _. reflexivity.
  - intros F HA l (f & Ef & E & _) _. unfold perMem.
    assert (X : forall n, arr (setc (face_axis F) n l) = AF f) by (intros; rewrite arr_setc; exact Ef).
    rewrite !X, E. destruct (outerSurfaceType _ F); reflexivity. }
  split; [vm_compute; congruence|]. intros l. cbn. destruct (arr l); auto.
Qed.
Print Assumptions C16_periodic_faces_equal.
Print Assumptions C16_from_rest.
