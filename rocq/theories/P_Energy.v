(** C13: energy conservation in a closed lossless cavity. *)
From Coq Require Import ZArith List Bool Lia Reals Lra.
From Verif Require Import Types Lang LangProofs BBox Grid Setup SpecGrid SetupProofs Step StepShape
  SpecCone StepValue SpecPhys SpecEnergy Energy P_Setup P_Step.
Import ListNotations.
Open Scope R_scope.

(** the state after [n] time steps without sources *)
Definition after (c : Cfg) (n : nat) (m : mem R) : mem R :=
  run rArith (flat (steps c (fun _ => []) (fun _ => []) 0 n)) m.
Lemma after_S c n m : after c (S n) m = after c n (run rArith (flat (coreStep c)) m).
Proof.
  unfold after. cbn [steps]. rewrite flat_app, run_app. f_equal. f_equal.
  assert (X : forall t t', steps (V:=R) c (fun _ => []) (fun _ => []) t n = steps c (fun _ => []) (fun _ => []) t' n).
  { induction n; intros; cbn [steps]; [reflexivity|]. f_equal. apply IHn. }
  apply X.
Qed.

(** For every mesh size, spacing, distribution of lossless media and internal
    perfect conductors, every initial field and every number of steps: the
    energy at step n+1 is the energy at step 1, exactly. *)
Theorem C13_energy_conserved : forall nx ny nz reg c, setupCfg nx ny nz reg = Some c ->
  forall m, cavity c m -> forall n,
  energy c (after c n m) (after c (S n) m) = energy c m (after c 1 m).
Proof.
  intros nx ny nz reg c H m CV n. apply setup_wf in H. pose proof (cav_walls c m CV) as P. revert m CV.
  induction n; intros m CV; [reflexivity|].
  rewrite (after_S c n), (after_S c (S n)). rewrite IHn by (apply (cavity_step c H P); exact CV).
  rewrite !after_S. apply (energy_step c H P m CV).
Qed.

(** A 3x3x3 cavity with unequal cells, a conductor inside and a field inside. *)
Definition cavMem : mem R := fun l =>
  let node a := match a with XDIR => li l | YDIR => lj l | ZDIR => lk l end in
  let wall f := existsb (fun a => negb (axis_eqb a (fld_axis f)) && ((node a =? 1) || (node a =? 4))%Z) axes in
  match arr l with
  | AF f => if is_E f then if wall f then 0 else if fld_eqb f EX && (lj l =? 2)%Z && (lk l =? 2)%Z then 0 else 1 else 1
  | ABeta f => if wall f then 0 else if fld_eqb f EX && (lj l =? 2)%Z && (lk l =? 2)%Z then 0 else 2
  | ADe XDIR => if (li l =? 2)%Z then 2 else 1
  | AIde XDIR => if (li l =? 2)%Z then / 2 else 1
  | _ => 1
  end.
Definition cavCfg : Cfg :=
  match setupCfg 3 3 3 pecReg with Some c => c | None => murCfg end.
Lemma eqb_lit x n : (x =? n)%Z = true -> x = n. Proof. apply Z.eqb_eq. Qed.
Example C13_nonvacuous : exists c, setupCfg 3 3 3 pecReg = Some c /\ cavity c cavMem /\
  fld cavMem EZ 2 3 2 = 1 /\ ~ on_wall c EZ 2 3 2 /\ beta cavMem EX 1 2 2 = 0.
Proof.
  exists cavCfg. split; [reflexivity|].
  assert (G : forall f, gobox cavCfg f = (match f with XLO | YLO | ZLO => 1 | _ => 4 end)%Z) by (intros []; vm_compute; reflexivity).
  split; [|split; [reflexivity|split; [|reflexivity]]].
  - constructor.
    + intros []; vm_compute; reflexivity.
    + intros f i j k E _. unfold alpha, beta, fld, cavMem. cbn [arr li lj lk].
      destruct (existsb _ axes) eqn:EW.
      { right. destruct f; try discriminate E; split; reflexivity. }
      destruct (fld_eqb f EX && (j =? 2)%Z && (k =? 2)%Z) eqn:EC.
      { right. destruct f; try discriminate E; split; reflexivity. }
      left. split; [reflexivity|]. split; [lra|]. intros O. unfold on_wall in O. rewrite !G in O.
      destruct f; try discriminate E; cbn [existsb axes axis_eqb fld_axis negb andb] in EW;
      repeat (apply orb_false_iff in EW; destruct EW as [? EW]);
      repeat match goal with H : (_ || _)%bool = false |- _ => apply orb_false_iff in H; destruct H end;
      repeat match goal with H : (_ =? _)%Z = false |- _ => apply Z.eqb_neq in H end;
      cbn [fld_axis] in O; (destruct O as [[N O]|[[N O]|[N O]]]; [try congruence|try congruence|try congruence]); lia.
    + intros f i j k E _. unfold gamma, cavMem. cbn [arr]. lra.
    + intros a n _. unfold de, ide, cavMem. cbn [arr li]. destruct a; [destruct (n =? 2)%Z; lra|lra|lra].
    + intros a n _. unfold dh, idh, cavMem. cbn [arr li]. lra.
  - intros O. unfold on_wall in O. rewrite !G in O. cbn [fld_axis] in O. destruct O as [[N O]|[[N O]|[N O]]]; try congruence; lia.
Qed.
Print Assumptions C13_energy_conserved.
