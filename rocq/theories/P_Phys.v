(** Theorems about the physics of the time step: C10 superposition, C11
    quiescence, C12 magnetic charge, C14 perfect conductors. *)
From Coq Require Import ZArith List Bool Lia Reals Lra.
From Verif Require Import Types Lang LangProofs BBox Grid Setup SpecGrid SetupProofs Pml Mur Ghost Step StepShape StepBounds
  StepCount StepOnce SpecCone StepValue SpecPhys Linear P_Setup P_Step.
Import ListNotations.
Open Scope R_scope.
Local Arguments Z.mul : simpl never.
Local Arguments Z.add : simpl never.
Local Arguments Z.sub : simpl never.

(** ** C10. Take two simulations of the same mesh with excitations 1 and 2 and
    a third one whose excitation injects, statement by statement, a*v1+b*v2
    ([sup_prog], SpecPhys.v).  If the third starts from the superposition of
    the two initial states it ends in the superposition of the two final
    states, after any number of steps, whatever the boundaries. *)
Theorem C10_superposition : forall nx ny nz reg c, setupCfg nx ny nz reg = Some c ->
  forall a b (xE1 xE2 xE3 xH1 xH2 xH3 : nat -> list (item R)),
  (forall t, sup_prog a b (flat (xE1 t)) (flat (xE2 t)) (flat (xE3 t))) ->
  (forall t, sup_prog a b (flat (xH1 t)) (flat (xH2 t)) (flat (xH3 t))) ->
  forall n m1 m2 m3, sup_mem a b m1 m2 m3 ->
  sup_mem a b (run rArith (flat (steps c xE1 xH1 0 n)) m1)
              (run rArith (flat (steps c xE2 xH2 0 n)) m2)
              (run rArith (flat (steps c xE3 xH3 0 n)) m3).
Proof. intros. apply sup_run; auto. apply steps_sup; auto. Qed.
(** a hard and a soft source at one point *)
Example C10_nonvacuous :
  let src (v w : R) : list (item R) := [Seq [Asg (L (AF EZ) 2 2 2) (Cst v);
     Asg (L (AF EZ) 3 2 2) (Sub (F EZ 3 2 2) (Mul (BETA EZ 3 2 2) (Cst w)))]] in
  forall a b v1 v2 w1 w2, sup_prog a b (flat (src v1 w1)) (flat (src v2 w2)) (flat (src (a*v1+b*v2) (a*w1+b*w2))).
Proof.
  intros. cbn. constructor; [discriminate|constructor|]. constructor; [discriminate| |constructor].
  constructor; [constructor; discriminate|]. apply sup_mull; [|constructor].
  intros l [<-|[]]; reflexivity.
Qed.

(** ** C11. *)
Theorem C11_quiescent : forall nx ny nz reg c, setupCfg nx ny nz reg = Some c ->
  forall n m, quiet m -> quiet (run rArith (flat (steps c (fun _ => []) (fun _ => []) 0 n)) m).
Proof.
  intros nx ny nz reg c H n m Q l Hl.
  assert (S : sup_mem 0 0 m m m).
  { split; [auto|]. intros l' Hl'. rewrite Q by auto. ring. }
  destruct (C10_superposition nx ny nz reg c H 0 0 (fun _ => []) (fun _ => []) (fun _ => [])
     (fun _ => []) (fun _ => []) (fun _ => []) (fun _ => sp_nil 0 0) (fun _ => sp_nil 0 0) n m m m S) as [_ X].
  rewrite X by auto. ring.
Qed.
Example C11_nonvacuous : exists c, setupCfg 4 5 6 exampleReg = Some c /\
  quiet (fun l => match kind l with None => 1 | Some _ => 0 end) /\
  is_state (L (AP YLO EX) 1 1 1).
Proof.
  eexists. split; [reflexivity|]. split; [|discriminate].
  intros l Hl. unfold is_state in Hl. destruct (kind l); congruence.
Qed.

(** ** C12. The net magnetic flux out of every cell of the mesh keeps its
    initial value for ever, whatever is done to the electric field: any
    boundaries, any sources in E. *)
Section Flux.
Variable c : Cfg.
Hypothesis W : wf c.
Definition mesh_cell (i j k : Z) : Prop :=
  (gibox c XLO <= i < gibox c XHI /\ gibox c YLO <= j < gibox c YHI /\ gibox c ZLO <= k < gibox c ZHI)%Z.
Definition gamma_ok (m : mem R) (i j k : Z) : Prop :=
  gamma m HX i j k <> 0 /\ gamma m HX (i+1) j k <> 0 /\
  gamma m HY i j k <> 0 /\ gamma m HY i (j+1) k <> 0 /\
  gamma m HZ i j k <> 0 /\ gamma m HZ i j (k+1) <> 0.
Definition edge_ok (m : mem R) (i j k : Z) : Prop :=
  de m XDIR i * ide m XDIR i = 1 /\ de m YDIR j * ide m YDIR j = 1 /\ de m ZDIR k * ide m ZDIR k = 1.
Definition onlyE (x : list (item R)) : Prop := forall s, In s (flat x) -> kind (dst s) = Some true.

Lemma flux_step xE m i j k : onlyE xE -> mesh_cell i j k -> gamma_ok m i j k -> edge_ok m i j k ->
  netflux (run rArith (flat (timeStep c xE [])) m) i j k = netflux m i j k.
Proof.
  intros HXE (Hi & Hj & Hk) (G1 & G2 & G3 & G4 & G5 & G6) (D1 & D2 & D3).
  set (m' := run rArith (flat (timeStep c xE [])) m).
  assert (DT : forall l, kind l = None -> m' l = m l) by (intros l K; apply (stepx_data rArith c xE HXE m l K)).
  assert (HH : forall f i j k, is_E f = false -> in_meshH c f i j k ->
      m' (L (AF f) i j k) = m (L (AF f) i j k) + m (L (AGamma f) i j k) * eval rArith m' (cH f i j k)).
  { intros. apply (stepx_meshH rArith c W xE HXE); auto. }
  assert (IN : forall f i' j' k', In (f, (i', j', k')) [(HX,(i,j,k)); (HX,(i+1,j,k)); (HY,(i,j,k)); (HY,(i,j+1,k)); (HZ,(i,j,k)); (HZ,(i,j,k+1))]%Z ->
      in_meshH c f i' j' k').
  { intros f i' j' k' HI. unfold in_meshH, inl, setFieldLimits.
    cbn [In] in HI.
    repeat (destruct HI as [HI|HI]; [injection HI as <- <- <- <-; cbn [fieldIsInBoundary]; lia|]). contradiction. }
  unfold netflux, Bf, fld, de, gamma. fold m'.
  rewrite !(DT (L (ADe _) _ _ _)) by reflexivity.
  rewrite !(DT (L (AGamma _) _ _ _)) by reflexivity.
  rewrite !HH by (first [reflexivity|apply IN; cbn [In]; tauto]).
  unfold cH, cEx, cEy, cEz, curl_Ex, curl_Ey, curl_Ez, F, idex, idey, idez. cbn [eval rArith vadd vsub vmul].
  rewrite !(DT (L (AIde _) _ _ _)) by reflexivity.
  unfold gamma, de, ide in *.
  set (dx := m (L (ADe XDIR) i 0 0)%Z) in *. set (dy := m (L (ADe YDIR) j 0 0)%Z) in *. set (dz := m (L (ADe ZDIR) k 0 0)%Z) in *.
  set (ix := m (L (AIde XDIR) i 0 0)%Z) in *. set (iy := m (L (AIde YDIR) j 0 0)%Z) in *. set (iz := m (L (AIde ZDIR) k 0 0)%Z) in *.
  assert (NX : dx <> 0) by (intros X; rewrite X in D1; lra).
  assert (NY : dy <> 0) by (intros X; rewrite X in D2; lra).
  assert (NZ : dz <> 0) by (intros X; rewrite X in D3; lra).
  assert (IX : ix = / dx) by (field_simplify_eq; lra).
  assert (IY : iy = / dy) by (field_simplify_eq; lra).
  assert (IZ : iz = / dz) by (field_simplify_eq; lra).
  rewrite IX, IY, IZ. field. repeat split; assumption.
Qed.
End Flux.
Theorem C12_flux_conserved : forall nx ny nz reg c, setupCfg nx ny nz reg = Some c ->
  forall (xE : nat -> list (item R)) n i j k m,
  (forall t, onlyE (xE t)) -> mesh_cell c i j k -> gamma_ok m i j k -> edge_ok m i j k ->
  netflux (run rArith (flat (steps c xE (fun _ => []) 0 n)) m) i j k = netflux m i j k.
Proof.
  intros nx ny nz reg c H xE n i j k m HX HC. apply setup_wf in H. revert m. generalize 0%nat at 1.
  induction n; intros t m G D; cbn [steps]; [reflexivity|]. rewrite flat_app, run_app.
  set (m' := run rArith (flat (timeStep c (xE t) [])) m).
  assert (DT : forall l, kind l = None -> m' l = m l) by (intros l K; apply (stepx_data rArith c (xE t) (HX t) m l K)).
  rewrite IHn.
  - apply flux_step; auto.
  - unfold gamma_ok, gamma in *. rewrite !DT by reflexivity. exact G.
  - unfold edge_ok, de, ide in *. rewrite !DT by reflexivity. exact D.
Qed.
(** In particular a field that starts free of magnetic charge stays so; and
    the hypotheses are met, with a source in E, by a cell whose flux is not
    zero. *)
Example C12_nonvacuous : exists c m, setupCfg 4 5 6 exampleReg = Some c /\
  let s := [Seq [Asg (L (AF EZ) 3 3 3) (Cst 2)]] in
  onlyE s /\ mesh_cell c 2 3 3 /\ gamma_ok m 2 3 3 /\ edge_ok m 2 3 3 /\ netflux m 2 3 3 = 1.
Proof.
  eexists. exists (fun l => match arr l with AF HX => if (li l =? 3)%Z then 1 else 0 | _ => 1 end).
  split; [reflexivity|]. cbn zeta. split; [intros s [<-|[]]; reflexivity|].
  split; [unfold mesh_cell; repeat split; vm_compute; congruence|].
  unfold gamma_ok, edge_ok, netflux, Bf, fld, gamma, de, ide. cbv -[Rplus Rminus Rmult Rdiv IZR not]. repeat split; lra.
Qed.

(** ** C14. A tangential E value where the medium is PEC (BETA = 0: initMedia
    gives the PEC medium beta = 0, see C17) which is zero at the start (with its
    PML auxiliary values) is zero for ever, provided it is not on the plane of a
    MUR face and no source is placed on that very point. *)
Theorem C14_pec_stays_zero : forall nx ny nz reg c, setupCfg nx ny nz reg = Some c ->
  forall f i j k, is_E f = true -> inl (gfolim c f) i j k -> off_mur c f i j k ->
  forall (xE xH : nat -> list (item R)),
  (forall t s, In s (flat (xE t)) \/ In s (flat (xH t)) -> exists g i' j' k', dst s = L (AF g) i' j' k' /\
       (g, i', j', k') <> (f, i, j, k)) ->
  forall n m, pecZero c f i j k m ->
  fld (run rArith (flat (steps c xE xH 0 n)) m) f i j k = 0.
Proof.
  intros nx ny nz reg c H f i j k E HO HM xE xH HX n m HZ. apply setup_wf in H.
  cut (pecZero c f i j k (run rArith (flat (steps c xE xH 0 n)) m)); [intros (_ & X & _); exact X|].
  revert m HZ. generalize 0%nat at 1. induction n; intros t m HZ; cbn [steps]; [exact HZ|].
  rewrite flat_app, run_app. apply IHn. apply pec_timeStep; auto.
  intros s Hs D. destruct (HX t s Hs) as (g & i' & j' & k' & DS & NE). unfold pecDep in D. rewrite DS in D.
  destruct D as [D|[D|[r [D|D]]]]; try discriminate D. injection D as -> -> -> ->. congruence.
Qed.
(** the initial state after clearGrid/clearPml: all state zero *)
Lemma quiet_pecZero c f i j k m : quiet m -> m (L (ABeta f) i j k) = 0 -> pecZero c f i j k m.
Proof.
  intros Q B. split; [exact B|]. split; [apply Q; discriminate|]. intros r. cbn zeta. split; apply Q; discriminate.
Qed.
(** A point inside the PML of the example with PEC medium, and a source next to it. *)
Example C14_nonvacuous : exists c m, setupCfg 4 5 6 exampleReg = Some c /\
  inl (gfolim c EX) 2 3 15 /\ off_mur c EX 2 3 15 /\ pecZero c EX 2 3 15 m /\
  outerSurfaceType c ZHI = BT_PML /\ inl (fplim c ZHI EX) 2 3 15.
Proof.
  eexists. exists (fun l => match kind l with None => match arr l with ABeta _ => 0 | _ => 1 end | Some _ => 0 end).
  split; [reflexivity|]. split; [unfold inl; repeat split; vm_compute; congruence|].
  split.
  { intros face T N I. destruct face; vm_compute in T; try discriminate T; unfold inl in I; 
    destruct I as (_ & _ & _ & I); vm_compute in I; exfalso; apply I; reflexivity. }
  split; [apply quiet_pecZero; [intros l Hl; unfold is_state in Hl; destruct (kind l); congruence|reflexivity]|].
  split; [reflexivity|]. unfold inl; repeat split; vm_compute; congruence.
Qed.

Print Assumptions C10_superposition.
Print Assumptions C11_quiescent.
Print Assumptions C12_flux_conserved.
Print Assumptions C14_pec_stays_zero.
