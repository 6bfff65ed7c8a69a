(** C57: away from the absorbing layers a time step is Yee's scheme. *)
From Coq Require Import ZArith List Bool Reals Lra Lia.
From Verif Require Import Types Lang LangProofs BBox Grid Setup SpecGeom SpecGrid BBoxProofs SetupProofs Pml Mur Ghost Step
  StepShape StepBounds StepCount StepOnce SpecCone StepValue SpecPhys PmlValue SpecYee P_Setup P_Step.
Import ListNotations.
Open Scope R_scope.
Local Arguments Z.mul : simpl never.
Local Arguments Z.add : simpl never.
Local Arguments Z.sub : simpl never.

Lemma drive_eval m f i j k : eval rArith m (cH f i j k) = drive m f (mkPt i j k).
Proof.
  assert (Q : forall x : Z, (x + -1 = x - 1)%Z) by (intros; lia).
  destruct f; unfold drive, cH, cHx, cHy, cHz, cEx, cEy, cEz, curl_Hx, curl_Hy, curl_Hz, curl_Ex, curl_Ey, curl_Ez, F,
    idhx, idhy, idhz, idex, idey, idez; cbn [eval is_E fld_axis]; unfold curlH, curlE, val, fld, idh, ide;
  cbn [succA Halong Ealong move crd ptx pty ptz]; cbn [rArith vadd vsub vmul]; rewrite ?Q; ring.
Qed.

(** Sources: statement lists that write electric (E phase), magnetic (H phase)
    quantities only. *)
Definition E_source (x : list (item R)) : Prop := forall s, In s (flat x) -> kind (dst s) = Some true.
Definition H_source (x : list (item R)) : Prop := forall s, In s (flat x) -> kind (dst s) = Some false.
Definition untouched (x : list (item R)) (l : Loc) : Prop := forall s, In s (flat x) -> dst s <> l.
Lemma untouched_writes x l : untouched x l -> writes l (flat x) = 0%nat.
Proof. intros H. apply flat_zero. exact H. Qed.

(** For every mesh, every boundary assignment, every state [m] and all sources
    that leave the component alone, one step takes a component of E lying in
    the mesh box and not on a MUR face to alpha E + beta curl H, and a
    component of H lying in the mesh box to H - gamma curl E', with E' the
    electric field after the step.  With the coefficients of C24 these are
    Ampere's and Faraday's laws. *)
Theorem C57_yee_update : forall nx ny nz reg c, setupCfg nx ny nz reg = Some c ->
  forall (xE xH : list (item R)), E_source xE -> H_source xH ->
  forall m f i j k, let m' := run rArith (flat (timeStep c xE xH)) m in let p := mkPt i j k in
  (is_E f = true -> yee_in f (gibox c) (fun face => negb (btype_eqb (outerSurfaceType c face) BT_MUR)) i j k ->
   untouched xE (L (AF f) i j k) ->
   val m' f p = alpha m f i j k * val m f p + beta m f i j k * curlH m (fld_axis f) p) /\
  (is_E f = false -> yee_in f (gibox c) (fun _ => true) i j k -> untouched xH (L (AF f) i j k) ->
   val m' f p = val m f p - gamma m f i j k * curlE m' (fld_axis f) p).
Proof.
  intros nx ny nz reg c H xE xH OE OH m f i j k. apply setup_wf in H. cbv zeta. split; intros E Y U.
  - pose proof (grid_E_step rArith c H xE xH OH m f i j k E) as S.
    unfold val, fld. cbn [ptx pty ptz]. unfold stepxx in S. rewrite S.
    + rewrite drive_eval. unfold drive. rewrite E. reflexivity.
    + apply setFieldLimits_spec in Y. exact Y.
    + apply untouched_writes; auto.
  - pose proof (mesh_H_step rArith c H xE xH OE OH m f i j k E) as S.
    unfold val, fld. cbn [ptx pty ptz]. unfold stepxx in S. rewrite S.
    + rewrite drive_eval. unfold drive, gamma. rewrite E. cbn [rArith vadd vmul]. ring.
    + apply setFieldLimits_spec in Y. exact Y.
    + apply untouched_writes; auto.
Qed.
(** a mesh with periodic, PEC, PML and MUR faces, a point on the interface with the PML *)
Example C57_nonvacuous : exists c, setupCfg 4 5 6 exampleReg = Some c /\
  (exists i j k, yee_in EY (gibox c) (fun face => negb (btype_eqb (outerSurfaceType c face) BT_MUR)) i j k) /\
  E_source [Seq [Asg (L (AF EZ) 2 2 2) (Cst 1)]] /\ untouched [Seq [Asg (L (AF EZ) 2 2 2) (Cst 1)]] (L (AF EY) 2 2 2).
Proof.
  eexists. split; [reflexivity|]. split; [|split].
  - exists 2%Z, 2%Z, 7%Z. intros a. destruct a; vm_compute; repeat split; congruence.
  - intros s [<-|[]]. reflexivity.
  - intros s [<-|[]]. discriminate.
Qed.
