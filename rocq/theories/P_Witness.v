(** Concrete instances of the hypotheses of theorems that had none beside them:
    C05, C24, C27 (one-step equations, injection, superposition), C38, C43, C46,
    C51, C55. *)
From Coq Require Import ZArith List Bool Ascii String Reals Lia Lra.
From Verif Require Import Types Lang LangProofs BBox Grid Setup SpecGrid SpecGeom SetupProofs CArr Edges SpecEdges StepBounds EdgesProofs P_Setup P_Grid
  Waveform SpecWave P_Waveform PmlProfile Medium Filter Sibc SpecSibc P_Sibc Step StepShape StepOnce StepCount P_Step P_Positive Observer P_Observer.
From Verif Require Import PlaneWave SpecPhys SpecYee SpecPw PwProofs PwGlobal P_PlaneWave P_PwAxis.
Import ListNotations.
Local Open Scope list_scope.
Open Scope R_scope.

(** C05: 4 x 5 x 6 cells, absorbing layers on every side. *)
Example C05_nonvacuous : exists c, setupCfg 4 5 6 initBoundaryReg = Some c /\ numCells c XDIR = 18%Z /\ gobox c XHI = 17%Z /\ gibox c XLO = 7%Z /\ gibox c XHI = 11%Z.
Proof. eexists. split; [reflexivity|]. vm_compute. repeat split. Qed.
(** C24 *)
Example C24_nonvacuous : let w ty := mkWf "w" ty 2 3 4 5 in
  (wType (w GAUSSIAN_PULSE) = GAUSSIAN_PULSE /\ 0 < wWidth (w GAUSSIAN_PULSE) /\ 0 <= wSize (w GAUSSIAN_PULSE) /\ getWaveformValue (w GAUSSIAN_PULSE) 4 1 = Some 2) /\
  (wType (w COMPACT_PULSE) = COMPACT_PULSE /\ 0 < wWidth (w COMPACT_PULSE) /\ 0 <= wSize (w COMPACT_PULSE) /\ valueOf (w COMPACT_PULSE) 1 8 = 2).
Proof.
  cbv zeta. split; (split; [reflexivity|]; split; [cbn; lra|]; split; [cbn; lra|]).
  - destruct (C24_gaussian (mkWf "w" GAUSSIAN_PULSE 2 3 4 5) 1 (or_introl eq_refl) ltac:(cbn; lra) ltac:(cbn; lra)) as (E & _). rewrite E. cbn [wSize wDelay wWidth].
    replace (- (4 - (1 + 3)) ^ 2 / (2 * 4 ^ 2)) with 0 by field. rewrite exp_0. f_equal. ring.
  - destruct (C24_compact (mkWf "w" COMPACT_PULSE 2 3 4 5) 1 eq_refl ltac:(cbn; lra) ltac:(cbn; lra)) as (_ & _ & _ & E & _). cbn [wSize wDelay wWidth] in E.
    replace 8 with (1 + 3 + 4) by ring. exact E.
Qed.
(** C38: a sheet letting through half of the wave, reflecting a quarter *)
Example C38_nonvacuous : let s := m2 (1 / 4) (1 / 2) (1 / 2) (1 / 4) in deltaS s <> 0 /\ isPassiveS s = true /\ tportS2Z s false true = 16 / 5 * eta0.
Proof.
  cbv zeta. unfold deltaS, isPassiveS, tportS2Z, m2, rge, deltaS. split; [lra|]. split.
  - repeat match goal with |- context [Rle_dec ?a ?b] => destruct (Rle_dec a b) as [?|N]; [|exfalso; apply N; lra] end. reflexivity.
  - field.
Qed.
(** C43: a uniform mesh of 4 x 4 x 4 cubes is one the theorem speaks about *)
Example C43_nonvacuous : exists c lines e dt, setupCfg 4 4 4 initBoundaryReg = Some c /\ has_lines c lines /\
  initCellEdges c lines (fun _ => 0) (1 / 2) = Some (e, dt) /\ (forall a, uniform_axis c lines a) /\ (forall a i, (1 <= i < numLines c a - 1)%Z -> cell lines a (i - 1) <= cell lines a i) /\
  exists d, setGridType c (fun a => eDe (e a)) = Some (GT_CUBIC, d).
Proof.
  destruct (setupCfg 4 4 4 initBoundaryReg) as [c|] eqn:HC; [|vm_compute in HC; discriminate HC].
  destruct (C23_uniform_mesh _ _ _ _ _ HC 1 1 1 ltac:(lra) ltac:(lra) ltac:(lra)) as (lines & _ & HL & _ & CE).
  assert (CE1 : forall a i, (0 <= i < numLines c a - 1)%Z -> cell lines a i = 1) by (intros a i I; rewrite CE by exact I; destruct a; reflexivity).
  destruct (C23_edge_lengths _ _ _ _ _ HC lines (fun _ => 0) (1 / 2) HL) as (e & dt & E & _).
  exists c, lines, e, dt. split; [reflexivity|]. split; [exact HL|]. split; [exact E|].
  assert (U : forall a, uniform_axis c lines a).
  { intros a i I. rewrite !CE1 by lia. rewrite Rminus_diag_eq, Rabs_R0 by reflexivity. unfold GRID_TYPE_TOL. lra. }
  split; [exact U|]. split; [intros a i I; rewrite !CE1 by lia; lra|].
  destruct (C43_grid_type_partial _ _ _ _ _ HC lines _ (1 / 2) e dt HL E) as (gt & d & G & A & _). destruct (A U) as (_ & (_ & CU) & _).
  exists d. rewrite G. rewrite CU; [reflexivity|]. assert (N : forall a, (0 <= 0 < numLines c a - 1)%Z) by (vm_compute in HC; injection HC as <-; intros []; (split; [vm_compute; discriminate|vm_compute; reflexivity])).
  rewrite !CE1 by apply N. rewrite Rminus_diag_eq, Rabs_R0 by reflexivity. unfold GRID_TYPE_TOL. lra.
Qed.
(** C46: an edge where two Mur faces meet, and one beside it *)
Example C46_nonvacuous : exists c, setupCfg 4 4 4 murReg = Some c /\ inl (gfolim c EX) 2 1 1 /\ along_mur_edge c EX 2 1 1 /\ inl (gfolim c EX) 2 1 2 /\ ~ along_mur_edge c EX 2 1 2.
Proof.
  eexists. split; [reflexivity|]. split; [vm_compute; repeat split; discriminate|]. split.
  { split; [exists YLO, ZLO; do 3 (split; [discriminate|]); split; split; vm_compute; reflexivity|vm_compute; split; [discriminate|reflexivity]]. }
  split; [vm_compute; repeat split; discriminate|]. intros ((g1 & g2 & D & D1 & D2 & (_ & A) & (_ & B)) & _).
  destruct g1; vm_compute in A; try discriminate A; destruct g2; vm_compute in B; try discriminate B; vm_compute in D, D1, D2; congruence.
Qed.
(** C51 *)
Example C51_nonvacuous : exists l' def, parseWF [] "w" "COMPACT_PULSE" [2; 3] = Some l' /\ manual_defaults "COMPACT_PULSE" 1 = Some def /\ (forall d, nth_error [2; 3] 1 = Some d -> 0 <= d).
Proof.
  destruct (parseWF [] "w" "COMPACT_PULSE" [2; 3]) as [l|] eqn:P.
  - exists l. eexists. split; [reflexivity|]. split; [reflexivity|]. intros d D. injection D as <-. lra.
  - exfalso. unfold parseWF in P. cbn in P. unfold Rltb in P. destruct (Rlt_dec 2 0); [lra|discriminate].
Qed.
(** C55 *)
Example C55_nonvacuous : exists p, parseOF 10 30 3 = Some p /\ frequency (Some p) 100 1 1 = 20.
Proof.
  unfold parseOF. destruct (Rlt_dec 10 0); [lra|]. destruct (Rlt_dec 30 10); [lra|]. eexists. split; [reflexivity|].
  unfold frequency. change (3 - 1)%Z with 2%Z. field.
Qed.
(** C27: a field that does not change, in free space *)
Definition stillInc : nat -> Field := fun _ f _ _ _ => match f with EX => 1 | _ => 0 end.
Example C27_nonvacuous : exists c, setupCfg 9 9 9 exampleReg = Some c /\ all_faces axisPW /\ let b := pwGbbox c axisPW in
  clear_box (outerSurfaceType c) (gibox c) b /\ lossless_surface axisMem b /\ obeys axisMem b stillInc /\
  exists m, lossless_surface m b /\ obeys m b stillInc /\ holds_only b m (stillInc 0%nat) /\ fld m EX 3 3 3 = 1.
Proof.
  destruct C27_axis_nonvacuous as (c & HC & AF & CB & _). exists c. split; [exact HC|]. split; [exact AF|]. cbv zeta. split; [exact CB|].
  set (b := pwGbbox c axisPW) in *.
  assert (OB : forall m, (forall f i j k, m (L (AAlpha f) i j k) = 1) -> obeys m b stillInc).
  { intros m A n f i j k _.
    assert (D : forall k', drive (with_fields m (stillInc k')) f (mkPt i j k) = 0).
    { intros k'. destruct f; unfold drive; cbn [is_E fld_axis]; unfold curlH, curlE, val, fld, with_fields, stillInc; cbn [succA Halong Ealong arr]; ring. }
    rewrite !D. unfold alpha. rewrite A. destruct f; cbn [is_E stillInc]; ring. }
  assert (LS : forall m, (forall f i j k, m (L (AAlpha f) i j k) = 1) -> lossless_surface m b) by (intros m A f i j k _; apply A).
  split; [apply LS; reflexivity|]. split; [apply OB; reflexivity|].
  exists (fun l => match arr l with AF f => window b (stillInc 0%nat) f (li l) (lj l) (lk l) | _ => axisMem l end).
  split; [apply LS; reflexivity|]. split; [apply OB; reflexivity|]. split.
  - intros [q i j k] S. cbn [arr li lj lk]. destruct q; try reflexivity; exfalso; apply S; reflexivity.
  - unfold fld. cbn [arr li lj lk]. assert (B : forall f, b f = mkbox 3 6 3 6 3 6 f). { unfold b. clear - HC. vm_compute in HC. injection HC as <-. intros []; reflexivity. }
    unfold window. assert (IB : inBoxb b EX 3 3 3 = true). { unfold inBoxb. cbv delta [b]. clear - HC. vm_compute in HC. injection HC as <-. reflexivity. } rewrite IB. reflexivity.
Qed.
