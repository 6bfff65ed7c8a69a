(** C88: the memory report. *)
From Coq Require Import ZArith List Bool Lia.
From Verif Require Import Types Lang BBox Grid Setup SetupProofs SpecGrid Pml StepBounds Alloc SpecAlloc P_Alloc Memory SpecMemory.
Import ListNotations.
Open Scope Z_scope.
Local Arguments Z.mul : simpl never.
Local Arguments Z.add : simpl never.
Local Arguments Z.sub : simpl never.

Definition good (a : Call) : Prop := extents a <> [] /\ Forall (fun e => 0 < e) (extents a) /\ 0 < elemSize a.
Definition bytesOf (a : Call) : Z := takes (elemSize a) (extents a).
Definition counted (k : Counter) (a : Call) : Z :=
  match addedTo a with Some k' => if counter_eqb k' k then bytesOf a else 0 | None => 0 end.

Lemma bytes_pos a : good a -> 0 <= bytesOf a.
Proof.
  intros (N & P & S). unfold bytesOf, takes. pose proof (elements_pos _ P). pose proof (pointers_nonneg _ 1 ltac:(lia) P). nia.
Qed.
Lemma size_ok a : good a -> bytesOf a < 2 ^ 64 -> blockSize (elemSize a) (extents a) = bytesOf a.
Proof.
  intros (N & P & S) B. unfold bytesOf, takes in *.
  destruct (C36_allocation (extents a) (elemSize a) 0 N P S ltac:(lia) ltac:(unfold PTR; lia)) as (E & _). rewrite E. unfold PTR. reflexivity.
Qed.
Lemma total_app a b : total (a ++ b) = total a + total b.
Proof. induction a; cbn [total fold_right app]; [unfold total; lia|]. unfold total in *. cbn [fold_right app] in *. lia. Qed.
Lemma total_cons a l : total (a :: l) = a + total l. Proof. reflexivity. Qed.
Lemma held_nonneg l : Forall good l -> 0 <= held l.
Proof.
  intros H. induction H as [|a l G _ IH]; [unfold held, total; cbn; lia|]. unfold held in *. cbn [map]. rewrite total_cons.
  pose proof (bytes_pos a G). unfold bytesOf in *. lia.
Qed.
Lemma counters_from : forall l m k, Forall good l -> 0 <= m k -> m k + held l < 2 ^ 64 ->
  fold_left call l m k = m k + total (map (counted k) l).
Proof.
  induction l as [|a l IH]; intros m k G M H; [unfold total; cbn; lia|].
  pose proof (Forall_inv G) as Ga. pose proof (Forall_inv_tail G) as Gl. pose proof (bytes_pos a Ga) as Pa. pose proof (held_nonneg l Gl) as Pl.
  unfold held in H, Pl. cbn [map] in H. rewrite total_cons in H. fold (bytesOf a) in H. fold (held l) in H, Pl.
  cbn [fold_left map]. rewrite total_cons.
  assert (Q : call m a k = m k + counted k a).
  { unfold call, counted. destruct (addedTo a) as [k'|]; [|lia]. destruct (counter_eqb k' k); [|lia].
    rewrite size_ok by (auto; lia). apply u64_id. lia. }
  assert (C : 0 <= counted k a <= bytesOf a).
  { unfold counted. destruct (addedTo a) as [k'|]; [|lia]. destruct (counter_eqb k' k); lia. }
  rewrite IH; rewrite ?Q; auto; lia.
Qed.
Lemma counters_spec l k : Forall good l -> held l < 2 ^ 64 -> counters l k = total (map (counted k) l).
Proof. intros G H. unfold counters. rewrite counters_from; unfold memory0; auto; lia. Qed.

Lemma pml_extent c r f : wf c -> outerSurfaceType c r = BT_PML ->
  let l := fplim c r f in 0 < l XHI - l XLO + 1 /\ 0 < l YHI - l YLO + 1 /\ 0 < l ZHI - l ZLO + 1.
Proof.
  intros W T. cbv zeta. pose proof (wf_pml c W r T) as LP. cfg_facts c W.
  destruct r, f; unlim; cbn; lia.
Qed.
Lemma cells_pos c a : wf c -> 0 < numCells c a.
Proof. intros W. cfg_facts c W. destruct a; unfold numCells, NUM_GHOST_CELLS; cbn [face_lo face_hi]; lia. Qed.

Lemma takes_1 s x : takes s [x] = s * x.
Proof. unfold takes, elements, pointers. cbn [fold_right]. lia. Qed.
Lemma takes_3 s x y z : takes s [x; y; z] = takes3 s x y z.
Proof. unfold takes, takes3, elements, pointers. cbn [fold_right]. ring. Qed.
Lemma takes_2 s x y : takes s [x; y] = 8 * x + s * (x * y).
Proof. unfold takes, elements, pointers. cbn [fold_right]. ring. Qed.

Section Report.
Variables (R M : Z) (ix : bool) (c : Cfg).
Hypotheses (HR : 0 < R) (HM : 0 < M) (W : wf c).
Lemma good_all nm nf comps : 1 <= nm -> 1 <= nf -> Forall (fun n => 1 <= n) comps -> Forall good (setupCalls R M ix c nm nf comps).
Proof.
  intros Hm Hf Hc. pose proof (cells_pos c XDIR W). pose proof (cells_pos c YDIR W). pose proof (cells_pos c ZDIR W).
  pose proof (wf_lines c W XDIR). pose proof (wf_lines c W YDIR). pose proof (wf_lines c W ZDIR).
  assert (G1 : forall s x k, 0 < s -> 0 < x -> good (mkCall s [x] k)) by (intros; split; [discriminate|split; [repeat constructor; auto|auto]]).
  assert (G2 : forall s x y k, 0 < s -> 0 < x -> 0 < y -> good (mkCall s [x; y] k)) by (intros; split; [discriminate|split; [repeat constructor; auto|auto]]).
  assert (G3 : forall s x y z k, 0 < s -> 0 < x -> 0 < y -> 0 < z -> good (mkCall s [x; y; z] k)) by (intros; split; [discriminate|split; [repeat constructor; auto|auto]]).
  Ltac gall G1 G2 G3 := repeat (apply Forall_cons; [first [apply G1; lia | apply G2; lia | apply G3; lia]|]); apply Forall_nil.
  unfold setupCalls, meshLineCalls, gridCalls, mediaCalls, pmlCalls, observerCalls, row, cube. rewrite !Forall_app. repeat match goal with |- _ /\ _ => split end.
  - cbn [map]. gall G1 G2 G3.
  - cbn [map]. gall G1 G2 G3.
  - gall G1 G2 G3.
  - destruct ix; gall G1 G2 G3.
  - unfold PTR. gall G1 G2 G3.
  - apply Forall_flat_map. apply Forall_forall. intros r _. unfold regionCalls. apply Forall_flat_map. apply Forall_forall. intros f _.
    unfold pmlDims. destruct (btype_eqb (outerSurfaceType c r) BT_PML) eqn:E; [|constructor].
    apply btype_eqb_spec in E. destruct (pml_extent c r f W E) as (? & ? & ?). constructor; [|constructor]. apply G3; auto.
  - cbn [flat_map app]. gall G1 G2 G3.
  - cbn [flat_map app]. gall G1 G2 G3.
  - apply Forall_flat_map. apply Forall_forall. intros n Hn. rewrite Forall_forall in Hc. specialize (Hc n Hn). unfold dftCalls. gall G1 G2 G3.
  - gall G1 G2 G3.
Qed.
Lemma region_sum k r : total (map (counted k) (regionCalls R c r)) =
  if btype_eqb (outerSurfaceType c r) BT_PML then (if counter_eqb M_pmlFields k then layer R c r else 0) else 0.
Proof.
  unfold regionCalls, pmlDims. destruct (btype_eqb (outerSurfaceType c r) BT_PML).
  - cbn [flat_map app map]. unfold total, counted, bytesOf. cbn [fold_right addedTo elemSize extents]. rewrite !takes_3. unfold layer. cbv zeta.
    destruct (counter_eqb M_pmlFields k); lia.
  - reflexivity.
Qed.
Lemma dft_sum k nf comps : total (map (counted k) (flat_map (dftCalls R nf) comps)) =
  if counter_eqb M_observers k then total (map (fun n => 8 * n + R * (n * nf)) comps) else 0.
Proof.
  induction comps as [|n comps IH]; [destruct (counter_eqb M_observers k); reflexivity|].
  cbn [flat_map]. rewrite map_app, total_app, IH. cbn [map]. rewrite total_cons. unfold dftCalls. cbn [map]. rewrite !total_cons.
  unfold counted at 1 2, bytesOf. cbn [addedTo elemSize extents]. rewrite takes_2. change (total []) with 0. destruct (counter_eqb M_observers k); lia.
Qed.
End Report.

(** For every accepted size and choice of boundaries: the lines of the report
    about the grid, the fields, the coefficients, the PML and the media give the
    bytes their arrays take. For the observers only one of the two DFT arrays is
    counted, and waveforms, sources, boundaries, wires and lines always read 0. *)
Theorem C88_report_partial : forall nx ny nz reg c, setupCfg nx ny nz reg = Some c ->
  forall REAL INDEX indexed numMedium numFreq comps,
  0 < REAL -> 0 < INDEX -> 1 <= numMedium -> 1 <= numFreq -> Forall (fun n => 1 <= n) comps ->
  let calls := setupCalls REAL INDEX indexed c numMedium numFreq comps in
  held calls < 2 ^ 64 ->
  let report := counters calls in
  let x := numCells c XDIR in let y := numCells c YDIR in let z := numCells c ZDIR in
  report M_grid = REAL * ((nx + 1) + (ny + 1) + (nz + 1)) + 4 * (REAL * (x + y + z)) /\
  report M_ehFields = 6 * takes3 REAL x y z /\
  report M_ehCoeffs = (if indexed then 6 * takes3 INDEX x y z else 9 * takes3 REAL x y z) /\
  report M_pmlFields = layers REAL c /\
  report M_pmlCoeffs = 10 * (REAL * (x + y + z)) /\
  report M_media = 8 * numMedium /\
  report M_observers = REAL * numFreq + total (map (fun n => takes REAL [n; numFreq]) comps) /\
  (forall k, In k [M_waveforms; M_sources; M_boundaries; M_surfaces; M_wires; M_lines; M_blocks] -> report k = 0).
Proof.
  intros nx ny nz reg c S R M ix nm nf comps HR HM Hm Hf Hc calls B report x y z.
  pose proof (setup_wf _ _ _ _ _ S) as W.
  assert (NL : numLines c XDIR = nx + 1 /\ numLines c YDIR = ny + 1 /\ numLines c ZDIR = nz + 1).
  { unfold setupCfg, parseDM in S. destruct ((nx <? 1) || (ny <? 1) || (nz <? 1)); [discriminate|].
    destruct (initExternalSurfaceParameters reg) as [[reg' num]|]; [|discriminate]. injection S as <-. cbn. auto. }
  destruct NL as (NX & NY & NZ).
  assert (G : Forall good calls) by (apply good_all; auto).
  assert (Q : forall k, report k = total (map (counted k) calls)) by (intros; apply counters_spec; auto).
  assert (LY : total (map (fun r => if btype_eqb (outerSurfaceType c r) BT_PML then layer R c r else 0) faces) = layers R c) by reflexivity.
  assert (D : forall k, report k =
     total (map (counted k) (meshLineCalls R c)) + (total (map (counted k) (gridCalls R M ix c)) + (total (map (counted k) (mediaCalls nm)) +
     ((if counter_eqb M_pmlFields k then layers R c else 0) + ((if counter_eqb M_pmlCoeffs k then 10 * (R * (x + y + z)) else 0) +
     ((if counter_eqb M_observers k then total (map (fun n => 8 * n + R * (n * nf)) comps) else 0) + (if counter_eqb M_observers k then R * nf else 0))))))).
  { intros k. rewrite Q. unfold calls, setupCalls. rewrite !map_app, !total_app. f_equal. f_equal. f_equal.
    unfold pmlCalls, observerCalls. rewrite !map_app, !total_app, dft_sum.
    assert (PF : total (map (counted k) (flat_map (regionCalls R c) faces)) = if counter_eqb M_pmlFields k then layers R c else 0).
    { unfold faces. cbn [flat_map]. rewrite !map_app, !total_app, !region_sum. rewrite <- LY. unfold faces. cbn [map]. rewrite !total_cons. change (total []) with 0.
      change (total (map (counted k) [])) with 0. destruct (counter_eqb M_pmlFields k); [lia|].
      repeat match goal with |- context [if ?b then 0 else 0] => replace (if b then 0 else 0) with 0 by (destruct b; reflexivity) end. reflexivity. }
    assert (PC : total (map (counted k) (flat_map (fun a => [row R c M_pmlCoeffs a; row R c M_pmlCoeffs a; row R c M_pmlCoeffs a; row R c M_pmlCoeffs a; row R c M_pmlCoeffs a; row R c M_pmlCoeffs a; row R c M_pmlCoeffs a; row R c M_pmlCoeffs a]) [XDIR; YDIR; ZDIR]))
       + total (map (counted k) (flat_map (fun a => [row R c M_pmlCoeffs a; row R c M_pmlCoeffs a]) [XDIR; YDIR; ZDIR])) = if counter_eqb M_pmlCoeffs k then 10 * (R * (x + y + z)) else 0).
    { cbn [flat_map app map]. rewrite !total_cons. change (total []) with 0. unfold counted, bytesOf, row. cbn [addedTo elemSize extents]. rewrite !takes_1. fold x y z.
      destruct (counter_eqb M_pmlCoeffs k); lia. }
    assert (OM : total (map (counted k) [mkCall R [nf] (Some M_observers)]) = if counter_eqb M_observers k then R * nf else 0).
    { cbn [map]. rewrite total_cons. change (total []) with 0. unfold counted, bytesOf. cbn [addedTo elemSize extents]. rewrite takes_1. destruct (counter_eqb M_observers k); lia. }
    lia. }
  assert (ML : forall k, total (map (counted k) (meshLineCalls R c)) = if counter_eqb M_grid k then R * ((nx + 1) + (ny + 1) + (nz + 1)) else 0).
  { intros k. unfold meshLineCalls. cbn [map]. rewrite !total_cons. change (total []) with 0. unfold counted, bytesOf. cbn [addedTo elemSize extents]. rewrite !takes_1, NX, NY, NZ.
    destruct (counter_eqb M_grid k); lia. }
  assert (MD : forall k, total (map (counted k) (mediaCalls nm)) = if counter_eqb M_media k then 8 * nm else 0).
  { intros k. unfold mediaCalls. cbn [map]. rewrite !total_cons. change (total []) with 0. unfold counted, bytesOf. cbn [addedTo elemSize extents]. rewrite !takes_1. unfold PTR. destruct (counter_eqb M_media k); lia. }
  assert (GR : forall k, total (map (counted k) (gridCalls R M ix c)) =
     (if counter_eqb M_grid k then 4 * (R * (x + y + z)) else 0) + ((if counter_eqb M_ehFields k then 6 * takes3 R x y z else 0) +
     (if counter_eqb M_ehCoeffs k then (if ix then 6 * takes3 M x y z else 9 * takes3 R x y z) else 0))).
  { intros k. unfold gridCalls. rewrite !map_app, !total_app. f_equal; [|f_equal].
    - cbn [map]. rewrite !total_cons. change (total []) with 0. unfold counted, bytesOf, row. cbn [addedTo elemSize extents]. rewrite !takes_1. fold x y z. destruct (counter_eqb M_grid k); lia.
    - cbn [map]. rewrite !total_cons. change (total []) with 0. unfold counted, bytesOf, cube. cbn [addedTo elemSize extents]. rewrite !takes_3. fold x y z. destruct (counter_eqb M_ehFields k); lia.
    - destruct ix; cbn [map]; rewrite !total_cons; change (total []) with 0; unfold counted, bytesOf, cube; cbn [addedTo elemSize extents]; rewrite !takes_3; fold x y z; destruct (counter_eqb M_ehCoeffs k); lia. }
  assert (OB : map (fun n => takes R [n; nf]) comps = map (fun n => 8 * n + R * (n * nf)) comps) by (apply map_ext; intros; apply takes_2).
  clearbody report.
  repeat split; try (rewrite D, ML, MD, GR; cbn [counter_eqb]; rewrite ?OB; lia).
  intros k Hk. rewrite D, ML, MD, GR. cbn [In] in Hk. repeat (destruct Hk as [<- | Hk]; [cbn [counter_eqb]; lia|]). destruct Hk.
Qed.

(** The observers take more than the report says as soon as there is a
    frequency-domain observer. *)
Theorem C88_observers_refuted : forall nx ny nz reg c, setupCfg nx ny nz reg = Some c ->
  forall REAL INDEX indexed numMedium numFreq comps,
  0 < REAL -> 0 < INDEX -> 1 <= numMedium -> 1 <= numFreq -> Forall (fun n => 1 <= n) comps -> comps <> [] ->
  held (setupCalls REAL INDEX indexed c numMedium numFreq comps) < 2 ^ 64 ->
  counters (setupCalls REAL INDEX indexed c numMedium numFreq comps) M_observers < held (observerCalls REAL numFreq comps).
Proof.
  intros nx ny nz reg c S R M ix nm nf comps HR HM Hm Hf Hc NE B.
  destruct (C88_report_partial _ _ _ _ _ S R M ix nm nf comps HR HM Hm Hf Hc B) as (_ & _ & _ & _ & _ & _ & O & _). cbv zeta in O. rewrite O.
  unfold held, observerCalls. rewrite map_app, total_app. cbn [map]. rewrite total_cons. change (total []) with 0. cbn [elemSize extents]. rewrite takes_1.
  assert (Q : forall l, Forall (fun n => 1 <= n) l ->
     total (map (fun a => takes (elemSize a) (extents a)) (flat_map (dftCalls R nf) l)) = 2 * total (map (fun n => takes R [n; nf]) l) /\ (l <> [] -> 0 < total (map (fun n => takes R [n; nf]) l)) /\ 0 <= total (map (fun n => takes R [n; nf]) l)).
  { induction l as [|n l IH]; intros F; [repeat split; [congruence|unfold total; cbn; lia]|].
    destruct (IH (Forall_inv_tail F)) as (E & _ & N). cbn [flat_map]. rewrite map_app, total_app, E. cbn [map]. rewrite !total_cons. unfold dftCalls. cbn [map elemSize extents]. rewrite !total_cons. change (total []) with 0.
    assert (P : 0 < takes R [n; nf]) by (rewrite takes_2; pose proof (Forall_inv F) as H1; cbn in H1; nia).
    split; [lia|]. split; intros; lia. }
  destruct (Q comps Hc) as (E & P & _). specialize (P NE). rewrite E. lia.
Qed.

(** 3 by 4 by 5 cells with the default PML on every side, two frequency-domain
    observers of 1 and 6 components and 100 frequencies, 4-byte reals *)
Example C88_nonvacuous : exists c, setupCfg 3 4 5 initBoundaryReg = Some c /\
  held (setupCalls 4 4 false c 2 100 [1; 6]) < 2 ^ 64 /\
  counters (setupCalls 4 4 false c 2 100 [1; 6]) M_observers = 4 * 100 + (8 * 1 + 4 * 100) + (8 * 6 + 4 * 600) /\
  held (observerCalls 4 100 [1; 6]) = 4 * 100 + 2 * ((8 * 1 + 4 * 100) + (8 * 6 + 4 * 600)) /\
  0 < counters (setupCalls 4 4 false c 2 100 [1; 6]) M_pmlFields.
Proof. eexists. split; [reflexivity|]. repeat split; vm_compute; reflexivity. Qed.
