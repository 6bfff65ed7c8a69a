(** Proofs about Edges.v. *)
From Coq Require Import ZArith List Bool Lia Reals Lra.
From Verif Require Import Types Lang BBox Grid SpecGrid CArr Edges SpecEdges StepBounds.
Import ListNotations.
Open Scope Z_scope.

Lemma obind_some {A B} (x : option A) (f : A -> option B) a : x = Some a -> obind x f = f a.
Proof. intros ->. reflexivity. Qed.

(** the loops that invert and track the extreme values *)
Lemma invert_loop (lo hi n : Z) (src dst0 : carr R) (mm0 : R * R) :
  0 <= lo -> hi < n -> lo <= hi + 1 -> alen src = n -> alen dst0 = n ->
  exists d mm, cfor lo hi (fun s i => let '(ide, mm) := s in
      do x <- rd src i; do ide <- wr ide i (/ x)%R; Some (ide, track mm x)) (dst0, mm0) = Some (d, mm) /\
    alen d = n /\
    (forall j, lo <= j <= hi -> (adat d j = / adat src j)%R) /\
    (forall j, lo <= j <= hi -> (fst mm <= adat src j)%R) /\ (fst mm <= fst mm0)%R /\
    (forall j, lo <= j <= hi -> (adat src j <= snd mm)%R) /\ (snd mm0 <= snd mm)%R /\
    (fst mm = fst mm0 \/ exists j, lo <= j <= hi /\ fst mm = adat src j) /\
    (snd mm = snd mm0 \/ exists j, lo <= j <= hi /\ snd mm = adat src j).
Proof.
  intros L H LH Ls Ld.
  destruct (cfor_inv (fun i (s : carr R * (R * R)) => let '(d, mm) := s in alen d = n /\
    (forall j, lo <= j < i -> (adat d j = / adat src j)%R) /\
    (forall j, lo <= j < i -> (fst mm <= adat src j)%R) /\ (fst mm <= fst mm0)%R /\
    (forall j, lo <= j < i -> (adat src j <= snd mm)%R) /\ (snd mm0 <= snd mm)%R /\
    (fst mm = fst mm0 \/ exists j, lo <= j < i /\ fst mm = adat src j) /\
    (snd mm = snd mm0 \/ exists j, lo <= j < i /\ snd mm = adat src j)) lo hi
    (fun s i => let '(ide, mm) := s in
      do x <- rd src i; do ide <- wr ide i (/ x)%R; Some (ide, track mm x)) (dst0, mm0)) as ([d mm] & E & I); auto.
  - repeat split; intros; try lia; try (right; lra); auto; lra.
  - intros i [d mm] Hi (A1 & A2 & A3 & A4 & A5 & A6 & A7 & A8).
    rewrite (rd_ok src) by lia. cbn [obind]. rewrite wr_ok by lia. cbn [obind].
    eexists; split; [reflexivity|]. cbn [alen adat]. unfold track. cbn [fst snd].
    split; [auto|].
    assert (D : forall j, lo <= j < i + 1 -> j = i \/ lo <= j < i) by lia.
    split; [intros j Hj; destruct (Z.eqb_spec j i); subst; auto; apply A2; lia|].
    destruct (Rlt_dec (adat src i) (fst mm)), (Rgt_dec (adat src i) (snd mm));
      repeat split; try (intros j Hj; destruct (D j Hj) as [-> | Q]; [lra|try specialize (A3 j Q); try specialize (A5 j Q); lra]);
      try lra;
      try (right; exists i; split; [lia|reflexivity]);
      try (destruct A7 as [A7|(j & Hj & A7)]; [left; exact A7|right; exists j; split; [lia|exact A7]]);
      try (destruct A8 as [A8|(j & Hj & A8)]; [left; exact A8|right; exists j; split; [lia|exact A8]]).
  - destruct I as (A1 & A2 & A3 & A4 & A5 & A6 & A7 & A8).
    exists d, mm. repeat split; auto; intros; try (apply A2; lia); try (apply A3; lia); try (apply A5; lia).
    + destruct A7 as [A7|(j & Hj & A7)]; [left; exact A7|right; exists j; split; [lia|exact A7]].
    + destruct A8 as [A8|(j & Hj & A8)]; [left; exact A8|right; exists j; split; [lia|exact A8]].
Qed.

Definition mc (il ih i : Z) : Z := Z.max 0 (Z.min (ih - il - 1) (i - il)).

Lemma fillDe_spec il ih oh lines g : 1 <= il -> il < ih -> ih <= oh -> alen lines = ih - il + 1 ->
  exists a, fillDe 1 il ih oh (oh + 1) lines g = Some a /\ alen a = oh + 1 /\
   forall i, 0 <= i <= oh -> adat a i = (adat lines (mc il ih i + 1) - adat lines (mc il ih i))%R.
Proof.
  intros H1 H2 H3 HL. unfold fillDe.
  destruct (cfor_fill (fun i => adat lines 1 - adat lines 0)%R 1 (il - 1)
    (fun a i => do x <- rd lines 1; do y <- rd lines 0; wr a i (x - y)%R) (mkArr (oh + 1) g)) as (a1 & E1 & L1 & V1 & O1);
    try (cbn [alen]; lia).
  { intros. rewrite !rd_ok by lia. reflexivity. }
  cbn [alen] in L1. rewrite E1. cbn [obind].
  destruct (cfor_fill (fun i => adat lines (i - il + 1) - adat lines (i - il))%R il (ih - 1)
    (fun a i => do x <- rd lines (i - il + 1); do y <- rd lines (i - il); wr a i (x - y)%R) a1) as (a2 & E2 & L2 & V2 & O2);
    try lia.
  { intros. rewrite !rd_ok by lia. reflexivity. }
  rewrite E2. cbn [obind].
  destruct (cfor_fill (fun i => adat lines (ih - il) - adat lines (ih - il - 1))%R ih (oh - 1)
    (fun a i => do x <- rd lines (ih - il); do y <- rd lines (ih - il - 1); wr a i (x - y)%R) a2) as (a3 & E3 & L3 & V3 & O3);
    try lia.
  { intros. rewrite !rd_ok by lia. reflexivity. }
  rewrite E3. cbn [obind].
  assert (V : forall i, 1 <= i <= oh - 1 -> adat a3 i = (adat lines (mc il ih i + 1) - adat lines (mc il ih i))%R).
  { intros i Hi. unfold mc.
    destruct (Z_lt_le_dec i il).
    - rewrite O3, O2, V1 by lia. rewrite Z.max_l by lia. reflexivity.
    - destruct (Z_lt_le_dec i ih).
      + rewrite O3, V2 by lia. rewrite Z.min_r, Z.max_r by lia. reflexivity.
      + rewrite V3 by lia. rewrite Z.min_l, Z.max_r by lia. f_equal. f_equal. lia. }
  assert (Hoh : 2 <= oh) by lia.
  rewrite (rd_ok a3) by lia. cbn [obind]. rewrite wr_ok by lia. cbn [obind].
  rewrite rd_ok by (cbn [alen]; lia). cbn [obind alen adat]. rewrite wr_ok by (cbn [alen]; lia).
  cbn [alen adat]. eexists. split; [reflexivity|]. cbn [alen adat]. split; [lia|].
  intros i Hi. destruct (Z.eqb_spec i oh).
  - destruct (Z.eqb_spec (oh - 1) (1 - 1)); [lia|]. rewrite V by lia. subst i. unfold mc.
    rewrite (Z.min_l _ (oh - il)) by lia. rewrite (Z.min_l _ (oh - 1 - il)) by lia. reflexivity.
  - destruct (Z.eqb_spec i (1 - 1)).
    + rewrite V by lia. unfold mc. subst i.
      rewrite (Z.max_l 0 (Z.min _ (1 - il))) by lia. rewrite (Z.max_l 0 (Z.min _ (1 - 1 - il))) by lia. reflexivity.
    + apply V. lia.
Qed.

Lemma axis_spec il ih oh lines g : 1 <= il -> il < ih -> ih <= oh -> alen lines = ih - il + 1 ->
  exists e, initCellEdges1 1 il ih oh (oh + 1) lines g = Some e /\
   (alen (eDe e) = oh + 1 /\ alen (eIde e) = oh + 1 /\ alen (eDh e) = oh + 1 /\ alen (eIdh e) = oh + 1) /\
   (forall i, 0 <= i <= oh -> (adat (eDe e) i = adat lines (mc il ih i + 1) - adat lines (mc il ih i))%R) /\
   (forall i, 0 <= i <= oh -> (adat (eIde e) i = / adat (eDe e) i)%R) /\
   (forall i, 1 <= i <= oh -> (adat (eDh e) i = (adat (eDe e) (i - 1) + adat (eDe e) i) / 2)%R) /\
   (adat (eDh e) 0 = adat (eDh e) 1) /\
   (forall i, 0 <= i <= oh -> (adat (eIdh e) i = / adat (eDh e) i)%R) /\
   (forall i, 0 <= i <= oh -> (eMin e <= adat (eDe e) i <= eMax e)%R) /\
   (forall i, 1 <= i <= oh -> (eMin e <= adat (eDh e) i <= eMax e)%R) /\ (eMin e <= REAL_MAX)%R /\ (0 <= eMax e)%R /\
   (eMin e = REAL_MAX \/ exists i, 0 <= i <= oh /\ eMin e = adat (eDe e) i \/ 1 <= i <= oh /\ eMin e = adat (eDh e) i) /\
   (eMax e = 0%R \/ exists i, 0 <= i <= oh /\ eMax e = adat (eDe e) i \/ 1 <= i <= oh /\ eMax e = adat (eDh e) i).
Proof.
  intros H1 H2 H3 HL. unfold initCellEdges1.
  destruct (fillDe_spec il ih oh lines g H1 H2 H3 HL) as (de & E1 & L1 & V1). rewrite E1. cbn [obind].
  unfold fillIde.
  destruct (invert_loop (1 - 1) oh (oh + 1) de (mkArr (oh + 1) g) (REAL_MAX, 0%R))
    as (ide & mm & E2 & L2 & V2 & Mi & Mi0 & Ma & Ma0 & Ci & Ca); try (cbn [alen]; lia).
  rewrite E2. cbn [obind]. cbn [fst snd] in *.
  unfold fillDh.
  destruct (cfor_fill (fun i => / 2 * (adat de i + adat de (i - 1)))%R 1 oh
    (fun a i => do x <- rd de i; do y <- rd de (i - 1); wr a i (/ 2 * (x + y))%R) (mkArr (oh + 1) g)) as (d & E3 & L3 & V3 & O3);
    try (cbn [alen]; lia).
  { intros. rewrite !rd_ok by lia. reflexivity. }
  cbn [alen] in L3. rewrite E3. cbn [obind]. rewrite (rd_ok d) by lia. cbn [obind]. rewrite wr_ok by lia. cbn [obind].
  set (dh := mkArr (alen d) _).
  unfold fillIdh.
  destruct (invert_loop 1 oh (oh + 1) dh (mkArr (oh + 1) g) mm)
    as (idh & mm' & E4 & L4 & V4 & Mi' & Mi0' & Ma' & Ma0' & Ci' & Ca'); try (cbn [alen dh]; lia).
  rewrite E4. cbn [obind]. rewrite (rd_ok idh) by lia. cbn [obind]. rewrite wr_ok by lia. cbn [obind].
  eexists. split; [reflexivity|]. cbn [eDe eIde eDh eIdh eMin eMax].
  split; [cbn [alen dh]; lia|]. split; [exact V1|]. split; [intros; apply V2; lia|].
  assert (DH : forall i, 1 <= i <= oh -> adat dh i = adat d i).
  { intros. unfold dh. cbn [adat]. destruct (Z.eqb_spec i (1 - 1)); [lia|reflexivity]. }
  split.
  { intros i Hi. rewrite DH by lia. rewrite V3 by lia. lra. }
  split; [rewrite (DH 1) by lia; unfold dh; reflexivity|].
  split.
  { intros i Hi. cbn [adat]. destruct (Z.eqb_spec i (1 - 1)).
    - rewrite V4 by lia. subst i. rewrite (DH 1) by lia. unfold dh. cbn [adat]. reflexivity.
    - apply V4. lia. }
  assert (MM : forall i, 0 <= i <= oh -> (fst mm' <= adat de i <= snd mm')%R).
  { intros i Hi. specialize (Mi i ltac:(lia)). specialize (Ma i ltac:(lia)). lra. }
  split; [exact MM|]. split.
  { intros i Hi. specialize (Mi' i ltac:(lia)). specialize (Ma' i ltac:(lia)). lra. }
  split; [lra|]. split; [lra|]. split.
  - destruct Ci' as [C|(j & Hj & C)]; [|right; exists j; right; auto].
    destruct Ci as [C1|(j & Hj & C1)]; [left; congruence|]. right. exists j. left. split; [lia|congruence].
  - destruct Ca' as [C|(j & Hj & C)]; [|right; exists j; right; auto].
    destruct Ca as [C1|(j & Hj & C1)]; [left; congruence|]. right. exists j. left. split; [lia|congruence].
Qed.

(** all three axes, in the vocabulary of SpecEdges *)
Lemma edges_run c lines g cn : wf c -> has_lines c lines ->
  exists e dt, initCellEdges c lines g cn = Some (e, dt) /\ dt = timeStep cn (fun a => eMin (e a)) /\
  forall a, axisEdges c lines g a = Some (e a).
Proof.
  intros W HL.
  assert (X : forall a, exists e, axisEdges c lines g a = Some e).
  { intros a. unfold axisEdges. cfg_facts c W. specialize (HL a).
    destruct (axis_spec (gibox c (face_lo a)) (gibox c (face_hi a)) (gobox c (face_hi a)) (lines a) g) as (e & E & _);
      try (destruct a; cbn [face_lo face_hi]; unfold NUM_GHOST_CELLS in *; lia).
    exists e. rewrite <- E. f_equal; destruct a; cbn [face_lo face_hi numCells]; unfold NUM_GHOST_CELLS in *; lia. }
  destruct (X XDIR) as (ex & EX), (X YDIR) as (ey & EY), (X ZDIR) as (ez & EZ).
  unfold initCellEdges. rewrite EX, EY, EZ. cbn [obind].
  eexists _, _. split; [reflexivity|]. split; [reflexivity|]. intros []; assumption.
Qed.

Lemma mc_mesh c a i : wf c -> mc (gibox c (face_lo a)) (gibox c (face_hi a)) i = mesh_cell c a i.
Proof. intros W. unfold mc, mesh_cell. cfg_facts c W. destruct a; cbn [face_lo face_hi]; unfold NUM_GHOST_CELLS in *; f_equal; f_equal; lia. Qed.

Lemma axis_edges c lines g a e : wf c -> has_lines c lines -> axisEdges c lines g a = Some e ->
   let oh := gobox c (face_hi a) in 2 <= oh /\ numCells c a = oh + 1 /\
   (alen (eDe e) = oh + 1 /\ alen (eIde e) = oh + 1 /\ alen (eDh e) = oh + 1 /\ alen (eIdh e) = oh + 1) /\
   (forall i, 0 <= i <= oh -> (adat (eDe e) i = cell lines a (mesh_cell c a i))%R) /\
   (forall i, 0 <= i <= oh -> (adat (eIde e) i = / adat (eDe e) i)%R) /\
   (forall i, 1 <= i <= oh -> (adat (eDh e) i = (adat (eDe e) (i - 1) + adat (eDe e) i) / 2)%R) /\
   (adat (eDh e) 0 = adat (eDh e) 1) /\
   (forall i, 0 <= i <= oh -> (adat (eIdh e) i = / adat (eDh e) i)%R) /\
   (forall i, 0 <= i <= oh -> (eMin e <= adat (eDe e) i <= eMax e)%R) /\
   (forall i, 1 <= i <= oh -> (eMin e <= adat (eDh e) i <= eMax e)%R) /\ (eMin e <= REAL_MAX)%R /\ (0 <= eMax e)%R /\
   (eMin e = REAL_MAX \/ exists i, 0 <= i <= oh /\ eMin e = adat (eDe e) i \/ 1 <= i <= oh /\ eMin e = adat (eDh e) i) /\
   (eMax e = 0%R \/ exists i, 0 <= i <= oh /\ eMax e = adat (eDe e) i \/ 1 <= i <= oh /\ eMax e = adat (eDh e) i).
Proof.
  intros W HL E oh. unfold axisEdges in E. pose proof (HL a) as Ha.
  assert (G : gobox c (face_lo a) = 1 /\ 1 <= gibox c (face_lo a) /\ gibox c (face_lo a) < gibox c (face_hi a) /\
     gibox c (face_hi a) <= oh /\ numCells c a = oh + 1 /\ alen (lines a) = gibox c (face_hi a) - gibox c (face_lo a) + 1).
  { cfg_facts c W. unfold oh. destruct a; cbn [face_lo face_hi] in *; unfold NUM_GHOST_CELLS in *; lia. }
  destruct G as (G1 & G2 & G3 & G4 & G5 & G6). fold oh in E. rewrite G1, G5 in E.
  destruct (axis_spec _ _ _ _ g G2 G3 G4 G6) as (e' & E' & R). rewrite E' in E. injection E as ->.
  split; [lia|]. split; [exact G5|]. destruct R as (R1 & R2 & R3). split; [exact R1|]. split; [|exact R3].
  intros i Hi. rewrite R2 by exact Hi. rewrite mc_mesh by exact W. reflexivity.
Qed.

Lemma mesh_cell_range c a i : wf c -> 0 <= mesh_cell c a i < numLines c a - 1.
Proof. intros W. pose proof (wf_lines c W a). unfold mesh_cell. lia. Qed.

Lemma axis_pos c lines g a e : wf c -> has_lines c lines -> increasing c lines -> axisEdges c lines g a = Some e ->
  (forall i, 0 <= i <= gobox c (face_hi a) -> (0 < adat (eDe e) i /\ 0 < adat (eIde e) i /\ 0 < adat (eDh e) i /\ 0 < adat (eIdh e) i)%R) /\
  (0 < eMin e)%R.
Proof.
  intros W HL IN E. destruct (axis_edges c lines g a e W HL E) as (Ho & _ & _ & V & VI & VH & V0 & VIH & _ & _ & _ & _ & Cm & _).
  assert (P : forall i, 0 <= i <= gobox c (face_hi a) -> (0 < adat (eDe e) i)%R).
  { intros i Hi. rewrite V by lia. unfold cell. specialize (IN a (mesh_cell c a i) (mesh_cell_range c a i W)). lra. }
  assert (PH1 : forall i, 1 <= i <= gobox c (face_hi a) -> (0 < adat (eDh e) i)%R).
  { intros i Hi. rewrite VH by lia. pose proof (P i ltac:(lia)). pose proof (P (i - 1) ltac:(lia)). lra. }
  assert (PH : forall i, 0 <= i <= gobox c (face_hi a) -> (0 < adat (eDh e) i)%R).
  { intros i Hi. destruct (Z.eq_dec i 0); [subst; rewrite V0; apply PH1; lia|apply PH1; lia]. }
  split.
  - intros i Hi. split; [auto|]. split; [rewrite VI by lia; apply Rinv_0_lt_compat; auto|].
    split; [auto|]. rewrite VIH by lia. apply Rinv_0_lt_compat. auto.
  - destruct Cm as [-> | (i & [(Hi & ->) | (Hi & ->)])]; auto.
    unfold REAL_MAX. apply Rmult_lt_0_compat; [lra|]. apply pow_lt. lra.
Qed.
