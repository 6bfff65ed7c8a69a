(** C29: the auxiliary grid of a plane wave; C59: which incident samples the
    corrections use. *)
From Coq Require Import ZArith List Bool Lia Reals Lra.
From Verif Require Import Types Lang LangProofs BBox Grid CArr Edges PmlProfile PlaneWave PwProofs StepShape StepCount StepOnce StepRace SpecPhys SpecYee SpecPw P_Grid P_PwVectors PwAux.
Import ListNotations.
Open Scope R_scope.
Local Arguments Z.mul : simpl never.
Local Arguments Z.add : simpl never.
Local Arguments Z.sub : simpl never.

Lemma nest3_ext_in {V} lim (g h : Z -> Z -> Z -> list (stmt V)) :
  (forall i j k, inl lim i j k -> g i j k = h i j k) -> flat_item (nest3 lim g) = flat_item (nest3 lim h).
Proof.
  intros H. unfold nest3. rewrite !flat_par_for.
  assert (FE : forall lo hi (p q : Z -> list (stmt V)), (forall x, (lo <= x <= hi)%Z -> p x = q x) -> for_ lo hi p = for_ lo hi q).
  { intros lo hi p q E. unfold for_. rewrite !flat_map_concat_map. f_equal. apply map_ext_in. intros x Hx. apply E. apply in_zrange. exact Hx. }
  apply FE. intros x Hx. apply FE. intros y Hy. apply FE. intros z Hz. apply H. repeat split; lia.
Qed.
Lemma cos_ext {V} (os os' : list (Corr V)) :
  Forall2 (fun o o' => co_f o = co_f o' /\ co_lim o = co_lim o' /\ forall i j k, inl (co_lim o) i j k -> co_s o i j k = co_s o' i j k) os os' ->
  flat (map coItem os) = flat (map coItem os').
Proof.
  induction 1 as [|o o' os os' (F & L & S) H IH]; [reflexivity|]. cbn [map]. rewrite !flat_cons, IH. f_equal.
  unfold coItem. rewrite <- F, <- L. apply nest3_ext_in. intros i j k I. rewrite S by auto. reflexivity.
Qed.

(** The corrections use the incident field only at samples of the box (E) or at
    most half a cell outside it (H): with any other incident field that agrees
    there they are the same program.  Any face mask, any surfaces. *)
Theorem C29_samples : forall c g act inc inc', (forall a, g (face_lo a) <= g (face_hi a))%Z ->
  (forall f i j k, looked_up g f i j k -> inc f i j k = inc' f i j k :> R) ->
  flat (updatePlaneWaveE inc (flim c g act) act) = flat (updatePlaneWaveE inc' (flim c g act) act) /\
  flat (updatePlaneWaveH inc (flim c g act) act) = flat (updatePlaneWaveH inc' (flim c g act) act).
Proof.
  intros c g act inc inc' N H. pose proof (N XDIR). pose proof (N YDIR). pose proof (N ZDIR). cbn [face_lo face_hi] in *.
  assert (B3 : forall f i j k, is_E f = true -> (2 * g XLO <= 2 * i + offset f XDIR <= 2 * g XHI)%Z -> (2 * g YLO <= 2 * j + offset f YDIR <= 2 * g YHI)%Z ->
     (2 * g ZLO <= 2 * k + offset f ZDIR <= 2 * g ZHI)%Z -> inc f i j k = inc' f i j k).
  { intros f i j k E X Y Z. apply H. unfold looked_up. rewrite E. intros []; cbn [ind face_lo face_hi]; assumption. }
  assert (NR : forall a0 f i j k, is_E f = false ->
     let q a := (if axis_eqb a a0 then 1 else 0)%Z in
     (2 * g XLO - q XDIR <= 2 * i + offset f XDIR <= 2 * g XHI + q XDIR)%Z -> (2 * g YLO - q YDIR <= 2 * j + offset f YDIR <= 2 * g YHI + q YDIR)%Z ->
     (2 * g ZLO - q ZDIR <= 2 * k + offset f ZDIR <= 2 * g ZHI + q ZDIR)%Z -> inc f i j k = inc' f i j k).
  { intros a0 f i j k E q X Y Z. apply H. unfold looked_up. rewrite E. exists a0. intros []; cbn [ind face_lo face_hi]; assumption. }
  split.
  - rewrite !updE_co by apply flim_collapsed. apply cos_ext.
    induction pwFaces as [|face fs IH]; cbn [flat_map]; [constructor|]. apply Forall2_app; [|exact IH]. clear IH fs.
    unfold coE; destruct (act face); [|constructor].
    destruct face; (constructor; [|constructor; [|constructor]]); (split; [reflexivity|]; split; [reflexivity|]); cbn [co_f co_lim co_s];
    intros i j k I; unfold aE, sE, dHdx, dHdy, dHdz; do 3 f_equal; apply (f_equal (@Cst R));
    unfold inl, flim, setFieldLimits, setBoundingBoxFromNodes, setBoundingBoxBoundaryFlags, mkbox in I; cbn [fieldIsInBoundary] in I;
    repeat match type of I with context [if ?q then _ else _] => destruct q end;
    first [solve [apply (NR XDIR); [reflexivity|..]; unfold offset; cbn [is_E fld_axis axis_eqb]; lia]
          |solve [apply (NR YDIR); [reflexivity|..]; unfold offset; cbn [is_E fld_axis axis_eqb]; lia]
          |solve [apply (NR ZDIR); [reflexivity|..]; unfold offset; cbn [is_E fld_axis axis_eqb]; lia]].
  - rewrite !updH_co by apply flim_collapsed. apply cos_ext.
    induction pwFaces as [|face fs IH]; cbn [flat_map]; [constructor|]. apply Forall2_app; [|exact IH]. clear IH fs.
    unfold coH; destruct (act face); [|constructor].
    destruct face; (constructor; [|constructor; [|constructor]]); (split; [reflexivity|]; split; [reflexivity|]); cbn [co_f co_lim co_s];
    intros i j k I; unfold aH, sH, dEdx, dEdy, dEdz; do 3 f_equal; apply (f_equal (@Cst R));
    unfold inl, flim, setFieldLimits, setBoundingBoxFromNodes, setBoundingBoxBoundaryFlags, mkbox in I; cbn [fieldIsInBoundary] in I;
    repeat match type of I with context [if ?q then _ else _] => destruct q end;
    (apply B3; [reflexivity|..]; unfold offset; cbn [is_E fld_axis axis_eqb]; lia).
Qed.

(** ** C29.  The history of the auxiliary grid: one E and one H update per step,
    [w n] being the waveform value of step [n]. *)
Definition auxStep (g : BBox) (w : R) (x : Aux) : option Aux := do x <- updateAuxE g w x; updateAuxH g x.
Fixpoint auxRun (g : BBox) (w : nat -> R) (n : nat) (x : Aux) : option Aux :=
  match n with O => Some x | S n => do x <- auxRun g w n x; auxStep g (w n) x end.

Lemma auxStep_ok g w x : aux_ok g x -> exists x', auxStep g w x = Some x' /\ aux_ok g x' /\
  betaEyi x' = betaEyi x /\ gammaHzi x' = gammaHzi x /\
  (forall i, (1 <= i < auxXb g)%Z -> adat (Eyi x') i = adat (Eyi x) i + betaEyi x * (adat (Hzi x) (i-1)%Z - adat (Hzi x) i)) /\
  (forall i, (0 <= i < auxXb g)%Z -> adat (Hzi x') i = adat (Hzi x) i + gammaHzi x * (adat (Eyi x') i - adat (Eyi x') (i+1)%Z)).
Proof.
  intros OK. unfold auxStep. destruct (auxE_ok g w x OK) as (x1 & E1 & O1 & H1 & B1 & G1 & _ & V1). rewrite E1. cbn [obind].
  destruct (auxH_ok g x1 O1) as (x2 & E2 & O2 & H2 & B2 & G2 & V2). exists x2. rewrite E2. split; [reflexivity|]. split; [auto|].
  split; [congruence|]. split; [congruence|]. split; intros i Hi.
  - rewrite H2. apply V1. exact Hi.
  - rewrite V2, H1, G1, H2 by exact Hi. reflexivity.
Qed.
Lemma auxRun_ok g w n x : aux_ok g x -> exists x', auxRun g w n x = Some x' /\ aux_ok g x' /\ betaEyi x' = betaEyi x /\ gammaHzi x' = gammaHzi x.
Proof.
  intros OK. induction n as [|n (x1 & E & O & B & G)]; [exists x; auto|]. cbn [auxRun]. rewrite E. cbn [obind].
  destruct (auxStep_ok g (w n) x1 O) as (x2 & E2 & O2 & B2 & G2 & _). exists x2. repeat split; auto; try congruence; apply O2.
Qed.

(** After any number of steps with any waveform the updates have stayed inside
    their arrays; and every look-up at a sample the corrections use is inside the
    arrays and does not reach the absorber at the end of the auxiliary grid.
    This holds with a margin: the distance may be off by up to a whole cell. *)
Theorem C29_inside : forall g th ph, (forall a, g (face_lo a) <= g (face_hi a))%Z -> 0 <= th <= 180 -> 0 <= ph < 360 ->
  forall dt d0 rel w n, exists x o, auxRun g w n (initAux g dt d0 rel) = Some x /\ origin g th ph = Some o /\
  forall f i j k, looked_up g f i j k ->
  (exists v, forall fi, incidentFieldAuxGrid fi (kinc th ph) o x f i j k = Some (fi * v)) /\
  forall d', - 1 <= d' - auxDist (kinc th ph) o f i j k <= 1 ->
  exists q s, (0 <= q /\ q + 1 < auxXb g)%Z /\ 0 <= s < 1 /\
  auxLookup x f d' = Some ((1 - s) * auxArr x f q + s * auxArr x f (q + 1)%Z).
Proof.
  intros g th ph N HT HP dt d0 rel w n.
  destruct (auxRun_ok g w n _ (init_ok g dt d0 rel)) as (x & E & OK & _).
  destruct (C28_origin g th ph HT HP) as (o & HO & _). exists x, o. split; [exact E|]. split; [exact HO|].
  intros f i j k LU. destruct (near_dist g th ph o f i j k N HT HP HO) as [D1 D2].
  assert (LK : forall d', - 1 <= d' - auxDist (kinc th ph) o f i j k <= 1 ->
    exists q s, (0 <= q /\ q + 1 < auxXb g)%Z /\ 0 <= s < 1 /\
    auxLookup x f d' = Some ((1 - s) * auxArr x f q + s * auxArr x f (q + 1)%Z)).
  { intros d' Hd. apply (lookup_ok g x f (auxDist (kinc th ph) o f i j k) d' OK Hd).
    unfold looked_up in LU. destruct (is_E f); auto. }
  split; [|exact LK].
  destruct (LK (auxDist (kinc th ph) o f i j k)) as (q & s & _ & _ & L); [lra|].
  exists ((1 - s) * auxArr x f q + s * auxArr x f (q + 1)%Z). intros fi. unfold incidentFieldAuxGrid. rewrite L. reflexivity.
Qed.
Example C29_nonvacuous : let g := mkbox 3 6 3 6 3 6 in
  looked_up g HZ 3 2 4 /\ looked_up g EX 5 6 3 /\ auxXb g = 11%Z.
Proof.
  cbv zeta. split; [|split].
  - exists YDIR. intros []; unfold offset; cbn [is_E fld_axis axis_eqb face_lo face_hi mkbox ind]; lia.
  - intros []; unfold offset; cbn [is_E fld_axis axis_eqb face_lo face_hi mkbox ind]; lia.
  - rewrite xb_diag. unfold diagF. replace (diag2 (mkbox 3 6 3 6 3 6)) with 27%Z by reflexivity.
    rewrite (floor_int 5); [reflexivity|]. split.
    + rewrite <- (sqrt_square 5) by lra. apply sqrt_le_1_alt. lra.
    + replace (IZR 5 + 1) with (sqrt 36) by (replace 36 with (6 * 6) by lra; rewrite sqrt_square by lra; lra). apply sqrt_lt_1_alt. lra.
Qed.
