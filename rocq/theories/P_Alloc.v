(** C36: array allocation. *)
From Coq Require Import ZArith List Bool Lia.
From Verif Require Import Alloc SpecAlloc.
Import ListNotations.
Open Scope Z_scope.
Local Arguments Z.mul : simpl never.
Local Arguments Z.add : simpl never.
Local Arguments Z.sub : simpl never.

Lemma u64_id x : 0 <= x < 2 ^ 64 -> u64 x = x.
Proof. intros. unfold u64. apply Z.mod_small; auto. Qed.
Opaque u64.

Lemma elements_pos es : Forall (fun e => 0 < e) es -> 0 < elements es.
Proof. induction 1; cbn [elements fold_right]; [lia|]. unfold elements in *. nia. Qed.

Lemma pointers_nonneg es : forall r, 0 <= r -> Forall (fun e => 0 < e) es -> 0 <= pointers r es.
Proof.
  induction es as [|e es IH]; intros r H F; cbn [pointers]; [lia|]. inversion_clear F. destruct es; [lia|].
  assert (0 <= pointers (r * e) (z :: es)) by (apply IH; auto; nia). nia.
Qed.

(** what one layer of the loop stores *)
Lemma fillLoop_spec n : forall dest step, 0 <= dest -> 0 <= step -> dest + Z.of_nat n * step < 2 ^ 64 ->
  let '(vs, d') := fillLoop n dest step in
  length vs = n /\ d' = dest + Z.of_nat n * step /\
  forall j, (j < n)%nat -> nth_error vs j = Some (dest + Z.of_nat j * step).
Proof.
  induction n; intros dest step H1 H2 H3; cbn [fillLoop].
  - split; [reflexivity|]. split; [lia|]. intros j Hj. lia.
  - rewrite u64_id by nia. specialize (IHn (dest + step) step ltac:(lia) H2 ltac:(lia)).
    destruct (fillLoop n (dest + step) step) as [vs d']. destruct IHn as (L & D & V).
    split; [cbn; lia|]. split; [lia|]. intros [|j] Hj; cbn [nth_error]; [f_equal; lia|].
    rewrite V by lia. f_equal. lia.
Qed.

(** The walk: the tables from layer [l] on, with [s] slots before them. *)
Section Walk.
Variables (size base : Z).
Hypotheses (SP : 0 < size) (BP : 0 <= base).

(** the walk through the pointer tables; [lin] is the row reached so far *)
Lemma walk : forall es pre l lin e0 idx,
  es <> [] ->
  0 < l -> 0 < e0 -> Forall (fun e => 0 < e) es ->
  base + PTR * (Z.of_nat (length pre) + l + pointers l es) + l * elements es * size < 2 ^ 64 ->
  forall i, 0 <= lin -> 0 <= i -> lin * e0 + i < l -> indexes es idx ->
  elementAddress size base
    (pre ++ fillTables size (base + PTR * (Z.of_nat (length pre) + l)) (combine (l :: layersFrom l es) es))
    (base + PTR * (Z.of_nat (length pre) + lin * e0)) (i :: idx)
  = Some (base + PTR * (Z.of_nat (length pre) + l + pointers l es)
          + size * fold_left (fun s ie => s * snd ie + fst ie) (combine idx es) (lin * e0 + i)).
Proof.
  induction es as [|e es IH]; intros pre l lin e0 idx NE HL HE F B i Hlin Hi HB IX; [congruence|].
  inversion F; subst. inversion IX as [|i1 ? idx' ? HI1 IX']; subst.
  assert (EP : 0 < elements es) by (apply elements_pos; auto).
  assert (EE : elements (e :: es) = e * elements es) by reflexivity. rewrite EE in B.
  assert (PN : 0 <= pointers l (e :: es)) by (apply pointers_nonneg; auto; lia).
  unfold PTR in *.
  assert (LOAD : forall p tab, nth_error tab (Z.to_nat (Z.of_nat (length pre) + lin * e0 + i)) = Some p ->
     load base tab (base + 8 * (Z.of_nat (length pre) + lin * e0) + i * 8) = Some p).
  { intros p tab HT. unfold load, PTR.
    replace (base + 8 * (Z.of_nat (length pre) + lin * e0) + i * 8 - base) with ((Z.of_nat (length pre) + lin * e0 + i) * 8) by lia.
    rewrite Z.mod_mul, Z.div_mul by lia. destruct (Z.ltb_spec ((Z.of_nat (length pre) + lin * e0 + i) * 8) 0); [nia|]. exact HT. }
  set (lin' := lin * e0 + i) in *.
  assert (L0 : 0 <= lin') by (unfold lin'; nia).
  cbn [layersFrom combine fillTables elementAddress].
  destruct es as [|e2 es2].
  - inversion IX'; subst. cbn [layersFrom combine pointers] in *.
    rewrite u64_id by nia. unfold elements in *. cbn [fold_right] in *.
    pose proof (fillLoop_spec (Z.to_nat l) (base + 8 * (Z.of_nat (length pre) + l)) (e * size) ltac:(nia) ltac:(nia)) as FS.
    rewrite Z2Nat.id in FS by lia. specialize (FS ltac:(nia)). destruct (fillLoop _ _ _) as [vs d']. destruct FS as (LV & _ & V).
    cbn [fst]. rewrite (LOAD (base + 8 * (Z.of_nat (length pre) + l) + lin' * (e * size))).
    + f_equal. cbn [fold_left fst snd]. lia.
    + replace (Z.to_nat (Z.of_nat (length pre) + lin * e0 + i)) with (length pre + Z.to_nat lin')%nat by (unfold lin' in *; lia).
      rewrite nth_error_app2 by lia. replace (length pre + Z.to_nat lin' - length pre)%nat with (Z.to_nat lin') by lia.
      rewrite V by lia. rewrite Z2Nat.id by lia. reflexivity.
  - assert (PN2 : 0 <= pointers (l * e) (e2 :: es2)) by (apply pointers_nonneg; auto; nia).
    assert (PE : pointers l (e :: e2 :: es2) = l * e + pointers (l * e) (e2 :: es2)) by reflexivity.
    inversion IX' as [|i2 ? idx2 ? HI2 IX2]; subst.
    assert (LE : u64 (l * e) = l * e) by (apply u64_id; nia).
    rewrite LE. unfold PTR. rewrite (u64_id (e * 8)) by nia.
    assert (LN : layersFrom l (e :: e2 :: es2) = l * e :: layersFrom (l * e) (e2 :: es2)).
    { cbn [layersFrom]. rewrite LE. reflexivity. }
    pose proof (fillLoop_spec (Z.to_nat l) (base + 8 * (Z.of_nat (length pre) + l)) (e * 8) ltac:(nia) ltac:(nia)) as FS.
    rewrite Z2Nat.id in FS by lia. specialize (FS ltac:(nia)). destruct (fillLoop _ _ _) as [vs d']. destruct FS as (LV & D & V).
    set (ls := combine (l * e :: layersFrom (l * e) (e2 :: es2)) (e2 :: es2)).
    assert (TB : pre ++ vs ++ fillTables size d' ls = (pre ++ vs) ++ fillTables size (base + 8 * (Z.of_nat (length (pre ++ vs)) + l * e)) ls).
    { rewrite <- app_assoc. do 2 f_equal. f_equal. rewrite app_length, LV. rewrite D, Nat2Z.inj_add, Z2Nat.id by lia. lia. }
    match goal with |- match load base (pre ++ ?T) _ with _ => _ end = _ => change T with (vs ++ fillTables size d' ls) end.
    rewrite TB.
    rewrite (LOAD (base + 8 * (Z.of_nat (length pre) + l) + lin' * (e * 8))).
    + specialize (IH (pre ++ vs) (l * e) lin' e (i2 :: idx2) ltac:(discriminate) ltac:(nia) ltac:(lia) ltac:(assumption)).
      assert (LP : Z.of_nat (length (pre ++ vs)) = Z.of_nat (length pre) + l) by (rewrite app_length, LV; lia).
      rewrite LP in *.
      assert (B2 : base + 8 * (Z.of_nat (length pre) + l + l * e + pointers (l * e) (e2 :: es2)) + l * e * elements (e2 :: es2) * size < 2 ^ 64).
      { rewrite PE in B. clear - B. lia. }
      specialize (IH B2 i1 L0 ltac:(lia)). 
      assert (B3 : lin' * e + i1 < l * e) by nia.
      specialize (IH B3 IX'). fold ls in IH.
      replace (base + 8 * (Z.of_nat (length pre) + l) + lin' * (e * 8)) with (base + 8 * (Z.of_nat (length pre) + l + lin' * e)) by lia.
      etransitivity; [exact IH|]. f_equal. rewrite PE. cbn [combine fold_left fst snd]. lia.
    + replace (Z.to_nat (Z.of_nat (length pre) + lin * e0 + i)) with (length pre + Z.to_nat lin')%nat by (unfold lin' in *; lia).
      rewrite <- app_assoc. rewrite nth_error_app2 by lia. replace (length pre + Z.to_nat lin' - length pre)%nat with (Z.to_nat lin') by lia.
      rewrite nth_error_app1 by lia.
      rewrite V by lia. rewrite Z2Nat.id by lia. reflexivity.
Qed.
End Walk.

(** row-major position of an element *)
Definition rowmajor (extent idx : list Z) : Z := fold_left (fun s ie => s * snd ie + fst ie) (combine idx extent) 0.
Lemma rowmajor_from es : forall idx s, indexes es idx -> Forall (fun e => 0 < e) es ->
  s * elements es <= fold_left (fun s ie => s * snd ie + fst ie) (combine idx es) s < (s + 1) * elements es.
Proof.
  induction es as [|e es IH]; intros idx s IX F; inversion IX as [|i ? idx' ? HI IX']; subst.
  - unfold elements. cbn. lia.
  - inversion F; subst. cbn [combine fold_left fst snd]. specialize (IH idx' (s * e + i) IX' H2).
    assert (EP : 0 < elements es) by (apply elements_pos; auto).
    change (elements (e :: es)) with (e * elements es). nia.
Qed.
Lemma rowmajor_bound es idx : indexes es idx -> Forall (fun e => 0 < e) es -> 0 <= rowmajor es idx < elements es.
Proof. intros IX F. pose proof (rowmajor_from es idx 0 IX F). unfold rowmajor. lia. Qed.
Lemma rowmajor_inj_from es : forall idx idx' s s', indexes es idx -> indexes es idx' -> Forall (fun e => 0 < e) es ->
  fold_left (fun s ie => s * snd ie + fst ie) (combine idx es) s = fold_left (fun s ie => s * snd ie + fst ie) (combine idx' es) s' ->
  s = s' /\ idx = idx'.
Proof.
  induction es as [|e es IH]; intros idx idx' s s' I1 I2 F E; inversion I1 as [|i ? t ? HI IT]; inversion I2 as [|i' ? t' ? HI' IT']; subst.
  - auto.
  - inversion F; subst. cbn [combine fold_left fst snd] in E. apply IH in E; auto. destruct E as (E & ->).
    assert (s = s') by nia. subst. assert (i = i') by lia. subst. auto.
Qed.

Lemma layersFrom_last es : forall l d, 0 < l -> Forall (fun e => 0 < e) es -> l * elements es < 2 ^ 64 ->
  last (l :: layersFrom l es) d = l * elements es /\
  forall s, 0 <= s -> s + pointers l es + (if match es with [] => true | _ => false end then 0 else l) < 2 ^ 64 ->
  fold_left (fun s l => u64 (s + l)) (removelast (l :: layersFrom l es)) s = s + (if match es with [] => true | _ => false end then 0 else l) + pointers l es.
Proof.
  induction es as [|e es IH]; intros l d HL F B; cbn [layersFrom].
  - unfold elements. cbn. split; [lia|]. intros. lia.
  - inversion F; subst. assert (EP : 0 < elements es) by (apply elements_pos; auto).
    change (elements (e :: es)) with (e * elements es) in *.
    assert (LE : u64 (l * e) = l * e) by (apply u64_id; nia). rewrite LE.
    destruct (IH (l * e) d ltac:(nia) H2 ltac:(nia)) as (I1 & I2). split.
    + change (last (l :: l * e :: layersFrom (l * e) es) d) with (last (l * e :: layersFrom (l * e) es) d). rewrite I1. lia.
    + intros s Hs Hb. change (removelast (l :: l * e :: layersFrom (l * e) es)) with (l :: removelast (l * e :: layersFrom (l * e) es)).
      assert (PN : 0 <= pointers l (e :: es)) by (apply pointers_nonneg; auto; lia).
      cbn [fold_left]. rewrite u64_id by lia. rewrite I2.
      * destruct es; cbn [pointers]; lia.
      * lia.
      * destruct es; cbn [pointers] in *; lia.
Qed.

(** Every array of positive extents that fits in the address space (any number
    of dimensions, any element size): the block has exactly the size of the
    pointer tables and the elements; following the pointers is defined for every
    index tuple and leads to an element inside the block, after the tables;
    different index tuples have disjoint elements; elements are contiguous in
    row-major order; and every element is as aligned as the block. *)
Theorem C36_allocation : forall extent size base, extent <> [] -> Forall (fun e => 0 < e) extent -> 0 < size -> 0 <= base ->
  let tables := PTR * pointers 1 extent in
  base + tables + size * elements extent < 2 ^ 64 ->
  blockSize size extent = tables + size * elements extent /\
  (forall idx, indexes extent idx -> exists p, address size base extent idx = Some p /\
     base + tables <= p /\ p + size <= base + blockSize size extent /\
     p = base + tables + size * rowmajor extent idx /\
     (forall g, (g | base) -> (g | 8) -> (g | size) -> (g | p))) /\
  (forall idx idx' p p', indexes extent idx -> indexes extent idx' -> idx <> idx' ->
     address size base extent idx = Some p -> address size base extent idx' = Some p' -> p + size <= p' \/ p' + size <= p).
Proof.
  intros extent size base NE F SP BP tables B.
  destruct extent as [|e es]; [congruence|]. inversion F; subst.
  assert (EP : 0 < elements es) by (apply elements_pos; auto).
  assert (EE : elements (e :: es) = e * elements es) by reflexivity.
  assert (PN : 0 <= pointers 1 (e :: es)) by (apply pointers_nonneg; auto; lia).
  assert (PE : pointers 1 (e :: es) = (if match es with [] => true | _ => false end then 0 else e) + pointers e es).
  { destruct es; cbn [pointers]; [lia|]. rewrite Z.mul_1_l. reflexivity. }
  assert (PNe : 0 <= pointers e es) by (apply pointers_nonneg; auto; lia).
  assert (BS : blockSize size (e :: es) = tables + size * elements (e :: es)).
  { unfold blockSize, inNodes, lengthOfLayer. unfold tables, PTR in *. rewrite EE in *.
    rewrite (u64_id e) by nia.
    destruct (layersFrom_last es e 0 H1 H2 ltac:(nia)) as (LL & LN).
    rewrite LL, LN by (destruct es; lia). rewrite Z.add_0_l, <- PE.
    rewrite (u64_id (pointers 1 (e :: es) * 8)), (u64_id (e * elements es * size)), u64_id by nia. lia. }
  assert (AD : forall idx, indexes (e :: es) idx -> address size base (e :: es) idx = Some (base + tables + size * rowmajor (e :: es) idx)).
  { intros idx IX. inversion IX as [|i ? idx' ? HI IX']; subst. unfold address, pointerTable, lengthOfLayer. cbn [hd tl].
    unfold tables, PTR in *. rewrite EE in B.
    rewrite (u64_id e) by nia.
    assert (BD : base + e * 8 < 2 ^ 64 \/ es = []) by (destruct es; [right; reflexivity|left; nia]).
    destruct es as [|e2 es2].
    - inversion IX'; subst. cbn [elementAddress]. f_equal. unfold rowmajor. cbn. lia.
    - destruct BD as [BD|BD]; [|discriminate BD]. rewrite u64_id by lia.
      pose proof (walk size base SP BP (e2 :: es2) [] e 0 1 idx' ltac:(discriminate) H1 ltac:(lia) H2) as WK. unfold PTR in WK.
      cbn [length app] in WK. change (Z.of_nat 0) with 0 in WK.
      specialize (WK ltac:(lia) i ltac:(lia) ltac:(lia) ltac:(lia) IX').
      replace (base + e * 8) with (base + 8 * (0 + e)) by lia.
      replace (base + 8 * (0 + 0 * 1)) with base in WK by lia.
      rewrite WK. f_equal. rewrite PE. unfold rowmajor. cbn [combine fold_left fst snd]. rewrite Z.mul_0_l, !Z.add_0_l. lia. }
  split; [exact BS|]. split.
  - intros idx IX. eexists. split; [apply AD; auto|]. pose proof (rowmajor_bound _ _ IX F). rewrite BS.
    repeat split; try nia. intros g D1 D2 D3. unfold tables, PTR.
    apply Z.divide_add_r; [apply Z.divide_add_r; [auto|apply Z.divide_mul_l; auto]|apply Z.divide_mul_l; auto].
  - intros idx idx' p p' I1 I2 NEQ A1 A2. rewrite (AD _ I1) in A1. rewrite (AD _ I2) in A2. injection A1 as <-. injection A2 as <-.
    assert (rowmajor (e :: es) idx <> rowmajor (e :: es) idx').
    { intros Q. apply NEQ. unfold rowmajor in Q. apply rowmajor_inj_from in Q; auto. tauto. }
    nia.
Qed.
(** a 10 x 20 x 30 array of doubles at a typical address *)
Example C36_nonvacuous : Forall (fun e => 0 < e) [10; 20; 30] /\
  94000000000016 + PTR * pointers 1 [10; 20; 30] + 8 * elements [10; 20; 30] < 2 ^ 64 /\
  indexes [10; 20; 30] [9; 19; 29] /\ address 8 94000000000016 [10; 20; 30] [9; 19; 29] = Some (94000000000016 + 8 * 210 + 8 * 5999).
Proof.
  split; [repeat constructor|]. split; [reflexivity|]. split; [|vm_compute; reflexivity].
  unfold indexes. repeat (constructor; try lia).
Qed.

(** The products are not checked for overflow: a 2-D array of 2^30 x 2^30
    16-byte elements gets a block of 8 GiB, smaller than its pointer tables and
    elements by far. *)
Theorem C36_overflow_refuted : blockSize 16 [2 ^ 30; 2 ^ 30] = 2 ^ 33 /\ 16 * elements [2 ^ 30; 2 ^ 30] = 2 ^ 64.
Proof. split; reflexivity. Qed.
Print Assumptions C36_allocation.
