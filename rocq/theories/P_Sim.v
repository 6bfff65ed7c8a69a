(** C32: the number of time steps. *)
From Coq Require Import ZArith List Bool Lia.
From Verif Require Import Lang CStr Sim ObserverProofs.
Import ListNotations.
Open Scope Z_scope.
Local Arguments Z.mul : simpl never.
Local Arguments Z.add : simpl never.
Local Arguments Z.sub : simpl never.

(** Value of a decimal numeral. *)
Fixpoint decimal (ds : list Z) : Z :=
  match ds with [] => 0 | d :: l => (d - 48) * 10 ^ Z.of_nat (length l) + decimal l end.
Definition numeral (ds : list Z) : Prop := ds <> [] /\ Forall (fun d => 48 <= d <= 57) ds.
(** what follows the number on the card *)
Definition ends (rest : list Z) : Prop := match rest with [] => True | c :: _ => ~ 48 <= c <= 57 end.

Lemma isdigit_iff c : isdigit c = true <-> 48 <= c <= 57.
Proof. unfold isdigit. rewrite andb_true_iff, !Z.leb_le. reflexivity. Qed.
Lemma digits_value ds : Forall (fun d => 48 <= d <= 57) ds -> forall acc rest, ends rest ->
  digits acc (ds ++ rest) = acc * 10 ^ Z.of_nat (length ds) + decimal ds.
Proof.
  induction 1 as [|d ds Hd Hds IH]; intros acc rest HR; cbn [app decimal length].
  - rewrite Z.pow_0_r, Z.mul_1_r, Z.add_0_r. destruct rest as [|c r]; cbn [digits]; [reflexivity|].
    destruct (isdigit c) eqn:E; [|reflexivity]. apply isdigit_iff in E. contradiction.
  - cbn [digits]. assert (E : isdigit d = true) by (apply isdigit_iff; exact Hd). rewrite E, IH by exact HR.
    rewrite Nat2Z.inj_succ, Z.pow_succ_r by lia. ring.
Qed.
Lemma skip_blanks bl l : forallb isspace bl = true -> match l with [] => True | c :: _ => isspace c = false end -> skipBlanks (bl ++ l) = l.
Proof.
  intros HB HL. induction bl as [|b bl IH]; cbn [app skipBlanks].
  - destruct l; cbn [skipBlanks]; [reflexivity|]. rewrite HL. reflexivity.
  - cbn [forallb] in HB. apply andb_true_iff in HB. destruct HB as [-> HB]. auto.
Qed.
Lemma digit_not_space c : 48 <= c <= 57 -> isspace c = false.
Proof. intros. unfold isspace. destruct (Z.eqb_spec c 32), (Z.leb_spec 9 c), (Z.leb_spec c 13); try lia; reflexivity. Qed.

(** The NT card sets the number written on it, or the largest number the counter
    can hold (sscanf saturates). *)
Theorem C32_card : forall blanks ds rest, forallb isspace blanks = true -> numeral ds -> ends rest ->
  parseNT (blanks ++ ds ++ rest) = Some (Z.min (decimal ds) (2 ^ 64 - 1)).
Proof.
  intros bl ds rest HB [HN HD] HR. unfold parseNT, scanUnsigned.
  destruct ds as [|d ds]; [congruence|]. inversion HD as [|? ? Hd Hds]; subst.
  rewrite skip_blanks; [|exact HB|cbn [app]; apply digit_not_space; exact Hd].
  pose proof (digits_value (d :: ds) HD 0 rest HR) as V. cbn [app] in *.
  destruct (Z.eqb_spec d 45); [lia|]. destruct (Z.eqb_spec d 43); [lia|].
  assert (E : isdigit d = true) by (apply isdigit_iff; exact Hd). rewrite E.
  rewrite V, Z.mul_0_l, Z.add_0_l. unfold ULONG. destruct (Z.ltb_spec (2 ^ 64 - 1) (decimal (d :: ds))); [rewrite Z.min_r by lia; reflexivity|rewrite Z.min_l by lia].
  assert (P : forall l, Forall (fun d => 48 <= d <= 57) l -> 0 <= decimal l).
  { induction 1 as [|x l X L IH]; cbn [decimal]; [lia|]. assert (0 < 10 ^ Z.of_nat (length l)) by (apply Z.pow_pos_nonneg; lia). nia. }
  specialize (P _ HD). destruct (Z.ltb_spec (decimal (d :: ds)) 0); [lia|reflexivity].
Qed.

(** Exactly NT time steps, numbers 0 .. NT-1 in this order, for every positive
    NT; [body t] is one whole time step. *)
Theorem C32_exactly_NT_partial : forall (S : Type) (body : Z -> S -> S) NT s, 1 <= NT < 2 ^ 64 ->
  forall fuel, NT < Z.of_nat fuel ->
  propagate (fun t s => Fin (body t s)) fuel NT s = Fin (fold_left (fun s t => body t s) (zrange 0 (NT - 1)) s).
Proof.
  intros S body NT s HN fuel HF. unfold propagate.
  destruct (timeLoop_inv (fun t s => Fin (body t s)) (fun t s' => s' = fold_left (fun s t => body t s) (zrange 0 (t - 1)) s) NT HN)
    with (fuel := fuel) (t := 0) (s := s) as (s' & E & H).
  - intros t s1 Ht ->. eexists. split; [reflexivity|]. replace (t + 1 - 1) with (t - 1 + 1) by lia.
    rewrite zrange_snoc by lia. rewrite fold_left_app. cbn [fold_left]. replace (t - 1 + 1) with t by lia. reflexivity.
  - lia.
  - lia.
  - rewrite zrange_empty by lia. reflexivity.
  - rewrite E, H. reflexivity.
Qed.

(** With NT 0, which the card accepts (its message says "must be >= 0"), the loop never ends. *)
Theorem C32_zero_steps_refuted :
  parseNT [48] = Some 0 /\
  forall (S : Type) (body : Z -> S -> S) s fuel, propagate (fun t s => Fin (body t s)) fuel 0 s = More.
Proof.
  split; [reflexivity|]. intros S body s fuel. unfold propagate.
  assert (G : forall fuel t s, 0 <= t < ULONG -> timeLoop (fun t s => Fin (body t s)) fuel 0 t s = More).
  { clear. induction fuel as [|fuel IH]; intros t s Ht; [reflexivity|]. cbn [timeLoop rbind].
    change (ulong (0 - 1)) with (ULONG - 1). destruct (Z.leb_spec t (ULONG - 1)); [|lia].
    apply IH. unfold ulong. apply Z.mod_pos_bound. reflexivity. }
  apply G. unfold ULONG. lia.
Qed.
(** A negative number of steps is accepted too, as a number close to 2^64. *)
Theorem C32_negative_refuted : forall ds rest, numeral ds -> ends rest -> 1 <= decimal ds < 2 ^ 64 ->
  parseNT (45 :: ds ++ rest) = Some (2 ^ 64 - decimal ds).
Proof.
  intros ds rest [HN HD] HR HV. unfold parseNT, scanUnsigned. 
  destruct ds as [|d ds]; [congruence|]. inversion HD as [|? ? Hd Hds]; subst.
  pose proof (digits_value (d :: ds) HD 0 rest HR) as V.
  change (skipBlanks (45 :: (d :: ds) ++ rest)) with (45 :: (d :: ds) ++ rest).
  change (45 =? 45) with true. cbv iota beta. cbn [app] in *.
  assert (E : isdigit d = true) by (apply isdigit_iff; exact Hd). change (45 =? 45) with true. cbv iota beta. rewrite E.
  rewrite V, Z.mul_0_l, Z.add_0_l. unfold ulong, ULONG. destruct (Z.ltb_spec (2 ^ 64 - 1) (decimal (d :: ds))); [lia|].
  assert (M : (- decimal (d :: ds)) mod 2 ^ 64 = 2 ^ 64 - decimal (d :: ds)).
  { symmetry. apply (Z.mod_unique_pos _ _ (-1)); lia. }
  rewrite M. destruct (Z.ltb_spec (2 ^ 64 - decimal (d :: ds)) 0); [lia|reflexivity].
Qed.
Example C32_nonvacuous : parseNT [32; 49; 48; 10] = Some 10 /\
  propagate (fun t l => Fin (l ++ [t])) 20 3 [] = Fin [0; 1; 2].
Proof. split; reflexivity. Qed.
