(** C67: cards are read as written. *)
From Coq Require Import ZArith List Bool Ascii String Reals Lia Lra.
From Verif Require Import CStr Sim P_Sim Scan SpecScan.
Import ListNotations.
Open Scope Z_scope.

Lemma isspace_iff c : isspace c = true <-> wblank c.
Proof. unfold isspace, wblank. rewrite orb_true_iff, andb_true_iff, Z.eqb_eq, !Z.leb_le. tauto. Qed.
Lemma isspace_false c : isspace c = false <-> ~ wblank c.
Proof. rewrite <- isspace_iff. destruct (isspace c); split; intuition congruence. Qed.
Lemma skip_bl bl l : blanks bl -> match l with [] => True | c :: _ => ~ wblank c end -> skipBlanks (bl ++ l) = l.
Proof.
  intros B N. induction B as [|c bl W _ IH]; cbn [app].
  - destruct l as [|c l]; cbn; [reflexivity|]. apply isspace_false in N. now rewrite N.
  - cbn. apply isspace_iff in W. now rewrite W.
Qed.
Lemma skip_all bl : blanks bl -> skipBlanks bl = [].
Proof. intros B. rewrite <- (app_nil_r bl). apply skip_bl; [exact B|exact I]. Qed.
Lemma span_app p l tail : Forall (fun c => p c = true) l -> match tail with [] => True | c :: _ => p c = false end ->
  span p (l ++ tail) = (l, tail).
Proof.
  intros F T. induction F as [|c l H _ IH]; cbn [app].
  - destruct tail as [|c t]; cbn; [reflexivity|]. now rewrite T.
  - cbn. rewrite H, IH. reflexivity.
Qed.
Lemma spanN_app p l tail n : Forall (fun c => p c = true) l -> (List.length l <= n)%nat ->
  match tail with [] => True | c :: _ => p c = false end -> spanN n p (l ++ tail) = (l, tail).
Proof.
  intros F. revert n. induction F as [|c l H _ IH]; intros n L T; cbn [app].
  - destruct n, tail as [|c t]; cbn; try reflexivity. now rewrite T.
  - destruct n as [|n]; [cbn in L; lia|]. cbn in L. cbn. rewrite H, IH; [reflexivity|lia|exact T].
Qed.
Lemma value_app a b : value (a ++ b) = value a * 10 ^ Z.of_nat (List.length b) + value b.
Proof.
  unfold value. rewrite fold_left_app. generalize (fold_left (fun v c => 10 * v + (c - 48)) a 0). 
  induction b as [|c b IH] using rev_ind; intros v; [cbn; lia|].
  rewrite !fold_left_app, IH. cbn [fold_left]. rewrite app_length. cbn [List.length].
  replace (Z.of_nat (List.length b + 1)) with (Z.of_nat (List.length b) + 1) by lia. rewrite Z.pow_add_r by lia. change (10 ^ 1) with 10. ring.
Qed.
Lemma natlit_digits l v : natlit l v -> Forall (fun c => isdigit c = true) l /\ l <> [] /\ value l = v /\ 0 <= v.
Proof.
  induction 1 as [d D|ds v d _ (F & N & V & P) D].
  - split; [constructor; [apply isdigit_iff; lia|constructor]|]. split; [discriminate|]. split; [unfold value; cbn [fold_left List.length]; lia|lia].
  - split; [apply Forall_app; split; [exact F|constructor; [apply isdigit_iff; lia|constructor]]|].
    split; [intros E; apply app_eq_nil in E; destruct E; discriminate|].
    split; [rewrite value_app, V; unfold value; cbn [fold_left List.length]; lia|lia].
Qed.
Lemma break_digit tail : at_break tail -> match tail with [] => True | c :: _ => isdigit c = false end.
Proof.
  intros [->|(c & t & -> & W)]; [exact I|]. apply not_true_iff_false. rewrite isdigit_iff. unfold wblank in W. lia.
Qed.
Lemma digit_dark c : isdigit c = true -> ~ wblank c /\ c <> 43 /\ c <> 45 /\ c <> 46 /\ c <> 101 /\ c <> 69.
Proof. rewrite isdigit_iff. unfold wblank. lia. Qed.
Lemma sign_app s n l : signed s n -> match l with [] => True | c :: _ => c <> 43 /\ c <> 45 end -> sign (s ++ l) = (n, l).
Proof.
  intros S N. destruct S; cbn [app sign]; try reflexivity.
  destruct l as [|c l]; [reflexivity|]. destruct N as (A & B). cbn.
  destruct (Z.eqb_spec c 45); [congruence|]. destruct (Z.eqb_spec c 43); [congruence|reflexivity].
Qed.
Lemma digits_head (l tail : list Z) : Forall (fun c => isdigit c = true) l -> l <> [] ->
  match (l ++ tail)%list with [] => True | c :: _ => c <> 43 /\ c <> 45 end /\ match (l ++ tail)%list with [] => True | c :: _ => ~ wblank c end.
Proof.
  intros F N. destruct l as [|c l]; [congruence|]. inversion F as [|? ? D _]; subst. apply digit_dark in D. cbn. tauto.
Qed.
Lemma signed_head s n (l : list Z) : signed s n -> match l with [] => True | c :: _ => ~ wblank c end -> match (s ++ l)%list with [] => True | c :: _ => ~ wblank c end.
Proof. intros S N. destruct S; cbn [app]; try exact N; unfold wblank; lia. Qed.
Lemma neg_value (n : bool) (v : Z) : (if n then - v else v) = neg n v. Proof. reflexivity. Qed.
Lemma value_nil : value [] = 0. Proof. reflexivity. Qed.

Lemma scan_int bl l z tail : blanks bl -> intlit l z -> - 2 ^ 31 <= z < 2 ^ 31 -> at_break tail -> scanInt (bl ++ l ++ tail) = Some (z, tail).
Proof.
  intros B I Z K. destruct I as [s n ds v S D]. destruct (natlit_digits _ _ D) as (F & N & V & P).
  unfold scanInt. rewrite <- app_assoc.
  rewrite skip_bl; [|exact B|apply (signed_head _ _ _ S); exact (proj2 (digits_head _ _ F N))].
  rewrite (sign_app _ _ _ S (proj1 (digits_head _ _ F N))). rewrite (span_app _ _ _ F (break_digit _ K)).
  destruct ds as [|d ds']; [congruence|]. rewrite V, neg_value. f_equal. f_equal.
  unfold saturate, LONGMAX, toInt. rewrite Z.min_r, Z.max_r by lia. rewrite Z.mod_small; lia.
Qed.
Lemma scan_count bl l z tail : blanks bl -> natlit l z -> z < 2 ^ 64 -> at_break tail -> scanULong (bl ++ l ++ tail) = Some (z, tail).
Proof.
  intros B D Z K. destruct (natlit_digits _ _ D) as (F & N & V & P).
  unfold scanULong.
  rewrite skip_bl; [|exact B|exact (proj2 (digits_head _ _ F N))].
  rewrite (sign_app [] false _ sg_none (proj1 (digits_head _ _ F N)) : sign (l ++ tail) = _). rewrite (span_app _ _ _ F (break_digit _ K)).
  destruct l as [|d ds']; [congruence|]. rewrite V. unfold ULONG. replace (2 ^ 64 - 1 <? z) with false by (symmetry; apply Z.ltb_ge; lia). reflexivity.
Qed.
Lemma scan_exp e k tail : exponent e k -> at_break tail -> scanExp (e ++ tail) = (k, tail).
Proof.
  intros E K. destruct E as [|e l v E I].
  - cbn [app]. destruct K as [->|(c & t & -> & W)]; [reflexivity|]. cbn. unfold isE.
    destruct (Z.eqb_spec c 101); [unfold wblank in W; lia|]. destruct (Z.eqb_spec c 69); [unfold wblank in W; lia|]. reflexivity.
  - cbn [app]. cbn [scanExp]. assert (isE e = true) as -> by (unfold isE; destruct E as [-> | ->]; reflexivity).
    destruct I as [s n ds v S D]. destruct (natlit_digits _ _ D) as (F & N & V & P). rewrite <- app_assoc.
    rewrite (sign_app _ _ _ S (proj1 (digits_head _ _ F N))). rewrite (span_app _ _ _ F (break_digit _ K)). rewrite V. reflexivity.
Qed.
Lemma digs_digits l v : digs l v -> Forall (fun c => isdigit c = true) l /\ value l = v.
Proof. intros D. destruct D as [|ds v D]; [split; [constructor|reflexivity]|]. destruct (natlit_digits _ _ D) as (F & _ & V & _). auto. Qed.
Lemma exp_head e k tail : exponent e k -> at_break tail -> match (e ++ tail)%list with [] => True | c :: _ => isdigit c = false /\ c <> 46 end.
Proof.
  intros E K. destruct E as [|e l v E I]; cbn [app].
  - destruct K as [->|(c & t & -> & W)]; [exact I|]. split; [apply not_true_iff_false; rewrite isdigit_iff|]; unfold wblank in W; lia.
  - split; [apply not_true_iff_false; rewrite isdigit_iff|]; lia.
Qed.
Lemma IZR_pow10 n : IZR (10 ^ Z.of_nat n) = powerRZ 10 (Z.of_nat n).
Proof. induction n as [|n IH]; [reflexivity|]. rewrite Nat2Z.inj_succ, Z.pow_succ_r, mult_IZR, IH by lia. rewrite <- Z.add_1_l, powerRZ_add by lra. cbn [powerRZ]. simpl. lra. Qed.
Lemma scan_real bl l x tail : blanks bl -> reallit l x -> at_break tail -> scanReal (bl ++ l ++ tail) = Some (x, tail).
Proof.
  intros B L K. destruct L as [s n m y e k S M E].
  unfold scanReal. rewrite <- !app_assoc.
  assert (T : 10%R <> 0%R) by lra.
  destruct M as [ds v D|ip i fp f DI DF NE].
  - destruct (natlit_digits _ _ D) as (F & N & V & P).
    rewrite skip_bl; [|exact B|apply (signed_head _ _ _ S); exact (proj2 (digits_head _ _ F N))].
    rewrite (sign_app _ _ _ S (proj1 (digits_head _ _ F N))).
    pose proof (exp_head _ _ _ E K) as EH.
    rewrite (span_app isdigit ds (e ++ tail) F) by (destruct (e ++ tail)%list; [exact I|apply EH]).
    assert (match (e ++ tail)%list with [] => ([], []) | c :: l' => if c =? 46 then span isdigit l' else ([], e ++ tail)%list end = ([], (e ++ tail)%list)) as ->.
    { destruct (e ++ tail)%list as [|c t]; [reflexivity|]. destruct EH as (_ & EH). destruct (Z.eqb_spec c 46); [congruence|reflexivity]. }
    rewrite app_nil_r. rewrite (scan_exp _ _ _ E K). destruct ds as [|d ds']; [congruence|]. rewrite V. cbn [List.length]. rewrite Z.sub_0_r. reflexivity.
  - destruct (digs_digits _ _ DI) as (FI & VI). destruct (digs_digits _ _ DF) as (FF & VF).
    assert (HD : match (ip ++ 46 :: (fp ++ e ++ tail))%list with [] => True | c :: _ => (c <> 43 /\ c <> 45) /\ ~ wblank c end).
    { destruct ip as [|c ip]; cbn [app]; [unfold wblank; lia|]. inversion FI as [|? ? X _]; subst. apply digit_dark in X. tauto. }
    rewrite <- app_assoc. cbn [app].
    rewrite skip_bl; [|exact B|apply (signed_head _ _ _ S); clear -HD; destruct (ip ++ 46 :: (fp ++ e ++ tail))%list; [exact I|apply HD]].
    rewrite (sign_app _ _ _ S) by (clear -HD; destruct (ip ++ 46 :: (fp ++ e ++ tail))%list; [exact I|apply HD]).
    rewrite (span_app isdigit ip _ FI) by reflexivity.
    change (46 =? 46) with true. cbv iota.
    pose proof (exp_head _ _ _ E K) as EH.
    rewrite (span_app isdigit fp (e ++ tail) FF) by (destruct (e ++ tail)%list; [exact I|apply EH]).
    rewrite (scan_exp _ _ _ E K).
    destruct (ip ++ fp)%list as [|d ds] eqn:Q; [congruence|]. rewrite <- Q. rewrite value_app, VI, VF. f_equal. f_equal.
    rewrite plus_IZR, mult_IZR, IZR_pow10. unfold Z.sub. rewrite powerRZ_add by exact T.
    replace (powerRZ 10 (- Z.of_nat (List.length fp))) with (/ powerRZ 10 (Z.of_nat (List.length fp)))%R by (symmetry; apply powerRZ_neg').
    pose proof (powerRZ_NOR 10 (Z.of_nat (List.length fp)) T) as NZ. field. exact NZ.
Qed.
Lemma text_toString l : toString l = text l. Proof. reflexivity. Qed.
Lemma scan_word bl l tail : blanks bl -> namelit l -> at_break tail -> scanWord (bl ++ l ++ tail) = Some (text l, tail).
Proof.
  intros B (N & L & F) K. unfold scanWord.
  rewrite skip_bl; [|exact B|destruct l as [|c l']; [congruence|]; inversion F; assumption].
  rewrite (spanN_app (fun c => negb (isspace c)) l tail 31).
  - destruct l; [congruence|reflexivity].
  - eapply Forall_impl; [|exact F]. intros c H. apply negb_true_iff, isspace_false, H.
  - exact L.
  - destruct K as [->|(c & t & -> & W)]; [exact I|]. apply negb_false_iff, isspace_iff, W.
Qed.
Lemma stands_dark k l v : stands k l v -> match l with [] => False | c :: _ => ~ wblank c end.
Proof.
  intros S. destruct S as [l z D _|l z D _|l x L|l (N & _ & F)|l N L Q].
  - destruct D as [s n ds v S D]. destruct (natlit_digits _ _ D) as (F & N & _).
    pose proof (signed_head _ _ (ds ++ []) S (proj2 (digits_head _ _ F N))) as H. rewrite app_nil_r in H.
    destruct s, ds; cbn [app] in *; try congruence; exact H.
  - destruct (natlit_digits _ _ D) as (F & N & _). pose proof (proj2 (digits_head _ [] F N)) as H. rewrite app_nil_r in H. destruct l; [congruence|exact H].
  - destruct L as [s n m y e k S M E].
    assert (H : match (m ++ e)%list with [] => False | c :: _ => ~ wblank c end).
    { destruct M as [ds v D|ip i fp f DI DF NE].
      - destruct (natlit_digits _ _ D) as (F & N & _). pose proof (proj2 (digits_head _ e F N)) as H. destruct ds; [congruence|exact H].
      - destruct (digs_digits _ _ DI) as (FI & _). destruct ip as [|c ip]; cbn [app]; [unfold wblank; lia|].
        inversion FI as [|? ? X _]; subst. apply digit_dark in X. tauto. }
    destruct S; cbn [app]; [exact H| |]; unfold wblank; lia.
  - destruct l; [congruence|]. inversion F; assumption.
  - unfold wblank. lia.
Qed.
Definition converts (k : field) (t : list Z) (v : Val) (tail : list Z) : Prop := forall f, sscanf (format k ++ f) t = v :: sscanf f tail.
Lemma scan_field k bl l v tail : blanks bl -> stands k l v -> at_break tail -> converts k (bl ++ l ++ tail) v tail.
Proof.
  intros B S K f. destruct S as [l z D R|l z D R|l x L|l N|l N L Q]; cbn [format app sscanf conv].
  - rewrite (scan_int _ _ _ _ B D R K). reflexivity.
  - rewrite (scan_count _ _ _ _ B D R K). reflexivity.
  - rewrite (scan_real _ _ _ _ B L K). reflexivity.
  - rewrite (scan_word _ _ _ B N K). reflexivity.
  - rewrite skip_bl; [|exact B|unfold wblank; lia]. change (34 =? 34) with true. cbv iota. cbn [app]. unfold scanNotQuote. rewrite <- app_assoc. cbn [app].
    rewrite (spanN_app (fun c => negb (c =? 34)) l (34 :: tail) 1023).
    + destruct l; [congruence|]. cbn [option_map fst snd app]. change (34 =? 34) with true. reflexivity.
    + apply Forall_forall. intros c I. apply negb_true_iff, Z.eqb_neq. intros ->. exact (Q I).
    + exact L.
    + reflexivity.
Qed.
Lemma scan_stops k bl f : blanks bl -> sscanf (format k ++ f) bl = [].
Proof.
  intros B. destruct k; cbn [format app sscanf conv]; unfold scanInt, scanULong, scanReal, scanWord; rewrite (skip_all _ B); reflexivity.
Qed.
(** ** The theorem *)
Theorem C67_read_as_written : forall fields line vals, written fields line vals -> sscanf (flat_map format fields) line = vals.
Proof.
  induction 1 as [tail|k ks bl l v tail vs B S K _ IH|k ks bl B|k ks bl c tail B KK W D P M Q|ks bl c tail B W Q]; cbn [flat_map].
  - reflexivity.
  - rewrite (scan_field _ _ _ _ _ B S K), IH. reflexivity.
  - apply scan_stops, B.
  - assert (D' : isdigit c = false) by (apply not_true_iff_false; rewrite isdigit_iff; exact D).
    assert (SG : sign (c :: tail) = (false, c :: tail)).
    { cbn. destruct (Z.eqb_spec c 45); [congruence|]. destruct (Z.eqb_spec c 43); [congruence|reflexivity]. }
    assert (SP : span isdigit (c :: tail) = ([], c :: tail)) by (cbn; rewrite D'; reflexivity).
    destruct KK as [->|[->| ->]]; cbn [format app sscanf conv]; unfold scanInt, scanULong, scanReal; rewrite (skip_bl _ (c :: tail) B W), SG, SP; try reflexivity.
    destruct (Z.eqb_spec c 46); [congruence|reflexivity].
  - cbn [format app sscanf conv]. rewrite (skip_bl _ (c :: tail) B W). destruct (Z.eqb_spec c 34); [congruence|reflexivity].
Qed.
