From Coq Require Import ZArith List Bool Lia.
From Verif Require Import CArr CStr SpecText.
Import ListNotations.
Open Scope Z_scope.

Lemma brd_app pre x suf : brd (pre ++ x :: suf) (Z.of_nat (length pre)) = Some x.
Proof.
  unfold brd. destruct (Z.ltb_spec (Z.of_nat (length pre)) 0); [lia|]. rewrite Nat2Z.id.
  rewrite nth_error_app2 by lia. rewrite Nat.sub_diag. reflexivity.
Qed.
Lemma brd_at b pre x suf p : b = pre ++ x :: suf -> p = Z.of_nat (length pre) -> brd b p = Some x.
Proof. intros -> ->. apply brd_app. Qed.
Lemma setn_app pre x suf v : setn (pre ++ x :: suf) (length pre) v = Some (pre ++ v :: suf).
Proof. induction pre; [reflexivity|]. cbn [app length setn]. rewrite IHpre. reflexivity. Qed.
Lemma bwr_at b pre x suf p v : b = pre ++ x :: suf -> p = Z.of_nat (length pre) -> bwr b p v = Some (pre ++ v :: suf).
Proof.
  intros -> ->. unfold bwr. destruct (Z.ltb_spec (Z.of_nat (length pre)) 0); [lia|]. rewrite Nat2Z.id. apply setn_app.
Qed.

Definition nz (s : list Z) : Prop := Forall (fun c => c <> 0) s.
Lemma cstr_app s rest : nz s -> cstr (s ++ 0 :: rest) = s.
Proof. induction 1; [reflexivity|]. cbn [app cstr]. destruct (Z.eqb_spec x 0); [contradiction|]. f_equal. exact IHForall. Qed.
Lemma terminated_split b : terminated b -> exists s rest, b = s ++ 0 :: rest /\ nz s /\ cstr b = s.
Proof.
  induction b as [|c b IH]; intros H; [destruct H|].
  destruct (Z.eq_dec c 0) as [->|N].
  - exists [], b. repeat split; constructor.
  - destruct IH as (s & rest & E & NS & C); [destruct H; [congruence|assumption]|].
    exists (c :: s), rest. subst b. split; [reflexivity|]. split; [constructor; assumption|].
    apply (cstr_app (c :: s)). constructor; assumption.
Qed.

Lemma strlen_spec s pre rest n : nz s -> (length s < n)%nat ->
  strlen_ n (pre ++ s ++ 0 :: rest) (Z.of_nat (length pre)) = Some (Z.of_nat (length pre + length s)).
Proof.
  revert pre n. induction s as [|c s IH]; intros pre n NS L; (destruct n; [cbn in L; lia|]); cbn [strlen_].
  - cbn [app]. rewrite brd_app. cbn. f_equal. lia.
  - cbn [app]. rewrite brd_app. cbn [obind]. inversion NS; subst. destruct (Z.eqb_spec c 0); [contradiction|].
    specialize (IH (pre ++ [c]) n). rewrite <- app_assoc in IH. cbn [app] in IH. rewrite app_length in IH. cbn [length] in *.
    replace (Z.of_nat (length pre) + 1) with (Z.of_nat (length pre + 1)) by lia. rewrite IH; [f_equal; lia|assumption|lia].
Qed.

Lemma rc_loop_spec s pre rest n : nz s -> (length s < n)%nat ->
  exists b, rc_loop n (pre ++ s ++ 0 :: rest) (Z.of_nat (length pre) - 1) = Some b /\
    length b = length (pre ++ s ++ 0 :: rest) /\ exists rest', b = pre ++ before_hash s ++ 0 :: rest'.
Proof.
  revert pre n. induction s as [|c s IH]; intros pre n NS L; (destruct n; [cbn in L; lia|]); cbn [rc_loop];
    replace (Z.of_nat (length pre) - 1 + 1) with (Z.of_nat (length pre)) by lia.
  - cbn [app]. rewrite brd_app. cbn. eexists. split; [reflexivity|]. split; [reflexivity|]. exists rest. reflexivity.
  - cbn [app]. rewrite brd_app. cbn [obind]. inversion NS; subst. destruct (Z.eqb_spec c 0); [contradiction|].
    cbn [before_hash]. destruct (Z.eqb_spec c HASH).
    + rewrite (bwr_at _ pre c (s ++ 0 :: rest)) by reflexivity. eexists. split; [reflexivity|].
      split; [rewrite !app_length; reflexivity|]. eexists. reflexivity.
    + specialize (IH (pre ++ [c]) n). rewrite <- !app_assoc in IH. cbn [app] in IH. rewrite app_length in IH. cbn [length] in *.
      replace (Z.of_nat (length pre + 1) - 1) with (Z.of_nat (length pre)) in IH by lia.
      destruct IH as (b & E & Lb & rest' & Eb); [assumption|lia|]. exists b. split; [exact E|]. split; [exact Lb|].
      exists rest'. rewrite Eb, <- app_assoc. reflexivity.
Qed.

Lemma removeComments_spec s rest : nz s ->
  exists b rest', removeComments (s ++ 0 :: rest) = Some b /\ b = before_hash s ++ 0 :: rest' /\ length b = length (s ++ 0 :: rest).
Proof.
  intros NS. unfold removeComments. destruct s as [|c s].
  - cbn. exists (0 :: rest), rest. repeat split.
  - cbn [app]. unfold brd at 1. cbn [Z.ltb Z.compare Z.to_nat nth_error obind].
    inversion NS; subst. destruct (Z.eqb_spec c 0); [contradiction|].
    destruct (rc_loop_spec (c :: s) [] rest (fuel (c :: s ++ 0 :: rest)) NS) as (b & E & Lb & rest' & Eb).
    { unfold fuel. cbn [length]. rewrite app_length. lia. }
    exists b, rest'. cbn [app length] in E. split; [exact E|]. split; [exact Eb|exact Lb].
Qed.
Lemma before_hash_nz s : nz s -> nz (before_hash s).
Proof. induction 1; cbn [before_hash]; [constructor|]. destruct (x =? HASH); constructor; assumption. Qed.

(** ** strtrim *)
Lemma start_loop_spec ws pre x suf n : blank ws -> isspace x = false -> (length ws < n)%nat ->
  start_loop n (pre ++ ws ++ x :: suf) (Z.of_nat (length pre) - 1) = Some (Z.of_nat (length pre + length ws)).
Proof.
  revert pre n. induction ws as [|c ws IH]; intros pre n B X L; (destruct n; [cbn in L; lia|]); cbn [start_loop];
    replace (Z.of_nat (length pre) - 1 + 1) with (Z.of_nat (length pre)) by lia.
  - cbn [app]. rewrite brd_app. cbn [obind]. rewrite X. f_equal. cbn [length]. lia.
  - cbn [app]. rewrite brd_app. cbn [obind]. inversion B; subst. rewrite H1.
    specialize (IH (pre ++ [c]) n). rewrite <- !app_assoc in IH. cbn [app] in IH. rewrite app_length in IH. cbn [length] in *.
    replace (Z.of_nat (length pre + 1) - 1) with (Z.of_nat (length pre)) in IH by lia.
    rewrite IH; [f_equal; lia|assumption|assumption|lia].
Qed.
Lemma end_loop_spec ws h y rest n start : blank ws -> isspace y = false -> (length ws < n)%nat ->
  start <= Z.of_nat (length h) ->
  end_loop n (h ++ y :: ws ++ rest) start (Z.of_nat (length h + 1 + length ws)) = Some (Z.of_nat (length h)).
Proof.
  revert rest n. induction ws as [|c ws IH] using rev_ind; intros rest n B Y L ST; (destruct n; [cbn in L; lia|]); cbn [end_loop].
  - cbn [app length]. rewrite (brd_at _ h y rest) by (try reflexivity; lia). cbn [obind]. rewrite Y. cbn [andb]. f_equal. lia.
  - rewrite app_length in *. cbn [length] in *.
    rewrite (brd_at _ (h ++ y :: ws) c rest) by (rewrite ?app_length, <- ?app_assoc; cbn [length app]; rewrite <- ?app_assoc; try reflexivity; lia).
    cbn [obind]. apply Forall_app in B as (B1 & B2). inversion B2; subst. rewrite H1.
    destruct (Z.eqb_spec (Z.of_nat (length h + 1 + (length ws + 1)) - 1) start); [lia|]. cbn [andb negb].
    rewrite <- app_assoc. cbn [app].
    replace (Z.of_nat (length h + 1 + (length ws + 1)) - 1) with (Z.of_nat (length h + 1 + length ws)) by lia.
    apply IH; auto; lia.
Qed.
Lemma copy_loop_spec m : forall done w rest n, nz m -> w <> [] -> (length m < n)%nat ->
  exists rest', copy_loop n (done ++ w ++ m ++ 0 :: rest) (Z.of_nat (length done + length w)) (Z.of_nat (length done))
     = Some (done ++ m ++ 0 :: rest') /\ length (done ++ m ++ 0 :: rest') = length (done ++ w ++ m ++ 0 :: rest).
Proof.
  induction m as [|c m IH]; intros done w rest n NM NW L; (destruct n; [cbn in L; lia|]); cbn [copy_loop].
  - cbn [app]. rewrite (brd_at _ (done ++ w) 0 rest) by (rewrite ?app_length, <- ?app_assoc; try reflexivity; lia).
    cbn [obind Z.eqb]. destruct w as [|a w]; [contradiction|].
    rewrite (bwr_at _ done a (w ++ 0 :: rest)) by reflexivity. exists (w ++ 0 :: rest). split; [reflexivity|].
    rewrite !app_length. cbn [length]. rewrite !app_length. reflexivity.
  - inversion NM; subst.
    rewrite (brd_at _ (done ++ w) c (m ++ 0 :: rest)) by (rewrite ?app_length, <- ?app_assoc; try reflexivity; lia).
    cbn [obind]. destruct (Z.eqb_spec c 0); [contradiction|]. destruct w as [|a w]; [contradiction|].
    rewrite (bwr_at _ done a (w ++ (c :: m) ++ 0 :: rest)) by reflexivity. cbn [obind].
    destruct (IH (done ++ [c]) (w ++ [c]) rest n) as (rest' & E & Le); [assumption|destruct w; discriminate|cbn in L; lia|].
    exists rest'. rewrite ?app_length in E, Le |- *. cbn [length] in E, Le |- *. rewrite <- ?app_assoc in E, Le. cbn [app] in E, Le |- *.
    rewrite <- ?app_assoc in E, Le. cbn [app] in E, Le.
    replace (Z.of_nat (length done + S (length w)) + 1) with (Z.of_nat (length done + 1 + (length w + 1))) by lia.
    replace (Z.of_nat (length done) + 1) with (Z.of_nat (length done + 1)) by lia.
    rewrite E. split; [rewrite <- ?app_assoc; reflexivity|]. clear E. repeat (rewrite ?app_length in *; cbn [length app] in *). lia.
Qed.

Lemma blank_split s : (exists x, In x s /\ isspace x = false) ->
  exists a x t, s = a ++ x :: t /\ blank a /\ isspace x = false.
Proof.
  induction s as [|c s IH]; intros (x & I & X); [destruct I|].
  destruct (isspace c) eqn:C.
  - destruct IH as (a & y & t & -> & B & Y). { destruct I as [->|I]; [congruence|]. exists x; auto. }
    exists (c :: a), y, t. split; [reflexivity|]. split; [constructor; assumption|assumption].
  - exists [], c, s. repeat split; [constructor|assumption].
Qed.
Lemma trim_split s : (exists x, In x s /\ isspace x = false) ->
  exists a t b, s = a ++ t ++ b /\ blank a /\ blank b /\ t <> [] /\ starts_ends_dark t.
Proof.
  intros H. destruct (blank_split s H) as (a & x & t & -> & B & X).
  destruct (blank_split (rev (x :: t))) as (b & y & u & E & B' & Y).
  { exists x. split; [rewrite <- in_rev; left; reflexivity|assumption]. }
  assert (E' : x :: t = rev u ++ [y] ++ rev b).
  { rewrite <- (rev_involutive (x :: t)), E. rewrite rev_app_distr. cbn [rev]. rewrite <- app_assoc. reflexivity. }
  exists a, (rev u ++ [y]), (rev b). rewrite <- app_assoc, <- E'. split; [reflexivity|]. split; [assumption|].
  split. { unfold blank in *. apply Forall_rev. assumption. }
  split; [destruct (rev u); discriminate|]. right. split.
  - destruct (rev u) as [|z r]; cbn in E'; injection E' as -> _; eexists _, _; split; [reflexivity|assumption|reflexivity|assumption].
  - eexists _, _. split; [reflexivity|assumption].
Qed.

Lemma nz_app s t : nz (s ++ t) <-> nz s /\ nz t.
Proof. apply Forall_app. Qed.

Lemma strtrim_dark a t b rest : blank a -> blank b -> t <> [] -> starts_ends_dark t -> nz (a ++ t ++ b) ->
  exists rest', strtrim ((a ++ t ++ b) ++ 0 :: rest) = Some (t ++ 0 :: rest') /\
    length (t ++ 0 :: rest') = length ((a ++ t ++ b) ++ 0 :: rest).
Proof.
  intros BA BB NE SD NS. destruct SD as [|((x & tx & ETx & X) & (ty & y & ETy & Y))]; [contradiction|].
  set (s := a ++ t ++ b) in *. unfold strtrim.
  assert (F0 : exists c s', s = c :: s' /\ c <> 0).
  { unfold s. destruct a as [|c a']; cbn [app].
    - rewrite ETx. cbn [app]. eexists _, _. split; [reflexivity|]. unfold s in NS. rewrite ETx in NS. cbn in NS. inversion NS; assumption.
    - eexists _, _. split; [reflexivity|]. unfold s in NS. inversion NS; assumption. }
  destruct F0 as (c & s' & ES & NC).
  assert (R0 : brd (s ++ 0 :: rest) 0 = Some c) by (rewrite ES; reflexivity).
  rewrite R0. cbn [obind]. destruct (Z.eqb_spec c 0); [contradiction|].
  assert (FU : (length s + 1 < fuel (s ++ 0%Z :: rest))%nat) by (unfold fuel; rewrite app_length; cbn [length]; lia).
  set (fu := fuel (s ++ 0 :: rest)) in *.
  assert (SL : strlen (s ++ 0 :: rest) = Some (Z.of_nat (length s))).
  { unfold strlen. fold fu. apply (strlen_spec s [] rest fu NS). lia. }
  rewrite SL. cbn [obind].
  assert (LS : length s = (length a + length t + length b)%nat) by (unfold s; rewrite !app_length; lia).
  assert (E1 : start_loop fu (s ++ 0 :: rest) (-1) = Some (Z.of_nat (length a))).
  { replace (s ++ 0 :: rest) with ([] ++ a ++ x :: (tx ++ b ++ 0 :: rest)).
    - apply (start_loop_spec a [] x _ fu BA X). lia.
    - unfold s. rewrite ETx. cbn [app]. rewrite <- !app_assoc. cbn [app]. rewrite <- !app_assoc. reflexivity. }
  rewrite E1. cbn [obind].
  assert (LT : length t = S (length ty)) by (rewrite ETy, app_length; cbn; lia).
  assert (E2 : end_loop fu (s ++ 0 :: rest) (Z.of_nat (length a)) (Z.of_nat (length s)) = Some (Z.of_nat (length (a ++ ty)))).
  { replace (s ++ 0 :: rest) with ((a ++ ty) ++ y :: b ++ 0 :: rest).
    - replace (length s) with (length (a ++ ty) + 1 + length b)%nat by (rewrite app_length; lia).
      apply end_loop_spec; auto; [lia|rewrite app_length; lia].
    - unfold s. rewrite ETy, <- !app_assoc. reflexivity. }
  rewrite E2. cbn [obind]. rewrite (app_length a ty).
  (* truncation *)
  assert (TR : exists w rest1, length w = length a /\
     (if negb (Z.of_nat (length s) - 1 =? Z.of_nat (length a + length ty)) then bwr (s ++ 0 :: rest) (Z.of_nat (length a + length ty) + 1) 0
      else if negb (Z.of_nat (length a) =? 0) && (Z.of_nat (length a + length ty) =? Z.of_nat (length a)) then bwr (s ++ 0 :: rest) 0 0
      else Some (s ++ 0 :: rest)) = Some (w ++ t ++ 0 :: rest1) /\ (a = [] -> w = []) /\
     length (w ++ t ++ 0 :: rest1) = length (s ++ 0 :: rest)).
  { destruct (Z.eqb_spec (Z.of_nat (length s) - 1) (Z.of_nat (length a + length ty))) as [Q|Q]; cbn [negb].
    - assert (b = []) by (destruct b; [reflexivity|cbn in LS; lia]). subst b. unfold s in *. rewrite app_nil_r in *.
      destruct (negb (Z.of_nat (length a) =? 0) && (Z.of_nat (length a + length ty) =? Z.of_nat (length a))) eqn:C.
      + apply andb_true_iff in C as (C1 & _). destruct a as [|a0 a']; [discriminate|].
        exists (0 :: a'), rest. split; [reflexivity|]. rewrite <- !app_assoc.
        rewrite (bwr_at _ [] a0 (a' ++ t ++ 0 :: rest)) by reflexivity. split; [reflexivity|]. split; [discriminate|reflexivity].
      + exists a, rest. rewrite <- !app_assoc. repeat split; auto.
    - destruct b as [|b0 b']; [cbn in LS; lia|].
      exists a, (b' ++ 0 :: rest). split; [reflexivity|].
      rewrite (bwr_at _ (a ++ t) b0 (b' ++ 0 :: rest)); [|unfold s; rewrite <- !app_assoc; reflexivity|rewrite app_length; lia].
      rewrite <- app_assoc. split; [reflexivity|]. split; [auto|]. unfold s. rewrite !app_length. cbn [length]. rewrite !app_length. cbn [length]. lia. }
  destruct TR as (w & rest1 & LW & TR & WN & LB). unfold buf in *. rewrite TR. cbn [obind].
  destruct (Z.eqb_spec (Z.of_nat (length a)) 0) as [Q|Q]; cbn [negb].
  - assert (w = []) by (destruct w; [reflexivity|cbn in LW; lia]). subst w. exists rest1. split; [reflexivity|exact LB].
  - apply nz_app in NS as (_ & NS). apply nz_app in NS as (NT & _).
    destruct (copy_loop_spec t [] w rest1 (fuel (w ++ t ++ 0 :: rest1)) NT) as (rest' & E & Le).
    { intros ->. cbn in LW. lia. }
    { unfold fuel. rewrite !app_length. cbn [length]. lia. }
    cbn [app length Nat.add] in E. rewrite LW in E. exists rest'. split; [exact E|]. cbn [app] in Le. rewrite Le. exact LB.
Qed.

(** On a blank non-empty string the end pointer runs off the front. *)
Lemma end_loop_blank ws rest start : blank ws -> Z.of_nat (length ws) <= start -> forall n,
  end_loop n (ws ++ rest) start (Z.of_nat (length ws)) = None.
Proof.
  intros B ST n. assert (G : forall pre post k, ws = pre ++ post -> end_loop k (ws ++ rest) start (Z.of_nat (length pre)) = None).
  2:{ apply (G ws [] n). rewrite app_nil_r. reflexivity. }
  induction pre as [|c pre IH] using rev_ind; intros post k E; (destruct k; [reflexivity|]); cbn [end_loop].
  - unfold brd. reflexivity.
  - rewrite app_length. cbn [length]. subst ws.
    rewrite (brd_at _ pre c (post ++ rest)) by (rewrite <- ?app_assoc; cbn [app]; try reflexivity; lia).
    cbn [obind]. unfold blank in B. apply Forall_app in B as (B & _). apply Forall_app in B as (_ & B). inversion B; subst. rewrite H1.
    rewrite !app_length in ST. cbn [length] in ST.
    destruct (Z.eqb_spec (Z.of_nat (length pre + 1) - 1) start); [lia|]. cbn [negb andb].
    replace (Z.of_nat (length pre + 1) - 1) with (Z.of_nat (length pre)) by lia.
    apply (IH ([c] ++ post)). rewrite <- app_assoc. reflexivity.
Qed.
Lemma strtrim_blank s rest : blank s -> s <> [] -> nz s -> strtrim (s ++ 0 :: rest) = None.
Proof.
  intros B NE NS. unfold strtrim. destruct s as [|c s]; [contradiction|].
  assert (R0 : brd ((c :: s) ++ 0 :: rest) 0 = Some c) by reflexivity. rewrite R0. cbn [obind].
  inversion NS; subst. destruct (Z.eqb_spec c 0); [contradiction|].
  assert (FU : (length (c :: s) + 1 < fuel ((c :: s) ++ 0%Z :: rest))%nat) by (unfold fuel; rewrite app_length; cbn [length]; lia).
  unfold strlen. rewrite (strlen_spec (c :: s) [] rest _ NS) by (cbn [app length] in *; lia). cbn [obind].
  pose proof (start_loop_spec (c :: s) [] 0 rest (fuel ((c :: s) ++ 0 :: rest)) B eq_refl ltac:(lia)) as E1.
  cbn [app length Nat.add] in E1. change ((c :: s) ++ 0 :: rest) with (c :: s ++ 0 :: rest) in *. 
  change (Z.of_nat 0 - 1) with (-1) in E1. rewrite E1. cbn [obind app length Nat.add].
  pose proof (end_loop_blank (c :: s) (0 :: rest) (Z.of_nat (S (length s))) B ltac:(cbn [length]; lia) (fuel (c :: s ++ 0 :: rest))) as E2.
  cbn [app length] in E2. rewrite E2. reflexivity.
Qed.
