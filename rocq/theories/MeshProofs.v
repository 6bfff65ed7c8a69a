From Coq Require Import ZArith List Bool Lia Arith.
From Verif Require Import CArr CStr SpecText TextProofs Mesh SpecMesh.
Import ListNotations.
Local Open Scope nat_scope.
Local Arguments count : simpl never.

(** ** The card automaton without handlers *)
Definition stepC (st : MState) (c : Card) : outc MState :=
  obnd (checkCard st c) (fun _ =>
  let st := mkM (sectionNumber st) (mark (isFound st) [c]) (foundSource st) (foundOutput st) in
  obnd (special st c) (fun st => endSection st c)).
Fixpoint runC (cs : list Card) (st : MState) : outc MState :=
  match cs with [] => Acc st | c :: cs' => obnd (stepC st c) (runC cs') end.
Lemma runC_app a b st : runC (a ++ b) st = obnd (runC a st) (runC b).
Proof. revert st. induction a; intros; [reflexivity|]. cbn [app runC]. destruct (stepC st a); [apply IHa|reflexivity|reflexivity]. Qed.
Lemma runC_snoc a c st : runC (a ++ [c]) st = obnd (runC a st) (fun st => stepC st c).
Proof. rewrite runC_app. destruct (runC a st); [|reflexivity|reflexivity]. cbn. destruct (stepC a0 c); reflexivity. Qed.

Ltac cnt := unfold count in *; cbn [count_occ app] in *; repeat (progress (rewrite ?count_occ_app in * ); cbn [count_occ app] in * );
   repeat match goal with
   | |- context [card_dec ?a ?b] => let r := eval vm_compute in (card_dec a b) in
        match r with left _ => destruct (card_dec a b) as [_|NN]; [|exfalso; apply NN; reflexivity]
                   | right _ => destruct (card_dec a b) as [NN|_]; [discriminate NN|] end
   | H : context [card_dec ?a ?b] |- _ => let r := eval vm_compute in (card_dec a b) in
        match r with left _ => destruct (card_dec a b) as [_|NN]; [|exfalso; apply NN; reflexivity]
                   | right _ => destruct (card_dec a b) as [NN|_]; [discriminate NN|] end
   end.

(** what has been recorded, in terms of the cards seen *)
Record Facts (cs : list Card) (st : MState) : Prop := {
  F1 : forall x, ~ In x [MS; XL; YL; ZL] -> isFound st x = negb (count x cs =? 0);
  FMS : isFound st MS = negb (count MS cs + count XL cs + count YL cs + count ZL cs =? 0);
  FXL : isFound st XL = negb (count XL cs + count MS cs =? 0);
  FYL : isFound st YL = negb (count YL cs + count MS cs =? 0);
  FZL : isFound st ZL = negb (count ZL cs + count MS cs =? 0);
  FSrc : foundSource st = negb (count EX cs + count PW cs =? 0) }.

Definition partial1 s1 := Forall (fun c => In c [CE; DM; BR; BE]) s1 /\ count DM s1 <= 1 /\ count BR s1 <= 1 /\ count BE s1 <= 1.
Definition partial2 s2 := Forall (fun c => In c [MT; BT; WT; MB; TB; TW; WF; EX; PW; OP; FF]) s2.
Definition partial3 s3 := Forall (fun c => In c [NT; OT; OF; CN; MS; XL; YL; ZL]) s3 /\
  count NT s3 <= 1 /\ count OT s3 <= 1 /\ count OF s3 <= 1 /\ count CN s3 <= 1 /\
  count MS s3 <= 1 /\ count XL s3 <= 1 /\ count YL s3 <= 1 /\ count ZL s3 <= 1 /\
  (count MS s3 = 0 \/ count XL s3 + count YL s3 + count ZL s3 = 0).
Inductive Shape (cs : list Card) : nat -> Prop :=
| S0 : cs = [] -> Shape cs 0
| S1 s1 : cs = VM :: s1 -> partial1 s1 -> Shape cs 1
| S2 s1 s2 : cs = VM :: s1 ++ GS :: s2 -> section1 s1 -> partial2 s2 -> Shape cs 2
| S3 s1 s2 s3 : cs = VM :: s1 ++ GS :: s2 ++ GE :: s3 -> section1 s1 -> section2 s2 -> partial3 s3 -> Shape cs 3
| S4 : complete_mesh cs -> Shape cs 4.

Lemma nb x : negb (x =? 0) = true <-> x <> 0.
Proof. rewrite negb_true_iff. apply Nat.eqb_neq. Qed.
Lemma nbf x : negb (x =? 0) = false <-> x = 0.
Proof. rewrite negb_false_iff. apply Nat.eqb_eq. Qed.
Lemma Forall_snoc {A} (P : A -> Prop) l x : Forall P (l ++ [x]) <-> Forall P l /\ P x.
Proof. rewrite Forall_app. split; intros (H & K); split; auto. inversion K; auto. Qed.
Lemma count_absent P s x : Forall (fun c => In c P) s -> ~ In x P -> count x s = 0.
Proof. intros F N. apply count_occ_not_In. intros I. rewrite Forall_forall in F. apply N. apply F. exact I. Qed.

Lemma found_snoc cs st st' c (F : Facts cs st) :
  (forall x, isFound st' x = mark (isFound st) (match c with MS => [MS; XL; YL; ZL] | XL => [MS; XL] | YL => [MS; YL] | ZL => [MS; ZL] | _ => [c] end) x) ->
  foundSource st' = (match c with EX | PW => true | _ => foundSource st end) ->
  Facts (cs ++ [c]) st'.
Proof.
  intros M S. destruct F as [f1 fms fxl fyl fzl fs].
  assert (CS : forall x, count x (cs ++ [c]) = count x cs + if card_dec c x then 1 else 0).
  { intros x. unfold count. rewrite count_occ_app. cbn [count_occ]. destruct (card_dec c x); reflexivity. }
  constructor.
  - intros x Hx. rewrite M, CS. specialize (f1 x Hx).
    destruct c, x; try (exfalso; apply Hx; cbn; tauto); cbn; rewrite ?Nat.add_0_r; try exact f1;
      symmetry; apply nb; lia.
  - rewrite M, !CS. destruct c; cbn; rewrite ?Nat.add_0_r, ?Nat.add_1_r, ?fms; try reflexivity;
      symmetry; apply nb; lia.
  - rewrite M, !CS. destruct c; cbn; rewrite ?Nat.add_0_r, ?Nat.add_1_r, ?fxl; try reflexivity; symmetry; apply nb; lia.
  - rewrite M, !CS. destruct c; cbn; rewrite ?Nat.add_0_r, ?Nat.add_1_r, ?fyl; try reflexivity; symmetry; apply nb; lia.
  - rewrite M, !CS. destruct c; cbn; rewrite ?Nat.add_0_r, ?Nat.add_1_r, ?fzl; try reflexivity; symmetry; apply nb; lia.
  - rewrite S, !CS. destruct c; cbn; rewrite ?Nat.add_0_r, ?Nat.add_1_r, ?fs; try reflexivity; symmetry; apply nb; lia.
Qed.

Lemma stepC_facts cs st c st' : Facts cs st -> stepC st c = Acc st' -> Facts (cs ++ [c]) st'.
Proof.
  intros F E. unfold stepC in E. destruct (checkCard st c); [|discriminate|discriminate]. cbn [obnd] in E.
  assert (EA : forall s, endSection s c = Acc st' -> isFound st' = isFound s /\ foundSource st' = foundSource s).
  { intros s Q. unfold endSection in Q. destruct (isEndOfSection c); [|injection Q as <-; auto].
    destruct (nth_error sectionLimits (sectionNumber s)) as [[x y]|]; [|discriminate].
    destruct (existsb _ _) in Q; [discriminate|]. injection Q as <-. split; reflexivity. }
  destruct (special _ c) as [s| |] eqn:ES; [|discriminate|discriminate]. cbn [obnd] in E.
  destruct (EA s E) as (E1 & E2). apply (found_snoc cs st st' c F).
  - intros x. rewrite E1. destruct c; cbn [special] in ES; try (injection ES as <-; reflexivity);
      try (injection ES as <-; cbn [isFound]; destruct x; reflexivity).
    + destruct (negb _) in ES; [discriminate|]. injection ES as <-. reflexivity.
    + destruct (_ || _)%bool in ES; [discriminate|]. injection ES as <-. reflexivity.
  - rewrite E2. destruct c; cbn [special] in ES; try (injection ES as <-; reflexivity).
    + destruct (negb _) in ES; [discriminate|]. injection ES as <-. reflexivity.
    + destruct (_ || _)%bool in ES; [discriminate|]. injection ES as <-. reflexivity.
Qed.

(** outcome of one card in a known section *)
Definition validIn (n : nat) (c : Card) : bool :=
  match n, c with
  | 0, VM => true
  | 1, (CE | DM | BR | BE | GS) => true
  | 2, (MT | BT | WT | MB | TB | TW | WF | EX | PW | OP | FF | GE) => true
  | 3, (NT | OT | OF | CN | MS | XL | YL | ZL | EN) => true
  | _, _ => false
  end.
Definition single (c : Card) : bool :=
  match c with CE | MT | BT | WT | MB | TB | TW | WF | EX | PW | OP | FF => false | _ => true end.
Definition next (st : MState) : MState := mkM (S (sectionNumber st)) (isFound st) (foundSource st) (foundOutput st).
Definition endC (st : MState) (c : Card) : outc MState :=
  match c with
  | VM => if isFound st VM then Acc (next st) else Rej
  | GS => if isFound st DM && isFound st GS then Acc (next st) else Rej
  | GE => if isFound st GE then Acc (next st) else Rej
  | EN => if isFound st NT && isFound st EN then Acc (next st) else Rej
  | _ => Acc st
  end.
Definition stepT (n : nat) (st : MState) (c : Card) : outc MState :=
  if negb (validIn n c) then Rej
  else if (isFound st c && single c)%bool then Rej
  else obnd (special (mkM n (mark (isFound st) [c]) (foundSource st) (foundOutput st)) c) (fun st => endC st c).
Lemma valid_tab n c row : nth_error isValidInSection n = Some row -> nth (card_num c) row false = validIn n c.
Proof.
  destruct n as [|[|[|[|n]]]]; intros E; try (injection E as <-; destruct c; vm_compute; reflexivity).
  destruct n; discriminate E.
Qed.
Lemma single_tab c : isSingleton c = single c.
Proof. destruct c; vm_compute; reflexivity. Qed.
Lemma end_tab st c : validIn (sectionNumber st) c = true -> endSection st c = endC st c.
Proof.
  destruct st as [n f s o]. cbn [sectionNumber].
  destruct n as [|[|[|[|n]]]]; destruct c; intros V; try discriminate V; try (vm_compute; reflexivity);
   unfold endSection, endC, next; cbn [isFound sectionNumber foundSource foundOutput].
  - change (isEndOfSection VM) with true. cbn [nth_error sectionLimits].
    let l := eval vm_compute in (cardsBetween VM VM) in change (cardsBetween VM VM) with l. cbn [existsb].
    change (isRequired VM) with true. cbn. destruct (f VM); reflexivity.
  - change (isEndOfSection GS) with true. cbn [nth_error sectionLimits].
    let l := eval vm_compute in (cardsBetween CE GS) in change (cardsBetween CE GS) with l. cbn [existsb].
    change (isRequired DM) with true. change (isRequired GS) with true. change (isRequired CE) with false. change (isRequired BE) with false. change (isRequired BR) with false.
    cbn. destruct (f DM), (f GS); reflexivity.
  - change (isEndOfSection GE) with true. cbn [nth_error sectionLimits].
    let l := eval vm_compute in (cardsBetween MT GE) in change (cardsBetween MT GE) with l. cbn [existsb].
    change (isRequired GE) with true.
    change (isRequired MT) with false. change (isRequired BT) with false. change (isRequired WT) with false. change (isRequired MB) with false. change (isRequired TB) with false.
    change (isRequired TW) with false. change (isRequired WF) with false. change (isRequired EX) with false. change (isRequired PW) with false. change (isRequired OP) with false. change (isRequired FF) with false.
    cbn. destruct (f GE); reflexivity.
  - change (isEndOfSection EN) with true. cbn [nth_error sectionLimits].
    let l := eval vm_compute in (cardsBetween NT EN) in change (cardsBetween NT EN) with l. cbn [existsb].
    change (isRequired NT) with true. change (isRequired EN) with true.
    change (isRequired OT) with false. change (isRequired OF) with false. change (isRequired CN) with false. change (isRequired MS) with false. change (isRequired XL) with false. change (isRequired YL) with false. change (isRequired ZL) with false.
    cbn. destruct (f NT), (f EN); reflexivity.
Qed.
Lemma special_section st c st' : special st c = Acc st' -> sectionNumber st' = sectionNumber st.
Proof.
  destruct c; cbn [special]; intros E; try (injection E as <-; reflexivity).
  - destruct (negb _) in E; [discriminate|]. injection E as <-. reflexivity.
  - destruct (_ || _)%bool in E; [discriminate|]. injection E as <-. reflexivity.
Qed.
Lemma stepC_eq st c n row : sectionNumber st = n -> nth_error isValidInSection n = Some row ->
  stepC st c = stepT n st c.
Proof.
  intros E R. unfold stepC, checkCard, stepT. rewrite E, R, (valid_tab n c row R), single_tab.
  destruct (validIn n c) eqn:V; cbn [negb]; [|reflexivity]. destruct (_ && _)%bool; [reflexivity|]. cbn [obnd].
  destruct (special _ c) as [s| |] eqn:S; [|reflexivity|reflexivity]. cbn [obnd].
  apply end_tab. rewrite (special_section _ _ _ S). exact V.
Qed.

Ltac in_list := repeat first [left; reflexivity | right].
Ltac fin := let I := fresh in intro I; repeat (destruct I as [I|I]; [discriminate I|]); exact I.

Lemma shape_step cs n st c st' : Facts cs st -> Shape cs n -> sectionNumber st = n -> stepC st c = Acc st' ->
  Shape (cs ++ [c]) (sectionNumber st').
Proof.
  intros F SH SN E. destruct SH as [->|s1 -> P1|s1 s2 -> P1 P2|s1 s2 s3 -> P1 P2 P3|C].
  - (* section 0 *)
    rewrite (stepC_eq st c 0 _ SN eq_refl) in E. unfold stepT in E.
    destruct c; cbn in E; try discriminate E. rewrite (F1 _ _ F) in E by fin.
    cbn in E. injection E as <-. cbn. apply (S1 _ []); [reflexivity|]. split; [constructor|]. cnt. lia.
  - (* section 1 *)
    rewrite (stepC_eq st c 1 _ SN eq_refl) in E. unfold stepT in E. destruct P1 as (Q1 & Q2 & Q3 & Q4).
    destruct c; cbn in E; try discriminate E; rewrite ?(F1 _ _ F) in E by fin.
    + rewrite andb_false_r in E. injection E as <-. cbn. apply (S1 _ (s1 ++ [CE])); [reflexivity|].
      split; [apply Forall_snoc; split; [exact Q1|in_list]|]. cnt. lia.
    + destruct (negb (count DM (VM :: s1) =? 0)) eqn:N; cbn in E; [discriminate E|]. apply nbf in N.
      injection E as <-. cbn. apply (S1 _ (s1 ++ [DM])); [reflexivity|].
      split; [apply Forall_snoc; split; [exact Q1|in_list]|]. cnt. lia.
    + destruct (negb (count BR (VM :: s1) =? 0)) eqn:N; cbn in E; [discriminate E|]. apply nbf in N.
      injection E as <-. cbn. apply (S1 _ (s1 ++ [BR])); [reflexivity|].
      split; [apply Forall_snoc; split; [exact Q1|in_list]|]. cnt. lia.
    + destruct (negb (count BE (VM :: s1) =? 0)) eqn:N; cbn in E; [discriminate E|]. apply nbf in N.
      injection E as <-. cbn. apply (S1 _ (s1 ++ [BE])); [reflexivity|].
      split; [apply Forall_snoc; split; [exact Q1|in_list]|]. cnt. lia.
    + destruct (negb (count GS (VM :: s1) =? 0)) eqn:N; cbn in E; [discriminate E|].
      cbv [endC next] in E. cbn in E. cbv [mark] in E. cbn in E. rewrite ?(F1 _ _ F) in E by fin.
      destruct (count DM (VM :: s1) =? 0) eqn:ND; cbn in E; [discriminate E|]. apply Nat.eqb_neq in ND.
      injection E as <-. cbn. apply (S2 _ s1 []); [reflexivity| |constructor].
      split; [exact Q1|]. cnt. lia.
  - (* section 2 *)
    rewrite (stepC_eq st c 2 _ SN eq_refl) in E. unfold stepT in E.
    destruct c; cbn in E; try discriminate E;
    try (rewrite andb_false_r in E; injection E as <-; cbn [sectionNumber];
         match goal with |- Shape (_ ++ [?x]) _ => apply (S2 _ s1 (s2 ++ [x])) end;
         [cbn; rewrite <- app_assoc; reflexivity|exact P1|apply Forall_snoc; split; [exact P2|in_list]]).
    destruct (isFound st GE && true)%bool; [discriminate E|]. destruct (foundSource st) eqn:FS; cbn in E; [|discriminate E].
    rewrite (FSrc _ _ F) in FS. apply nb in FS.
    cbv [endC next] in E. cbn in E. cbv [mark] in E. cbn in E. injection E as <-. cbn.
    apply (S3 _ s1 s2 []).
    + cbn. rewrite <- app_assoc. reflexivity.
    + exact P1.
    + split; [exact P2|]. destruct P1 as (Q1 & _).
      pose proof (count_absent _ _ EX Q1 ltac:(fin)). pose proof (count_absent _ _ PW Q1 ltac:(fin)).
      cnt. destruct (Nat.eq_dec (count_occ card_dec s2 EX) 0).
      * right. apply (count_occ_In card_dec). lia.
      * left. apply (count_occ_In card_dec). lia.
    + split; [constructor|]. cnt. lia.
  - (* section 3 *)
    rewrite (stepC_eq st c 3 _ SN eq_refl) in E. unfold stepT in E. destruct P3 as (Q1 & Q2).
    assert (AP : forall x, VM :: s1 ++ GS :: s2 ++ GE :: s3 ++ [x] = (VM :: s1 ++ GS :: s2 ++ GE :: s3) ++ [x]).
    { intros. cbn. rewrite <- !app_assoc. cbn. rewrite <- !app_assoc. reflexivity. }
    set (cs := VM :: s1 ++ GS :: s2 ++ GE :: s3) in *.
    assert (LE : forall x, count x s3 <= count x cs).
    { intros x. unfold cs, count. cbn [count_occ]. rewrite !count_occ_app. cbn [count_occ]. rewrite !count_occ_app. cbn [count_occ].
      repeat destruct (card_dec _ x); lia. }
    assert (Z0 : forall x, count x cs = 0 -> count x s3 = 0) by (intros x Hx; specialize (LE x); lia).
    assert (NEW : forall x, In x [NT; OT; OF; CN; MS; XL; YL; ZL] -> count x s3 = 0 -> (x <> MS -> count x s3 + count MS s3 = 0 \/ ~ In x [XL; YL; ZL]) ->
       (x = MS -> count XL s3 + count YL s3 + count ZL s3 = 0) -> Shape (cs ++ [x]) 3).
    { intros x Ix C0 CM CX. rewrite <- AP. apply (S3 _ s1 s2 (s3 ++ [x])); [reflexivity|exact P1|exact P2|].
      split; [apply Forall_snoc; split; assumption|]. clear - Ix C0 CM CX Q2.
      repeat (destruct Ix as [<-|Ix]; [try (specialize (CM ltac:(discriminate))); try (specialize (CX eq_refl)); cnt;
         try (destruct CM as [CM|CM]; [|first [solve [exfalso; apply CM; in_list]|clear CM]]); lia|]); destruct Ix. }
    destruct c; cbn in E; try discriminate E; rewrite ?(F1 _ _ F) in E by fin.
    + destruct (negb (count NT cs =? 0)) eqn:N; cbn in E; [discriminate E|]. apply nbf in N. injection E as <-. cbn [sectionNumber]. apply NEW; [in_list|auto|right; fin|discriminate].
    + destruct (negb (count OT cs =? 0)) eqn:N; cbn in E; [discriminate E|]. apply nbf in N. injection E as <-. cbn [sectionNumber]. apply NEW; [in_list|auto|right; fin|discriminate].
    + destruct (negb (count OF cs =? 0)) eqn:N; cbn in E; [discriminate E|]. apply nbf in N. injection E as <-. cbn [sectionNumber]. apply NEW; [in_list|auto|right; fin|discriminate].
    + destruct (negb (count CN cs =? 0)) eqn:N; cbn in E; [discriminate E|]. apply nbf in N. injection E as <-. cbn [sectionNumber]. apply NEW; [in_list|auto|right; fin|discriminate].
    + rewrite (FMS _ _ F) in E. destruct (negb (_ =? 0)) eqn:N in E; cbn in E; [discriminate E|]. apply nbf in N. injection E as <-. cbn [sectionNumber].
      pose proof (LE MS). pose proof (LE XL). pose proof (LE YL). pose proof (LE ZL). apply NEW; [in_list|lia|congruence|lia].
    + rewrite (FXL _ _ F) in E. destruct (negb (_ =? 0)) eqn:N in E; cbn in E; [discriminate E|]. apply nbf in N. injection E as <-. cbn [sectionNumber].
      pose proof (LE MS). pose proof (LE XL). apply NEW; [in_list|lia|left; lia|discriminate].
    + rewrite (FYL _ _ F) in E. destruct (negb (_ =? 0)) eqn:N in E; cbn in E; [discriminate E|]. apply nbf in N. injection E as <-. cbn [sectionNumber].
      pose proof (LE MS). pose proof (LE YL). apply NEW; [in_list|lia|left; lia|discriminate].
    + rewrite (FZL _ _ F) in E. destruct (negb (_ =? 0)) eqn:N in E; cbn in E; [discriminate E|]. apply nbf in N. injection E as <-. cbn [sectionNumber].
      pose proof (LE MS). pose proof (LE ZL). apply NEW; [in_list|lia|left; lia|discriminate].
    + destruct (negb (count EN cs =? 0)) in E; cbn in E; [discriminate E|].
      cbv [mark] in E. cbn in E. rewrite (FMS _ _ F), (FXL _ _ F), (FYL _ _ F), (FZL _ _ F) in E.
      destruct (negb (_ =? 0)) eqn:N1 in E; cbn in E; [|discriminate E].
      destruct (negb (_ =? 0)) eqn:N2 in E; cbn in E; [|discriminate E].
      destruct (negb (_ =? 0)) eqn:N3 in E; cbn in E; [|discriminate E].
      destruct (negb (_ =? 0)) eqn:N4 in E; cbn in E; [|discriminate E].
      apply nb in N1, N2, N3, N4.
      cbv [endC next] in E. cbn in E. cbv [mark] in E. cbn in E. rewrite (F1 _ _ F) in E by fin.
      destruct (count NT cs =? 0) eqn:N5; cbn in E; [discriminate E|]. apply Nat.eqb_neq in N5.
      injection E as <-. cbn [sectionNumber]. apply S4. exists s1, s2, s3. rewrite AP. split; [reflexivity|].
      split; [exact P1|]. split; [exact P2|].
      destruct P1 as (A1 & _), P2 as (A2 & _).
      assert (EQ : forall x, In x [NT; MS; XL; YL; ZL] -> count x cs = count x s3).
      { intros x Ix.
        assert (count x s1 = 0) by (apply (count_absent _ _ x A1); intros J; repeat (destruct Ix as [<-|Ix]; [repeat (destruct J as [J|J]; [discriminate J|]); exact J|]); exact Ix).
        assert (count x s2 = 0) by (apply (count_absent _ _ x A2); intros J; repeat (destruct Ix as [<-|Ix]; [repeat (destruct J as [J|J]; [discriminate J|]); exact J|]); exact Ix).
        unfold cs, count in *. repeat (destruct Ix as [<-|Ix]; [cnt; lia|]). destruct Ix. }
      rewrite !EQ in * by in_list. split; [exact Q1|]. destruct Q2 as (? & ? & ? & ? & ? & ? & ? & ? & ?). repeat split; try lia.
  - (* after EN *)
    unfold stepC, checkCard in E. rewrite SN in E. discriminate E.
Qed.

Lemma runC_shape cs st : runC cs initM = Acc st -> Facts cs st /\ Shape cs (sectionNumber st).
Proof.
  revert st. induction cs as [|c cs IH] using rev_ind; intros st E.
  - injection E as <-. split; [constructor; reflexivity|apply S0; reflexivity].
  - rewrite runC_snoc in E. destruct (runC cs initM) as [s| |]; [|discriminate|discriminate]. cbn [obnd] in E.
    destruct (IH s eq_refl) as (F & SH). split; [eapply stepC_facts; eauto|eapply shape_step; eauto].
Qed.

(** every accepted sequence is the beginning of a complete file *)
Lemma section1_close s1 : partial1 s1 -> exists r, section1 (s1 ++ r).
Proof.
  intros (Q1 & Q2 & Q3 & Q4). destruct (Nat.eq_dec (count DM s1) 0).
  - exists [DM]. split; [apply Forall_snoc; split; [exact Q1|in_list]|]. cnt. lia.
  - exists []. rewrite app_nil_r. repeat split; auto. lia.
Qed.
Lemma section3_close s3 : partial3 s3 -> exists r, section3 (s3 ++ r).
Proof.
  intros (Q1 & Q2).
  exists ((if count NT s3 =? 0 then [NT] else []) ++
    (if count MS s3 =? 0 then (if count XL s3 =? 0 then [XL] else []) ++ (if count YL s3 =? 0 then [YL] else []) ++
        (if count ZL s3 =? 0 then [ZL] else []) else [])).
  split.
  - apply Forall_app. split; [exact Q1|].
    destruct (count NT s3 =? 0), (count MS s3 =? 0), (count XL s3 =? 0), (count YL s3 =? 0), (count ZL s3 =? 0);
      cbn [app]; repeat (apply Forall_cons; [in_list|]); apply Forall_nil.
  - destruct (Nat.eqb_spec (count NT s3) 0), (Nat.eqb_spec (count MS s3) 0), (Nat.eqb_spec (count XL s3) 0),
      (Nat.eqb_spec (count YL s3) 0), (Nat.eqb_spec (count ZL s3) 0); cbn [app]; cnt; lia.
Qed.
Definition sec3min : list Card := [NT; MS].
Lemma sec3min_ok : section3 sec3min.
Proof. split; [repeat (apply Forall_cons; [in_list|]); apply Forall_nil|]. unfold sec3min. cnt. lia. Qed.

Ltac flat := cbn [app]; repeat (rewrite <- app_assoc; cbn [app]); reflexivity.
Lemma shape_extends cs n : Shape cs n -> exists rest, complete_mesh (cs ++ rest) /\ (rest = [] <-> n = 4).
Proof.
  intros [->|s1 -> P1|s1 s2 -> P1 P2|s1 s2 s3 -> P1 P2 P3|C].
  - exists (VM :: [DM] ++ GS :: [EX] ++ GE :: sec3min ++ [EN]). split; [|split; discriminate].
    exists [DM], [EX], sec3min. split; [reflexivity|]. split; [|split; [|exact sec3min_ok]].
    + split; [repeat (apply Forall_cons; [in_list|]); apply Forall_nil|]. cnt. lia.
    + split; [repeat (apply Forall_cons; [in_list|]); apply Forall_nil|]. left; in_list.
  - destruct (section1_close s1 P1) as (r & R). exists (r ++ GS :: [EX] ++ GE :: sec3min ++ [EN]).
    split; [|split; [destruct r; discriminate|discriminate]].
    exists (s1 ++ r), [EX], sec3min. split; [flat|]. split; [exact R|]. split; [|exact sec3min_ok].
    split; [repeat (apply Forall_cons; [in_list|]); apply Forall_nil|]. left; in_list.
  - exists ([EX] ++ GE :: sec3min ++ [EN]). split; [|split; discriminate].
    exists s1, (s2 ++ [EX]), sec3min. split; [flat|]. split; [exact P1|]. split; [|exact sec3min_ok].
    split; [apply Forall_snoc; split; [exact P2|in_list]|]. left. apply in_or_app. right. in_list.
  - destruct (section3_close s3 P3) as (r & R). exists (r ++ [EN]). split; [|split; [destruct r; discriminate|discriminate]].
    exists s1, s2, (s3 ++ r). split; [flat|]. auto.
  - exists []. rewrite app_nil_r. split; [exact C|]. split; reflexivity.
Qed.

(** ** complete files are accepted *)
Lemma partial1_snoc s c : partial1 (s ++ [c]) -> partial1 s.
Proof. intros (Q1 & Q2). apply Forall_snoc in Q1 as (Q1 & _). split; [exact Q1|]. unfold count in *. rewrite !count_occ_app in Q2. lia. Qed.
Lemma partial3_snoc s c : partial3 (s ++ [c]) -> partial3 s.
Proof. intros (Q1 & Q2). apply Forall_snoc in Q1 as (Q1 & _). split; [exact Q1|]. unfold count in *. rewrite !count_occ_app in Q2. lia. Qed.

Lemma accept1 s1 : partial1 s1 -> exists st, runC (VM :: s1) initM = Acc st /\ sectionNumber st = 1.
Proof.
  induction s1 as [|c s1 IH] using rev_ind; intros P.
  - eexists. split; reflexivity.
  - destruct (IH (partial1_snoc _ _ P)) as (st & E & SN). change (VM :: s1 ++ [c]) with ((VM :: s1) ++ [c]).
    rewrite runC_snoc, E. cbn [obnd]. rewrite (stepC_eq st c 1 _ SN eq_refl). unfold stepT.
    destruct (runC_shape _ _ E) as (F & _). destruct P as (Q1 & Q2). apply Forall_snoc in Q1 as (_ & I).
    repeat (destruct I as [<-|I]; [cbn; rewrite (F1 _ _ F) by fin;
      match goal with |- context [negb (?k =? 0)] => destruct (negb (k =? 0)) eqn:N end; cbn;
      [first [eexists; split; reflexivity | apply nb in N; exfalso; cnt; lia]|eexists; split; reflexivity]|]). destruct I.
Qed.
Lemma accept2 s1 s2 : section1 s1 -> partial2 s2 -> exists st, runC (VM :: s1 ++ GS :: s2) initM = Acc st /\ sectionNumber st = 2.
Proof.
  intros P1. induction s2 as [|c s2 IH] using rev_ind; intros P2.
  - destruct P1 as (Q1 & Q2 & Q3 & Q4). destruct (accept1 s1) as (st & E & SN); [split; [exact Q1|lia]|].
    change (VM :: s1 ++ [GS]) with ((VM :: s1) ++ [GS]). rewrite runC_snoc, E. cbn [obnd]. rewrite (stepC_eq st GS 1 _ SN eq_refl). unfold stepT.
    destruct (runC_shape _ _ E) as (F & _). cbn. rewrite (F1 _ _ F) by fin.
    pose proof (count_absent _ _ GS Q1 ltac:(fin)) as C0.
    replace (count GS (VM :: s1)) with 0 by (cnt; lia). cbn. cbv [endC next]. cbn. cbv [mark]. cbn. rewrite (F1 _ _ F) by fin.
    replace (count DM (VM :: s1)) with 1 by (cnt; lia). cbn. eexists; split; reflexivity.
  - apply Forall_snoc in P2 as (P2 & I). destruct (IH P2) as (st & E & SN).
    replace (VM :: s1 ++ GS :: s2 ++ [c]) with ((VM :: s1 ++ GS :: s2) ++ [c]) by (flat).
    rewrite runC_snoc, E. cbn [obnd]. rewrite (stepC_eq st c 2 _ SN eq_refl). unfold stepT.
    repeat (destruct I as [<-|I]; [cbn; rewrite andb_false_r; eexists; split; reflexivity|]). destruct I.
Qed.
Lemma count_pre s1 s2 s3 x : section1 s1 -> section2 s2 -> ~ In x [VM; GS; GE; CE; DM; BR; BE; MT; BT; WT; MB; TB; TW; WF; EX; PW; OP; FF] ->
  count x (VM :: s1 ++ GS :: s2 ++ GE :: s3) = count x s3.
Proof.
  intros (A1 & _) (A2 & _) N.
  assert (count x s1 = 0) by (apply (count_absent _ _ x A1); intros J; apply N; cbn in *; tauto).
  assert (count x s2 = 0) by (apply (count_absent _ _ x A2); intros J; apply N; cbn in *; tauto).
  unfold count in *. cbn [count_occ]. rewrite !count_occ_app. cbn [count_occ]. rewrite count_occ_app. cbn [count_occ].
  destruct (card_dec VM x) as [<-|_]; [exfalso; apply N; in_list|].
  destruct (card_dec GS x) as [<-|_]; [exfalso; apply N; in_list|].
  destruct (card_dec GE x) as [<-|_]; [exfalso; apply N; in_list|]. lia.
Qed.
Lemma accept3 s1 s2 s3 : section1 s1 -> section2 s2 -> partial3 s3 ->
  exists st, runC (VM :: s1 ++ GS :: s2 ++ GE :: s3) initM = Acc st /\ sectionNumber st = 3.
Proof.
  intros P1 P2. induction s3 as [|c s3 IH] using rev_ind; intros P3.
  - destruct P2 as (Q1 & Q2). destruct (accept2 s1 s2 P1 Q1) as (st & E & SN).
    replace (VM :: s1 ++ GS :: s2 ++ [GE]) with ((VM :: s1 ++ GS :: s2) ++ [GE]) by (flat).
    rewrite runC_snoc, E. cbn [obnd]. rewrite (stepC_eq st GE 2 _ SN eq_refl). unfold stepT.
    destruct (runC_shape _ _ E) as (F & _). cbn. rewrite (F1 _ _ F) by fin. rewrite (FSrc _ _ F).
    destruct P1 as (A1 & _).
    pose proof (count_absent _ _ GE A1 ltac:(fin)). pose proof (count_absent _ _ GE Q1 ltac:(fin)).
    replace (count GE (VM :: s1 ++ GS :: s2)) with 0 by (cnt; lia). cbn.
    assert (S : count EX s2 + count PW s2 <> 0).
    { destruct Q2 as [I|I]; apply (count_occ_In card_dec) in I; unfold count; lia. }
    destruct (negb (_ =? 0)) eqn:N; [|apply nbf in N; exfalso; cnt; lia].
    cbn. cbv [endC next]. cbn. eexists; split; reflexivity.
  - destruct (IH (partial3_snoc _ _ P3)) as (st & E & SN).
    replace (VM :: s1 ++ GS :: s2 ++ GE :: s3 ++ [c]) with ((VM :: s1 ++ GS :: s2 ++ GE :: s3) ++ [c])
      by (flat).
    rewrite runC_snoc, E. cbn [obnd]. rewrite (stepC_eq st c 3 _ SN eq_refl). unfold stepT.
    destruct (runC_shape _ _ E) as (F & _). destruct P3 as (Q1 & Q2). apply Forall_snoc in Q1 as (_ & I).
    pose proof (count_pre s1 s2 s3 MS P1 P2 ltac:(fin)) as CMS. pose proof (count_pre s1 s2 s3 XL P1 P2 ltac:(fin)) as CXL.
    pose proof (count_pre s1 s2 s3 YL P1 P2 ltac:(fin)) as CYL. pose proof (count_pre s1 s2 s3 ZL P1 P2 ltac:(fin)) as CZL.
    repeat (destruct I as [<-|I]; [cbn; first [rewrite (F1 _ _ F) by fin; rewrite (count_pre s1 s2 s3 _ P1 P2) by fin
         | rewrite (FMS _ _ F), CMS, CXL, CYL, CZL | rewrite (FXL _ _ F), CXL, CMS | rewrite (FYL _ _ F), CYL, CMS | rewrite (FZL _ _ F), CZL, CMS];
      match goal with |- context [negb (?k =? 0)] => destruct (negb (k =? 0)) eqn:N end; cbn;
      [apply nb in N; exfalso; clear - N Q2; cnt; lia|eexists; split; reflexivity]|]). destruct I.
Qed.
Lemma accept4 cs : complete_mesh cs -> exists st, runC cs initM = Acc st /\ sectionNumber st = 4.
Proof.
  intros (s1 & s2 & s3 & -> & P1 & P2 & P3).
  destruct P3 as (Q1 & Q2).
  destruct (accept3 s1 s2 s3 P1 P2) as (st & E & SN); [split; [exact Q1|lia]|].
  replace (VM :: s1 ++ GS :: s2 ++ GE :: s3 ++ [EN]) with ((VM :: s1 ++ GS :: s2 ++ GE :: s3) ++ [EN])
      by (flat).
  rewrite runC_snoc, E. cbn [obnd]. rewrite (stepC_eq st EN 3 _ SN eq_refl). unfold stepT.
  destruct (runC_shape _ _ E) as (F & _).
  pose proof (count_pre s1 s2 s3 MS P1 P2 ltac:(fin)) as CMS. pose proof (count_pre s1 s2 s3 XL P1 P2 ltac:(fin)) as CXL.
  pose proof (count_pre s1 s2 s3 YL P1 P2 ltac:(fin)) as CYL. pose proof (count_pre s1 s2 s3 ZL P1 P2 ltac:(fin)) as CZL.
  pose proof (count_pre s1 s2 s3 EN P1 P2 ltac:(fin)) as CEN. pose proof (count_pre s1 s2 s3 NT P1 P2 ltac:(fin)) as CNT.
  pose proof (count_absent _ _ EN Q1 ltac:(fin)) as EN0.
  cbn. rewrite (F1 _ _ F) by fin. rewrite CEN, EN0. cbn. cbv [mark]. cbn.
  rewrite (FMS _ _ F), (FXL _ _ F), (FYL _ _ F), (FZL _ _ F), CMS, CXL, CYL, CZL.
  replace (count MS s3 + count XL s3 + count YL s3 + count ZL s3 =? 0) with false by (symmetry; apply Nat.eqb_neq; lia).
  replace (count XL s3 + count MS s3 =? 0) with false by (symmetry; apply Nat.eqb_neq; lia).
  replace (count YL s3 + count MS s3 =? 0) with false by (symmetry; apply Nat.eqb_neq; lia).
  replace (count ZL s3 + count MS s3 =? 0) with false by (symmetry; apply Nat.eqb_neq; lia).
  cbn. cbv [endC next]. cbn. cbv [mark]. cbn. rewrite (F1 _ _ F) by fin. rewrite CNT.
  destruct (count NT s3 =? 0) eqn:N5; [apply Nat.eqb_eq in N5; exfalso; lia|]. cbn.
  eexists; split; reflexivity.
Qed.

(** ** From the file to the cards *)
Section Reader.
Context {H : Type} (hdl : H -> Card -> list Z -> list Z -> option (H * nat)).
Lemma stepCard_stepC st h c arg rest st' h' n : stepCard hdl st h c arg rest = Acc (st', h', n) -> stepC st c = Acc st'.
Proof.
  unfold stepCard, stepC. destruct (checkCard st c); [|discriminate|discriminate]. cbn [obnd].
  destruct (if hasFunc c then _ else _) as [r| |]; [|discriminate|discriminate]. cbn [obnd].
  destruct (special _ c) as [s| |]; [|discriminate|discriminate]. cbn [obnd].
  destruct (endSection s c) as [s'| |]; [|discriminate|discriminate]. cbn [obnd]. intros [= <- _ _]. reflexivity.
Qed.
Lemma readLoop_runC n : forall file st h tr st' h' tr', runC tr initM = Acc st ->
  readLoop hdl n file st h tr = Acc (st', h', tr') -> runC tr' initM = Acc st'.
Proof.
  induction n; intros file st h tr st' h' tr' R E.
  - destruct file; cbn in E; [|discriminate]. injection E as <- _ <-. exact R.
  - destruct file as [|ch file]; cbn [readLoop] in E; [injection E as <- _ <-; exact R|].
    destruct (fgets (BUFFER_LENGTH - 2) (ch :: file)) as [raw rest].
    destruct (obind _ strtrim) as [b|]; [|discriminate].
    destruct (_ =? 0)%Z in E; [eapply IHn; eauto|].
    destruct (getCardType (cstr b)) as [c|]; [|discriminate].
    destruct (stepCard hdl st h c (skipn 2 (cstr b)) rest) as [[[s1 h1] u]| |] eqn:S; [|discriminate|discriminate].
    cbn [obnd] in E. eapply IHn; [|exact E]. rewrite runC_snoc, R. cbn [obnd]. eapply stepCard_stepC; eauto.
Qed.
End Reader.
