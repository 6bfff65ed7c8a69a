(** Property theorems C03 (exactly which MB, TW, TB, EX and OP cards are accepted)
    and C18, C26, C31 (what is recorded for an accepted card). *)
From Coq Require Import ZArith List Bool String Ascii Reals Lia.
From Verif Require Import Types Lang BBox Grid Setup SpecGrid SpecGeom SetupProofs BBoxProofs Media Waveform Source Observer P_Geometry P_Media
  P_PwVectors SpecCards.
Import ListNotations.
Open Scope Z_scope.

Lemma normal_xy b : bboxIsNormal b = true <-> ordered_xy b.
Proof. unfold bboxIsNormal, ordered_xy. rewrite !andb_true_iff, !Z.leb_le. lia. Qed.
Lemma within_inside b mbox : bboxIsWithin b mbox = true <-> inside b mbox.
Proof.
  unfold bboxIsWithin, inside. rewrite !andb_true_iff, !Z.leb_le. split.
  - intros H []; cbn [face_lo face_hi]; lia.
  - intros H. pose proof (H XDIR); pose proof (H YDIR); pose proof (H ZDIR). cbn [face_lo face_hi] in *. lia.
Qed.
Lemma box_checks b mbox : negb (bboxIsNormal b) = false -> negb (bboxIsWithin b mbox) = false -> box_card mbox b.
Proof. intros N W. apply negb_false_iff in N, W. split; [apply normal_xy|apply within_inside]; assumption. Qed.
Lemma no_normal b mbox : negb (bboxIsNormal b) = true -> ~ box_card mbox b.
Proof. intros N [X _]. apply negb_true_iff in N. apply normal_xy in X. congruence. Qed.
Lemma no_within b mbox : negb (bboxIsWithin b mbox) = true -> ~ box_card mbox b.
Proof. intros N [_ X]. apply negb_true_iff in N. apply within_inside in X. congruence. Qed.
Lemma type_ndeg b : bboxType b = match ndeg b with O => BB_VOLUME | S O => BB_SURFACE | S (S O) => BB_LINE | _ => BB_POINT end.
Proof. exact (C02_type b). Qed.
Lemma called_some {A} (reg : Registry A) name n : findName reg name = Some n -> called reg name n.
Proof. intros H. destruct (findName_some reg name n H) as (it & N & E). exists it. auto. Qed.
Lemma called_none {A} (reg : Registry A) name n : findName reg name = None -> ~ called reg name n.
Proof.
  intros H (it & N & E). apply (proj1 (findName_none reg name)) in H. apply H. apply in_map_iff. exists it.
  split; [exact E|]. eapply nth_error_In; exact N.
Qed.
Lemma called_unique {A} (reg : Registry A) name n n' : unique_names reg -> called reg name n -> called reg name n' -> n = n'.
Proof.
  intros U (it & N & E) (it' & N' & E'). unfold unique_names in U. rewrite NoDup_nth_error in U. apply U.
  - rewrite map_length. apply nth_error_Some. congruence.
  - rewrite !nth_error_map, N, N'. cbn. congruence.
Qed.
Lemma ndeg_le b : (ndeg b <= 3)%nat.
Proof. unfold ndeg, axes. cbn [filter]. repeat destruct (degenerate b _); cbn; lia. Qed.

(** ** MB.  A block card is accepted exactly when its box is in the mesh and has
    extent in all three directions, the medium is declared and the mask is a
    binary number of at most six bits; the block gets that box, the number of
    that medium and the value of that mask.  [mask] is a sscanf %s token or the
    default "111111", hence not empty. *)
Theorem C03_MB_card : forall M mbox (media : Registry M) b name mask, mask <> [] ->
  match parseMB mbox media b name mask with
  | Some blk => box_card mbox b /\ ndeg b = 0%nat /\ bbox_b blk = b /\ called media name (medium_b blk) /\
      denotes_binary mask (mask_b blk) /\ 0 <= mask_b blk <= 63
  | None => ~ (box_card mbox b /\ ndeg b = 0%nat /\ (exists n, called media name n) /\
               exists v, denotes_binary mask v /\ 0 <= v <= 63)
  end.
Proof.
  intros M mbox media b name mask NE. unfold parseMB.
  destruct (negb (bboxIsNormal b)) eqn:N; [intros (X & _); exact (no_normal _ _ N X)|].
  destruct (negb (bboxIsWithin b mbox)) eqn:W; [intros (X & _); exact (no_within _ _ W X)|].
  rewrite type_ndeg. destruct (ndeg b) as [|[|[|n]]] eqn:D; try (intros (_ & X & _); discriminate X).
  destruct (findName media name) as [n|] eqn:F; [|intros (_ & _ & (n & X) & _); exact (called_none _ _ _ F X)].
  destruct (Z.eqb_spec (setFaceMaskFromString mask) FACE_MASK_ERROR) as [E|E].
  - intros (_ & _ & _ & v & X). apply (C01_mask_accepted mask v NE) in X. unfold FACE_MASK_ERROR in E. lia.
  - cbn [bbox_b medium_b mask_b]. split; [exact (box_checks _ _ N W)|]. repeat (split; [first [exact D|reflexivity|exact (called_some _ _ _ F)]|]).
    apply (C01_mask_accepted mask _ NE). split; [reflexivity|exact E].
Qed.
(** ** TW *)
Theorem C03_TW_card : forall M mbox (wires : Registry M) b name,
  match parseTW mbox wires b name with
  | Some l => box_card mbox b /\ ndeg b = 2%nat /\ bbox_l l = b /\ called wires name (wire_l l)
  | None => ~ (box_card mbox b /\ ndeg b = 2%nat /\ exists n, called wires name n)
  end.
Proof.
  intros M mbox wires b name. unfold parseTW.
  destruct (negb (bboxIsNormal b)) eqn:N; [intros (X & _); exact (no_normal _ _ N X)|].
  destruct (negb (bboxIsWithin b mbox)) eqn:W; [intros (X & _); exact (no_within _ _ W X)|].
  rewrite type_ndeg. destruct (ndeg b) as [|[|[|n]]] eqn:D; try (intros (_ & X & _); discriminate X).
  destruct (findName wires name) as [n|] eqn:F; [|intros (_ & _ & (n & X)); exact (called_none _ _ _ F X)].
  cbn [bbox_l wire_l]. split; [exact (box_checks _ _ N W)|]. repeat (split; [first [exact D|reflexivity]|]). exact (called_some _ _ _ F).
Qed.
(** ** TB; [ang]: the rotation angle is within -180..180 degrees *)
Theorem C03_TB_card : forall M mbox (bounds : Registry M) b name o ang,
  match parseTB mbox bounds b name o ang with
  | Some s => box_card mbox b /\ ndeg b = 1%nat /\ (o = 1 \/ o = -1) /\ ang = true /\
      bbox_s s = b /\ called bounds name (boundary_s s) /\ orient_s s = o
  | None => ~ (box_card mbox b /\ ndeg b = 1%nat /\ (exists n, called bounds name n) /\ (o = 1 \/ o = -1) /\ ang = true)
  end.
Proof.
  intros M mbox bounds b name o ang. unfold parseTB.
  destruct (negb (bboxIsNormal b)) eqn:N; [intros (X & _); exact (no_normal _ _ N X)|].
  destruct (negb (bboxIsWithin b mbox)) eqn:W; [intros (X & _); exact (no_within _ _ W X)|].
  rewrite type_ndeg. destruct (ndeg b) as [|[|[|n]]] eqn:D; try (intros (_ & X & _); discriminate X).
  destruct (findName bounds name) as [n|] eqn:F; [|intros (_ & _ & (n & X) & _); exact (called_none _ _ _ F X)].
  destruct (negb (o =? 1) && negb (o =? -1)) eqn:O.
  { apply andb_true_iff in O. rewrite !negb_true_iff, !Z.eqb_neq in O. intros (_ & _ & _ & X & _). lia. }
  apply andb_false_iff in O. rewrite !negb_false_iff, !Z.eqb_eq in O.
  destruct ang; cbn [negb]; [|intros (_ & _ & _ & _ & X); discriminate X].
  cbn [bbox_s boundary_s orient_s]. split; [exact (box_checks _ _ N W)|]. repeat (split; [first [exact D|exact O|reflexivity]|]).
  split; [exact (called_some _ _ _ F)|reflexivity].
Qed.
(** ** EX: what is recorded is C26_card; which types exist is C25 *)
Theorem C03_EX_card : forall mbox wfs l b name ty wf args,
  parseEX mbox wfs l b name ty wf args <> None <->
  (forall s, In s l -> s_name s <> name) /\ (exists t, findTag ty = Some t /\
     (t_type t = ST_THEVENIN_VOLTAGE \/ t_type t = ST_NORTON_CURRENT -> ndeg b = 2%nat)) /\
  box_card mbox b /\ (exists w, In w wfs /\ wName w = wf).
Proof.
  intros mbox wfs l b name ty wf args. unfold parseEX.
  destruct (isSource l name) eqn:E1.
  { split; [congruence|]. unfold isSource in E1. apply exists_name in E1. destruct E1 as (s & I & E). intros (H & _). exfalso. exact (H s I E). }
  assert (H1 : forall s, In s l -> s_name s <> name).
  { intros s I E. apply not_true_iff_false in E1. apply E1. apply exists_name. eauto. }
  destruct (findTag ty) as [t|]; [|split; [congruence|intros (_ & (t & X & _) & _); discriminate X]].
  destruct (negb (bboxIsNormal b)) eqn:N; [split; [congruence|intros (_ & _ & X & _); exfalso; exact (no_normal _ _ N X)]|].
  destruct (negb (bboxIsWithin b mbox)) eqn:W; [split; [congruence|intros (_ & _ & X & _); exfalso; exact (no_within _ _ W X)]|].
  assert (WF : isWaveform wfs wf = true <-> exists w, In w wfs /\ wName w = wf) by apply exists_name.
  assert (BC := box_checks _ _ N W). clear E1 N W.
  assert (LU : isLumped (t_type t) = true <-> t_type t = ST_THEVENIN_VOLTAGE \/ t_type t = ST_NORTON_CURRENT).
  { destruct (t_type t); cbn; intuition congruence. }
  assert (EL : match bboxType b with BB_LINE => negb (bboxIsElemental b) | _ => true end = negb (Nat.eqb (ndeg b) 2)).
  { unfold bboxIsElemental. rewrite type_ndeg. destruct (ndeg b) as [|[|[|[|n]]]]; try reflexivity. destruct (_ =? 1); reflexivity. }
  rewrite EL. clear EL.
  pose proof (ndeg_le b) as ND.
  assert (TS : forall P : TagData -> Prop, (exists t0, Some t = Some t0 /\ P t0) <-> P t).
  { intros P. split; [intros (t0 & Q & X); injection Q as <-; exact X|eauto]. }
  rewrite (TS (fun t => t_type t = ST_THEVENIN_VOLTAGE \/ t_type t = ST_NORTON_CURRENT -> ndeg b = 2%nat)). clear TS.
  destruct (isLumped (t_type t)) eqn:L; destruct (isWaveform wfs wf) eqn:V; cbn [negb];
  destruct (Nat.eqb_spec (ndeg b) 2) as [D|D]; cbn [negb];
  split; intros X; try congruence; try (split; [exact H1|]);
  try (split; [intros; try exact D; exfalso; apply LU in H; discriminate H|]; split; [exact BC|apply WF; reflexivity]);
  exfalso; destruct X as (_ & X & _ & Y); try (apply WF in Y; discriminate Y);
  try (specialize (X (proj1 LU eq_refl)); contradiction).
Qed.
(** ** OP: type, and for ASCII observers (a single node) the optional reference
    waveform, for BINARY ones the optional strides, which must not be negative;
    a missing waveform is the first one, a missing stride is 1. *)
Definition has_wave (wfs : list WfItem) (wf : string) (n : nat) : Prop :=
  exists w, nth_error wfs n = Some w /\ wName w = wf /\ forall n' w', (n' < n)%nat -> nth_error wfs n' = Some w' -> wName w' <> wf.
Lemma wave_some wfs wf n : waveformNumber wfs wf = Some n -> has_wave wfs wf n.
Proof.
  revert n; induction wfs as [|w wfs IH]; cbn; intros n H; [discriminate|].
  destruct (String.eqb_spec wf (wName w)) as [E|E].
  - injection H as <-. exists w. split; [reflexivity|]. split; [auto|]. intros; lia.
  - destruct (waveformNumber wfs wf) as [m|] eqn:F; [|discriminate H]. injection H as <-.
    destruct (IH m eq_refl) as (x & X1 & X2 & X3). exists x. split; [exact X1|]. split; [exact X2|].
    intros [|n'] w' L Q; cbn in Q; [injection Q as <-; congruence|]. apply (X3 n' w'); [lia|exact Q].
Qed.
Lemma wave_none wfs wf w : waveformNumber wfs wf = None -> In w wfs -> wName w <> wf.
Proof.
  induction wfs as [|x wfs IH]; cbn; intros H; [tauto|]. destruct (String.eqb_spec wf (wName x)) as [E|E]; [discriminate|].
  destruct (waveformNumber wfs wf); [discriminate|]. intros [->|I]; [congruence|auto].
Qed.
Definition op_ok (mbox : BBox) (wfs : list WfItem) (l : list Obs) (b : BBox) (name ty wf : string) (steps : list Z) : Prop :=
  (forall o, In o l -> o_name o <> name) /\ box_card mbox b /\
  exists ascii time, op_type ty ascii time /\
  if ascii then ndeg b = 3%nat /\ (wf = ""%string \/ exists w, In w wfs /\ wName w = wf)
  else Forall (fun s => 0 <= s) (firstn 3 steps).
Theorem C31_card : forall mbox wfs l b name ty wf steps,
  match parseOP mbox wfs l b name ty wf steps with
  | Some l' => op_ok mbox wfs l b name ty wf steps /\
      exists o, l' = (l ++ [o])%list /\ o_name o = name /\ o_mbbox o = b /\
      op_type ty (match o_format o with OF_ASCII => true | OF_BINARY => false end) (match o_domain o with OD_TIME => true | OD_FREQ => false end) /\
      o_quantity o = OQ_EH /\
      match o_format o with
      | OF_ASCII => (wf = ""%string -> o_wf o = 0%nat) /\ (wf <> ""%string -> has_wave wfs wf (o_wf o)) /\ forall a, o_step o a = 1
      | OF_BINARY =>
          match steps with
          | [] => forall a, o_step o a = 1
          | [x] => o_step o XDIR = x /\ o_step o YDIR = 1 /\ o_step o ZDIR = 1
          | [x; y] => o_step o XDIR = x /\ o_step o YDIR = y /\ o_step o ZDIR = 1
          | x :: y :: z :: _ => o_step o XDIR = x /\ o_step o YDIR = y /\ o_step o ZDIR = z
          end
      end
  | None => ~ op_ok mbox wfs l b name ty wf steps
  end.
Proof.
  intros mbox wfs l b name ty wf steps. unfold parseOP, op_ok.
  destruct (isObserver l name) eqn:E1.
  { unfold isObserver in E1. apply exists_name in E1. destruct E1 as (s & I & E). intros (H & _). exact (H s I E). }
  assert (H1 : forall o, In o l -> o_name o <> name).
  { intros s I E. apply not_true_iff_false in E1. apply E1. apply exists_name. eauto. }
  destruct (negb (bboxIsNormal b)) eqn:N; [intros (_ & X & _); exact (no_normal _ _ N X)|].
  destruct (negb (bboxIsWithin b mbox)) eqn:W; [intros (_ & X & _); exact (no_within _ _ W X)|].
  assert (BC := box_checks _ _ N W). clear E1 N W. pose proof (ndeg_le b) as ND.
  assert (TY : match observerType ty with
     | Some (f, d) => op_type ty (match f with OF_ASCII => true | OF_BINARY => false end) (match d with OD_TIME => true | OD_FREQ => false end) /\
         forall x y, op_type ty x y -> x = match f with OF_ASCII => true | OF_BINARY => false end
     | None => forall x y, ~ op_type ty x y end).
  { unfold observerType. destruct (String.eqb_spec ty "TDOM_ASCII") as [->|A]; [split; [constructor|intros x y Q; inversion Q; reflexivity]|].
    destruct (String.eqb_spec ty "FDOM_ASCII") as [->|B]; [split; [constructor|intros x y Q; inversion Q; reflexivity]|].
    destruct (String.eqb_spec ty "TDOM_BINARY") as [->|C]; [split; [constructor|intros x y Q; inversion Q; reflexivity]|].
    intros x y Q. inversion Q; subst; congruence. }
  destruct (observerType ty) as [[[] d]|].
  - destruct TY as [T U]. rewrite type_ndeg. destruct (ndeg b) as [|[|[|[|n]]]] eqn:D; try lia;
    try (intros (_ & _ & x & y & Q & X); rewrite (U _ _ Q) in X; destruct X as [X _]; discriminate X).
    destruct (String.eqb_spec wf "") as [->|NE].
    + split; [split; [exact H1|split; [exact BC|]]; exists true; eexists; split; [exact T|]; auto|].
      eexists. split; [reflexivity|]. cbn [o_name o_mbbox o_format o_domain o_quantity o_wf o_step].
      do 4 (split; [first [reflexivity|exact T]|]). split; [reflexivity|]. split; [congruence|reflexivity].
    + destruct (waveformNumber wfs wf) as [n|] eqn:F.
      * pose proof (wave_some _ _ _ F) as HW.
        split; [split; [exact H1|split; [exact BC|]]; exists true; eexists; split; [exact T|]; split; [reflexivity|right]|].
        { destruct HW as (w & X1 & X2 & _). exists w. split; [eapply nth_error_In; exact X1|exact X2]. }
        eexists. split; [reflexivity|]. cbn [o_name o_mbbox o_format o_domain o_quantity o_wf o_step].
        do 4 (split; [first [reflexivity|exact T]|]). split; [congruence|]. split; [auto|reflexivity].
      * intros (_ & _ & x & y & Q & X). rewrite (U _ _ Q) in X. destruct X as [_ [X|(w & I & X)]]; [congruence|].
        exact (wave_none _ _ _ F I X).
  - destruct TY as [T U].
    assert (ST : ((nth 0 steps 1 <? 0) || (nth 1 steps 1 <? 0) || (nth 2 steps 1 <? 0)) = false <-> Forall (fun s => 0 <= s) (firstn 3 steps)).
    { destruct steps as [|x [|y [|z ss]]]; cbn [nth firstn]; rewrite !orb_false_iff, ?Forall_cons_iff, !Z.ltb_ge; 
      (split; [intros H|intros H]); repeat split; try apply Forall_nil; try lia. }
    cbv zeta. destruct ((nth 0 steps 1 <? 0) || (nth 1 steps 1 <? 0) || (nth 2 steps 1 <? 0)) eqn:S.
    + intros (_ & _ & x & y & Q & X). rewrite (U _ _ Q) in X. apply ST in X. discriminate X.
    + split; [split; [exact H1|split; [exact BC|]]; exists false; eexists; split; [exact T|]; apply ST; reflexivity|].
      eexists. split; [reflexivity|]. cbn [o_name o_mbbox o_format o_domain o_quantity o_wf o_step].
      do 4 (split; [first [reflexivity|exact T]|]). destruct steps as [|x [|y [|z ss]]]; cbn; auto. intros []; reflexivity.
  - intros (_ & _ & x & y & Q & _). exact (TY x y Q).
Qed.

(** the cards of a small mesh *)
Example C03_cards_nonvacuous :
  parseMB (mkbox 0 8 0 8 0 8) [mkItem "FREE_SPACE"%string tt; mkItem "PEC"%string tt] (mkbox 1 3 1 3 1 3) "PEC" (list_ascii_of_string "101010")
    = Some (mkBlock (mkbox 1 3 1 3 1 3) 1 42) /\
  parseTW (mkbox 0 8 0 8 0 8) initWireReg (mkbox 1 3 1 1 2 2) "FREE_SPACE" = Some (mkLine (mkbox 1 3 1 1 2 2) 1) /\
  parseOP (mkbox 0 8 0 8 0 8) [] [] (mkbox 1 5 1 5 2 2) "o" "TDOM_BINARY" "" [2; 2]
    = Some [mkObs "o" OF_BINARY OD_TIME OQ_EH (mkbox 1 5 1 5 2 2) (fun a => match a with XDIR => 2 | YDIR => 2 | ZDIR => 1 end) 0].
Proof. split; [reflexivity|]. split; reflexivity. Qed.
