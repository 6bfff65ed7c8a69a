(** Proofs about BBox.v. *)
From Coq Require Import ZArith List Bool Ascii Lia.
From Verif Require Import Types BBox SpecGeom.
Import ListNotations.
Open Scope Z_scope.
Local Arguments Z.mul : simpl never.
Local Arguments Z.add : simpl never.
Local Arguments Z.sub : simpl never.

(** ** strtol base 2 *)
Lemma isspace_blank c : isspace c = true <-> blank c.
Proof.
  unfold isspace, blank.
  destruct c as [b0 b1 b2 b3 b4 b5 b6 b7];
  destruct b0, b1, b2, b3, b4, b5, b6, b7; simpl; split; intro H; auto; try discriminate;
  try tauto; repeat destruct H as [H|H]; try discriminate; try contradiction.
Qed.

Lemma take_bin_spec s : forall acc seen v sn rest,
  take_bin acc seen s = (v, sn, rest) ->
  exists bs, s = map digit_of bs ++ rest /\
    v = fold_left (fun (a : Z) (b : bool) => 2 * a + (if b then 1 else 0)) bs acc /\
    sn = (seen || match bs with [] => false | _ => true end)%bool.
Proof.
  induction s as [|c s IH]; intros acc seen v sn rest H; simpl in H.
  - inversion H; subst. exists []. simpl. rewrite orb_false_r. auto.
  - unfold bindigit in H.
    destruct (Ascii.eqb_spec c "0"); [|destruct (Ascii.eqb_spec c "1")].
    + apply IH in H. destruct H as (bs & -> & -> & ->). exists (false :: bs).
      subst c. simpl. rewrite orb_true_r. auto.
    + apply IH in H. destruct H as (bs & -> & -> & ->). exists (true :: bs).
      subst c. simpl. rewrite orb_true_r. auto.
    + inversion H; subst. exists []. simpl. rewrite orb_false_r. auto.
Qed.

Lemma take_bin_bits bs : forall acc seen,
  take_bin acc seen (map digit_of bs) =
  (fold_left (fun (a : Z) (b : bool) => 2 * a + (if b then 1 else 0)) bs acc,
   (seen || match bs with [] => false | _ => true end)%bool, []).
Proof.
  induction bs as [|b bs IH]; intros; simpl.
  - rewrite orb_false_r. reflexivity.
  - destruct b; simpl; rewrite IH; simpl; rewrite orb_true_r; reflexivity.
Qed.

Lemma skip_ws_spec s : exists ws, s = ws ++ skip_ws s /\ Forall blank ws.
Proof.
  induction s as [|c s IH]; simpl.
  - exists []. auto.
  - destruct (isspace c) eqn:E.
    + destruct IH as (ws & H & F). exists (c :: ws). split; [simpl; congruence|].
      constructor; auto. apply isspace_blank; auto.
    + exists []. auto.
Qed.

Lemma skip_ws_app ws s : Forall blank ws -> (match s with c :: _ => isspace c = false | [] => True end) ->
  skip_ws (ws ++ s) = s.
Proof.
  intros F H. induction F; simpl.
  - destruct s; simpl; auto. rewrite H. auto.
  - apply isspace_blank in H0. rewrite H0. auto.
Qed.

Lemma bits_value_nonneg bs : 0 <= bits_value bs.
Proof.
  unfold bits_value.
  assert (forall acc, 0 <= acc -> 0 <= fold_left (fun (a : Z) (b : bool) => 2 * a + (if b then 1 else 0)) bs acc) as H.
  { induction bs as [|b bs IH]; intros; cbn [fold_left]; auto. apply IH. destruct b; cbv iota; lia. }
  apply H; lia.
Qed.

Lemma strtol2_denotes s v : strtol2 s = (v, []) -> 0 <= v <= 63 -> s <> [] ->
  denotes_binary s v.
Proof.
  unfold strtol2. destruct (skip_ws_spec s) as (ws & Hs & Fw).
  remember (skip_ws s) as s0 eqn:Es0. clear Es0.
  destruct (take_sign s0) as [neg s1] eqn:TS.
  destruct (take_bin 0 false s1) as [[w seen] rest] eqn:TB.
  destruct seen; [|intros H _ Hn; inversion H; congruence].
  intros H Hv _. injection H as H1 H2; subst rest.
  apply take_bin_spec in TB. destruct TB as (bs & Hs1 & Hw & Hsn).
  rewrite app_nil_r in Hs1. fold (bits_value bs) in Hw.
  assert (Hb : bs <> []) by (intro; subst; discriminate).
  pose proof (bits_value_nonneg bs) as Hp.
  assert (Hneg : neg = true /\ s0 = "-"%char :: s1 \/
                 neg = false /\ (s0 = s1 \/ s0 = "+"%char :: s1)).
  { unfold take_sign in TS. destruct s0 as [|c s0']; [inversion TS; auto|].
    destruct (Ascii.eqb_spec c "-"); [inversion TS; subst; auto|].
    destruct (Ascii.eqb_spec c "+"); inversion TS; subst; auto. }
  destruct Hneg as [[-> E]|[-> [E|E]]].
  - exists ws, ["-"%char], bs. split; [rewrite Hs, E, Hs1; reflexivity|].
    split; [auto|]. split; [auto|]. right. split; auto. unfold LONG_MAX in *. lia.
  - exists ws, [], bs. split; [rewrite Hs, E, Hs1; reflexivity|].
    split; [auto|]. split; [auto|]. left. split; auto. unfold LONG_MAX in *. lia.
  - exists ws, ["+"%char], bs. split; [rewrite Hs, E, Hs1; reflexivity|].
    split; [auto|]. split; [auto|]. left. split; auto. unfold LONG_MAX in *. lia.
Qed.

Lemma strtol2_of_denotes s v : denotes_binary s v -> 
  snd (strtol2 s) = [] /\ fst (strtol2 s) = Z.max (Z.min v LONG_MAX) (- LONG_MAX - 1).
Proof.
  intros (ws & sgn & bs & -> & Fw & Hb & Hv).
  pose proof (bits_value_nonneg bs) as Hp.
  assert (Hskip : skip_ws (ws ++ sgn ++ map digit_of bs) = sgn ++ map digit_of bs).
  { apply skip_ws_app; auto.
    destruct Hv as [[[->| ->] _]|[-> _]]; simpl; try reflexivity.
    destruct bs as [|b ?]; [congruence|]. destruct b; reflexivity. }
  unfold strtol2. rewrite Hskip.
  assert (HT : take_sign (sgn ++ map digit_of bs) =
     (match sgn with c :: _ => Ascii.eqb c "-" | [] => false end, map digit_of bs)).
  { destruct Hv as [[[->| ->] _]|[-> _]]; simpl; try reflexivity.
    destruct bs as [|b ?]; [congruence|]. destruct b; reflexivity. }
  rewrite HT, take_bin_bits. fold (bits_value bs).
  destruct bs as [|b0 bs']; [congruence|]. cbn [orb].
  destruct Hv as [[[->| ->] Hv]|[-> Hv]]; simpl Ascii.eqb; cbn [fst snd];
    split; auto; unfold LONG_MAX in *; lia.
Qed.

Lemma strtol2_nil : strtol2 [] = (0, []).
Proof. reflexivity. Qed.

Lemma faceMask_accept s v : s <> [] ->
  (setFaceMaskFromString s = v /\ v <> 255) <-> (denotes_binary s v /\ 0 <= v <= 63).
Proof.
  intro Hne. unfold setFaceMaskFromString, FACE_MASK_ERROR. split.
  - intros [H Hn]. destruct (strtol2 s) as [l j] eqn:E.
    destruct (Z.ltb_spec l 0); simpl in H; [congruence|].
    destruct (Z.ltb_spec 63 l); simpl in H; [congruence|].
    destruct j; [|congruence]. subst l. split; [|lia].
    apply strtol2_denotes; auto.
  - intros [H Hr]. apply strtol2_of_denotes in H.
    destruct (strtol2 s) as [l j]. cbn [fst snd] in H. destruct H as [-> ->].
    replace (Z.max (Z.min v LONG_MAX) (- LONG_MAX - 1)) with v by (unfold LONG_MAX; lia).
    destruct (Z.ltb_spec v 0); [lia|]. destruct (Z.ltb_spec 63 v); [lia|].
    split; [reflexivity|lia].
Qed.

Lemma faceMask_range s : 0 <= setFaceMaskFromString s <= 255.
Proof.
  unfold setFaceMaskFromString, FACE_MASK_ERROR. destruct (strtol2 s) as [l j].
  destruct (Z.ltb_spec l 0); simpl; [lia|].
  destruct (Z.ltb_spec 63 l); simpl; [lia|]. destruct j; lia.
Qed.

Lemma isFaceActive_bit v f : 0 <= v <= 63 -> isFaceActive v f = Z.testbit v (face_bit f).
Proof.
  intro H. assert (In v (map Z.of_nat (seq 0 64))) as Hin.
  { apply in_map_iff. exists (Z.to_nat v). split; [lia|]. apply in_seq. lia. }
  revert v Hin H.
  assert (forallb (fun v => Bool.eqb (isFaceActive v f) (Z.testbit v (face_bit f)))
            (map Z.of_nat (seq 0 64)) = true) as G by (destruct f; vm_compute; reflexivity).
  rewrite forallb_forall in G. intros v Hin _. apply eqb_prop. auto.
Qed.
Lemma faceMask2boolArray_active v f : faceMask2boolArray v f = isFaceActive v f.
Proof. reflexivity. Qed.

Lemma mask6_roundtrip on f :
  isFaceActive (setFaceMaskFromString (mask6 on)) f = on f /\
  faceMask2boolArray (setFaceMaskFromString (mask6 on)) f = on f /\
  setFaceMaskFromString (mask6 on) <> 255.
Proof.
  change (faceMask2boolArray (setFaceMaskFromString (mask6 on)) f) with (isFaceActive (setFaceMaskFromString (mask6 on)) f).
  unfold mask6, faces. simpl map.
  destruct (on XLO) eqn:?, (on XHI) eqn:?, (on YLO) eqn:?, (on YHI) eqn:?, (on ZLO) eqn:?, (on ZHI) eqn:?;
  destruct f; vm_compute; repeat split; try congruence; discriminate.
Qed.

(** ** Classification *)
Lemma bboxType_ndeg b :
  bboxType b = match ndeg b with
               | O => BB_VOLUME | S O => BB_SURFACE | S (S O) => BB_LINE | _ => BB_POINT end.
Proof.
  unfold bboxType, bboxMask, ndeg, degenerate; simpl.
  destruct (b XLO =? b XHI), (b YLO =? b YHI), (b ZLO =? b ZHI); reflexivity.
Qed.
Lemma bboxDirection_line b a : bboxType b = BB_LINE ->
  (bboxDirection b = Some a <-> degenerate b a = false).
Proof.
  unfold bboxType, bboxDirection, bboxMask, degenerate.
  destruct a; simpl;
  destruct (b XLO =? b XHI), (b YLO =? b YHI), (b ZLO =? b ZHI); simpl; intuition congruence.
Qed.
Lemma bboxDirection_surface b a : bboxType b = BB_SURFACE ->
  (bboxDirection b = Some a <-> degenerate b a = true).
Proof.
  unfold bboxType, bboxDirection, bboxMask, degenerate.
  destruct a; simpl;
  destruct (b XLO =? b XHI), (b YLO =? b YHI), (b ZLO =? b ZHI); simpl; intuition congruence.
Qed.
Lemma bboxDirection_undef b : bboxDirection b = None <-> bboxType b = BB_POINT \/ bboxType b = BB_VOLUME.
Proof.
  unfold bboxType, bboxDirection, bboxMask.
  destruct (b XLO =? b XHI), (b YLO =? b YHI), (b ZLO =? b ZHI); simpl; intuition congruence.
Qed.

Definition in_box (b : BBox) (x y z : Z) : Prop :=
  b XLO <= x <= b XHI /\ b YLO <= y <= b YHI /\ b ZLO <= z <= b ZHI.

Lemma getFace_spec b face x y z : ordered b ->
  in_box (getFaceOfBoundingBox b face) x y z <->
  in_box b x y z /\ coord x y z (face_axis face) = b face.
Proof.
  intro O. pose proof (O XDIR) as OX. pose proof (O YDIR) as OY. pose proof (O ZDIR) as OZ.
  simpl in *.
  destruct face; unfold in_box, getFaceOfBoundingBox, mkbox; simpl; lia.
Qed.

Lemma offset_spec b o x y z :
  in_box b x y z <-> in_box (offsetBoundingBox b o) (x + o XLO) (y + o YLO) (z + o ZLO).
Proof. unfold in_box, offsetBoundingBox. lia. Qed.

Lemma fieldIsInBoundary_spec f face : fieldIsInBoundary f face = true <-> lies_in_plane f face.
Proof.
  unfold lies_in_plane, ypos, staggered.
  destruct f, face; simpl; (split; [intro H; try discriminate; exists 0, 0; reflexivity
    | intros (n & m & H); try reflexivity; lia]).
Qed.
Lemma fieldIsParallelToBoundary_spec f face :
  fieldIsParallelToBoundary f face = true <-> parallel f face.
Proof. unfold parallel. destruct f, face; simpl; split; try congruence; try discriminate; intro H; exfalso; apply H; reflexivity. Qed.
Lemma fieldIsParallelToAxis_spec f a : fieldIsParallelToAxis f a = true <-> fld_axis f = a.
Proof. destruct f, a; simpl; split; congruence. Qed.

(** ** Validity checks *)
Lemma bboxIsNormal_xy b : bboxIsNormal b = true <->
  b XLO <= b XHI /\ b YLO <= b YHI.
Proof. unfold bboxIsNormal. rewrite !andb_true_iff, !Z.leb_le. intuition lia. Qed.
Lemma bboxIsWithin_spec b B : bboxIsWithin b B = true <-> inside b B.
Proof.
  unfold bboxIsWithin, inside. rewrite !andb_true_iff, !Z.leb_le. split.
  - intros H a; destruct a; simpl; lia.
  - intro H. pose proof (H XDIR). pose proof (H YDIR). pose proof (H ZDIR). simpl in *. lia.
Qed.

(** ** Field limits *)
Lemma setFieldLimits_spec f b incl i j k :
  in_lim (setFieldLimits b incl f) i j k <-> yee_in f b incl i j k.
Proof.
  unfold in_lim, yee_in, setFieldLimits, ypos, staggered. split.
  - intros H a. destruct f, a; simpl in *;
    repeat match goal with
    | H : context [if incl ?x then _ else _] |- _ => destruct (incl x) eqn:?
    end; repeat split; intros; try congruence; try lia.
  - intro H. pose proof (H XDIR) as HX. pose proof (H YDIR) as HY. pose proof (H ZDIR) as HZ.
    clear H. destruct f; simpl in *;
    repeat match goal with
    | |- context [if incl ?x then _ else _] => destruct (incl x) eqn:?
    end; intuition lia.
Qed.
