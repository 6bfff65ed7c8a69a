(** C67: the BE card and WF cards of type EXTERNAL. *)
From Coq Require Import ZArith List Bool Ascii String Reals Lia Lra.
From Verif Require Import Types CArr CStr Sim Scan SpecScan P_Scan BBox Grid Setup SetupProofs SpecSetup P_Setup Medium Waveform Source PlaneWave Observer Edges SpecText Mesh SpecGeom SpecCards P_Cards Front P_PwVectors P_Positive P_CardText P_CardText2.
Import ListNotations.
Local Open Scope list_scope.
Open Scope Z_scope.

(** ** BE: six depths, in the order of the faces.  Where each face has a boundary
    of its own (else the card hits another one, C47). *)
Theorem C67_depth_card : forall h line t1 t2 t3 t4 t5 t6, written six line (corners t1 t2 t3 t4 t5 t6) -> (forall f, declared (h_breg h) f <> None) ->
  let depth := mkbox t1 t2 t3 t4 t5 t6 in
  match cardBE h line with
  | Some h' => only PBound h h' /\ h_bpar h' = h_bpar h /\ (forall f, 0 <= depth f) /\ map iname (h_breg h') = map iname (h_breg h) /\
      (forall f, declared (h_breg h') f = option_map (fun d => mkB (btype d) (depth f)) (declared (h_breg h) f)) /\
      (forall n, (forall f, findName (h_breg h) (FACE f) <> Some n) -> nth_error (h_breg h') n = nth_error (h_breg h) n)
  | None => exists f, depth f < 0
  end.
Proof.
  intros h line t1 t2 t3 t4 t5 t6 W D depth. apply C67_read_as_written in W. unfold cardBE. change (flat_map format six) with D6 in W. rewrite W. cbn [corners box6]. fold depth.
  assert (X : (exists f, depth f < 0) \/ forall f, 0 <= depth f).
  { destruct (Z.ltb_spec t1 0); [left; exists XLO; exact H|]. destruct (Z.ltb_spec t2 0); [left; exists XHI; exact H0|]. destruct (Z.ltb_spec t3 0); [left; exists YLO; exact H1|]. destruct (Z.ltb_spec t4 0); [left; exists YHI; exact H2|]. destruct (Z.ltb_spec t5 0); [left; exists ZLO; exact H3|]. destruct (Z.ltb_spec t6 0); [left; exists ZHI; exact H4|].
    right. intros []; unfold depth, mkbox; assumption. }
  destruct X as [(f & Hf)|P].
  - rewrite (C47_negative_refused (h_breg h) depth f Hf). eauto.
  - destruct (C47_BE_partial (h_breg h) depth D P) as (reg' & E & A & B & C). rewrite E. split; [rest_kept|]. repeat split; auto.
Qed.

(** ** WF name EXTERNAL "file" [size [delay]] *)
Theorem C67_external_card : forall h line name file xs,
  written [FName; FName; FFile; FReal; FReal] line (VS name :: VS "EXTERNAL" :: VS file :: map VR xs) ->
  match cardWF h line with
  | Some h' => (forall w, In w (h_wfs h) -> wName w <> name) /\
      h_wfs h' = (h_wfs h ++ [mkWf name EXTERNAL (or_else xs 0 (-1)) (or_else xs 1 (-1)) (-1) (-1)])%list /\ only PWave h h'
  | None => (exists w, In w (h_wfs h) /\ wName w = name) \/ (exists x, nth_error xs 0 = Some x /\ x < 0)%R
  end.
Proof.
  intros h line name file xs W. unfold cardWF.
  rewrite (read_first [FName; FName] [FFile; FReal; FReal] line _ W : sscanf [CvWord; CvWord] line = [VS name; VS "EXTERNAL"]).
  change (String.eqb "EXTERNAL" "EXTERNAL") with true. cbv iota.
  apply C67_read_as_written in W. change (flat_map format [FName; FName; FFile; FReal; FReal]) with ([CvWord; CvWord] ++ quoted ++ [CvReal; CvReal]) in W. rewrite W, realsOf_map.
  unfold parseWF. destruct (isWaveform (h_wfs h) name) eqn:IW. { left. apply exists_name in IW. destruct IW as (w & I & E). eauto. }
  assert (NW : forall w, In w (h_wfs h) -> wName w <> name).
  { intros w I E. apply not_true_iff_false in IW. apply IW. apply exists_name. eauto. }
  assert (AR : forall n, arg xs n = or_else xs n (-1)). { intros n. unfold arg, or_else. clear. revert n. induction xs; destruct n; cbn; auto. }
  change (findWfType "EXTERNAL") with (Some EXTERNAL). cbv iota.
  destruct (given xs 0 && Rltb (arg xs 0) 0) eqn:G0.
  { right. apply andb_true_iff in G0. destruct G0 as (G & Q). unfold given in G. apply Nat.ltb_lt in G. rewrite AR in Q. unfold or_else in Q.
    destruct (nth_error xs 0) as [x|] eqn:N; [|apply nth_error_None in N; lia]. exists x. split; [reflexivity|]. unfold Rltb in Q. destruct (Rlt_dec x 0); [assumption|discriminate]. }
  split; [exact NW|]. split; [cbn [h_wfs setExc]; rewrite !AR; reflexivity|]. rest_kept.
Qed.
(** without a file name the card is refused *)
Theorem C67_external_nofile : forall h line name, written [FName; FName; FFile; FReal; FReal] line [VS name; VS "EXTERNAL"] -> cardWF h line = None.
Proof.
  intros h line name W. unfold cardWF.
  rewrite (read_first [FName; FName] [FFile; FReal; FReal] line _ W : sscanf [CvWord; CvWord] line = [VS name; VS "EXTERNAL"]).
  change (String.eqb "EXTERNAL" "EXTERNAL") with true. cbv iota.
  apply C67_read_as_written in W. change (flat_map format [FName; FName; FFile; FReal; FReal]) with ([CvWord; CvWord] ++ quoted ++ [CvReal; CvReal]) in W. rewrite W. reflexivity.
Qed.
(** Examples of such cards. *)
Definition depthLine : list Z := chars " 10 8 10 8 6 0".
Definition extLine : list Z := chars " pulse EXTERNAL ""my data.txt""".
Example C67_cards3_nonvacuous : written six depthLine (corners 10 8 10 8 6 0) /\ (forall f, declared (initBoundaryReg ++ map (fun f => mkItem (FACE f) (mkB BT_PML 6)) faces) f <> None) /\
  written [FName; FName; FFile; FReal; FReal] extLine [VS "pulse"; VS "EXTERNAL"; VS "my data.txt"] /\ cardWF mesh0 extLine <> None.
Proof.
  assert (BR : forall l, at_break (32 :: l)) by (intros l; right; exists 32, l; split; [reflexivity|left; reflexivity]).
  assert (B1 : blanks [32]) by (repeat constructor).
  assert (I1 : forall d, 0 <= d <= 9 -> stands FInt [48 + d] (VI d)). { intros d Hd. constructor; [|lia]. apply (il [] false [48 + d] d); [constructor|apply (nl_one d); lia]. }
  assert (I10 : stands FInt [49; 48] (VI 10)). { constructor; [|lia]. apply (il [] false [49; 48] 10); [constructor|]. apply (nl_more [49] 1 0); [apply (nl_one 1)|]; lia. }
  split; [|split; [exact C47_nonvacuous|split]].
  - apply (wr_field FInt _ [32] [49; 48] (VI 10) (chars " 8 10 8 6 0")); [exact B1|exact I10|apply BR|].
    apply (wr_field FInt _ [32] [56] (VI 8) (chars " 10 8 6 0")); [exact B1|apply (I1 8); lia|apply BR|].
    apply (wr_field FInt _ [32] [49; 48] (VI 10) (chars " 8 6 0")); [exact B1|exact I10|apply BR|].
    apply (wr_field FInt _ [32] [56] (VI 8) (chars " 6 0")); [exact B1|apply (I1 8); lia|apply BR|].
    apply (wr_field FInt _ [32] [54] (VI 6) (chars " 0")); [exact B1|apply (I1 6); lia|apply BR|].
    apply (wr_field FInt _ [32] [48] (VI 0) []); [exact B1|apply (I1 0); lia|left; reflexivity|constructor].
  - apply (wr_field FName _ [32] (chars "pulse") (VS "pulse") (chars " EXTERNAL ""my data.txt""")); [exact B1| |apply BR|].
    { apply (st_name (chars "pulse")). split; [discriminate|]. split; [cbn; lia|]. cbn. repeat constructor; unfold wblank; lia. }
    apply (wr_field FName _ [32] (chars "EXTERNAL") (VS "EXTERNAL") (chars " ""my data.txt""")); [exact B1| |apply BR|].
    { apply (st_name (chars "EXTERNAL")). split; [discriminate|]. split; [cbn; lia|]. cbn. repeat constructor; unfold wblank; lia. }
    apply (wr_field FFile _ [32] (chars """my data.txt""") (VS "my data.txt") []); [exact B1| |left; reflexivity|].
    { apply (st_file (chars "my data.txt")); [discriminate|cbn; lia|]. cbn. intuition discriminate. }
    apply (wr_short FReal [FReal] []). constructor.
  - vm_compute. discriminate.
Qed.
