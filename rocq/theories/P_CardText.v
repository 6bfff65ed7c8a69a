(** C67 on whole cards: the block, surface, wire, source and mesh-size cards, from
    the text of the line to what is recorded. *)
From Coq Require Import ZArith List Bool Ascii String Reals Lia Lra.
From Verif Require Import Types CArr CStr Sim Scan SpecScan P_Scan BBox Grid Setup Media Medium Waveform Source PlaneWave Observer Mesh SpecGeom SpecText SpecCards P_Cards Front SpecFront.
Import ListNotations.
Open Scope Z_scope.

(** everything but blocks, wires and surfaces is as before *)
Record same_setup (h h' : MeshData) : Prop := mkSame {
  ss_cells : h_numCells h' = h_numCells h; ss_nlines : h_numLines h' = h_numLines h; ss_mbox : h_mbox h' = h_mbox h;
  ss_breg : h_breg h' = h_breg h; ss_bpar : h_bpar h' = h_bpar h; ss_media : h_media h' = h_media h; ss_wires : h_wires h' = h_wires h;
  ss_wfs : h_wfs h' = h_wfs h; ss_srcs : h_srcs h' = h_srcs h; ss_pws : h_pws h' = h_pws h; ss_obs : h_obs h' = h_obs h;
  ss_nt : h_nt h' = h_nt h; ss_ot : h_ot h' = h_ot h; ss_of : h_of h' = h_of h; ss_cn : h_cn h' = h_cn h;
  ss_mesh : h_mesh h' = h_mesh h; ss_ver : h_version h' = h_version h }.
Lemma same_geo bs ls ss h : same_setup h (setGeo bs ls ss h). Proof. split; reflexivity. Qed.

(** the fields of a card that begins with six corner coordinates *)
Definition six : list field := [FInt; FInt; FInt; FInt; FInt; FInt].
Definition corners (x1 x2 y1 y2 z1 z2 : Z) : list Val := [VI x1; VI x2; VI y1; VI y2; VI z1; VI z2].

Definition mask_chars (rest : list Val) (mask : list ascii) : Prop :=
  (rest = [] /\ mask = list_ascii_of_string "111111") \/ exists m, rest = [VS m] /\ mask = list_ascii_of_string m.
Lemma name_nonempty l : namelit l -> list_ascii_of_string (text l) <> [].
Proof. intros (N & _). destruct l as [|c l]; [congruence|]. cbn. discriminate. Qed.
Lemma stands_name l v : stands FName l v -> exists t, v = VS t /\ list_ascii_of_string t <> [].
Proof. inversion 1; subst. eexists. split; [reflexivity|]. apply name_nonempty; assumption. Qed.
Lemma written_mask (fs : list field) : forall line vs m, written (fs ++ [FName]) line (vs ++ [VS m]) -> List.length vs = List.length fs -> list_ascii_of_string m <> [].
Proof.
  induction fs as [|k ks IH]; intros line vs m W L; (destruct vs as [|v vs]; try discriminate L); cbn [app] in W.
  - inversion W; subst. match goal with H : stands FName _ _ |- _ => apply stands_name in H; destruct H as (t & E & N) end. injection E as <-. exact N.
  - inversion W; subst. eapply IH; [eassumption|]. cbn in L. lia.
Qed.

(** MB x1 x2 y1 y2 z1 z2 medium [mask] *)
Theorem C67_block_card : forall h line x1 x2 y1 y2 z1 z2 name rest mask,
  written (six ++ [FName; FName]) line (corners x1 x2 y1 y2 z1 z2 ++ VS name :: rest) -> mask_chars rest mask ->
  let b := mkbox x1 x2 y1 y2 z1 z2 in
  match cardMB h line with
  | Some h' => same_setup h h' /\ h_lines h' = h_lines h /\ h_surfs h' = h_surfs h /\
      exists blk, h_blocks h' = h_blocks h ++ [blk] /\ bbox_b blk = b /\ called (h_media h) name (medium_b blk) /\ denotes_binary mask (mask_b blk)
      /\ box_card (h_mbox h) b /\ ndeg b = 0%nat
  | None => ~ (box_card (h_mbox h) b /\ ndeg b = 0%nat /\ (exists n, called (h_media h) name n) /\ exists v, denotes_binary mask v /\ 0 <= v <= 63)
  end.
Proof.
  intros h line x1 x2 y1 y2 z1 z2 name rest mask W K b.
  assert (NE : mask <> []).
  { destruct K as [(_ & ->)|(m & -> & ->)]; [discriminate|]. exact (written_mask (six ++ [FName]) line (corners x1 x2 y1 y2 z1 z2 ++ [VS name]) m W eq_refl). }
  apply C67_read_as_written in W. unfold cardMB. change (flat_map format (six ++ [FName; FName])) with (D6 ++ [CvWord; CvWord]) in W. rewrite W. cbn [corners app box6].
  pose proof (C03_MB_card _ (h_mbox h) (h_media h) b name mask NE) as T.
  assert (E : (match rest with VS s :: _ => list_ascii_of_string s | _ => list_ascii_of_string "111111" end) = mask).
  { destruct K as [(-> & ->)|(m & -> & ->)]; reflexivity. }
  rewrite E. fold b. destruct (parseMB _ _ b name mask) as [blk|]; [|exact T].
  destruct T as (T1 & T2 & T3 & T4 & T5 & T6). split; [apply same_geo|]. split; [reflexivity|]. split; [reflexivity|].
  exists blk. repeat (split; [first [reflexivity|assumption]|]). assumption.
Qed.

(** TW x1 x2 y1 y2 z1 z2 wire [end type [end type]] *)
Theorem C67_wire_card : forall h line x1 x2 y1 y2 z1 z2 name ends,
  written (six ++ [FName; FName; FName]) line (corners x1 x2 y1 y2 z1 z2 ++ VS name :: map VS ends) ->
  let b := mkbox x1 x2 y1 y2 z1 z2 in
  let ends_ok := forall e, In e ends -> In e ["THRU"; "END"; "CORNER"]%string in
  match cardTW h line with
  | Some h' => same_setup h h' /\ h_blocks h' = h_blocks h /\ h_surfs h' = h_surfs h /\ ends_ok /\
      exists l, h_lines h' = h_lines h ++ [l] /\ bbox_l l = b /\ called (h_wires h) name (wire_l l) /\ box_card (h_mbox h) b /\ ndeg b = 2%nat
  | None => ~ (ends_ok /\ box_card (h_mbox h) b /\ ndeg b = 2%nat /\ exists n, called (h_wires h) name n)
  end.
Proof.
  intros h line x1 x2 y1 y2 z1 z2 name ends W b ends_ok.
  apply C67_read_as_written in W. unfold cardTW. change (flat_map format (six ++ [FName; FName; FName])) with (D6 ++ [CvWord; CvWord; CvWord]) in W. rewrite W. cbn [corners app box6].
  pose proof (C03_TW_card _ (h_mbox h) (h_wires h) b name) as T. fold b.
  assert (EQ : forallb (fun v => match v with VS s => endType s | _ => false end) (map VS ends) = true <-> ends_ok).
  { rewrite forallb_forall. unfold ends_ok. split.
    - intros F e I. specialize (F (VS e) (in_map VS _ _ I)). cbn beta iota in F. unfold endType in F. apply existsb_exists in F. destruct F as (x & I' & Q). apply String.eqb_eq in Q. subst x. exact I'.
    - intros F v I. apply in_map_iff in I. destruct I as (e & <- & I). unfold endType. apply existsb_exists. exists e. split; [exact (F e I)|apply String.eqb_refl]. }
  destruct (parseTW _ _ b name) as [l|]; [|intros (_ & X); exact (T X)]. destruct T as (T1 & T2 & T3 & T4).
  destruct (forallb _ (map VS ends)) eqn:F.
  - split; [apply same_geo|]. split; [reflexivity|]. split; [reflexivity|]. split; [apply EQ; reflexivity|]. exists l. repeat (split; [first [reflexivity|assumption]|]). assumption.
  - intros (X & _). apply EQ in X. discriminate.
Qed.

(** TB x1 x2 y1 y2 z1 z2 boundary [orientation [angle]] *)
Theorem C67_surface_card : forall h line x1 x2 y1 y2 z1 z2 name rest o a,
  written (six ++ [FName; FInt; FReal]) line (corners x1 x2 y1 y2 z1 z2 ++ VS name :: rest) ->
  (rest = [] /\ o = 1 /\ a = 0%R) \/ (rest = [VI o] /\ a = 0%R) \/ rest = [VI o; VR a] ->
  let b := mkbox x1 x2 y1 y2 z1 z2 in
  let values_ok := (o = 1 \/ o = -1) /\ (-180 <= a <= 180)%R in
  match cardTB h line with
  | Some h' => same_setup h h' /\ h_blocks h' = h_blocks h /\ h_lines h' = h_lines h /\ values_ok /\
      exists s, h_surfs h' = h_surfs h ++ [(s, a)] /\ bbox_s s = b /\ called (h_breg h) name (boundary_s s) /\ orient_s s = o /\ box_card (h_mbox h) b /\ ndeg b = 1%nat
  | None => ~ (values_ok /\ box_card (h_mbox h) b /\ ndeg b = 1%nat /\ exists n, called (h_breg h) name n)
  end.
Proof.
  intros h line x1 x2 y1 y2 z1 z2 name rest o a W K b values_ok.
  apply C67_read_as_written in W. unfold cardTB. change (flat_map format (six ++ [FName; FInt; FReal])) with (D6 ++ [CvWord; CvInt; CvReal]) in W. rewrite W. cbn [corners app box6].
  assert (E1 : (match rest with VI o :: _ => o | _ => 1 end) = o) by (destruct K as [(-> & -> & ->)|[(-> & ->)| ->]]; reflexivity).
  assert (E2 : (match rest with _ :: VR a :: _ => a | _ => 0%R end) = a) by (destruct K as [(-> & -> & ->)|[(-> & ->)| ->]]; reflexivity).
  rewrite E1, E2. fold b. set (ang := Rleb (-180) a && Rleb a 180).
  assert (A : ang = true <-> (-180 <= a <= 180)%R).
  { unfold ang, Rleb. destruct (Rle_dec (-180) a), (Rle_dec a 180); cbn; split; try discriminate; try tauto; intros; exfalso; tauto. }
  pose proof (C03_TB_card _ (h_mbox h) (h_breg h) b name o ang) as T. destruct (parseTB _ _ b name o ang) as [s|].
  - destruct T as (T1 & T2 & T3 & T4 & T5 & T6 & T7). split; [apply same_geo|]. split; [reflexivity|]. split; [reflexivity|]. split; [split; [exact T3|apply A; exact T4]|].
    exists s. repeat (split; [first [reflexivity|assumption]|]). assumption.
  - intros ((X1 & X2) & X3 & X4 & X5). apply T. repeat (split; [assumption|]). apply A. exact X2.
Qed.

(** DM nx ny nz *)
Theorem C67_size_card : forall h line nx ny nz, written [FInt; FInt; FInt] line [VI nx; VI ny; VI nz] ->
  match cardDM h line with
  | Some h' => 0 < nx /\ 0 < ny /\ 0 < nz /\
      h_numCells h' XDIR = nx /\ h_numCells h' YDIR = ny /\ h_numCells h' ZDIR = nz /\
      (forall a, h_numLines h' a = h_numCells h' a + 1) /\ h_mbox h' = mkbox 0 nx 0 ny 0 nz
  | None => nx <= 0 \/ ny <= 0 \/ nz <= 0
  end.
Proof.
  intros h line nx ny nz W. apply C67_read_as_written in W. unfold cardDM. change (flat_map format [FInt; FInt; FInt]) with [CvInt; CvInt; CvInt] in W. rewrite W.
  unfold parseDM. destruct (Z.ltb_spec nx 1), (Z.ltb_spec ny 1), (Z.ltb_spec nz 1); cbn [orb]; try lia.
  cbn [h_numCells h_numLines h_mbox]. do 6 (split; [first [reflexivity|lia]|]). split; [|reflexivity]. intros [| |]; reflexivity.
Qed.

(** EX x1 x2 y1 y2 z1 z2 name type waveform [numbers]: accepted when the name is
    new, the type is known, the box lies in the mesh (and is a line for lumped
    sources) and the waveform exists; one source of that name and box is added. *)
Theorem C67_source_card : forall h line x1 x2 y1 y2 z1 z2 name ty wf,
  written (six ++ [FName; FName; FName]) line (corners x1 x2 y1 y2 z1 z2 ++ [VS name; VS ty; VS wf]) ->
  let b := mkbox x1 x2 y1 y2 z1 z2 in
  (cardEX h line <> None <->
    (forall s, In s (h_srcs h) -> s_name s <> name) /\
    (exists t, findTag ty = Some t /\ (t_type t = ST_THEVENIN_VOLTAGE \/ t_type t = ST_NORTON_CURRENT -> ndeg b = 2%nat)) /\
    box_card (h_mbox h) b /\ has_waveform h wf).
Proof.
  intros h line x1 x2 y1 y2 z1 z2 name ty wf W b.
  apply C67_read_as_written in W. unfold cardEX. change (flat_map format (six ++ [FName; FName; FName])) with (D6 ++ [CvWord; CvWord; CvWord]) in W. rewrite W. cbn [corners app box6]. fold b.
  match goal with |- context[parseEX _ _ _ _ _ _ _ ?a] => generalize a; intros args end.
  pose proof (C03_EX_card (h_mbox h) (h_wfs h) (h_srcs h) b name ty wf args) as T. unfold has_waveform. rewrite <- T.
  destruct (parseEX _ _ _ _ _ _ _ _); split; congruence.
Qed.

(** ** Examples *)
Lemma bl1 : blanks [32]. Proof. repeat constructor. Qed.
(** "1 -20<tab>+3 wall 1.5e-3": the four kinds of field *)
Example C67_nonvacuous : exists x, written [FInt; FInt; FCount; FName; FReal] (chars " 1  -20 37 wall 1.5e-3") [VI 1; VI (-20); VI 37; VS "wall"; VR x] /\ x = (15 / 10000)%R.
Proof.
  exists (1 * (IZR 1 + IZR 5 * powerRZ 10 (- Z.of_nat 1)) * powerRZ 10 (neg true 3))%R. split.
  - assert (BR : forall l, at_break (32 :: l)) by (intros l; right; exists 32, l; split; [reflexivity|left; reflexivity]).
    apply (wr_field FInt _ [32] [49] (VI 1) (chars "  -20 37 wall 1.5e-3")); [exact bl1| |apply BR|].
    { constructor; [|lia]. apply (il [] false [49] 1); [constructor|apply (nl_one 1); lia]. }
    apply (wr_field FInt _ [32; 32] [45; 50; 48] (VI (-20)) (chars " 37 wall 1.5e-3")); [repeat constructor| |apply BR|].
    { constructor; [|lia]. apply (il [45] true [50; 48] 20); [constructor|]. apply (nl_more [50] 2 0); [apply (nl_one 2)|]; lia. }
    apply (wr_field FCount _ [32] [51; 55] (VI 37) (chars " wall 1.5e-3")); [exact bl1| |apply BR|].
    { constructor; [|lia]. apply (nl_more [51] 3 7); [apply (nl_one 3)|]; lia. }
    apply (wr_field FName _ [32] (chars "wall") (VS "wall") (chars " 1.5e-3")); [exact bl1| |apply BR|].
    { apply (st_name (chars "wall")). split; [discriminate|]. split; [cbn; lia|]. cbn. repeat constructor; unfold wblank; lia. }
    apply (wr_field FReal _ [32] (chars "1.5e-3") (VR _) []); [exact bl1| |left; reflexivity|constructor].
    constructor. apply (rl [] false (chars "1.5") _ (chars "e-3") (neg true 3)); [constructor| |].
    { apply (mn_frac [49] 1 [53] 5); [constructor; apply (nl_one 1); lia|constructor; apply (nl_one 5); lia|discriminate]. }
    { apply (ex_some 101 (chars "-3")); [left; reflexivity|]. apply (il [45] true [51] 3); [constructor|apply (nl_one 3); lia]. }
  - cbn [neg]. change (Z.of_nat 1) with 1. cbn [powerRZ Z.opp]. change (Pos.to_nat 1) with 1%nat. change (Pos.to_nat 3) with 3%nat. cbn [pow]. field.
Qed.

(** ** Refutations *)
(** Integers are not range checked: 4294967297 (2^32 + 1) is read as 1, so a
    block card with such a corner is taken for another block. *)
Theorem C67_wrap_refuted : intlit (chars "4294967297") 4294967297 /\ sscanf [CvInt] (chars " 4294967297") = [VI 1].
Proof.
  split; [|vm_compute; reflexivity].
  apply (il [] false (chars "4294967297") 4294967297); [constructor|].
  change (natlit (((((((((([48 + 4] ++ [48 + 2]) ++ [48 + 9]) ++ [48 + 4]) ++ [48 + 9]) ++ [48 + 6]) ++ [48 + 7]) ++ [48 + 2]) ++ [48 + 9]) ++ [48 + 7]))
     (10 * (10 * (10 * (10 * (10 * (10 * (10 * (10 * (10 * 4 + 2) + 9) + 4) + 9) + 6) + 7) + 2) + 9) + 7)).
  repeat (apply nl_more; [|lia]). apply nl_one. lia.
Qed.
(** Names longer than 31 characters are cut, and what is left of them is taken
    for the next field. *)
Theorem C67_long_name_refuted : exists name, List.length name = 33%nat /\ Forall (fun c => ~ wblank c) name /\
  sscanf [CvWord; CvWord] (name ++ chars " GAUSSIAN_PULSE") = [VS (text (firstn 31 name)); VS (text (skipn 31 name))].
Proof.
  exists (repeat 97 33). split; [reflexivity|]. split; [|vm_compute; reflexivity].
  apply Forall_forall. intros c I. apply repeat_spec in I. subst c. unfold wblank. lia.
Qed.
(** A block card on a 4 x 4 x 4 mesh: written as the theorem asks, and accepted. *)
Example C67_cards_nonvacuous : exists h h', cardDM mesh0 (chars " 4 4 4") = Some h /\
  written (six ++ [FName; FName]) (chars " 1 3 1 4 2 4 PEC") (corners 1 3 1 4 2 4 ++ [VS "PEC"]) /\ cardMB h (chars " 1 3 1 4 2 4 PEC") = Some h' /\ List.length (h_blocks h') = 1%nat.
Proof.
  do 2 eexists. split; [vm_compute; reflexivity|]. split; [|split; [vm_compute; reflexivity|reflexivity]].
  assert (BR : forall l, at_break (32 :: l)) by (intros l; right; exists 32, l; split; [reflexivity|left; reflexivity]).
  assert (I : forall d, 0 <= d <= 9 -> stands FInt [48 + d] (VI d)).
  { intros d D. constructor; [|lia]. apply (il [] false [48 + d] d); [constructor|apply nl_one; exact D]. }
  apply (wr_field FInt _ [32] [48 + 1] (VI 1) (chars " 3 1 4 2 4 PEC")); [exact bl1|apply I; lia|apply BR|].
  apply (wr_field FInt _ [32] [48 + 3] (VI 3) (chars " 1 4 2 4 PEC")); [exact bl1|apply I; lia|apply BR|].
  apply (wr_field FInt _ [32] [48 + 1] (VI 1) (chars " 4 2 4 PEC")); [exact bl1|apply I; lia|apply BR|].
  apply (wr_field FInt _ [32] [48 + 4] (VI 4) (chars " 2 4 PEC")); [exact bl1|apply I; lia|apply BR|].
  apply (wr_field FInt _ [32] [48 + 2] (VI 2) (chars " 4 PEC")); [exact bl1|apply I; lia|apply BR|].
  apply (wr_field FInt _ [32] [48 + 4] (VI 4) (chars " PEC")); [exact bl1|apply I; lia|apply BR|].
  apply (wr_field FName _ [32] (chars "PEC") (VS "PEC") []); [exact bl1| |left; reflexivity|apply (wr_short FName [] []); constructor].
  apply (st_name (chars "PEC")). split; [discriminate|]. split; [cbn; lia|]. cbn. repeat constructor; unfold wblank; lia.
Qed.
