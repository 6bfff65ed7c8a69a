(** C68: from the text of a mesh file to the end of the run; examples for C67-C69. *)
From Coq Require Import ZArith List Bool Ascii String Reals Lia Lra FunctionalExtensionality.
From Verif Require Import Types CArr CStr Sim Scan Lang LangProofs BBox Grid SpecGrid Step Setup SetupProofs P_Setup PmlProfile Media MediaProofs Medium Debye Filter Sibc Waveform Source SpecSource P_Source
  PlaneWave SpecPw P_PwBounds Observer Edges SpecText Mesh SpecGeom SpecCards P_Cards SpecMedia P_Media SpecPhys P_SibcMesh Whole SpecWhole P_Whole Front Program SpecFront P_Front.
Import ListNotations.
Open Scope Z_scope.

Definition demo : list Z := chars "VM 0.7.0
CE a small mesh
DM 4 4 4
BR -1 -1 0 0 1 1   # walls
BE 0 0 3 3 0 0
GS
MT metal PEC
BT wall PMC
WT thin PEC
MB 1 3 1 4 2 4 metal 111101
TW 1 1 2 2 0 3 thin END
WF w GAUSSIAN_PULSE
EX 2 2 2 2 1 2 src IZ w
OP 0 4 0 4 0 4 out TDOM_BINARY 2 2 1
OP 1 1 1 1 1 1 pt TDOM_ASCII w
GE
NT 100
XL
0 1 2 3 4 YL
0 1e-1 .2 0.3 0.4 ZL
0 1 2 3 4 EN
"%string.
Definition run_demo := readMeshFile (fun _ => None) demo.

Lemma meshBox_dm nx ny nz reg c mb nl : setupCfg nx ny nz reg = Some c -> parseDM nx ny nz = Some (mb, nl) -> meshBox c = mb.
Proof.
  unfold setupCfg. intros H P. rewrite P in H. unfold parseDM in P. destruct (_ || _); [discriminate|]. injection P as <- <-.
  destruct (initExternalSurfaceParameters reg) as [[reg' num]|]; [|discriminate]. injection H as <-.
  apply functional_extensionality. intros f. destruct f; cbn [meshBox is_lo face_axis cfgOf numLines mkbox]; lia.
Qed.
Lemma cfg_box df file st h tr c : readMeshFile df file = Acc (st, h, tr) -> cfgFor h = Some c -> meshBox c = h_mbox h.
Proof.
  intros E C. destruct (read_inv _ _ _ _ _ E) as [_ D _ _ _ _ _]. unfold cfgFor in C. destruct D as [D|D].
  - rewrite !D in C. discriminate C.
  - exact (meshBox_dm _ _ _ _ _ _ _ C D).
Qed.
Lemma wave_app w0 r name : isWaveform w0 name = true -> isWaveform (w0 ++ r) name = true.
Proof. unfold isWaveform. rewrite existsb_app. intros ->. reflexivity. Qed.
Lemma parseEX_mono mbox w0 r l b name ty wf args x : parseEX mbox w0 l b name ty wf args = Some x -> parseEX mbox (w0 ++ r) l b name ty wf args = Some x.
Proof.
  unfold parseEX. destruct (isSource l name); [discriminate|]. destruct (findTag ty); [|discriminate]. destruct (negb _); [discriminate|]. destruct (negb _); [discriminate|].
  destruct (isWaveform w0 wf) eqn:W; [rewrite (wave_app _ _ _ W)|]; cbn [negb]; [auto|]. destruct (isLumped _); [|discriminate].
  destruct (match bboxType b with BB_LINE => _ | _ => _ end); discriminate.
Qed.
Lemma parsePW_mono mbox w0 r l b name wf th ph et mask size delay x : parsePW mbox w0 l b name wf th ph et mask size delay = Some x ->
  parsePW mbox (w0 ++ r) l b name wf th ph et mask size delay = Some x.
Proof.
  unfold parsePW. destruct (isPlaneWave l name); [discriminate|]. destruct (negb _); [discriminate|]. destruct (negb _); [discriminate|].
  destruct (isWaveform w0 wf) eqn:W; [rewrite (wave_app _ _ _ W)|]; cbn [negb]; [auto|discriminate].
Qed.

(** Every accepted mesh file whose set-up succeeds and whose plane wave boxes are
    ordered along z (see C59_unordered_refuted) runs inside its arrays: the media
    set-up, and any number of steps of the complete time loop from any state. *)
Theorem C68_runs_in_bounds : forall debyeFile file st h cards c, readMeshFile debyeFile file = Acc (st, h, cards) -> cfgFor h = Some c ->
  (forall V (A : Arith V) (coef : nat -> Coef V) (m : mem V),
     runO A (dims c) (mediaProgPml coef c (wireOf h) (boundOf h) (sceneOf h)) m = Some (run A (mediaProgPml coef c (wireOf h) (boundOf h) (sceneOf h)) m)) /\
  ((forall p, In p (h_pws h) -> pw_mbbox p ZLO <= pw_mbbox p ZHI) ->
   forall rcm eps0 dt de dh d n t s, wrunO c (progOf c h rcm eps0 dt de dh) d t n s = Some (wrun c (progOf c h rcm eps0 dt de dh) d t n s)).
Proof.
  intros df file st h tr c E C. pose proof (cfg_box _ _ _ _ _ _ E C) as MB. destruct (read_inv _ _ _ _ _ E) as [_ _ I _ _ _ _].
  pose proof I as [A1 A2 A3 A4 A5 A6]. unfold ok_block, ok_line, ok_surf, ok_src, ok_pw in *. rewrite <- MB in *. rewrite Forall_forall in *. split.
  - assert (SO : scene_ok c (sceneOf h)).
    { destruct (C03_accepted_box_partial c) as (P1 & P2 & P3). split; [|split].
      - intros b IB. destruct (A1 b IB) as (reg0 & r & name & mask & _ & NE & P). pose proof (C03_MB_card _ (meshBox c) reg0 (bbox_b b) name mask NE) as T. rewrite P in T.
        split; [|apply T]. apply (P1 _ _ _ _ _ _ P).
      - intros l IB. destruct (A2 l IB) as (reg0 & r & name & _ & P). apply (P2 _ _ _ _ _ P).
      - intros s IB. apply in_map_iff in IB. destruct IB as ([s' a] & <- & IB). destruct (A3 _ IB) as (reg0 & r & name & o & _ & P). apply (P3 _ _ _ _ _ _ _ P). }
    intros V A coef m. apply setup_wf in C. apply runO_some. intros s IS. eapply mediaProg_inb; eauto.
  - intros ZO rcm eps0 dt de dh d n t s. set (g := progOf c h rcm eps0 dt de dh). apply (C64_in_bounds _ _ _ _ c C (h_wfs h) (medOf h) (h_blocks h) g). constructor.
    + apply Forall_forall. intros x IX. destruct (A4 x IX) as (w0 & r & l & name & ty & wf & args & W & P). exists l, name, ty, wf, args. rewrite W. apply parseEX_mono. exact P.
    + apply Forall_forall. intros x IX. split; [|exact (ZO x IX)]. destruct (A5 x IX) as (w0 & r & l & name & wf & th & ph & et & mask & size & delay & W & P).
      exists l, name, wf, th, ph, et, mask, size, delay. rewrite W. apply parsePW_mono. exact P.
    + apply Forall_forall. intros x IX. cbn [g progOf g_sheets] in IX. apply in_map_iff in IX. destruct IX as (sh & <- & IX). cbn [fst]. unfold sheetsOf in IX. apply in_flat_map in IX.
      destruct IX as ([sf a] & IS & IX). destruct (boundOf h (boundary_s sf)); try contradiction. destruct (bboxDirection (bbox_s sf)) as [nn|] eqn:BD; [|contradiction].
      destruct IX as [<-|[]]. destruct (A3 _ IS) as (reg0 & r & name & o & _ & P). cbn [fst snd] in P.
      exists BData, reg0, (bbox_s sf), name, o, (Rleb (-180) a && Rleb a 180), sf. split; [exact P|]. cbn [sb_normal sb_box sb_plus]. repeat (split; [first [exact BD|reflexivity]|]).
      pose proof (C03_TB_card _ (meshBox c) reg0 (bbox_s sf) name o (Rleb (-180) a && Rleb a 180)) as T. rewrite P in T. destruct T as (_ & _ & _ & _ & _ & _ & ->). reflexivity.
    + apply Forall_forall. intros b IB. destruct (A1 b IB) as (reg0 & r & name & mask & _ & _ & P). exists MParam, reg0, (bbox_b b), name, mask. exact P.
    + reflexivity.
Qed.
(** The demo file is accepted, with a block, a wire, a source and two observers,
    PML on the y walls, and can be set up. *)
Example C69_nonvacuous : exists st h cards c, readMeshFile (fun _ => None) demo = Acc (st, h, cards) /\ In GE cards /\ In EN cards /\ cfgFor h = Some c /\
  List.length (h_blocks h) = 1%nat /\ List.length (h_lines h) = 1%nat /\ List.length (h_srcs h) = 1%nat /\ List.length (h_obs h) = 2%nat /\ h_nt h = 100 /\
  outerSurfaceType c YLO = BT_PML /\ outerSurfaceNumLayers c YHI = 3 /\ outerSurfaceType c ZHI = BT_PMC.
Proof. do 4 eexists. split; [vm_compute; reflexivity|]. split; [cbn; tauto|]. split; [cbn; tauto|]. split; [vm_compute; reflexivity|]. repeat split. Qed.

(** ** Refutations *)
(** A lumped source registers a medium of its own under a name made from its
    number, without looking whether the file has a medium of that name. *)
Definition demo_names : list Z := chars "VM 0.7.0
DM 4 4 4
GS
MT __VR_RS_1__ PEC
WF w GAUSSIAN_PULSE
EX 2 2 2 2 1 2 src VRZ w
"%string.
Theorem C69_media_names_refuted : exists st h cards, readMeshFile (fun _ => None) demo_names = Acc (st, h, cards) /\ ~ unique_names (h_media h).
Proof.
  do 3 eexists. split; [vm_compute; reflexivity|]. unfold unique_names. cbn [h_media map iname]. intros N.
  inversion N as [|? ? _ N1]; subst. inversion N1 as [|? ? _ N2]; subst. inversion N2 as [|? ? N3 _]; subst. apply N3. left. reflexivity.
Qed.
(** Mesh lines laid out as in the manual - the numbers on their own line, the
    next card on a new line: the newline behind the last number is then read as a
    blank line, on which strtrim leaves its buffer. *)
Definition demo_lines : list Z := chars "VM 0.7.0
DM 2 1 1
GS
WF w GAUSSIAN_PULSE
EX 0 0 0 0 0 1 src IZ w
GE
NT 10
XL
0.0 1.0 2.0
YL
0.0 1.0
ZL
0.0 1.0
EN
"%string.
Theorem C68_mesh_lines_refuted : readMeshFile (fun _ => None) demo_lines = UB.
Proof. vm_compute. reflexivity. Qed.
