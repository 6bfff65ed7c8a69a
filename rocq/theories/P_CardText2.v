(** C67 on the remaining cards: BR, BE, BT, MT, WT, WF, PW, OP, NT, OT, OF, CN,
    MS, XL/YL/ZL, from the text of the line to what is recorded. *)
From Coq Require Import ZArith List Bool Ascii String Reals Lia Lra.
From Verif Require Import Types CArr CStr Sim P_Sim Scan SpecScan P_Scan BBox Grid Setup SetupProofs SpecSetup P_Setup PmlProfile Media Medium Waveform Source PlaneWave P_PwVectors Observer Edges Mesh SpecGeom SpecText SpecCards P_Cards Front SpecFront P_CardText.
Import ListNotations.
Open Scope Z_scope.

(** the groups of static data *)
Inductive part := PSize | PBound | PMedia | PWire | PBlock | PLine | PSurf | PWave | PSrc | PPlane | PObs | PSteps | PWindow | PFreq | PCourant | PMesh | PVersion.
Definition kept (h h' : MeshData) (p : part) : Prop :=
  match p with
  | PSize => h_numCells h' = h_numCells h /\ h_numLines h' = h_numLines h /\ h_mbox h' = h_mbox h
  | PBound => h_breg h' = h_breg h /\ h_bpar h' = h_bpar h
  | PMedia => h_media h' = h_media h | PWire => h_wires h' = h_wires h
  | PBlock => h_blocks h' = h_blocks h | PLine => h_lines h' = h_lines h | PSurf => h_surfs h' = h_surfs h
  | PWave => h_wfs h' = h_wfs h | PSrc => h_srcs h' = h_srcs h | PPlane => h_pws h' = h_pws h | PObs => h_obs h' = h_obs h
  | PSteps => h_nt h' = h_nt h | PWindow => h_ot h' = h_ot h | PFreq => h_of h' = h_of h | PCourant => h_cn h' = h_cn h
  | PMesh => h_mesh h' = h_mesh h | PVersion => h_version h' = h_version h
  end.
(** nothing but the part [p] changes *)
Definition only (p : part) (h h' : MeshData) : Prop := forall q, q <> p -> kept h h' q.
Ltac rest_kept := intros []; intros; try congruence; cbn; auto.

(** ** Reading fewer fields gives the first values. *)
Definition outs (f : list Conv) : nat := List.length (filter (fun c => match c with CvSkip | CvLit _ => false | _ => true end) f).
Lemma conv_len c l vs l' : conv c l = Some (vs, l') -> List.length vs = (if match c with CvSkip | CvLit _ => false | _ => true end then 1 else 0)%nat.
Proof.
  destruct c; cbn [conv]; intros H.
  1: destruct (scanInt l); [|discriminate]; injection H as <- _; reflexivity.
  1: destruct (scanULong l); [|discriminate]; injection H as <- _; reflexivity.
  1: destruct (scanReal l); [|discriminate]; injection H as <- _; reflexivity.
  1: destruct (scanWord l); [|discriminate]; injection H as <- _; reflexivity.
  1: injection H as <- _; reflexivity.
  1: destruct l; [discriminate|]; destruct (_ =? _); [|discriminate]; injection H as <- _; reflexivity.
  destruct (scanNotQuote l); [|discriminate]; injection H as <- _; reflexivity.
Qed.
Lemma sscanf_prefix f1 : forall f2 l, sscanf f1 l = firstn (outs f1) (sscanf (f1 ++ f2) l).
Proof.
  induction f1 as [|c f1 IH]; intros f2 l; [reflexivity|]. cbn [sscanf app]. destruct (conv c l) as [[vs l']|] eqn:C; [|rewrite firstn_nil; reflexivity].
  rewrite (IH f2). apply conv_len in C. unfold outs in *. cbn [filter]. destruct (match c with CvSkip => _ | _ => _ end).
  - destruct vs as [|v [|? ?]]; try discriminate C. reflexivity.
  - destruct vs; [|discriminate C]. reflexivity.
Qed.
Lemma outs_fields ks : outs (flat_map format ks) = List.length ks.
Proof. unfold outs. induction ks as [|k ks IH]; [reflexivity|]. cbn [flat_map]. rewrite filter_app, app_length, IH. destruct k; reflexivity. Qed.
Lemma read_first ks ks' line vs : written (ks ++ ks') line vs -> sscanf (flat_map format ks) line = firstn (List.length ks) vs.
Proof. intros W. apply C67_read_as_written in W. rewrite flat_map_app in W. rewrite (sscanf_prefix _ (flat_map format ks')), W, outs_fields. reflexivity. Qed.
(** A quoted file name where numbers could stand: no number is read. *)
Lemma file_no_number ks more : forall line vs f, written (ks ++ [FFile]) line (vs ++ [VS f]) -> List.length vs = List.length ks ->
  written (ks ++ FReal :: more) line vs.
Proof.
  induction ks as [|k ks IH]; intros line vs f W L; (destruct vs as [|v vs]; try discriminate L); cbn [app] in *.
  - inversion W as [|k0 ks0 bl l v tail vs0 B S K W' E1 E2 E3| | |]; subst. inversion S; subst. apply (wr_other FReal more bl 34 ((l0 ++ [34]) ++ tail)); auto; unfold wblank; lia.
  - inversion W; subst. constructor; auto. eapply IH; [eassumption|]. cbn in L. lia.
Qed.
(** Numbers where a quoted file name could stand: no file is read. *)
Lemma dark_head l x : reallit l x -> match l with [] => False | c :: _ => ~ wblank c /\ c <> 34 end.
Proof.
  intros H. inversion H as [s n m y e k S M E]; subst. assert (HM : match m with [] => False | c :: _ => ~ wblank c /\ c <> 34 end).
  { inversion M as [ds v N|ip i fp q DI DF NE]; subst.
    - apply natlit_digits in N. destruct N as (F & NE & _). destruct m as [|c m]; [congruence|]. inversion F as [|? ? X _]; subst; apply isdigit_iff in X. unfold wblank. lia.
    - destruct (digs_digits _ _ DI) as (F & _). destruct ip as [|c ip]; cbn [app]; [unfold wblank; lia|]. inversion F as [|? ? X _]; subst; apply isdigit_iff in X. unfold wblank. lia. }
  destruct m; [contradiction|]. destruct S; cbn [app]; [exact HM| |]; unfold wblank; lia.
Qed.
Lemma number_no_file ks : forall line vs x xs more, written (ks ++ FReal :: more) line (vs ++ VR x :: xs) -> List.length vs = List.length ks -> written (ks ++ [FFile]) line vs.
Proof.
  induction ks as [|k ks IH]; intros line vs x xs more W L; (destruct vs as [|v vs]; try discriminate L); cbn [app] in *.
  - inversion W as [|k0 ks0 bl l v tail vs0 B S K W' E1 E2 E3| | |]; subst. inversion S as [| |? ? RL| |]; subst. apply dark_head in RL. destruct l as [|c l]; [contradiction|]. destruct RL. apply (wr_noquote [] bl c (l ++ tail)); auto.
  - inversion W; subst. constructor; auto. eapply IH; [eassumption|]. cbn in L. lia.
Qed.
Lemma realsOf_map xs : realsOf (map VR xs) = xs.
Proof. induction xs; [reflexivity|]. unfold realsOf in *. cbn [map flat_map]. rewrite IHxs. reflexivity. Qed.
Lemma intsOf_map zs : intsOf (map VI zs) = Some zs.
Proof. induction zs; [reflexivity|]. unfold intsOf in *. cbn [map fold_right]. rewrite IHzs. reflexivity. Qed.
Lemma findName_new {A} (reg : Registry A) name : findName reg name = None <-> forall it, In it reg -> iname it <> name.
Proof.
  split.
  - intros F it I E. apply In_nth_error in I. destruct I as (n & I). exact (called_none reg name n F (ex_intro _ it (conj I E))).
  - intros H. destruct (findName reg name) as [n|] eqn:F; [|reflexivity]. apply called_some in F. destruct F as (it & I & E). exfalso. exact (H it (nth_error_In _ _ I) E).
Qed.
(** a new name *)
Definition fresh {A} (reg : Registry A) (name : string) : Prop := forall it, In it reg -> iname it <> name.
Definition appended {A} (reg reg' : Registry A) (name : string) (d : A) : Prop := reg' = (reg ++ [mkItem name d])%list.
Lemma declare_spec {A} (reg : Registry A) name d : match declare reg name d with Some reg' => fresh reg name /\ appended reg reg' name d | None => ~ fresh reg name end.
Proof.
  unfold declare. destruct (findName reg name) eqn:F.
  - intros X. apply findName_new in X. congruence.
  - split; [exact (proj1 (findName_new reg name) F)|reflexivity].
Qed.

(** ** WT name PEC *)
Theorem C67_wire_type_card : forall h line name ty, written [FName; FName] line [VS name; VS ty] ->
  match cardWT h line with
  | Some h' => ty = "PEC"%string /\ fresh (h_wires h) name /\ appended (h_wires h) (h_wires h') name TW_PEC /\ only PWire h h'
  | None => ~ (ty = "PEC"%string /\ fresh (h_wires h) name)
  end.
Proof.
  intros h line name ty W. apply C67_read_as_written in W. cbn [flat_map format app] in W. unfold cardWT. rewrite W.
  destruct (String.eqb_spec ty "PEC") as [E|E]; [|tauto]. pose proof (declare_spec (h_wires h) name TW_PEC) as T. destruct (declare _ _ _) as [reg|]; [|tauto].
  destruct T. repeat (split; [assumption|]). rest_kept.
Qed.

(** ** MT name type ... : media without numbers, with up to three (SIMPLE), with
    five, seven or nine (DEBYE: three and one to three real pole pairs), or from a
    file (DEBYE) *)
Definition material_ok (xs : list R) : Prop :=
  (forall e, nth_error xs 0 = Some e -> 1 <= e)%R /\ (forall s, nth_error xs 1 = Some s -> 0 <= s)%R /\ (forall m, nth_error xs 2 = Some m -> 1 <= m)%R.
Definition or_else (xs : list R) (n : nat) (d : R) : R := match nth_error xs n with Some x => x | None => d end.
Lemma nthR_or xs n d : nthR xs n d = or_else xs n d.
Proof. unfold nthR, or_else. revert n; induction xs; destruct n; cbn; auto. Qed.
Lemma simpleOk_iff xs : simpleOk xs = true <-> material_ok xs.
Proof.
  unfold simpleOk, material_ok, ltb. rewrite negb_true_iff, !orb_false_iff, !andb_false_iff, !nthR_or. unfold or_else.
  destruct xs as [|a [|b [|c xs]]]; cbn [List.length nth_error Nat.leb]; repeat match goal with |- context[Rlt_dec ?x ?y] => destruct (Rlt_dec x y) end;
    (split; [intros H|intros (H1 & H2 & H3)]); repeat split; intros; try discriminate; auto; try (injection H0 as <-; lra); try (injection H as <-; lra);
    try (specialize (H1 _ eq_refl); try lra); try (specialize (H2 _ eq_refl); try lra); try (specialize (H3 _ eq_refl); try lra); try tauto.
  all: try (exfalso; destruct H as ((H & H') & H''); (destruct H; [|]); intuition discriminate).
  all: intuition (try discriminate; try lra).
Qed.
(** the pole pairs written: amplitude and pole, in turn *)
Fixpoint pairs (xs : list R) : list Pole :=
  match xs with
  | r :: p :: xs' => mkPole (cxR r) (cxR p) :: pairs xs'
  | _ => []
  end.
Inductive mt_means : string -> list R -> MParam -> Prop :=
| mm_free xs : mt_means "FREE_SPACE" xs (mkMP MT_FREE_SPACE 1 0 1 [])
| mm_pec xs : mt_means "PEC" xs (mkMP MT_PEC 1 0 1 [])
| mm_simple xs : material_ok xs -> mt_means "SIMPLE" xs (mkMP MT_SIMPLE (or_else xs 0 1) (or_else xs 1 0) (or_else xs 2 1) [])
| mm_debye e s m xs : material_ok [e; s; m] -> In (List.length xs) [2; 4; 6]%nat -> mt_means "DEBYE" (e :: s :: m :: xs) (mkMP MT_DEBYE e s m (pairs xs)).
Definition numbers (ty : string) : nat := if String.eqb ty "DEBYE" then 9%nat else 3%nat.
Lemma written_len ks : forall line vs, written ks line vs -> (List.length vs <= List.length ks)%nat.
Proof. induction 1; cbn [List.length]; lia. Qed.
Lemma format_reals n : flat_map format (repeat FReal n) = repeat CvReal n.
Proof. induction n; cbn; congruence. Qed.
Theorem C67_medium_card : forall df h line name ty xs,
  written (FName :: FName :: repeat FReal (numbers ty)) line (VS name :: VS ty :: map VR xs) -> (ty = "DEBYE"%string -> xs <> []) ->
  match cardMT df h line with
  | Some h' => fresh (h_media h) name /\ (exists p, mt_means ty xs p /\ appended (h_media h) (h_media h') name p) /\ only PMedia h h'
  | None => ~ (fresh (h_media h) name /\ exists p, mt_means ty xs p)
  end.
Proof.
  intros df h line name ty xs W NE. unfold cardMT.
  rewrite (read_first [FName; FName] (repeat FReal (numbers ty)) line _ W : sscanf [CvWord; CvWord] line = [VS name; VS ty]).
  pose proof (written_len _ _ _ W) as LX. cbn [List.length] in LX. rewrite map_length, repeat_length in LX.
  pose proof (C67_read_as_written _ _ _ W) as E. cbn [flat_map] in E. rewrite format_reals in E.
  change (format FName ++ format FName ++ repeat CvReal (numbers ty)) with ([CvWord; CvWord] ++ repeat CvReal (numbers ty)) in E.
  unfold numbers in E at 1. rewrite E. change (realsOf (VS name :: VS ty :: map VR xs)) with (realsOf (map VR xs)). rewrite realsOf_map.
  set (file := match sscanf ([CvWord; CvWord] ++ quoted) line with [VS _; VS _; VS f] => df f | _ => None end).
  assert (FN : ty = "DEBYE"%string -> file = None).
  { intros Q. specialize (NE Q). destruct xs as [|x xs]; [congruence|]. subst ty. cbn [numbers String.eqb Ascii.eqb Bool.eqb] in W.
    pose proof (number_no_file [FName; FName] line [VS name; VS "DEBYE"] x (map VR xs) _ W eq_refl) as N. apply C67_read_as_written in N. unfold file.
    change ([CvWord; CvWord] ++ quoted) with (flat_map format ([FName; FName] ++ [FFile])). rewrite N. reflexivity. }
  clearbody file. clear E W. unfold parseMT, mtypeOf.
  assert (DC : forall p, mt_means ty xs p -> (forall p', mt_means ty xs p' -> p' = p) ->
     match option_map (fun reg => setMedia reg h) (declare (h_media h) name p) with
     | Some h' => fresh (h_media h) name /\ (exists p, mt_means ty xs p /\ appended (h_media h) (h_media h') name p) /\ only PMedia h h'
     | None => ~ (fresh (h_media h) name /\ exists p, mt_means ty xs p)
     end).
  { intros p M _. pose proof (declare_spec (h_media h) name p) as T. destruct (declare _ _ _) as [reg|]; cbn [option_map]; [|tauto]. destruct T as (T1 & T2).
    split; [exact T1|]. split; [exists p; auto|]. rest_kept. }
  destruct (String.eqb_spec ty "FREE_SPACE") as [Q|Q1].
  { subst ty. refine (DC _ (mm_free xs) _). inversion 1; reflexivity. }
  destruct (String.eqb_spec ty "PEC") as [Q|Q2].
  { subst ty. refine (DC _ (mm_pec xs) _). inversion 1; reflexivity. }
  destruct (String.eqb_spec ty "SIMPLE") as [Q|Q3].
  { subst ty. destruct (simpleOk xs) eqn:O.
    - rewrite !nthR_or. apply simpleOk_iff in O. refine (DC _ (mm_simple xs O) _). inversion 1; reflexivity.
    - intros (_ & p & M). inversion M; subst. match goal with H : material_ok _ |- _ => apply simpleOk_iff in H end. congruence. }
  destruct (String.eqb_spec ty "DEBYE") as [Q|Q4].
  2: { intros (_ & p & M). inversion M; subst; congruence. }
  specialize (FN Q). subst file. subst ty. specialize (NE eq_refl). clear Q1 Q2 Q3. change (numbers "DEBYE") with 9%nat in LX.
  destruct (simpleOk xs) eqn:O; cbn [negb].
  - apply simpleOk_iff in O.
    assert (MO : forall e s m l, material_ok (e :: s :: m :: l) -> material_ok [e; s; m]) by (intros e s m l (X1 & X2 & X3); repeat split; intros x E; [apply X1|apply X2|apply X3]; exact E).
    assert (NO : ~ In (List.length xs) [5; 7; 9]%nat -> ~ (fresh (h_media h) name /\ exists p, mt_means "DEBYE" xs p)).
    { intros NI (_ & p & M). inversion M; subst. apply NI. cbn [List.length In] in *. lia. }
    destruct xs as [|e [|s [|m xs]]]; [congruence|apply NO; cbn; lia|apply NO; cbn; lia|].
    apply MO in O. cbn [List.length] in LX.
    destruct xs as [|r1 [|p1 [|r2 [|p2 [|r3 [|p3 [|x xs]]]]]]]; try (apply NO; cbn; lia); try (cbn in LX; lia).
    + refine (DC _ (mm_debye e s m [r1; p1] O _) _); [cbn; tauto|inversion 1; reflexivity].
    + refine (DC _ (mm_debye e s m [r1; p1; r2; p2] O _) _); [cbn; tauto|inversion 1; reflexivity].
    + refine (DC _ (mm_debye e s m [r1; p1; r2; p2; r3; p3] O _) _); [cbn; tauto|inversion 1; reflexivity].
  - intros (_ & p & M). inversion M as [| | |e s m l X1 X2]; subst. assert (X : simpleOk (e :: s :: m :: l) = true); [|congruence]. apply simpleOk_iff.
    destruct X1 as (Y1 & Y2 & Y3). repeat split; intros x E; [apply Y1|apply Y2|apply Y3]; exact E.
Qed.
(** DEBYE medium with its parameters in a file *)
Theorem C67_medium_file_card : forall df h line name file, written [FName; FName; FFile] line [VS name; VS "DEBYE"; VS file] ->
  match cardMT df h line with
  | Some h' => fresh (h_media h) name /\ (exists d p, df file = Some d /\ readDebyeParameters d = Some p /\ appended (h_media h) (h_media h') name p) /\ only PMedia h h'
  | None => ~ (fresh (h_media h) name /\ exists d, df file = Some d /\ readDebyeParameters d <> None)
  end.
Proof.
  intros df h line name file W. unfold cardMT.
  rewrite (read_first [FName; FName] [FFile] line _ W : sscanf [CvWord; CvWord] line = [VS name; VS "DEBYE"]).
  change (String.eqb "DEBYE" "DEBYE") with true. cbv iota.
  pose proof (file_no_number [FName; FName] (repeat FReal 8) line [VS name; VS "DEBYE"] file W eq_refl) as N. apply C67_read_as_written in N.
  change (flat_map format ([FName; FName] ++ FReal :: repeat FReal 8)) with ([CvWord; CvWord] ++ repeat CvReal 9) in N. rewrite N.
  apply C67_read_as_written in W. change (flat_map format [FName; FName; FFile]) with ([CvWord; CvWord] ++ quoted) in W. rewrite W.
  change (realsOf [VS name; VS "DEBYE"]) with (@nil R). unfold parseMT. change (mtypeOf "DEBYE") with (Some MT_DEBYE). cbv iota.
  rewrite (proj2 (simpleOk_iff [])) by (repeat split; discriminate). cbn [negb List.length Nat.eqb orb].
  destruct (df file) as [d|]; [|intros (_ & d & X & _); discriminate X]. destruct (readDebyeParameters d) as [p|] eqn:RD; [|intros (_ & d' & X & Y); injection X as <-; congruence].
  pose proof (declare_spec (h_media h) name p) as T. destruct (declare _ _ _) as [reg|]; [|tauto]. destruct T as (T1 & T2).
  split; [exact T1|]. split; [exists d, p; auto|]. rest_kept.
Qed.

(** ** WF name type [size [delay [width [frequency]]]] *)
Theorem C67_waveform_card : forall h line name ty xs, ty <> "EXTERNAL"%string ->
  written (FName :: FName :: repeat FReal 4) line (VS name :: VS ty :: map VR xs) ->
  let arg n := or_else xs n (-1) in
  match cardWF h line with
  | Some h' => exists t, findWfType ty = Some t /\ (forall w, In w (h_wfs h) -> wName w <> name) /\
      h_wfs h' = (h_wfs h ++ [mkWf name t (arg 0%nat) (arg 1%nat) (arg 2%nat) (arg 3%nat)])%list /\ only PWave h h'
  | None => findWfType ty = None \/ (exists w, In w (h_wfs h) /\ wName w = name) \/
      (exists x, nth_error xs 0 = Some x /\ x < 0)%R \/ (exists x n, (n = 2 \/ n = 3)%nat /\ nth_error xs n = Some x /\ x <= 0)%R
  end.
Proof.
  intros h line name ty xs NX W arg0. unfold cardWF.
  rewrite (read_first [FName; FName] (repeat FReal 4) line _ W : sscanf [CvWord; CvWord] line = [VS name; VS ty]).
  destruct (String.eqb_spec ty "EXTERNAL") as [Q|_]; [congruence|].
  apply C67_read_as_written in W. change (flat_map format (FName :: FName :: repeat FReal 4)) with ([CvWord; CvWord] ++ repeat CvReal 4) in W. rewrite W.
  change (realsOf (VS name :: VS ty :: map VR xs)) with (realsOf (map VR xs)). rewrite realsOf_map. unfold parseWF.
  destruct (isWaveform (h_wfs h) name) eqn:IW. { right. left. apply exists_name in IW. destruct IW as (w & I & E). eauto. }
  assert (NW : forall w, In w (h_wfs h) -> wName w <> name).
  { intros w I E. apply not_true_iff_false in IW. apply IW. apply exists_name. eauto. }
  destruct (findWfType ty) as [t|] eqn:T; [|left; reflexivity].
  assert (NE : t <> EXTERNAL).
  { intros ->. unfold findWfType in T. destruct (List.find _ _) as [[s t]|] eqn:F; [|discriminate]. cbn [snd] in T. injection T as ->. apply List.find_some in F. destruct F as (I & E). apply String.eqb_eq in E. cbn [fst] in E. subst s.
    unfold WAVEFORM_TYPE_STR in I. cbn [In] in I. repeat (destruct I as [I|I]; [injection I; intros; try congruence; try discriminate|]). contradiction. }
  assert (AR : forall n, arg xs n = arg0 n). { intros n. unfold arg, arg0, or_else. clear. revert n. induction xs; destruct n; cbn; auto. }
  assert (GV : forall n (p : R -> bool), given xs n && p (arg xs n) = true -> exists x, nth_error xs n = Some x /\ p x = true).
  { intros n p H. apply andb_true_iff in H. destruct H as (G & P). unfold given in G. apply Nat.ltb_lt in G. rewrite AR in P. unfold arg0, or_else in P.
    destruct (nth_error xs n) as [x|] eqn:N; [eauto|]. apply nth_error_None in N. lia. }
  set (r := match t with EXTERNAL => _ | _ => _ end).
  assert (R0 : r = if given xs 0 && Rltb (arg xs 0) 0 then None else if given xs 2 && Rleb (arg xs 2) 0 then None else if given xs 3 && Rleb (arg xs 3) 0 then None
                   else Some (h_wfs h ++ [mkWf name t (arg xs 0) (arg xs 1) (arg xs 2) (arg xs 3)])).
  { unfold r. destruct t; try congruence; reflexivity. }
  rewrite R0. clear R0. clear r.
  destruct (given xs 0 && Rltb (arg xs 0) 0) eqn:G0.
  { right. right. left. destruct (GV 0%nat (fun x => Rltb x 0) G0) as (x & N & P). exists x. split; [exact N|]. unfold Rltb in P. destruct (Rlt_dec x 0); [assumption|discriminate]. }
  destruct (given xs 2 && Rleb (arg xs 2) 0) eqn:G2.
  { right. right. right. destruct (GV 2%nat (fun x => Rleb x 0) G2) as (x & N & P). exists x, 2%nat. split; [auto|]. split; [exact N|]. unfold Rleb in P. destruct (Rle_dec x 0); [assumption|discriminate]. }
  destruct (given xs 3 && Rleb (arg xs 3) 0) eqn:G3.
  { right. right. right. destruct (GV 3%nat (fun x => Rleb x 0) G3) as (x & N & P). exists x, 3%nat. split; [auto|]. split; [exact N|]. unfold Rleb in P. destruct (Rle_dec x 0); [assumption|discriminate]. }
  exists t. split; [reflexivity|]. split; [exact NW|]. split; [cbn [h_wfs setExc]; rewrite !AR; reflexivity|]. rest_kept.
Qed.

(** ** PW x1 x2 y1 y2 z1 z2 name waveform theta phi eta [mask [size [delay]]] *)
Theorem C67_planewave_card : forall h line x1 x2 y1 y2 z1 z2 name wf th ph et rest mask size delay,
  written (six ++ [FName; FName; FReal; FReal; FReal; FName; FReal; FReal]) line (corners x1 x2 y1 y2 z1 z2 ++ VS name :: VS wf :: VR th :: VR ph :: VR et :: rest) ->
  (rest = [] /\ mask = None /\ size = None /\ delay = None) \/ (exists m, rest = [VS m] /\ mask = Some m /\ size = None /\ delay = None) \/
  (exists m s, rest = [VS m; VR s] /\ mask = Some m /\ size = Some s /\ delay = None) \/
  (exists m s d, rest = [VS m; VR s; VR d] /\ mask = Some m /\ size = Some s /\ delay = Some d) ->
  let b := mkbox x1 x2 y1 y2 z1 z2 in
  match cardPW h line with
  | Some h' => card_ok (h_mbox h) (h_wfs h) (h_pws h) b name wf th ph et mask size /\ only PPlane h h' /\
      exists act, mask_ok mask act /\ h_pws h' = (h_pws h ++ [mkPW name b wf act th ph et (P_PwVectors.or_else size 1) (P_PwVectors.or_else delay 0)])%list
  | None => ~ card_ok (h_mbox h) (h_wfs h) (h_pws h) b name wf th ph et mask size
  end.
Proof.
  intros h line x1 x2 y1 y2 z1 z2 name wf th ph et rest mask size delay W K b.
  apply C67_read_as_written in W. unfold cardPW.
  change (flat_map format (six ++ [FName; FName; FReal; FReal; FReal; FName; FReal; FReal])) with (D6 ++ [CvWord; CvWord; CvReal; CvReal; CvReal; CvWord; CvReal; CvReal]) in W.
  rewrite W. cbn [corners app box6]. fold b.
  assert (E1 : (match rest with VS s :: _ => Some s | _ => None end) = mask) by (destruct K as [(-> & -> & _)|[(m & -> & -> & _)|[(m & s & -> & -> & _)|(m & s & d & -> & -> & _)]]]; reflexivity).
  assert (E2 : (match rest with _ :: VR x :: _ => Some x | _ => None end) = size) by (destruct K as [(-> & _ & -> & _)|[(m & -> & _ & -> & _)|[(m & s & -> & _ & -> & _)|(m & s & d & -> & _ & -> & _)]]]; reflexivity).
  assert (E3 : (match rest with _ :: _ :: VR x :: _ => Some x | _ => None end) = delay) by (destruct K as [(-> & _ & _ & ->)|[(m & -> & _ & _ & ->)|[(m & s & -> & _ & _ & ->)|(m & s & d & -> & _ & _ & ->)]]]; reflexivity).
  rewrite E1, E2, E3. pose proof (C28_card (h_mbox h) (h_wfs h) (h_pws h) b name wf th ph et mask size delay) as T. destruct (parsePW _ _ _ _ _ _ _ _ _ _ _ _) as [l|]; [|exact T].
  destruct T as (T1 & act & T2 & T3). split; [exact T1|]. split; [rest_kept|]. exists act. split; [exact T2|exact T3].
Qed.

(** ** OP x1 x2 y1 y2 z1 z2 name type [waveform] / [strides] *)
Theorem C67_observer_card : forall h line x1 x2 y1 y2 z1 z2 name ty rest wf steps,
  (written (six ++ [FName; FName; FName]) line (corners x1 x2 y1 y2 z1 z2 ++ VS name :: VS ty :: rest) /\ (ty = "TDOM_ASCII" \/ ty = "FDOM_ASCII")%string /\
     (rest = [] /\ wf = ""%string \/ rest = [VS wf])) \/
  (written (six ++ [FName; FName; FInt; FInt; FInt]) line (corners x1 x2 y1 y2 z1 z2 ++ VS name :: VS ty :: rest) /\ ty = "TDOM_BINARY"%string /\ rest = map VI steps) ->
  let b := mkbox x1 x2 y1 y2 z1 z2 in
  match cardOP h line with
  | Some h' => op_ok (h_mbox h) (h_wfs h) (h_obs h) b name ty wf steps /\ only PObs h h' /\
      exists o, h_obs h' = (h_obs h ++ [o])%list /\ o_name o = name /\ o_mbbox o = b /\
      op_type ty (match o_format o with OF_ASCII => true | OF_BINARY => false end) (match o_domain o with OD_TIME => true | OD_FREQ => false end) /\
      match o_format o with
      | OF_ASCII => (wf = ""%string -> o_wf o = 0%nat) /\ (wf <> ""%string -> has_wave (h_wfs h) wf (o_wf o))
      | OF_BINARY => o_step o XDIR = nth 0 steps 1 /\ o_step o YDIR = nth 1 steps 1 /\ o_step o ZDIR = nth 2 steps 1
      end
  | None => ~ op_ok (h_mbox h) (h_wfs h) (h_obs h) b name ty wf steps
  end.
Proof.
  intros h line x1 x2 y1 y2 z1 z2 name ty rest wf steps K b. unfold cardOP.
  assert (K1 : sscanf (D6 ++ [CvWord; CvWord]) line = corners x1 x2 y1 y2 z1 z2 ++ [VS name; VS ty]).
  { destruct K as [(W & _)|(W & _)].
    - exact (read_first (six ++ [FName; FName]) [FName] line _ W).
    - exact (read_first (six ++ [FName; FName]) [FInt; FInt; FInt] line _ W). }
  rewrite K1. cbn [corners app box6]. fold b.
  set (wf' := match box6 (sscanf (D6 ++ [CvWord; CvWord; CvWord]) line) with Some (_, [_; _; VS w]) => w | _ => ""%string end).
  set (steps' := match box6 (sscanf (D6 ++ [CvWord; CvWord; CvInt; CvInt; CvInt]) line) with Some (_, _ :: _ :: vs) => match intsOf vs with Some l => l | None => [] end | _ => [] end).
  assert (E : (ty = "TDOM_ASCII" \/ ty = "FDOM_ASCII")%string /\ wf' = wf \/ ty = "TDOM_BINARY"%string /\ steps' = steps /\ (List.length steps <= 3)%nat).
  { destruct K as [(W & T & R)|(W & T & R)].
    - left. split; [exact T|]. apply C67_read_as_written in W. unfold wf'. change (D6 ++ [CvWord; CvWord; CvWord]) with (flat_map format (six ++ [FName; FName; FName])). rewrite W. destruct R as [(-> & ->)| ->]; reflexivity.
    - right. split; [exact T|]. pose proof (written_len _ _ _ W) as L. subst rest. rewrite !app_length in L. cbn [List.length six corners] in L. rewrite map_length in L. split; [|lia].
      apply C67_read_as_written in W. unfold steps'. change (D6 ++ [CvWord; CvWord; CvInt; CvInt; CvInt]) with (flat_map format (six ++ [FName; FName; FInt; FInt; FInt])). rewrite W. cbn [corners app box6]. rewrite intsOf_map. reflexivity. }
  clearbody wf' steps'. clear K K1.
  assert (OK : op_ok (h_mbox h) (h_wfs h) (h_obs h) b name ty wf' steps' <-> op_ok (h_mbox h) (h_wfs h) (h_obs h) b name ty wf steps).
  { unfold op_ok. destruct E as [([-> | ->] & ->)|(-> & -> & _)]; (split; intros (A1 & A2 & asc & tm & T & A3); (split; [exact A1|]; split; [exact A2|]; exists asc, tm; split; [exact T|]; inversion T; subst; exact A3)). }
  pose proof (C31_card (h_mbox h) (h_wfs h) (h_obs h) b name ty wf' steps') as T. destruct (parseOP _ _ _ _ _ _ _ _) as [l|]; [|rewrite <- OK; exact T].
  destruct T as (T1 & o & T2 & T3 & T4 & T5 & _ & T6). split; [apply OK; exact T1|]. split; [rest_kept|]. exists o. do 4 (split; [assumption|]).
  destruct E as [(TY & ->)|(-> & -> & L)].
  - destruct (o_format o); [destruct T6 as (X & Y & _); auto|]. exfalso. destruct TY; subst ty; inversion T5.
  - destruct (o_format o); [exfalso; inversion T5|]. destruct steps as [|x [|y [|z [|u s]]]]; cbn [nth]; try (cbn in L; lia); try (repeat split; apply T6); tauto.
Qed.

(** ** Run control cards *)
Lemma Rltb_dec (x y : R) : {(x < y)%R} + {(y <= x)%R}. Proof. destruct (Rlt_dec x y); [left|right]; lra. Qed.
Theorem C67_window_card : forall h line a b, written [FCount; FCount] line [VI a; VI b] ->
  match cardOT h line with
  | Some h' => a <= b /\ h_ot h' = Some (a, b) /\ only PWindow h h'
  | None => b < a
  end.
Proof.
  intros h line a b W. apply C67_read_as_written in W. cbn [flat_map format app] in W. unfold cardOT. rewrite W. unfold parseOT.
  destruct (Z.ltb_spec b a); [assumption|]. split; [assumption|]. split; [reflexivity|]. rest_kept.
Qed.
Theorem C67_frequency_card : forall h line f0 f1 n, written [FReal; FReal; FCount] line [VR f0; VR f1; VI n] ->
  match cardOF h line with
  | Some h' => (0 <= f0 <= f1)%R /\ 1 <= n /\ h_of h' = Some (f0, f1, n) /\ only PFreq h h'
  | None => (f0 < 0)%R \/ (f1 < f0)%R \/ n < 1
  end.
Proof.
  intros h line f0 f1 n W. apply C67_read_as_written in W. cbn [flat_map format app] in W. unfold cardOF. rewrite W. unfold parseOF.
  destruct (Rlt_dec f0 0); [auto|]. destruct (Rlt_dec f1 f0); [auto|]. destruct (Z.ltb_spec n 1); [auto|]. split; [lra|]. split; [assumption|]. split; [reflexivity|]. rest_kept.
Qed.
Theorem C67_courant_card : forall h line x, written [FReal] line [VR x] ->
  match cardCN h line with
  | Some h' => (x < 1)%R /\ h_cn h' = Some x /\ only PCourant h h'
  | None => (1 <= x)%R
  end.
Proof.
  intros h line x W. apply C67_read_as_written in W. cbn [flat_map format app] in W. unfold cardCN. rewrite W. unfold parseCN.
  destruct (Rge_dec x 1); [lra|]. split; [lra|]. split; [reflexivity|]. rest_kept.
Qed.
Lemma digits_span : forall l acc, digits acc l = fold_left (fun v c => 10 * v + (c - 48)) (fst (span isdigit l)) acc.
Proof.
  induction l as [|c l IH]; intros acc; [reflexivity|]. cbn [digits span]. destruct (isdigit c); [|reflexivity]. rewrite IH. destruct (span isdigit l). reflexivity.
Qed.
Lemma unsigned_ulong l : scanUnsigned l = option_map fst (scanULong l).
Proof.
  unfold scanUnsigned, scanULong. set (x := skipBlanks l). change (match x with c :: l' => if c =? 45 then (true, l') else if c =? 43 then (false, l') else (false, x) | [] => (false, []) end) with (sign x).
  destruct (sign x) as [neg y]. destruct y as [|c y]; [reflexivity|]. cbn [span]. destruct (isdigit c) eqn:D; [|reflexivity].
  assert (V : digits 0 (c :: y) = value (c :: fst (span isdigit y))).
  { rewrite digits_span. unfold value. cbn [span]. rewrite D. destruct (span isdigit y). reflexivity. }
  destruct (span isdigit y) as [ds z]. cbn [fst] in V. rewrite V. reflexivity.
Qed.
Theorem C67_steps_card : forall h line n, written [FCount] line [VI n] -> exists h', cardNT h line = Some h' /\ h_nt h' = n /\ only PSteps h h'.
Proof.
  intros h line n W. inversion W as [|k ks bl l v tail vs B S K W' E1 E2 E3| | |]; subst. inversion S as [|? ? N L| | |]; subst.
  unfold cardNT, parseNT. rewrite unsigned_ulong, (scan_count bl l n tail B N L K). cbn [option_map fst].
  destruct (natlit_digits l n N) as (_ & _ & _ & P). destruct (Z.ltb_spec n 0); [lia|]. eexists. split; [reflexivity|]. split; [reflexivity|]. rest_kept.
Qed.
(** MS dx [dy dz] *)
Theorem C67_spacing_card : forall h line xs, written [FReal; FReal; FReal] line (map VR xs) ->
  cardMS h line = match parseMS (h_numLines h) xs with
                  | Some lines => Some (setCtl (h_nt h) (h_ot h) (h_of h) (h_cn h) (fun a => Some (lines a)) h)
                  | None => None
                  end.
Proof.
  intros h line xs W. apply C67_read_as_written in W. cbn [flat_map format app] in W. unfold cardMS. rewrite W, realsOf_map. reflexivity.
Qed.

(** ** BR and BE: six numbers, one for each face *)
Theorem C67_walls_card : forall h line t1 t2 t3 t4 t5 t6, written six line (corners t1 t2 t3 t4 t5 t6) ->
  let ty := mkbox t1 t2 t3 t4 t5 t6 in
  match cardBR h line with
  | Some h' => only PBound h h' /\ (forall f, br_code (ty f) (wanted (h_breg h') f)) /\
      (forall n it, getItem (h_breg h) n = Some it -> getItem (h_breg h') n = Some it) /\
      exists ps, h_bpar h' = (h_bpar h ++ ps)%list /\ List.length (h_breg h') = (List.length (h_breg h) + List.length ps)%nat
  | None => exists f, ty f <> -1 /\ ty f <> 0 /\ ty f <> 1
  end.
Proof.
  intros h line t1 t2 t3 t4 t5 t6 W ty. apply C67_read_as_written in W. unfold cardBR. change (flat_map format six) with D6 in W. rewrite W. cbn [corners box6]. fold ty.
  destruct (C56_BR_card (h_breg h) ty) as (T1 & T2). destruct (parseBR (h_breg h) ty) as [reg|] eqn:P; [|apply T1; reflexivity].
  destruct (T2 reg eq_refl) as (T3 & T4 & _). split; [rest_kept|]. split; [exact T3|]. split; [exact T4|]. eexists. split; [reflexivity|].
  rewrite map_length. cbn [h_breg setB]. clear - P. unfold parseBR in P. revert P. generalize (h_breg h). generalize faces. intros fs; induction fs as [|f fs IH]; intros r P; cbn [parseBR_loop] in P.
  - injection P as ->. cbn. lia.
  - destruct (brType (ty f)); [|discriminate]. apply IH in P. rewrite P. unfold addItem. rewrite app_length. cbn [List.length]. lia.
Qed.

(** ** BT name type [PML parameters] *)
Definition int_at (vs : list Val) (n : nat) (d : Z) : Z := match nth_error vs n with Some (VI z) => z | _ => d end.
Definition real_at (vs : list Val) (n : nat) (d : R) : R := match nth_error vs n with Some (VR x) => x | _ => d end.
Inductive bt_type : string -> BType -> Prop :=
| bt1 : bt_type "PEC" BT_PEC | bt2 : bt_type "PMC" BT_PMC | bt3 : bt_type "PERIODIC" BT_PERIODIC
| bt4 : bt_type "FREE_SPACE" BT_FREE_SPACE | bt5 : bt_type "MUR" BT_MUR.
Theorem C67_boundary_card : forall h line name ty t, bt_type ty t -> written [FName; FName] line [VS name; VS ty] ->
  match cardBT h line with
  | Some h' => fresh (h_breg h) name /\ appended (h_breg h) (h_breg h') name (mkB t 0) /\ only PBound h h' /\ exists p, h_bpar h' = (h_bpar h ++ [p])%list
  | None => ~ fresh (h_breg h) name
  end.
Proof.
  intros h line name ty t T W. apply C67_read_as_written in W. cbn [flat_map format app] in W. unfold cardBT. rewrite W.
  destruct (findName (h_breg h) name) eqn:F; [intros X; apply findName_new in X; congruence|].
  assert (FR : fresh (h_breg h) name) by exact (proj1 (findName_new _ _) F).
  destruct T; cbn [btypeOf String.eqb Ascii.eqb Bool.eqb]; (split; [exact FR|]; split; [reflexivity|]; split; [rest_kept|eexists; reflexivity]).
Qed.
Lemma typed ks : forall line vs n v, written ks line vs -> nth_error vs n = Some v ->
  exists k, nth_error ks n = Some k /\ match k with FInt | FCount => exists z, v = VI z | FReal => exists x, v = VR x | _ => exists s, v = VS s end.
Proof.
  intros line vs n v W. revert n v. induction W as [|k ks bl l v0 tail vs B S K W' IH| | |]; intros n v; try (destruct n; discriminate).
  destruct n; cbn [nth_error]; [|apply IH]. intros E. injection E as <-. exists k. split; [reflexivity|]. destruct S; eauto.
Qed.
(** BT name PML [layers [order [refractive index [reflection [kmax]]]]]; the
    defaults are those of the manual *)
Theorem C67_pml_card : forall h line name rest,
  written [FName; FName; FInt; FInt; FReal; FReal; FReal] line (VS name :: VS "PML" :: rest) ->
  match cardBT h line with
  | Some h' => fresh (h_breg h) name /\ appended (h_breg h) (h_breg h') name (mkB BT_PML (int_at rest 0 6)) /\ only PBound h h' /\
      exists p, h_bpar h' = (h_bpar h ++ [p])%list /\
        b_pml p = mkPar (int_at rest 1 4) (real_at rest 2 1) (real_at rest 3 (-1)) (real_at rest 4 1)
  | None => ~ fresh (h_breg h) name
  end.
Proof.
  intros h line name rest W. unfold cardBT.
  rewrite (read_first [FName; FName] [FInt; FInt; FReal; FReal; FReal] line _ W : sscanf [CvWord; CvWord] line = [VS name; VS "PML"]).
  destruct (findName (h_breg h) name) eqn:F; [intros X; apply findName_new in X; congruence|].
  assert (FR : fresh (h_breg h) name) by exact (proj1 (findName_new _ _) F).
  cbn [btypeOf String.eqb Ascii.eqb Bool.eqb].
  pose proof (written_len _ _ _ W) as L. cbn [List.length] in L.
  pose proof (C67_read_as_written _ _ _ W) as E. cbn [flat_map format app] in E. rewrite E. clear E.
  assert (TY : forall n v k, nth_error rest n = Some v -> nth_error [FInt; FInt; FReal; FReal; FReal] n = Some k -> match k with FInt | FCount => exists z, v = VI z | FReal => exists x, v = VR x | _ => exists s, v = VS s end).
  { intros n v k N K. destruct (typed _ _ _ (2 + n) v W N) as (k' & K' & T). cbn [Nat.add nth_error] in K'. rewrite K in K'. injection K' as <-. exact T. }
  cbn [List.length Nat.sub nth_error].
  destruct rest as [|v0 rest]. { split; [exact FR|]. split; [reflexivity|]. split; [rest_kept|]. eexists. split; [reflexivity|]. reflexivity. }
  destruct (TY 0%nat v0 FInt eq_refl eq_refl) as (z0 & ->).
  destruct rest as [|v1 rest]. { split; [exact FR|]. split; [reflexivity|]. split; [rest_kept|]. eexists. split; [reflexivity|]. reflexivity. }
  destruct (TY 1%nat v1 FInt eq_refl eq_refl) as (z1 & ->).
  destruct rest as [|v2 rest]. { split; [exact FR|]. split; [reflexivity|]. split; [rest_kept|]. eexists. split; [reflexivity|]. reflexivity. }
  destruct (TY 2%nat v2 FReal eq_refl eq_refl) as (x2 & ->).
  destruct rest as [|v3 rest]. { split; [exact FR|]. split; [reflexivity|]. split; [rest_kept|]. eexists. split; [reflexivity|]. reflexivity. }
  destruct (TY 3%nat v3 FReal eq_refl eq_refl) as (x3 & ->).
  destruct rest as [|v4 rest]. { split; [exact FR|]. split; [reflexivity|]. split; [rest_kept|]. eexists. split; [reflexivity|]. reflexivity. }
  destruct (TY 4%nat v4 FReal eq_refl eq_refl) as (x4 & ->).
  destruct rest as [|v5 rest]; [|cbn in L; lia]. split; [exact FR|]. split; [reflexivity|]. split; [rest_kept|]. eexists. split; [reflexivity|]. reflexivity.
Qed.

(** ** XL, YL, ZL: the mesh lines, spread over any number of lines *)
Inductive numbers_written : list R -> list Z -> list Z -> Prop :=
| nw_nil rest : numbers_written [] rest rest
| nw_cons bl l x tail xs rest : blanks bl -> reallit l x -> at_break tail -> numbers_written xs tail rest -> numbers_written (x :: xs) (bl ++ l ++ tail) rest.
Lemma scan_reals xs : forall t rest, numbers_written xs t rest -> scanReals (List.length xs) t = Some (xs, rest).
Proof.
  induction xs as [|x xs IH]; intros t rest H; inversion H; subst; [reflexivity|]. cbn [List.length scanReals]. rewrite (scan_real bl l x tail) by assumption. erewrite IH by eassumption. reflexivity.
Qed.
Theorem C67_lines_card : forall a h text rest xs, numbers_written xs text rest -> Z.of_nat (List.length xs) = h_numLines h a ->
  exists h' n, cardL a h text = Some (h', n) /\ n = (List.length text - List.length rest)%nat /\ only PMesh h h' /\
  (exists arr, h_mesh h' a = Some arr /\ forall i, 0 <= i < h_numLines h a -> rd arr i = Some (nth (Z.to_nat i) xs 0%R)) /\
  forall a', a' <> a -> h_mesh h' a' = h_mesh h a'.
Proof.
  intros a h text rest xs W N. unfold cardL. rewrite <- N, Nat2Z.id, (scan_reals _ _ _ W). unfold parseLines. rewrite Z.ltb_irrefl.
  do 2 eexists. split; [reflexivity|]. split; [reflexivity|]. split; [rest_kept|]. cbn [h_mesh setCtl]. split.
  - eexists. split; [destruct a; reflexivity|]. intros i I. unfold rd, ok. cbn [alen adat].
    destruct (Z.leb_spec 0 i), (Z.ltb_spec i (Z.of_nat (List.length xs))); try lia. reflexivity.
  - intros [| |] D; destruct a; try congruence; reflexivity.
Qed.

(** ** EX: the numbers behind the waveform: [size [delay]], for lumped sources
    resistance [size [delay]] *)
Theorem C67_source_values : forall h line x1 x2 y1 y2 z1 z2 name ty wf xs t, findTag ty = Some t ->
  let lumped := match t_type t with ST_THEVENIN_VOLTAGE | ST_NORTON_CURRENT => true | _ => false end in
  written (six ++ FName :: FName :: FName :: repeat FReal (if lumped then 3 else 2)) line (corners x1 x2 y1 y2 z1 z2 ++ VS name :: VS ty :: VS wf :: map VR xs) ->
  match cardEX h line with
  | Some h' => exists s, h_srcs h' = (h_srcs h ++ [s])%list /\ s_name s = name /\ s_tag s = t /\ s_mbbox s = mkbox x1 x2 y1 y2 z1 z2 /\ s_wf s = wf /\
      (if lumped then s_resist s = or_else xs 0 0 /\ s_size s = or_else xs 1 1 /\ s_delay s = or_else xs 2 0
       else s_size s = or_else xs 0 1 /\ s_delay s = or_else xs 1 0) /\
      (forall q, q <> PSrc -> q <> PMedia -> kept h h' q) /\ (lumped = false -> kept h h' PMedia)
  | None => True
  end.
Proof.
  intros h line x1 x2 y1 y2 z1 z2 name ty wf xs t T lumped W. unfold cardEX.
  rewrite (read_first (six ++ [FName; FName; FName]) (repeat FReal (if lumped then 3 else 2)) line _ W : sscanf (D6 ++ [CvWord; CvWord; CvWord]) line = corners x1 x2 y1 y2 z1 z2 ++ [VS name; VS ty; VS wf]).
  cbn [corners app box6]. rewrite T. change (isLumped (t_type t)) with lumped.
  apply C67_read_as_written in W. rewrite flat_map_app in W. cbn [flat_map] in W. rewrite format_reals in W. cbn [format app] in W. change (flat_map format six) with D6 in W. rewrite W.
  cbn [corners app]. change (realsOf (VI x1 :: _)) with (realsOf (map VR xs)). rewrite realsOf_map.
  unfold parseEX. destruct (isSource _ _); [exact I|]. rewrite T. destruct (negb _); [exact I|]. destruct (negb _); [exact I|]. change (isLumped (t_type t)) with lumped.
  assert (AR : forall n d, argOr xs n d = or_else xs n d) by (intros n d; exact (nthR_or xs n d)).
  destruct lumped.
  - destruct (match bboxType _ with BB_LINE => _ | _ => _ end); [exact I|]. destruct (negb _); [exact I|].
    eexists. split; [reflexivity|]. cbn [s_name s_tag s_mbbox s_wf s_resist s_size s_delay]. rewrite !AR. do 5 (split; [repeat split|]). split; [intros []; intros; try congruence; cbn; auto|discriminate].
  - destruct (negb _); [exact I|].
    eexists. split; [reflexivity|]. cbn [s_name s_tag s_mbbox s_wf s_resist s_size s_delay]. rewrite !AR. do 5 (split; [repeat split|]). split; [intros []; intros; try congruence; cbn; auto|reflexivity].
Qed.
(** ** SIBC boundaries: eight numbers (TM and TE), four (both the same), or a file *)
Theorem C67_sheet_card : forall h line name rest,
  (exists xs, written (FName :: FName :: repeat FReal 8) line (VS name :: VS "SIBC" :: map VR xs) /\ rest = inl xs /\ (List.length xs = 4 \/ List.length xs = 8)%nat) \/
  (exists f, written [FName; FName; FFile] line [VS name; VS "SIBC"; VS f] /\ rest = inr f) ->
  match cardBT h line with
  | Some h' => fresh (h_breg h) name /\ appended (h_breg h) (h_breg h') name (mkB BT_SIBC 0) /\ only PBound h h' /\
      exists p, h_bpar h' = (h_bpar h ++ [p])%list /\
      match rest with
      | inl xs => b_tm p = firstn 4 xs /\ b_te p = (if (List.length xs =? 8)%nat then skipn 4 xs else xs) /\ b_file p = ""%string
      | inr f => b_file p = f
      end
  | None => ~ fresh (h_breg h) name
  end.
Proof.
  intros h line name rest K. unfold cardBT.
  assert (K1 : sscanf [CvWord; CvWord] line = [VS name; VS "SIBC"]).
  { destruct K as [(xs & W & _)|(f & W & _)]; [exact (read_first [FName; FName] (repeat FReal 8) line _ W)|exact (read_first [FName; FName] [FFile] line _ W)]. }
  rewrite K1. destruct (findName (h_breg h) name) eqn:F; [intros X; apply findName_new in X; congruence|].
  assert (FR : fresh (h_breg h) name) by exact (proj1 (findName_new _ _) F).
  change (btypeOf "SIBC") with (Some BT_SIBC). cbv iota.
  destruct K as [(xs & W & -> & L)|(f & W & ->)].
  - apply C67_read_as_written in W. change (flat_map format (FName :: FName :: repeat FReal 8)) with ([CvWord; CvWord] ++ repeat CvReal 8) in W. rewrite W.
    change (realsOf (VS name :: VS "SIBC" :: map VR xs)) with (realsOf (map VR xs)). rewrite realsOf_map.
    destruct L as [L|L]; rewrite L; cbn [Nat.eqb]; (split; [exact FR|]; split; [reflexivity|]; split; [rest_kept|]; eexists; split; [reflexivity|]; cbn [b_tm b_te b_file]; repeat split).
    symmetry. apply firstn_all2. lia.
  - pose proof (file_no_number [FName; FName] (repeat FReal 7) line [VS name; VS "SIBC"] f W eq_refl) as N. apply C67_read_as_written in N.
    change (flat_map format ([FName; FName] ++ FReal :: repeat FReal 7)) with ([CvWord; CvWord] ++ repeat CvReal 8) in N. rewrite N.
    change (realsOf [VS name; VS "SIBC"]) with (@nil R). cbn [List.length Nat.eqb].
    apply C67_read_as_written in W. change (flat_map format [FName; FName; FFile]) with ([CvWord; CvWord] ++ quoted) in W. rewrite W.
    split; [exact FR|]. split; [reflexivity|]. split; [rest_kept|]. eexists. split; reflexivity.
Qed.
(** ** VM major.minor.patch *)
Theorem C67_version_card : forall h line bl a b c la lb lc tail, line = bl ++ la ++ 46 :: lb ++ 46 :: lc ++ tail -> blanks bl ->
  natlit la a -> natlit lb b -> natlit lc c -> a < 2 ^ 31 -> b < 2 ^ 31 -> c < 2 ^ 31 -> at_break tail ->
  match cardVM h line with
  | Some h' => a < 2000 /\ b < 1000 /\ c < 1000 /\ h_version h' = 1000000 * a + 1000 * b + c /\ only PVersion h h'
  | None => 2000 <= a \/ 1000 <= b \/ 1000 <= c
  end.
Proof.
  intros h line bl a b c la lb lc tail -> B NA NB NC A1 B1 C1 T.
  assert (SC : forall bl l v rest, blanks bl -> natlit l v -> v < 2 ^ 31 -> match rest with [] => True | x :: _ => isdigit x = false end -> scanInt (bl ++ l ++ rest) = Some (v, rest)).
  { clear. intros bl l v rest B N L R. destruct (natlit_digits l v N) as (F & NE & V & P). unfold scanInt. destruct l as [|d l]; [congruence|].
    assert (D : isdigit d = true) by (inversion F; assumption). apply digit_dark in D. destruct D as (D1 & D2 & D3 & _).
    rewrite skip_bl; [|exact B|exact D1]. rewrite (sign_app [] false ((d :: l) ++ rest) sg_none (conj D2 D3) : sign ((d :: l) ++ rest) = _).
    rewrite (span_app isdigit (d :: l) rest F R). rewrite V. unfold saturate, toInt, LONGMAX. rewrite Z.min_r, Z.max_r by lia. rewrite Z.mod_small by lia. do 2 f_equal. lia. }
  assert (S3 : sscanf [CvInt; CvLit 46; CvInt; CvLit 46; CvInt] (bl ++ la ++ 46 :: lb ++ 46 :: lc ++ tail) = [VI a; VI b; VI c]).
  { cbn [sscanf conv]. rewrite (SC bl la a) by (assumption || reflexivity). cbn [option_map fst snd app]. change (46 =? 46) with true. cbv iota. cbn [app].
    rewrite (SC [] lb b (46 :: lc ++ tail) (Forall_nil _) NB B1 eq_refl : scanInt (lb ++ 46 :: lc ++ tail) = _). cbn [option_map fst snd app]. change (46 =? 46) with true. cbv iota. cbn [app].
    rewrite (SC [] lc c tail (Forall_nil _) NC C1 (break_digit _ T) : scanInt (lc ++ tail) = _). reflexivity. }
  unfold cardVM. rewrite S3. destruct (Z.leb_spec 2000 a), (Z.leb_spec 1000 b), (Z.leb_spec 1000 c); cbn [orb]; try lia.
  do 3 (split; [assumption|]). split; [reflexivity|]. rest_kept.
Qed.
