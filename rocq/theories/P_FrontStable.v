(** C70: from the text of a mesh file to the stability of its run. *)
From Coq Require Import ZArith List Bool Ascii String Reals Lia Lra FunctionalExtensionality.
From Verif Require Import Types CArr CStr Sim Scan Lang BBox Grid SpecGrid Step Setup SetupProofs P_Setup PmlProfile Media Medium SpecMedium MediumProofs Debye Waveform Source
  PlaneWave Observer Edges SpecEdges SpecText Mesh SpecGeom SpecCards P_Cards SpecMedia P_Media SpecPhys SpecEnergy SpecStable P_Grid P_Stable Front Program SpecFront P_Front P_FrontRun
  LangProofs StepShape StepBounds MediaProofs SpecMedium Sibc SpecSource SourceProofs P_Source P_PwBounds SpecPw Whole P_Whole SpecFile Energy P_Step Stable StableStep StepValue SpecCone P_Energy.
Import ListNotations.
Open Scope Z_scope.

(** ** What the cards do to the media and the mesh lines *)
Lemma good_init : good_media initMedReg.
Proof. intros [|[|n]] it N; [auto|auto|destruct n; discriminate N]. Qed.
Lemma good_add reg name p : (2 <= List.length reg)%nat -> good_media reg -> paramOk p -> (m_type p <> MT_DEBYE -> m_poles p = []) -> good_media (addItem reg name p).
Proof.
  intros L G P Q n it N. unfold addItem in N. destruct (Nat.lt_ge_cases n (List.length reg)) as [B|B].
  - rewrite nth_error_app1 in N by exact B. exact (G n it N).
  - rewrite nth_error_app2 in N by exact B. destruct (n - List.length reg)%nat as [|q]; [|destruct q; discriminate N]. injection N as <-. right; right. cbn [idata]. repeat split; first [lia|apply P|exact Q].
Qed.
Lemma wr_len {A} (v : carr A) i x v' : wr v i x = Some v' -> alen v' = alen v.
Proof. unfold wr. destruct (ok v i); [|discriminate]. intros E. injection E as <-. reflexivity. Qed.
Lemma uniform_len v n d v' : setUniformMesh v n d = Some v' -> alen v' = alen v.
Proof.
  unfold setUniformMesh, cfor. revert v. induction (zrange 0 (n - 1)) as [|i l IH]; intros v E; cbn [ofold] in E; [injection E as <-; reflexivity|].
  destruct (wr v i _) as [v1|] eqn:Q; cbn [obind] in E; [|discriminate]. rewrite (IH _ E). exact (wr_len _ _ _ _ Q).
Qed.
Lemma ms_len nl ps xyz : parseMS nl ps = Some xyz -> forall a, alen (xyz a) = nl a.
Proof.
  assert (G : forall x y z, (if Rle_dec x 0 then None else if Rle_dec y 0 then None else if Rle_dec z 0 then None
    else do xl <- setUniformMesh (mkArr (nl XDIR) (fun _ => 0%R)) (nl XDIR) x; do yl <- setUniformMesh (mkArr (nl YDIR) (fun _ => 0%R)) (nl YDIR) y;
         do zl <- setUniformMesh (mkArr (nl ZDIR) (fun _ => 0%R)) (nl ZDIR) z;
         Some (fun a => match a with XDIR => xl | YDIR => yl | ZDIR => zl end)) = Some xyz -> forall a, alen (xyz a) = nl a).
  { intros x y z E. destruct (Rle_dec x 0); [discriminate|]. destruct (Rle_dec y 0); [discriminate|]. destruct (Rle_dec z 0); [discriminate|].
    destruct (setUniformMesh _ (nl XDIR) x) as [xl|] eqn:EX; cbn [obind] in E; [|discriminate].
    destruct (setUniformMesh _ (nl YDIR) y) as [yl|] eqn:EY; cbn [obind] in E; [|discriminate].
    destruct (setUniformMesh _ (nl ZDIR) z) as [zl|] eqn:EZ; cbn [obind] in E; [|discriminate]. injection E as <-.
    apply uniform_len in EX, EY, EZ. intros []; [exact EX|exact EY|exact EZ]. }
  unfold parseMS. destruct ps as [|x [|y [|z [|w ps]]]]; try discriminate; apply G.
Qed.
Ltac tops := repeat match goal with
  | E : match ?x with _ => _ end = Some _ |- _ => let F := fresh "F" in destruct x eqn:F; try discriminate E
  | E : (let _ := _ in _) = Some _ |- _ => cbv zeta in E end.
Ltac ended := match goal with E : Some ?x = Some _ |- _ => injection E as <- end.
Definition keeps (h h' : MeshData) : Prop := h_media h' = h_media h /\ h_mesh h' = h_mesh h /\ h_numLines h' = h_numLines h.
Definition touching (c : Card) : bool := match c with DM | MT | Mesh.EX | MS | XL | YL | ZL => true | _ => false end.
Lemma keeps_card df h h' c line rest u : touching c = false -> handler df h c line rest = Some (h', u) -> keeps h h'.
Proof.
  intros T E. destruct c; try discriminate T; cbn [handler] in E;
    try (injection E as <- _; repeat split);
    match type of E with option_map _ ?x = _ => destruct x as [h1|] eqn:C; cbn [option_map] in E; [injection E as -> _|discriminate E] end; clear rest u.
  - (* VM *) unfold cardVM in C. tops; ended; repeat split.
  - unfold cardBR in C. tops; ended; repeat split.
  - unfold cardBE in C. tops; ended; repeat split.
  - unfold cardBT in C. tops; ended; repeat split.
  - unfold cardWT in C. tops; ended; repeat split.
  - unfold cardMB in C. tops; ended; repeat split.
  - unfold cardTB in C. tops; ended; repeat split.
  - unfold cardTW in C. tops; ended; repeat split.
  - unfold cardWF in C. tops; ended; repeat split.
  - unfold cardPW in C. tops; ended; repeat split.
  - unfold cardOP in C. tops; ended; repeat split.
  - unfold cardNT in C. tops; ended; repeat split.
  - unfold cardOT in C. tops; ended; repeat split.
  - unfold cardOF in C. tops; ended; repeat split.
  - unfold cardCN in C. tops; ended; repeat split.
Qed.

(** ** The invariant *)
Definition lineCard (a : Axis) : Card := match a with XDIR => XL | YDIR => YL | ZDIR => ZL end.
Record Inv2 (st : MState) (h : MeshData) (tr : list Card) : Prop := mkInv2 {
  i2_len : (2 <= List.length (h_media h))%nat;
  i2_media : good_media (h_media h);
  i2_mesh : forall a v, h_mesh h a = Some v -> alen v = h_numLines h a;
  i2_early : (sectionNumber st <= 1)%nat -> forall a, h_mesh h a = None;
  i2_found : forall a, isFound st (lineCard a) = true -> h_mesh h a <> None;
  i2_end : In EN tr -> forall a, h_mesh h a <> None;
  i2_cn : forall x, h_cn h = Some x -> (x < 1)%R }.
Lemma Inv2_init : Inv2 initM mesh0 [].
Proof.
  constructor; cbn [mesh0 h_media h_mesh h_numLines h_cn initM isFound]; first [exact good_init|discriminate|auto].
Qed.
Lemma found_step {H} (hdl : H -> Card -> list Z -> list Z -> option (H * nat)) st h c arg rest st' h' used : stepCard hdl st h c arg rest = Acc (st', h', used) ->
  (forall a, isFound st' (lineCard a) = true -> isFound st (lineCard a) = true \/ c = lineCard a \/ c = MS) /\
  (c = EN -> forall a, isFound st (lineCard a) = true).
Proof.
  unfold stepCard. destruct (checkCard st c) as [[]| |]; cbn [obnd]; [|discriminate|discriminate]. destruct (if hasFunc c then _ else _) as [[h1 u1]| |]; cbn [obnd]; [|discriminate|discriminate].
  destruct (special _ c) as [st2| |] eqn:SP; cbn [obnd]; try discriminate. destruct (endSection st2 c) as [st3| |] eqn:ES; cbn [obnd]; try discriminate. intros E. injection E as <- <- <-.
  assert (E3 : isFound st3 = isFound st2).
  { unfold endSection in ES. destruct (isEndOfSection c); [|injection ES as <-; reflexivity]. destruct (nth_error _ _) as [[x y]|]; [|discriminate]. destruct (existsb _ _); [discriminate|]. injection ES as <-. reflexivity. }
  rewrite E3. clear E3 ES. split.
  - intros a. destruct c; cbn [special sectionNumber isFound foundSource foundOutput] in SP;
      try (injection SP as <-; cbn [isFound]; unfold mark; destruct a; cbn [lineCard existsb ceqb card_num Nat.eqb orb]; auto; fail).
    + destruct (negb _); [discriminate|]. injection SP as <-. cbn [isFound]. unfold mark. destruct a; cbn [lineCard existsb ceqb card_num Nat.eqb orb]; auto.
    + destruct (_ || _); [discriminate|]. injection SP as <-. cbn [isFound]. unfold mark. destruct a; cbn [lineCard existsb ceqb card_num Nat.eqb orb]; auto.
  - intros ->. cbn [special isFound] in SP. destruct (negb _); [discriminate|]. cbn [orb] in SP. destruct (mark _ _ XL) eqn:A; [|discriminate]. destruct (mark _ _ YL) eqn:B; [|discriminate].
    destruct (mark _ _ ZL) eqn:C; [|discriminate]. intros []; cbn [lineCard]; [exact A|exact B|exact C].
Qed.
(** what the other cards do *)
Lemma card_mesh df h h' c line rest u : handler df h c line rest = Some (h', u) ->
  (forall a, h_mesh h a <> None -> h_mesh h' a <> None) /\ (forall a, c = lineCard a \/ c = MS -> h_mesh h' a <> None) /\
  (c <> DM -> h_numLines h' = h_numLines h) /\ (c = DM -> h_mesh h' = h_mesh h) /\
  ((late c && negb (touching c)) || early c = true -> h_mesh h' = h_mesh h) /\
  ((forall a v, h_mesh h a = Some v -> alen v = h_numLines h a) -> c <> DM -> forall a v, h_mesh h' a = Some v -> alen v = h_numLines h a).
Proof.
  intros E. destruct (touching c) eqn:T.
  2:{ destruct (keeps_card _ _ _ _ _ _ _ T E) as (_ & M & N). rewrite M, N. split; [auto|]. split; [|auto 10]. intros a [-> | ->]; [destruct a|]; discriminate T. }
  assert (L : forall a, cardL a h rest = Some (h', u) -> c = lineCard a ->
    (forall b, h_mesh h b <> None -> h_mesh h' b <> None) /\ (forall b, c = lineCard b \/ c = MS -> h_mesh h' b <> None) /\
    (c <> DM -> h_numLines h' = h_numLines h) /\ (c = DM -> h_mesh h' = h_mesh h) /\
    ((late c && negb true) || early c = true -> h_mesh h' = h_mesh h) /\
    ((forall b v, h_mesh h b = Some v -> alen v = h_numLines h b) -> c <> DM -> forall b v, h_mesh h' b = Some v -> alen v = h_numLines h b)).
  { intros a C CA. unfold cardL in C. destruct (scanReals _ rest) as [[xs rest']|]; [|discriminate]. destruct (parseLines _ xs) as [arr|] eqn:P; [|discriminate]. injection C as <- _.
    cbn [setCtl h_mesh h_numLines]. unfold parseLines in P. destruct (_ <? _); [discriminate|]. injection P as <-.
    assert (EQ : forall b, axis_eqb b a = true -> b = a) by (intros b; destruct a, b; cbn; congruence).
    split. { intros b Q. destruct (axis_eqb b a); [discriminate|exact Q]. }
    split. { intros b [K|K]; [|subst c; destruct a; discriminate K]. subst c. destruct a, b; cbn [lineCard] in K; try discriminate K; cbn [axis_eqb]; discriminate. }
    split; [reflexivity|]. split; [intros Q; subst c; destruct a; discriminate Q|].
    split; [subst c; destruct a; cbn; discriminate|].
    intros Q _ b v. destruct (axis_eqb b a) eqn:K; [|apply Q]. intros V. injection V as <-. rewrite (EQ b K). reflexivity. }
  destruct c; try discriminate T; cbn [handler] in E; try (exact (L XDIR E eq_refl)); try (exact (L YDIR E eq_refl)); try (exact (L ZDIR E eq_refl)); clear L;
    match type of E with option_map _ ?x = _ => destruct x as [h1|] eqn:C; cbn [option_map] in E; [injection E as -> _|discriminate E] end.
  - unfold cardDM in C. tops; ended; cbn [h_mesh h_numLines];
    (split; [auto|split; [intros a [K|K]; [destruct a|]; discriminate K|split; [congruence|split; [auto|split; [auto|congruence]]]]]).
  - unfold cardMT in C. tops; ended; cbn [setMedia h_mesh h_numLines];
    (split; [auto|split; [intros a [K|K]; [destruct a|]; discriminate K|split; [auto|split; [auto|split; [auto|auto]]]]]).
  - unfold cardEX in C. tops; ended; (assert (MM : forall b : bool, forall x, h_mesh (if b then setMedia x (setExc (h_wfs h) l0 (h_pws h) (h_obs h) h) else setExc (h_wfs h) l0 (h_pws h) (h_obs h) h) = h_mesh h) by (intros [] x; reflexivity)) ||idtac.
    all: match goal with |- context [h_mesh (if ?b then ?x else ?y)] => assert (M1 : h_mesh (if b then x else y) = h_mesh h) by (destruct b; reflexivity);
          assert (N1 : h_numLines (if b then x else y) = h_numLines h) by (destruct b; reflexivity) end.
    all: rewrite M1, N1; (split; [auto|split; [intros a [K|K]; [destruct a|]; discriminate K|split; [auto|split; [auto|split; [auto|auto]]]]]).
  - unfold cardMS in C. destruct (parseMS _ _) as [xyz|] eqn:P; [|discriminate]. injection C as <-. cbn [setCtl h_mesh h_numLines].
    split; [discriminate|]. split; [discriminate|]. split; [auto|]. split; [discriminate|]. split; [discriminate|]. intros _ _ a v V. injection V as <-. exact (ms_len _ _ _ P a).
Qed.
Lemma card_media df h h' c line rest u : handler df h c line rest = Some (h', u) -> (2 <= List.length (h_media h))%nat -> good_media (h_media h) ->
  (2 <= List.length (h_media h'))%nat /\ good_media (h_media h').
Proof.
  intros E L G. destruct (touching c) eqn:T; [|destruct (keeps_card _ _ _ _ _ _ _ T E) as (M & _ & _); rewrite M; auto].
  assert (K : h_media h' = h_media h -> (2 <= List.length (h_media h'))%nat /\ good_media (h_media h')) by (intros ->; auto).
  assert (KL : forall a, cardL a h rest = Some (h', u) -> (2 <= List.length (h_media h'))%nat /\ good_media (h_media h')).
  { intros a C. apply K. unfold cardL in C. tops. injection C as <- _. reflexivity. }
  destruct c; try discriminate T; cbn [handler] in E; try (exact (KL _ E));
    match type of E with option_map _ ?x = _ => destruct x as [h1|] eqn:C; cbn [option_map] in E; [injection E as -> _|discriminate E] end.
  - unfold cardDM in C. tops; ended; apply K; reflexivity.
  - unfold cardMT in C. destruct (sscanf _ line) as [|[|?|name] [|[|?|ty] [|]]]; try discriminate. cbv zeta in C.
    destruct (parseMT _ _ _ _ _) as [reg|] eqn:P; [|discriminate]. injection C as <-. cbn [setMedia h_media]. apply parseMT_declare in P. destruct P as (p & _ & -> & P1 & _ & _ & P4).
    split; [rewrite app_length; lia|]. apply (good_add _ name p); auto.
  - unfold cardEX in C. destruct (box6 _) as [[b [|[|?|name] [|[|?|ty] [|[|?|wf] [|]]]]]|]; try discriminate. cbv zeta in C.
    destruct (parseEX _ _ _ _ _ _ _ _) as [l|]; [|discriminate]. injection C as <-.
    destruct (match findTag ty with Some t => isLumped (t_type t) | None => false end); cbn [setMedia setExc h_media]; [|auto].
    split; [unfold addItem; rewrite app_length; lia|]. apply good_add; [exact L|exact G| |reflexivity]. unfold paramOk. cbn [m_eps m_sigma m_mu]. lra.
  - unfold cardMS in C. tops; ended; apply K; reflexivity.
Qed.
Lemma card_cn df h h' c line rest u : handler df h c line rest = Some (h', u) -> h_cn h' = h_cn h \/ exists x, h_cn h' = Some x /\ (x < 1)%R.
Proof.
  intros E.
  assert (L : forall a, cardL a h rest = Some (h', u) -> h_cn h' = h_cn h).
  { intros a C. unfold cardL in C. tops. injection C as <- _. reflexivity. }
  destruct c; cbn [handler] in E; try (left; exact (L _ E)); try (injection E as <- _; left; reflexivity);
    match type of E with option_map _ ?x = _ => destruct x as [h1|] eqn:C; cbn [option_map] in E; [injection E as -> _|discriminate E] end.
  all: try (left; (unfold cardVM in C || unfold cardDM in C || unfold cardBR in C || unfold cardBE in C || unfold cardMT in C || unfold cardBT in C || unfold cardWT in C || unfold cardMB in C ||
    unfold cardTB in C || unfold cardTW in C || unfold cardWF in C || unfold cardPW in C || unfold cardOP in C || unfold cardNT in C || unfold cardOT in C || unfold cardOF in C || unfold cardMS in C);
    tops; ended; reflexivity).
  - left. unfold cardEX in C. tops; ended; match goal with |- h_cn (if ?b then _ else _) = _ => destruct b; reflexivity end.
  - right. unfold cardCN, parseCN in C. tops; ended. injection F2 as <-. cbn [setCtl h_cn]. exists r. split; [reflexivity|lra].
Qed.
Lemma touching_sec st c : checkCard st c = Acc tt -> (sectionNumber st <= 1)%nat -> touching c = true -> c = DM.
Proof.
  intros CK S T. destruct (section_cards st c CK) as (SC & _). destruct (sectionNumber st) as [|[|n]]; [subst c; discriminate T| |lia].
  cbn [In] in SC. destruct SC as [<-|[<-|[<-|[<-|[<-|[]]]]]]; first [reflexivity|discriminate T].
Qed.
Lemma dm_sec st : checkCard st DM = Acc tt -> (sectionNumber st <= 1)%nat.
Proof. intros CK. exact (early_sec st DM CK eq_refl). Qed.
Lemma Inv2_step df st h tr c arg rest st' h' used : Inv2 st h tr -> stepCard (handler df) st h c arg rest = Acc (st', h', used) -> Inv2 st' h' (tr ++ [c]).
Proof.
  intros [I1 I2 I3 I4 I5 I6 I7] E. destruct (found_step _ _ _ _ _ _ _ _ _ E) as (FS & FE).
  destruct (step_parts _ _ _ _ _ _ _ _ _ E) as (CK & HD & SN & _). clear E.
  assert (SM : (sectionNumber st' <= 1)%nat -> (sectionNumber st <= 1)%nat) by (rewrite SN; destruct (isEndOfSection c); lia).
  destruct HD as [(HF & HD)|(HF & ->)].
  - pose proof (card_media _ _ _ _ _ _ _ HD I1 I2) as (M1 & M2). pose proof (card_mesh _ _ _ _ _ _ _ HD) as (P1 & P2 & P3 & P4 & _ & P6). constructor; auto.
    + intros a v V. destruct (touching c) eqn:T.
      * assert (c = DM \/ c <> DM) as [->|N] by (destruct c; first [left; reflexivity|right; discriminate]).
        -- rewrite (P4 eq_refl), (I4 (dm_sec st CK)) in V. discriminate V.
        -- rewrite (P3 N). apply (P6 I3 N). exact V.
      * destruct (keeps_card _ _ _ _ _ _ _ T HD) as (_ & A & B). rewrite B. apply I3. rewrite <- A. exact V.
    + intros S a. destruct (touching c) eqn:T.
      * rewrite (touching_sec st c CK (SM S) T) in P4. rewrite P4 by reflexivity. apply I4; auto.
      * destruct (keeps_card _ _ _ _ _ _ _ T HD) as (_ & A & B). rewrite A. apply I4; auto.
    + intros a F. destruct (FS a F) as [F0|F0]; [apply P1; apply I5; exact F0|apply P2; tauto].
    + intros I a. apply in_app_iff in I. destruct I as [I|[->|[]]]; [apply P1; apply I6; exact I|discriminate HF].
    + intros x X. destruct (card_cn _ _ _ _ _ _ _ HD) as [Q|(y & Q & B)]; [apply I7; congruence|]. congruence.
  - constructor; auto.
    + intros a F. destruct (FS a F) as [F0|[F0|F0]]; [auto|subst c; destruct a; discriminate HF|subst c; discriminate HF].
    + intros I a. apply in_app_iff in I. destruct I as [I|[->|[]]]; [auto|]. apply I5. apply FE. reflexivity.
Qed.
Lemma read_inv2 df file st h tr : readMeshFile df file = Acc (st, h, tr) -> Inv2 st h tr.
Proof. intros E. eapply readLoop_inv; [exact (Inv2_step df)|exact Inv2_init|exact E]. Qed.

(** ** The coefficients after the set-up *)
Lemma simple_good dt p : (0 < dt)%R -> paramOk p -> m_type p = MT_SIMPLE -> m_poles p = [] -> good_coef dt (calcCoeffFromParam eps0 mu0 dt p).
Proof.
  intros DT P T Q. set (reg := (initMedReg ++ [mkItem ""%string p])%list).
  assert (G : good_media reg) by (apply (good_add initMedReg ""%string p); [cbn; lia|exact good_init|exact P|auto]).
  assert (ND : forall k it, getItem reg k = Some it -> m_type (idata it) <> MT_DEBYE).
  { intros [|[|[|k]]] it N; cbn in N; try (injection N as <-; cbn; discriminate).
    - injection N as <-. cbn [idata]. rewrite T. discriminate.
    - destruct k; discriminate N. }
  destruct (medium_ok reg dt 2 G DT ND) as (A & _ & B). change (initMedia eps0 mu0 dt reg 2) with (calcCoeffFromParam eps0 mu0 dt p) in *.
  split; [|exact B]. destruct A as [A|A]; [discriminate A|right; exact A].
Qed.
Lemma pec_good dt : (0 < dt)%R -> good_coef dt (initMedia eps0 mu0 dt [] 1) /\ cbeta (initMedia eps0 mu0 dt [] 1) = 0%R.
Proof.
  intros DT. destruct (medium_ok initMedReg dt 1 good_init DT) as (_ & Z & B).
  { intros [|[|k]] it N; cbn in N; try (injection N as <-; cbn; discriminate). destruct k; discriminate N. }
  change (initMedia eps0 mu0 dt initMedReg 1) with (initMedia eps0 mu0 dt [] 1) in *. split; [|apply Z; reflexivity]. split; [left; apply Z; reflexivity|exact B].
Qed.
Lemma load_medium c dt coef g n mask m : coefs_ok c dt m ->
  (forall f i j k, inl (gfolim c f) i j k -> yee_in f g (faceMask2boolArray mask) i j k -> good_coef dt (coef n) /\ (on_wall c f i j k -> is_E f = true -> cbeta (coef n) = 0%R)) ->
  coefs_ok c dt (run rArith (setMediumOnGrid coef g n mask) m).
Proof.
  intros CO G f i j k Hl. destruct (setMedium_getc rArith coef g n mask m f i j k) as (A & B). unfold getc, cval in A, B.
  destruct (yee_in_dec f g (faceMask2boolArray mask) i j k) as [Y|N].
  - destruct (G f i j k Hl Y) as (G1 & G2). exists (coef n). split; [exact G1|]. split; [exact G2|]. specialize (A Y). unfold alpha, beta, gamma.
    destruct (is_E f); injection A as A1 A2; auto.
  - destruct (CO f i j k Hl) as (co & G1 & G2 & V). exists co. split; [exact G1|]. split; [exact G2|]. specialize (B N). unfold alpha, beta, gamma in *.
    destruct (is_E f); injection B as B1 B2; [rewrite B1, B2|rewrite B1]; exact V.
Qed.
Lemma accum_ge0 f lo hi : (forall i, lo <= i <= hi -> (0 < f i)%R) -> (0 <= accum f lo hi)%R.
Proof.
  intros P. unfold accum. assert (X : forall l s, (0 <= s)%R -> (forall i, In i l -> (0 < f i)%R) -> (0 <= fold_left (fun s i => (s + f i)%R) l s)%R).
  { induction l as [|i l IH]; intros s S Q; cbn [fold_left]; [exact S|]. apply IH; [pose proof (Q i (or_introl eq_refl)); lra|intros; apply Q; right; auto]. }
  apply X; [lra|]. intros i I. apply P. apply in_zrange in I. exact I.
Qed.
Lemma accum_gt0 f lo hi : lo <= hi -> (forall i, lo <= i <= hi -> (0 < f i)%R) -> (0 < accum f lo hi)%R.
Proof.
  intros L P. unfold accum. assert (X : forall l s, (0 <= s)%R -> (forall i, In i l -> (0 < f i)%R) -> l <> [] -> (0 < fold_left (fun s i => (s + f i)%R) l s)%R).
  { induction l as [|i l IH]; intros s S Q N; [congruence|]. cbn [fold_left]. pose proof (Q i (or_introl eq_refl)). destruct l as [|x l]; [cbn; lra|].
    apply IH; [lra|intros; apply Q; right; auto|discriminate]. }
  apply X; [lra| |].
  - intros i I. apply P. apply in_zrange in I. exact I.
  - intros E. assert (I : In lo (zrange lo hi)) by (apply in_zrange; lia). rewrite E in I. destruct I.
Qed.
(** an accepted lumped source is a line of edges *)
Lemma line_box b : bboxType b = BB_LINE -> exists d, (forall a, a <> d -> b (face_lo a) = b (face_hi a)) /\ b (face_lo d) <> b (face_hi d).
Proof.
  unfold bboxType, bboxMask. destruct (Z.eqb_spec (b XLO) (b XHI)), (Z.eqb_spec (b YLO) (b YHI)), (Z.eqb_spec (b ZLO) (b ZHI)); cbn; try discriminate; intros _;
    [exists ZDIR|exists YDIR|exists XDIR]; (split; [intros []; cbn [face_lo face_hi]; congruence|cbn [face_lo face_hi]; auto]).
Qed.
Section Load.
Variables (nx ny nz : Z) (reg : BReg) (c : Cfg) (dt : R) (de dh : Axis -> Z -> R).
Hypothesis H : setupCfg nx ny nz reg = Some c.
Hypothesis PEC : forall f, outerSurfaceType c f = BT_PEC.
Hypothesis DT : (0 < dt)%R.
Hypothesis DE : forall a n, (0 <= n < numCells c a) -> (0 < de a n)%R /\ (0 < dh a n)%R.
Lemma load_ok s m : in_mesh_box c (s_mbbox s) -> (isLumped (t_type (s_tag s)) = true -> bboxType (s_mbbox s) = BB_LINE /\
    forall a, s_mbbox s (face_lo a) = s_mbbox s (face_hi a) -> 0 < s_mbbox s (face_lo a) < numLines c a - 1) ->
  coefs_ok c dt m ->
  coefs_ok c dt (run rArith (let g := offsetBoundingBox (s_mbbox s) (gibox c) in let '(_, _, ld) := convert de dh g s in loadProg eps0 mu0 dt g ld) m).
Proof.
  intros IM LU CO. pose proof (setup_wf _ _ _ _ _ H) as W. set (g := offsetBoundingBox (s_mbbox s) (gibox c)). cbv zeta.
  assert (GB : forall a, g (face_lo a) = s_mbbox s (face_lo a) + gibox c (face_lo a) /\ g (face_hi a) = s_mbbox s (face_hi a) + gibox c (face_lo a)) by (intros []; split; reflexivity).
  assert (GG : forall f, gibox c f = gobox c f).
  { intros; apply gibox_gobox; auto. }
  assert (RN : forall a, 0 <= g (face_lo a) /\ g (face_hi a) < numCells c a /\ gibox c (face_hi a) = gibox c (face_lo a) + numLines c a - 1).
  { intros a. destruct (GB a) as (-> & ->). pose proof (IM a). cfg_facts c W. destruct a; cbn [face_lo face_hi] in *; unfold NUM_GHOST_CELLS in *; lia. }
  assert (OFF : isLumped (t_type (s_tag s)) = true -> forall f i j k, yee_in f g (faceMask2boolArray FACE_MASK_ALL) i j k -> is_E f = true -> ~ on_wall c f i j k).
  { intros L f i j k Y E O. destruct (LU L) as (BT & IN). destruct (line_box _ BT) as (d & DD & ND).
    assert (X : exists a, fld_axis f <> a /\ (SpecGeom.coord i j k a = gobox c (face_lo a) \/ SpecGeom.coord i j k a = gobox c (face_hi a))).
    { destruct O as [O|[O|O]]; [exists XDIR|exists YDIR|exists ZDIR]; exact O. }
    destruct X as (a & NA & CW). rewrite <- !GG in CW. destruct (RN a) as (_ & _ & HI).
    assert (AD : a = d \/ a <> d) by (destruct a, d; first [left; reflexivity|right; discriminate]).
    destruct AD as [->|AD].
    - specialize (Y (fld_axis f)). cbv zeta in Y. destruct Y as (Y & _). unfold ypos, staggered in Y. rewrite E in Y. assert (axis_eqb (fld_axis f) (fld_axis f) = true) as Q by (destruct f; reflexivity). rewrite Q in Y.
      destruct (GB (fld_axis f)) as (E1 & E2). pose proof (DD _ NA). lia.
    - specialize (Y a). cbv zeta in Y. destruct Y as (Y & _). unfold ypos, staggered in Y. rewrite E in Y. assert (axis_eqb (fld_axis f) a = false) as Q by (destruct f, a; first [reflexivity|exfalso; apply NA; reflexivity]). rewrite Q in Y.
      destruct (GB a) as (E1 & E2). pose proof (DD _ AD). pose proof (IN a (DD _ AD)). lia. }
  assert (LUMP : forall V0, isLumped (t_type (s_tag s)) = true -> coefs_ok c dt (run rArith (let '(_, _, ld) :=
     (if Rlt_dec MIN_RESISTANCE (s_resist s)
      then (ST_ELEC_CURR_DENSITY, V0 / elecArea dh g (t_pol (s_tag s)) / s_resist s, Resistive (elecLength de g (t_pol (s_tag s)) / (elecArea dh g (t_pol (s_tag s)) * s_resist s)))
      else (ST_EFIELD, - (1 / 2) * V0 / elecLength de g (t_pol (s_tag s)), Short))%R in loadProg eps0 mu0 dt g ld) m)).
  { intros V0 L. destruct (Rlt_dec MIN_RESISTANCE (s_resist s)) as [RR|RR]; cbn [loadProg].
    - apply load_medium; [exact CO|]. intros f i j k Hl Y. split; [|intros O E; exfalso; exact (OFF L f i j k Y E O)].
      assert (OR : forall a, g (face_lo a) <= g (face_hi a)) by (intros a; specialize (Y a); cbv zeta in Y; lia).
      assert (LE : (0 <= elecLength de g (t_pol (s_tag s)))%R). { apply accum_ge0. intros n Hn. apply DE. destruct (RN (t_pol (s_tag s))). lia. }
      assert (SD : forall a, a <> t_pol (s_tag s) -> (0 < elecSide dh g (t_pol (s_tag s)) a)%R).
      { intros a NA. unfold elecSide. assert (axis_eqb a (t_pol (s_tag s)) = false) as -> by (destruct a, (t_pol (s_tag s)); first [reflexivity|exfalso; apply NA; reflexivity]).
        apply accum_gt0; [apply OR|]. intros n Hn. apply DE. destruct (RN a). lia. }
      assert (AR : (0 < elecArea dh g (t_pol (s_tag s)))%R). { apply Rmult_lt_0_compat; apply SD; destruct (t_pol (s_tag s)); discriminate. }
      assert (RP : (0 < s_resist s)%R) by (unfold MIN_RESISTANCE in RR; lra).
      apply simple_good; [exact DT| |reflexivity|reflexivity]. unfold paramOk. cbn [m_eps m_sigma m_mu].
      assert (0 <= elecLength de g (t_pol (s_tag s)) / (elecArea dh g (t_pol (s_tag s)) * s_resist s))%R; [|lra].
      apply Rmult_le_pos; [exact LE|]. apply Rlt_le, Rinv_0_lt_compat. apply Rmult_lt_0_compat; lra.
    - apply load_medium; [exact CO|]. intros f i j k Hl Y. destruct (pec_good dt DT) as (A & B). split; [exact A|]. intros _ _. exact B. }
  unfold convert. destruct (t_type (s_tag s)) eqn:T; first [exact CO|exact (LUMP _ eq_refl)].
Qed.
End Load.
Lemma edges_pos nx ny nz reg c lines garbage cn e dt : setupCfg nx ny nz reg = Some c -> has_lines c lines -> increasing c lines -> initCellEdges c lines garbage cn = Some (e, dt) ->
  forall a n, (0 <= n < numCells c a) -> (0 < adat (eDe (e a)) n)%R /\ (0 < adat (eDh (e a)) n)%R.
Proof.
  intros H HL IN HE a n Hn. destruct (C23_edge_lengths nx ny nz reg c H lines garbage cn HL) as (e2 & dt2 & E2 & CE). rewrite HE in E2. injection E2 as <- <-.
  destruct (CE a) as (_ & _ & _ & _ & _ & PP & _). destruct (PP IN n Hn) as (A & B & _). auto.
Qed.

(** ** The file *)
Lemma read_scene df file st h tr c : readMeshFile df file = Acc (st, h, tr) -> cfgFor h = Some c -> scene_ok c (sceneOf h).
Proof.
  intros E C. pose proof (cfg_box _ _ _ _ _ _ E C) as MB. destruct (read_inv _ _ _ _ _ E) as [_ _ I _ _ _ _].
  pose proof I as [A1 A2 A3 _ _ _]. unfold ok_block, ok_line, ok_surf in *. rewrite <- MB in *. rewrite Forall_forall in *.
  destruct (C03_accepted_box_partial c) as (P1 & P2 & P3). split; [|split].
  - intros b IB. destruct (A1 b IB) as (reg0 & r & name & mask & _ & NE & P). pose proof (C03_MB_card _ (meshBox c) reg0 (bbox_b b) name mask NE) as T. rewrite P in T.
    split; [|apply T]. apply (P1 _ _ _ _ _ _ P).
  - intros l IB. destruct (A2 l IB) as (reg0 & r & name & _ & P). apply (P2 _ _ _ _ _ P).
  - intros s IB. apply in_map_iff in IB. destruct IB as ([s' a] & <- & IB). destruct (A3 _ IB) as (reg0 & r & name & o & _ & P). apply (P3 _ _ _ _ _ _ _ P).
Qed.
Lemma read_srcs df file st h tr c : readMeshFile df file = Acc (st, h, tr) -> cfgFor h = Some c -> forall s, In s (h_srcs h) ->
  in_mesh_box c (s_mbbox s) /\ (isLumped (t_type (s_tag s)) = true -> bboxType (s_mbbox s) = BB_LINE).
Proof.
  intros E C s IS. pose proof (cfg_box _ _ _ _ _ _ E C) as MB. destruct (read_inv _ _ _ _ _ E) as [_ _ I _ _ _ _]. pose proof (io_src _ I) as A. rewrite Forall_forall in A.
  destruct (A s IS) as (w0 & r & l & name & ty & wf & args & _ & P). rewrite <- MB in P. unfold parseEX in P.
  destruct (isSource l name); [discriminate|]. destruct (findTag ty) as [t|]; [|discriminate]. destruct (negb (bboxIsNormal _)) eqn:B1; [discriminate|].
  destruct (negb (bboxIsWithin _ _)) eqn:B2; [discriminate|]. split.
  - intros a. destruct (box_checks _ _ B1 B2) as (_ & X). specialize (X a). destruct a; cbn [face_lo face_hi meshBox is_lo face_axis] in X |- *; lia.
  - intros L. destruct (isLumped (t_type t)) eqn:LT.
    + destruct (bboxType (s_mbbox s)); try discriminate P. reflexivity.
    + destruct (negb (isWaveform _ _)); [discriminate|]. injection P as P. apply app_inj_tail in P. destruct P as (_ & P). rewrite <- P in L. cbn [s_tag] in L. congruence.
Qed.
(** The whole set-up of the update coefficients, with the loads of the lumped
    sources, stays inside its arrays. *)
Theorem C68_set_up_in_bounds : forall debyeFile file st h cards c, readMeshFile debyeFile file = Acc (st, h, cards) -> cfgFor h = Some c ->
  forall e0 u0 dt de dh (m : mem R), runO rArith (dims c) (coefProg c h e0 u0 dt de dh) m = Some (run rArith (coefProg c h e0 u0 dt de dh) m).
Proof.
  intros df file st h tr c E C e0 u0 dt de dh m. pose proof (read_scene _ _ _ _ _ _ E C) as SO. pose proof (read_srcs _ _ _ _ _ _ E C) as RS. unfold cfgFor in C. apply setup_wf in C.
  apply runO_some. intros s I. unfold coefProg in I. apply in_app_iff in I. destruct I as [I|I]; [eapply mediaProg_inb; eauto|].
  unfold loadsOf in I. apply in_flat_map in I. destruct I as (x & IX & I). cbv zeta in I. destruct (convert de dh _ x) as [[ty size] ld]. destruct (RS x IX) as (IM & _).
  destruct ld as [|sigma|]; cbn [loadProg] in I; [destruct I|..]; (eapply setMedium_inb; [exact C|apply fits_mesh; [exact C|exact IM]|exact I]).
Qed.
Lemma loads_ok nx ny nz reg c dt de dh : setupCfg nx ny nz reg = Some c -> (forall f, outerSurfaceType c f = BT_PEC) -> (0 < dt)%R ->
  (forall a n, (0 <= n < numCells c a) -> (0 < de a n)%R /\ (0 < dh a n)%R) ->
  forall srcs, (forall s, In s srcs -> in_mesh_box c (s_mbbox s) /\ (isLumped (t_type (s_tag s)) = true -> bboxType (s_mbbox s) = BB_LINE /\
    forall a, s_mbbox s (face_lo a) = s_mbbox s (face_hi a) -> 0 < s_mbbox s (face_lo a) < numLines c a - 1)) -> forall m, coefs_ok c dt m ->
  coefs_ok c dt (run rArith (flat_map (fun s => let g := offsetBoundingBox (s_mbbox s) (gibox c) in let '(_, _, ld) := convert de dh g s in loadProg eps0 mu0 dt g ld) srcs) m).
Proof.
  intros H PEC DT DE. induction srcs as [|s srcs IH]; intros HS m CO; [exact CO|]. cbn [flat_map]. rewrite run_app. apply IH; [intros; apply HS; right; auto|].
  destruct (HS s (or_introl eq_refl)) as (A & B). exact (load_ok nx ny nz reg c dt de dh H PEC DT DE s m A B CO).
Qed.
Lemma coefs_ext c dt m m' : (forall l, coefficient l -> m' l = m l) -> coefs_ok c dt m -> coefs_ok c dt m'.
Proof.
  intros E CO f i j k Hl. destruct (CO f i j k Hl) as (co & G1 & G2 & V). exists co. split; [exact G1|]. split; [exact G2|]. unfold alpha, beta, gamma in *.
  rewrite !E by exact I. exact V.
Qed.

(** Every accepted file that reaches its EN card has all its mesh lines and, if
    its grid can be set up, gives cell sizes and a time step. *)
Theorem C70_mesh_complete : forall debyeFile file st h cards c, readMeshFile debyeFile file = Acc (st, h, cards) -> In EN cards -> cfgFor h = Some c ->
  exists lines cn, (forall a, h_mesh h a = Some (lines a)) /\ has_lines c lines /\ courantOf (h_cn h) = Some cn /\ (cn < 1)%R /\
  forall garbage, exists e dt, initCellEdges c lines garbage cn = Some (e, dt).
Proof.
  intros df file st h tr c E EN C. destruct (read_inv2 _ _ _ _ _ E) as [_ _ I3 _ _ I6 I7]. destruct (read_inv _ _ _ _ _ E) as [_ D _ _ _ _ _].
  assert (X : exists lines, forall a, h_mesh h a = Some (lines a)).
  { pose proof (I6 EN XDIR) as X. pose proof (I6 EN YDIR) as Y. pose proof (I6 EN ZDIR) as Z. destruct (h_mesh h XDIR) as [x|] eqn:EX; [|congruence]. destruct (h_mesh h YDIR) as [y|] eqn:EY; [|congruence].
    destruct (h_mesh h ZDIR) as [z|] eqn:EZ; [|congruence]. exists (fun a => match a with XDIR => x | YDIR => y | ZDIR => z end). intros []; assumption. }
  destruct X as (lines & HM).
  assert (HL : has_lines c lines).
  { intros a. rewrite (I3 a _ (HM a)). unfold cfgFor in C. destruct D as [D|D]; [rewrite !D in C; discriminate C|].
    unfold setupCfg in C. rewrite D in C. destruct (initExternalSurfaceParameters _) as [[reg' num]|]; [|discriminate]. injection C as <-. reflexivity. }
  assert (CN : exists cn, courantOf (h_cn h) = Some cn /\ (cn < 1)%R).
  { unfold courantOf. destruct (h_cn h) as [x|] eqn:X.
    - exists x. pose proof (I7 x eq_refl). unfold parseCN. destruct (Rge_dec x 1); [lra|]. auto.
    - exists (initSimulation (-1)). split; [reflexivity|]. unfold initSimulation. destruct (Rlt_dec (-1) 0); [|lra].
      pose proof (sqrt_lt_1 3 4). replace (sqrt 4) with 2%R in *; [lra|]. symmetry. apply sqrt_lem_1; lra. }
  destruct CN as (cn & CN & CB). exists lines, cn. split; [exact HM|]. split; [exact HL|]. split; [exact CN|]. split; [exact CB|].
  intros garbage. destruct (C23_edge_lengths _ _ _ _ c C lines garbage cn HL) as (e & dt & EE & _). eauto.
Qed.
Lemma run_id (ss : list (stmt R)) : (forall s, In s ss -> forall m, eval rArith m (rhs s) = m (dst s)) -> forall m, run rArith ss m = m.
Proof.
  induction ss as [|s ss IH]; intros S m; [reflexivity|]. cbn [run fold_left]. change (fold_left (run1 rArith) ss ?x) with (run rArith ss x).
  assert (E : run1 rArith m s = m).
  { apply functional_extensionality. intros l. unfold run1, upd. destruct (loc_dec l (dst s)) as [->|]; [apply S; left; reflexivity|reflexivity]. }
  rewrite E. apply IH. intros; apply S; right; auto.
Qed.
Lemma src_silent electric c de dh s w m : t_soft (s_tag s) = true -> w = 0%R -> run rArith (src electric (actOf c de dh s w)) m = m.
Proof.
  intros SF ->. apply run_id. intros x IX m'. unfold actOf in IX. destruct (convert de dh _ s) as [[ty size] ld]. rewrite SF, Rmult_0_r in IX. unfold src, srcE, srcH in IX.
  destruct electric; cbn [a_type a_field a_lim a_soft a_val] in IX; destruct ty; try contradiction; destruct (is_E _); try contradiction;
    apply in_nestS in IX; destruct IX as (i & j & k & _ & [<-|[]]); cbn; ring.
Qed.
Lemma srcs_silent electric c de dh w l : (forall s, In s l -> t_soft (s_tag s) = true) -> (forall s, w s = 0%R) ->
  forall m, run rArith (flat_map (src electric) (map (fun s => actOf c de dh s (w s)) l)) m = m.
Proof.
  intros SS Z. induction l as [|x l IH]; intros m; [reflexivity|]. cbn [map flat_map]. rewrite run_app, src_silent by (first [apply SS; left; reflexivity|apply Z]).
  apply IH. intros; apply SS; right; auto.
Qed.
Lemma silent_run c h rcm ep dt de dh d t0 : plain_media h -> no_sheets h -> soft_sources h -> silent d t0 -> forall n t s, (t0 <= t)%nat ->
  w_m (wrun c (progOf c h rcm ep dt de dh) d t n s) = after c n (w_m s).
Proof.
  intros PM NS (NP & SS) SI n t s T.
  assert (B0 : g_blocks (progOf c h rcm ep dt de dh) = []).
  { cbn [progOf g_blocks]. unfold initDebyeBlocks. induction (h_blocks h) as [|b bs IH]; [reflexivity|]. cbn [flat_map]. rewrite IH.
    assert (M : fst (medOf h (medium_b b)) <> MT_DEBYE). { unfold medOf. destruct (nth_error (h_media h) (medium_b b)) as [it|] eqn:N; [exact (PM _ _ N)|discriminate]. }
    destruct (medOf h (medium_b b)) as [[] ps]; cbn [fst] in M; try reflexivity. congruence. }
  assert (S0 : g_sheets (progOf c h rcm ep dt de dh) = []).
  { cbn [progOf g_sheets]. assert (Q : sheetsOf c h rcm = []); [|rewrite Q; reflexivity]. unfold sheetsOf. unfold no_sheets in NS. induction (h_surfs h) as [|[sf a] l IH]; [reflexivity|].
    cbn [flat_map]. rewrite IH by (intros; apply NS; right; auto). specialize (NS (sf, a) (or_introl eq_refl)). cbn [fst] in NS. destruct (boundOf h (boundary_s sf)); try reflexivity. congruence. }
  rewrite (C64_plain_run c _ d B0 S0). clear B0 S0. cbn [progOf g_de g_dh g_srcs g_pws]. rewrite NP. generalize (w_m s). clear s.
  assert (XE : forall t m, (t0 <= t)%nat -> run rArith (flat (exciteE c de dh (h_srcs h) (d_wE d) [] (d_iE d) t)) m = m).
  { intros t' m T'. unfold exciteE, srcRunE. cbn [flat_map]. rewrite app_nil_r, flat_srcE. apply srcs_silent; [exact SS|]. intros x. apply SI. exact T'. }
  assert (XH : forall t m, (t0 <= t)%nat -> run rArith (flat (exciteH c de dh (h_srcs h) (d_wH d) [] (d_iH d) t)) m = m).
  { intros t' m T'. unfold exciteH, srcRunH. cbn [flat_map]. rewrite app_nil_r, flat_srcH. apply srcs_silent; [exact SS|]. intros x. apply SI. exact T'. }
  revert t T. induction n as [|n IH]; intros t T m; [reflexivity|]. rewrite after_S. cbn [steps]. rewrite flat_app, run_app. rewrite IH by lia. f_equal.
  unfold coreStep, Step.timeStep. rewrite !flat_app, !run_app, XE, XH by exact T. reflexivity.
Qed.

(** C70: for every accepted mesh file with perfectly conducting walls, increasing
    mesh lines and a positive Courant number, without DEBYE media, impedance
    surfaces and plane waves, with soft sources and no lumped source in a wall:
    once the sources are silent, whatever the fields are then, the energy never
    exceeds (1+CN)/(1-CN) times its value at that time, and every field value
    stays bounded, for any number of steps of the complete time loop. *)
Theorem C70_stable_file : forall debyeFile file st h cards c, readMeshFile debyeFile file = Acc (st, h, cards) -> cfgFor h = Some c ->
  (forall f, outerSurfaceType c f = BT_PEC) -> plain_media h -> no_sheets h -> soft_sources h -> loads_inside h ->
  forall lines cn garbage e dt, (forall a, h_mesh h a = Some (lines a)) -> increasing c lines -> courantOf (h_cn h) = Some cn -> (0 < cn)%R ->
  initCellEdges c lines garbage cn = Some (e, dt) ->
  forall rcm ep ts de dh d t s, silent d t -> set_up c h e dt (w_m s) -> clear_conductors c (w_m s) ->
  (cn < 1)%R /\
  (forall n, fieldEnergy c (w_m (wrun c (progOf c h rcm ep ts de dh) d t n s)) <= (1 + cn) / (1 - cn) * fieldEnergy c (w_m s))%R /\
  (forall f i j k, inl (gfolim c f) i j k -> exists B, forall n, (Rabs (fld (w_m (wrun c (progOf c h rcm ep ts de dh) d t n s)) f i j k) <= B)%R).
Proof.
  intros df file st h tr c E C PEC PM NS SS LI lines cn garbage e dt HM IN CN PC HE rcm ep ts de dh d t s SI (ED & m0 & MC) CC.
  pose proof C as C'. unfold cfgFor in C'. pose proof (read_scene _ _ _ _ _ _ E C) as SO. pose proof (read_srcs _ _ _ _ _ _ E C) as RS. pose proof (cfg_box _ _ _ _ _ _ E C) as MB.
  destruct (read_inv2 _ _ _ _ _ E) as [_ GM I3 _ _ _ _]. destruct (read_inv _ _ _ _ _ E) as [_ D _ _ _ _ _].
  assert (HL : has_lines c lines).
  { intros a. rewrite (I3 a _ (HM a)). destruct D as [D|D]; [rewrite !D in C'; discriminate C'|].
    unfold setupCfg in C'. rewrite D in C'. destruct (initExternalSurfaceParameters _) as [[reg' num]|]; [|discriminate]. injection C' as <-. reflexivity. }
  destruct (stable_coefs _ _ _ _ c C' PEC lines garbage (h_cn h) cn e dt HL IN CN PC HE) as (DT & ST).
  pose proof (fun n => silent_run c h rcm ep ts de dh d t PM NS SS SI n t s (Nat.le_refl t)) as SR.
  assert (CO : coefs_ok c dt (w_m s)).
  { apply (coefs_ext _ _ _ _ MC). unfold coefProg. rewrite run_app. apply (loads_ok _ _ _ _ c dt _ _ C' PEC DT).
    - exact (edges_pos _ _ _ _ c lines garbage cn e dt C' HL IN HE).
    - intros x IX. destruct (RS x IX) as (A & B). split; [exact A|]. intros L. split; [exact (B L)|]. intros a EQ. pose proof (LI x IX L a EQ) as X. rewrite <- MB in X.
      unfold meshBox in X. destruct a; cbn [face_lo face_hi is_lo face_axis] in *; lia.
    - apply (media_coefs _ _ _ _ c C' PEC (h_media h) (sceneOf h) SO (wireOf h) (boundOf h) dt m0 _ (fun l _ => eq_refl) GM DT). exact PM. }
  destruct (ST (w_m s) CO ED CC) as (A & B & F). split; [exact A|]. split.
  - intros n. rewrite SR. apply B.
  - intros f i j k Hl. destruct (F f i j k Hl) as (K & FK). exists K. intros n. rewrite SR. apply FK.
Qed.

(** The hypotheses of [C70_stable_file] are met by a file with a block of metal, a
    loaded source and unequal cells, in a state with a non-zero field. *)
Definition demo70 : list Z := chars "VM 0.7.0
DM 2 2 2
BR -1 -1 -1 -1 -1 -1
GS
MT metal PEC
MB 0 1 0 2 0 1 metal
WF w GAUSSIAN_PULSE
EX 1 1 1 1 1 2 src VRZ w 50
GE
NT 100
XL
0 1 4 YL
0 1 4 ZL
0 1 4 EN
"%string.
Definition run70 := readMeshFile (fun _ => None) demo70.
Definition h70 : MeshData := match run70 with Acc (_, h, _) => h | _ => mesh0 end.
Definition lines70 (a : Axis) : carr R := match h_mesh h70 a with Some v => v | None => mkArr 0 (fun _ => 0%R) end.
Example C70_nonvacuous : exists st cards c, readMeshFile (fun _ => None) demo70 = Acc (st, h70, cards) /\ In EN cards /\ cfgFor h70 = Some c /\
  (forall f, outerSurfaceType c f = BT_PEC) /\ plain_media h70 /\ no_sheets h70 /\ soft_sources h70 /\ loads_inside h70 /\
  (forall a, h_mesh h70 a = Some (lines70 a)) /\ increasing c lines70 /\
  exists cn e dt d s, courantOf (h_cn h70) = Some cn /\ (0 < cn)%R /\ initCellEdges c lines70 (fun _ => 0%R) cn = Some (e, dt) /\ silent d 0 /\
  set_up c h70 e dt (w_m s) /\ clear_conductors c (w_m s) /\ inl (gfolim c HZ) 1 1 1 /\ fld (w_m s) HZ 1 1 1 = 1%R /\
  exists x, In x (h_srcs h70) /\ isLumped (t_type (s_tag x)) = true.
Proof.
  do 3 eexists. split; [vm_compute; reflexivity|]. split; [cbn; tauto|]. split; [vm_compute; reflexivity|]. match goal with |- context [increasing ?x _] => set (c := x) end.
  split; [intros []; reflexivity|].
  split. { intros [|[|[|[|n]]]] it N; vm_compute in N; try (injection N as <-; cbn; discriminate). destruct n; discriminate N. }
  split. { intros s I. vm_compute in I. destruct I. }
  split. { split; [vm_compute; reflexivity|]. intros s I. vm_compute in I. destruct I as [<-|[]]. reflexivity. }
  split. { intros s I _ a E. vm_compute in I. destruct I as [<-|[]]. destruct a; vm_compute in E |- *; first [discriminate E|split; reflexivity]. }
  split. { intros []; vm_compute; reflexivity. }
  assert (IN : increasing c lines70).
  { intros a i Hi. assert (i = 0 \/ i = 1) as D. { assert (numLines c a = 3) as X by (destruct a; vm_compute; reflexivity). rewrite X in Hi. lia. }
    unfold line. destruct D as [-> | ->]; destruct a; vm_compute; lra. }
  split; [exact IN|].
  assert (C : cfgFor h70 = Some c) by (vm_compute; reflexivity). unfold cfgFor in C.
  assert (HL : has_lines c lines70) by (intros []; vm_compute; reflexivity).
  destruct (C23_edge_lengths _ _ _ _ c C lines70 (fun _ => 0%R) (initSimulation (-1)) HL) as (e & dt & EE & _).
  destruct (c62_mem c e (run rArith (coefProg c h70 eps0 mu0 dt (fun a n => adat (eDe (e a)) n) (fun a n => adat (eDh (e a)) n)) (fun _ => 0%R))) as (m & M1 & M2 & M3 & M4).
  exists (initSimulation (-1)), e, dt, (mkDrv (fun _ _ => 0%R) (fun _ _ => 0%R) (fun _ _ _ _ _ _ => 0%R) (fun _ _ _ _ _ _ => 0%R)), (mkW m (fun _ _ _ _ _ => []) (fun _ _ _ _ _ => 0%R) (fun _ _ _ _ => states0 (fun _ _ => Filter.mkRC 0 [])) (fun _ _ _ _ => mkV 0 0 0 0)).
  split; [vm_compute; reflexivity|]. split. { unfold initSimulation. destruct (Rlt_dec (-1) 0); [|lra]. pose proof (sqrt_lt_R0 3). lra. }
  split; [exact EE|]. split; [intros t s _; split; reflexivity|]. cbn [w_m]. split; [split; [exact M2|exists (fun _ => 0%R); exact M1]|]. split; [exact M3|].
  split; [vm_compute; intuition discriminate|]. split; [apply M4; left; reflexivity|]. eexists. split; [vm_compute; left; reflexivity|reflexivity].
Qed.
