(** C68, C69: every mesh file the reader accepts. *)
From Coq Require Import ZArith List Bool Ascii String Reals Lia Lra FunctionalExtensionality.
From Verif Require Import Types CArr CStr Sim Scan Lang LangProofs BBox BBoxProofs Grid Setup SetupProofs PmlProfile Media Medium Waveform Source PlaneWave PmlProfileProofs Observer Edges
  SpecText Mesh SpecGeom SpecCards P_Cards P_Geometry P_PwVectors Front SpecFront.
Import ListNotations.
Open Scope Z_scope.

(** ** Invariants of the reading loop *)
Section Loop.
Context {H : Type} (hdl : H -> Card -> list Z -> list Z -> option (H * nat)).
Lemma step_parts st h c arg rest st' h' used : stepCard hdl st h c arg rest = Acc (st', h', used) ->
  checkCard st c = Acc tt /\ ((hasFunc c = true /\ hdl h c arg rest = Some (h', used)) \/ (hasFunc c = false /\ h' = h)) /\
  sectionNumber st' = (if isEndOfSection c then S (sectionNumber st) else sectionNumber st) /\
  (foundSource st' = true -> foundSource st = true \/ c = Mesh.EX \/ c = Mesh.PW) /\ (c = GE -> foundSource st = true) /\
  (isFound st' BR = false -> isFound st BR = false /\ c <> BR) /\ (foundSource st = true \/ c = Mesh.EX \/ c = Mesh.PW -> foundSource st' = true).
Proof.
  unfold stepCard. destruct (checkCard st c) as [[]| |] eqn:CK; cbn [obnd]; [|discriminate|discriminate]. intros E.
  split; [reflexivity|].
  assert (X : exists h1 u1, (if hasFunc c then match hdl h c arg rest with Some r => Acc r | None => Rej end else Acc (h, O)) = Acc (h1, u1) /\
    obnd (special (mkM (sectionNumber st) (mark (isFound st) [c]) (foundSource st) (foundOutput st)) c) (fun st => obnd (endSection st c) (fun st => Acc (st, h1, u1))) = Acc (st', h', used)).
  { destruct (if hasFunc c then _ else _) as [[h1 u1]| |]; cbn [obnd] in E; try discriminate. eauto. }
  destruct X as (h1 & u1 & X & Y). clear E.
  destruct (special _ c) as [st2| |] eqn:SP; cbn [obnd] in Y; try discriminate.
  destruct (endSection st2 c) as [st3| |] eqn:ES; cbn [obnd] in Y; try discriminate. injection Y as <- <- <-.
  split.
  { destruct (hasFunc c); [left|right]; split; auto.
    - destruct (hdl h c arg rest); [injection X as ->; reflexivity|discriminate].
    - injection X as <- _. reflexivity. }
  assert (MK : forall f l, mark (mark f [c]) l BR = false -> f BR = false /\ c <> BR).
  { intros f l. unfold mark. destruct (existsb (ceqb BR) l); [discriminate|]. destruct (existsb (ceqb BR) [c]) eqn:Q; [discriminate|].
    intros F. split; [exact F|]. intros ->. discriminate Q. }
  assert (S2 : sectionNumber st2 = sectionNumber st /\ (foundSource st2 = true -> foundSource st = true \/ c = Mesh.EX \/ c = Mesh.PW) /\ (c = GE -> foundSource st = true) /\
    (isFound st2 BR = false -> isFound st BR = false /\ c <> BR) /\ (foundSource st = true \/ c = Mesh.EX \/ c = Mesh.PW -> foundSource st2 = true)).
  { pose proof (MK (isFound st) []) as M0. change (mark (mark (isFound st) [c]) []) with (mark (isFound st) [c]) in M0.
    destruct c; cbn [special sectionNumber isFound foundSource foundOutput] in SP; try (injection SP as <-; cbn [sectionNumber foundSource isFound]; split; [reflexivity|split; [auto|split; [discriminate|split; [first [exact M0|apply MK]|intros [X0|[X0|X0]]; first [exact X0|discriminate|reflexivity]]]]]).
    - destruct (foundSource st) eqn:F; cbn in SP; [|discriminate]. injection SP as <-. cbn [sectionNumber foundSource isFound]. split; [reflexivity|split; [auto|split; [auto|split; [exact M0|auto]]]].
    - destruct (_ || _); [discriminate|]. injection SP as <-. cbn [sectionNumber foundSource isFound]. split; [reflexivity|]. split; [auto|split; [discriminate|split; [exact M0|]]].
      intros [X0|[X0|X0]]; first [exact X0|discriminate]. }
  destruct S2 as (S2 & S3 & S4 & S5 & S6). unfold endSection in ES. destruct (isEndOfSection c).
  - destruct (nth_error sectionLimits (sectionNumber st2)) as [[a b]|]; [|discriminate]. destruct (existsb _ _); [discriminate|]. injection ES as <-.
    cbn [sectionNumber foundSource isFound]. rewrite S2. auto 10.
  - injection ES as <-. auto 10.
Qed.
Variable Inv : MState -> H -> list Card -> Prop.
Hypothesis step_ok : forall st h tr c arg rest st' h' used, Inv st h tr -> stepCard hdl st h c arg rest = Acc (st', h', used) -> Inv st' h' (tr ++ [c]).
Lemma readLoop_inv n : forall file st h tr st' h' tr', Inv st h tr -> readLoop hdl n file st h tr = Acc (st', h', tr') -> Inv st' h' tr'.
Proof.
  induction n as [|n IH]; intros file st h tr st' h' tr' I E.
  - destruct file; cbn in E; [|discriminate]. injection E as <- <- <-. exact I.
  - destruct file as [|x file]; [cbn in E; injection E as <- <- <-; exact I|]. cbn [readLoop] in E.
    destruct (fgets (BUFFER_LENGTH - 2) (x :: file)) as [raw rest].
    destruct (obind (removeComments (lineBuffer raw)) strtrim) as [b|]; [|discriminate].
    destruct (Z.of_nat (List.length (cstr b)) =? 0); [exact (IH _ _ _ _ _ _ _ I E)|].
    destruct (getCardType (cstr b)) as [c|]; [|discriminate].
    destruct (stepCard hdl st h c (skipn 2 (cstr b)) rest) as [[[st1 h1] used]| |] eqn:ST; cbn [obnd] in E; try discriminate.
    eapply IH; [|exact E]. eapply step_ok; eauto.
Qed.
End Loop.
Lemma section_cards st c : checkCard st c = Acc tt ->
  match sectionNumber st with
  | O => c = VM
  | 1%nat => In c [CE; DM; BR; BE; GS]
  | 2%nat => In c [MT; BT; WT; MB; TB; TW; WF; Mesh.EX; Mesh.PW; OP; FF; GE]
  | 3%nat => In c [NT; OT; OF; CN; MS; XL; YL; ZL; EN]
  | _ => False
  end /\ (isFound st c = true -> isSingleton c = false).
Proof.
  unfold checkCard. intros H. split.
  - destruct (sectionNumber st) as [|[|[|[|n]]]]; cbn [nth_error isValidInSection] in H; [destruct c..|destruct n; discriminate];
      first [discriminate H|reflexivity|cbn [In]; repeat (first [left; reflexivity|right])].
  - intros F. rewrite F in H. cbn [andb] in H. destruct (nth_error _ _); [|discriminate]. destruct (negb _); [discriminate|]. destruct (isSingleton c); [discriminate|reflexivity].
Qed.

(** ** What each card changes *)
Lemma word_nonempty l s l' : scanWord l = Some (s, l') -> s <> ""%string.
Proof.
  unfold scanWord. destruct (spanN 31 _ _) as [[|c w] r]; [discriminate|]. intros E. injection E as <- _. discriminate.
Qed.
(** the values of the words of a format are not empty *)
Lemma words_nonempty f : forall l s, Forall (fun c => match c with CvNotQuote => False | _ => True end) f -> In (VS s) (sscanf f l) -> s <> ""%string.
Proof.
  induction f as [|c f IH]; intros l s F I; [destruct I|]. inversion F as [|? ? FC FF]; subst. cbn [sscanf] in I.
  destruct (conv c l) as [[vs l']|] eqn:C; [|destruct I]. apply in_app_iff in I. destruct I as [I|I]; [|exact (IH _ _ FF I)].
  destruct c; cbn [conv] in C; try contradiction;
    try (match type of C with option_map _ ?x = _ => destruct x as [[v r]|] eqn:Q; cbn in C; [|discriminate] end; injection C as <- <-; destruct I as [I|[]]; try discriminate I;
         injection I as <-; exact (word_nonempty _ _ _ Q)).
  - injection C as <- <-. destruct I.
  - destruct l; [discriminate|]. destruct (_ =? _); [|discriminate]. injection C as <- <-. destruct I.
Qed.
Lemma box6_some vs b r : box6 vs = Some (b, r) -> exists a c d e f g, vs = [VI a; VI c; VI d; VI e; VI f; VI g] ++ r /\ b = mkbox a c d e f g.
Proof.
  unfold box6. intros H. do 6 (destruct vs as [|[?|?|?] vs]; [discriminate H| |discriminate H|discriminate H]). injection H as <- <-. do 6 eexists. split; reflexivity.
Qed.

(** the geometry as accepted by its card at the time it was read: the tables
    have only been extended since *)
Definition ok_block (h : MeshData) (b : Block) : Prop :=
  exists reg0 r name mask, h_media h = reg0 ++ r /\ mask <> [] /\ parseMB (h_mbox h) reg0 (bbox_b b) name mask = Some b.
Definition ok_line (h : MeshData) (l : Line) : Prop :=
  exists reg0 r name, h_wires h = reg0 ++ r /\ parseTW (h_mbox h) reg0 (bbox_l l) name = Some l.
Definition ok_surf (h : MeshData) (s : Surf * R) : Prop :=
  exists reg0 r name o, h_breg h = reg0 ++ r /\ parseTB (h_mbox h) reg0 (bbox_s (fst s)) name o (Rleb (-180) (snd s) && Rleb (snd s) 180) = Some (fst s).
Definition ok_src (h : MeshData) (s : Src) : Prop :=
  exists wfs0 r l name ty wf args, h_wfs h = wfs0 ++ r /\ parseEX (h_mbox h) wfs0 l (s_mbbox s) name ty wf args = Some (l ++ [s]).
Definition ok_pw (h : MeshData) (p : PlaneWave.PW) : Prop :=
  exists wfs0 r l name wf th ph et mask size delay, h_wfs h = wfs0 ++ r /\
  parsePW (h_mbox h) wfs0 l (pw_mbbox p) name wf th ph et mask size delay = Some (l ++ [p]).
Definition ok_obs (h : MeshData) (o : Obs) : Prop :=
  exists wfs0 r l name ty wf steps, h_wfs h = wfs0 ++ r /\ parseOP (h_mbox h) wfs0 l (o_mbbox o) name ty wf steps = Some (l ++ [o]).
Record items_ok (h : MeshData) : Prop := mkIO {
  io_b : Forall (ok_block h) (h_blocks h); io_l : Forall (ok_line h) (h_lines h); io_s : Forall (ok_surf h) (h_surfs h);
  io_src : Forall (ok_src h) (h_srcs h); io_pw : Forall (ok_pw h) (h_pws h); io_obs : Forall (ok_obs h) (h_obs h) }.
(** tables extended, same mesh *)
Record ext (h h' : MeshData) : Prop := mkExt {
  e_box : h_mbox h' = h_mbox h; e_dm : forall a, h_numCells h' a = h_numCells h a; e_nl : h_numLines h' = h_numLines h;
  e_m : exists r, h_media h' = h_media h ++ r; e_w : exists r, h_wires h' = h_wires h ++ r;
  e_b : exists r, h_breg h' = h_breg h ++ r; e_wf : exists r, h_wfs h' = h_wfs h ++ r }.
Lemma same {A} (l l' : list A) : l' = l -> exists r, l' = l ++ r. Proof. intros ->. exists []. symmetry. apply app_nil_r. Qed.
Lemma ok_block_ext h h' b : ext h h' -> ok_block h b -> ok_block h' b.
Proof. intros [EB _ _ (m & EM) _ _ _] (reg0 & r & name & mask & A & N & P). exists reg0, (r ++ m), name, mask. rewrite EM, A, EB, <- app_assoc. auto. Qed.
Lemma ok_line_ext h h' b : ext h h' -> ok_line h b -> ok_line h' b.
Proof. intros [EB _ _ _ (m & EM) _ _] (reg0 & r & name & A & P). exists reg0, (r ++ m), name. rewrite EM, A, EB, <- app_assoc. auto. Qed.
Lemma ok_surf_ext h h' b : ext h h' -> ok_surf h b -> ok_surf h' b.
Proof. intros [EB _ _ _ _ (m & EM) _] (reg0 & r & name & o & A & P). exists reg0, (r ++ m), name, o. rewrite EM, A, EB, <- app_assoc. auto. Qed.
Lemma ok_src_ext h h' b : ext h h' -> ok_src h b -> ok_src h' b.
Proof. intros [EB _ _ _ _ _ (m & EM)] (w0 & r & l & name & ty & wf & args & A & P). exists w0, (r ++ m), l, name, ty, wf, args. rewrite EM, A, EB, <- app_assoc. auto. Qed.
Lemma ok_pw_ext h h' b : ext h h' -> ok_pw h b -> ok_pw h' b.
Proof.
  intros [EB _ _ _ _ _ (m & EM)] (w0 & r & l & name & wf & th & ph & et & mask & size & delay & A & P).
  exists w0, (r ++ m), l, name, wf, th, ph, et, mask, size, delay. rewrite EM, A, EB, <- app_assoc. auto.
Qed.
Lemma ok_obs_ext h h' b : ext h h' -> ok_obs h b -> ok_obs h' b.
Proof. intros [EB _ _ _ _ _ (m & EM)] (w0 & r & l & name & ty & wf & st & A & P). exists w0, (r ++ m), l, name, ty, wf, st. rewrite EM, A, EB, <- app_assoc. auto. Qed.
Lemma Forall_add {A} (P Q : A -> Prop) l l' : (forall x, P x -> Q x) -> Forall P l -> Forall Q l' -> Forall Q (l ++ l').
Proof. intros I A1 A2. apply Forall_app. split; [eapply Forall_impl; [exact I|exact A1]|exact A2]. Qed.

(** one card of section 2 or 3: what is new *)
Record adds (h h' : MeshData) : Prop := mkAdds {
  ad_ext : ext h h';
  ad_b : exists x, h_blocks h' = h_blocks h ++ x /\ Forall (ok_block h) x;
  ad_l : exists x, h_lines h' = h_lines h ++ x /\ Forall (ok_line h) x;
  ad_s : exists x, h_surfs h' = h_surfs h ++ x /\ Forall (ok_surf h) x;
  ad_src : exists x, h_srcs h' = h_srcs h ++ x /\ Forall (ok_src h) x;
  ad_pw : exists x, h_pws h' = h_pws h ++ x /\ Forall (ok_pw h) x;
  ad_obs : exists x, h_obs h' = h_obs h ++ x /\ Forall (ok_obs h) x;
  ad_dn : distinct_names h -> distinct_names h' }.
Lemma none {A} (P : A -> Prop) l : exists x, l = l ++ x /\ Forall P x.
Proof. exists []. rewrite app_nil_r. auto. Qed.
Lemma items_adds h h' : adds h h' -> items_ok h -> items_ok h'.
Proof.
  intros [E (xb & Eb & Fb) (xl & El & Fl) (xs & Es & Fs) (xr & Er & Fr) (xp & Ep & Fp) (xo & Eo & Fo) _] [A1 A2 A3 A4 A5 A6]. constructor.
  - rewrite Eb. eapply Forall_add; [intros x; apply (ok_block_ext _ _ _ E)|exact A1|]. eapply Forall_impl; [|exact Fb]. intros x; apply (ok_block_ext _ _ _ E).
  - rewrite El. eapply Forall_add; [intros x; apply (ok_line_ext _ _ _ E)|exact A2|]. eapply Forall_impl; [|exact Fl]. intros x; apply (ok_line_ext _ _ _ E).
  - rewrite Es. eapply Forall_add; [intros x; apply (ok_surf_ext _ _ _ E)|exact A3|]. eapply Forall_impl; [|exact Fs]. intros x; apply (ok_surf_ext _ _ _ E).
  - rewrite Er. eapply Forall_add; [intros x; apply (ok_src_ext _ _ _ E)|exact A4|]. eapply Forall_impl; [|exact Fr]. intros x; apply (ok_src_ext _ _ _ E).
  - rewrite Ep. eapply Forall_add; [intros x; apply (ok_pw_ext _ _ _ E)|exact A5|]. eapply Forall_impl; [|exact Fp]. intros x; apply (ok_pw_ext _ _ _ E).
  - rewrite Eo. eapply Forall_add; [intros x; apply (ok_obs_ext _ _ _ E)|exact A6|]. eapply Forall_impl; [|exact Fo]. intros x; apply (ok_obs_ext _ _ _ E).
Qed.
Lemma NoDup_snoc {A} (l : list A) x : NoDup l -> ~ In x l -> NoDup (l ++ [x]).
Proof.
  intros N F. induction N as [|y l Y N IH]; cbn; [repeat constructor; auto|]. constructor.
  - rewrite in_app_iff. intros [I|[<-|[]]]; [auto|apply F; left; reflexivity].
  - apply IH. intros I. apply F. right. exact I.
Qed.
Lemma unique_add {A} (reg : Registry A) name d : findName reg name = None -> unique_names reg -> unique_names (addItem reg name d).
Proof.
  intros F U. unfold unique_names, addItem. rewrite map_app. apply NoDup_snoc; [exact U|]. now apply findName_none.
Qed.
Lemma fresh_name {A} (nm : A -> string) l name : existsb (fun x => String.eqb name (nm x)) l = false -> ~ In name (map nm l).
Proof. intros E I. apply in_map_iff in I. destruct I as (x & Q & I). apply not_true_iff_false in E. apply E. apply exists_name. exists x. auto. Qed.
Lemma named_add {A} (nm : A -> string) (l : list A) x : ~ In (nm x) (map nm l) -> NoDup (map nm l) -> NoDup (map nm (l ++ [x])).
Proof. intros F N. rewrite map_app. apply NoDup_snoc; auto. Qed.

Lemma adds_refl h : adds h h.
Proof. constructor; [constructor; first [reflexivity|apply same; reflexivity]| | | | | | |auto]; apply none. Qed.
Lemma adds_ctl nt ot of cn xyz h : adds h (setCtl nt ot of cn xyz h).
Proof.
  constructor; [constructor; cbn; first [reflexivity|apply same; reflexivity]| | | | | | |]; cbn; try apply none.
  intros [A B C D E F]. constructor; assumption.
Qed.
Lemma adds_media h reg r : reg = h_media h ++ r -> adds h (setMedia reg h).
Proof.
  intros ->. constructor; [constructor; cbn; first [reflexivity|apply same; reflexivity|exists r; reflexivity]| | | | | | |]; cbn; try apply none.
  intros [A B C D E F]. constructor; assumption.
Qed.
Lemma declare_app {A} (reg reg' : Registry A) name d : declare reg name d = Some reg' -> findName reg name = None /\ reg' = addItem reg name d.
Proof. unfold declare. destruct (findName reg name); [discriminate|]. intros E. injection E as <-. auto. Qed.
Lemma parseMT_app reg reg' name ty vals file : parseMT reg name ty vals file = Some reg' -> exists r, reg' = reg ++ r.
Proof.
  unfold parseMT. intros P.
  assert (X : exists d, declare reg name d = Some reg').
  { destruct (mtypeOf ty) as [[| | |]|]; try discriminate; eauto.
    - destruct (simpleOk vals); [eauto|discriminate].
    - destruct (simpleOk vals); cbn [negb] in P; [|discriminate].
      destruct (_ || _); [eauto|]. destruct file as [d|]; [|discriminate]. destruct (readDebyeParameters d); [eauto|discriminate]. }
  destruct X as (d & X). apply declare_app in X. destruct X as (_ & ->). unfold addItem. eauto.
Qed.
Section Cards.
Variable df : string -> option DebyeFile.
Variables (h h' : MeshData) (line : list Z).
Lemma adds_MT : cardMT df h line = Some h' -> adds h h'.
Proof.
  unfold cardMT. destruct (sscanf _ line) as [|[|?|name] [|[|?|ty] [|]]]; try discriminate. cbv zeta.
  destruct (parseMT _ _ _ _ _) as [reg|] eqn:P; [|discriminate]. intros E. injection E as <-.
  apply parseMT_app in P. destruct P as (r & P). exact (adds_media h reg r P).
Qed.
Lemma adds_breg reg par name d : findName (h_breg h) name = None -> reg = addItem (h_breg h) name d -> adds h (setB reg par h).
Proof.
  intros F ->. constructor; [constructor; cbn; first [reflexivity|apply same; reflexivity|unfold addItem; eauto]| | | | | | |]; cbn; try apply none.
  intros [A B C D E G]. constructor; cbn; try assumption. apply unique_add; assumption.
Qed.
Lemma adds_BT : cardBT h line = Some h' -> adds h h'.
Proof.
  unfold cardBT. destruct (sscanf _ line) as [|[|?|name] [|[|?|ty] [|]]]; try discriminate.
  destruct (findName (h_breg h) name) eqn:F; [discriminate|]. destruct (btypeOf ty) as [t|]; [|discriminate]. cbv zeta.
  intros E. 
  assert (X : exists par layers, h' = setB (addItem (h_breg h) name (mkB t layers)) par h).
  { destruct t; try (injection E as <-; eauto).
    - match type of E with (if ?b then _ else _) = _ => destruct b end; [injection E as <-; eauto|].
      match type of E with (if ?b then _ else _) = _ => destruct b end; [injection E as <-; eauto|].
      destruct (sscanf ([CvWord; CvWord] ++ quoted) line) as [|[|?|?] [|[|?|?] [|[|?|?] [|]]]]; try discriminate. injection E as <-; eauto. }
  destruct X as (par & layers & ->). exact (adds_breg _ par name _ F eq_refl).
Qed.
Lemma adds_WT : cardWT h line = Some h' -> adds h h'.
Proof.
  unfold cardWT. destruct (sscanf _ line) as [|[|?|name] [|[|?|ty] [|]]]; try discriminate. destruct (String.eqb ty "PEC"); [|discriminate].
  destruct (declare _ name TW_PEC) as [reg|] eqn:D; [|discriminate]. intros E. injection E as <-. apply declare_app in D. destruct D as (F & ->).
  constructor; [constructor; cbn; first [reflexivity|apply same; reflexivity|unfold addItem; eauto]| | | | | | |]; cbn; try apply none.
  intros [A B C D E G]. constructor; cbn; try assumption. apply unique_add; assumption.
Qed.
Lemma one {A} (P : A -> Prop) l y : P y -> exists x, l ++ [y] = l ++ x /\ Forall P x.
Proof. intros Py. exists [y]. auto. Qed.
Lemma adds_geo xb xl xs : Forall (ok_block h) xb -> Forall (ok_line h) xl -> Forall (ok_surf h) xs ->
  adds h (setGeo (h_blocks h ++ xb) (h_lines h ++ xl) (h_surfs h ++ xs) h).
Proof.
  intros A B C. constructor; [constructor; cbn; first [reflexivity|apply same; reflexivity]| | | | | | |]; cbn; try apply none; eauto.
  intros [X1 X2 X3 X4 X5 X6]. constructor; assumption.
Qed.
Lemma parseMB_box M mbox (reg : Registry M) b name mask blk : parseMB mbox reg b name mask = Some blk -> bbox_b blk = b.
Proof.
  unfold parseMB. destruct (negb _); [discriminate|]. destruct (negb _); [discriminate|]. destruct (bboxType b); try discriminate. destruct (findName reg name); [|discriminate].
  destruct (_ =? _); [discriminate|]. intros E. injection E as <-. reflexivity.
Qed.
Lemma adds_MB : cardMB h line = Some h' -> adds h h'.
Proof.
  unfold cardMB. destruct (box6 _) as [[b [|[|?|name] m]]|] eqn:B; try discriminate. cbv zeta.
  destruct (parseMB _ _ _ _ _) as [blk|] eqn:P; [|discriminate]. intros E. injection E as <-.
  rewrite <- (app_nil_r (h_lines h)), <- (app_nil_r (h_surfs h)). apply adds_geo; [|constructor|constructor].
  constructor; [|constructor]. exists (h_media h), [], name. eexists. split; [symmetry; apply app_nil_r|]. rewrite (parseMB_box _ _ _ _ _ _ _ P). split; [|exact P].
  apply box6_some in B. destruct B as (a1 & a2 & a3 & a4 & a5 & a6 & B & _).
  destruct m as [|[|?|s] m]; try discriminate. 
  assert (NE : s <> ""%string).
  { apply (words_nonempty (D6 ++ [CvWord; CvWord]) line); [repeat constructor|]. rewrite B. do 7 right. left. reflexivity. }
  destruct s; [congruence|]. discriminate.
Qed.
Lemma adds_TB : cardTB h line = Some h' -> adds h h'.
Proof.
  unfold cardTB. destruct (box6 _) as [[b [|[|?|name] m]]|] eqn:B; try discriminate. cbv zeta.
  set (ang := match m with _ :: VR a :: _ => a | _ => 0%R end). clearbody ang.
  destruct (parseTB _ _ _ _ _ _) as [s|] eqn:P; [|discriminate]. intros E. injection E as <-.
  rewrite <- (app_nil_r (h_lines h)), <- (app_nil_r (h_blocks h)). apply adds_geo; [constructor|constructor|].
  constructor; [|constructor]. exists (h_breg h), [], name. eexists. split; [symmetry; apply app_nil_r|]. cbn [fst snd].
  assert (bbox_s s = b) as ->; [|exact P].
  unfold parseTB in P. destruct (negb _); [discriminate|]. destruct (negb _); [discriminate|]. destruct (bboxType b); try discriminate. destruct (findName _ name); [|discriminate].
  destruct (_ && _); [discriminate|]. destruct (negb _); [discriminate|]. injection P as <-. reflexivity.
Qed.
Lemma adds_TW : cardTW h line = Some h' -> adds h h'.
Proof.
  unfold cardTW. destruct (box6 _) as [[b [|[|?|name] m]]|] eqn:B; try discriminate.
  destruct (parseTW _ _ _ _) as [s|] eqn:P; [|discriminate]. destruct (forallb _ m); [|discriminate]. intros E. injection E as <-.
  rewrite <- (app_nil_r (h_surfs h)), <- (app_nil_r (h_blocks h)). apply adds_geo; [constructor| |constructor].
  constructor; [|constructor]. exists (h_wires h), [], name. split; [symmetry; apply app_nil_r|].
  assert (bbox_l s = b) as ->; [|exact P].
  unfold parseTW in P. destruct (negb _); [discriminate|]. destruct (negb _); [discriminate|]. destruct (bboxType b); try discriminate. destruct (findName _ name); [|discriminate].
  injection P as <-. reflexivity.
Qed.
Lemma adds_exc xw xs xp xo : (NoDup (map wName (h_wfs h)) -> NoDup (map wName (h_wfs h ++ xw))) ->
  (NoDup (map s_name (h_srcs h)) -> NoDup (map s_name (h_srcs h ++ xs))) -> (NoDup (map pw_name (h_pws h)) -> NoDup (map pw_name (h_pws h ++ xp))) ->
  (NoDup (map o_name (h_obs h)) -> NoDup (map o_name (h_obs h ++ xo))) ->
  Forall (ok_src h) xs -> Forall (ok_pw h) xp -> Forall (ok_obs h) xo ->
  adds h (setExc (h_wfs h ++ xw) (h_srcs h ++ xs) (h_pws h ++ xp) (h_obs h ++ xo) h).
Proof.
  intros N1 N2 N3 N4 A B C. constructor; [constructor; cbn; first [reflexivity|apply same; reflexivity|eauto]| | | | | | |]; cbn; try apply none; eauto.
  intros [X1 X2 X3 X4 X5 X6]. constructor; cbn; auto.
Qed.
Lemma nil_r {A} (l : list A) : l = l ++ []. Proof. symmetry. apply app_nil_r. Qed.
Lemma keep {A B} (f : A -> B) l : NoDup (map f l) -> NoDup (map f (l ++ [])). Proof. rewrite app_nil_r. auto. Qed.
Lemma parseWF_app l l' name ty args : parseWF l name ty args = Some l' -> exists w, l' = l ++ [w] /\ ~ In (wName w) (map wName l).
Proof.
  unfold parseWF. destruct (isWaveform l name) eqn:I; [discriminate|]. apply fresh_name in I.
  destruct (findWfType ty) as [t|]; [|discriminate]. intros P.
  assert (X : exists w, l' = l ++ [w] /\ wName w = name).
  { destruct t; repeat (match type of P with (if ?b then _ else _) = _ => destruct b; [discriminate|] end); injection P as <-; eexists; split; reflexivity. }
  destruct X as (w & -> & <-). eauto.
Qed.
Lemma adds_WF : cardWF h line = Some h' -> adds h h'.
Proof.
  unfold cardWF. destruct (sscanf _ line) as [|[|?|name] [|[|?|ty] [|]]]; try discriminate. cbv zeta. intros E.
  assert (X : exists args l, parseWF (h_wfs h) name ty args = Some l /\ h' = setExc l (h_srcs h) (h_pws h) (h_obs h) h).
  { destruct (String.eqb ty "EXTERNAL").
    - destruct (sscanf _ line) as [|[|?|?] [|[|?|?] [|[|?|?] vs]]]; try discriminate. destruct (parseWF _ _ _ _) eqn:P; [|discriminate]. injection E as <-. eauto.
    - destruct (parseWF _ _ _ _) eqn:P; [|discriminate]. injection E as <-. eauto. }
  destruct X as (args & l & P & ->). apply parseWF_app in P. destruct P as (w & -> & F).
  rewrite (nil_r (h_srcs h)), (nil_r (h_pws h)), (nil_r (h_obs h)). apply adds_exc; try apply keep; try constructor. apply named_add. exact F.
Qed.
Lemma parseEX_app mbox wfs l l' b name ty wf args : parseEX mbox wfs l b name ty wf args = Some l' ->
  exists s, l' = l ++ [s] /\ s_mbbox s = b /\ ~ In (s_name s) (map s_name l).
Proof.
  unfold parseEX. destruct (isSource l name) eqn:I; [discriminate|]. apply fresh_name in I. destruct (findTag ty) as [t|]; [|discriminate].
  destruct (negb _); [discriminate|]. destruct (negb _); [discriminate|]. destruct (isLumped (t_type t)).
  - destruct (match bboxType b with BB_LINE => _ | _ => _ end); [discriminate|]. destruct (negb _); [discriminate|]. intros E. injection E as <-. eexists. split; [reflexivity|]. auto.
  - destruct (negb _); [discriminate|]. intros E. injection E as <-. eexists. split; [reflexivity|]. auto.
Qed.
Lemma adds_trans h1 h2 h3 : adds h1 h2 -> (exists r, h3 = setMedia (h_media h2 ++ r) h2) -> adds h1 h3.
Proof.
  intros [[E1 E2 E3 (m & E4) E5 E6 E7] A1 A2 A3 A4 A5 A6 A7] (r & ->). constructor; cbn; auto.
  - constructor; cbn; auto. exists (m ++ r). rewrite E4, <- app_assoc. reflexivity.
  - intros D. destruct (A7 D). constructor; assumption.
Qed.
Lemma adds_EX : cardEX h line = Some h' -> adds h h'.
Proof.
  unfold cardEX. destruct (box6 _) as [[b [|[|?|name] [|[|?|ty] [|[|?|wf] [|]]]]]|] eqn:B; try discriminate. cbv zeta.
  destruct (parseEX _ _ _ _ _ _ _ _) as [l|] eqn:P; [|discriminate]. pose proof P as P'. apply parseEX_app in P'. destruct P' as (s & -> & SB & F).
  assert (A : adds h (setExc (h_wfs h) (h_srcs h ++ [s]) (h_pws h) (h_obs h) h)).
  { rewrite (nil_r (h_wfs h)), (nil_r (h_pws h)), (nil_r (h_obs h)). apply adds_exc; try apply keep; try constructor; [apply named_add; exact F| |constructor].
    exists (h_wfs h), []. rewrite SB. do 5 eexists. split; [apply nil_r|exact P]. }
  destruct (match findTag ty with Some t => _ | None => _ end); intros E; injection E as <-; [|exact A].
  eapply adds_trans; [exact A|]. eexists. reflexivity.
Qed.
Lemma parsePW_app mbox wfs l l' b name wf th ph et mask size delay : parsePW mbox wfs l b name wf th ph et mask size delay = Some l' ->
  exists p, l' = l ++ [p] /\ pw_mbbox p = b /\ ~ In (pw_name p) (map pw_name l) /\ isWaveform wfs (pw_wf p) = true /\
  (0 <= pw_theta p <= 180 /\ 0 <= pw_phi p <= 360 /\ 0 <= pw_eta p < 360)%R.
Proof.
  unfold parsePW. destruct (isPlaneWave l name) eqn:I; [discriminate|]. apply fresh_name in I.
  destruct (negb _); [discriminate|]. destruct (negb _); [discriminate|]. destruct (isWaveform wfs wf) eqn:W; cbn [negb]; [|discriminate].
  unfold rlt, rle.
  destruct (Rlt_dec th 0); cbn [orb]; [discriminate|]. destruct (Rlt_dec 180 th); [discriminate|].
  destruct (Rlt_dec ph 0); cbn [orb]; [discriminate|]. destruct (Rlt_dec 360 ph); [discriminate|].
  destruct (Rlt_dec et 0); cbn [orb]; [discriminate|]. destruct (Rle_dec 360 et); [discriminate|].
  destruct (match mask with None => _ | Some s => _ end) as [act|]; [|discriminate].
  destruct (match size with Some s => _ | None => _ end); [discriminate|]. intros E. injection E as <-. eexists. split; [reflexivity|]. cbn. repeat split; auto; lra.
Qed.
Lemma adds_PW : cardPW h line = Some h' -> adds h h'.
Proof.
  unfold cardPW. destruct (box6 _) as [[b [|[|?|name] [|[|?|wf] [|[|th|] [|[|ph|] [|[|et|] m]]]]]]|] eqn:B; try discriminate. cbv zeta.
  destruct (parsePW _ _ _ _ _ _ _ _ _ _ _ _) as [l|] eqn:P; [|discriminate]. pose proof P as P'. apply parsePW_app in P'. destruct P' as (p & -> & SB & F & _). intros E; injection E as <-.
  rewrite (nil_r (h_wfs h)), (nil_r (h_srcs h)), (nil_r (h_obs h)). apply adds_exc; try apply keep; try constructor; [apply named_add; exact F| |constructor].
  exists (h_wfs h), []. rewrite SB. do 9 eexists. split; [apply nil_r|exact P].
Qed.
Lemma parseOP_app mbox wfs l l' b name ty wf steps : parseOP mbox wfs l b name ty wf steps = Some l' ->
  exists o, l' = l ++ [o] /\ o_mbbox o = b /\ ~ In (o_name o) (map o_name l).
Proof.
  unfold parseOP. destruct (isObserver l name) eqn:I; [discriminate|]. apply fresh_name in I.
  destruct (negb _); [discriminate|]. destruct (negb _); [discriminate|]. destruct (observerType ty) as [[[|] d]|]; [| |discriminate].
  - destruct (bboxType b); try discriminate. destruct (String.eqb wf ""); [intros E; injection E as <-; eexists; split; [reflexivity|]; auto|].
    destruct (waveformNumber wfs wf); [|discriminate]. intros E; injection E as <-; eexists; split; [reflexivity|]; auto.
  - cbv zeta. destruct (_ || _); [discriminate|]. intros E; injection E as <-; eexists; split; [reflexivity|]; auto.
Qed.
Lemma adds_OP : cardOP h line = Some h' -> adds h h'.
Proof.
  unfold cardOP. destruct (box6 (sscanf (D6 ++ [CvWord; CvWord]) line)) as [[b [|[|?|name] [|[|?|ty] [|]]]]|] eqn:B; try discriminate. cbv zeta.
  destruct (parseOP _ _ _ _ _ _ _ _) as [l|] eqn:P; [|discriminate]. pose proof P as P'. apply parseOP_app in P'. destruct P' as (p & -> & SB & F). intros E; injection E as <-.
  rewrite (nil_r (h_wfs h)), (nil_r (h_srcs h)), (nil_r (h_pws h)). apply adds_exc; try apply keep; try constructor; [apply named_add; exact F| |constructor].
  exists (h_wfs h), []. rewrite SB. do 5 eexists. split; [apply nil_r|exact P].
Qed.
End Cards.

(** sections 2 and 3 *)
Lemma handler_adds df h h' c line rest u : In c [MT; BT; WT; MB; TB; TW; WF; Mesh.EX; Mesh.PW; OP; FF; NT; OT; OF; CN; MS; XL; YL; ZL] ->
  handler df h c line rest = Some (h', u) -> adds h h'.
Proof.
  intros I E. assert (PL : forall x, option_map (fun h => (h, O)) x = Some (h', u) -> x = Some h').
  { intros [y|] Q; cbn in Q; [injection Q as <- _; reflexivity|discriminate]. }
  cbn [In] in I. repeat (destruct I as [<-|I]; [cbn [handler] in E; try apply PL in E|]); [..|destruct I].
  - exact (adds_MT df _ _ _ E). - exact (adds_BT _ _ _ E). - exact (adds_WT _ _ _ E). - exact (adds_MB _ _ _ E).
  - exact (adds_TB _ _ _ E). - exact (adds_TW _ _ _ E). - exact (adds_WF _ _ _ E). - exact (adds_EX _ _ _ E). - exact (adds_PW _ _ _ E). - exact (adds_OP _ _ _ E).
  - injection E as <- _. apply adds_refl.
  - unfold cardNT in E. destruct (parseNT line); [|discriminate]. injection E as <-. apply adds_ctl.
  - unfold cardOT in E. destruct (sscanf _ line) as [|[a|?|?] [|[b|?|?] [|]]]; try discriminate. destruct (parseOT a b); [|discriminate]. injection E as <-. apply adds_ctl.
  - unfold cardOF in E. destruct (sscanf _ line) as [|[?|a|?] [|[?|b|?] [|[n|?|?] [|]]]]; try discriminate. destruct (parseOF a b n); [|discriminate]. injection E as <-. apply adds_ctl.
  - unfold cardCN in E. destruct (sscanf _ line) as [|[?|x|?] [|]]; try discriminate. destruct (parseCN x); [|discriminate]. injection E as <-. apply adds_ctl.
  - unfold cardMS in E. destruct (parseMS _ _); [|discriminate]. injection E as <-. apply adds_ctl.
  - unfold cardL in E. destruct (scanReals _ rest) as [[xs r]|]; [|discriminate]. destruct (parseLines _ xs); [|discriminate]. injection E as <- _. apply adds_ctl.
  - unfold cardL in E. destruct (scanReals _ rest) as [[xs r]|]; [|discriminate]. destruct (parseLines _ xs); [|discriminate]. injection E as <- _. apply adds_ctl.
  - unfold cardL in E. destruct (scanReals _ rest) as [[xs r]|]; [|discriminate]. destruct (parseLines _ xs); [|discriminate]. injection E as <- _. apply adds_ctl.
Qed.

(** section 1 *)
Lemma setLayers_names reg : forall n k reg', setLayers reg n k = Some reg' -> map iname reg' = map iname reg.
Proof.
  induction reg as [|it reg IH]; intros n k reg' E; [discriminate|]. destruct n; cbn in E; [injection E as <-; reflexivity|].
  destruct (setLayers reg n k) eqn:Q; [|discriminate]. injection E as <-. cbn. f_equal. eauto.
Qed.
Lemma parseBE_names depth fs : forall reg reg', parseBE_loop reg depth fs = Some reg' -> map iname reg' = map iname reg.
Proof.
  induction fs as [|f fs IH]; intros reg reg' E; cbn in E; [injection E as <-; reflexivity|].
  destruct (depth f <? 0); [discriminate|]. destruct (setLayers _ _ _) eqn:S; [|discriminate]. apply setLayers_names in S. rewrite (IH _ _ E). exact S.
Qed.
Lemma parseBR_names ty fs : forall reg reg', parseBR_loop reg ty fs = Some reg' -> map iname reg' = map iname reg ++ map FACE fs.
Proof.
  induction fs as [|f fs IH]; intros reg reg' E; cbn in E; [injection E as <-; symmetry; apply app_nil_r|].
  destruct (brType (ty f)); [|discriminate]. rewrite (IH _ _ E). unfold addItem. rewrite map_app, <- app_assoc. reflexivity.
Qed.
Definition nothing (h : MeshData) : Prop :=
  h_blocks h = [] /\ h_lines h = [] /\ h_surfs h = [] /\ h_wfs h = [] /\ h_srcs h = [] /\ h_pws h = [] /\ h_obs h = [].
Definition dm_ok (h : MeshData) : Prop :=
  (forall a, h_numCells h a = 0) \/ parseDM (h_numCells h XDIR) (h_numCells h YDIR) (h_numCells h ZDIR) = Some (h_mbox h, h_numLines h).
Definition three : list string := ["PEC"; "PMC"; "FREE_SPACE"]%string.
Record Inv (st : MState) (h : MeshData) (tr : list Card) : Prop := mkInv {
  iv_none : (sectionNumber st <= 1)%nat -> nothing h;
  iv_dm : dm_ok h;
  iv_items : items_ok h;
  iv_names : distinct_names h;
  iv_br : isFound st BR = false -> (sectionNumber st <= 1)%nat -> map iname (h_breg h) = three;
  iv_fs : foundSource st = true -> h_srcs h <> [] \/ h_pws h <> [];
  iv_ge : In GE tr -> foundSource st = true }.
Lemma nothing_items h : nothing h -> items_ok h.
Proof. intros (A & B & C & D & E & F & G). constructor; [rewrite A|rewrite B|rewrite C|rewrite E|rewrite F|rewrite G]; constructor. Qed.
Lemma handler_1 df h h' c line rest u : In c [VM; CE; DM; BR; BE] -> handler df h c line rest = Some (h', u) ->
  (nothing h -> nothing h') /\ (dm_ok h -> dm_ok h') /\
  (map iname (h_breg h') = map iname (h_breg h) \/ (c = BR /\ map iname (h_breg h') = map iname (h_breg h) ++ map FACE faces)) /\
  h_wires h' = h_wires h /\ h_wfs h' = h_wfs h /\ h_srcs h' = h_srcs h /\ h_pws h' = h_pws h /\ h_obs h' = h_obs h.
Proof.
  intros I E. assert (PL : forall x, option_map (fun h => (h, O)) x = Some (h', u) -> x = Some h').
  { intros [y|] Q; cbn in Q; [injection Q as <- _; reflexivity|discriminate]. }
  cbn [In] in I. repeat (destruct I as [<-|I]; [cbn [handler] in E; try apply PL in E|]); [..|destruct I].
  - unfold cardVM in E. destruct (sscanf _ line) as [|[a|?|?] [|[b|?|?] [|[c|?|?] [|]]]]; try discriminate. destruct (_ || _); [discriminate|]. injection E as <-. cbn. tauto.
  - injection E as <- _. tauto.
  - unfold cardDM in E. destruct (sscanf _ line) as [|[a|?|?] [|[b|?|?] [|[c|?|?] [|]]]]; try discriminate. destruct (parseDM a b c) as [[mb nl]|] eqn:P; [|discriminate].
    injection E as <-. cbn. split; [tauto|]. split; [intros _; right; cbn; exact P|]. tauto.
  - unfold cardBR in E. destruct (box6 _) as [[ty [|]]|]; try discriminate. destruct (parseBR _ ty) as [reg|] eqn:P; [|discriminate]. injection E as <-.
    apply parseBR_names in P. cbn. split; [tauto|]. split; [tauto|]. split; [right; auto|]. tauto.
  - unfold cardBE in E. destruct (box6 _) as [[ty [|]]|]; try discriminate. destruct (parseBE _ ty) as [reg|] eqn:P; [|discriminate]. injection E as <-.
    apply parseBE_names in P. cbn. split; [tauto|]. split; [tauto|]. split; [left; exact P|]. tauto.
Qed.
Lemma Inv_init : Inv initM mesh0 [].
Proof.
  assert (N : nothing mesh0) by (repeat split).
  constructor; auto using nothing_items; try discriminate.
  - left. reflexivity.
  - constructor; cbn; [| |constructor..]; unfold unique_names; cbn; repeat (constructor; [cbn; intros X; repeat (destruct X as [X|X]; [discriminate X|]); exact X|]); constructor.
Qed.
Lemma three_faces : NoDup (three ++ map FACE faces).
Proof. cbn. repeat (constructor; [cbn; intuition discriminate|]). constructor. Qed.
Lemma found_src df h h' c line rest u : c = Mesh.EX \/ c = Mesh.PW -> handler df h c line rest = Some (h', u) -> h_srcs h' <> [] \/ h_pws h' <> [].
Proof.
  assert (PL : forall x, option_map (fun h => (h, O)) x = Some (h', u) -> x = Some h').
  { intros [y|] Q; cbn in Q; [injection Q as <- _; reflexivity|discriminate]. }
  intros [-> | ->] E; cbn [handler] in E; apply PL in E.
  - left. unfold cardEX in E. destruct (box6 _) as [[b [|[|?|name] [|[|?|ty] [|[|?|wf] [|]]]]]|]; try discriminate. cbv zeta in E.
    destruct (parseEX _ _ _ _ _ _ _ _) as [l|] eqn:P; [|discriminate]. apply parseEX_app in P. destruct P as (s & -> & _).
    destruct (match findTag ty with Some t => _ | None => _ end); injection E as <-; cbn; intros Q; apply app_eq_nil in Q; destruct Q; discriminate.
  - right. unfold cardPW in E. destruct (box6 _) as [[b [|[|?|name] [|[|?|wf] [|[|th|] [|[|ph|] [|[|et|] m]]]]]]|]; try discriminate. cbv zeta in E.
    destruct (parsePW _ _ _ _ _ _ _ _ _ _ _ _) as [l|] eqn:P; [|discriminate]. apply parsePW_app in P. destruct P as (s & -> & _).
    injection E as <-; cbn; intros Q; apply app_eq_nil in Q; destruct Q; discriminate.
Qed.
Definition late (c : Card) : bool := match c with MT | BT | WT | MB | TB | TW | WF | Mesh.EX | Mesh.PW | OP | FF | NT | OT | OF | CN | MS | XL | YL | ZL => true | _ => false end.
Definition early (c : Card) : bool := match c with VM | CE | DM | BR | BE => true | _ => false end.
Lemma late_in c : late c = true -> In c [MT; BT; WT; MB; TB; TW; WF; Mesh.EX; Mesh.PW; OP; FF; NT; OT; OF; CN; MS; XL; YL; ZL] /\ hasFunc c = true /\ isEndOfSection c = false.
Proof. destruct c; intros E; try discriminate E; (split; [cbn; repeat (first [left; reflexivity|right])|split; reflexivity]). Qed.
Lemma early_in c : early c = true -> In c [VM; CE; DM; BR; BE] /\ hasFunc c = true /\ ~ (c = Mesh.EX \/ c = Mesh.PW).
Proof. destruct c; intros E; try discriminate E; (split; [cbn; repeat (first [left; reflexivity|right])|split; [reflexivity|intros [Q|Q]; discriminate]]). Qed.
Lemma rest_in c : late c = false -> early c = false -> hasFunc c = false /\ ~ (c = Mesh.EX \/ c = Mesh.PW).
Proof. destruct c; intros A B; try discriminate A; try discriminate B; (split; [reflexivity|intros [Q|Q]; discriminate]). Qed.
Lemma late_sec st c : checkCard st c = Acc tt -> late c = true -> (2 <= sectionNumber st)%nat.
Proof.
  intros CK L. apply section_cards in CK. destruct CK as (SC & _). destruct (sectionNumber st) as [|[|n]]; [subst; discriminate L| |lia].
  repeat (destruct SC as [<-|SC]; [discriminate L|]). destruct SC.
Qed.
Lemma early_sec st c : checkCard st c = Acc tt -> early c = true -> (sectionNumber st <= 1)%nat.
Proof.
  intros CK L. apply section_cards in CK. destruct CK as (SC & _). destruct (sectionNumber st) as [|[|[|[|n]]]]; [lia|lia| | |contradiction];
  repeat (destruct SC as [<-|SC]; [discriminate L|]); destruct SC.
Qed.
Lemma Inv_step df st h tr c arg rest st' h' used : Inv st h tr -> stepCard (handler df) st h c arg rest = Acc (st', h', used) -> Inv st' h' (tr ++ [c]).
Proof.
  intros [N D I U B F G] E. destruct (step_parts _ _ _ _ _ _ _ _ _ E) as (CK & HD & SN & FS1 & FS2 & FB & FS3). clear E.
  destruct (section_cards _ _ CK) as (SC & SG). 
  assert (GE' : In GE (tr ++ [c]) -> foundSource st' = true).
  { intros X. apply in_app_iff in X. apply FS3. left. destruct X as [X|[X|[]]]; auto. }
  destruct (late c) eqn:KL; [|destruct (early c) eqn:KE].
  - destruct (late_in c KL) as (K & HF & EN0). pose proof (late_sec _ _ CK KL) as S2.
    destruct HD as [(_ & HD)|(HF' & _)]; [|congruence].
    assert (SE : sectionNumber st' = sectionNumber st) by (rewrite SN, EN0; reflexivity).
    pose proof (handler_adds df h h' c arg rest used K HD) as AD. pose proof AD as [[E1 E2 E3 _ _ _ _] _ _ _ (xs & Es & _) (xp & Ep & _) _ DN].
    constructor; auto; try lia.
    + destruct D as [D|D]; [left; intros a; rewrite E2; apply D|right]. rewrite !E2, E1, E3. exact D.
    + exact (items_adds _ _ AD I).
    + intros X. destruct (FS1 X) as [Y|Y]; [|exact (found_src _ _ _ _ _ _ _ Y HD)].
      rewrite Es, Ep. destruct (F Y) as [Z|Z]; [left|right]; intros Q; apply app_eq_nil in Q; destruct Q; contradiction.
  - destruct (early_in c KE) as (K & HF & NX). pose proof (early_sec _ _ CK KE) as S1.
    destruct HD as [(_ & HD)|(HF' & _)]; [|congruence].
    destruct (handler_1 df h h' c arg rest used K HD) as (H1 & H2 & H3 & HW & HWF & HS & HP & HO). specialize (N S1).
    pose proof (H1 N) as N'. destruct U as [U1 U2 U3 U4 U5 U6].
    constructor; auto using nothing_items.
    + constructor; rewrite ?HW, ?HWF, ?HS, ?HP, ?HO; auto. unfold unique_names in *. destruct H3 as [-> |(-> & ->)]; [exact U1|].
      destruct (isFound st BR) eqn:Q; [exfalso; specialize (SG eq_refl); discriminate SG|]. rewrite (B eq_refl S1). exact three_faces.
    + intros X Y. destruct (FB X) as (X1 & X2). destruct H3 as [-> |(Q & _)]; [auto|contradiction].
    + intros X. rewrite HS, HP. apply F. destruct (FS1 X) as [Y|Y]; [exact Y|contradiction].
  - destruct (rest_in c KL KE) as (HF & NX).
    assert (h' = h) as -> by (destruct HD as [(HF' & _)|(_ & HD)]; [congruence|exact HD]).
    constructor; auto.
    + intros X. apply N. rewrite SN in X. destruct (isEndOfSection c); lia.
    + intros X Y. apply B; [apply FB; exact X|]. rewrite SN in Y. destruct (isEndOfSection c); lia.
    + intros X. apply F. destruct (FS1 X) as [Y|Y]; [exact Y|contradiction].
Qed.
Theorem read_inv df file st h tr : readMeshFile df file = Acc (st, h, tr) -> Inv st h tr.
Proof. intros E. eapply readLoop_inv; [exact (Inv_step df)|exact Inv_init|exact E]. Qed.

(** ** C69 *)
Lemma entry_app {A} (reg0 r reg : list A) n : reg = reg0 ++ r -> (n < List.length reg0)%nat -> entry reg n.
Proof. intros -> L. unfold entry. rewrite app_length. lia. Qed.
Lemma called_lt {A} (reg : Registry A) name n : called reg name n -> (n < List.length reg)%nat.
Proof. intros (it & N & _). apply nth_error_Some. congruence. Qed.
Lemma wave_in h w0 r name : h_wfs h = w0 ++ r -> isWaveform w0 name = true -> has_waveform h name.
Proof. intros E I. apply exists_name in I. destruct I as (w & I & N). exists w. split; [rewrite E; apply in_or_app; auto|exact N]. Qed.
Lemma card_box mbox b : negb (bboxIsNormal b) = false -> negb (bboxIsWithin b mbox) = false -> box_card mbox b.
Proof. intros N W. exact (box_checks _ _ N W). Qed.
Lemma items_consistent h : items_ok h -> consistent h.
Proof.
  intros [A1 A2 A3 A4 A5 A6]. rewrite Forall_forall in *. constructor.
  - intros b I. destruct (A1 b I) as (reg0 & r & name & mask & E & NE & P).
    pose proof (C03_MB_card _ (h_mbox h) reg0 (bbox_b b) name mask NE) as T. rewrite P in T. destruct T as (T1 & T2 & _ & T3 & _ & T4).
    repeat (split; [assumption|]). split; [|assumption]. eapply entry_app; [exact E|exact (called_lt _ _ _ T3)].
  - intros l I. destruct (A2 l I) as (reg0 & r & name & E & P).
    pose proof (C03_TW_card _ (h_mbox h) reg0 (bbox_l l) name) as T. rewrite P in T. destruct T as (T1 & T2 & _ & T3).
    repeat (split; [assumption|]). eapply entry_app; [exact E|exact (called_lt _ _ _ T3)].
  - intros s a I. destruct (A3 (s, a) I) as (reg0 & r & name & o & E & P). cbn [fst snd] in P.
    pose proof (C03_TB_card _ (h_mbox h) reg0 (bbox_s s) name o (Rleb (-180) a && Rleb a 180)) as T. rewrite P in T. destruct T as (T1 & T2 & T3 & T4 & _ & T5 & T6).
    repeat (split; [assumption|]). split; [eapply entry_app; [exact E|exact (called_lt _ _ _ T5)]|]. rewrite T6. split; [assumption|].
    apply andb_true_iff in T4. unfold Rleb in T4. destruct T4 as (Q1 & Q2). destruct (Rle_dec (-180) a); [|discriminate]. destruct (Rle_dec a 180); [|discriminate]. auto.
  - intros s I. destruct (A4 s I) as (w0 & r & l & name & ty & wf & args & E & P).
    assert (X : parseEX (h_mbox h) w0 l (s_mbbox s) name ty wf args <> None) by congruence. apply C03_EX_card in X. destruct X as (_ & _ & X & _).
    split; [exact X|]. apply (wave_in h w0 r _ E). clear X A1 A2 A3 A4 A5 A6.
    unfold parseEX in P. destruct (isSource l name); [discriminate|]. destruct (findTag ty); [|discriminate]. destruct (negb _); [discriminate|]. destruct (negb _); [discriminate|].
    destruct (isLumped _).
    + destruct (match bboxType _ with BB_LINE => _ | _ => _ end); [discriminate|]. destruct (isWaveform w0 wf) eqn:W; cbn [negb] in P; [|discriminate]. injection P as P. apply app_inv_head in P. injection P as <-. exact W.
    + destruct (isWaveform w0 wf) eqn:W; cbn [negb] in P; [|discriminate]. injection P as P. apply app_inv_head in P. injection P as <-. exact W.
  - intros p I. destruct (A5 p I) as (w0 & r & l & name & wf & th & ph & et & mask & size & delay & E & P).
    pose proof (parsePW_app _ _ _ _ _ _ _ _ _ _ _ _ _ P) as (p' & Q & _ & _ & W & RG). apply app_inv_head in Q. injection Q as <-.
    split; [|split; [exact (wave_in h w0 r _ E W)|exact RG]].
    unfold parsePW in P. destruct (isPlaneWave l name); [discriminate|]. destruct (negb (bboxIsNormal _)) eqn:N; [discriminate|]. destruct (negb (bboxIsWithin _ _)) eqn:WI; [discriminate|].
    exact (card_box _ _ N WI).
  - intros o I. destruct (A6 o I) as (w0 & r & l & name & ty & wf & steps & E & P).
    pose proof (C31_card (h_mbox h) w0 l (o_mbbox o) name ty wf steps) as T. rewrite P in T. destruct T as (OK & o' & Q & _ & _ & _ & _ & T). apply app_inv_head in Q. injection Q as <-.
    unfold parseOP in P. destruct (isObserver l name); [discriminate|]. destruct (negb (bboxIsNormal _)) eqn:N; [discriminate|]. destruct (negb (bboxIsWithin _ _)) eqn:WI; [discriminate|].
    split; [exact (card_box _ _ N WI)|].
    destruct (observerType ty) as [[[|] d]|]; [| |discriminate].
    + destruct (bboxType (o_mbbox o)) eqn:BT; try discriminate. split; [intros _; rewrite type_ndeg in BT; destruct (ndeg (o_mbbox o)) as [|[|[|[|n]]]] eqn:ND; try discriminate BT; auto; exfalso; clear -ND; unfold ndeg in ND; cbn [filter axes] in ND; destruct (degenerate (o_mbbox o) XDIR), (degenerate (o_mbbox o) YDIR), (degenerate (o_mbbox o) ZDIR); discriminate ND|].
      destruct (String.eqb wf ""); [injection P as P; apply app_inv_head in P; injection P as <-; left; reflexivity|].
      destruct (waveformNumber w0 wf) as [n|] eqn:WN; [|discriminate]. injection P as P; apply app_inv_head in P; injection P as <-. right. cbn [o_wf].
      eapply entry_app; [exact E|]. apply wave_some in WN. destruct WN as (w & WN & _). apply nth_error_Some. congruence.
    + cbv zeta in P. destruct (_ || _); [discriminate|]. injection P as P; apply app_inv_head in P; injection P as <-. cbn. split; [discriminate|auto].
Qed.

(** Every mesh file that is read to the end without an error: everything placed
    on the mesh lies in it, has the right shape and refers to something that
    exists; names are unambiguous; behind a GE card there is a source and a
    waveform, so every observer has its reference waveform too. *)
Theorem C69_consistent : forall debyeFile file st h cards, readMeshFile debyeFile file = Acc (st, h, cards) ->
  consistent h /\ distinct_names h /\
  (In GE cards -> (h_srcs h <> [] \/ h_pws h <> []) /\ forall o, In o (h_obs h) -> entry (h_wfs h) (o_wf o)).
Proof.
  intros df file st h tr E. destruct (read_inv _ _ _ _ _ E) as [_ _ I U _ F G]. pose proof (items_consistent h I) as CO.
  split; [exact CO|]. split; [exact U|]. intros X. pose proof (F (G X)) as Y. split; [exact Y|]. intros o IO.
  destruct (co_obs h CO o IO) as (_ & _ & [Q|Q]); [|exact Q]. rewrite Q.
  assert (W : h_wfs h <> []).
  { destruct Y as [Y|Y].
    - destruct (h_srcs h) as [|s l] eqn:L; [congruence|]. destruct (co_src h CO s) as (_ & w & IW & _); [rewrite L; left; reflexivity|]. intros Z. rewrite Z in IW. destruct IW.
    - destruct (h_pws h) as [|s l] eqn:L; [congruence|]. destruct (co_pw h CO s) as (_ & (w & IW & _) & _); [rewrite L; left; reflexivity|]. intros Z. rewrite Z in IW. destruct IW. }
  unfold entry. destruct (h_wfs h); [congruence|cbn; lia].
Qed.
