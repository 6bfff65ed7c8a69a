(** C71: the boundaries of a mesh file that the reader accepted. *)
From Coq Require Import ZArith List Bool Ascii String Reals Lia Lra.
From Verif Require Import Types CArr CStr Sim Scan Setup SetupProofs Medium Filter Sibc Mesh Front Program P_Front P_FrontRun P_FrontStable FilterFile SpecFilterFile P_FilterFile.
Import ListNotations.
Open Scope Z_scope.

Definition aligned (h : MeshData) : Prop := List.length (h_bpar h) = List.length (h_breg h).
Lemma len_add {A} (reg : Registry A) n d : List.length (addItem reg n d) = S (List.length reg).
Proof. unfold addItem. rewrite app_length. cbn. lia. Qed.
Lemma br_loop_len ty fs : forall reg reg', parseBR_loop reg ty fs = Some reg' -> List.length reg' = (List.length reg + List.length fs)%nat.
Proof.
  induction fs as [|f fs IH]; intros reg reg' E; cbn [parseBR_loop] in E; [injection E as <-; cbn; lia|].
  destruct (brType (ty f)); [|discriminate]. rewrite (IH _ _ E), len_add. cbn. lia.
Qed.
Lemma set_layers_len reg : forall n x reg', setLayers reg n x = Some reg' -> List.length reg' = List.length reg.
Proof.
  induction reg as [|it reg IH]; intros [|n] x reg' E; cbn [setLayers] in E; try discriminate.
  - injection E as <-. reflexivity.
  - destruct (setLayers reg n x) eqn:F; [|discriminate]. injection E as <-. cbn. rewrite (IH _ _ _ F). reflexivity.
Qed.
Lemma be_loop_len depth fs : forall reg reg', parseBE_loop reg depth fs = Some reg' -> List.length reg' = List.length reg.
Proof.
  induction fs as [|f fs IH]; intros reg reg' E; cbn [parseBE_loop] in E; [injection E as <-; reflexivity|].
  destruct (depth f <? 0); [discriminate|]. destruct (setLayers reg _ (depth f)) eqn:F; [|discriminate]. rewrite (IH _ _ E). exact (set_layers_len _ _ _ _ F).
Qed.
Lemma aligned_card df h h' c line rest u : handler df h c line rest = Some (h', u) -> aligned h -> aligned h'.
Proof.
  intros E A. unfold aligned in *.
  assert (K : h_bpar h' = h_bpar h /\ h_breg h' = h_breg h -> List.length (h_bpar h') = List.length (h_breg h')) by (intros [-> ->]; exact A).
  assert (KL : forall a, cardL a h rest = Some (h', u) -> List.length (h_bpar h') = List.length (h_breg h')).
  { intros a C. apply K. unfold cardL in C. tops. injection C as <- _. split; reflexivity. }
  destruct c; cbn [handler] in E; try (exact (KL _ E)); try (injection E as <- _; exact A);
    match type of E with option_map _ ?x = _ => destruct x as [h1|] eqn:C; cbn [option_map] in E; [injection E as -> _|discriminate E] end.
  - unfold cardVM in C. tops; ended; apply K; split; reflexivity.
  - unfold cardDM in C. tops; ended; apply K; split; reflexivity.
  - clear K KL. unfold cardBR in C. destruct (box6 _) as [[ty [|]]|]; try discriminate. destruct (parseBR _ ty) as [reg|] eqn:P; [|discriminate]. ended.
    cbn [setB h_bpar h_breg]. unfold parseBR in P. rewrite (br_loop_len _ _ _ _ P), app_length, A. reflexivity.
  - clear K KL. unfold cardBE in C. destruct (box6 _) as [[ty [|]]|]; try discriminate. destruct (parseBE _ ty) as [reg|] eqn:P; [|discriminate]. ended.
    cbn [setB h_bpar h_breg]. unfold parseBE in P. rewrite (be_loop_len _ _ _ _ P). exact A.
  - unfold cardMT in C. tops; ended; apply K; split; reflexivity.
  - clear K KL. unfold cardBT in C. tops; ended; cbn [setB h_bpar h_breg]; rewrite len_add, app_length, A; cbn; lia.
  - unfold cardWT in C. tops; ended; apply K; split; reflexivity.
  - unfold cardMB in C. tops; ended; apply K; split; reflexivity.
  - unfold cardTB in C. tops; ended; apply K; split; reflexivity.
  - unfold cardTW in C. tops; ended; apply K; split; reflexivity.
  - unfold cardWF in C. tops; ended; apply K; split; reflexivity.
  - unfold cardEX in C. tops; ended; apply K;
    match goal with |- context [h_bpar (if ?b then ?x else ?y)] => destruct b; split; reflexivity end.
  - unfold cardPW in C. tops; ended; apply K; split; reflexivity.
  - unfold cardOP in C. tops; ended; apply K; split; reflexivity.
  - unfold cardNT in C. tops; ended; apply K; split; reflexivity.
  - unfold cardOT in C. tops; ended; apply K; split; reflexivity.
  - unfold cardOF in C. tops; ended; apply K; split; reflexivity.
  - unfold cardCN in C. tops; ended; apply K; split; reflexivity.
  - unfold cardMS in C. tops; ended; apply K; split; reflexivity.
Qed.

Lemma read_aligned df file st h tr : readMeshFile df file = Acc (st, h, tr) -> aligned h.
Proof.
  intros E. eapply (readLoop_inv (handler df) (fun _ h _ => aligned h)); [|exact (eq_refl : aligned mesh0)|exact E].
  intros st0 h0 tr0 c arg rest st1 h1 used I E1. unfold stepCard in E1. destruct (checkCard st0 c) as [[]| |]; cbn [obnd] in E1; try discriminate.
  destruct (hasFunc c).
  - destruct (handler df h0 c arg rest) as [[h2 u2]|] eqn:HE; cbn [obnd] in E1; [|discriminate]. destruct (special _ c); cbn [obnd] in E1; try discriminate. destruct (endSection _ c); cbn [obnd] in E1; try discriminate.
    injection E1 as <- <- <-. exact (aligned_card _ _ _ _ _ _ _ HE I).
  - cbn [obnd] in E1. destruct (special _ c); cbn [obnd] in E1; try discriminate. destruct (endSection _ c); cbn [obnd] in E1; try discriminate. injection E1 as <- <- <-. exact I.
Qed.
(** Only impedance sheets need their data: if the data of each boundary of type
    SIBC can be used, the set-up of the boundaries succeeds, whatever the other
    boundaries of the mesh are. *)
Lemma needed files dt : forall reg par,
  (forall n it p, nth_error reg n = Some it -> btype (idata it) = BT_SIBC -> nth_error par n = Some p ->
     (b_file p <> ""%string -> exists r, initSibcFile (files (b_file p)) dt = Got r) /\
     (b_file p = ""%string -> exists r, initSibcBoundary (m2l (b_tm p)) (m2l (b_te p)) dt = Some r)) ->
  exists rcm, initBoundaries files dt reg par = Got rcm.
Proof.
  induction reg as [|it reg IH]; intros [|p par] H; try (eexists; reflexivity).
  cbn [initBoundaries].
  destruct (IH par) as (rs & ->). { intros n it0 p0 N T P. exact (H (Datatypes.S n) it0 p0 N T P). }
  pose proof (H O it p eq_refl) as Q. destruct (btype (idata it)); try (eexists; reflexivity).
  destruct (Q eq_refl eq_refl) as (Q1 & Q2). unfold initSibc. destruct (String.eqb (b_file p) "") eqn:F.
  - apply String.eqb_eq in F. destruct (Q2 F) as (r & ->). eexists; reflexivity.
  - apply String.eqb_neq in F. destruct (Q1 F) as (r & ->). eexists; reflexivity.
Qed.
Theorem C71_needed : forall df mesh st h tr files dt, readMeshFile df mesh = Acc (st, h, tr) ->
  (forall n it p, nth_error (h_breg h) n = Some it -> btype (idata it) = BT_SIBC -> nth_error (h_bpar h) n = Some p ->
     (b_file p <> ""%string -> exists r, initSibcFile (files (b_file p)) dt = Got r) /\
     (b_file p = ""%string -> exists r, initSibcBoundary (m2l (b_tm p)) (m2l (b_te p)) dt = Some r)) ->
  exists rcm, initBoundaries files dt (h_breg h) (h_bpar h) = Got rcm.
Proof. intros. apply needed. assumption. Qed.
(** In every accepted mesh file each SIBC boundary has its own parameters, and
    the filters of its sheets come from them: from the scattering parameters on
    the card or from the file named on it. *)
Theorem C71_mesh : forall df mesh st h tr files dt rcm, readMeshFile df mesh = Acc (st, h, tr) ->
  initBoundaries files dt (h_breg h) (h_bpar h) = Got rcm ->
  forall n it, nth_error (h_breg h) n = Some it -> btype (idata it) = BT_SIBC ->
  exists p, nth_error (h_bpar h) n = Some p /\
    (b_file p <> ""%string -> initSibcFile (files (b_file p)) dt = Got (rcm n)) /\
    (b_file p = ""%string -> initSibcBoundary (m2l (b_tm p)) (m2l (b_te p)) dt = Some (rcm n)).
Proof.
  intros df mesh st h tr files dt rcm E IB n it N T. pose proof (read_aligned _ _ _ _ _ E) as A. unfold aligned in A.
  destruct (nth_error (h_bpar h) n) as [p|] eqn:P.
  2:{ apply nth_error_None in P. pose proof (proj1 (nth_error_Some (h_breg h) n) ltac:(congruence)). lia. }
  exists p. split; [reflexivity|]. pose proof (boundary_filters files dt h n it p rcm IB N T P) as Q. unfold initSibc in Q. split; intros F.
  - apply String.eqb_neq in F. rewrite F in Q. exact Q.
  - rewrite F in Q. cbn [String.eqb] in Q. destruct (initSibcBoundary _ _ dt); [injection Q as ->; reflexivity|discriminate].
Qed.
