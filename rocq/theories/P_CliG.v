(** C40 for the mesh renderer gvulture. *)
From Coq Require Import ZArith List Bool Ascii String Lia.
From Verif Require Import Cli CliG SpecCliG.
Import ListNotations.
Open Scope string_scope.
Open Scope list_scope.

Lemma not_dash f : (forall r, f <> String "-" r) -> match f with String "-"%char _ => true | _ => false end = false.
Proof.
  intros NF. destruct f as [|ch r]; [reflexivity|]. destruct (Ascii.eqb_spec ch "-"%char) as [->|NE]; [exfalso; apply (NF r); reflexivity|].
  destruct ch as [[] [] [] [] [] [] [] []]; try reflexivity; exfalso; apply NE; reflexivity.
Qed.
(** the effect of one documented option *)
Definition effect (a : string) (o : GOptions) : GOptions :=
  if String.eqb a "-v" || String.eqb a "--verbose" then mkGO true (physicalUnits o) (format o) (externalSurfaces o)
  else if String.eqb a "-p" || String.eqb a "--physical" then mkGO (gverbose o) true (format o) (externalSurfaces o)
  else if String.eqb a "-e" || String.eqb a "--no-ext-surf" then mkGO (gverbose o) (physicalUnits o) (format o) false
  else if String.eqb a "-g" || String.eqb a "--gnuplot" then mkGO (gverbose o) (physicalUnits o) GF_GNUPLOT (externalSurfaces o)
  else mkGO (gverbose o) (physicalUnits o) GF_GMSH (externalSurfaces o).
Lemma parse_flags args tail : (forall a, In a args -> In a render_flags) -> forall o, gparseOption (args ++ tail) o = gparseOption tail (fold_left (fun o a => effect a o) args o).
Proof.
  induction args as [|a args IH]; intros D o; [reflexivity|]. cbn [app fold_left]. rewrite <- IH by (intros x I; apply D; right; exact I).
  pose proof (D a (or_introl eq_refl)) as I. clear D IH. unfold render_flags in I. do 10 (destruct I as [<-|I]; [reflexivity|]). destruct I.
Qed.
Lemma given_app s l a b : given s l (a ++ b) <-> given s l a \/ given s l b.
Proof. unfold given. rewrite !in_app_iff. tauto. Qed.
Lemma effects args : (forall a, In a args -> In a render_flags) -> asked args (fold_left (fun o a => effect a o) args goptions0).
Proof.
  induction args as [|a args IH] using rev_ind; intros D.
  - cbn [fold_left]. unfold asked, given, goptions0. cbn. repeat split; try tauto; try discriminate. apply lf_none; unfold given; cbn; tauto.
  - rewrite fold_left_app. cbn [fold_left]. assert (D' : forall a, In a args -> In a render_flags) by (intros x I; apply D, in_or_app; left; exact I).
    specialize (IH D'). set (o := fold_left (fun o a => effect a o) args goptions0) in *. clearbody o. destruct IH as (V & P & E & F).
    assert (I : In a render_flags) by (apply D, in_or_app; right; left; reflexivity).
    assert (KEEP : forall g, last_format args g -> ~ given "-g" "--gnuplot" [a] -> ~ given "-m" "--gmsh" [a] -> last_format (args ++ [a]) g).
    { intros g [args0 N1 N2|pre x post X N|pre x post X N] G M.
      - apply lf_none; rewrite given_app; tauto.
      - rewrite <- app_assoc. cbn [app]. apply lf_g; [exact X|]. rewrite given_app. tauto.
      - rewrite <- app_assoc. cbn [app]. apply lf_m; [exact X|]. rewrite given_app. tauto. }
    unfold asked. rewrite !given_app.
    assert (G1 : forall s l, given s l [a] <-> s = a \/ l = a) by (intros s l; unfold given; cbn [In]; split; intros [H|H]; (try destruct H as [H|[]]); auto).
    rewrite !G1 in *.
    unfold render_flags in I. do 10 (destruct I as [<-|I]; [
      cbn [effect String.eqb Ascii.eqb Bool.eqb orb gverbose physicalUnits externalSurfaces format];
      split; [first [rewrite V; intuition congruence | intuition congruence]|]; split; [first [rewrite P; intuition congruence | intuition congruence]|]; split; [first [rewrite E; intuition congruence | intuition congruence]|];
      first [apply KEEP; [exact F| |]; rewrite G1; intros [X|X]; discriminate X
            | apply lf_g; [auto|]; intros [X|X]; destruct X | apply lf_m; [auto|]; intros [X|X]; destruct X] |]). destruct I.
Qed.

(** Every documented command line renders the named file with exactly what it
    asks for. *)
Theorem C40_renderer : forall args f, (forall a, In a args -> In a render_flags) -> file_name f ->
  exists o, gparseOption (args ++ [f]) goptions0 = GRun o f false /\ asked args o.
Proof.
  intros args f D (NF & LF). rewrite (parse_flags args [f] D). eexists. split; [|apply effects; exact D].
  cbn [gparseOption]. rewrite (not_dash f NF). unfold gfinish. apply Nat.ltb_lt in LF. unfold PATH_SIZE. rewrite LF. reflexivity.
Qed.
(** Help and version stop it with status 0; anything else that begins with a
    dash stops it with the usage text and status 1. *)
Theorem C40_renderer_stops : forall args a rest o, (forall x, In x args -> In x render_flags) ->
  (a = "-h" \/ a = "--help" -> gparseOption (args ++ a :: rest) o = GExit PUsage 0) /\
  (a = "-V" \/ a = "--version" -> gparseOption (args ++ a :: rest) o = GExit PVersion 0) /\
  (forall c r, a = String "-" (String c r) -> ~ In c ["-"; "h"; "V"; "v"; "p"; "e"; "g"; "m"]%char -> gparseOption (args ++ a :: rest) o = GExit PUsage 1).
Proof.
  intros args a rest o D. rewrite (parse_flags args (a :: rest) D). set (o' := fold_left _ args o). clearbody o'.
  split; [intros [-> | ->]; reflexivity|]. split; [intros [-> | ->]; reflexivity|].
  intros c r -> N. cbn [gparseOption]. unfold isOpt. cbn [strncmp0 Ascii.eqb Bool.eqb].
  assert (K : forall d, In d ["-"; "h"; "V"; "v"; "p"; "e"; "g"; "m"]%char -> Ascii.eqb c d = false).
  { intros d I. apply Ascii.eqb_neq. intros ->. exact (N I). }
  cbn [In] in K. repeat (rewrite K by tauto). reflexivity.
Qed.
(** Undefined behaviour only through a file name of 1024 characters or more. *)
Theorem C40_renderer_no_crash : forall args o, (forall a, In a args -> (String.length a < 1024)%nat) -> gparseOption args o <> GUndefined.
Proof.
  induction args as [|a rest IH]; intros o L; [discriminate|].
  assert (IR : forall o, gparseOption rest o <> GUndefined) by (intros o'; apply IH; intros x I; apply L; right; exact I).
  assert (FI : gfinish (a :: rest) o <> GUndefined).
  { unfold gfinish. destruct rest; [|discriminate].
    assert (Q : (String.length a <? PATH_SIZE)%nat = true) by (apply Nat.ltb_lt; apply L; left; reflexivity). rewrite Q. discriminate. }
  cbn [gparseOption]. destruct (match a with String "-"%char _ => true | _ => false end); [|exact FI].
  repeat match goal with |- (if ?b then _ else _) <> _ => destruct b; [first [discriminate|apply IR]|] end. discriminate.
Qed.
Theorem C40_renderer_long_name_refuted : forall args f o, (forall a, In a args -> In a render_flags) -> (forall r, f <> String "-" r) -> (1024 <= String.length f)%nat ->
  gparseOption (args ++ [f]) o = GUndefined.
Proof.
  intros args f o D NF L. rewrite (parse_flags args [f] D). cbn [gparseOption]. rewrite (not_dash f NF). unfold gfinish.
  destruct (Nat.ltb_spec (String.length f) PATH_SIZE) as [H|H]; [unfold PATH_SIZE in H; lia|reflexivity].
Qed.
(** With no file, or several, the usage text is printed but the rendering goes on,
    with an empty file name. *)
Theorem C40_renderer_files_refuted : forall args files, (forall a, In a args -> In a render_flags) -> (forall f, In f files -> forall r, f <> String "-" r) -> List.length files <> 1%nat ->
  exists o, gparseOption (args ++ files) goptions0 = GRun o "" true /\ asked args o.
Proof.
  intros args files D NF L. rewrite (parse_flags args files D). eexists. split; [|apply effects; exact D].
  assert (FI : forall o, gfinish files o = GRun o "" true) by (intros o; destruct files as [|x [|y r]]; try reflexivity; cbn in L; congruence).
  destruct files as [|f r]; [reflexivity|]. cbn [gparseOption]. rewrite (not_dash f (NF f (or_introl eq_refl))). apply FI.
Qed.
Example C40_renderer_nonvacuous : gparseOption ["-m"; "-p"; "--gnuplot"; "a.mesh"] goptions0 = GRun (mkGO false true GF_GNUPLOT true) "a.mesh" false /\
  file_name "a.mesh" /\ (forall a, In a ["-m"; "-p"; "--gnuplot"] -> In a render_flags).
Proof. split; [reflexivity|]. split; [split; [discriminate|apply Nat.ltb_lt; reflexivity]|]. intros a I. unfold render_flags. cbn in *. tauto. Qed.
