(** C40: command line handling. *)
From Coq Require Import ZArith List Bool Ascii String Lia.
From Verif Require Import Cli SpecCli.
Import ListNotations.
Open Scope string_scope.
Open Scope list_scope.

(** Every documented command line without --readmesh and --numproc runs the
    solver on the named file with exactly the settings it lists, without
    complaint. *)
Theorem C40_documented_partial : forall threads args o o' f, command threads args o o' f ->
  (forall a, In a args -> ~ misspelt a) -> parseOption threads args o = Run o' f false.
Proof.
  intros threads args o o' f H. induction H as [f o NF LF|w s rest o o' f D C IH]; intros M.
  - cbn [parseOption]. assert (Q : match f with String "-"%char _ => true | _ => false end = false).
    { destruct f as [|ch r]; [reflexivity|]. destruct (Ascii.eqb_spec ch "-"%char) as [->|NE]; [exfalso; apply (NF r); reflexivity|].
      destruct ch as [[] [] [] [] [] [] [] []]; try reflexivity; exfalso; apply NE; reflexivity. }
    rewrite Q. unfold finish. assert (L : (String.length f <? PATH_SIZE)%nat = true) by (apply Nat.ltb_lt; exact LF). rewrite L. reflexivity.
  - assert (MR : forall a, In a rest -> ~ misspelt a) by (intros a Ha; apply M; apply in_or_app; auto). specialize (IH MR).
    destruct D; try exact IH.
    + exfalso. apply (M "--readmesh"); [left; reflexivity|left; reflexivity].
    + change (parseOption threads (["-n"; v] ++ rest) o) with
        (match threads v with None => Undefined | Some n => if (n =? 0)%Z then Exit PUsage 1 else parseOption threads rest (setThreads n o) end).
      rewrite H. destruct (Z.eqb_spec n 0); [lia|]. exact IH.
    + exfalso. apply (M "--numproc"); [left; reflexivity|right; reflexivity].
Qed.

(** The help, version and licence options stop the program with status 0, and
    an argument that begins with '-' and matches no option stops it with the
    usage text and status 1, after any documented options. *)
Definition known (a : string) : bool :=
  isOpt a "-h" "--help" 6 || isOpt a "-V" "--version" 9 || isOpt a "-v" "--verbose" 9 || isOpt a "-m" "--read-mesh" 11 ||
  isOpt a "-n" "--num-proc" 10 || isOpt a "-p" "--preprocess" 12 || isOpt a "-g" "--dump-grid" 11 || isOpt a "-l" "--licence" 11.
Inductive stops : string -> Outcome -> Prop :=
| stop_h a : In a ["-h"; "--help"] -> stops a (Exit PUsage 0)
| stop_V a : In a ["-V"; "--version"] -> stops a (Exit PVersion 0)
| stop_l : stops "--licence" (Exit PLicence 0)
| stop_bad r : known (String "-" r) = false -> stops (String "-" r) (Exit PUsage 1).
Theorem C40_stops : forall threads ws rest a out o,
  (forall w, In w ws -> exists s, documented threads w s /\ (forall x, In x w -> ~ misspelt x)) -> stops a out ->
  parseOption threads (List.concat ws ++ a :: rest) o = out.
Proof.
  intros threads ws. induction ws as [|w ws IH]; intros rest a out o D S.
  - cbn [List.concat app]. destruct S as [a H|a H| |r H]; try reflexivity.
    + destruct H as [<-|[<-|[]]]; reflexivity.
    + destruct H as [<-|[<-|[]]]; reflexivity.
    + cbn [parseOption]. unfold known in H. repeat (apply orb_false_iff in H; destruct H as (H & ?)).
      repeat match goal with E : isOpt _ _ _ _ = false |- _ => rewrite E; clear E end.
      unfold isOpt. rewrite H. match goal with E : strncmp0 _ "--help" 6 = false |- _ => rewrite E end. reflexivity.
  - cbn [List.concat]. rewrite <- app_assoc. destruct (D w (or_introl eq_refl)) as (s & Dw & Mw).
    assert (IH' : forall o, parseOption threads (List.concat ws ++ a :: rest) o = out) by (intros; apply IH; auto; intros; apply D; right; auto).
    destruct Dw; try (apply IH').
    + exfalso. apply (Mw "--readmesh"); [left; reflexivity|left; reflexivity].
    + change (parseOption threads (["-n"; v] ++ List.concat ws ++ a :: rest) o) with
        (match threads v with None => Undefined | Some n => if (n =? 0)%Z then Exit PUsage 1 else parseOption threads (List.concat ws ++ a :: rest) (setThreads n o) end).
      rewrite H. destruct (Z.eqb_spec n 0); [lia|]. apply IH'.
    + exfalso. apply (Mw "--numproc"); [left; reflexivity|right; reflexivity].
Qed.

(** Undefined behaviour happens only through a missing or unconvertible thread
    number or a file name of 1024 characters or more. *)
Theorem C40_no_crash_partial : forall threads args o,
  (forall a, In a args -> (String.length a < 1024)%nat) ->
  (forall pre a post, args = pre ++ a :: post -> isOpt a "-n" "--num-proc" 10 = true ->
     exists v post' n, post = v :: post' /\ threads v = Some n) ->
  parseOption threads args o <> Undefined.
Proof.
  intros threads args.
  assert (G : forall n args, (List.length args <= n)%nat -> forall o,
    (forall a, In a args -> (String.length a < 1024)%nat) ->
    (forall pre a post, args = pre ++ a :: post -> isOpt a "-n" "--num-proc" 10 = true ->
       exists v post' n, post = v :: post' /\ threads v = Some n) ->
    parseOption threads args o <> Undefined).
  2:{ intros o. eapply G; eauto. }
  clear args. induction n as [|n IH]; intros args LN o LA NV.
  - destruct args; [|cbn in LN; lia]. discriminate.
  - destruct args as [|a rest]; [discriminate|]. cbn [List.length] in LN.
    assert (IR : forall o, parseOption threads rest o <> Undefined).
    { intros o'. apply IH; [lia| |].
      - intros x Hx. apply LA. right; auto.
      - intros pre x post E. apply (NV (a :: pre) x post). cbn [app]. rewrite E. reflexivity. }
    assert (FI : finish (a :: rest) o <> Undefined).
    { unfold finish. destruct rest; [|discriminate].
      assert (Q : (String.length a <? PATH_SIZE)%nat = true) by (apply Nat.ltb_lt; apply LA; left; reflexivity). rewrite Q. discriminate. }
    cbn [parseOption]. destruct (match a with String "-"%char _ => true | _ => false end); [|exact FI].
    repeat match goal with |- (if isOpt a "-n" _ _ then _ else _) <> _ => fail 1 | |- (if ?b then _ else _) <> _ => destruct b eqn:?; [first [discriminate|apply IR]|] end.
    destruct (isOpt a "-n" "--num-proc" 10) eqn:EN.
    + destruct (NV [] a rest eq_refl EN) as (v & post & z & -> & T). rewrite T.
      destruct (z =? 0)%Z; [discriminate|]. apply IH; [cbn in LN; lia| |].
      * intros x Hx. apply LA. right; right; auto.
      * intros pre x post' E. apply (NV (a :: v :: pre) x post'). cbn [app]. rewrite E. reflexivity.
    + repeat match goal with |- (if ?b then _ else _) <> _ => destruct b eqn:?; [first [discriminate|apply IR]|] end. discriminate.
Qed.

(** The claim in full is false. *)
(** A trailing -n dereferences NULL, whatever precedes it. *)
Theorem C40_missing_value_refuted : forall threads ws,
  (forall w, In w ws -> exists s, documented threads w s /\ (forall x, In x w -> ~ misspelt x)) ->
  forall o, parseOption threads (List.concat ws ++ ["-n"]) o = Undefined.
Proof.
  intros threads ws. induction ws as [|w ws IH]; intros D o; [reflexivity|].
  cbn [List.concat]. rewrite <- app_assoc. destruct (D w (or_introl eq_refl)) as (s & Dw & Mw).
  assert (IH' : forall o, parseOption threads (List.concat ws ++ ["-n"]) o = Undefined) by (intros; apply IH; auto; intros; apply D; right; auto).
  destruct Dw; try (apply IH').
  + exfalso. apply (Mw "--readmesh"); [left; reflexivity|left; reflexivity].
  + change (parseOption threads (["-n"; v] ++ List.concat ws ++ ["-n"]) o) with
      (match threads v with None => Undefined | Some n => if (n =? 0)%Z then Exit PUsage 1 else parseOption threads (List.concat ws ++ ["-n"]) (setThreads n o) end).
    rewrite H. destruct (Z.eqb_spec n 0); [lia|]. apply IH'.
  + exfalso. apply (Mw "--numproc"); [left; reflexivity|right; reflexivity].
Qed.
(** The documented long forms --readmesh and --numproc are rejected. *)
Theorem C40_long_forms_refuted : forall threads rest o a, misspelt a ->
  parseOption threads (a :: rest) o = Exit PUsage 1.
Proof. intros threads rest o a [-> | ->]; reflexivity. Qed.
(** With no file or several files the usage text is printed but the run goes
    on, with an empty file name. *)
Theorem C40_files_refuted : forall threads args o,
  (forall a, In a args -> forall r, a <> String "-" r) -> List.length args <> 1%nat ->
  parseOption threads args o = Run o "" true.
Proof.
  intros threads args o NF L.
  assert (FI : finish args o = Run o "" true) by (destruct args as [|x [|y r]]; try reflexivity; cbn in L; congruence).
  destruct args as [|f r]; [reflexivity|]. cbn [parseOption].
  assert (Q : match f with String "-"%char _ => true | _ => false end = false).
  { pose proof (NF f (or_introl eq_refl)) as N0. destruct f as [|ch s]; [reflexivity|].
    destruct (Ascii.eqb_spec ch "-"%char) as [->|NE]; [exfalso; apply (N0 s); reflexivity|].
    destruct ch as [[] [] [] [] [] [] [] []]; try reflexivity; exfalso; apply NE; reflexivity. }
  rewrite Q. exact FI.
Qed.
(** Only the first two characters of a short option are looked at. *)
Example C40_prefix_refuted : forall threads, parseOption threads ["-vanish"; "m.mesh"] options0 = Run (setVerbose options0) "m.mesh" false.
Proof. reflexivity. Qed.

Example C40_nonvacuous : forall threads, threads "4" = Some 4%Z ->
  command threads ["-p"; "-n"; "4"; "--verbose"; "a.mesh"] options0 (mkOpt true false true false 4) "a.mesh" /\
  (forall a, In a ["-p"; "-n"; "4"; "--verbose"; "a.mesh"] -> ~ misspelt a).
Proof.
  intros threads T. split.
  - apply (cmd_opt threads ["-p"] setPreprocess); [constructor|].
    apply (cmd_opt threads ["-n"; "4"] (setThreads 4)); [constructor; [exact T|reflexivity]|].
    apply (cmd_opt threads ["--verbose"] setVerbose); [constructor|].
    apply cmd_file; [discriminate|apply Nat.ltb_lt; reflexivity].
  - intros a H [-> | ->]; cbn in H; repeat (destruct H as [H|H]; [discriminate H|]); exact H.
Qed.
Print Assumptions C40_documented_partial.
Print Assumptions C40_no_crash_partial.
