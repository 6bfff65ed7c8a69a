(** C87: messages, log file and exit status. *)
From Coq Require Import ZArith List Bool Ascii String Arith Lia.
From Verif Require Import Cli CliG Message SpecMessage.
Import ListNotations.
Open Scope string_scope.
Open Scope list_scope.

Lemma app_assoc_s : forall a b c : string, ((a ++ b) ++ c = a ++ (b ++ c))%string.
Proof. induction a; intros; cbn; [reflexivity|rewrite IHa; reflexivity]. Qed.
Lemma app_nil_s : forall a : string, (a ++ "" = a)%string.
Proof. induction a; cbn; [reflexivity|rewrite IHa; reflexivity]. Qed.
Lemma join_cons : forall a l, join (a :: l) = (a ++ join l)%string.
Proof. intros a [|b l]; cbn; [rewrite app_nil_s|]; reflexivity. Qed.
Lemma join_nil : join [] = "". Proof. reflexivity. Qed.
Lemma join_app : forall a b, join (a ++ b) = (join a ++ join b)%string.
Proof. induction a as [|x a IH]; intros; [reflexivity|]. cbn [app]. rewrite !join_cons, IH, app_assoc_s. reflexivity. Qed.

(** the state after messages, in terms of lists *)
Definition shown (v : bool) (m : Msg) : bool := v || is_plain m.
Definition after se prog v l0 e0 pr (ms : list Msg) : Proc :=
  mkProc (Some (l0 ++ join (map (full se) (filter (shown v) (until_error ms))))%string)
         (e0 ++ join (map (fun m => join [prog; ": "; full se m]) (filter is_alert (until_error ms))))%string
         pr (if existsb is_error ms then Some 6%Z else None).

Lemma message_after : forall se prog v l0 e0 pr m,
  message se prog (level v) m (mkProc (Some l0) e0 pr None) = after se prog v l0 e0 pr [m].
Proof.
  intros se prog v l0 e0 pr [st en tx]. unfold after, shown, message, full.
  destruct st, v; cbn -[String.append join Z.eqb]; rewrite ?join_nil, ?app_nil_s; try reflexivity.
  all: destruct (Z.eqb_spec en 0) as [->|NE]; unfold toLog, toErr, leave; cbn -[String.append join];
    repeat rewrite join_cons; rewrite ?join_nil, ?app_nil_s; rewrite ?app_assoc_s; try reflexivity.
  all: destruct en; [exfalso; apply NE; reflexivity| |]; repeat rewrite app_assoc_s; reflexivity.
Qed.
Lemma phase_stopped : forall se prog lv ms p c, exitStatus p = Some c -> phase se prog lv ms p = p.
Proof. intros. destruct ms; [reflexivity|]. cbn. rewrite H. reflexivity. Qed.
Lemma phase_after : forall se prog v ms l0 e0 pr,
  phase se prog (level v) ms (mkProc (Some l0) e0 pr None) = after se prog v l0 e0 pr ms.
Proof.
  intros se prog v ms. induction ms as [|m ms IH]; intros.
  - unfold after. cbn -[String.append]. rewrite !app_nil_s. reflexivity.
  - cbn [phase exitStatus]. rewrite message_after. unfold after. cbn [existsb until_error]. destruct (is_error m) eqn:E.
    + cbn [orb]. erewrite phase_stopped by reflexivity. reflexivity.
    + cbn [orb]. rewrite IH. unfold after. cbn [filter]. destruct (shown v m); destruct (is_alert m); cbn [map];
        rewrite ?join_cons; rewrite ?join_nil, ?app_nil_s; rewrite ?app_assoc_s; cbn [map]; rewrite ?join_nil, ?app_nil_s; try reflexivity.
Qed.
Lemma until_app : forall a b, until_error (a ++ b) = if existsb is_error a then until_error a else until_error a ++ until_error b.
Proof. induction a as [|m a IH]; intros; [reflexivity|]. cbn. destruct (is_error m); [reflexivity|]. cbn [orb]. rewrite IH. destruct (existsb is_error a); reflexivity. Qed.
Lemma after_step : forall se prog v l0 e0 pr a b K K',
  (forall l e, K (mkProc (Some l) e pr None) = andThen (after se prog v l e pr b) K') ->
  andThen (after se prog v l0 e0 pr a) K = andThen (after se prog v l0 e0 pr (a ++ b)) K'.
Proof.
  intros se prog v l0 e0 pr a b K K' H. unfold after. rewrite until_app, existsb_app. destruct (existsb is_error a) eqn:E.
  - cbn [orb andThen exitStatus]. reflexivity.
  - cbn [orb]. unfold andThen at 1. cbn [exitStatus]. rewrite H. unfold after. rewrite !filter_app, !map_app, !join_app, !app_assoc_s. reflexivity.
Qed.
Lemma after_end : forall se prog v l0 e0 pr a,
  andThen (after se prog v l0 e0 pr a) (leave 0) =
  mkProc (Some (l0 ++ join (map (full se) (filter (shown v) (until_error a))))%string)
         (e0 ++ join (map (fun m => join [prog; ": "; full se m]) (filter is_alert (until_error a))))%string
         pr (Some (expected_status a)).
Proof. intros. unfold after, andThen, expected_status. cbn [exitStatus]. destruct (existsb is_error a); reflexivity. Qed.
Lemma after_skip : forall se prog v l e pr K, andThen (after se prog v l e pr []) K = K (mkProc (Some l) e pr None).
Proof. intros. unfold after, andThen. cbn -[String.append]. rewrite !app_nil_s. reflexivity. Qed.

(** The solver: whatever the command line, once it is accepted and the log file
    is open, the log holds its title and then, in order, every message of the
    parts asked for up to the first error - all of them when verbose, otherwise
    the log, warning and error messages; stderr holds every warning and the
    error; the exit status is 6 with an error and 0 without. *)
Theorem C87_vulture : forall threads strerror script args o f u,
  parseOption threads args options0 = Run o f u ->
  let ms := asked (readOnly o) (dumpGrid o) (preprocessOnly o) (script f) in
  vultureMain threads strerror true script args =
  Some (mkProc (Some (expected_log strerror (title "Vulture" "0.7.1") (verbose o) ms))
               (expected_err strerror "Vulture" ms)
               (if u then Some PUsage else None)
               (Some (expected_status ms))).
Proof.
  intros threads se script args o f u P. cbv zeta. unfold vultureMain. rewrite P. f_equal.
  set (t := title "Vulture" "0.7.1").
  assert (ST : startMessaging true "vulture.log" "Vulture" "0.7.1" (prints u proc0) = mkProc (Some t) "" (if u then Some PUsage else None) None).
  { destruct u; reflexivity. }
  rewrite ST. generalize (if u then Some PUsage else None). intros pr. unfold andThen at 1. cbn [exitStatus]. rewrite phase_after.
  unfold expected_log, expected_err. rewrite join_cons. change (fun m => (verbose o || is_plain m)%bool) with (shown (verbose o)).
  unfold asked. destruct (readOnly o).
  { rewrite app_nil_r. rewrite <- (after_end se "Vulture" (verbose o) t "" pr). reflexivity. }
  transitivity (andThen (after se "Vulture" (verbose o) t "" pr
    (reading (script f) ++ setup (script f) ++ (if dumpGrid o then dumping (script f) else []) ++ (if preprocessOnly o then [] else stepping (script f)) ++ tidying (script f))) (leave 0)).
  2:{ rewrite after_end. reflexivity. }
  apply after_step. intros l e. rewrite phase_after. apply after_step. clear l e. intros l e.
  transitivity (andThen (after se "Vulture" (verbose o) l e pr (if dumpGrid o then dumping (script f) else []))
     (fun p => andThen (if preprocessOnly o then p else phase se "Vulture" (level (verbose o)) (stepping (script f)) p)
                       (fun p => andThen (phase se "Vulture" (level (verbose o)) (tidying (script f)) p) (leave 0)))).
  { destruct (dumpGrid o); [rewrite phase_after; reflexivity|]. rewrite after_skip. reflexivity. }
  apply after_step. clear l e. intros l e.
  transitivity (andThen (after se "Vulture" (verbose o) l e pr (if preprocessOnly o then [] else stepping (script f)))
     (fun p => andThen (phase se "Vulture" (level (verbose o)) (tidying (script f)) p) (leave 0))).
  { destruct (preprocessOnly o); [|rewrite phase_after; reflexivity]. rewrite after_skip. reflexivity. }
  apply after_step. clear l e. intros l e. rewrite phase_after. reflexivity.
Qed.

(** The renderer likewise. *)
Theorem C87_gvulture : forall strerror reads drawing args o f u,
  gparseOption args goptions0 = GRun o f u ->
  let ms := reads f ++ drawing f (format o) (physicalUnits o) (externalSurfaces o) in
  gvultureMain strerror true reads drawing args =
  Some (mkProc (Some (expected_log strerror (title "gvulture" "0.7.0") (gverbose o) ms))
               (expected_err strerror "gvulture" ms)
               (if u then Some PUsage else None)
               (Some (expected_status ms))).
Proof.
  intros se reads drawing args o f u P. cbv zeta. unfold gvultureMain. rewrite P. f_equal.
  set (t := title "gvulture" "0.7.0").
  assert (ST : startMessaging true "gvulture.log" "gvulture" "0.7.0" (prints u proc0) = mkProc (Some t) "" (if u then Some PUsage else None) None).
  { destruct u; reflexivity. }
  rewrite ST. generalize (if u then Some PUsage else None). intros pr. unfold andThen at 1. cbn [exitStatus]. rewrite phase_after.
  unfold expected_log, expected_err. rewrite join_cons. change (fun m => (gverbose o || is_plain m)%bool) with (shown (gverbose o)).
  match goal with |- andThen (after _ _ _ _ _ _ ?a) _ = _ => set (A := a) end.
  match goal with |- context [A ++ ?b] => set (B := b) end.
  transitivity (andThen (after se "gvulture" (gverbose o) t "" pr (A ++ B)) (leave 0)).
  2:{ rewrite after_end. reflexivity. }
  apply after_step. intros l e. rewrite phase_after. reflexivity.
Qed.

(** A run that cannot create its log file says so and ends with status 1, and a
    command line that is turned down leaves no log file and nothing on stderr. *)
Theorem C87_no_log : forall threads strerror script args o f u,
  (parseOption threads args options0 = Run o f u ->
   vultureMain threads strerror false script args =
   Some (mkProc None (join ["Vulture: ERROR: Failed to open log file vulture.log"; nl]) (if u then Some PUsage else None) (Some 1%Z))) /\
  (forall opens pr c, parseOption threads args options0 = Exit pr c ->
   vultureMain threads strerror opens script args = Some (mkProc None "" (Some pr) (Some c))).
Proof.
  intros threads se script args o f u. split.
  - intros P. unfold vultureMain. rewrite P. destruct u; reflexivity.
  - intros opens pr c P. unfold vultureMain. rewrite P. reflexivity.
Qed.

(** No option hides an alert: an error sent by a part of the program that runs,
    with no error before it, is the last thing on stderr and in the log and gives
    the status 6; a warning before any error is in both. *)
Theorem C87_alerts_shown : forall threads strerror script args o f u pre m post,
  parseOption threads args options0 = Run o f u ->
  asked (readOnly o) (dumpGrid o) (preprocessOnly o) (script f) = pre ++ m :: post ->
  (forall x, In x pre -> status x <> MSG_ERROR) ->
  status m = MSG_ERROR \/ status m = MSG_WARN ->
  exists lg er p st l1 l2 e1 e2, vultureMain threads strerror true script args = Some (mkProc (Some lg) er p (Some st)) /\
    lg = join [l1; full strerror m; l2] /\ er = join [e1; "Vulture: "; full strerror m; e2] /\
    (status m = MSG_ERROR -> st = 6%Z /\ l2 = "" /\ e2 = "").
Proof.
  intros threads se script args o f u pre m post P A N S. rewrite (C87_vulture _ _ _ _ _ _ _ P). rewrite A.
  assert (NE : existsb is_error pre = false).
  { destruct (existsb is_error pre) eqn:E; [|reflexivity]. exfalso. apply existsb_exists in E. destruct E as (x & Hx & Ex).
    apply (N x Hx). unfold is_error in Ex. destruct (status x); congruence. }
  unfold expected_log, expected_err, expected_status. rewrite existsb_app, until_app, NE. cbn [orb until_error existsb].
  set (r := until_error post).
  assert (AL : is_alert m = true) by (unfold is_alert; destruct S as [-> | ->]; reflexivity).
  assert (PL : (verbose o || is_plain m)%bool = true) by (unfold is_plain; destruct S as [-> | ->]; apply orb_true_r).
  rewrite !filter_app, join_cons, !map_app, !join_app.
  set (L := (title "Vulture" "0.7.1" ++ join (map (full se) (filter (fun m0 => (verbose o || is_plain m0)%bool) (until_error pre))))%string).
  set (X := join (map (fun m0 => join ["Vulture"; ": "; full se m0]) (filter is_alert (until_error pre)))).
  assert (V : forall x, join ["Vulture"; ": "; x] = ("Vulture: " ++ x)%string) by (intros; reflexivity).
  set (pp := if u then Some PUsage else None). clearbody pp.
  destruct S as [S | S].
  - assert (E : is_error m = true) by (unfold is_error; rewrite S; reflexivity). rewrite E. cbn [orb filter]. rewrite AL, PL. cbn [map].
    rewrite <- app_assoc_s. fold L. rewrite V.
    exists (L ++ join [full se m])%string, (X ++ join [("Vulture: " ++ full se m)%string])%string, pp, 6%Z, L, "", X, "".
    clearbody L X. generalize (full se m). intros fm. split; [reflexivity|]. split; [|split]; [| |auto].
    + rewrite !join_cons, join_nil, !app_nil_s. reflexivity.
    + rewrite !join_cons, join_nil, !app_nil_s. reflexivity.
  - assert (E : is_error m = false) by (unfold is_error; rewrite S; reflexivity). rewrite E. cbn [orb filter]. rewrite AL, PL. cbn [map].
    rewrite <- app_assoc_s. fold L. rewrite V.
    set (L2 := map (full se) _). set (X2 := map _ (filter is_alert r)). set (st := if existsb is_error post then 6%Z else 0%Z).
    exists (L ++ join (full se m :: L2))%string, (X ++ join (("Vulture: " ++ full se m)%string :: X2))%string, pp, st, L, (join L2), X, (join X2).
    clearbody L X L2 X2 st. generalize (full se m). intros fm. split; [reflexivity|]. split; [|split]; [| |congruence].
    + rewrite !join_cons, join_nil, !app_nil_s. reflexivity.
    + rewrite !join_cons, join_nil, !app_nil_s, !app_assoc_s. reflexivity.
Qed.

Definition demoErr (z : Z) : string := if Z.eqb z 2 then "No such file or directory" else "?".
Definition demoScript (f : string) : Script :=
  mkScript [mkMsg MSG_LOG 0 "reading"; mkMsg MSG_DEBUG1 0 "card"; mkMsg MSG_WARN 0 "odd"] [mkMsg MSG_LOG 0 "grid"; mkMsg MSG_ERROR 2 f] [] [mkMsg MSG_LOG 0 "step"] [].
(** quiet, verbose, and stopped after reading *)
Example C87_nonvacuous :
  vultureMain (fun _ => None) demoErr true demoScript ["-g"; "m.mesh"] =
    Some (mkProc (Some (title "Vulture" "0.7.1" ++ "readingoddgridm.mesh: No such file or directory")%string)
                 "Vulture: oddVulture: m.mesh: No such file or directory" None (Some 6%Z)) /\
  vultureMain (fun _ => None) demoErr true demoScript ["-v"; "-m"; "m.mesh"] =
    Some (mkProc (Some (title "Vulture" "0.7.1" ++ "readingcardodd")%string) "Vulture: odd" None (Some 0%Z)) /\
  parseOption (fun _ => None) ["-g"; "m.mesh"] options0 = Run (setDump options0) "m.mesh" false.
Proof. repeat split; vm_compute; reflexivity. Qed.
