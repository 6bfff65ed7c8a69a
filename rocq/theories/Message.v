(** Messages, the log file and the exit status.  Models /repo/src/message.c:33-121
    and the main functions of /repo/src/vulture.c:77-197 and
    /repo/src/gvulture.c:77-118.
    Simplification: what a phase of the program does besides sending messages is
    left out, a phase is the list of the messages it would send if none of them
    ended the program; [text] is the message after the expansion of its format.
    Writing to the log and to stderr is taken not to fail. *)
From Coq Require Import ZArith List Bool Ascii String Arith.
From Verif Require Import Cli CliG.
Import ListNotations.
Open Scope string_scope.

(** message.h:30-40 enum msg_type *)
Inductive MessageType := MSG_DEBUG3 | MSG_DEBUG2 | MSG_DEBUG1 | MSG_INFO | MSG_LOG | MSG_WARN | MSG_ERROR.
Definition enumValue (t : MessageType) : nat :=
  match t with MSG_DEBUG3 => 0 | MSG_DEBUG2 => 1 | MSG_DEBUG1 => 2 | MSG_INFO => 3 | MSG_LOG => 4 | MSG_WARN => 5 | MSG_ERROR => 6 end.

(** one call [message( status , errnum , text )] *)
Record Msg := mkMsg { status : MessageType; errnum : Z; text : string }.

(** what the process leaves: the log file ([None] when never created), stderr, the text
    on stdout, and the exit status ([None] while running) *)
Record Proc := mkProc { logText : option string; errText : string; printed : option Printed; exitStatus : option Z }.

Definition nl : string := String "010"%char EmptyString.

Section Message.
(** libc's strerror *)
Variable strerror : Z -> string.
(** message.c:33-35 the static variables *)
Variable programName : string.
Variable logLevel : MessageType.

(** C string output to a stream *)
Definition toLog (s : string) (p : Proc) : Proc :=
  mkProc (match logText p with Some l => Some (l ++ s) | None => None end) (errText p) (printed p) (exitStatus p).
Definition toErr (s : string) (p : Proc) : Proc := mkProc (logText p) (errText p ++ s) (printed p) (exitStatus p).
Definition leave (c : Z) (p : Proc) : Proc := mkProc (logText p) (errText p) (printed p) (Some c).

(** message.c:69-107 message *)
Definition message (m : Msg) (p : Proc) : Proc :=
  if (enumValue (status m) <? enumValue logLevel)%nat then p
  else
    let warn := (enumValue MSG_WARN <=? enumValue (status m))%nat in
    let p := if warn then toErr (programName ++ ": ") p else p in
    let p := if warn then toErr (text m) p else p in
    let p := toLog (text m) p in
    let p := if Z.eqb (errnum m) 0 then p
             else let p := if warn then toErr (": " ++ strerror (errnum m)) p else p in
                  toLog (": " ++ strerror (errnum m)) p in
    if (enumValue MSG_ERROR <=? enumValue (status m))%nat then leave (Z.of_nat (enumValue MSG_ERROR)) p else p.

(** the calls of [message] of one phase; exit() ends the process *)
Fixpoint phase (ms : list Msg) (p : Proc) : Proc :=
  match ms with
  | [] => p
  | m :: ms' => match exitStatus p with Some _ => p | None => phase ms' (message m p) end
  end.
(** a statement executed when the process is still running *)
Definition andThen (p : Proc) (k : Proc -> Proc) : Proc := match exitStatus p with Some _ => p | None => k p end.
End Message.

(** message.c:38-66 startMessaging; [opens] says whether the log file can be created *)
Definition startMessaging (opens : bool) (logName prog version : string) (p : Proc) : Proc :=
  if opens then mkProc (Some (nl ++ " *** " ++ prog ++ " version " ++ version ++ " *** " ++ nl ++ nl)) (errText p) (printed p) (exitStatus p)
  else leave 1 (toErr (prog ++ ": ERROR: Failed to open log file " ++ logName ++ nl) p).

(** the messages of the parts of main: reading the mesh, setting up the grid
    and its reports, dumping the media, stepping the fields with the release of everything *)
Record Script := mkScript { reading : list Msg; setup : list Msg; dumping : list Msg; stepping : list Msg; tidying : list Msg }.

Definition proc0 : Proc := mkProc None "" None None.
Definition prints (b : bool) (p : Proc) : Proc := if b then mkProc (logText p) (errText p) (Some PUsage) (exitStatus p) else p.
(** vulture.c:67, 220 and gvulture.c:71, 143: the level *)
Definition level (v : bool) : MessageType := if v then MSG_DEBUG3 else MSG_LOG.

(** vulture.c:77-197 main.  [script f] is what the program would say for mesh file [f];
    [None]: undefined behaviour *)
Definition vultureMain (threads : string -> option Z) (strerror : Z -> string) (opens : bool) (script : string -> Script) (args : list string) : option Proc :=
  match parseOption threads args options0 with
  | Undefined => None
  | Exit pr c => Some (mkProc None "" (Some pr) (Some c))
  | Run o f u =>
      let say ms p := phase strerror "Vulture" (level (verbose o)) ms p in
      let s := script f in
      Some (
        andThen (startMessaging opens "vulture.log" "Vulture" "0.7.1" (prints u proc0)) (fun p =>
        andThen (say (reading s) p) (fun p =>
        if readOnly o then leave 0 p else
        andThen (say (setup s) p) (fun p =>
        andThen (if dumpGrid o then say (dumping s) p else p) (fun p =>
        andThen (if preprocessOnly o then p else say (stepping s) p) (fun p =>
        andThen (say (tidying s) p) (leave 0)))))))
  end.

(** gvulture.c:77-118 main; the renderers are [drawing format units surfaces] *)
Definition gvultureMain (strerror : Z -> string) (opens : bool) (reads : string -> list Msg)
  (drawing : string -> GraphicsFormat -> bool -> bool -> list Msg) (args : list string) : option Proc :=
  match gparseOption args goptions0 with
  | GUndefined => None
  | GExit pr c => Some (mkProc None "" (Some pr) (Some c))
  | GRun o f u =>
      let say ms p := phase strerror "gvulture" (level (gverbose o)) ms p in
      Some (
        andThen (startMessaging opens "gvulture.log" "gvulture" "0.7.0" (prints u proc0)) (fun p =>
        andThen (say (reads f) p) (fun p =>
        andThen (say (drawing f (format o) (physicalUnits o) (externalSurfaces o)) p) (leave 0))))
  end.
