(** What a user expects of the messages.  Independent of the model's way of
    writing them: only lists of messages are filtered and joined. *)
From Coq Require Import ZArith List Bool Ascii String.
From Verif Require Import Cli CliG Message.
Import ListNotations.
Open Scope string_scope.
Open Scope list_scope.

Definition is_error (m : Msg) : bool := match status m with MSG_ERROR => true | _ => false end.
(** warnings and errors *)
Definition is_alert (m : Msg) : bool := match status m with MSG_ERROR | MSG_WARN => true | _ => false end.
(** what is logged without the verbose option *)
Definition is_plain (m : Msg) : bool := match status m with MSG_ERROR | MSG_WARN | MSG_LOG => true | _ => false end.

(** the messages up to and including the first error *)
Fixpoint until_error (ms : list Msg) : list Msg :=
  match ms with [] => [] | m :: r => if is_error m then [m] else m :: until_error r end.

(** a message with the reason the system gives, when there is one *)
Definition full (strerror : Z -> string) (m : Msg) : string :=
  match errnum m with 0%Z => text m | e => String.append (text m) (String.append ": " (strerror e)) end.
Definition join (l : list string) : string := String.concat "" l.

(** the expected log file, stderr and exit status after the messages [ms] *)
Definition expected_log (strerror : Z -> string) (title : string) (verbose : bool) (ms : list Msg) : string :=
  join (title :: map (full strerror) (filter (fun m => verbose || is_plain m)%bool (until_error ms))).
Definition expected_err (strerror : Z -> string) (prog : string) (ms : list Msg) : string :=
  join (map (fun m => join [prog; ": "; full strerror m]) (filter is_alert (until_error ms))).
Definition expected_status (ms : list Msg) : Z := if existsb is_error ms then 6%Z else 0%Z.

Definition title (prog version : string) : string :=
  join [nl; " *** "; prog; " version "; version; " *** "; nl; nl].

(** the messages of the parts of the program the options ask for, in their order *)
Definition asked (readonly dump preprocess : bool) (s : Script) : list Msg :=
  reading s ++ (if readonly then [] else setup s ++ (if dump then dumping s else []) ++ (if preprocess then [] else stepping s) ++ tidying s).
