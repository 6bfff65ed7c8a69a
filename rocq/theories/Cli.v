(** Command line.  Models /repo/src/vulture.c:201-284 parseOption. *)
From Coq Require Import ZArith List Bool Ascii String.
Import ListNotations.
Open Scope Z_scope.
Open Scope string_scope.

(** string.h: [strncmp( s , t , n ) == 0] *)
Fixpoint strncmp0 (s t : string) (n : nat) : bool :=
  match n with
  | O => true
  | S n' => match s, t with
            | EmptyString, EmptyString => true
            | String a s', String b t' => if Ascii.eqb a b then strncmp0 s' t' n' else false
            | _, _ => false
            end
  end.

(** vulture.c:59-67 struct Options_t and its initial value *)
Record Options := mkOpt { verbose : bool; readOnly : bool; preprocessOnly : bool; dumpGrid : bool; numThread : Z }.
Definition options0 : Options := mkOpt false false false false (-1).
Definition setVerbose o := mkOpt true (readOnly o) (preprocessOnly o) (dumpGrid o) (numThread o).
Definition setReadOnly o := mkOpt (verbose o) true (preprocessOnly o) (dumpGrid o) (numThread o).
Definition setPreprocess o := mkOpt (verbose o) (readOnly o) true (dumpGrid o) (numThread o).
Definition setDump o := mkOpt (verbose o) (readOnly o) (preprocessOnly o) true (numThread o).
Definition setThreads n o := mkOpt (verbose o) (readOnly o) (preprocessOnly o) (dumpGrid o) n.

(** What the process does: [Exit code] (after printing), run with options and a
    mesh file name, or undefined behaviour.  In [Run], [usage] says whether the
    usage text was printed first. *)
Inductive Printed := PUsage | PVersion | PLicence.
Inductive Outcome :=
| Exit (p : Printed) (code : Z)
| Run (o : Options) (meshFile : string) (usage : bool)
| Undefined.

(** fdtd_types.h:44 *)
Definition PATH_SIZE : nat := 1024.
Definition isOpt (a short long : string) (n : nat) : bool := strncmp0 a short 2 || strncmp0 a long n.

Section Parse.
(** [( int ) strtod( s , &ptr )] at vulture.c:232; [None] when the conversion to
    int is undefined (out of range). *)
Variable threads : string -> option Z.

(** vulture.c:277-280.  strncpy into a buffer of PATH_SIZE bytes leaves it
    unterminated when the name does not fit; fopen then reads past it. *)
Definition finish (args : list string) (o : Options) : Outcome :=
  match args with
  | [f] => if (String.length f <? PATH_SIZE)%nat then Run o f false else Undefined
  | _ => Run o "" true
  end.

(** vulture.c:206-275; [args] = argv[1] .. argv[argc-1].  argv[argc] is NULL, so
    strtod( argv[2] ) is undefined when the option is the last argument (the
    test [argc > 0] of line 230 is always true here). *)
Fixpoint parseOption (args : list string) (o : Options) : Outcome :=
  match args with
  | [] => finish args o
  | a :: rest =>
      if match a with String "-"%char _ => true | _ => false end then
        if isOpt a "-h" "--help" 6 then Exit PUsage 0
        else if isOpt a "-V" "--version" 9 then Exit PVersion 0
        else if isOpt a "-v" "--verbose" 9 then parseOption rest (setVerbose o)
        else if isOpt a "-m" "--read-mesh" 11 then parseOption rest (setReadOnly o)
        else if isOpt a "-n" "--num-proc" 10 then
          match rest with
          | [] => Undefined
          | v :: rest' => match threads v with
                          | None => Undefined
                          | Some n => if (n =? 0)%Z then Exit PUsage 1 else parseOption rest' (setThreads n o)
                          end
          end
        else if isOpt a "-p" "--preprocess" 12 then parseOption rest (setPreprocess o)
        else if isOpt a "-g" "--dump-grid" 11 then parseOption rest (setDump o)
        else if isOpt a "-l" "--licence" 11 then Exit PLicence 0
        else Exit PUsage 1
      else finish args o
  end.
End Parse.
