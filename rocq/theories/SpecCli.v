(** Specification of the command line: the forms listed by the usage text
    (vulture.c printUsage, UserManual.tex:230-241). *)
From Coq Require Import ZArith List Bool Ascii String.
From Verif Require Import Cli.
Import ListNotations.
Open Scope string_scope.

(** The settings of the usage text. *)
Definition dump_on : Options -> Options := fun o => {| verbose := verbose o; readOnly := readOnly o; preprocessOnly := preprocessOnly o; dumpGrid := true; numThread := numThread o |}.
Definition read_only_on : Options -> Options := fun o => {| verbose := verbose o; readOnly := true; preprocessOnly := preprocessOnly o; dumpGrid := dumpGrid o; numThread := numThread o |}.
Definition preprocess_on : Options -> Options := fun o => {| verbose := verbose o; readOnly := readOnly o; preprocessOnly := true; dumpGrid := dumpGrid o; numThread := numThread o |}.
Definition verbose_on : Options -> Options := fun o => {| verbose := true; readOnly := readOnly o; preprocessOnly := preprocessOnly o; dumpGrid := dumpGrid o; numThread := numThread o |}.
Definition use_threads (n : Z) : Options -> Options := fun o => {| verbose := verbose o; readOnly := readOnly o; preprocessOnly := preprocessOnly o; dumpGrid := dumpGrid o; numThread := n |}.

(** One option (with its value, if it takes one) and the setting it stands for. *)
Inductive documented (threads : string -> option Z) : list string -> (Options -> Options) -> Prop :=
| doc_g : documented threads ["-g"] dump_on
| doc_dump : documented threads ["--dump-grid"] dump_on
| doc_m : documented threads ["-m"] read_only_on
| doc_readmesh : documented threads ["--readmesh"] read_only_on
| doc_n v n : threads v = Some n -> (0 < n)%Z -> documented threads ["-n"; v] (use_threads n)
| doc_numproc v n : threads v = Some n -> (0 < n)%Z -> documented threads ["--numproc"; v] (use_threads n)
| doc_p : documented threads ["-p"] preprocess_on
| doc_preprocess : documented threads ["--preprocess"] preprocess_on
| doc_v : documented threads ["-v"] verbose_on
| doc_verbose : documented threads ["--verbose"] verbose_on.

(** A documented command line: options in any order and number, then the file. *)
Inductive command (threads : string -> option Z) : list string -> Options -> Options -> string -> Prop :=
| cmd_file f o : (forall r, f <> String "-" r) -> (String.length f < 1024)%nat -> command threads [f] o o f
| cmd_opt w s rest o o' f : documented threads w s -> command threads rest (s o) o' f -> command threads (w ++ rest) o o' f.

(** the two documented long forms the program does not know *)
Definition misspelt (a : string) : Prop := a = "--readmesh" \/ a = "--numproc".
