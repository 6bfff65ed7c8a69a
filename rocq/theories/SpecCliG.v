(** Specification of the command line of gvulture, from its usage text
    (gvulture.c:186-202). *)
From Coq Require Import ZArith List Bool Ascii String.
From Verif Require Import Cli CliG.
Import ListNotations.
Open Scope string_scope.

(** what is asked for by a list of documented options, in any order and number *)
Definition render_flags : list string := ["-e"; "--no-ext-surf"; "-g"; "--gnuplot"; "-m"; "--gmsh"; "-p"; "--physical"; "-v"; "--verbose"].
Definition given (short long : string) (args : list string) : Prop := In short args \/ In long args.
(** the last format option wins; without one it is gnuplot *)
Inductive last_format : list string -> GraphicsFormat -> Prop :=
| lf_none args : ~ given "-g" "--gnuplot" args -> ~ given "-m" "--gmsh" args -> last_format args GF_GNUPLOT
| lf_g pre a post : a = "-g" \/ a = "--gnuplot" -> ~ given "-m" "--gmsh" post -> last_format (pre ++ a :: post) GF_GNUPLOT
| lf_m pre a post : a = "-m" \/ a = "--gmsh" -> ~ given "-g" "--gnuplot" post -> last_format (pre ++ a :: post) GF_GMSH.
Definition asked (args : list string) (o : GOptions) : Prop :=
  (gverbose o = true <-> given "-v" "--verbose" args) /\
  (physicalUnits o = true <-> given "-p" "--physical" args) /\
  (externalSurfaces o = false <-> given "-e" "--no-ext-surf" args) /\
  last_format args (format o).
Definition file_name (f : string) : Prop := (forall r, f <> String "-" r) /\ (String.length f < 1024)%nat.
