(** Command line of the mesh renderer.  Models /repo/src/gvulture.c:57-73, 122-183. *)
From Coq Require Import ZArith List Bool Ascii String.
From Verif Require Import Cli.
Import ListNotations.
Open Scope Z_scope.
Open Scope string_scope.

(** gvulture.c:52-71: the format and the options with their initial values; [gverbose]
    is the logging level MSG_DEBUG3 instead of MSG_LOG *)
Inductive GraphicsFormat := GF_GNUPLOT | GF_GMSH.
Record GOptions := mkGO { gverbose : bool; physicalUnits : bool; format : GraphicsFormat; externalSurfaces : bool }.
Definition goptions0 : GOptions := mkGO false false GF_GNUPLOT true.
Inductive GOutcome :=
| GExit (p : Printed) (code : Z)
| GRun (o : GOptions) (meshFile : string) (usage : bool)
| GUndefined.
(** gvulture.c:175-178, strncpy into a buffer of PATH_SIZE bytes *)
Definition gfinish (args : list string) (o : GOptions) : GOutcome :=
  match args with
  | [f] => if (String.length f <? PATH_SIZE)%nat then GRun o f false else GUndefined
  | _ => GRun o "" true
  end.
(** gvulture.c:122-183 parseOption *)
Fixpoint gparseOption (args : list string) (o : GOptions) : GOutcome :=
  match args with
  | [] => gfinish args o
  | a :: rest =>
      if match a with String "-"%char _ => true | _ => false end then
        if isOpt a "-h" "--help" 6 then GExit PUsage 0
        else if isOpt a "-V" "--version" 9 then GExit PVersion 0
        else if isOpt a "-v" "--verbose" 9 then gparseOption rest (mkGO true (physicalUnits o) (format o) (externalSurfaces o))
        else if isOpt a "-p" "--physical" 10 then gparseOption rest (mkGO (gverbose o) true (format o) (externalSurfaces o))
        else if isOpt a "-e" "--no-ext-surf" 13 then gparseOption rest (mkGO (gverbose o) (physicalUnits o) (format o) false)
        else if isOpt a "-g" "--gnuplot" 9 then gparseOption rest (mkGO (gverbose o) (physicalUnits o) GF_GNUPLOT (externalSurfaces o))
        else if isOpt a "-m" "--gmsh" 6 then gparseOption rest (mkGO (gverbose o) (physicalUnits o) GF_GMSH (externalSurfaces o))
        else GExit PUsage 1
      else gfinish args o
  end.
