(** Evaluation of one EXTERNAL waveform by several threads at once.
    Models /repo/src/waveform.c:628-630 and 758-791 as called from the OpenMP
    loops of planewave.c: the cached interval [lastIdx] is shared, read once at the
    start of an evaluation (waveform.c:769) and written once (waveform.c:791).
    Simplifications: reads and writes of the cache are indivisible (they are
    aligned machine words; in C the race itself is undefined behaviour); a
    time outside the table writes back the index it read, where the program does
    not write at all: this only adds behaviours. *)
From Coq Require Import ZArith List Reals.
From Verif Require Import CArr Waveform.
Import ListNotations.

(** a thread: evaluations still to do, index still to be written, values obtained *)
Record Thread := mkThread { todo : list (R * R); pending : option Z; got : list R; crashed : bool }.
Inductive tstep (w : WfItem) (t : Table) (n : Z) : Z -> Thread -> Z -> Thread -> Prop :=
| t_eval last time delay qs g v i : externalValue w t n time delay last = Some (Done (v, i)) ->
    tstep w t n last (mkThread ((time, delay) :: qs) None g false) last (mkThread qs (Some i) (g ++ [v]) false)
| t_fail last time delay qs g : (externalValue w t n time delay last = None \/ externalValue w t n time delay last = Some Fatal) ->
    tstep w t n last (mkThread ((time, delay) :: qs) None g false) last (mkThread qs None g true)
| t_write last qs g i : tstep w t n last (mkThread qs (Some i) g false) i (mkThread qs None g false).
(** one step of any one of the threads *)
Inductive rstep (w : WfItem) (t : Table) (n : Z) : Z * list Thread -> Z * list Thread -> Prop :=
| r_step last last' a th th' b : tstep w t n last th last' th' -> rstep w t n (last, a ++ th :: b) (last', a ++ th' :: b).
Inductive rsteps (w : WfItem) (t : Table) (n : Z) (s : Z * list Thread) : Z * list Thread -> Prop :=
| rs_refl : rsteps w t n s s
| rs_next s1 s2 : rsteps w t n s s1 -> rstep w t n s1 s2 -> rsteps w t n s s2.
(** waveform.c:331: the cache starts at 0 *)
Definition start (qss : list (list (R * R))) : Z * list Thread := (0%Z, map (fun qs => mkThread qs None [] false) qss).
