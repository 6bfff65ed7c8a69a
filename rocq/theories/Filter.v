(** Pole-residue filters and their recursive-convolution form.
    Models /repo/src/filter.c (compiled with WITH_SIBC).  Doubles are R, double
    complex is the pair type Cx of Medium.v; the arrays of one filter, all of
    length numPoles, are lists with one entry per pole.  Allocation and printing
    are not modelled; reading of filter files is in FilterFile.v. *)
From Coq Require Import ZArith List Bool Reals.
From Verif Require Import Medium.
Import ListNotations.
Open Scope R_scope.

(** filter.h:31-38 yfPoleResidue: asymptote, then (pole, residue) *)
Record PoleResidue := mkPR { prAsymp : R; prPoles : list (Cx * Cx) }.
(** filter.h:41-47 yfRecConv: asymptote, then (q[0][k], q[1][k], q[2][k]) *)
Record RecConv := mkRC { rcAsymp : R; rcQ : list (Cx * Cx * Cx) }.
(** filter.h:50-55 yfRecConvState: old, then zeta[k] *)
Record RecConvState := mkRS { rsOld : R; rsZeta : list Cx }.

(** C99 cexp *)
Definition cexp (z : Cx) : Cx := mkC (exp (re z) * cos (im z)) (exp (re z) * sin (im z)).

(** filter.c:357-364: the three coefficients of one pole *)
Definition recConvQ (T : R) (pr : Cx * Cx) : Cx * Cx * Cx :=
  let '(pole, residue) := pr in
  let alpha := cdiv residue pole in
  let beta := cmul pole (cxR T) in
  (cexp beta,
   cmul (cdiv alpha beta) (cadd (cxR 1) (cmul (csub beta (cxR 1)) (cexp beta))),
   cmul (cdiv alpha beta) (csub (csub (cexp beta) beta) (cxR 1))).
(** filter.c:347-368 yfPoleResidue2RecConv *)
Definition poleResidue2RecConv (pr : PoleResidue) (T : R) : RecConv :=
  mkRC (prAsymp pr) (map (recConvQ T) (prPoles pr)).

(** filter.c:252-262 yfAllocRecConvState *)
Definition allocRecConvState (rc : RecConv) : RecConvState := mkRS 0 (map (fun _ => cxR 0) (rcQ rc)).

(** filter.c:317-321: one pass of the loop over the poles; the sum of a double
    and a complex, stored in a double, keeps the real part *)
Fixpoint stepPoles (q : list (Cx * Cx * Cx)) (zeta : list Cx) (old x y : R) : list Cx * R :=
  match q, zeta with
  | (q0, q1, q2) :: q', z :: zeta' =>
      let z' := cadd (cadd (cmul q0 z) (cmul q1 (cxR old))) (cmul q2 (cxR x)) in
      let '(zs, y') := stepPoles q' zeta' old x (y + re z') in (z' :: zs, y')
  | _, _ => ([], y)
  end.
(** filter.c:309-327 yfRecConvStep *)
Definition recConvStep (rc : RecConv) (s : RecConvState) (x : R) : RecConvState * R :=
  let '(zs, y) := stepPoles (rcQ rc) (rsZeta s) (rsOld s) x (rcAsymp rc * x) in (mkRS x zs, y).
(** filter.c:337-338 *)
Fixpoint filtLoop (rc : RecConv) (s : RecConvState) (x : list R) : list R :=
  match x with [] => [] | x0 :: xs => let '(s', y) := recConvStep rc s x0 in y :: filtLoop rc s' xs end.
(** filter.c:330-344 yfRecConvFiltSeq *)
Definition recConvFiltSeq (rc : RecConv) (x : list R) : list R := filtLoop rc (allocRecConvState rc) x.
