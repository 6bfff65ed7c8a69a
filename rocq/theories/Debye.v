(** Dispersive (Debye) blocks: /repo/src/debye.c.  Unscaled fields, so
    SCALE_J* and UNSCALE_E* are the identity (grid.h).  Exact arithmetic. *)
From Coq Require Import ZArith List Bool Reals.
From Verif Require Import Types Lang BBox Grid Setup Media Medium.
Import ListNotations.
Open Scope R_scope.

Section Debye.
Variables eps0 dt : R.

(** debye.c:35-56 DebyeItem: medium and field limits; the polarisation currents
    and cached fields are arrays of the state below. *)
Record DBlock := mkDB { db_poles : list Pole; db_lim : FLimits }.
(** debye.c:76-193 initDebyeBlocks: the Debye blocks in file order.  [med] gives
    the type and poles of a medium number. *)
Definition initDebyeBlocks (c : Cfg) (med : nat -> MType * list Pole) (bs : list Block) : list DBlock :=
  flat_map (fun b => match med (medium_b b) with
     | (MT_DEBYE, ps) => [mkDB ps (setFieldLimits (offsetBoundingBox (bbox_b b) (gibox c)) (faceMask2boolArray (mask_b b)))]
     | _ => [] end) bs.

(** The fields E, the current J of each pole and the cached field of each block.
    Simplification: J and lastE are indexed by the grid index (i,j,k) instead of
    (ii,jj,kk) = (i,j,k) - lower limits. *)
Record DState := mkDS { sE : Fld -> Z -> Z -> Z -> R; sJ : nat -> Fld -> Z -> Z -> Z -> list Cx;
  sL : nat -> Fld -> Z -> Z -> Z -> R }.
Definition at4 {T} (f : Fld) (i j k : Z) (v : T) (g : Fld -> Z -> Z -> Z -> T) : Fld -> Z -> Z -> Z -> T :=
  fun f' i' j' k' => if fld_eqb f' f && (i' =? i)%Z && (j' =? j)%Z && (k' =? k)%Z then v else g f' i' j' k'.
Definition atB {T} (b : nat) (v : T) (g : nat -> T) : nat -> T := fun b' => if Nat.eqb b' b then v else g b'.

(** debye.c:283-285: Jsum *)
Definition Jsum (ps : list Pole) (js : list Cx) : Cx :=
  fold_left (fun s pj => cadd s (cmul (cadd (cxR 1) (dalpha dt (fst pj))) (snd pj))) (combine ps js) (cxR 0).
(** debye.c:281-292, 300-310, 318-328: the loop body of one component *)
Definition debyeBody (beta : Fld -> Z -> Z -> Z -> R) (b : nat) (blk : DBlock) (st : DState) (p : Fld * Z * Z * Z) : DState :=
  let '(f, i, j, k) := p in
  let js := sJ st b f i j k in
  let e := sE st f i j k - beta f i j k * re (Jsum (db_poles blk) js) in
  mkDS (at4 f i j k e (sE st))
       (atB b (at4 f i j k (map (fun pj => cadd (cmul (dalpha dt (fst pj)) (snd pj))
            (cmul (dbeta eps0 dt (fst pj)) (cxR (e - sL st b f i j k)))) (combine (db_poles blk) js)) (sJ st b)) (sJ st))
       (atB b (at4 f i j k e (sL st b)) (sL st)).
Definition blockPoints (blk : DBlock) : list (Fld * Z * Z * Z) :=
  flat_map (fun f => for_ (db_lim blk f XLO) (db_lim blk f XHI) (fun i => for_ (db_lim blk f YLO) (db_lim blk f YHI) (fun j =>
    for_ (db_lim blk f ZLO) (db_lim blk f ZHI) (fun k => [(f, i, j, k)])))) [EX; EY; EZ].
Definition updateBlock (beta : Fld -> Z -> Z -> Z -> R) (b : nat) (blk : DBlock) (st : DState) : DState :=
  fold_left (debyeBody beta b blk) (blockPoints blk) st.
(** debye.c:264-334 updateDebyeBlocksEfield *)
Fixpoint updateDebyeFrom (beta : Fld -> Z -> Z -> Z -> R) (b : nat) (blks : list DBlock) (st : DState) : DState :=
  match blks with
  | [] => st
  | blk :: rest => updateDebyeFrom beta (S b) rest (updateBlock beta b blk st)
  end.
Definition updateDebyeBlocksEfield beta blks st := updateDebyeFrom beta 0 blks st.
(** debye.c:135-142: zero currents and caches *)
Definition zeroJ (blks : list DBlock) : nat -> Fld -> Z -> Z -> Z -> list Cx :=
  fun b _ _ _ _ => match nth_error blks b with Some blk => map (fun _ => cxR 0) (db_poles blk) | None => [] end.
Definition zeroL : nat -> Fld -> Z -> Z -> Z -> R := fun _ _ _ _ _ => 0.
End Debye.
