(** What the arrays of a run take: a table of row pointers (8 bytes each) and the elements. *)
From Coq Require Import ZArith List.
From Verif Require Import Types BBox Grid Pml Memory SpecAlloc.
Import ListNotations.
Open Scope Z_scope.

Definition total (l : list Z) : Z := fold_right Z.add 0 l.
(** bytes of an array *)
Definition takes (size : Z) (extent : list Z) : Z := 8 * pointers 1 extent + size * elements extent.
(** everything the program holds for these arrays, reported or not *)
Definition held (calls : list Call) : Z := total (map (fun a => takes (elemSize a) (extents a)) calls).
(** bytes of an array over the [x] by [y] by [z] points *)
Definition takes3 (size x y z : Z) : Z := 8 * (x + x * y) + size * (x * y * z).
(** bytes of the nine arrays of a PML layer: two per component of E, one per component of H *)
Definition layer (size : Z) (c : Cfg) (r : Face) : Z :=
  let one f := let l := fplim c r f in takes3 size (l XHI - l XLO + 1) (l YHI - l YLO + 1) (l ZHI - l ZLO + 1) in
  2 * (one EX + one EY + one EZ) + (one HX + one HY + one HZ).
Definition layers (size : Z) (c : Cfg) : Z :=
  total (map (fun r => if btype_eqb (outerSurfaceType c r) BT_PML then layer size c r else 0) faces).
