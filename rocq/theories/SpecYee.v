(** Specification of Yee's scheme: the discrete curls on the staggered grid,
    written once for the three axes by cyclic permutation. *)
From Coq Require Import ZArith List Bool Reals.
From Verif Require Import Types Lang SpecPhys.
Open Scope R_scope.

Definition succA (a : Axis) : Axis := match a with XDIR => YDIR | YDIR => ZDIR | ZDIR => XDIR end.
Definition Ealong (a : Axis) : Fld := match a with XDIR => EX | YDIR => EY | ZDIR => EZ end.
Definition Halong (a : Axis) : Fld := match a with XDIR => HX | YDIR => HY | ZDIR => HZ end.

Record Pt := mkPt { ptx : Z; pty : Z; ptz : Z }.
Definition crd (p : Pt) (a : Axis) : Z := match a with XDIR => ptx p | YDIR => pty p | ZDIR => ptz p end.
(** the point [d] cells further along axis [a] *)
Definition move (p : Pt) (a : Axis) (d : Z) : Pt :=
  match a with
  | XDIR => mkPt (ptx p + d) (pty p) (ptz p)
  | YDIR => mkPt (ptx p) (pty p + d) (ptz p)
  | ZDIR => mkPt (ptx p) (pty p) (ptz p + d)
  end.
Definition val (m : mem R) (f : Fld) (p : Pt) : R := fld m f (ptx p) (pty p) (ptz p).

(** component along [a] of curl H at an E point: (d H_c / d b) - (d H_b / d c)
    with b, c the two axes after a; the differences span the secondary edges *)
Definition curlH (m : mem R) (a : Axis) (p : Pt) : R :=
  let b := succA a in let c := succA b in
  (val m (Halong c) p - val m (Halong c) (move p b (-1))) * idh m b (crd p b)
  - (val m (Halong b) p - val m (Halong b) (move p c (-1))) * idh m c (crd p c).
(** the same for curl E at an H point; the differences span the primary edges *)
Definition curlE (m : mem R) (a : Axis) (p : Pt) : R :=
  let b := succA a in let c := succA b in
  (val m (Ealong c) (move p b 1) - val m (Ealong c) p) * ide m b (crd p b)
  - (val m (Ealong b) (move p c 1) - val m (Ealong b) p) * ide m c (crd p c).
(** what drives component [f]: curl H for E, minus curl E for H *)
Definition drive (m : mem R) (f : Fld) (p : Pt) : R :=
  if is_E f then curlH m (fld_axis f) p else - curlE m (fld_axis f) p.
