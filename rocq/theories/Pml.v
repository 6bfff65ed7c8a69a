(** The PML regions: limits and field updates.  Models /repo/src/pml.c. *)
From Coq Require Import ZArith List Bool.
From Verif Require Import Types Lang BBox Grid.
Import ListNotations.
Open Scope Z_scope.

(** pml.c:147-191: cell limits of the six PML regions. *)
Definition pbox (c : Cfg) (region : Face) : BBox :=
  let gi := gibox c in let go := gobox c in
  match region with
  | XLO => mkbox (go XLO) (gi XLO) (go YLO) (go YHI) (go ZLO) (go ZHI)
  | XHI => mkbox (gi XHI) (go XHI) (go YLO) (go YHI) (go ZLO) (go ZHI)
  | YLO => mkbox (gi XLO) (gi XHI) (go YLO) (gi YLO) (go ZLO) (go ZHI)
  | YHI => mkbox (gi XLO) (gi XHI) (gi YHI) (go YHI) (go ZLO) (go ZHI)
  | ZLO => mkbox (gi XLO) (gi XHI) (gi YLO) (gi YHI) (go ZLO) (gi ZLO)
  | ZHI => mkbox (gi XLO) (gi XHI) (gi YLO) (gi YHI) (gi ZHI) (go ZHI)
  end.

(** pml.c:135-141: the includeBoundary table: every face but the one shared
    with the inner grid. *)
Definition pmlInclude (region : Face) : BFlags :=
  match region with
  | XLO => setBoundingBoxBoundaryFlags true false true true true true
  | XHI => setBoundingBoxBoundaryFlags false true true true true true
  | YLO => setBoundingBoxBoundaryFlags true true true false true true
  | YHI => setBoundingBoxBoundaryFlags true true false true true true
  | ZLO => setBoundingBoxBoundaryFlags true true true true true false
  | ZHI => setBoundingBoxBoundaryFlags true true true true false true
  end.

(** pml.c:193-195 *)
Definition fplim (c : Cfg) (region : Face) : FLimits :=
  setFieldLimits (pbox c region) (pmlInclude region).

(** Extents of the auxiliary arrays P, PP (per E component) and B (per H
    component) of a region, pml.c:640-690; [None] (NULL) unless the face of the
    region is a PML.  The static pointer arrays start as NULL. *)
Definition pmlDims (c : Cfg) (region : Face) (f : Fld) : option (Z * Z * Z) :=
  if btype_eqb (outerSurfaceType c region) BT_PML
  then let l := fplim c region f in
       Some (l XHI - l XLO + 1, l YHI - l YLO + 1, l ZHI - l ZLO + 1)
  else None.

Section PmlUpdates.
Context {V : Type}.
Notation ex := (expr V).

Definition PC (co : PmlC) (a : Axis) (n : Z) : ex := Rd (L (APml co a) n 0 0).

(** The body of one inner iteration, E field: pml.c:905-918 (Ex), 958-966
    (Ey), 1005-1013 (Ez).  [ATmp 0] is oldPP., [ATmp 1] is oldP..  ir,jr,kr are
    the indices relative to the region.  [a1 a2 a3 a4]: ad,bd of the first
    sweep; ad,bd of the second; ibh; ah. *)
Definition pmlEbody (r : Face) (f : Fld) (curl ad1 bd1 ad2 bd2 ibh_ ah_ : ex)
    (ir jr kr i j k : Z) : list (stmt V) :=
  let PP := L (APP r f) ir jr kr in let P := L (AP r f) ir jr kr in
  let oldPP := L (ATmp 0) i j k in let oldP := L (ATmp 1) i j k in
  [ Asg oldPP (Rd PP);
    Asg PP (Add (Mul (ALPHA f i j k) (Rd PP)) (Mul (BETA f i j k) curl));
    Asg oldP (Rd P);
    Asg P (Add (Mul ad1 (Rd P)) (Mul bd1 (Sub (Rd PP) (Rd oldPP))));
    Asg (L (AF f) i j k)
        (Add (Mul ad2 (F f i j k))
             (Mul (Mul bd2 ibh_) (Sub (Rd P) (Mul ah_ (Rd oldP))))) ].

(** pml.c:882-921: Ex from H, PPx, Px: sweeps y then z, ibhx/ahx. *)
Definition pmlEx (r : Face) (l : BBox) (i j k : Z) : list (stmt V) :=
  pmlEbody r EX (cHx i j k) (PC ad YDIR j) (PC bd YDIR j) (PC ad ZDIR k) (PC bd ZDIR k)
    (PC ibh XDIR i) (PC ah XDIR i) (i - l XLO) (j - l YLO) (k - l ZLO) i j k.
(** pml.c:927-970: Ey: sweeps z then x, ibhy/ahy. *)
Definition pmlEy (r : Face) (l : BBox) (i j k : Z) : list (stmt V) :=
  pmlEbody r EY (cHy i j k) (PC ad ZDIR k) (PC bd ZDIR k) (PC ad XDIR i) (PC bd XDIR i)
    (PC ibh YDIR j) (PC ah YDIR j) (i - l XLO) (j - l YLO) (k - l ZLO) i j k.
(** pml.c:973-1017: Ez: sweeps x then y, ibhz/ahz. *)
Definition pmlEz (r : Face) (l : BBox) (i j k : Z) : list (stmt V) :=
  pmlEbody r EZ (cHz i j k) (PC ad XDIR i) (PC bd XDIR i) (PC ad YDIR j) (PC bd YDIR j)
    (PC ibh ZDIR k) (PC ah ZDIR k) (i - l XLO) (j - l YLO) (k - l ZLO) i j k.

(** pml.c:859-1023 updatePmlEfield: per region Ex, Ey, Ez (each guarded by the
    auxiliary array being allocated). *)
Definition updatePmlEfield (c : Cfg) : list (item V) :=
  flat_map (fun r =>
    if btype_eqb (outerSurfaceType c r) BT_PML
    then [nest3 (fplim c r EX) (pmlEx r (fplim c r EX));
          nest3 (fplim c r EY) (pmlEy r (fplim c r EY));
          nest3 (fplim c r EZ) (pmlEz r (fplim c r EZ))]
    else []) faces.

(** H field body: pml.c:1076-1082 (Hx), 1121-1127 (Hy), 1166-1172 (Hz).
    [ATmp 2] is oldB.. *)
Definition pmlHbody (r : Face) (f : Fld) (curl ah1 bh1 ah2 bh2 ibd_ ad_ : ex)
    (ir jr kr i j k : Z) : list (stmt V) :=
  let B := L (AB r f) ir jr kr in let oldB := L (ATmp 2) i j k in
  [ Asg oldB (Rd B);
    Asg B (Add (Mul ah1 (Rd B)) (Mul (Mul (GAMMA f i j k) bh1) curl));
    Asg (L (AF f) i j k)
        (Add (Mul ah2 (F f i j k))
             (Mul (Mul bh2 ibd_) (Sub (Rd B) (Mul ad_ (Rd oldB))))) ].

(** pml.c:1049-1087 *)
Definition pmlHx (r : Face) (l : BBox) (i j k : Z) : list (stmt V) :=
  pmlHbody r HX (cEx i j k) (PC ah YDIR j) (PC bh YDIR j) (PC ah ZDIR k) (PC bh ZDIR k)
    (PC ibd XDIR i) (PC ad XDIR i) (i - l XLO) (j - l YLO) (k - l ZLO) i j k.
(** pml.c:1090-1131 *)
Definition pmlHy (r : Face) (l : BBox) (i j k : Z) : list (stmt V) :=
  pmlHbody r HY (cEy i j k) (PC ah ZDIR k) (PC bh ZDIR k) (PC ah XDIR i) (PC bh XDIR i)
    (PC ibd YDIR j) (PC ad YDIR j) (i - l XLO) (j - l YLO) (k - l ZLO) i j k.
(** pml.c:1134-1177 *)
Definition pmlHz (r : Face) (l : BBox) (i j k : Z) : list (stmt V) :=
  pmlHbody r HZ (cEz i j k) (PC ah XDIR i) (PC bh XDIR i) (PC ah YDIR j) (PC bh YDIR j)
    (PC ibd ZDIR k) (PC ad ZDIR k) (i - l XLO) (j - l YLO) (k - l ZLO) i j k.

(** pml.c:1026-1183 updatePmlHfield *)
Definition updatePmlHfield (c : Cfg) : list (item V) :=
  flat_map (fun r =>
    if btype_eqb (outerSurfaceType c r) BT_PML
    then [nest3 (fplim c r HX) (pmlHx r (fplim c r HX));
          nest3 (fplim c r HY) (pmlHy r (fplim c r HY));
          nest3 (fplim c r HZ) (pmlHz r (fplim c r HZ))]
    else []) faces.
End PmlUpdates.
