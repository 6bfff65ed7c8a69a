(** Basic enumerations of vulture and the addressable storage of the solver.

    Model text only: no proofs beyond decidable equality. *)
From Coq Require Import ZArith List Bool Lia.
Import ListNotations.
Open Scope Z_scope.

(** fdtd_types.h:52-59  [CoordAxis] (CA_UNDEFINED is modelled by [option Axis]). *)
Inductive Axis := XDIR | YDIR | ZDIR.

(** fdtd_types.h:84-94  [MeshFace]; the C enum values are 0..5 in this order. *)
Inductive Face := XLO | XHI | YLO | YHI | ZLO | ZHI.

(** fdtd_types.h:98-108  [FieldComponent]; the C enum values are 0..5 in this order. *)
Inductive Fld := EX | EY | EZ | HX | HY | HZ.

(** boundary.h  [BoundaryType]. *)
Inductive BType := BT_PMC | BT_PML | BT_PEC | BT_FREE_SPACE | BT_PERIODIC | BT_MUR | BT_SIBC.

(** The loops [for( face = XLO ; face <= ZHI ; face++ )] and
    [for( field = EX ; field <= HZ ; field++ )] run over these lists. *)
Definition faces : list Face := [XLO; XHI; YLO; YHI; ZLO; ZHI].
Definition flds  : list Fld  := [EX; EY; EZ; HX; HY; HZ].
Definition axes  : list Axis := [XDIR; YDIR; ZDIR].

Definition axis_eqb (a b : Axis) : bool :=
  match a, b with XDIR, XDIR | YDIR, YDIR | ZDIR, ZDIR => true | _, _ => false end.
Definition face_eqb (a b : Face) : bool :=
  match a, b with
  | XLO, XLO | XHI, XHI | YLO, YLO | YHI, YHI | ZLO, ZLO | ZHI, ZHI => true
  | _, _ => false end.
Definition fld_eqb (a b : Fld) : bool :=
  match a, b with
  | EX, EX | EY, EY | EZ, EZ | HX, HX | HY, HY | HZ, HZ => true | _, _ => false end.
Definition btype_eqb (a b : BType) : bool :=
  match a, b with
  | BT_PMC, BT_PMC | BT_PML, BT_PML | BT_PEC, BT_PEC | BT_FREE_SPACE, BT_FREE_SPACE
  | BT_PERIODIC, BT_PERIODIC | BT_MUR, BT_MUR | BT_SIBC, BT_SIBC => true
  | _, _ => false end.

Lemma axis_eqb_spec a b : axis_eqb a b = true <-> a = b.
Proof. destruct a, b; simpl; split; congruence. Qed.
Lemma face_eqb_spec a b : face_eqb a b = true <-> a = b.
Proof. destruct a, b; simpl; split; congruence. Qed.
Lemma fld_eqb_spec a b : fld_eqb a b = true <-> a = b.
Proof. destruct a, b; simpl; split; congruence. Qed.
Lemma btype_eqb_spec a b : btype_eqb a b = true <-> a = b.
Proof. destruct a, b; simpl; split; congruence. Qed.

(** [int bbox[6]] indexed by a mesh face. *)
Definition BBox := Face -> Z.
Definition mkbox (xl xh yl yh zl zh : Z) : BBox :=
  fun f => match f with XLO => xl | XHI => xh | YLO => yl | YHI => yh | ZLO => zl | ZHI => zh end.

(** [bool includeBoundary[6]] *)
Definition BFlags := Face -> bool.

(** [int fieldLimits[6][6]] *)
Definition FLimits := Fld -> BBox.

(** Axis normal to a face, and whether a face is a LO face. *)
Definition face_axis (f : Face) : Axis :=
  match f with XLO | XHI => XDIR | YLO | YHI => YDIR | ZLO | ZHI => ZDIR end.
Definition face_lo (a : Axis) : Face :=
  match a with XDIR => XLO | YDIR => YLO | ZDIR => ZLO end.
Definition face_hi (a : Axis) : Face :=
  match a with XDIR => XHI | YDIR => YHI | ZDIR => ZHI end.
Definition is_lo (f : Face) : bool :=
  match f with XLO | YLO | ZLO => true | _ => false end.
Definition is_E (f : Fld) : bool := match f with EX | EY | EZ => true | _ => false end.
Definition fld_axis (f : Fld) : Axis :=
  match f with EX | HX => XDIR | EY | HY => YDIR | EZ | HZ => ZDIR end.

(** ** Storage.

    Every C array the time loop touches is one [Arr]; an element is a [Loc].
    One-dimensional arrays use the first index only (the other two must be 0).
    [ATmp] holds the loop-local scalars ([oldPPx], [Extemp], ...): they are
    private to one iteration in the C text ([private(...)] clauses), so each
    (i,j,k) iteration owns its own cell of [ATmp]. *)

(** pml.c:44-83: per-axis PML profile arrays. *)
Inductive PmlC := ad | bd | gd | kd | ah | bh | gh | kh | ibd | ibh.

Inductive Arr :=
| AF (f : Fld)                      (* grid.c:60-90   Ex Ey Ez Hx Hy Hz              *)
| AAlpha (f : Fld)                  (* grid.c:98-100  alphaEx alphaEy alphaEz        *)
| ABeta (f : Fld)                   (* grid.c:101-103 betaEx betaEy betaEz           *)
| AGamma (f : Fld)                  (* grid.c:104-106 gammaHx gammaHy gammaHz        *)
| ADe (a : Axis) | ADh (a : Axis)   (* grid.c:109-117 dex.. dhx..                    *)
| AIde (a : Axis) | AIdh (a : Axis) (* grid.c:119-127 idex.. idhx..                  *)
| APP (r : Face) (f : Fld)          (* pml.c PPx PPy PPz [region]                    *)
| AP (r : Face) (f : Fld)           (* pml.c Px Py Pz [region]                       *)
| AB (r : Face) (f : Fld)           (* pml.c Bx By Bz [region]                       *)
| APml (c : PmlC) (a : Axis)        (* pml.c adx .. ibhz                             *)
| AZeta                             (* mur.c zeta[6]                                 *)
| ATmp (n : Z).                     (* iteration-private scalars                     *)

Definition axis_dec (a b : Axis) : {a = b} + {a <> b}. Proof. decide equality. Defined.
Definition face_dec (a b : Face) : {a = b} + {a <> b}. Proof. decide equality. Defined.
Definition fld_dec (a b : Fld) : {a = b} + {a <> b}. Proof. decide equality. Defined.
Definition pmlc_dec (a b : PmlC) : {a = b} + {a <> b}. Proof. decide equality. Defined.
Definition btype_dec (a b : BType) : {a = b} + {a <> b}. Proof. decide equality. Defined.
Definition arr_dec (a b : Arr) : {a = b} + {a <> b}.
Proof.
  decide equality; auto using axis_dec, face_dec, fld_dec, pmlc_dec, Z.eq_dec.
Defined.

Record Loc := L { arr : Arr; li : Z; lj : Z; lk : Z }.
Definition loc_dec (a b : Loc) : {a = b} + {a <> b}.
Proof. decide equality; auto using arr_dec, Z.eq_dec. Defined.
