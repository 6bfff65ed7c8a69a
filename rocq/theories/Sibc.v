(** Surface impedance sheets (SIBC).  Models /repo/src/sibc.c (compiled with
    WITH_SIBC), unscaled fields (grid.h:286-305).  The C types real and double
    are R.  A boundary is one given by scattering parameters or by a matrix of
    recursive-convolution filters; the reading of filter files, messages and
    memory accounting are omitted. *)
From Coq Require Import ZArith List Bool Reals.
From Verif Require Import Types Lang BBox Grid PmlProfile Medium Filter.
Import ListNotations.
Open Scope R_scope.

(** ** Scattering matrices *)
Definition M2 := bool -> bool -> R.   (* S[0][0] = S false false *)
Definition m2 (s00 s01 s10 s11 : R) : M2 := fun i j => if i then (if j then s11 else s10) else (if j then s01 else s00).
(** sibc.c:788-803 tportS2Z *)
Definition deltaS (S : M2) : R := (1 - S false false) * (1 - S true true) - S false true * S true false.
Definition tportS2Z (S : M2) : M2 :=
  m2 (((1 + S false false) * (1 - S true true) + S false true * S true false) / deltaS S * eta0)
     (2 * S false true * eta0 / deltaS S)
     (2 * S true false * eta0 / deltaS S)
     (((1 - S false false) * (1 + S true true) + S false true * S true false) / deltaS S * eta0).
(** sibc.c:805-823 isPassiveS *)
Definition rge (x y : R) : bool := if Rle_dec y x then true else false.
Definition isPassiveS (S : M2) : bool :=
  let elem00 := rge (1 - (S false false * S false false + S true false * S true false)) 0 in
  let elem01 := rge (S false false * S false true - S true false * S true true) 0 in
  let elem10 := rge (S false true * S false false - S true true * S true false) 0 in
  let elem11 := rge (1 - (S false true * S false true + S true true * S true true)) 0 in
  elem00 && elem01 && elem10 && elem11.

(** ** 4-vectors and 4x4 matrices *)
Record V4 := mkV { v0 : R; v1 : R; v2 : R; v3 : R }.
Record M4 := mkM { r0 : V4; r1 : V4; r2 : V4; r3 : V4 }.
(** sibc.c:71-109, the orientation matrices *)
Definition Acp := mkM (mkV 0 0 1 0) (mkV 0 0 0 (-1)) (mkV (-1) 0 0 0) (mkV 0 1 0 0).
Definition Acm := mkM (mkV 0 0 0 (-1)) (mkV 0 0 1 0) (mkV 0 1 0 0) (mkV (-1) 0 0 0).
Definition Asp := mkM (mkV (-1) 0 0 0) (mkV 0 1 0 0) (mkV 0 0 (-1) 0) (mkV 0 0 0 1).
Definition Asm := mkM (mkV 0 1 0 0) (mkV (-1) 0 0 0) (mkV 0 0 0 1) (mkV 0 0 (-1) 0).
Definition Bcp := mkM (mkV 1 0 0 0) (mkV 0 1 0 0) (mkV 0 0 1 0) (mkV 0 0 0 1).
Definition Bcm := mkM (mkV 0 1 0 0) (mkV 1 0 0 0) (mkV 0 0 0 1) (mkV 0 0 1 0).
Definition Bsp := mkM (mkV 0 0 (-1) 0) (mkV 0 0 0 (-1)) (mkV 1 0 0 0) (mkV 0 1 0 0).
Definition Bsm := mkM (mkV 0 0 0 (-1)) (mkV 0 0 (-1) 0) (mkV 0 1 0 0) (mkV 1 0 0 0).
(** sibc.c:588-601 matMulVector *)
Definition dot4 (a x : V4) : R := 0 + v0 a * v0 x + v1 a * v1 x + v2 a * v2 x + v3 a * v3 x.
Definition matMulVector (A : M4) (x : V4) : V4 := mkV (dot4 (r0 A) x) (dot4 (r1 A) x) (dot4 (r2 A) x) (dot4 (r3 A) x).
(** sibc.c:603-613 matLinearComb *)
Definition lin4 (a : R) (x : V4) (b : R) (y : V4) : V4 :=
  mkV (a * v0 x + b * v0 y) (a * v1 x + b * v1 y) (a * v2 x + b * v2 y) (a * v3 x + b * v3 y).
Definition matLinearComb (a : R) (A : M4) (b : R) (B : M4) : M4 :=
  mkM (lin4 a (r0 A) b (r0 B)) (lin4 a (r1 A) b (r1 B)) (lin4 a (r2 A) b (r2 B)) (lin4 a (r3 A) b (r3 B)).
(** sibc.c:463-476: the transformations of a sheet with orientation 1 ([true])
    or -1 *)
Definition matA (plus : bool) (cosa sina : R) : M4 :=
  if plus then matLinearComb cosa Acp sina Asp else matLinearComb cosa Acm sina Asm.
Definition matB (plus : bool) (cosa sina : R) : M4 :=
  if plus then matLinearComb cosa Bcp sina Bsp else matLinearComb cosa Bcm sina Bsm.

(** ** Boundaries *)
Inductive I4 := p0 | p1 | p2 | p3.
Definition idx4 : list I4 := [p0; p1; p2; p3].
Definition v4 (x : V4) (p : I4) : R := match p with p0 => v0 x | p1 => v1 x | p2 => v2 x | p3 => v3 x end.
Definition ofF (f : I4 -> R) : V4 := mkV (f p0) (f p1) (f p2) (f p3).
(** a matrix of filters (yfPoleResidueM, 4x4) *)
Definition PRM := I4 -> I4 -> PoleResidue.
(** sibc.c:136-152: the pole-residue matrix of a boundary given by scattering
    parameters *)
Definition lowHalf (p : I4) : option bool := match p with p0 => Some false | p1 => Some true | _ => None end.
Definition highHalf (p : I4) : option bool := match p with p2 => Some false | p3 => Some true | _ => None end.
Definition constPR (x : R) : PoleResidue := mkPR x [].
Definition sibcMatrix (S_TM S_TE : M2) : PRM := fun i j =>
  match lowHalf i, lowHalf j, highHalf i, highHalf j with
  | Some a, Some b, _, _ => constPR (tportS2Z S_TM a b)
  | _, _, Some a, Some b => constPR (tportS2Z S_TE a b)
  | _, _, _, _ => constPR 0
  end.
(** filter.c:371-386 yfPoleResidueM2RecConvM, filter by filter; sibc.c:186 *)
Definition recConvM (prm : PRM) (dt : R) : I4 -> I4 -> RecConv := fun i j => poleResidue2RecConv (prm i j) dt.
(** sibc.c:126-195 initSibcBoundary without a file; [None] = MSG_ERROR, which
    ends the run *)
Definition initSibcBoundary (S_TM S_TE : M2) (dt : R) : option (I4 -> I4 -> RecConv) :=
  if negb (isPassiveS S_TM) || negb (isPassiveS S_TE) then None
  else Some (recConvM (sibcMatrix S_TM S_TE) dt).

(** sibc.c:164-181: the matrix of a boundary read from a file with a 2x2 matrix
    of filters *)
Definition isoMatrix (f : bool -> bool -> PoleResidue) : PRM := fun i j =>
  match lowHalf i, lowHalf j, highHalf i, highHalf j with
  | Some a, Some b, _, _ => f a b
  | _, _, Some a, Some b => f a b
  | _, _, _, _ => constPR 0
  end.
(** ** One face of a sheet *)
Definition States := I4 -> I4 -> RecConvState.
(** filter.c:275-292 yfAllocRecConvStateM; sibc.c:298 *)
Definition states0 (rcm : I4 -> I4 -> RecConv) : States := fun p q => allocRecConvState (rcm p q).
(** sibc.c:502-508: Eout[p] = sum over q of the filters, in order *)
Definition sibcStep (rcm : I4 -> I4 -> RecConv) (st : States) (Hin : V4) : States * V4 :=
  let o p q := recConvStep (rcm p q) (st p q) (v4 Hin q) in
  (fun p q => fst (o p q),
   ofF (fun p => fold_left (fun acc q => acc + snd (o p q)) idx4 0)).
(** sibc.c:499-510: from the tangential H to the tangential E of a face *)
Definition sheet (plus : bool) (cosa sina : R) (rcm : I4 -> I4 -> RecConv) (st : States) (Htan : V4) : States * V4 :=
  let Hin := matMulVector (matA plus cosa sina) Htan in
  let '(st', Eout) := sibcStep rcm st Hin in
  (st', matMulVector (matB plus cosa sina) Eout).

(** the tangential E of a face, step after step *)
Fixpoint sheetRun (plus : bool) (cosa sina : R) (rcm : I4 -> I4 -> RecConv) (st : States) (H : list V4) : list V4 :=
  match H with [] => [] | h :: H' => let '(st', e) := sheet plus cosa sina rcm st h in e :: sheetRun plus cosa sina rcm st' H' end.

(** ** Sheets on the grid *)
Open Scope Z_scope.
Definition Flags := I4 -> bool.
(** sibc.c:45-58 SibcItem; [sb_box] is gbbox after the "+1" in the normal
    direction *)
Record Sheet := mkSheet { sb_box : BBox; sb_normal : Axis; sb_plus : bool; sb_cosa : R; sb_sina : R;
  sb_rcm : I4 -> I4 -> RecConv }.
(** sibc.c:246-262: gbbox of a surface with mesh box [mb] and normal [n] *)
Definition sheetBox (c : Cfg) (mb : BBox) (n : Axis) : BBox :=
  let g := offsetBoundingBox mb (gibox c) in
  fun f => if face_eqb f (face_hi n) then g f + 1 else g f.

(** The temporary array isSibcFace: [None] = the element has not been written
    since malloc. *)
Definition FaceArr := Z -> Z -> Z -> Axis -> option bool.
(** sibc.c:825-836 setSibcFace *)
Definition setSibcFace (a : FaceArr) (g : BBox) (dir : Axis) (v : bool) : FaceArr := fun i j k d =>
  if (g XLO <=? i) && (i <? g XHI) && (g YLO <=? j) && (j <? g YHI) && (g ZLO <=? k) && (k <? g ZHI) && axis_eqb d dir
  then Some v else a i j k d.
(** sibc.c:227-232, 314: the array after the first loop over the surfaces *)
Definition faceArray (c : Cfg) (sheets : list Sheet) : FaceArr :=
  fold_left (fun a s => setSibcFace a (sb_box s) (sb_normal s) true) sheets
    (setSibcFace (setSibcFace (setSibcFace (fun _ _ _ _ => None) (gobox c) XDIR false) (gobox c) YDIR false) (gobox c) ZDIR false).

(** sibc.c:325-385: the index of isSibcFace read for isAdjA / isAdjB [ [p] ] of
    the face at i, j, k *)
Definition adjA (n : Axis) (i j k : Z) (p : I4) : Z * Z * Z * Axis :=
  match n, p with
  | XDIR, p0 => (i-1, j, k, YDIR) | XDIR, p1 => (i-1, j+1, k, YDIR) | XDIR, p2 => (i-1, j, k, ZDIR) | XDIR, p3 => (i-1, j, k+1, ZDIR)
  | YDIR, p0 => (i, j-1, k, ZDIR) | YDIR, p1 => (i, j-1, k+1, ZDIR) | YDIR, p2 => (i, j-1, k, XDIR) | YDIR, p3 => (i+1, j-1, k, XDIR)
  | ZDIR, p0 => (i, j, k-1, XDIR) | ZDIR, p1 => (i+1, j, k-1, XDIR) | ZDIR, p2 => (i, j, k-1, YDIR) | ZDIR, p3 => (i, j+1, k-1, YDIR)
  end.
Definition adjB (n : Axis) (i j k : Z) (p : I4) : Z * Z * Z * Axis :=
  match n, p with
  | XDIR, p0 => (i, j, k, YDIR) | XDIR, p1 => (i, j+1, k, YDIR) | XDIR, p2 => (i, j, k, ZDIR) | XDIR, p3 => (i, j+1, k+1, ZDIR)
  | YDIR, p0 => (i, j, k, ZDIR) | YDIR, p1 => (i, j, k+1, ZDIR) | YDIR, p2 => (i, j, k, XDIR) | YDIR, p3 => (i+1, j, k+1, XDIR)
  | ZDIR, p0 => (i, j, k, XDIR) | ZDIR, p1 => (i+1, j, k, XDIR) | ZDIR, p2 => (i, j, k, YDIR) | ZDIR, p3 => (i+1, j+1, k, YDIR)
  end.
Definition rdFace (c : Cfg) (a : FaceArr) (x : Z * Z * Z * Axis) : option bool :=
  let '(i, j, k, d) := x in
  if (0 <=? i) && (i <? numCells c XDIR) && (0 <=? j) && (j <? numCells c YDIR) && (0 <=? k) && (k <? numCells c ZDIR)
  then a i j k d else None.
(** the faces of a sheet, sibc.c:294-296 *)
Definition faceIn (g : BBox) (i j k : Z) : Prop :=
  g XLO <= i < g XHI /\ g YLO <= j < g YHI /\ g ZLO <= k < g ZHI.

(** [if( b )] as a number *)
Definition b2r (b : bool) : R := if b then 1%R else 0%R.

(** surface.c:1028-1051 isPmcEdge *)
Definition isPmcEdge (c : Cfg) (a : Axis) (index : Z) : bool :=
  ((btype_eqb (outerSurfaceType c (face_lo a)) BT_PMC || btype_eqb (outerSurfaceType c (face_lo a)) BT_PERIODIC) && (index =? gibox c (face_lo a)))
  || ((btype_eqb (outerSurfaceType c (face_hi a)) BT_PMC || btype_eqb (outerSurfaceType c (face_hi a)) BT_PERIODIC) && (index =? gibox c (face_hi a))).

(** sibc.c:489-497, 522-530, 554-562: the fields read for Htan of a face *)
Definition htanReads (n : Axis) (i j k : Z) (p : I4) : Loc * Loc :=
  match n, p with
  | XDIR, p0 => (L (AF HY) (i-1) j k, L (AF HY) (i-1) (j+1) k)
  | XDIR, p1 => (L (AF HY) i j k, L (AF HY) i (j+1) k)
  | XDIR, p2 => (L (AF HZ) (i-1) j k, L (AF HZ) (i-1) j (k+1))
  | XDIR, p3 => (L (AF HZ) i j k, L (AF HZ) i j (k+1))
  | YDIR, p0 => (L (AF HZ) i (j-1) k, L (AF HZ) i (j-1) (k+1))
  | YDIR, p1 => (L (AF HZ) i j k, L (AF HZ) i j (k+1))
  | YDIR, p2 => (L (AF HX) i (j-1) k, L (AF HX) (i+1) (j-1) k)
  | YDIR, p3 => (L (AF HX) i j k, L (AF HX) (i+1) j k)
  | ZDIR, p0 => (L (AF HX) i j (k-1), L (AF HX) (i+1) j (k-1))
  | ZDIR, p1 => (L (AF HX) i j k, L (AF HX) (i+1) j k)
  | ZDIR, p2 => (L (AF HY) i j (k-1), L (AF HY) i (j+1) (k-1))
  | ZDIR, p3 => (L (AF HY) i j k, L (AF HY) i (j+1) k)
  end.
(** the adjacency flags that scale component [p]: A for side a (p0, p2), B for
    side b; flags 0 and 1 for the first component, 2 and 3 for the second *)
Definition htanWeight (isA isB : Flags) (p : I4) : R :=
  (match p with
   | p0 => / 2 * (1 + b2r (isA p0) + b2r (isA p1))
   | p1 => / 2 * (1 + b2r (isB p0) + b2r (isB p1))
   | p2 => / 2 * (1 + b2r (isA p2) + b2r (isA p3))
   | p3 => / 2 * (1 + b2r (isB p2) + b2r (isB p3))
   end)%R.
Definition htan (n : Axis) (isA isB : Flags) (m : mem R) (i j k : Z) : V4 :=
  ofF (fun p => let '(a, b) := htanReads n i j k p in (htanWeight isA isB p * (m a + m b))%R).

(** sibc.c:484-488, 517-521, 549-553: the mesh E fields that are set to zero *)
Definition zeroE (n : Axis) (i j k : Z) : list (stmt R) :=
  match n with
  | XDIR => [Asg (L (AF EY) i j k) (Cst 0%R); Asg (L (AF EY) i j (k+1)) (Cst 0%R); Asg (L (AF EZ) i j k) (Cst 0%R); Asg (L (AF EZ) i (j+1) k) (Cst 0%R)]
  | YDIR => [Asg (L (AF EZ) i j k) (Cst 0%R); Asg (L (AF EZ) (i+1) j k) (Cst 0%R); Asg (L (AF EX) i j k) (Cst 0%R); Asg (L (AF EX) i j (k+1)) (Cst 0%R)]
  | ZDIR => [Asg (L (AF EX) i j k) (Cst 0%R); Asg (L (AF EX) i (j+1) k) (Cst 0%R); Asg (L (AF EY) i j k) (Cst 0%R); Asg (L (AF EY) (i+1) j k) (Cst 0%R)]
  end.

(** ** H corrections *)
Section HCorr.
Variables (c : Cfg) (isA isB : Flags) (E : V4) (i j k : Z).
Notation ex := (expr R).
Definition w (a : Axis) (x : Z) : ex := Cst (/ 2 * (1 + b2r (isPmcEdge c a x)))%R.
Definition hAdd (f : Fld) (i j k : Z) (d : ex) : stmt R := Asg (L (AF f) i j k) (Add (F f i j k) (Mul (GAMMA f i j k) d)).
Definition hSub (f : Fld) (i j k : Z) (d : ex) : stmt R := Asg (L (AF f) i j k) (Sub (F f i j k) (Mul (GAMMA f i j k) d)).
(** "parallel adjacent" term: 0.5 * weight * ( !A * a + !B * b ) *)
Definition par (wt : ex) (na nb : bool) (a b : ex) : ex :=
  Mul (Mul (Cst (/ 2)%R) wt) (Add (Mul (Cst (b2r (negb na))) a) (Mul (Cst (b2r (negb nb))) b)).
(** sibc.c:629-661, 662-694, 695-727: the body of the loop for one face; the
    derivative operators are grid.h:280-284 *)
Definition sibcHx : list (stmt R) :=
  let Eya := @Cst R (v0 E) in let Eyb := @Cst R (v1 E) in let Eza := @Cst R (v2 E) in let Ezb := @Cst R (v3 E) in
  let wyl := w ZDIR k in let wyh := w ZDIR (k+1) in let wzl := w YDIR j in let wzh := w YDIR (j+1) in
  let dx e i := Mul (idex i) e in
  [Asg (L (AF HX) i j k) (Cst 0%R);
   hAdd HY (i-1) j k (Mul wzl (dx Eza (i-1))); hAdd HY (i-1) (j+1) k (Mul wzh (dx Eza (i-1)));
   hSub HY i j k (Mul wzl (dx Ezb i)); hSub HY i (j+1) k (Mul wzh (dx Ezb i));
   hSub HZ (i-1) j k (Mul wyl (dx Eya (i-1))); hSub HZ (i-1) j (k+1) (Mul wyh (dx Eya (i-1)));
   hAdd HZ i j k (Mul wyl (dx Eyb i)); hAdd HZ i j (k+1) (Mul wyh (dx Eyb i));
   hSub HX i (j+1) k (par wzh (isA p0) (isB p0) (dx Eza (i-1)) (dx Ezb i));
   hAdd HX i (j-1) k (par wzl (isA p1) (isB p1) (dx Eza (i-1)) (dx Ezb i));
   hSub HX i j (k+1) (par wyh (isA p2) (isB p2) (dx Eya (i-1)) (dx Eyb i));
   hAdd HX i j (k-1) (par wyl (isA p3) (isB p3) (dx Eya (i-1)) (dx Eyb i))].
Definition sibcHy : list (stmt R) :=
  let Eza := @Cst R (v0 E) in let Ezb := @Cst R (v1 E) in let Exa := @Cst R (v2 E) in let Exb := @Cst R (v3 E) in
  let wzl := w XDIR i in let wzh := w XDIR (i+1) in let wxl := w ZDIR k in let wxh := w ZDIR (k+1) in
  let dy e j := Mul (idey j) e in
  [Asg (L (AF HY) i j k) (Cst 0%R);
   hAdd HZ i (j-1) k (Mul wxl (dy Exa (j-1))); hAdd HZ i (j-1) (k+1) (Mul wxh (dy Exa (j-1)));
   hSub HZ i j k (Mul wxl (dy Exb j)); hSub HZ i j (k+1) (Mul wxh (dy Exb j));
   hSub HX i (j-1) k (Mul wzl (dy Eza (j-1))); hSub HX (i+1) (j-1) k (Mul wzh (dy Eza (j-1)));
   hAdd HX i j k (Mul wzl (dy Ezb j)); hAdd HX (i+1) j k (Mul wzh (dy Ezb j));
   hAdd HY i j (k+1) (par wzh (isA p0) (isB p0) (dy Eza (j-1)) (dy Exb j));
   hSub HY i j (k-1) (par wzl (isA p1) (isB p1) (dy Eza (j-1)) (dy Exb j));
   hAdd HY (i+1) j k (par wxh (isA p2) (isB p2) (dy Exa (j-1)) (dy Exb j));
   hSub HY (i-1) j k (par wxl (isA p3) (isB p3) (dy Exa (j-1)) (dy Exb j))].
Definition sibcHz : list (stmt R) :=
  let Exa := @Cst R (v0 E) in let Exb := @Cst R (v1 E) in let Eya := @Cst R (v2 E) in let Eyb := @Cst R (v3 E) in
  let wxl := w YDIR j in let wxh := w YDIR (j+1) in let wyl := w XDIR i in let wyh := w XDIR (i+1) in
  let dz e k := Mul (idez k) e in
  [Asg (L (AF HZ) i j k) (Cst 0%R);
   hAdd HX i j (k-1) (Mul wyl (dz Eya (k-1))); hAdd HX (i+1) j (k-1) (Mul wyh (dz Eya (k-1)));
   hSub HX i j k (Mul wyl (dz Eyb k)); hSub HX (i+1) j k (Mul wyh (dz Eyb k));
   hSub HY i j (k-1) (Mul wxl (dz Exa (k-1))); hSub HY i (j+1) (k-1) (Mul wxh (dz Exa (k-1)));
   hAdd HY i j k (Mul wxl (dz Exb k)); hAdd HY i (j+1) k (Mul wxh (dz Exb k));
   hAdd HZ (i+1) j k (par wyh (isA p0) (isB p0) (dz Eya (k-1)) (dz Eyb k));
   hSub HZ (i-1) j k (par wyl (isA p1) (isB p1) (dz Eya (k-1)) (dz Eyb k));
   hAdd HZ i (j+1) k (par wxh (isA p2) (isB p2) (dz Exa (k-1)) (dz Exb k));
   hSub HZ i (j-1) k (par wxl (isA p3) (isB p3) (dz Exa (k-1)) (dz Exb k))].
Definition sibcHface (n : Axis) : list (stmt R) := match n with XDIR => sibcHx | YDIR => sibcHy | ZDIR => sibcHz end.
End HCorr.

(** sibc.c:734-770: the normal H of every face is set to zero once more *)
Definition zeroH (n : Axis) (i j k : Z) : list (stmt R) :=
  [Asg (L (AF match n with XDIR => HX | YDIR => HY | ZDIR => HZ end) i j k) (Cst 0%R)].
(** [for( i = lo ; i < hi ; i++ )], three deep *)
Definition faces3 {S} (g : BBox) (body : Z -> Z -> Z -> list S) : list S :=
  for_ (g XLO) (g XHI - 1) (fun i => for_ (g YLO) (g YHI - 1) (fun j => for_ (g ZLO) (g ZHI - 1) (fun k => body i j k))).
(** A sheet with its flags and its present tangential fields.  ii = i - gbbox:
    the arrays of a face are indexed by the grid position here. *)
Record SheetState := mkSS { ss_sheet : Sheet; ss_A : Z -> Z -> Z -> Flags; ss_B : Z -> Z -> Z -> Flags; ss_E : Z -> Z -> Z -> V4 }.
(** sibc.c:615-776 updateSibcSurfacesHfield *)
Definition updateSibcH (c : Cfg) (l : list SheetState) : list (stmt R) :=
  flat_map (fun s => faces3 (sb_box (ss_sheet s)) (fun i j k => sibcHface c (ss_A s i j k) (ss_B s i j k) (ss_E s i j k) i j k (sb_normal (ss_sheet s)))) l ++
  flat_map (fun s => faces3 (sb_box (ss_sheet s)) (fun i j k => zeroH (sb_normal (ss_sheet s)) i j k)) l.
(** sibc.c:443-585 updateSibcSurfacesEfield: the statements on the mesh; the
    new Etan of a face is [sheet] of [htan] *)
Definition updateSibcE (l : list SheetState) : list (stmt R) :=
  flat_map (fun s => faces3 (sb_box (ss_sheet s)) (fun i j k => zeroE (sb_normal (ss_sheet s)) i j k)) l.
