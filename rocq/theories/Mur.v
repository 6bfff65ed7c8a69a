(** First-order Mur boundaries.  Models /repo/src/mur.c. *)
From Coq Require Import ZArith List Bool.
From Verif Require Import Types Lang BBox Grid.
Import ListNotations.
Open Scope Z_scope.

(** mur.c:65-98 deselectAdjacentEdgesByType applied to an all-true array: the
    four faces adjacent to [face] are deselected when they are of type MUR. *)
Definition murInclude (c : Cfg) (face : Face) : BFlags := fun g =>
  negb (negb (axis_eqb (face_axis g) (face_axis face))
        && btype_eqb (outerSurfaceType c g) BT_MUR).

(** mur.c:108-118: murbox and fmlim of a MUR face. *)
Definition murbox (c : Cfg) (face : Face) : BBox := getFaceOfBoundingBox (gibox c) face.
Definition fmlim (c : Cfg) (face : Face) : FLimits := setFieldLimits (murbox c face) (murInclude c face).

Section MurUpdates.
Context {V : Type}.
Notation ex := (expr V).

Definition zeta (face : Face) : ex :=
  Rd (L AZeta (match face with XLO => 0 | XHI => 1 | YLO => 2 | YHI => 3 | ZLO => 4 | ZHI => 5 end) 0 0).

(** One iteration: [Etemp = ALPHA*E + BETA*curl] at the neighbour (i1,j1,k1)
    of the boundary point (i,j,k), then [E = E1 + zeta*(Etemp - E)].
    mur.c:157-162 and the eleven analogous bodies.  [ATmp 3] is Extemp/Eytemp/
    Eztemp. *)
Definition murBody (face : Face) (f : Fld) (curl : ex) (i1 j1 k1 i j k : Z) : list (stmt V) :=
  let tmp := L (ATmp 3) i j k in
  [ Asg tmp (Add (Mul (ALPHA f i1 j1 k1) (F f i1 j1 k1)) (Mul (BETA f i1 j1 k1) curl));
    Asg (L (AF f) i j k)
        (Add (F f i1 j1 k1) (Mul (zeta face) (Sub (Rd tmp) (F f i j k)))) ].

(** mur.c:142-180 (XLO), 183-221 (XHI): i fixed, parallel over j. *)
Definition murEX_ (c : Cfg) (face : Face) (di : Z) : list (item V) :=
  let ly := fmlim c face EY in let lz := fmlim c face EZ in
  [ (let i := ly face in
     par_for (ly YLO) (ly YHI) (fun j => for_ (ly ZLO) (ly ZHI) (fun k =>
       murBody face EY (cHy (i + di) j k) (i + di) j k i j k)));
    (let i := lz face in
     par_for (lz YLO) (lz YHI) (fun j => for_ (lz ZLO) (lz ZHI) (fun k =>
       murBody face EZ (cHz (i + di) j k) (i + di) j k i j k))) ].
(** mur.c:224-262 (YLO), 265-303 (YHI): j fixed, parallel over i. *)
Definition murEY_ (c : Cfg) (face : Face) (dj : Z) : list (item V) :=
  let lx := fmlim c face EX in let lz := fmlim c face EZ in
  [ (let j := lx face in
     par_for (lx XLO) (lx XHI) (fun i => for_ (lx ZLO) (lx ZHI) (fun k =>
       murBody face EX (cHx i (j + dj) k) i (j + dj) k i j k)));
    (let j := lz face in
     par_for (lz XLO) (lz XHI) (fun i => for_ (lz ZLO) (lz ZHI) (fun k =>
       murBody face EZ (cHz i (j + dj) k) i (j + dj) k i j k))) ].
(** mur.c:306-344 (ZLO), 347-385 (ZHI): k fixed, parallel over i, Ey before Ex. *)
Definition murEZ_ (c : Cfg) (face : Face) (dk : Z) : list (item V) :=
  let ly := fmlim c face EY in let lx := fmlim c face EX in
  [ (let k := ly face in
     par_for (ly XLO) (ly XHI) (fun i => for_ (ly YLO) (ly YHI) (fun j =>
       murBody face EY (cHy i j (k + dk)) i j (k + dk) i j k)));
    (let k := lx face in
     par_for (lx XLO) (lx XHI) (fun i => for_ (lx YLO) (lx YHI) (fun j =>
       murBody face EX (cHx i j (k + dk)) i j (k + dk) i j k))) ].

(** mur.c:135-392 updateMurEfield.  The C text writes the stencil of the
    neighbour out for each face (e.g. Hz[i-2] at XHI); it is the grid curl
    evaluated at the neighbour. *)
Definition updateMurEface (c : Cfg) (face : Face) : list (item V) :=
  if btype_eqb (outerSurfaceType c face) BT_MUR
  then match face with
       | XLO => murEX_ c XLO 1 | XHI => murEX_ c XHI (-1)
       | YLO => murEY_ c YLO 1 | YHI => murEY_ c YHI (-1)
       | ZLO => murEZ_ c ZLO 1 | ZHI => murEZ_ c ZHI (-1)
       end
  else [].
Definition updateMurEfield (c : Cfg) : list (item V) := flat_map (updateMurEface c) faces.

(** mur.c:398-552 updateMurHfield: normal H on the face, sequential loops.
    The index of the fixed coordinate is read from the same entry of fmlim as
    in the source (XHI uses [HX][XLO]). *)
Definition updateMurHface (c : Cfg) (face : Face) : list (item V) :=
  if btype_eqb (outerSurfaceType c face) BT_MUR
  then match face with
       | XLO | XHI =>
           let l := fmlim c face HX in let i := l XLO in
           [Seq (for_ (l YLO) (l YHI) (fun j => for_ (l ZLO) (l ZHI) (fun k => updHx i j k)))]
       | YLO | YHI =>
           let l := fmlim c face HY in let j := l face in
           [Seq (for_ (l XLO) (l XHI) (fun i => for_ (l ZLO) (l ZHI) (fun k => updHy i j k)))]
       | ZLO | ZHI =>
           let l := fmlim c face HZ in let k := l face in
           [Seq (for_ (l XLO) (l XHI) (fun i => for_ (l YLO) (l YHI) (fun j => updHz i j k)))]
       end
  else [].
Definition updateMurHfield (c : Cfg) : list (item V) := flat_map (updateMurHface c) faces.
End MurUpdates.
