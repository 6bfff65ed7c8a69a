(** The grading profiles of the PML.  Models /repo/src/pml.c:198-413, 693-782
    (allocation of the coefficient arrays), 1325-1337 and
    /repo/src/physical.c:37-46.  The C type [real] is modelled by R.  The
    arrays gd, kd, gh, kh are only printed (pml.c:415-445) and are omitted;
    so are the messages. *)
From Coq Require Import ZArith List Bool Reals.
From Verif Require Import Types Lang BBox Grid CArr Edges.
Import ListNotations.
Open Scope R_scope.

(** physical.c:40-44; 4 atan(1) = PI. *)
Definition mu0 : R := 4 * PI * / 10000000.
Definition eps0 : R := 1 / (mu0 * c0 * c0).
Definition eta0 : R := sqrt (mu0 / eps0).

(** The parameters of a BT PML card after the number of layers:
    boundary.c:174-177; none of them is checked. *)
Record PmlPar := mkPar { pOrder : Z; pNeff : R; pRef : R; pKmax : R }.
(** pml.c:1326-1337 setPmlDefaults; the number of layers is 6. *)
Definition pmlDefaults : PmlPar := mkPar 4 1 (-1) 1.
Definition pmlDefaultLayers : Z := 6.

(** pml.c:267-290; [None] = the assert fails.  C pow( x , order ) =
    [powerRZ] (x = 0 with order < 0, a pole, is not modelled). *)
Definition pmlSigmaProfile (x totalDepth meshSize : R) (q : PmlPar) : option R :=
  if Rge_dec x 0 then if Rle_dec x 1 then
    let sigmaMax :=
      if Rgt_dec (pRef q) 0
      then - (IZR (pOrder q) + 1) / (2 * eta0 * pNeff q * totalDepth) * ln (pRef q)
      else 4 * (IZR (pOrder q) + 1) / (5 * eta0 * pNeff q * meshSize) in
    Some (sigmaMax * powerRZ x (pOrder q))
  else None else None.
(** pml.c:292-300 *)
Definition pmlKappaProfile (x : R) (q : PmlPar) : R := 1 + (pKmax q - 1) * powerRZ x (pOrder q).

(** The coefficient arrays of one axis. *)
Record PmlAr := mkAr { pad : carr R; pbd : carr R; pibd : carr R; pah : carr R; pbh : carr R; pibh : carr R }.

(** pml.c:234-236, 247-249: the three stores at a node *)
Definition storeD (s : PmlAr) (i : Z) (kprof sprof : R) : option PmlAr :=
  do b <- wr (pbd s) i (1 / (kprof + sprof));
  do ib <- wr (pibd s) i (kprof + sprof);
  do a <- wr (pad s) i ((kprof - sprof) / (kprof + sprof));
  Some (mkAr a b ib (pah s) (pbh s) (pibh s)).
(** pml.c:258-260: the three stores at a half node *)
Definition storeH (s : PmlAr) (i : Z) (kprof sprof : R) : option PmlAr :=
  do b <- wr (pbh s) i (1 / (kprof + sprof));
  do ib <- wr (pibh s) i (kprof + sprof);
  do a <- wr (pah s) i ((kprof - sprof) / (kprof + sprof));
  Some (mkAr (pad s) (pbd s) (pibd s) a b ib).

(** pml.c:198-265 setProfile; [dir] is -1 or +1. *)
Definition setProfile (de dh : carr R) (low high dir : Z) (q : PmlPar) (dt : R) (s : PmlAr) : option PmlAr :=
  do total <- cfor low high (fun t i => do x <- rd de i; Some (t + x)) 0;
  do dl <- rd de low;
  let sprof depth := do sg <- pmlSigmaProfile (depth / total) total dl q; Some (/ 2 * dt / eps0 * sg) in
  let kprof depth := pmlKappaProfile (depth / total) q in
  let dE := if (dir =? -1)%Z then total else 0 in
  let dH := if (dir =? -1)%Z then total - / 2 * dl else / 2 * dl in
  do r <- cfor low high (fun r i => let '(s, dE) := r in
      do sp <- sprof dE; do s <- storeD s i (kprof dE) sp;
      do x <- rd de i; Some (s, dE + IZR dir * x)) (s, dE);
  let '(s, dE) := r in
  do s <- (if (dir =? 1)%Z then do sp <- sprof dE; storeD s (high + 1)%Z (kprof dE) sp else Some s);
  do r <- cfor low high (fun r i => let '(s, dH) := r in
      do sp <- sprof dH; do s <- storeH s i (kprof dH) sp;
      do x <- rd dh i; Some (s, dH + IZR dir * x)) (s, dH);
  Some (fst r).

(** pml.c:311-349: all coefficients of the axis are set to one *)
Definition fillOnes (lo hi : Z) (s : PmlAr) : option PmlAr :=
  cfor lo hi (fun s i =>
    do b <- wr (pbd s) i 1; do b' <- wr (pbh s) i 1; do ib <- wr (pibd s) i 1; do ib' <- wr (pibh s) i 1;
    do a <- wr (pad s) i 1; do a' <- wr (pah s) i 1; Some (mkAr a b ib a' b' ib')) s.

(** pml.c:302-413 setPmlParameters for one axis (the C text repeats these
    statements for x, y, z; the axes share no variable), on arrays allocated
    at pml.c:693-782 with numCells elements and contents [g]. *)
Definition setPmlParameters1 (c : Cfg) (a : Axis) (de dh : carr R) (par : Face -> PmlPar) (dt : R) (g : Z -> R) : option PmlAr :=
  let A0 := mkArr (numCells c a) g in
  do s <- fillOnes (gobox c (face_lo a) - 1) (gobox c (face_hi a)) (mkAr A0 A0 A0 A0 A0 A0);
  do s <- (if btype_eqb (outerSurfaceType c (face_lo a)) BT_PML
           then setProfile de dh (gobox c (face_lo a)) (gibox c (face_lo a) - 1) (-1) (par (face_lo a)) dt s
           else Some s);
  (if btype_eqb (outerSurfaceType c (face_hi a)) BT_PML
   then setProfile de dh (gibox c (face_hi a)) (gobox c (face_hi a) - 1) 1 (par (face_hi a)) dt s
   else Some s).

(** boundary.c:174-177: the fields beyond those scanned keep their defaults;
    [n] = number of values after the type that were scanned.  Nothing is
    checked. *)
Definition parsePmlCard (n : nat) (layers order : Z) (n_eff refCoeff kmax : R) : Z * PmlPar :=
  let sel {A} (k : nat) (x d : A) := if Nat.leb k n then x else d in
  (sel 1%nat layers pmlDefaultLayers,
   mkPar (sel 2%nat order (pOrder pmlDefaults)) (sel 3%nat n_eff (pNeff pmlDefaults))
         (sel 4%nat refCoeff (pRef pmlDefaults)) (sel 5%nat kmax (pKmax pmlDefaults))).
