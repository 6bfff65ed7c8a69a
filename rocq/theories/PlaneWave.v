(** Plane waves: the PW card, the incident vectors, the total-field /
    scattered-field corrections and the auxiliary grid.
    Models /repo/src/planewave.c, default build (unscaled fields grid.h:277-297,
    coefficient arrays).  The correction loops are over an arbitrary arithmetic;
    angles, vectors and the auxiliary grid over R. *)
From Coq Require Import ZArith Bool Ascii Reals String List.
From Verif Require Import Types Lang BBox Grid CArr Edges PmlProfile Waveform.
Import ListNotations.
Open Scope Z_scope.

(** ** The PW card *)

(** planewave.c:48-65 PlaneWaveItem, the parameters from the mesh file *)
Record PW := mkPW { pw_name : string; pw_mbbox : BBox; pw_wf : string; pw_active : BFlags;
  pw_theta : R; pw_phi : R; pw_eta : R; pw_size : R; pw_delay : R }.

(** planewave.c:1199-1224 decodeFaceMask on a string of exactly six characters
    (the caller has checked strlen); [None] = some character is not 0 or 1. *)
Definition maskBit (ch : ascii) : option bool :=
  if Ascii.eqb ch "0" then Some false else if Ascii.eqb ch "1" then Some true else None.
Definition faceNo (f : Face) : nat :=
  match f with XLO => 0 | XHI => 1 | YLO => 2 | YHI => 3 | ZLO => 4 | ZHI => 5 end.
Definition decodeFaceMask (maskStr : string) : option BFlags :=
  let bit f := match String.get (faceNo f) maskStr with Some ch => maskBit ch | None => None end in
  if forallb (fun f => match bit f with Some _ => true | None => false end) faces
  then Some (fun f => match bit f with Some b => b | None => true end) else None.

(** planewave.c:1026-1045 isPlaneWave *)
Definition isPlaneWave (l : list PW) (name : string) : bool :=
  existsb (fun p => String.eqb name (pw_name p)) l.

Definition rlt (x y : R) : bool := if Rlt_dec x y then true else false.
Definition rle (x y : R) : bool := if Rle_dec x y then true else false.

(** planewave.c:176-272 parsePW on the tokens of the card.  [mask], [size] and
    [delay] are the optional tokens sscanf converted (numScanned >= 12, 13,
    14). *)
Definition parsePW (mbox : BBox) (wfs : list WfItem) (l : list PW) (b : BBox) (name wfName : string)
    (theta phi eta : R) (mask : option string) (size delay : option R) : option (list PW) :=
  if isPlaneWave l name then None
  else if negb (bboxIsNormal b) then None
  else if negb (bboxIsWithin b mbox) then None
  else if negb (isWaveform wfs wfName) then None
  else if rlt theta 0 || rlt 180 theta then None
  else if rlt phi 0 || rlt 360 phi then None
  else if rlt eta 0 || rle 360 eta then None
  else match (match mask with
              | None => Some (fun _ => true)
              | Some s => if (String.length s =? 6)%nat then decodeFaceMask s else None
              end) with
  | None => None
  | Some active =>
      if match size with Some s => rlt s 0 | None => false end then None
      else Some (l ++ [mkPW name b wfName active theta phi eta
                         (match size with Some s => s | None => 1%R end)
                         (match delay with Some d => d | None => 0%R end)])
  end.

(** ** Incident vectors and origin *)
(** util.c:40-43 *)
Definition degrees2radians (angle : R) : R := (PI / 180 * angle)%R.

(** planewave.c:463-466 kinc[] *)
Definition kinc (theta phi : R) (a : Axis) : R :=
  let t := degrees2radians theta in let p := degrees2radians phi in
  match a with XDIR => sin t * cos p | YDIR => sin t * sin p | ZDIR => cos t end%R.
(** planewave.c:468-474 Finc[] *)
Definition Finc (size theta phi eta : R) (f : Fld) : R :=
  let t := degrees2radians theta in let p := degrees2radians phi in let e := degrees2radians eta in
  match f with
  | EX => size * (cos e * sin p - sin e * cos t * cos p)
  | EY => size * (- cos e * cos p - sin e * cos t * sin p)
  | EZ => size * (sin e * sin t)
  | HX => size / eta0 * (sin e * sin p + cos e * cos t * cos p)
  | HY => size / eta0 * (- sin e * cos p + cos e * cos t * sin p)
  | HZ => size / eta0 * (- cos e * sin t)
  end%R.
(** planewave.c:476-548 ijk0[]; [None] = assert( 0 ) *)
Definition origin (b : BBox) (theta phi : R) : option (Axis -> Z) :=
  let xy := if rle 0 phi && rle phi 90 then Some (XLO, YLO)
            else if rlt 90 phi && rle phi 180 then Some (XHI, YLO)
            else if rlt 180 phi && rle phi 270 then Some (XHI, YHI)
            else if rlt 270 phi && rlt phi 360 then Some (XLO, YHI) else None in
  let z := if rle 0 theta && rle theta 90 then Some ZLO
           else if rlt 90 theta && rle theta 180 then Some ZHI else None in
  do fz <- z; do fxy <- xy;
  Some (fun a => match a with XDIR => b (fst fxy) | YDIR => b (snd fxy) | ZDIR => b fz end).

(** ** Field limits of the corrections *)

(** planewave.c:354-360 edgeIsActive[] *)
Definition edgeIsActive (c : Cfg) (g : BBox) (active : BFlags) : BFlags := fun face =>
  if (g face =? gibox c face) &&
     (btype_eqb (outerSurfaceType c face) BT_PMC || btype_eqb (outerSurfaceType c face) BT_PERIODIC)
  then true else active face.

(** planewave.c:362-420 flim[6] *)
Definition flim (c : Cfg) (g : BBox) (active : BFlags) (face : Face) : FLimits :=
  let e := edgeIsActive c g active in
  match face with
  | XLO => setFieldLimits (setBoundingBoxFromNodes (g XLO - 1) (g XLO) (g YLO) (g YHI) (g ZLO) (g ZHI))
             (setBoundingBoxBoundaryFlags false true (e YLO) (e YHI) (e ZLO) (e ZHI))
  | XHI => setFieldLimits (setBoundingBoxFromNodes (g XHI) (g XHI + 1) (g YLO) (g YHI) (g ZLO) (g ZHI))
             (setBoundingBoxBoundaryFlags true false (e YLO) (e YHI) (e ZLO) (e ZHI))
  | YLO => setFieldLimits (setBoundingBoxFromNodes (g XLO) (g XHI) (g YLO - 1) (g YLO) (g ZLO) (g ZHI))
             (setBoundingBoxBoundaryFlags (e XLO) (e XHI) false true (e ZLO) (e ZHI))
  | YHI => setFieldLimits (setBoundingBoxFromNodes (g XLO) (g XHI) (g YHI) (g YHI + 1) (g ZLO) (g ZHI))
             (setBoundingBoxBoundaryFlags (e XLO) (e XHI) true false (e ZLO) (e ZHI))
  | ZLO => setFieldLimits (setBoundingBoxFromNodes (g XLO) (g XHI) (g YLO) (g YHI) (g ZLO - 1) (g ZLO))
             (setBoundingBoxBoundaryFlags (e XLO) (e XHI) (e YLO) (e YHI) false true)
  | ZHI => setFieldLimits (setBoundingBoxFromNodes (g XLO) (g XHI) (g YLO) (g YHI) (g ZHI) (g ZHI + 1))
             (setBoundingBoxBoundaryFlags (e XLO) (e XHI) (e YLO) (e YHI) true false)
  end.

(** ** Field corrections *)
Section Corr.
Context {V : Type}.
(** [incidentField( field , i , j , k , time , item )] at the instant of the
    call: it depends on nothing the corrections write. *)
Variable inc : Fld -> Z -> Z -> Z -> V.
Variable fl : Face -> FLimits.
Variable active : BFlags.
Notation ex := (expr V).
Notation Inc f i j k := (@Cst V (inc f i j k)).

(** grid.h:273-284 derivative operators (unscaled) *)
Definition dHdy (h : ex) (j : Z) : ex := Mul (idhy j) h.
Definition dHdz (h : ex) (k : Z) : ex := Mul (idhz k) h.
Definition dHdx (h : ex) (i : Z) : ex := Mul (idhx i) h.
Definition dEdy (e : ex) (j : Z) : ex := Mul (idey j) e.
Definition dEdz (e : ex) (k : Z) : ex := Mul (idez k) e.
Definition dEdx (e : ex) (i : Z) : ex := Mul (idex i) e.

(** The two-deep loop nests over a face: outer loop [parallel for]. *)
Definition loopXZ (l : BBox) (body : Z -> Z -> list (stmt V)) : item V :=
  par_for (l XLO) (l XHI) (fun i => for_ (l ZLO) (l ZHI) (fun k => body i k)).
Definition loopXY (l : BBox) (body : Z -> Z -> list (stmt V)) : item V :=
  par_for (l XLO) (l XHI) (fun i => for_ (l YLO) (l YHI) (fun j => body i j)).
Definition loopYZ (l : BBox) (body : Z -> Z -> list (stmt V)) : item V :=
  par_for (l YLO) (l YHI) (fun j => for_ (l ZLO) (l ZHI) (fun k => body j k)).

(** [E = ALPHA * E + BETA * d] / [E = ALPHA * E - BETA * d] *)
Definition addE (f : Fld) (d : ex) (i j k : Z) : list (stmt V) :=
  [Asg (L (AF f) i j k) (Add (Mul (ALPHA f i j k) (F f i j k)) (Mul (BETA f i j k) d))].
Definition subE (f : Fld) (d : ex) (i j k : Z) : list (stmt V) :=
  [Asg (L (AF f) i j k) (Sub (Mul (ALPHA f i j k) (F f i j k)) (Mul (BETA f i j k) d))].
(** [H = H + GAMMA * d] / [H = H - GAMMA * d] *)
Definition addH (f : Fld) (d : ex) (i j k : Z) : list (stmt V) :=
  [Asg (L (AF f) i j k) (Add (F f i j k) (Mul (GAMMA f i j k) d))].
Definition subH (f : Fld) (d : ex) (i j k : Z) : list (stmt V) :=
  [Asg (L (AF f) i j k) (Sub (F f i j k) (Mul (GAMMA f i j k) d))].

(** planewave.c:578-787 updatePlaneWavesEfield, one plane wave, without the
    auxiliary grid update *)
Definition pwE (face : Face) : list (item V) :=
  if active face then
  match face with
  | YLO => (* 589-617 *)
     [let l := fl YLO EX in let j := l YLO in loopXZ l (fun i k => subE EX (dHdy (Inc HZ i (j-1) k) j) i j k);
      let l := fl YLO EZ in let j := l YLO in loopXZ l (fun i k => addE EZ (dHdy (Inc HX i (j-1) k) j) i j k)]
  | YHI => (* 621-649 *)
     [let l := fl YHI EX in let j := l YHI in loopXZ l (fun i k => addE EX (dHdy (Inc HZ i j k) j) i j k);
      let l := fl YHI EZ in let j := l YHI in loopXZ l (fun i k => subE EZ (dHdy (Inc HX i j k) j) i j k)]
  | ZLO => (* 653-682 *)
     [let l := fl ZLO EX in let k := l ZLO in loopXY l (fun i j => addE EX (dHdz (Inc HY i j (k-1)) k) i j k);
      let l := fl ZLO EY in let k := l ZLO in loopXY l (fun i j => subE EY (dHdz (Inc HX i j (k-1)) k) i j k)]
  | ZHI => (* 686-715 *)
     [let l := fl ZHI EX in let k := l ZHI in loopXY l (fun i j => subE EX (dHdz (Inc HY i j k) k) i j k);
      let l := fl ZHI EY in let k := l ZHI in loopXY l (fun i j => addE EY (dHdz (Inc HX i j k) k) i j k)]
  | XLO => (* 719-748 *)
     [let l := fl XLO EY in let i := l XLO in loopYZ l (fun j k => addE EY (dHdx (Inc HZ (i-1) j k) i) i j k);
      let l := fl XLO EZ in let i := l XLO in loopYZ l (fun j k => subE EZ (dHdx (Inc HY (i-1) j k) i) i j k)]
  | XHI => (* 752-781 *)
     [let l := fl XHI EY in let i := l XHI in loopYZ l (fun j k => subE EY (dHdx (Inc HZ i j k) i) i j k);
      let l := fl XHI EZ in let i := l XHI in loopYZ l (fun j k => addE EZ (dHdx (Inc HY i j k) i) i j k)]
  end else [].
Definition updatePlaneWaveE : list (item V) :=
  pwE YLO ++ pwE YHI ++ pwE ZLO ++ pwE ZHI ++ pwE XLO ++ pwE XHI.

(** planewave.c:791-1003 updatePlaneWavesHfield, likewise *)
Definition pwH (face : Face) : list (item V) :=
  if active face then
  match face with
  | YLO => (* 803-833 *)
     [let l := fl YLO HZ in let j := l YLO in loopXZ l (fun i k => subH HZ (dEdy (Inc EX i (j+1) k) j) i j k);
      let l := fl YLO HX in let j := l YLO in loopXZ l (fun i k => addH HX (dEdy (Inc EZ i (j+1) k) j) i j k)]
  | YHI => (* 835-865 *)
     [let l := fl YHI HZ in let j := l YHI in loopXZ l (fun i k => addH HZ (dEdy (Inc EX i j k) j) i j k);
      let l := fl YHI HX in let j := l YHI in loopXZ l (fun i k => subH HX (dEdy (Inc EZ i j k) j) i j k)]
  | ZLO => (* 867-897 *)
     [let l := fl ZLO HY in let k := l ZLO in loopXY l (fun i j => addH HY (dEdz (Inc EX i j (k+1)) k) i j k);
      let l := fl ZLO HX in let k := l ZLO in loopXY l (fun i j => subH HX (dEdz (Inc EY i j (k+1)) k) i j k)]
  | ZHI => (* 899-929 *)
     [let l := fl ZHI HY in let k := l ZHI in loopXY l (fun i j => subH HY (dEdz (Inc EX i j k) k) i j k);
      let l := fl ZHI HX in let k := l ZHI in loopXY l (fun i j => addH HX (dEdz (Inc EY i j k) k) i j k)]
  | XLO => (* 931-961 *)
     [let l := fl XLO HZ in let i := l XLO in loopYZ l (fun j k => addH HZ (dEdx (Inc EY (i+1) j k) i) i j k);
      let l := fl XLO HY in let i := l XLO in loopYZ l (fun j k => subH HY (dEdx (Inc EZ (i+1) j k) i) i j k)]
  | XHI => (* 963-993 *)
     [let l := fl XHI HZ in let i := l XHI in loopYZ l (fun j k => subH HZ (dEdx (Inc EY i j k) i) i j k);
      let l := fl XHI HY in let i := l XHI in loopYZ l (fun j k => addH HY (dEdx (Inc EZ i j k) i) i j k)]
  end else [].
Definition updatePlaneWaveH : list (item V) :=
  pwH YLO ++ pwH YHI ++ pwH ZLO ++ pwH ZHI ++ pwH XLO ++ pwH XHI.
End Corr.

(** planewave.c:319 gbbox and 362-420 flim of one plane wave *)
Definition pwGbbox (c : Cfg) (p : PW) : BBox := offsetBoundingBox (pw_mbbox p) (gibox c).
Definition pwFlim (c : Cfg) (p : PW) : Face -> FLimits := flim c (pwGbbox c p) (pw_active p).

(** ** Analytic incident field *)
(** planewave.c:557-574 incidentFieldAnalytic.  [xl] are the mesh lines, [de]
    the cell edges; [wv t] = getWaveformValue( t , waveformNumber , delay );
    [ijk0] from [origin]; r0[] is getNodeLocation (grid.c:1493-1502),
    planewave.c:336. *)
Section Analytic.
Variables (c : Cfg) (lines de : Axis -> carr R).
Open Scope R_scope.
Definition nodeLocation (ijk : Axis -> Z) (a : Axis) : option R := rd (lines a) (ijk a - gibox c (face_lo a))%Z.
Definition idx3 (i j k : Z) (a : Axis) : Z := match a with XDIR => i | YDIR => j | ZDIR => k end.
Definition incidentFieldAnalytic (fi : R) (kv : Axis -> R) (ijk0 : Axis -> Z) (vp : R) (wv : R -> R)
    (field : Fld) (i j k : Z) (time : R) : option R :=
  let rel a := do r <- fieldLocation1 c (lines a) (de a) field a (idx3 i j k a); do r0 <- nodeLocation ijk0 a; Some (r - r0) in
  do x <- rel XDIR; do y <- rel YDIR; do z <- rel ZDIR;
  let d := kv XDIR * x + kv YDIR * y + kv ZDIR * z in
  Some (fi * wv (time - d / vp)).
End Analytic.

(** ** Auxiliary grid *)
Definition m0 : Z := 2.     (* planewave.c:112 *)
Definition npml : Z := 10.  (* planewave.c:115 *)

(** planewave.c:1224-1250: initAuxGrid, length of the grid: the double
    6 + npml + sqrt( int ) truncated to int (it is positive, so truncation is
    floor); the int products are taken without overflow. *)
Definition auxNx (g : BBox) : Z :=
  rfloor (IZR (6 + npml) + sqrt (IZR ((g XHI - g XLO) * (g XHI - g XLO) + (g YHI - g YLO) * (g YHI - g YLO)
                                      + (g ZHI - g ZLO) * (g ZHI - g ZLO))))%R.
Definition auxXb (g : BBox) : Z := auxNx g - npml.

(** planewave.c:70-83: the arrays of the auxiliary grid *)
Record Aux := mkAux { Eyi : carr R; Hzi : carr R; Pyi : carr R; PPyi : carr R; Bzi : carr R;
  adx : carr R; bdx : carr R; ahx : carr R; bhx : carr R; betaEyi : R; gammaHzi : R }.
Section AuxGrid.
Open Scope R_scope.
(** planewave.c:1262-1286.  pow( depth , 3.77 ) is Rpower, and 0 at depth 0. *)
Definition auxSigma (dt d0 depth : R) : R :=
  / 2 * dt / eps0 * (if Rlt_dec 0 depth then Rpower depth (377 / 100) else 0) * 4 / eta0 / d0.
Definition initAux (g : BBox) (dt d0 relPhaseVelocity : R) : Aux :=
  let se i := auxSigma dt d0 (IZR i / IZR npml) in
  let sh i := auxSigma dt d0 ((IZR i + / 2) / IZR npml) in
  mkAux (mkArr (auxNx g + 1)%Z (fun _ => 0)) (mkArr (auxNx g + 1)%Z (fun _ => 0))
        (mkArr npml (fun _ => 0)) (mkArr npml (fun _ => 0)) (mkArr npml (fun _ => 0))
        (mkArr npml (fun i => (1 - se i) / (1 + se i))) (mkArr npml (fun i => 1 / (1 + se i)))
        (mkArr npml (fun i => (1 - sh i) / (1 + sh i))) (mkArr npml (fun i => 1 / (1 + sh i)))
        (dt / (eps0 * d0) / relPhaseVelocity) (dt / (mu0 * d0) / relPhaseVelocity).

Definition setEyi (x : Aux) (a : carr R) : Aux :=
  mkAux a (Hzi x) (Pyi x) (PPyi x) (Bzi x) (adx x) (bdx x) (ahx x) (bhx x) (betaEyi x) (gammaHzi x).
Definition setHzi (x : Aux) (a : carr R) : Aux :=
  mkAux (Eyi x) a (Pyi x) (PPyi x) (Bzi x) (adx x) (bdx x) (ahx x) (bhx x) (betaEyi x) (gammaHzi x).
Definition setPyi (x : Aux) (a : carr R) : Aux :=
  mkAux (Eyi x) (Hzi x) a (PPyi x) (Bzi x) (adx x) (bdx x) (ahx x) (bhx x) (betaEyi x) (gammaHzi x).
Definition setPPyi (x : Aux) (a : carr R) : Aux :=
  mkAux (Eyi x) (Hzi x) (Pyi x) a (Bzi x) (adx x) (bdx x) (ahx x) (bhx x) (betaEyi x) (gammaHzi x).
Definition setBzi (x : Aux) (a : carr R) : Aux :=
  mkAux (Eyi x) (Hzi x) (Pyi x) (PPyi x) a (adx x) (bdx x) (ahx x) (bhx x) (betaEyi x) (gammaHzi x).

(** planewave.c:1317-1320 *)
Definition auxE1 (x : Aux) (i : Z) : option Aux :=
  do e <- rd (Eyi x) i; do h1 <- rd (Hzi x) (i - 1)%Z; do h <- rd (Hzi x) i;
  do a <- wr (Eyi x) i (e + betaEyi x * (h1 - h)); Some (setEyi x a).
(** planewave.c:1323-1337 *)
Definition auxE2 (xb : Z) (x : Aux) (i : Z) : option Aux :=
  let Lp := (i - xb)%Z in
  do oldPP <- rd (PPyi x) Lp;
  do h1 <- rd (Hzi x) (i - 1)%Z; do h <- rd (Hzi x) i;
  do a <- wr (PPyi x) Lp (oldPP + betaEyi x * (h1 - h)); let x := setPPyi x a in
  do oldP <- rd (Pyi x) Lp; do pp <- rd (PPyi x) Lp;
  do a <- wr (Pyi x) Lp (oldP + (pp - oldPP)); let x := setPyi x a in
  do a2 <- rd (adx x) Lp; do e <- rd (Eyi x) i; do b2 <- rd (bdx x) Lp; do p <- rd (Pyi x) Lp;
  do a <- wr (Eyi x) i (a2 * e + b2 * (p - oldP)); Some (setEyi x a).
(** planewave.c:1309-1346 updateAuxGridEfield; [w] is the waveform value *)
Definition updateAuxE (g : BBox) (w : R) (x : Aux) : option Aux :=
  do x <- cfor 1 (auxXb g - 1) auxE1 x;
  do x <- cfor (auxXb g) (auxNx g - 1) (auxE2 (auxXb g)) x;
  do a <- wr (Eyi x) (m0 - 2) w; Some (setEyi x a).
(** planewave.c:1355-1357 *)
Definition auxH1 (x : Aux) (i : Z) : option Aux :=
  do h <- rd (Hzi x) i; do e <- rd (Eyi x) i; do e1 <- rd (Eyi x) (i + 1)%Z;
  do a <- wr (Hzi x) i (h + gammaHzi x * (e - e1)); Some (setHzi x a).
(** planewave.c:1359-1367 *)
Definition auxH2 (xb : Z) (x : Aux) (i : Z) : option Aux :=
  let Lp := (i - xb)%Z in
  do oldB <- rd (Bzi x) Lp; do a1 <- rd (ahx x) Lp; do b1 <- rd (bhx x) Lp;
  do e1 <- rd (Eyi x) (i + 1)%Z; do e <- rd (Eyi x) i;
  do a <- wr (Bzi x) Lp (a1 * oldB + gammaHzi x * b1 * (- e1 + e)); let x := setBzi x a in
  do h <- rd (Hzi x) i; do b <- rd (Bzi x) Lp;
  do a <- wr (Hzi x) i (h + (b - oldB)); Some (setHzi x a).
(** planewave.c:1349-1369 updateAuxGridHfield *)
Definition updateAuxH (g : BBox) (x : Aux) : option Aux :=
  do x <- cfor 0 (auxXb g - 1) auxH1 x;
  cfor (auxXb g) (auxNx g - 1) (auxH2 (auxXb g)) x.

(** planewave.c:1383-1387 distance of a field point along the direction of
    propagation, in cells *)
Definition auxDist (kv : Axis -> R) (ijk0 : Axis -> Z) (field : Fld) (i j k : Z) : R :=
  let rel a := fieldIndexLocation1 field a (idx3 i j k a) - IZR (ijk0 a) in
  kv XDIR * rel XDIR + kv YDIR * rel YDIR + kv ZDIR * rel ZDIR.
(** planewave.c:1389-1408: the look-up at distance [d] *)
Definition auxLookup (x : Aux) (field : Fld) (d : R) : option R :=
  if is_E field then
    let id := rfloor d in let dp := d - IZR id in
    do u <- rd (Eyi x) (m0 + id)%Z; do v <- rd (Eyi x) (m0 + id + 1)%Z;
    Some ((1 - dp) * u + dp * v)
  else
    let id := rfloor (d + / 2) in let dp := d + / 2 - IZR id in
    do u <- rd (Hzi x) (m0 - 1 + id)%Z; do v <- rd (Hzi x) (m0 + id)%Z;
    Some (eta0 * ((1 - dp) * u + dp * v)).
(** planewave.c:1372-1415 incidentFieldAuxGrid *)
Definition incidentFieldAuxGrid (fi : R) (kv : Axis -> R) (ijk0 : Axis -> Z) (x : Aux) (field : Fld) (i j k : Z) : option R :=
  do v <- auxLookup x field (auxDist kv ijk0 field i j k); Some (fi * v).

(** The incident field as the corrections see it: the value at every sample.  A
    look-up outside the auxiliary arrays has no value; 0 stands for it here
    (C29: the corrections of a box make no such look-up). *)
Definition incAux (size theta phi eta : R) (ijk0 : Axis -> Z) (x : Aux) (field : Fld) (i j k : Z) : R :=
  match incidentFieldAuxGrid (Finc size theta phi eta field) (kinc theta phi) ijk0 x field i j k with Some v => v | None => 0 end.

(** ** Numerical phase velocity: grid.c:1573-1591 numPhaseVelocityFunc and
    1593-1620 numericalPhaseVelocity *)
Definition numPhaseVelocityFunc (duni A : Axis -> R) (B k : R) : R :=
  let tmp a := sin (A a * k) / duni a in
  let func := tmp XDIR * tmp XDIR + tmp YDIR * tmp YDIR + tmp ZDIR * tmp ZDIR - B * B in
  let derivative := A XDIR * sin (2 * A XDIR * k) / (duni XDIR * duni XDIR) +
                    A YDIR * sin (2 * A YDIR * k) / (duni YDIR * duni YDIR) +
                    A ZDIR * sin (2 * A ZDIR * k) / (duni ZDIR * duni ZDIR) in
  func / derivative.
Definition numericalPhaseVelocity (duni : Axis -> R) (dt theta phi : R) : R :=
  let w := 2 * PI * (1 / dt / 23) in
  let A a := match a with
             | XDIR => / 2 * duni XDIR * sin theta * cos phi
             | YDIR => / 2 * duni YDIR * sin theta * sin phi
             | ZDIR => / 2 * duni ZDIR * cos theta end in
  let B := sin (/ 2 * w * dt) / (c0 * dt) in
  w / Nat.iter 10 (fun k => k - numPhaseVelocityFunc duni A B k) (w / c0).
(** planewave.c:1237 *)
Definition relPhaseVelocity (duni : Axis -> R) (dt theta phi : R) : R :=
  numericalPhaseVelocity duni dt 0 0 / numericalPhaseVelocity duni dt (PI * theta / 180) (PI * phi / 180).
End AuxGrid.
