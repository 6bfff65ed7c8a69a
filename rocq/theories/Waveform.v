(** Waveforms: the WF card, default parameters, built-in pulse shapes and
    external (splined) waveforms.  Models /repo/src/waveform.c:60-805.  The C
    types [real] and [double] are modelled by R: rounding, overflow and NaN are
    not modelled here. *)
From Coq Require Import ZArith List Bool Reals String.
From Verif Require Import Types Lang CArr.
Import ListNotations.
Open Scope R_scope.

(** waveform.h:44-58 WaveformType *)
Inductive WfType := GAUSSIAN_PULSE | NARROW_GAUSSIAN_PULSE | DIFF_GAUSSIAN_PULSE | RICKER_WAVELET
  | MOD_GAUSSIAN_PULSE | COMPACT_PULSE | DIFF_COMPACT_PULSE | MOD_COMPACT_PULSE | RAMPED_SINUSOID | EXTERNAL.

(** waveform.c:71-84 WAVEFORM_TYPE_STR, searched by waveform.c:186-192 (exact
    comparison: strncmp over TAG_SIZE bytes of a token of at most 31) *)
Definition WAVEFORM_TYPE_STR : list (string * WfType) :=
  [("GAUSSIAN_PULSE", GAUSSIAN_PULSE); ("NARROW_GAUSSIAN_PULSE", NARROW_GAUSSIAN_PULSE);
   ("DIFF_GAUSSIAN_PULSE", DIFF_GAUSSIAN_PULSE); ("RICKER_WAVELET", RICKER_WAVELET);
   ("MOD_GAUSSIAN_PULSE", MOD_GAUSSIAN_PULSE); ("COMPACT_PULSE", COMPACT_PULSE);
   ("DIFF_COMPACT_PULSE", DIFF_COMPACT_PULSE); ("MOD_COMPACT_PULSE", MOD_COMPACT_PULSE);
   ("RAMPED_SINUSOID", RAMPED_SINUSOID); ("EXTERNAL", EXTERNAL)]%string.
Definition findWfType (s : string) : option WfType :=
  match List.find (fun p => String.eqb s (fst p)) WAVEFORM_TYPE_STR with Some p => Some (snd p) | None => None end.

(** waveform.c:36-60 WaveformItem (without the table; number = position) *)
Record WfItem := mkWf { wName : string; wType : WfType; wSize : R; wDelay : R; wWidth : R; wFreq : R }.

(** waveform.c:563-581 isWaveform *)
Definition isWaveform (l : list WfItem) (name : string) : bool := existsb (fun w => String.eqb name (wName w)) l.

Definition arg (args : list R) (i : nat) : R := nth i args (-1).
Definition given (args : list R) (i : nat) : bool := (i <? List.length args)%nat.
Definition Rltb (a b : R) : bool := if Rlt_dec a b then true else false.
Definition Rleb (a b : R) : bool := if Rle_dec a b then true else false.

(** waveform.c:158-252 parseWF (with addWaveform 124-155) on the tokens of the
    card: name, type and the numbers sscanf converts ([args], at most 4; after
    the quoted file name for EXTERNAL).  [None] = card rejected. *)
Definition parseWF (l : list WfItem) (name typeStr : string) (args : list R) : option (list WfItem) :=
  if isWaveform l name then None
  else match findWfType typeStr with
  | None => None
  | Some EXTERNAL =>
      if given args 0 && Rltb (arg args 0) 0 then None
      else Some (l ++ [mkWf name EXTERNAL (arg args 0) (arg args 1) (-1) (-1)])
  | Some ty =>
      if given args 0 && Rltb (arg args 0) 0 then None
      else if given args 2 && Rleb (arg args 2) 0 then None
      else if given args 3 && Rleb (arg args 3) 0 then None
      else Some (l ++ [mkWf name ty (arg args 0) (arg args 1) (arg args 2) (arg args 3)])
  end.

Definition dflt (x d : R) : R := if Rlt_dec x 0 then d else x.

(** waveform.c:256-347 initWaveforms, one item (the spline table of an EXTERNAL
    item is built by [createSplines] below) *)
Definition initWaveform (dt : R) (w : WfItem) : WfItem :=
  let s := dflt (wSize w) 1 in
  match wType w with
  | GAUSSIAN_PULSE | DIFF_GAUSSIAN_PULSE | RICKER_WAVELET =>
      mkWf (wName w) (wType w) s (dflt (wDelay w) (40 * dt)) (dflt (wWidth w) (5 * sqrt 2 * dt)) 0
  | NARROW_GAUSSIAN_PULSE =>
      mkWf (wName w) (wType w) s (dflt (wDelay w) (12 * dt)) (dflt (wWidth w) (8 * dt)) 0
  | MOD_GAUSSIAN_PULSE =>
      mkWf (wName w) (wType w) s (dflt (wDelay w) (120 * dt)) (dflt (wWidth w) (20 * sqrt 2 * dt)) (dflt (wFreq w) (5 / 100 / dt))
  | COMPACT_PULSE | DIFF_COMPACT_PULSE =>
      mkWf (wName w) (wType w) s (dflt (wDelay w) 0) (dflt (wWidth w) (20 * dt)) 0
  | MOD_COMPACT_PULSE =>
      mkWf (wName w) (wType w) s (dflt (wDelay w) 0) (dflt (wWidth w) (80 * dt)) (dflt (wFreq w) (5 / 100 / dt))
  | RAMPED_SINUSOID =>
      mkWf (wName w) (wType w) s (dflt (wDelay w) 0) (dflt (wWidth w) (20 * dt)) (dflt (wFreq w) (5 / 100 / dt))
  | EXTERNAL =>
      mkWf (wName w) (wType w) s (dflt (wDelay w) 0) (wWidth w) (wFreq w)
  end.

(** ** Built-in shapes *)
(** waveform.c:413-418 *)
Definition gaussianPulse (time width : R) : R := exp (- / 2 * (time / width) ^ 2).
(** waveform.c:421-426 *)
Definition differentiatedGaussianPulse (time width : R) : R :=
  - time / width * exp (- / 2 * (time / width) ^ 2).
(** waveform.c:429-434 *)
Definition rickerWavelet (time width : R) : R :=
  (1 - (time / width) ^ 2) * exp (- / 2 * (time / width) ^ 2).
(** waveform.c:437-442 *)
Definition modulatedGaussianPulse (time width frequency : R) : R :=
  exp (- / 2 * (time / width) ^ 2) * sin (2 * PI * frequency * time).
(** waveform.c:445-457 *)
Definition compactPulse (time width : R) : R :=
  if Rle_dec time 0 then 0
  else if Rlt_dec time (2 * width) then
    1 / 32 * (10 - 15 * cos (PI / width * time) + 6 * cos (2 * PI / width * time) - cos (3 * PI / width * time))
  else 0.
(** waveform.c:460-472 *)
Definition differentiatedCompactPulse (time width : R) : R :=
  if Rle_dec time 0 then 0
  else if Rlt_dec time (2 * width) then
    1 / 32 * (15 * sin (PI / width * time) - 12 * sin (2 * PI / width * time) + 3 * sin (3 * PI / width * time))
  else 0.
(** waveform.c:475-490 *)
Definition modulatedCompactPulse (time width frequency : R) : R :=
  let envelope :=
    if Rle_dec time 0 then 0
    else if Rlt_dec time (2 * width) then
      1 / 32 * (10 - 15 * cos (PI / width * time) + 6 * cos (2 * PI / width * time) - cos (3 * PI / width * time))
    else 0 in
  envelope * sin (2 * PI * frequency * time).
(** waveform.c:493-509 *)
Definition rampedSinusoid (time width frequency : R) : R :=
  let ramp :=
    if Rle_dec time 0 then 0
    else if Rlt_dec time (1 * width) then
      1 / 32 * (10 - 15 * cos (PI / width * time) + 6 * cos (2 * PI / width * time) - cos (3 * PI / width * time))
    else 1 in
  ramp * sin (2 * PI * frequency * time).

(** waveform.c:590-638 getWaveformValue for the built-in types; [None] for
    EXTERNAL (see [externalValue]). *)
Definition getWaveformValue (w : WfItem) (t delay : R) : option R :=
  let tau := t - delay - wDelay w in
  match wType w with
  | GAUSSIAN_PULSE | NARROW_GAUSSIAN_PULSE => Some (wSize w * gaussianPulse tau (wWidth w))
  | DIFF_GAUSSIAN_PULSE => Some (wSize w * differentiatedGaussianPulse tau (wWidth w))
  | RICKER_WAVELET => Some (wSize w * rickerWavelet tau (wWidth w))
  | MOD_GAUSSIAN_PULSE => Some (wSize w * modulatedGaussianPulse tau (wWidth w) (wFreq w))
  | COMPACT_PULSE => Some (wSize w * compactPulse tau (wWidth w))
  | DIFF_COMPACT_PULSE => Some (wSize w * differentiatedCompactPulse tau (wWidth w))
  | MOD_COMPACT_PULSE => Some (wSize w * modulatedCompactPulse tau (wWidth w) (wFreq w))
  | RAMPED_SINUSOID => Some (wSize w * rampedSinusoid tau (wWidth w) (wFreq w))
  | EXTERNAL => None
  end.

(** ** External waveforms *)
(** Result of a function that may leave the program through
    message( MSG_ERROR , ... ). *)
Inductive res (A : Type) := Done (a : A) | Fatal.
Arguments Done {A}. Arguments Fatal {A}.

(** The [tableSize] x 3 table of waveform.c:546: columns time, value, second
    derivative. *)
Record Table := mkTable { tT : carr R; tY : carr R; tD : carr R }.

(** waveform.c:512-555 loadExternalWaveform: the pairs of numbers of the file,
    in order (a trailing unpaired number is ignored). *)
Definition loadTable (l : list (R * R)) : Table :=
  let n := Z.of_nat (List.length l) in
  mkTable (mkArr n (fun i => fst (nth (Z.to_nat i) l (0, 0)))) (mkArr n (fun i => snd (nth (Z.to_nat i) l (0, 0))))
          (mkArr n (fun _ => 0)).

(** waveform.c:690-698: is the time column strictly increasing?  (The C loop
    leaves the program at the first violation.) *)
Definition monotone (n : Z) (T : carr R) : option bool :=
  cfor 1 (n - 1) (fun b i => do x <- rd T i; do y <- rd T (i - 1); Some (b && negb (Rleb (x - y) 0))) true.

(** waveform.c:726-734, one internal point; state = (second-derivative column, u) *)
Definition sweepPt (T Y : carr R) (s : carr R * carr R) (i : Z) : option (carr R * carr R) :=
  let '(D, u) := s in
  do ti <- rd T i; do tm <- rd T (i - 1); do tp <- rd T (i + 1);
  let sign := (ti - tm) / (tp - tm) in
  do dm <- rd D (i - 1);
  let p := sign * dm + 2 in
  do D <- wr D i ((sign - 1) / p);
  do yi <- rd Y i; do ym <- rd Y (i - 1); do yp <- rd Y (i + 1);
  do u <- wr u i ((yp - yi) / (tp - ti) - (yi - ym) / (ti - tm));
  do ui <- rd u i; do um <- rd u (i - 1);
  do u <- wr u i ((6 * ui / (tp - tm) - sign * um) / p);
  Some (D, u).

(** waveform.c:754-755, the loop [for( k = n - 1 ; k-- > 0 ; )]: k = n-2 .. 0.
    [j] counts the iterations, k = n-2-j. *)
Definition backPt (n : Z) (u : carr R) (D : carr R) (j : Z) : option (carr R) :=
  let k := (n - 2 - j)%Z in
  do d <- rd D k; do d1 <- rd D (k + 1); do uk <- rd u k; wr D k (d * d1 + uk).

(** waveform.c:665-760 createSplines.  The messages about the sampling ratio
    are not modelled.  [garbage] = contents of the fresh array u.  Comparison
    deriv > 0.99e30 (natural spline) included. *)
Definition createSplines (t : Table) (n : Z) (deriv1 deriv2 : R) (garbage : Z -> R) : option (res Table) :=
  if (n <? 2)%Z then Some Fatal
  else
  let T := tT t in let Y := tY t in
  do mono <- monotone n T;
  if negb mono then Some Fatal else
  let u := mkArr (n - 1) garbage in
  do t0 <- rd T 0; do t1 <- rd T 1; do y0 <- rd Y 0; do y1 <- rd Y 1;
  do s <- (if Rlt_dec (99 / 100 * 10 ^ 30) deriv1
           then do D <- wr (tD t) 0 0; do u <- wr u 0 0; Some (D, u)
           else do D <- wr (tD t) 0 (- / 2); do u <- wr u 0 (3 / (t1 - t0) * ((y1 - y0) / (t1 - t0) - deriv1)); Some (D, u));
  do s <- cfor 1 (n - 2) (sweepPt T Y) s;
  let '(D, u) := s in
  do ta <- rd T (n - 1); do tb <- rd T (n - 2); do ya <- rd Y (n - 1); do yb <- rd Y (n - 2);
  let '(qnm1, unm1) :=
    if Rlt_dec (99 / 100 * 10 ^ 30) deriv2 then (0, 0)
    else (/ 2, 3 / (ta - tb) * (deriv2 - (ya - yb) / (ta - tb))) in
  do ul <- rd u (n - 2); do dl <- rd D (n - 2);
  do D <- wr D (n - 1) ((unm1 - qnm1 * ul) / (qnm1 * dl + 1));
  do D <- cfor 0 (n - 2) (backPt n u) D;
  Some (Done (mkTable T Y D)).

(** waveform.c:780-789, the bisection loop.  [fuel]: loop iterations allowed;
    running out yields [None] like undefined behaviour. *)
Fixpoint bisect (fuel : nat) (T : carr R) (time : R) (klo khi : Z) : option (Z * Z) :=
  match fuel with
  | O => None
  | S f =>
      if (1 <? khi - klo)%Z then
        let k := Z.shiftr (khi + klo) 1 in
        do tk <- rd T k;
        if Rlt_dec time tk then bisect f T time klo k else bisect f T time k khi
      else Some (klo, khi)
  end.

(** waveform.c:763-805 evalSpline: value and new *lastIdx *)
Definition evalSpline (t : Table) (n : Z) (time : R) (lastIdx : Z) : option (res (R * Z)) :=
  let T := tT t in
  let khi := (lastIdx + 1)%Z in
  let klo := if (n - 1 <=? lastIdx)%Z then 0%Z else lastIdx in
  do a <- rd T klo; do b <- rd T (klo + 1);
  do kk <- (if Rlt_dec time a then bisect (Z.to_nat n) T time 0 (n - 1)
            else if Rlt_dec b time then bisect (Z.to_nat n) T time 0 (n - 1)
            else Some (klo, khi));
  let '(klo, khi) := kk in
  do th <- rd T khi; do tl <- rd T klo;
  let h := th - tl in
  if Rle_dec h 0 then Some Fatal else
  let a := (th - time) / h in
  let b := (time - tl) / h in
  do yl <- rd (tY t) klo; do yh <- rd (tY t) khi; do dl <- rd (tD t) klo; do dh <- rd (tD t) khi;
  Some (Done (a * yl + b * yh + ((a * a * a - a) * dl + (b * b * b - b) * dh) * (h * h) / 6, klo)).

(** waveform.c:557-561 externalWaveform *)
Definition externalWaveform (t : Table) (n : Z) (time : R) (lastIdx : Z) : option (res (R * Z)) :=
  do a <- rd (tT t) 0; do b <- rd (tT t) (n - 1);
  if Rlt_dec time a then Some (Done (0, lastIdx))
  else if Rlt_dec b time then Some (Done (0, lastIdx))
  else evalSpline t n time lastIdx.

(** waveform.c:630-632 getWaveformValue for an EXTERNAL item; the item owns the
    table and the cached index. *)
Definition externalValue (w : WfItem) (t : Table) (n : Z) (time delay : R) (lastIdx : Z) : option (res (R * Z)) :=
  do r <- externalWaveform t n (time - delay - wDelay w) lastIdx;
  match r with Fatal => Some Fatal | Done (v, i) => Some (Done (wSize w * v, i)) end.

(** A history of evaluations of one external waveform: the cached index is
    carried from call to call. *)
Fixpoint queries (w : WfItem) (t : Table) (n : Z) (ts : list (R * R)) (lastIdx : Z) : option (res (list R)) :=
  match ts with
  | [] => Some (Done [])
  | (time, delay) :: ts' =>
      do r <- externalValue w t n time delay lastIdx;
      match r with
      | Fatal => Some Fatal
      | Done (v, i) =>
          do r' <- queries w t n ts' i;
          match r' with Fatal => Some Fatal | Done vs => Some (Done (v :: vs)) end
      end
  end.

(** initWaveforms for an EXTERNAL item (waveform.c:318-324): load, spline with
    zero end slopes. *)
Definition initExternal (l : list (R * R)) (garbage : Z -> R) : option (res Table) :=
  createSplines (loadTable l) (Z.of_nat (List.length l)) 0 0 garbage.
