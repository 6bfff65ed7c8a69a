(** Observers: the OP, OT and OF cards and the output files.
    Models /repo/src/observer.c.  An output file is modelled by the sequence of
    the values written to it; the formatting (%16.8e, float) is not modelled.
    The limit on the number of observers (observer.c:290-291, 65535, the program
    stops) is not modelled. *)
From Coq Require Import ZArith List Bool Reals String.
From Verif Require Import Types Lang BBox Grid Setup Waveform Step Sim.
Import ListNotations.
Open Scope Z_scope.

(** observer.h ObserverFormat, ObserverDomain, ObserverQuantity: the values the
    parser can produce *)
Inductive OFormat := OF_ASCII | OF_BINARY.
Inductive ODomain := OD_TIME | OD_FREQ.
Inductive OQuant := OQ_WF | OQ_EH.
(** observer.c:49-83 ObserverItem *)
Record Obs := mkObs { o_name : string; o_format : OFormat; o_domain : ODomain; o_quantity : OQuant;
  o_mbbox : BBox; o_step : Axis -> Z; o_wf : nat }.

(** observer.c:178-181 OBSERVER_TYPE_STR, obsFormat, obsDomain *)
Definition observerType (s : string) : option (OFormat * ODomain) :=
  if String.eqb s "TDOM_ASCII" then Some (OF_ASCII, OD_TIME)
  else if String.eqb s "FDOM_ASCII" then Some (OF_ASCII, OD_FREQ)
  else if String.eqb s "TDOM_BINARY" then Some (OF_BINARY, OD_TIME)
  else None.
(** observer.c:702-718 isObserver *)
Definition isObserver (l : list Obs) (name : string) : bool := existsb (fun o => String.eqb name (o_name o)) l.
(** waveform.c:563-581 isWaveform, the number found *)
Fixpoint waveformNumber (l : list WfItem) (name : string) : option nat :=
  match l with
  | [] => None
  | w :: l' => if String.eqb name (wName w) then Some O else option_map S (waveformNumber l' name)
  end.

(** observer.c:177-281 parseOP and 284-319 addObserver, on the tokens of the card: [wfName] is the ninth
    token ("" if there is none), [steps] the integers sscanf converts there. *)
Definition parseOP (mbox : BBox) (wfs : list WfItem) (l : list Obs) (b : BBox) (name typeStr wfName : string)
    (steps : list Z) : option (list Obs) :=
  if isObserver l name then None
  else if negb (bboxIsNormal b) then None
  else if negb (bboxIsWithin b mbox) then None
  else match observerType typeStr with
  | None => None
  | Some (OF_ASCII, d) =>
      match bboxType b with
      | BB_POINT =>
          if String.eqb wfName "" then Some (l ++ [mkObs name OF_ASCII d OQ_EH b (fun _ => 1) O])
          else match waveformNumber wfs wfName with
               | None => None
               | Some n => Some (l ++ [mkObs name OF_ASCII d OQ_EH b (fun _ => 1) n])
               end
      | _ => None
      end
  | Some (OF_BINARY, d) =>
      let step := fun a => match a with XDIR => nth 0 steps 1 | YDIR => nth 1 steps 1 | ZDIR => nth 2 steps 1 end in
      if (step XDIR <? 0) || (step YDIR <? 0) || (step ZDIR <? 0) then None
      else Some (l ++ [mkObs name OF_BINARY d OQ_EH b step O])
  end.

(** observer.c:332-348 parseOT, 351-396 parseOF, on the scanned numbers *)
Definition parseOT (start stop : Z) : option (Z * Z) := if stop <? start then None else Some (start, stop).
Definition parseOF (fstart fstop : R) (num : Z) : option (R * R * Z) :=
  if Rlt_dec fstart 0 then None
  else if Rlt_dec fstop fstart then None
  else if num <? 1 then None
  else Some (fstart, fstop, num).

(** The static variables set by observer.c:418-446 (startTimeStep, stopTimeStep,
    numOutTimeSteps, startFreq, stepFreq, numFreq), given the OT and OF cards
    (or their absence), the number of time steps and the time step. *)
Record OutCfg := mkOC { oc_start : Z; oc_stop : Z; oc_numOut : Z; oc_f0 : R; oc_df : R; oc_nf : Z }.
Definition initOutCfg (ot : option (Z * Z)) (of : option (R * R * Z)) (NT : Z) (dt : R) : OutCfg :=
  let '(a, b) := match ot with Some p => p | None => (0, ulong (NT - 1)) end in
  let '(f0, df, nf) :=
    match of with
    | None => (0%R, (1 / (IZR NT * dt))%R, Z.max (NT / 10) 1)
    | Some (f0, f1, n) => (f0, ((f1 - f0) / IZR (n - 1))%R, n)
    end in
  mkOC a b (ulong (b - a + 1)) f0 df nf.

(** observer.c:453-461: a time and a frequency observer for every waveform is
    appended to the list *)
Definition internalObs (wfs : list WfItem) : list Obs :=
  flat_map (fun n => let nm := match nth_error wfs n with Some w => wName w | None => ""%string end in
                     [mkObs nm OF_ASCII OD_TIME OQ_WF (fun _ => 0) (fun _ => 0) n;
                      mkObs nm OF_ASCII OD_FREQ OQ_WF (fun _ => 0) (fun _ => 0) n]) (seq 0 (List.length wfs)).
(** observer.c:456-460: position of the frequency observer of waveform [n] *)
Definition wfFreqIndex (user n : nat) : nat := (user + 2 * n + 1)%nat.

(** ** Output *)
Section Output.
Variable c : Cfg.
(** getWaveformValue( t , number , 0.0 ) (see Waveform.v) *)
Variable wv : R -> nat -> R.

Definition comps : list Fld := [EX; EY; EZ; HX; HY; HZ].
(** A read of a field array; outside the array is undefined. *)
Definition rdF (m : mem R) (f : Fld) (i j k : Z) : res R :=
  if inb (dims c) (L (AF f) i j k) then Fin (m (L (AF f) i j k)) else Undef.
Fixpoint rdAll (m : mem R) (fs : list Fld) (i j k : Z) : res (list R) :=
  match fs with
  | [] => Fin []
  | f :: fs' => rbind (rdF m f i j k) (fun v => rbind (rdAll m fs' i j k) (fun vs => Fin (v :: vs)))
  end.
Definition obs_gbbox (o : Obs) : BBox := offsetBoundingBox (o_mbbox o) (gibox c).

(** observer.c:768-788 (time) and 865-885 (frequency): value[].  The UNSCALE_
    macros are the identity unless USE_SCALED_FIELDS is defined (CMakeLists.txt:44),
    which is off by default *)
Definition obsValues (m : mem R) (o : Obs) (t : R) : res (list R) :=
  match o_quantity o with
  | OQ_WF => Fin [wv t (o_wf o)]
  | OQ_EH => let g := obs_gbbox o in rdAll m comps (g XLO) (g YLO) (g ZLO)
  end.

(** State of the outputs.  [excite]: excite.dat; [impulse]: impulse.dat records;
    per observer (position in the list): the rows of its time file and its
    running DFT (component, frequency). *)
Record Out := mkOut {
  excite : list R;
  impulse : list (nat * Z * Z * Z * list R);
  rows : nat -> list (Z * R * list R);
  dftRe : nat -> nat -> Z -> R;
  dftIm : nat -> nat -> Z -> R }.
(** observer.c:920-946 initObserverDft *)
Definition initOut : Out := mkOut [] [] (fun _ => []) (fun _ _ _ => 0%R) (fun _ _ _ => 0%R).

(** [for( i = lo ; i <= hi ; i += st ) body]; [int] overflow is undefined. *)
Definition INT_MAX : Z := 2147483647.
Section StepLoop.
Context {S : Type}.
Variable body : Z -> S -> res S.
Fixpoint forStep (fuel : nat) (i hi st : Z) (s : S) : res S :=
  match fuel with
  | O => More
  | Datatypes.S n =>
      if i <=? hi
      then rbind (body i s) (fun s' => if INT_MAX <? i + st then Undef else forStep n (i + st) hi st s')
      else Fin s
  end.
End StepLoop.

(** observer.c:1164-1198 updateImpulseDat.  The observer number is kept with
    each record for the sake of the statements. *)
Definition updateImpulseDat (fuel : nat) (m : mem R) (n : nat) (o : Obs) (out : Out) : res Out :=
  let g := obs_gbbox o in
  forStep (fun k => forStep (fun j => forStep (fun i out =>
      rbind (rdAll m comps i j k) (fun vs =>
      Fin (mkOut (excite out)
                 (impulse out ++ [(n, i - gibox c XLO, j - gibox c YLO, k - gibox c ZLO, vs)])
                 (rows out) (dftRe out) (dftIm out))))
    fuel (g XLO) (g XHI) (o_step o XDIR))
    fuel (g YLO) (g YHI) (o_step o YDIR))
    fuel (g ZLO) (g ZHI) (o_step o ZDIR) out.

(** observer.c:760-798 updateObserverAsciiTime *)
Definition updateAsciiTime (m : mem R) (n : nat) (o : Obs) (tstep : Z) (t : R) (out : Out) : res Out :=
  rbind (obsValues m o t) (fun vs =>
  Fin (mkOut (excite out) (impulse out)
             (fun q => if Nat.eqb q n then rows out q ++ [(tstep, t, vs)] else rows out q)
             (dftRe out) (dftIm out))).

(** observer.c:509-512: omega *)
Definition omega (oc : OutCfg) (f : Z) : R := (2 * PI * (oc_f0 oc + IZR f * oc_df oc))%R.
(** observer.c:857-899 updateObserverAsciiFreq: dft_real[comp][f] and
    dft_imag[comp][f] for 0 <= comp < numComp, 0 <= f < numFreq *)
Definition updateAsciiFreq (oc : OutCfg) (m : mem R) (n : nat) (o : Obs) (t : R) (out : Out) : res Out :=
  rbind (obsValues m o t) (fun vs =>
  let touched q comp f := Nat.eqb q n && (comp <? List.length vs)%nat && (0 <=? f) && (f <? oc_nf oc) in
  Fin (mkOut (excite out) (impulse out) (rows out)
    (fun q comp f => if touched q comp f then (dftRe out q comp f + nth comp vs 0 * cos (omega oc f * t))%R else dftRe out q comp f)
    (fun q comp f => if touched q comp f then (dftIm out q comp f - nth comp vs 0 * sin (omega oc f * t))%R else dftIm out q comp f))).

(** observer.c:632-646: the body of the loop over the observers *)
Definition updateObserver (fuel : nat) (oc : OutCfg) (tstep : Z) (t : R) (m : mem R) (n : nat) (o : Obs) (out : Out) : res Out :=
  let isOTValid := (oc_start oc <=? tstep) && (tstep <=? oc_stop oc) in
  match o_quantity o, o_domain o, o_format o with
  | OQ_WF, OD_TIME, _ => updateAsciiTime m n o tstep t out
  | OQ_WF, OD_FREQ, _ => updateAsciiFreq oc m n o t out
  | _, _, OF_BINARY => if isOTValid then updateImpulseDat fuel m n o out else Fin out
  | _, OD_TIME, OF_ASCII => if isOTValid then updateAsciiTime m n o tstep t out else Fin out
  | _, OD_FREQ, OF_ASCII => if isOTValid then updateAsciiFreq oc m n o t out else Fin out
  end.
Fixpoint updateAll (fuel : nat) (oc : OutCfg) (tstep : Z) (t : R) (m : mem R) (n : nat) (l : list Obs) (out : Out) : res Out :=
  match l with
  | [] => Fin out
  | o :: l' => rbind (updateObserver fuel oc tstep t m n o out) (fun out => updateAll fuel oc tstep t m (S n) l' out)
  end.
Definition isBinary (o : Obs) : bool := match o_format o with OF_BINARY => true | OF_ASCII => false end.
(** observer.c:622-650 updateObservers *)
Definition updateObservers (fuel : nat) (oc : OutCfg) (l : list Obs) (tstep : Z) (t : R) (m : mem R) (out : Out) : res Out :=
  let out := if existsb isBinary l
             then mkOut (excite out ++ [wv t 0%nat]) (impulse out) (rows out) (dftRe out) (dftIm out) else out in
  updateAll fuel oc tstep t m 0 l out.

(** observer.c:949-995 flushObserverDft: the rows of a frequency file:
    frequency, then real and imaginary part of each component. [ref] is the
    position of the reference waveform's observer. *)
Definition flushRow (oc : OutCfg) (out : Out) (n ref : nat) (o : Obs) (f : Z) : R * list (R * R) :=
  ((oc_f0 oc + IZR f * oc_df oc)%R,
   match o_quantity o with
   | OQ_WF => [(dftRe out n 0 f, dftIm out n 0 f)]
   | OQ_EH =>
       let wr := dftRe out ref 0 f in let wi := dftIm out ref 0 f in
       let denom := (wr * wr + wi * wi)%R in
       map (fun comp => let cr := dftRe out n comp f in let ci := dftIm out n comp f in
              (((cr * wr + ci * wi) / denom)%R, ((ci * wr - cr * wi) / denom)%R)) (seq 0 6)
   end).
Definition flushObserverDft (oc : OutCfg) (out : Out) (n ref : nat) (o : Obs) : list (R * list (R * R)) :=
  map (flushRow oc out n ref o) (zrange 0 (oc_nf oc - 1)).

(** impulse.dat header (observer.c:1137-1151): the low [sizeof(int)] bytes of
    numOutTimeSteps *)
Definition impulseHeader (oc : OutCfg) : Z := oc_numOut oc mod 2 ^ 32.
(** process.dat (observer.c:1062-1134): one line of box and steps per binary
    observer *)
Definition processBoxes (l : list Obs) : list (BBox * (Axis -> Z)) :=
  map (fun o => (o_mbbox o, o_step o)) (filter isBinary l).
End Output.

(** ** A whole run: simulation.c:160-219 with the observers in front.  [xE t] and
    [xH t] are the field updates added by the mesh file (Step.v). *)
Definition runBody (c : Cfg) (wv : R -> nat -> R) (A : Arith R) (xE xH : nat -> list (item R)) (fuel : nat) (oc : OutCfg)
    (l : list Obs) (dt : R) (t : Z) (st : mem R * Out) : res (mem R * Out) :=
  rbind (updateObservers c wv fuel oc l t (IZR t * dt)%R (fst st) (snd st)) (fun out =>
  Fin (run A (flat (timeStep c (xE (Z.to_nat t)) (xH (Z.to_nat t)))) (fst st), out)).
Definition simulate (c : Cfg) (wv : R -> nat -> R) (A : Arith R) (xE xH : nat -> list (item R)) (fuel : nat) (oc : OutCfg)
    (l : list Obs) (dt : R) (NT : Z) (m : mem R) : res (mem R * Out) :=
  propagate (runBody c wv A xE xH fuel oc l dt) fuel NT (m, initOut).
