(** The progress reports of the time-stepping loop.  Models /repo/src/timer.c and
    its calls in /repo/src/simulation.c:154-224.  time_t and the step counters are
    Z (the subtraction of step numbers is unsigned, 64 bits), double is R; the
    conversion of the number of remaining steps to float (timer.c:148) is taken as
    exact.  A division by zero is [None].  ctime and the text of the messages are
    omitted: a message is the numbers in it. *)
From Coq Require Import ZArith List Bool Reals.
From Verif Require Import Types CArr BBox Grid.
Import ListNotations.
Open Scope R_scope.

(** timer.c:50-58 private data; nowTime and estEndTime are local to a call *)
Record Timer := mkTimer {
  t_start : Z;      (* startTime *)
  t_last : Z;       (* lastTime *)
  t_lastEst : Z;    (* lastEstEndTime *)
  t_tpi : R;        (* timePerIteration *)
  t_lastTpi : R;    (* lastTimePerIteration *)
  t_lastStep : Z;   (* lastTimeStep *)
  t_samples : Z }.  (* numSamples *)
(** timer.c:153: time per iteration, step, number of steps, estimated end *)
Record Msg := mkMsg { m_tpi : R; m_step : Z; m_steps : Z; m_end : Z }.

Definition fdiv (x y : R) : option R := if Req_EM_T y 0 then None else Some (x / y).
(** C's conversion of double to an integer type: towards zero *)
Definition truncate (x : R) : Z := if Rle_dec 0 x then Int_part x else (- Int_part (- x))%Z.
(** timer.c:171-176 timeFilter *)
Definition timeFilter (coeff tpi timeDiff : R) (numStep : Z) : option R :=
  do q <- fdiv timeDiff (IZR numStep); Some (tpi * coeff + (1 - coeff) * q).
(** timer.c:65-78 startTimer at time [now] *)
Definition startTimer (now : Z) : Timer := mkTimer now now now 0 0 0 0.
(** timer.c:106-168 updateTimer at time [now]; the constants are timer.c:41-47 *)
Definition updateTimer (now timeStep numTimeSteps : Z) (t : Timer) : option (Timer * list Msg) :=
  let timeDiff := IZR (now - t_last t) in
  if ((10 <=? now - t_last t) && (10 <? timeStep))%Z then
    let n := (t_samples t + 1)%Z in
    let numStep := ((timeStep - t_lastStep t) mod 2 ^ 64)%Z in
    if (n =? 1)%Z then
      do q <- fdiv timeDiff (IZR numStep);
      Some (mkTimer (t_start t) now (t_lastEst t) q q timeStep n, [])
    else
      do tpi <- timeFilter (if (n <=? 10)%Z then 1 / 2 else 9 / 10) (t_tpi t) timeDiff numStep;
      do change <- fdiv (tpi - t_lastTpi t) tpi;
      if Rlt_dec (Rabs change) (1 / 100) then
        let est := (now + truncate (tpi * IZR ((numTimeSteps - timeStep) mod 2 ^ 64)))%Z in
        do moved <- fdiv (IZR (est - t_lastEst t)) (IZR (est - t_start t));
        if Rlt_dec (1 / 100) (Rabs moved)
        then Some (mkTimer (t_start t) now est tpi tpi timeStep n, [mkMsg tpi timeStep numTimeSteps est])
        else Some (mkTimer (t_start t) now (t_lastEst t) tpi tpi timeStep n, [])
      else Some (mkTimer (t_start t) now (t_lastEst t) tpi tpi timeStep n, [])
  else Some (t, []).
(** simulation.c:154-164: the timer during the first [n] passes of the loop;
    [clock k] is the time at the start of pass [k], [s0] the time before the loop *)
Fixpoint timed (s0 : Z) (clock : nat -> Z) (N : Z) (n : nat) : option (Timer * list Msg) :=
  match n with
  | O => Some (startTimer s0, [])
  | S k => do s <- timed s0 clock N k; do r <- updateTimer (clock k) (Z.of_nat k) N (fst s); Some (fst r, snd s ++ snd r)
  end.

(** timer.c:95 the number of cells in the final report: a product of ints; [None]
    when it overflows (undefined in C) *)
Definition mulInt (a b : Z) : option Z := (if (- 2 ^ 31 <=? a * b) && (a * b <? 2 ^ 31) then Some (a * b) else None)%Z.
Definition cellsReported (c : Cfg) : option Z :=
  do xy <- mulInt (gobox c XHI - gobox c XLO) (gobox c YHI - gobox c YLO); mulInt xy (gobox c ZHI - gobox c ZLO).
