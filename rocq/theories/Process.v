(** The file process.dat.  Models /repo/src/observer.c:1062-1134 writeProcessDat
    (called from initBinaryObservers, 1031-1044, after observer.c:418-446 has set
    the output window).  A line is the list of the numbers on it; the formats of
    numbers are not modelled. *)
From Coq Require Import ZArith List Bool Ascii Reals.
From Verif Require Import Types Lang BBox Grid Step Edges Observer Sim.
Import ListNotations.
Open Scope Z_scope.

Record ProcessDat := mkPD {
  pd_comment : list ascii;        (* behind "CE " *)
  pd_nobs : Z;
  pd_boxes : list (list Z);
  pd_steps : list Z;
  pd_freqs : list R;
  pd_meshsize : R;
  pd_extract : option (list Z) }.
(** observer.c:1096-1105 *)
Definition processLine (c : Cfg) (o : Obs) : list Z :=
  let g := obs_gbbox c o in
  [g XLO - gibox c XLO; g XHI - gibox c XLO; o_step o XDIR;
   g YLO - gibox c YLO; g YHI - gibox c YLO; o_step o YDIR;
   g ZLO - gibox c ZLO; g ZHI - gibox c ZLO; o_step o ZDIR].
(** observer.c:1091 *)
Definition isProcess (o : Obs) : bool := match o_domain o, o_format o with OD_TIME, OF_BINARY => true | _, _ => false end.
(** observer.c:1117-1123: the first such observer, and EX + 1 *)
Definition extractLine (c : Cfg) (o : Obs) : list Z :=
  let g := obs_gbbox c o in
  [g XLO - gibox c XLO; g XHI - gibox c XLO; g YLO - gibox c YLO; g YHI - gibox c YLO; g ZLO - gibox c ZLO; g ZHI - gibox c ZLO; 0 + 1].
(** [ulong]: the step numbers are of type unsigned long *)
Definition writeProcessDat (c : Cfg) (comment : list ascii) (l : list Obs) (oc : OutCfg) (NT : Z) (dt : R) : ProcessDat :=
  let fstep := (1 / (IZR NT * dt))%R in
  mkPD (firstn 68 comment)
       (Z.of_nat (List.length (filter isBinary l)))
       (map (processLine c) (filter isProcess l))
       [ulong (oc_start oc + 1); ulong (oc_stop oc + 1)]
       [0%R; (IZR NT * fstep)%R; fstep]
       (dt * (2 * c0))%R
       (match filter isProcess l with o :: _ => Some (extractLine c o) | [] => None end).
