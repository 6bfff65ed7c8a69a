(** Field, current, voltage and lumped sources: the EX card, the conversion of
    the source amplitude and the update of the fields.
    Models /repo/src/source.c.  [real] and [double] amplitudes are modelled by R
    in the conversion; the update loops are over an arbitrary arithmetic.  The
    default build is modelled: unscaled fields (grid.h:286-297) and
    coefficient arrays (grid.h:150-158). *)
From Coq Require Import ZArith List Bool Reals String.
From Verif Require Import Types Lang BBox Grid Setup Media Medium Waveform.
Import ListNotations.
Open Scope Z_scope.

(** source.h:36-52 SourceType *)
Inductive SType := ST_EFIELD | ST_HFIELD | ST_ELEC_CURR_DENSITY | ST_MAGN_CURR_DENSITY
  | ST_ELEC_SURF_CURR_DENSITY | ST_MAGN_SURF_CURR_DENSITY | ST_ELEC_CURRENT | ST_MAGN_CURRENT
  | ST_ELEC_CURRENT_MOMENT | ST_MAGN_CURRENT_MOMENT | ST_VOLTAGE | ST_THEVENIN_VOLTAGE | ST_NORTON_CURRENT.

(** source.c:97-125 SOURCE_TAG_STR *)
Definition SOURCE_TAG_STR : list string :=
  ["EX"; "EY"; "EZ"; "HX"; "HY"; "HZ"; "=EX"; "=EY"; "=EZ"; "=HX"; "=HY"; "=HZ";
   "JX"; "JY"; "JZ"; "JMX"; "JMY"; "JMZ"; "=JX"; "=JY"; "=JZ"; "=JMX"; "=JMY"; "=JMZ";
   "JSXY"; "JSYZ"; "JSZX"; "JSXZ"; "JSYX"; "JSZY"; "JMSXY"; "JMSYZ"; "JMSZX"; "JMSXZ"; "JMSYX"; "JMSZY";
   "=JSXY"; "=JSYZ"; "=JSZX"; "=JSXZ"; "=JSYX"; "=JSZY"; "=JMSXY"; "=JMSYZ"; "=JMSZX"; "=JMSXZ"; "=JMSYX"; "=JMSZY";
   "IX"; "IY"; "IZ"; "IMX"; "IMY"; "IMZ"; "=IX"; "=IY"; "=IZ"; "=IMX"; "=IMY"; "=IMZ";
   "IDX"; "IDY"; "IDZ"; "IMDX"; "IMDY"; "IMDZ"; "=IDX"; "=IDY"; "=IDZ"; "=IMDX"; "=IMDY"; "=IMDZ";
   "VX"; "VY"; "VZ"; "=VX"; "=VY"; "=VZ"; "VRX"; "VRY"; "VRZ"; "IGX"; "IGY"; "IGZ"]%string.
(** source.c:128-156 *)
Definition sourceTypeMap : list SType :=
  [ST_EFIELD; ST_EFIELD; ST_EFIELD;
   ST_HFIELD; ST_HFIELD; ST_HFIELD;
   ST_EFIELD; ST_EFIELD; ST_EFIELD;
   ST_HFIELD; ST_HFIELD; ST_HFIELD;
   ST_ELEC_CURR_DENSITY; ST_ELEC_CURR_DENSITY; ST_ELEC_CURR_DENSITY;
   ST_MAGN_CURR_DENSITY; ST_MAGN_CURR_DENSITY; ST_MAGN_CURR_DENSITY;
   ST_ELEC_CURR_DENSITY; ST_ELEC_CURR_DENSITY; ST_ELEC_CURR_DENSITY;
   ST_MAGN_CURR_DENSITY; ST_MAGN_CURR_DENSITY; ST_MAGN_CURR_DENSITY;
   ST_ELEC_SURF_CURR_DENSITY; ST_ELEC_SURF_CURR_DENSITY; ST_ELEC_SURF_CURR_DENSITY;
   ST_ELEC_SURF_CURR_DENSITY; ST_ELEC_SURF_CURR_DENSITY; ST_ELEC_SURF_CURR_DENSITY;
   ST_MAGN_SURF_CURR_DENSITY; ST_MAGN_SURF_CURR_DENSITY; ST_MAGN_SURF_CURR_DENSITY;
   ST_MAGN_SURF_CURR_DENSITY; ST_MAGN_SURF_CURR_DENSITY; ST_MAGN_SURF_CURR_DENSITY;
   ST_ELEC_SURF_CURR_DENSITY; ST_ELEC_SURF_CURR_DENSITY; ST_ELEC_SURF_CURR_DENSITY;
   ST_ELEC_SURF_CURR_DENSITY; ST_ELEC_SURF_CURR_DENSITY; ST_ELEC_SURF_CURR_DENSITY;
   ST_MAGN_SURF_CURR_DENSITY; ST_MAGN_SURF_CURR_DENSITY; ST_MAGN_SURF_CURR_DENSITY;
   ST_MAGN_SURF_CURR_DENSITY; ST_MAGN_SURF_CURR_DENSITY; ST_MAGN_SURF_CURR_DENSITY;
   ST_ELEC_CURRENT; ST_ELEC_CURRENT; ST_ELEC_CURRENT;
   ST_MAGN_CURRENT; ST_MAGN_CURRENT; ST_MAGN_CURRENT;
   ST_ELEC_CURRENT; ST_ELEC_CURRENT; ST_ELEC_CURRENT;
   ST_MAGN_CURRENT; ST_MAGN_CURRENT; ST_MAGN_CURRENT;
   ST_ELEC_CURRENT_MOMENT; ST_ELEC_CURRENT_MOMENT; ST_ELEC_CURRENT_MOMENT;
   ST_MAGN_CURRENT_MOMENT; ST_MAGN_CURRENT_MOMENT; ST_MAGN_CURRENT_MOMENT;
   ST_ELEC_CURRENT_MOMENT; ST_ELEC_CURRENT_MOMENT; ST_ELEC_CURRENT_MOMENT;
   ST_MAGN_CURRENT_MOMENT; ST_MAGN_CURRENT_MOMENT; ST_MAGN_CURRENT_MOMENT;
   ST_VOLTAGE; ST_VOLTAGE; ST_VOLTAGE;
   ST_VOLTAGE; ST_VOLTAGE; ST_VOLTAGE;
   ST_THEVENIN_VOLTAGE; ST_THEVENIN_VOLTAGE; ST_THEVENIN_VOLTAGE;
   ST_NORTON_CURRENT; ST_NORTON_CURRENT; ST_NORTON_CURRENT].
(** source.c:159-187 *)
Definition sourceFieldCompMap : list Fld :=
  [EX; EY; EZ; HX; HY; HZ; EX; EY; EZ; HX; HY; HZ;
   EX; EY; EZ; HX; HY; HZ; EX; EY; EZ; HX; HY; HZ;
   EX; EY; EZ; EX; EY; EZ; HX; HY; HZ; HX; HY; HZ;
   EX; EY; EZ; EX; EY; EZ; HX; HY; HZ; HX; HY; HZ;
   EX; EY; EZ; HX; HY; HZ; EX; EY; EZ; HX; HY; HZ;
   EX; EY; EZ; HX; HY; HZ; EX; EY; EZ; HX; HY; HZ;
   EX; EY; EZ; EX; EY; EZ; EX; EY; EZ; EX; EY; EZ].
(** source.c:190-218 *)
Definition sourcePolarisationMap : list Axis :=
  [XDIR; YDIR; ZDIR; XDIR; YDIR; ZDIR; XDIR; YDIR; ZDIR; XDIR; YDIR; ZDIR;
   XDIR; YDIR; ZDIR; XDIR; YDIR; ZDIR; XDIR; YDIR; ZDIR; XDIR; YDIR; ZDIR;
   XDIR; YDIR; ZDIR; XDIR; YDIR; ZDIR; XDIR; YDIR; ZDIR; XDIR; YDIR; ZDIR;
   XDIR; YDIR; ZDIR; XDIR; YDIR; ZDIR; XDIR; YDIR; ZDIR; XDIR; YDIR; ZDIR;
   XDIR; YDIR; ZDIR; XDIR; YDIR; ZDIR; XDIR; YDIR; ZDIR; XDIR; YDIR; ZDIR;
   XDIR; YDIR; ZDIR; XDIR; YDIR; ZDIR; XDIR; YDIR; ZDIR; XDIR; YDIR; ZDIR;
   XDIR; YDIR; ZDIR; XDIR; YDIR; ZDIR; XDIR; YDIR; ZDIR; XDIR; YDIR; ZDIR].
(** source.c:221-249 *)
Definition sourceSurfaceNormal : list (option Axis) :=
  [None; None; None; None; None; None;
   None; None; None; None; None; None;
   None; None; None; None; None; None;
   None; None; None; None; None; None;
   Some YDIR; Some ZDIR; Some XDIR; Some ZDIR; Some XDIR; Some YDIR;
   Some YDIR; Some ZDIR; Some XDIR; Some ZDIR; Some XDIR; Some YDIR;
   Some YDIR; Some ZDIR; Some XDIR; Some ZDIR; Some XDIR; Some YDIR;
   Some YDIR; Some ZDIR; Some XDIR; Some ZDIR; Some XDIR; Some YDIR;
   None; None; None; None; None; None;
   None; None; None; None; None; None;
   None; None; None; None; None; None;
   None; None; None; None; None; None;
   None; None; None; None; None; None;
   None; None; None; None; None; None].
(** source.c:252-280 *)
Definition sourceSoftnessMap : list bool :=
  [true; true; true; true; true; true; false; false; false; false; false; false;
   true; true; true; true; true; true; false; false; false; false; false; false;
   true; true; true; true; true; true; true; true; true; true; true; true;
   false; false; false; false; false; false; false; false; false; false; false; false;
   true; true; true; true; true; true; false; false; false; false; false; false;
   true; true; true; true; true; true; false; false; false; false; false; false;
   true; true; true; false; false; false; true; true; true; true; true; true].

(** The values the loop of source.c:394-405 assigns. *)
Record TagData := mkTag { t_type : SType; t_pol : Axis; t_norm : option Axis; t_field : Fld; t_soft : bool }.
Definition tagAt (i : nat) : TagData :=
  mkTag (nth i sourceTypeMap ST_EFIELD) (nth i sourcePolarisationMap XDIR) (nth i sourceSurfaceNormal None)
        (nth i sourceFieldCompMap EX) (nth i sourceSoftnessMap true).
(** source.c:393-405: the whole table is searched; a later match would
    overwrite an earlier one.  Tokens have at most 31 characters, so strncmp
    over TAG_SIZE = 32 bytes is equality. *)
Definition findTag (typeStr : string) : option TagData :=
  fold_left (fun acc p => if String.eqb typeStr (snd p) then Some (tagAt (fst p)) else acc)
    (combine (seq 0 84) SOURCE_TAG_STR) None.

(** source.c:45-72 SourceItem ([s_number] and the list position coincide) *)
Record Src := mkSrc { s_name : string; s_tag : TagData; s_mbbox : BBox; s_size : R; s_delay : R; s_resist : R;
  s_wf : string }.
(** source.c:805-824 isSource *)
Definition isSource (l : list Src) (name : string) : bool := existsb (fun s => String.eqb name (s_name s)) l.

Definition isLumped (t : SType) : bool :=
  match t with ST_THEVENIN_VOLTAGE | ST_NORTON_CURRENT => true | _ => false end.
Definition argOr (args : list R) (i : nat) (d : R) : R := nth i args d.

(** source.c:350-465 parseEX on the tokens of the card; [args] are the numbers
    sscanf converts after the waveform name.  bboxIsElemental is always true
    (BBox.v), see source.c:434. *)
Definition parseEX (mbox : BBox) (wfs : list WfItem) (l : list Src) (b : BBox) (name typeStr wfName : string)
    (args : list R) : option (list Src) :=
  if isSource l name then None
  else match findTag typeStr with
  | None => None
  | Some t =>
      if negb (bboxIsNormal b) then None
      else if negb (bboxIsWithin b mbox) then None
      else if isLumped (t_type t) then
        if match bboxType b with BB_LINE => negb (bboxIsElemental b) | _ => true end then None
        else if negb (isWaveform wfs wfName) then None
        else Some (l ++ [mkSrc name t b (argOr args 1 1%R) (argOr args 2 0%R) (argOr args 0 0%R) wfName])
      else if negb (isWaveform wfs wfName) then None
      else Some (l ++ [mkSrc name t b (argOr args 0 1%R) (argOr args 1 0%R) 0%R wfName])
  end.

(** ** Amplitude conversion *)
Section Sizes.
(** dex[] .. dhz[] *)
Variables de dh : Axis -> Z -> R.
Open Scope R_scope.

(** [for( i = lo ; i <= hi ; i++ ) s += f[i]] from s = 0 *)
Definition accum (f : Z -> R) (lo hi : Z) : R := fold_left (fun s i => s + f i) (zrange lo hi) 0.
Definition nextAxis (a : Axis) : Axis := match a with XDIR => YDIR | YDIR => ZDIR | ZDIR => XDIR end.

(** source.c:925-965 getElectricSourceSize: length, area, side[] *)
Definition elecSide (g : BBox) (d a : Axis) : R :=
  if axis_eqb a d then 0 else accum (dh a) (g (face_lo a)) (g (face_hi a)).
Definition elecLength (g : BBox) (d : Axis) : R := accum (de d) (g (face_lo d)) (g (face_hi d) - 1)%Z.
Definition elecArea (g : BBox) (d : Axis) : R := elecSide g d (nextAxis d) * elecSide g d (nextAxis (nextAxis d)).
(** source.c:968-1010 getMagneticSourceSize *)
Definition magSide (g : BBox) (d a : Axis) : R :=
  if axis_eqb a d then 0 else accum (de a) (g (face_lo a)) (g (face_hi a) - 1)%Z.
Definition magLength (g : BBox) (d : Axis) : R := accum (dh d) (g (face_lo d)) (g (face_hi d)).
Definition magArea (g : BBox) (d : Axis) : R := magSide g d (nextAxis d) * magSide g d (nextAxis (nextAxis d)).

(** side[item->normal]; CA_UNDEFINED never occurs for the surface types *)
Definition sideOf (side : Axis -> R) (n : option Axis) : R := match n with Some a => side a | None => 0 end.

Definition MIN_RESISTANCE : R := 1 / 100.   (* source.c:283 *)

(** Medium set on the edges of a lumped source. *)
Inductive Load := NoLoad | Resistive (sigma : R) | Short.

(** source.c:469-590 initSources, one item: the converted type and size, and
    the medium the box is filled with. *)
Definition convert (g : BBox) (s : Src) : SType * R * Load :=
  let p := t_pol (s_tag s) in
  let lumped (V : R) :=
    if Rlt_dec MIN_RESISTANCE (s_resist s)
    then (ST_ELEC_CURR_DENSITY, V / elecArea g p / s_resist s, Resistive (elecLength g p / (elecArea g p * s_resist s)))
    else (ST_EFIELD, - (1 / 2) * V / elecLength g p, Short) in
  match t_type (s_tag s) with
  | ST_EFIELD => (ST_EFIELD, s_size s, NoLoad)
  | ST_HFIELD => (ST_HFIELD, s_size s, NoLoad)
  | ST_ELEC_CURR_DENSITY => (ST_ELEC_CURR_DENSITY, s_size s, NoLoad)
  | ST_MAGN_CURR_DENSITY => (ST_MAGN_CURR_DENSITY, s_size s, NoLoad)
  | ST_ELEC_SURF_CURR_DENSITY => (ST_ELEC_CURR_DENSITY, s_size s / sideOf (elecSide g p) (t_norm (s_tag s)), NoLoad)
  | ST_MAGN_SURF_CURR_DENSITY => (ST_MAGN_CURR_DENSITY, s_size s / sideOf (magSide g p) (t_norm (s_tag s)), NoLoad)
  | ST_ELEC_CURRENT => (ST_ELEC_CURR_DENSITY, s_size s / elecArea g p, NoLoad)
  | ST_MAGN_CURRENT => (ST_MAGN_CURR_DENSITY, s_size s / magArea g p, NoLoad)
  | ST_ELEC_CURRENT_MOMENT => (ST_ELEC_CURR_DENSITY, s_size s / elecArea g p / elecLength g p, NoLoad)
  | ST_MAGN_CURRENT_MOMENT => (ST_MAGN_CURR_DENSITY, s_size s / magArea g p / magLength g p, NoLoad)
  | ST_VOLTAGE => (ST_EFIELD, - s_size s / elecLength g p, NoLoad)
  | ST_THEVENIN_VOLTAGE => lumped (s_size s)
  | ST_NORTON_CURRENT => lumped (s_resist s * s_size s)
  end.

(** source.c:560-577: the statements filling the coefficient arrays.  The
    placeholder medium added by parseEX (source.c:443-444) is simple with
    eps_r = 1, mu_r = 1 and the new conductivity (updateSimpleMedium,
    medium.c:571-590); its registry number is irrelevant. *)
Definition loadProg (eps0 mu0 dt : R) (g : BBox) (ld : Load) : list (stmt R) :=
  match ld with
  | NoLoad => []
  | Resistive sigma =>
      setMediumOnGrid (fun _ => calcCoeffFromParam eps0 mu0 dt (mkMP MT_SIMPLE 1 sigma 1 [])) g 2 FACE_MASK_ALL
  | Short => setMediumOnGrid (initMedia eps0 mu0 dt []) g MT_PEC_num FACE_MASK_ALL
  end.
End Sizes.

(** ** Field updates *)
Section Update.
Context {V : Type}.
(** A source after initSources: converted type, component, limits, softness
    ((real)item->isSoft) and the value size * waveform of this instant. *)
Record Act := mkAct { a_type : SType; a_field : Fld; a_lim : FLimits; a_soft : V; a_val : V }.

(** source.c:605-672 updateSourcesEfield, one source *)
Definition srcE (s : Act) : list (stmt V) :=
  let f := a_field s in
  match a_type s with
  | ST_EFIELD => if is_E f then nestS (a_lim s f) (fun i j k =>
        [Asg (L (AF f) i j k) (Add (Mul (Cst (a_soft s)) (F f i j k)) (Cst (a_val s)))]) else []
  | ST_ELEC_CURR_DENSITY => if is_E f then nestS (a_lim s f) (fun i j k =>
        [Asg (L (AF f) i j k) (Sub (Mul (Cst (a_soft s)) (F f i j k)) (Mul (BETA f i j k) (Cst (a_val s))))]) else []
  | _ => []
  end.
(** source.c:675-740 updateSourcesHfield, one source *)
Definition srcH (s : Act) : list (stmt V) :=
  let f := a_field s in
  match a_type s with
  | ST_HFIELD => if is_E f then [] else nestS (a_lim s f) (fun i j k =>
        [Asg (L (AF f) i j k) (Add (Mul (Cst (a_soft s)) (F f i j k)) (Cst (a_val s)))])
  | ST_MAGN_CURR_DENSITY => if is_E f then [] else nestS (a_lim s f) (fun i j k =>
        [Asg (L (AF f) i j k) (Sub (Mul (Cst (a_soft s)) (F f i j k)) (Mul (GAMMA f i j k) (Cst (a_val s))))])
  | _ => []
  end.
Definition updateSourcesEfield (l : list Act) : list (item V) := map (fun s => Seq (srcE s)) l.
Definition updateSourcesHfield (l : list Act) : list (item V) := map (fun s => Seq (srcH s)) l.
End Update.

(** source.c:489-490 and 615-617: the state of source [s] at an instant when
    its waveform has the value [w] = getWaveformValue( time , number , delay ). *)
Definition actOf (c : Cfg) (de dh : Axis -> Z -> R) (s : Src) (w : R) : Act (V:=R) :=
  let g := offsetBoundingBox (s_mbbox s) (gibox c) in
  let '(ty, size, _) := convert de dh g s in
  mkAct ty (t_field (s_tag s)) (setFieldLimits g (fun _ => true)) (if t_soft (s_tag s) then 1%R else 0%R) (size * w)%R.
