(** Specification of the EX sources: the source type tags, the region a source
    acts on, and the physical meaning of its amplitude. *)
From Coq Require Import ZArith List Bool Reals String.
From Verif Require Import Types Lang Grid Waveform Source SpecGeom SpecMedia SpecPhys.
Import ListNotations.
Open Scope string_scope.

(** ** Tags: optional "=" (hard source), quantity, polarisation, and for sheets
    the second tangential direction. *)
Inductive Quantity := qE | qH | qJ | qJM | qJS (second : Axis) | qJMS (second : Axis) | qI | qIM | qID | qIMD | qV | qVR | qIG.
Definition letter (a : Axis) : string := match a with XDIR => "X" | YDIR => "Y" | ZDIR => "Z" end.
Definition tagOf (hard : bool) (q : Quantity) (p : Axis) : string :=
  (if hard then "=" else "") ++
  match q with
  | qE => "E" ++ letter p | qH => "H" ++ letter p | qJ => "J" ++ letter p | qJM => "JM" ++ letter p
  | qJS t => "JS" ++ letter p ++ letter t | qJMS t => "JMS" ++ letter p ++ letter t
  | qI => "I" ++ letter p | qIM => "IM" ++ letter p | qID => "ID" ++ letter p | qIMD => "IMD" ++ letter p
  | qV => "V" ++ letter p | qVR => "VR" ++ letter p | qIG => "IG" ++ letter p
  end.
(** sheets have two different directions; lumped sources have no hard form *)
Definition meaningful (hard : bool) (q : Quantity) (p : Axis) : Prop :=
  match q with qJS t | qJMS t => t <> p | qVR | qIG => hard = false | _ => True end.
Definition typeOf (q : Quantity) : SType :=
  match q with
  | qE => ST_EFIELD | qH => ST_HFIELD | qJ => ST_ELEC_CURR_DENSITY | qJM => ST_MAGN_CURR_DENSITY
  | qJS _ => ST_ELEC_SURF_CURR_DENSITY | qJMS _ => ST_MAGN_SURF_CURR_DENSITY
  | qI => ST_ELEC_CURRENT | qIM => ST_MAGN_CURRENT | qID => ST_ELEC_CURRENT_MOMENT | qIMD => ST_MAGN_CURRENT_MOMENT
  | qV => ST_VOLTAGE | qVR => ST_THEVENIN_VOLTAGE | qIG => ST_NORTON_CURRENT
  end.
Definition magnetic (q : Quantity) : bool :=
  match q with qH | qJM | qJMS _ | qIM | qIMD => true | _ => false end.
Definition Efield (p : Axis) : Fld := match p with XDIR => EX | YDIR => EY | ZDIR => EZ end.
Definition Hfield (p : Axis) : Fld := match p with XDIR => HX | YDIR => HY | ZDIR => HZ end.
Definition fieldOf (q : Quantity) (p : Axis) : Fld := if magnetic q then Hfield p else Efield p.

(** ** Where and how a source acts. *)
Open Scope R_scope.
(** the points of the source: those of its component in its closed box (mesh
    indices) *)
Definition on_source (c : Cfg) (s : Src) (f : Fld) (i j k : Z) : Prop :=
  f = t_field (s_tag s) /\
  yee_in f (s_mbbox s) (fun _ => true) (i - gibox c XLO)%Z (j - gibox c YLO)%Z (k - gibox c ZLO)%Z.
(** a hard source replaces the field, a soft one adds to it *)
Definition carried (s : Src) (old : R) : R := if t_soft (s_tag s) then old else 0.

Inductive Drive := DField | DCurrent.
(** Effect of a source whose field (or current density) is now [v] on the
    fields of one kind ([electric]): current densities enter through -beta
    (electric) or -gamma (magnetic), see C17. *)
Definition applied (c : Cfg) (electric : bool) (s : Src) (d : Drive) (v : R) (m m' : mem R) : Prop :=
  forall l,
  (forall f i j k, l = L (AF f) i j k -> is_E f = electric -> on_source c s f i j k ->
     m' l = carried s (m l) +
       match d with
       | DField => v
       | DCurrent => - ((if electric then beta m f i j k else gamma m f i j k) * v)
       end) /\
  (~ (exists f i j k, l = L (AF f) i j k /\ is_E f = electric /\ on_source c s f i j k) -> m' l = m l).
(** several sources, in the order of their cards *)
Inductive applied_all (c : Cfg) (electric : bool) : list (Src * Drive * R) -> mem R -> mem R -> Prop :=
| aa_nil m : applied_all c electric [] m m
| aa_cons s d v l m m1 m2 : applied c electric s d v m m1 -> applied_all c electric l m1 m2 ->
    applied_all c electric ((s, d, v) :: l) m m2.

(** ** What the amplitude means.  [de a n] and [dh a n]: length of the primary
    and of the secondary edge [n] of axis [a], in grid indices. *)
Definition sum (lo hi : Z) (f : Z -> R) : R := fold_right Rplus 0 (map f (zrange lo hi)).
Definition other (a : Axis) : Axis * Axis :=
  match a with XDIR => (YDIR, ZDIR) | YDIR => (XDIR, ZDIR) | ZDIR => (XDIR, YDIR) end.
Section Meaning.
Variables (c : Cfg) (de dh : Axis -> Z -> R) (b : BBox) (p : Axis).
Definition pe (a : Axis) (n : Z) : R := de a (gibox c (face_lo a) + n)%Z.
Definition se (a : Axis) (n : Z) : R := dh a (gibox c (face_lo a) + n)%Z.
Definition lo (a : Axis) := b (face_lo a).
Definition hi (a : Axis) := b (face_hi a).
(** total electric current of a uniform density [x]: through the secondary faces
    of the edges of one layer of the box *)
Definition elec_current (x : R) : R :=
  sum (lo (fst (other p))) (hi (fst (other p))) (fun u => sum (lo (snd (other p))) (hi (snd (other p))) (fun v =>
    x * (se (fst (other p)) u * se (snd (other p)) v))).
(** current moment: current times the length of every edge along [p] *)
Definition elec_moment (x : R) : R := sum (lo p) (hi p - 1)%Z (fun n => elec_current x * pe p n).
(** magnetic current through the primary faces of one layer of the box *)
Definition mag_current (x : R) : R :=
  sum (lo (fst (other p))) (hi (fst (other p)) - 1)%Z (fun u => sum (lo (snd (other p))) (hi (snd (other p)) - 1)%Z (fun v =>
    x * (pe (fst (other p)) u * pe (snd (other p)) v))).
Definition mag_moment (x : R) : R := sum (lo p) (hi p) (fun n => mag_current x * se p n).
(** voltage of the high end against the low end... of a field [x]: - sum E dl *)
Definition voltage (x : R) : R := - sum (lo p) (hi p - 1)%Z (fun n => x * pe p n).
End Meaning.

(** The field or current density [v] that a source of quantity [q] and strength
    [A] (amplitude times waveform) must produce.  Sheets and lumped sources have
    their own statements. *)
Definition produces (c : Cfg) (de dh : Axis -> Z -> R) (b : BBox) (p : Axis) (q : Quantity) (A : R) (d : Drive) (v : R) : Prop :=
  match q with
  | qE | qH => d = DField /\ v = A
  | qJ | qJM => d = DCurrent /\ v = A
  | qI => d = DCurrent /\ elec_current c dh b p v = A
  | qIM => d = DCurrent /\ mag_current c de b p v = A
  | qID => d = DCurrent /\ elec_moment c de dh b p v = A
  | qIMD => d = DCurrent /\ mag_moment c de dh b p v = A
  | qV => d = DField /\ voltage c de b p v = A
  | _ => True
  end.
(** the box has the extent its quantity needs: a voltage or moment needs a
    length, a magnetic current an area *)
Definition extent_ok (b : BBox) (p : Axis) (q : Quantity) : Prop :=
  match q with
  | qV | qID => (b (face_lo p) < b (face_hi p))%Z
  | qIM | qIMD => forall a, a <> p -> (b (face_lo a) < b (face_hi a))%Z
  | _ => True
  end.
