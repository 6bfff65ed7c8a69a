(** Specification of the energy in a box whose walls are PEC, PMC or periodic. *)
From Coq Require Import ZArith List Bool Reals.
From Verif Require Import Types Lang BBox Grid Ghost StepShape SpecPhys SpecEnergy SpecStable GhostValue SpecPeriodic.
Import ListNotations.
Open Scope R_scope.

(** The part that lies inside the mesh of the secondary edge centred at node [n]
    of axis [a]: half of it when the node is on an outer wall. *)
Definition din (c : Cfg) (m : mem R) (a : Axis) (n : Z) : R :=
  if ((n =? gobox c (face_lo a)) || (n =? gobox c (face_hi a)))%Z then dh m a n / 2 else dh m a n.
(** Volume, inside the mesh, belonging to a field value. *)
Definition boxvol (c : Cfg) (m : mem R) (f : Fld) (i j k : Z) : R :=
  let le a n := if axis_eqb a (fld_axis f) then de m a n else din c m a n in
  let lh a n := if axis_eqb a (fld_axis f) then din c m a n else de m a n in
  if is_E f then le XDIR i * le YDIR j * le ZDIR k else lh XDIR i * lh YDIR j * lh ZDIR k.
(** The energy stored inside the mesh: as [SpecEnergy.energy], with the volumes
    clipped at the walls. *)
Definition box_energy (c : Cfg) (m m' : mem R) : R :=
    sum3 (gfolim c EX) (fun i j k => boxvol c m EX i j k / beta m EX i j k * (fld m' EX i j k * fld m' EX i j k))
  + sum3 (gfolim c EY) (fun i j k => boxvol c m EY i j k / beta m EY i j k * (fld m' EY i j k * fld m' EY i j k))
  + sum3 (gfolim c EZ) (fun i j k => boxvol c m EZ i j k / beta m EZ i j k * (fld m' EZ i j k * fld m' EZ i j k))
  + sum3 (gfolim c HX) (fun i j k => boxvol c m HX i j k / gamma m HX i j k * (fld m HX i j k * fld m' HX i j k))
  + sum3 (gfolim c HY) (fun i j k => boxvol c m HY i j k / gamma m HY i j k * (fld m HY i j k * fld m' HY i j k))
  + sum3 (gfolim c HZ) (fun i j k => boxvol c m HZ i j k / gamma m HZ i j k * (fld m HZ i j k * fld m' HZ i j k)).

(** a sample of a tangential E component in face [F] *)
Definition in_wall (c : Cfg) (F : Face) (f : Fld) (i j k : Z) : Prop :=
  fld_axis f <> face_axis F /\ (match face_axis F with XDIR => i | YDIR => j | ZDIR => k end) = gobox c F.

(** A closed lossless box: every wall PEC, PMC or periodic, in any mixture;
    every E value lossless (alpha = 1, beta <> 0) or perfectly conducting
    (beta = 0, value 0), those in a PEC wall conducting; inverse lengths that
    are the inverses of the lengths; media, cell size and fields that agree on
    the two faces of a periodic axis; and ghost cells as a time step leaves
    them (at a PMC wall the tangential H outside is minus that inside, at a
    periodic wall it is that inside the opposite wall). *)
Record closed_box (c : Cfg) (m : mem R) : Prop := {
  cb_walls : forall F, outerSurfaceType c F = BT_PEC \/ outerSurfaceType c F = BT_PMC \/ outerSurfaceType c F = BT_PERIODIC;
  cb_E : forall f i j k, is_E f = true -> inl (gfolim c f) i j k ->
     (alpha m f i j k = 1 /\ beta m f i j k <> 0 /\ forall F, outerSurfaceType c F = BT_PEC -> ~ in_wall c F f i j k) \/
     (beta m f i j k = 0 /\ fld m f i j k = 0);
  cb_H : forall f i j k, is_E f = false -> inl (gfolim c f) i j k -> gamma m f i j k <> 0;
  cb_de : forall a n, (gobox c (face_lo a) <= n < gobox c (face_hi a))%Z -> de m a n * ide m a n = 1;
  cb_dh : forall a n, (gobox c (face_lo a) <= n <= gobox c (face_hi a))%Z -> dh m a n * idh m a n = 1;
  cb_per : forall a, outerSurfaceType c (face_lo a) = BT_PERIODIC -> per_data c a m /\ faces_agree c a m;
  cb_ghost : forall F, rel rArith c false F m }.

(** ** Lossy media *)
(** As SpecStable's fieldEnergy, leapEnergy and dissipated, with the volumes
    clipped at the walls. *)
Definition boxFieldEnergy (c : Cfg) (m : mem R) : R :=
  sumE c (fun f i j k => boxvol c m f i j k * eps_dt m f i j k * (fld m f i j k * fld m f i j k)) +
  sumH c (fun f i j k => boxvol c m f i j k * mu_dt m f i j k * (fld m f i j k * fld m f i j k)).
Definition boxLeapEnergy (c : Cfg) (m m' : mem R) : R :=
  sumE c (fun f i j k => boxvol c m f i j k * eps_dt m f i j k * (fld m' f i j k * fld m' f i j k)) +
  sumH c (fun f i j k => boxvol c m f i j k * mu_dt m f i j k * (fld m f i j k * fld m' f i j k)).
Definition boxDissipated (c : Cfg) (m m' : mem R) : R :=
  sumE c (fun f i j k => boxvol c m f i j k * sigma_half m f i j k * ((fld m f i j k + fld m' f i j k) * (fld m f i j k + fld m' f i j k))).

(** A closed box of passive media: as [closed_box], the media having
    permittivity > 0 and conductivity >= 0 (-1 < alpha <= 1, beta > 0); lengths
    are positive, a secondary edge joins the centres of two cells, and the cell
    beyond a wall is as long as the one inside. *)
Record passive_box (c : Cfg) (m : mem R) : Prop := {
  pb_walls : forall F, outerSurfaceType c F = BT_PEC \/ outerSurfaceType c F = BT_PMC \/ outerSurfaceType c F = BT_PERIODIC;
  pb_E : forall f i j k, is_E f = true -> inl (gfolim c f) i j k ->
     (-1 < alpha m f i j k <= 1 /\ 0 < beta m f i j k /\ forall F, outerSurfaceType c F = BT_PEC -> ~ in_wall c F f i j k) \/
     (beta m f i j k = 0 /\ fld m f i j k = 0);
  pb_H : forall f i j k, is_E f = false -> inl (gfolim c f) i j k -> 0 < gamma m f i j k;
  pb_de : forall a n, (gobox c (face_lo a) <= n < gobox c (face_hi a))%Z -> 0 < de m a n /\ de m a n * ide m a n = 1;
  pb_dh : forall a n, (gobox c (face_lo a) <= n <= gobox c (face_hi a))%Z -> 0 < dh m a n /\ dh m a n * idh m a n = 1;
  pb_mid : forall a n, (gobox c (face_lo a) < n < gobox c (face_hi a))%Z -> dh m a n = (de m a (n - 1) + de m a n) / 2;
  pb_ends : forall a, dh m a (gobox c (face_lo a)) = de m a (gobox c (face_lo a)) /\
     dh m a (gobox c (face_hi a)) = de m a (gobox c (face_hi a) - 1);
  pb_per : forall a, outerSurfaceType c (face_lo a) = BT_PERIODIC -> per_data c a m /\ faces_agree c a m;
  pb_ghost : forall F, rel rArith c false F m }.
