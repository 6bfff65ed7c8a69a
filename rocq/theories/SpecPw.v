(** Specification vocabulary for plane waves: the total-field region, incident
    fields that obey the discrete equations, directions and polarisations. *)
From Coq Require Import ZArith List Bool Reals.
From Verif Require Import Types Lang BBox Grid SpecPhys SpecYee.
Open Scope Z_scope.

(** Yee offsets: E is displaced by half a cell along its own axis, H along the
    two others. *)
Definition offset (f : Fld) (a : Axis) : Z :=
  if is_E f then if axis_eqb (fld_axis f) a then 1 else 0
  else if axis_eqb (fld_axis f) a then 0 else 1.
Definition ind (i j k : Z) (a : Axis) : Z := match a with XDIR => i | YDIR => j | ZDIR => k end.
(** the sample (f,i,j,k) lies in the closed box [b] (in units of half cells) *)
Definition inBox (b : BBox) (f : Fld) (i j k : Z) : Prop := forall a,
  2 * b (face_lo a) <= 2 * ind i j k a + offset f a <= 2 * b (face_hi a).
Definition inBoxb (b : BBox) (f : Fld) (i j k : Z) : bool := forallb (fun a =>
  (2 * b (face_lo a) <=? 2 * ind i j k a + offset f a) && (2 * ind i j k a + offset f a <=? 2 * b (face_hi a))) axes.
Lemma inBoxb_iff b f i j k : inBoxb b f i j k = true <-> inBox b f i j k.
Proof.
  unfold inBoxb, inBox, axes. cbn [forallb]. rewrite !andb_true_iff, !Z.leb_le. split.
  - intros H []; tauto.
  - intros H. pose proof (H XDIR). pose proof (H YDIR). pose proof (H ZDIR). tauto.
Qed.

(** The box is inside the mesh of a simulation with surfaces [t]: at least one
    cell from every face, two from an absorbing MUR face. *)
Definition clear_of (t : Face -> BType) (face : Face) : Z := if btype_eqb (t face) BT_MUR then 2 else 1.
Definition clear_box (t : Face -> BType) (mesh b : BBox) : Prop := forall a,
  mesh (face_lo a) + clear_of t (face_lo a) <= b (face_lo a) /\ b (face_lo a) <= b (face_hi a) /\
  b (face_hi a) <= mesh (face_hi a) - clear_of t (face_hi a).

Open Scope R_scope.
(** A field in space: one function per component. *)
Definition Field := Fld -> Z -> Z -> Z -> R.
(** [u] inside the box, nothing outside *)
Definition window (b : BBox) (u : Field) : Field := fun f i j k => if inBoxb b f i j k then u f i j k else 0.
(** the memory [m] with its fields replaced by [u] *)
Definition with_fields (m : mem R) (u : Field) : mem R := fun l =>
  match arr l with AF f => u f (li l) (lj l) (lk l) | _ => m l end.
(** total field: what is stored inside the box, stored plus incident outside *)
Definition total (m : mem R) (b : BBox) (u : Field) : mem R :=
  with_fields m (fun f i j k => fld m f i j k + (if inBoxb b f i j k then 0 else u f i j k)).
(** scattered field: stored minus incident inside the box, what is stored outside *)
Definition scattered (m : mem R) (b : BBox) (u : Field) : mem R :=
  with_fields m (fun f i j k => fld m f i j k - window b u f i j k).

(** The incident field obeys the discrete Maxwell equations of the mesh, with
    the coefficients stored in [m], at every sample of the box: [inc n] holds E
    and H at the start of step [n]. *)
Definition obeys (m : mem R) (b : BBox) (inc : nat -> Field) : Prop := forall n f i j k, inBox b f i j k ->
  inc (S n) f i j k =
  if is_E f then alpha m f i j k * inc n f i j k + beta m f i j k * drive (with_fields m (inc n)) f (mkPt i j k)
  else inc n f i j k + gamma m f i j k * drive (with_fields m (inc (S n))) f (mkPt i j k).

(** E sample on the surface of the box *)
Definition on_surface (b : BBox) (f : Fld) (i j k : Z) : Prop :=
  is_E f = true /\ inBox b f i j k /\
  exists face, face_axis face <> fld_axis f /\ ind i j k (face_axis face) = b face.
Definition lossless_surface (m : mem R) (b : BBox) : Prop := forall f i j k, on_surface b f i j k -> alpha m f i j k = 1.

(** ** Vectors *)
Definition dot (u v : Axis -> R) : R := u XDIR * v XDIR + u YDIR * v YDIR + u ZDIR * v ZDIR.
Definition cross (u v : Axis -> R) : Axis -> R := fun a =>
  u (succA a) * v (succA (succA a)) - u (succA (succA a)) * v (succA a).

(** Spherical unit vectors at polar angle [t] and azimuth [p] (radians). *)
Definition r_hat (t p : R) (a : Axis) : R := match a with XDIR => sin t * cos p | YDIR => sin t * sin p | ZDIR => cos t end.
Definition theta_hat (t p : R) (a : Axis) : R := match a with XDIR => cos t * cos p | YDIR => cos t * sin p | ZDIR => - sin t end.
Definition phi_hat (t p : R) (a : Axis) : R := match a with XDIR => - sin p | YDIR => cos p | ZDIR => 0 end.
(** the point [r] is in the box *)
Definition pt_in (b : BBox) (r : Axis -> R) : Prop := forall a, IZR (b (face_lo a)) <= r a <= IZR (b (face_hi a)).
(** the sample lies in the box, or at most half a cell outside one pair of faces *)
Definition near (b : BBox) (f : Fld) (i j k : Z) : Prop := exists a0, forall a,
  let g := (if axis_eqb a a0 then 1 else 0)%Z in
  (2 * b (face_lo a) - g <= 2 * ind i j k a + offset f a <= 2 * b (face_hi a) + g)%Z.
(** position of a sample in cells *)
Definition position (f : Fld) (i j k : Z) (a : Axis) : R := IZR (2 * ind i j k a + offset f a) / 2.
(** samples of the incident field that the corrections of a box may use *)
Definition looked_up (b : BBox) (f : Fld) (i j k : Z) : Prop := if is_E f then inBox b f i j k else near b f i j k.
