(** C16: what it means for the two faces of a periodic axis to agree. *)
From Coq Require Import ZArith List Bool.
From Verif Require Import Types Lang BBox Grid Pml Ghost StepShape GhostValue StepClosed.
Import ListNotations.
Open Scope Z_scope.

Section Per.
Context {V : Type} (A : Arith V).
Variables (c : Cfg) (a : Axis).   (* [a] is the periodic axis *)
Notation lo := (gobox c (face_lo a)). Notation hi := (gobox c (face_hi a)).

(** The components that have samples in the two faces: the E components along
    the face and the H component normal to it. *)
Definition in_face (f : Fld) : Prop := if is_E f then fld_axis f <> a else fld_axis f = a.
(** [l] placed in the face at [n], as an element of array [x] *)
Definition on (x : Arr) (n : Z) (l : Loc) : Loc := wa x (setc a n l).
(** [l], so placed, is a sample of [f] inside the outer grid *)
Definition sample (f : Fld) (l : Loc) : Prop := inp (gfolim c f) (setc a lo l).
(** the auxiliary value of PML region [r] that belongs to the sample of [f] *)
Definition aux_on (X : Face -> Fld -> Arr) (r : Face) (f : Fld) (n : Z) (l : Loc) : Loc :=
  let p := setc a n l in let b := fplim c r f in L (X r f) (li p - b XLO) (lj p - b YLO) (lk p - b ZLO).

(** media, PML coefficients and the cell size across agree on the two faces *)
Record per_data (m : mem V) : Prop := {
  pd_c : forall X f l, X = AAlpha \/ X = ABeta \/ X = AGamma -> in_face f -> sample f l ->
     m (on (X f) lo l) = m (on (X f) hi l);
  pd_p : forall co, m (L (APml co a) lo 0 0) = m (L (APml co a) hi 0 0);
  pd_d : m (L (AIdh a) lo 0 0) = m (L (AIdh a) hi 0 0) }.

(** the fields of the two faces agree *)
Definition faces_agree (m : mem V) : Prop :=
  forall f l, in_face f -> sample f l -> m (on (AF f) lo l) = m (on (AF f) hi l).
(** so do the auxiliary fields of the PML regions that the faces cut *)
Definition aux_agree (m : mem V) : Prop :=
  forall X r f l, X = APP /\ is_E f = true \/ X = AP /\ is_E f = true \/ X = AB /\ is_E f = false ->
  outerSurfaceType c r = BT_PML -> in_face f -> inp (fplim c r f) (setc a lo l) ->
  m (aux_on X r f lo l) = m (aux_on X r f hi l).
(** the unused cells outside a PML or MUR face agree (e.g. are zero), and ghost
    cells are as a time step leaves them *)
Definition rims_agree (m : mem V) : Prop :=
  forall F l, face_axis F <> a -> active (outerSurfaceType c F) = false -> coord (face_axis F) l = ghostIdx c F ->
  (forall d, d <> a -> d <> face_axis F -> gobox c (face_lo d) <= coord d l <= gobox c (face_hi d) - 1) ->
  m (on (AF (Hfld a)) lo l) = m (on (AF (Hfld a)) hi l).
Record per_state (m : mem V) : Prop := {
  ps_F : faces_agree m; ps_x : aux_agree m; ps_o : rims_agree m;
  ps_g : forall F, rel A c false F m }.

(** sources that drive E ([isE]) or H anywhere in the grid, but not on the two faces *)
Definition off_faces (isE : bool) (it : list (item V)) : Prop :=
  forall s, In s (flat it) -> exists f i j k, dst s = L (AF f) i j k /\ is_E f = isE /\ inl (gfolim c f) i j k /\
  (in_face f -> coord a (L (AF f) i j k) <> lo /\ coord a (L (AF f) i j k) <> hi).
(** every field and auxiliary field is zero *)
Definition at_rest (z : V) (m : mem V) : Prop :=
  forall l, match arr l with AF _ | APP _ _ | AP _ _ | AB _ _ => m l = z | _ => True end.
End Per.
