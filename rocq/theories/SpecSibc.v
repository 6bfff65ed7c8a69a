(** Specification for C38 and C60: two-ports and sheets, in terms of waves. *)
From Coq Require Import Reals.
Open Scope R_scope.

(** a real 2x2 matrix, indices false = first port, true = second *)
Definition Mat := bool -> bool -> R.
Definition Vec := bool -> R.
Definition app2 (m : Mat) (x : Vec) : Vec := fun i => m i false * x false + m i true * x true.
Definition norm2 (x : Vec) : R := x false * x false + x true * x true.
Definition idm : Mat := fun i j => if Bool.eqb i j then 1 else 0.
Definition prod2 (a b : Mat) : Mat := fun i j => a i false * b false j + a i true * b true j.
(** no outgoing power above the incoming power, for any incoming waves *)
Definition passive (s : Mat) : Prop := forall a, norm2 (app2 s a) <= norm2 a.
(** Z is the impedance matrix of S with port impedance z0 *)
Definition impedance_of (z0 : R) (z s : Mat) : Prop :=
  forall i j, prod2 z (fun i j => idm i j - s i j) i j = z0 * (idm i j + s i j).

(** Tangential fields on the two sides of a sheet.  Side a is the side of lower
    coordinate.  1 and 2 are the mesh axes with 1 x 2 = the normal, which points
    from side a to side b. *)
Record Tan := mkTan { t1a : R; t2a : R; t1b : R; t2b : R }.
(** power per unit area flowing into the sheet from both sides *)
Definition absorbed (E H : Tan) : R :=
  (t1a E * t2a H - t2a E * t1a H) - (t1b E * t2b H - t2b E * t1b H).
(** Components along the principal axes u = (cos, sin), v = (-sin, cos). *)
Definition alongU (th x1 x2 : R) : R := cos th * x1 + sin th * x2.
Definition alongV (th x1 x2 : R) : R := - sin th * x1 + cos th * x2.
(** The wave that travels towards the sheet on a side has E = z0 H, with H
    turned by 90 degrees about its direction; the one that leaves it E = - z0 H.
    E along u goes with H along v, E along v with H along -u; the direction
    towards the sheet is + on side a and - on side b. *)
Definition wavesIn (z0 e h : R) : R := (e + z0 * h) / 2.
Definition wavesOut (z0 e h : R) : R := (e - z0 * h) / 2.
(** E and H are fields of a sheet with scattering matrix sTM for polarisation
    along u and sTE along v, port 1 on side a if [plus], on side b otherwise *)
Definition ports (plus : bool) (xa xb : R) : Vec := fun p => if xorb plus p then xa else xb.
Definition scatters (z0 th : R) (plus : bool) (sTM sTE : Mat) (E H : Tan) : Prop :=
  let eU := ports plus (alongU th (t1a E) (t2a E)) (alongU th (t1b E) (t2b E)) in
  let hV := ports plus (alongV th (t1a H) (t2a H)) (- alongV th (t1b H) (t2b H)) in
  let eV := ports plus (alongV th (t1a E) (t2a E)) (alongV th (t1b E) (t2b E)) in
  let hU := ports plus (- alongU th (t1a H) (t2a H)) (alongU th (t1b H) (t2b H)) in
  (forall p, wavesOut z0 (eU p) (hV p) = app2 sTM (fun q => wavesIn z0 (eU q) (hV q)) p) /\
  (forall p, wavesOut z0 (eV p) (hU p) = app2 sTE (fun q => wavesIn z0 (eV q) (hU q)) p).
