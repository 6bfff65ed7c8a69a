(** Specification vocabulary for media: the discretised Maxwell equations a
    medium's update has to satisfy at one point. *)
From Coq Require Import List Reals.
From Verif Require Import Medium.
Import ListNotations.
Open Scope R_scope.

(** Ampere's law with permittivity [eps] and conductivity [sigma], centred at
    the half step: E, E' are the field before and after, [curl] the curl of H. *)
Definition ampere (eps sigma dt E E' curl : R) : Prop :=
  eps * ((E' - E) / dt) + sigma * ((E' + E) / 2) = curl.
(** Faraday's law with permeability [mu]. *)
Definition faraday (mu dt H H' curl : R) : Prop := mu * ((H' - H) / dt) = curl.
(** A pole in the closed left half plane. *)
Definition stable_pole (p : Pole) : Prop := re (p_pole p) <= 0.

(** Dispersive medium with permittivity
    eps_inf + sum_k ( r_k/(s-p_k) + conj ), relative to eps0 (UserManual, DEBYE
    type).  [J k] is the polarisation current of pole k alone (its conjugate
    partner carries the conjugate current, so the pair carries 2 Re J). *)
Definition pair_current (js : list Cx) : R := fold_right (fun j s => 2 * re j + s) 0 js.
(** dJ/dt = p J + eps0 r dE/dt, centred at the half step *)
Definition pole_law (eps0 dt : R) (p : Pole) (J J' : Cx) (E E' : R) : Prop :=
  cmul (csub J' J) (cxR (/ dt)) =
  cadd (cmul (p_pole p) (cmul (cadd J' J) (cxR (/ 2)))) (cmul (cmul (cxR eps0) (p_residue p)) (cxR ((E' - E) / dt))).
(** Ampere's law including the polarisation currents, centred *)
Definition ampere_debye (eps sigma dt E E' curl : R) (js js' : list Cx) : Prop :=
  eps * ((E' - E) / dt) + sigma * ((E' + E) / 2) + (pair_current js + pair_current js') / 2 = curl.
