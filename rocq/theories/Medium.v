(** Media parameters and update coefficients, in real arithmetic.
    Models /repo/src/medium.c (parseMT, addMedium, readDebyeParameters,
    initMedia, calcCoeffFromParam). *)
From Coq Require Import ZArith List Bool String Reals.
From Verif Require Import Types Setup Media.
Import ListNotations.
Open Scope R_scope.

(** C99 double complex, exact. *)
Record Cx := mkC { re : R; im : R }.
Definition cxR (x : R) : Cx := mkC x 0.
Definition cadd (a b : Cx) : Cx := mkC (re a + re b) (im a + im b).
Definition csub (a b : Cx) : Cx := mkC (re a - re b) (im a - im b).
Definition cmul (a b : Cx) : Cx := mkC (re a * re b - im a * im b) (re a * im b + im a * re b).
Definition cnorm2 (a : Cx) : R := re a * re a + im a * im a.
Definition cdiv (a b : Cx) : Cx :=
  mkC ((re a * re b + im a * im b) / cnorm2 b) ((im a * re b - re a * im b) / cnorm2 b).

(** medium.h:73-80: the parameters from the mesh *)
Record Pole := mkPole { p_residue : Cx; p_pole : Cx }.
Record MParam := mkMP { m_type : MType; m_eps : R; m_sigma : R; m_mu : R; m_poles : list Pole }.
Definition MReg := Registry MParam.

(** mesh.c:261-262 *)
Definition initMedReg : MReg :=
  [mkItem "FREE_SPACE"%string (mkMP MT_SIMPLE 1 0 1 []); mkItem "PEC"%string (mkMP MT_PEC 1 100000000 1 [])].

(** A Debye parameter file that could be read: the four numbers of the first
    line, then four per pole. *)
Record DebyeFile := mkDF { df_eps : R; df_sigma : R; df_mu : R; df_poles : list (R * R * R * R) }.

Definition nthR (v : list R) (n : nat) (d : R) : R := nth n v d.
Definition ltb (x y : R) : bool := if Rlt_dec x y then true else false.

(** medium.c:314-377 readDebyeParameters: [None] = MSG_ERROR, the run ends *)
Definition readDebyeParameters (d : DebyeFile) : option MParam :=
  if ltb (df_eps d) 1 then None else if ltb (df_sigma d) 0 then None else if ltb (df_mu d) 1 then None
  else if existsb (fun q => let '(_, _, a, _) := q in ltb 0 a) (df_poles d) then None
  else Some (mkMP MT_DEBYE (df_eps d) (df_sigma d) (df_mu d)
               (map (fun q => let '(r, s, a, b) := q in mkPole (mkC r s) (mkC a b)) (df_poles d))).

(** medium.c:74-184 parseMT with addMedium, on the scanned values: the name, the
    type string, the numbers that follow ([vals], at most 3 for SIMPLE and 9 for
    DEBYE), and the file named by a quoted third field ([None] when there is
    none).  [None] = card rejected or run ended. *)
Definition mtypeOf (s : string) : option MType :=
  if String.eqb s "FREE_SPACE" then Some MT_FREE_SPACE else if String.eqb s "PEC" then Some MT_PEC
  else if String.eqb s "SIMPLE" then Some MT_SIMPLE else if String.eqb s "DEBYE" then Some MT_DEBYE else None.
(** "numScanned >= 3 && eps_r < 1.0" etc. *)
Definition simpleOk (vals : list R) : bool :=
  negb (((1 <=? List.length vals)%nat && ltb (nthR vals 0 1) 1) ||
        ((2 <=? List.length vals)%nat && ltb (nthR vals 1 0) 0) ||
        ((3 <=? List.length vals)%nat && ltb (nthR vals 2 1) 1)).
Definition parseMT (reg : MReg) (name typeStr : string) (vals : list R) (file : option DebyeFile) : option MReg :=
  match mtypeOf typeStr with
  | None => None
  | Some MT_FREE_SPACE => declare reg name (mkMP MT_FREE_SPACE 1 0 1 [])
  | Some MT_PEC => declare reg name (mkMP MT_PEC 1 0 1 [])
  | Some MT_SIMPLE =>
      if simpleOk vals then declare reg name (mkMP MT_SIMPLE (nthR vals 0 1) (nthR vals 1 0) (nthR vals 2 1) []) else None
  | Some MT_DEBYE =>
      if negb (simpleOk vals) then None
      else if ((List.length vals =? 5) || (List.length vals =? 7) || (List.length vals =? 9))%nat
      then declare reg name (mkMP MT_DEBYE (nthR vals 0 1) (nthR vals 1 0) (nthR vals 2 1)
             (map (fun n => mkPole (cxR (nthR vals (3 + 2*n) 0)) (cxR (nthR vals (4 + 2*n) 0)))
                  (seq 0 ((List.length vals - 3) / 2))))
      else match file with
           | None => None
           | Some d => match readDebyeParameters d with Some p => declare reg name p | None => None end
           end
  end.
(** the MT cards of a mesh, in order; a rejected card ends the run *)
Record MTCard := mkMT { mt_name : string; mt_type : string; mt_vals : list R; mt_file : option DebyeFile }.
Fixpoint parseMTs (reg : MReg) (cards : list MTCard) : option MReg :=
  match cards with
  | [] => Some reg
  | k :: ks => match parseMT reg (mt_name k) (mt_type k) (mt_vals k) (mt_file k) with
               | Some reg' => parseMTs reg' ks | None => None end
  end.

Section Coefficients.
Variables eps0 mu0 : R.   (* physical.c:41-43 *)

(** medium.c:491-496: one pole *)
Definition dalpha (dt : R) (p : Pole) : Cx :=
  cdiv (cadd (cxR 1) (cmul (cxR (0.5 * dt)) (p_pole p))) (csub (cxR 1) (cmul (cxR (0.5 * dt)) (p_pole p))).
Definition dbeta (dt : R) (p : Pole) : Cx :=
  cdiv (cmul (cxR eps0) (p_residue p)) (csub (cxR 1) (cmul (cxR (0.5 * dt)) (p_pole p))).
Definition dsum (dt : R) (ps : list Pole) : R := fold_left (fun sum p => sum + re (dbeta dt p)) ps 0.
(** medium.c:482-504 calcCoeffFromParam *)
Definition calcCoeffFromParam (dt : R) (p : MParam) : Coef R :=
  let sum := dsum dt (m_poles p) in
  mkCoef ((2.0 * m_eps p * eps0 + 2.0 * sum * dt - dt * m_sigma p) / (2.0 * m_eps p * eps0 + 2.0 * sum * dt + dt * m_sigma p))
         ((2.0 * dt) / (2.0 * m_eps p * eps0 + 2.0 * sum * dt + dt * m_sigma p))
         (dt / (m_mu p * mu0)).
(** medium.c:381-441 initMedia: the array of coefficients, with media 0 and 1
    forced.  Numbers that are not registered are never used (the cards resolve
    names); they get the free-space values here. *)
Definition initMedia (dt : R) (reg : MReg) (number : nat) : Coef R :=
  match number with
  | 0%nat => mkCoef 1 (dt / eps0) (dt / mu0)
  | 1%nat => mkCoef (-1) 0 (dt / mu0)
  | _ => match nth_error reg number with
         | Some it => calcCoeffFromParam dt (idata it)
         | None => mkCoef 1 (dt / eps0) (dt / mu0)
         end
  end.
End Coefficients.
