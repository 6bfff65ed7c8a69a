(** Parameter files as text: the impedance files of SIBC boundaries
    (/repo/src/filter.c:142-188, sibc.c:126-195) and the Debye files of media
    (/repo/src/medium.c:314-377), read with fscanf (Scan.v). *)
From Coq Require Import ZArith List Bool Ascii String Reals.
From Verif Require Import Types CStr Sim Scan Setup Medium Filter Sibc Front Program.
Import ListNotations.
Open Scope Z_scope.

(** [Ended]: MSG_ERROR ends the run.  [Undef]: a variable that was never
    assigned is used, or an array of negative size is allocated. *)
Inductive Rd (A : Type) := Undef | Ended | Got (a : A).
Arguments Undef {A}. Arguments Ended {A}. Arguments Got {A} a.

(** filter.c:148-155: numPoles, asymp, pole_r, pole_i, residue_r, residue_i;
    [None] = not assigned yet *)
Record Vars := mkVars { vN : option Z; vA : option R; vPr : option R; vPi : option R; vRr : option R; vRi : option R }.
Definition vars0 : Vars := mkVars None None None None None None.
(** Where fscanf leaves the file when "%d" or "%lf" does not match: blanks, a
    sign and a lone decimal point are consumed. *)
Definition failInt (l : list Z) : list Z := snd (sign (skipBlanks l)).
Definition failReal (l : list Z) : list Z :=
  match failInt l with c :: l' => if c =? 46 then l' else c :: l' | [] => [] end.
(** fscanf( fp , "%d" , &x ) and fscanf( fp , "%lf" , &x ): the variable keeps its
    value when nothing matches *)
Definition fscanInt (x : option Z) (l : list Z) : option Z * list Z :=
  match scanInt l with Some (z, l') => (Some z, l') | None => (x, failInt l) end.
Definition fscanReal (x : option R) (l : list Z) : bool * option R * list Z :=
  match scanReal l with Some (z, l') => (true, Some z, l') | None => (false, x, failReal l) end.
(** filter.c:176: "%lf %lf %lf %lf"; the first failure ends the call *)
Definition fscan4 (v : Vars) (l : list Z) : Vars * list Z :=
  let '(ok1, a, l1) := fscanReal (vPr v) l in
  let v1 := mkVars (vN v) (vA v) a (vPi v) (vRr v) (vRi v) in
  if negb ok1 then (v1, l1) else
  let '(ok2, b, l2) := fscanReal (vPi v) l1 in
  let v2 := mkVars (vN v) (vA v) a b (vRr v) (vRi v) in
  if negb ok2 then (v2, l2) else
  let '(ok3, c, l3) := fscanReal (vRr v) l2 in
  let v3 := mkVars (vN v) (vA v) a b c (vRi v) in
  if negb ok3 then (v3, l3) else
  let '(_, d, l4) := fscanReal (vRi v) l3 in
  (mkVars (vN v) (vA v) a b c d, l4).
(** filter.c:174-179: the poles and residues of one filter *)
Fixpoint readPoles (n : nat) (v : Vars) (l : list Z) : Rd (list (Cx * Cx) * Vars * list Z) :=
  match n with
  | O => Got ([], v, l)
  | S n' =>
      let '(v1, l1) := fscan4 v l in
      match vPr v1, vPi v1, vRr v1, vRi v1 with
      | Some a, Some b, Some c, Some d =>
          match readPoles n' v1 l1 with
          | Got (ps, v2, l2) => Got ((mkC a b, mkC c d) :: ps, v2, l2)
          | Undef => Undef | Ended => Ended
          end
      | _, _, _, _ => Undef
      end
  end.
(** filter.c:170-172 (and 38-57 yfAllocPoleResidue): one filter *)
Definition readFilter (v : Vars) (l : list Z) : Rd (PoleResidue * Vars * list Z) :=
  let '(n, l1) := fscanInt (vN v) l in
  let '(_, a, l2) := fscanReal (vA v) l1 in
  let v1 := mkVars n a (vPr v) (vPi v) (vRr v) (vRi v) in
  match n, a with
  | Some n, Some a =>
      if n <? 0 then Undef else
      match readPoles (Z.to_nat n) v1 l2 with
      | Got (ps, v2, l3) => Got (mkPR a ps, v2, l3)
      | Undef => Undef | Ended => Ended
      end
  | _, _ => Undef
  end.
(** filter.c:166-168: the loops over rows and columns *)
Fixpoint readFilters (n : nat) (v : Vars) (l : list Z) : Rd (list PoleResidue) :=
  match n with
  | O => Got []
  | S n' =>
      match readFilter v l with
      | Got (pr, v1, l1) => match readFilters n' v1 l1 with Got prs => Got (pr :: prs) | Undef => Undef | Ended => Ended end
      | Undef => Undef | Ended => Ended
      end
  end.
(** filter.c:142-188 yfReadPoleResidueM: rows, columns and the filters row by
    row; [None] = the file cannot be opened *)
Definition readPoleResidueM (file : option (list Z)) : Rd (Z * Z * list PoleResidue) :=
  match file with
  | None => Ended
  | Some l =>
      match scanInt l with
      | None => Ended
      | Some (m, l1) =>
          match scanInt l1 with
          | None => Ended
          | Some (n, l2) =>
              if (m <? 0) || (n <? 0) then Undef else
              match readFilters (Z.to_nat (m * n)) vars0 l2 with Got prs => Got (m, n, prs) | Undef => Undef | Ended => Ended end
          end
      end
  end.
Definition num4 (p : I4) : nat := match p with p0 => 0 | p1 => 1 | p2 => 2 | p3 => 3 end.
Definition num2 (b : bool) : nat := if b then 1 else 0.
(** sibc.c:154-187: a boundary given by a file *)
Definition initSibcFile (file : option (list Z)) (dt : R) : Rd (I4 -> I4 -> RecConv) :=
  match readPoleResidueM file with
  | Got (m, n, prs) =>
      if (m =? 4) && (n =? 4) then Got (recConvM (fun i j => nth (4 * num4 i + num4 j) prs (constPR 0)) dt)
      else if (m =? 2) && (n =? 2) then Got (recConvM (isoMatrix (fun i j => nth (2 * num2 i + num2 j) prs (constPR 0))) dt)
      else Ended
  | Undef => Undef | Ended => Ended
  end.
Definition m2l (l : list R) : M2 := m2 (nth 0 l 0%R) (nth 1 l 0%R) (nth 2 l 0%R) (nth 3 l 0%R).
(** sibc.c:126-195 initSibcBoundary *)
Definition initSibc (files : string -> option (list Z)) (dt : R) (p : BPar) : Rd (I4 -> I4 -> RecConv) :=
  if String.eqb (b_file p) "" then
    match initSibcBoundary (m2l (b_tm p)) (m2l (b_te p)) dt with Some r => Got r | None => Ended end
  else initSibcFile (files (b_file p)) dt.
(** boundary.c:284-312 initBoundaries: every boundary of type SIBC, in the order
    of the table *)
Fixpoint initBoundaries (files : string -> option (list Z)) (dt : R) (reg : BReg) (par : list BPar) : Rd (nat -> I4 -> I4 -> RecConv) :=
  match reg, par with
  | it :: reg', p :: par' =>
      match (match btype (idata it) with BT_SIBC => initSibc files dt p | _ => Got (fun _ _ => mkRC 0 []) end) with
      | Got r => match initBoundaries files dt reg' par' with
                 | Got rs => Got (fun n => match n with O => r | S n' => rs n' end)
                 | Undef => Undef | Ended => Ended
                 end
      | Undef => Undef | Ended => Ended
      end
  | _, _ => Got (fun _ _ _ => mkRC 0 [])
  end.

(** ** Debye files *)
(** medium.c:359-371: the lines of the poles: residue, pole *)
Fixpoint debyePoles (n : nat) (l : list Z) : option (list Pole) :=
  match n with
  | O => Some []
  | S n' =>
      match scanReals 4 l with
      | Some ([a; b; c; d], l1) =>
          if ltb 0 c then None
          else match debyePoles n' l1 with Some ps => Some (mkPole (mkC a b) (mkC c d) :: ps) | None => None end
      | _ => None
      end
  end.
(** medium.c:314-377 readDebyeParameters, from the text of the file; [None] =
    MSG_ERROR *)
Definition readDebyeText (file : option (list Z)) : option MParam :=
  match file with
  | None => None
  | Some l =>
      match scanInt l with
      | None => None
      | Some (n, l1) =>
          match scanReals 3 l1 with
          | Some ([e; s; m], l2) =>
              if n <? 0 then None else if ltb e 1 then None else if ltb s 0 then None else if ltb m 1 then None
              else match debyePoles (Z.to_nat n) l2 with Some ps => Some (mkMP MT_DEBYE e s m ps) | None => None end
          | _ => None
          end
      end
  end.
(** the same file for the card reader of Front.v (medium.c:74-184) *)
Fixpoint debyeRows (n : nat) (l : list Z) : option (list (R * R * R * R)) :=
  match n with
  | O => Some []
  | S n' => match scanReals 4 l with
            | Some ([a; b; c; d], l1) => match debyeRows n' l1 with Some ps => Some ((a, b, c, d) :: ps) | None => None end
            | _ => None
            end
  end.
Definition debyeFileOf (file : option (list Z)) : option DebyeFile :=
  match file with
  | None => None
  | Some l =>
      match scanInt l with
      | None => None
      | Some (n, l1) =>
          match scanReals 3 l1 with
          | Some ([e; s; m], l2) => if n <? 0 then None else match debyeRows (Z.to_nat n) l2 with Some ps => Some (mkDF e s m ps) | None => None end
          | _ => None
          end
      end
  end.
