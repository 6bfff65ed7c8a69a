(** sscanf and fscanf as the card parsers use them (glibc, C locale): the
    conversions %d, %lu, %lf / %e, %31s, %1023[^quote] and literal characters.
    The formats themselves are cited where they are used (Front.v). *)
From Coq Require Import ZArith List Bool Ascii String Reals.
From Verif Require Import CStr Sim.
Import ListNotations.
Open Scope Z_scope.

Inductive Conv := CvInt | CvULong | CvReal | CvWord | CvSkip | CvLit (c : Z) | CvNotQuote.
Inductive Val := VI (z : Z) | VR (r : R) | VS (s : string).

Fixpoint span (p : Z -> bool) (l : list Z) : list Z * list Z :=
  match l with
  | c :: l' => if p c then let '(a, b) := span p l' in (c :: a, b) else ([], l)
  | [] => ([], [])
  end.
(** the same, at most [n] characters *)
Fixpoint spanN (n : nat) (p : Z -> bool) (l : list Z) : list Z * list Z :=
  match n, l with
  | S n', c :: l' => if p c then let '(a, b) := spanN n' p l' in (c :: a, b) else ([], l)
  | _, _ => ([], l)
  end.
Definition sign (l : list Z) : bool * list Z :=
  match l with
  | c :: l' => if c =? 45 then (true, l') else if c =? 43 then (false, l') else (false, l)
  | [] => (false, [])
  end.
Definition value (ds : list Z) : Z := fold_left (fun v c => 10 * v + (c - 48)) ds 0.

(** %d: strtol (saturating at 64 bits), stored in an int (32 bits, truncated).
    (The C standard leaves a number outside int undefined; this is glibc.) *)
Definition LONGMAX : Z := 2 ^ 63 - 1.
Definition saturate (v : Z) : Z := Z.max (- 2 ^ 63) (Z.min LONGMAX v).
Definition toInt (v : Z) : Z := (v + 2 ^ 31) mod 2 ^ 32 - 2 ^ 31.
Definition scanInt (l : list Z) : option (Z * list Z) :=
  let '(neg, l1) := sign (skipBlanks l) in
  let '(ds, l2) := span isdigit l1 in
  match ds with
  | [] => None
  | _ => Some (toInt (saturate (if neg then - value ds else value ds)), l2)
  end.
(** %lu: see Sim.v scanUnsigned; here with the rest of the text *)
Definition scanULong (l : list Z) : option (Z * list Z) :=
  let '(neg, l1) := sign (skipBlanks l) in
  let '(ds, l2) := span isdigit l1 in
  match ds with
  | [] => None
  | _ => Some (if ULONG - 1 <? value ds then ULONG - 1 else if neg then ulong (- value ds) else value ds, l2)
  end.
(** %lf and %e: digits with an optional point, then an optional exponent (an
    "e" without digits is consumed and ignored).  Not modelled: inf, nan,
    hexadecimal numbers (here "0x.." reads as 0), rounding to double or float. *)
Definition isE (c : Z) : bool := (c =? 101) || (c =? 69).
Definition scanExp (l : list Z) : Z * list Z :=
  match l with
  | c :: l' => if isE c then let '(neg, l1) := sign l' in let '(ds, l2) := span isdigit l1 in
                 ((if neg then - value ds else value ds), l2)
               else (0, l)
  | [] => (0, [])
  end.
Definition scanReal (l : list Z) : option (R * list Z) :=
  let '(neg, l1) := sign (skipBlanks l) in
  let '(ip, l2) := span isdigit l1 in
  let '(fp, l3) := match l2 with c :: l' => if c =? 46 then span isdigit l' else ([], l2) | [] => ([], []) end in
  match ip ++ fp with
  | [] => None
  | ds => let '(e, l4) := scanExp l3 in
          Some (((if neg then -1 else 1) * IZR (value ds) * powerRZ 10 (e - Z.of_nat (List.length fp)))%R, l4)
  end.
(** %31s *)
Definition toString (l : list Z) : string := string_of_list_ascii (map (fun c => ascii_of_nat (Z.to_nat c)) l).
Definition scanWord (l : list Z) : option (string * list Z) :=
  match spanN 31 (fun c => negb (isspace c)) (skipBlanks l) with
  | ([], _) => None
  | (w, l') => Some (toString w, l')
  end.
(** %1023[^quote] *)
Definition scanNotQuote (l : list Z) : option (string * list Z) :=
  match spanN 1023 (fun c => negb (c =? 34)) l with
  | ([], _) => None
  | (w, l') => Some (toString w, l')
  end.
Definition conv (c : Conv) (l : list Z) : option (list Val * list Z) :=
  match c with
  | CvInt => option_map (fun p => ([VI (fst p)], snd p)) (scanInt l)
  | CvULong => option_map (fun p => ([VI (fst p)], snd p)) (scanULong l)
  | CvReal => option_map (fun p => ([VR (fst p)], snd p)) (scanReal l)
  | CvWord => option_map (fun p => ([VS (fst p)], snd p)) (scanWord l)
  | CvSkip => Some ([], skipBlanks l)
  | CvLit x => match l with c :: l' => if c =? x then Some ([], l') else None | [] => None end
  | CvNotQuote => option_map (fun p => ([VS (fst p)], snd p)) (scanNotQuote l)
  end.
(** The values converted, in order, up to the first failure; numScanned is
    their number (sscanf returns -1 instead of 0 at the end of the text; the
    callers only compare it with positive numbers). *)
Fixpoint sscanf (f : list Conv) (l : list Z) : list Val :=
  match f with
  | [] => []
  | c :: f' => match conv c l with
               | None => []
               | Some (vs, l') => vs ++ sscanf f' l'
               end
  end.
(** mesh.c:490-507 meshReadRealArray: [n] numbers read from the file with
    fscanf "%lf"; returns the numbers and the number of characters consumed. *)
Fixpoint scanReals (n : nat) (l : list Z) : option (list R * list Z) :=
  match n with
  | O => Some ([], l)
  | S n' => match scanReal l with
            | None => None
            | Some (x, l1) => match scanReals n' l1 with None => None | Some (xs, l2) => Some (x :: xs, l2) end
            end
  end.
