(** Specification of "a card is read as written": how the fields of a card are
    spelt and laid out on the line (UserManual.tex, "Mesh file format"), stated
    without the scanner. *)
From Coq Require Import ZArith List Bool Ascii String Reals.
From Verif Require Import Scan.
Import ListNotations.
Open Scope Z_scope.

(** white space: space, tab, newline, vertical tab, form feed, carriage return *)
Definition wblank (c : Z) : Prop := c = 32 \/ 9 <= c <= 13.
Definition blanks (l : list Z) : Prop := Forall wblank l.
(** decimal numerals, most significant digit first *)
Inductive natlit : list Z -> Z -> Prop :=
| nl_one d : 0 <= d <= 9 -> natlit [48 + d] d
| nl_more ds v d : natlit ds v -> 0 <= d <= 9 -> natlit (ds ++ [48 + d]) (10 * v + d).
(** an optional sign *)
Inductive signed : list Z -> (* negative *) bool -> Prop :=
| sg_none : signed [] false
| sg_plus : signed [43] false
| sg_minus : signed [45] true.
Definition neg (n : bool) (v : Z) : Z := if n then - v else v.
(** integers *)
Inductive intlit : list Z -> Z -> Prop :=
| il s n ds v : signed s n -> natlit ds v -> intlit (s ++ ds) (neg n v).
(** the digits before or after a decimal point; may be missing on one side *)
Inductive digs : list Z -> Z -> Prop :=
| dg_none : digs [] 0
| dg_some ds v : natlit ds v -> digs ds v.
Inductive mantissa : list Z -> R -> Prop :=
| mn_int ds v : natlit ds v -> mantissa ds (IZR v)
| mn_frac ip i fp f : digs ip i -> digs fp f -> ip ++ fp <> [] ->
    mantissa (ip ++ 46 :: fp) (IZR i + IZR f * powerRZ 10 (- Z.of_nat (List.length fp)))%R.
Inductive exponent : list Z -> Z -> Prop :=
| ex_none : exponent [] 0
| ex_some e l v : e = 101 \/ e = 69 -> intlit l v -> exponent (e :: l) v.
(** real numbers: 3, -2.5, .5, 1., 1e9, 2.5E-3 *)
Inductive reallit : list Z -> R -> Prop :=
| rl s n m x e k : signed s n -> mantissa m x -> exponent e k ->
    reallit (s ++ m ++ e) ((if n then -1 else 1) * x * powerRZ 10 k)%R.
(** names: 1 to 31 characters, none of them blank *)
Definition namelit (l : list Z) : Prop := l <> [] /\ (List.length l <= 31)%nat /\ Forall (fun c => ~ wblank c) l.
(** the text as a string *)
Definition text (l : list Z) : string := string_of_list_ascii (map (fun c => ascii_of_nat (Z.to_nat c)) l).

(** The kinds of field and the value each spelling stands for. *)
Inductive field := FInt | FCount | FReal | FName | FFile.
Inductive stands : field -> list Z -> Val -> Prop :=
| st_int l z : intlit l z -> - 2 ^ 31 <= z < 2 ^ 31 -> stands FInt l (VI z)
| st_count l z : natlit l z -> z < 2 ^ 64 -> stands FCount l (VI z)
| st_real l x : reallit l x -> stands FReal l (VR x)
| st_name l : namelit l -> stands FName l (VS (text l))
| st_file l : l <> [] -> (List.length l <= 1023)%nat -> ~ In 34 l -> stands FFile (34 :: l ++ [34]) (VS (text l)).

(** The line ends here or goes on with a blank. *)
Definition at_break (l : list Z) : Prop := l = [] \/ exists c l', l = c :: l' /\ wblank c.
(** A line with the given fields: each may be preceded by any blanks, is
    followed by a blank or the end of the line; after the last field anything may
    follow; the line may end early (the missing fields give no values), or have
    something that cannot begin a number where a number is expected. *)
Inductive written : list field -> list Z -> list Val -> Prop :=
| wr_all tail : written [] tail []
| wr_field k ks bl l v tail vs : blanks bl -> stands k l v -> at_break tail -> written ks tail vs ->
    written (k :: ks) (bl ++ l ++ tail) (v :: vs)
| wr_short k ks bl : blanks bl -> written (k :: ks) bl []
| wr_other k ks bl c tail : blanks bl -> k = FInt \/ k = FCount \/ k = FReal ->
    ~ wblank c -> ~ (48 <= c <= 57) -> c <> 43 -> c <> 45 -> c <> 46 ->
    written (k :: ks) (bl ++ c :: tail) []
| wr_noquote ks bl c tail : blanks bl -> ~ wblank c -> c <> 34 -> written (FFile :: ks) (bl ++ c :: tail) [].
(** the conversions that read them *)
Definition format (k : field) : list Conv :=
  match k with
  | FInt => [CvInt] | FCount => [CvULong] | FReal => [CvReal] | FName => [CvWord]
  | FFile => [CvSkip; CvLit 34; CvNotQuote; CvLit 34]
  end.
