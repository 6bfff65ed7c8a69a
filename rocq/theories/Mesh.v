(** The mesh file reader.  Models /repo/src/mesh.c:48-191 (card tables),
    268-405 (readMesh) and 470-488 (getCardType).

    The card handlers (parseDM, parseMT, ...) are modelled in their own files;
    here a handler is an arbitrary function [hdl] that may reject the card
    ([None]) or accept it, change the solver state [H] and consume some
    characters of the file that follow the card's line (parseXL/YL/ZL do, through
    meshReadRealArray, mesh.c:490-507). *)
From Coq Require Import ZArith List Bool String Ascii.
From Verif Require Import CArr CStr SpecText.
Import ListNotations.
Open Scope Z_scope.

(** mesh.c:58-70 CardType, in enum order *)
Inductive Card :=
| VM | CE | DM | BR | BE | GS
| MT | BT | WT | MB | TB | TW | WF | EX | PW | OP | FF | GE
| NT | OT | OF | CN | MS | XL | YL | ZL | EN.
Definition cards : list Card :=
  [VM; CE; DM; BR; BE; GS; MT; BT; WT; MB; TB; TW; WF; EX; PW; OP; FF; GE; NT; OT; OF; CN; MS; XL; YL; ZL; EN].
Definition card_dec (a b : Card) : {a = b} + {a <> b}. Proof. decide equality. Defined.
Definition ceqb (a b : Card) : bool := if card_dec a b then true else false.
Fixpoint pos (c : Card) (l : list Card) : nat :=
  match l with [] => O | x :: l' => if card_dec x c then O else S (pos c l') end.
(** the C enum value *)
Definition card_num (c : Card) : nat := pos c cards.

(** mesh.c:76-86 CT_STRING *)
Definition CT_STRING (c : Card) : string :=
  match c with
  | VM => "VM" | CE => "CE" | DM => "DM" | BR => "BR" | BE => "BE" | GS => "GS"
  | MT => "MT" | BT => "BT" | WT => "WT" | MB => "MB" | TB => "TB" | TW => "TW" | WF => "WF"
  | EX => "EX" | PW => "PW" | OP => "OP" | FF => "FF" | GE => "GE"
  | NT => "NT" | OT => "OT" | OF => "OF" | CN => "CN" | MS => "MS" | XL => "XL" | YL => "YL" | ZL => "ZL" | EN => "EN"
  end.
Definition chars (s : string) : list Z := map (fun c => Z.of_nat (nat_of_ascii c)) (list_ascii_of_string s).

(** mesh.c:89-94 sectionLimits *)
Definition sectionLimits : list (Card * Card) := [(VM, VM); (CE, GS); (MT, GE); (NT, EN)].
(** mesh.c:98-123 isValidInSection[NUM_SECTIONS][NUM_CARDS] *)
Definition isValidInSection : list (list bool) := let t := true in let f := false in
  [ [ t ; f;f;f;f;f ; f;f;f;f;f;f;f;f;f;f;f;f ; f;f;f;f;f;f;f;f;f ];
    [ f ; t;t;t;t;t ; f;f;f;f;f;f;f;f;f;f;f;f ; f;f;f;f;f;f;f;f;f ];
    [ f ; f;f;f;f;f ; t;t;t;t;t;t;t;t;t;t;t;t ; f;f;f;f;f;f;f;f;f ];
    [ f ; f;f;f;f;f ; f;f;f;f;f;f;f;f;f;f;f;f ; t;t;t;t;t;t;t;t;t ] ].
(** mesh.c:126-135 isRequired *)
Definition isRequired_tab : list bool := let t := true in let f := false in
  [ t ; f;t;f;f;t ; f;f;f;f;f;f;f;f;f;f;f;t ; t;f;f;f;f;f;f;f;t ].
(** mesh.c:138-147 isSingleton *)
Definition isSingleton_tab : list bool := let t := true in let f := false in
  [ t ; f;t;t;t;t ; f;f;f;f;f;f;f;f;f;f;f;t ; t;t;t;t;t;t;t;t;t ].
(** mesh.c:151-160 isEndOfSection *)
Definition isEndOfSection_tab : list bool := let t := true in let f := false in
  [ t ; f;f;f;f;t ; f;f;f;f;f;f;f;f;f;f;f;t ; f;f;f;f;f;f;f;f;t ].
Definition tab (l : list bool) (c : Card) : bool := nth (card_num c) l false.
Definition isRequired := tab isRequired_tab.
Definition isSingleton := tab isSingleton_tab.
Definition isEndOfSection := tab isEndOfSection_tab.
(** mesh.c:176-187 cardFunc: the entries that are NULL *)
Definition hasFunc (c : Card) : bool := match c with GS | GE | EN => false | _ => true end.

(** mesh.c:164-173 isFound[] and the locals of readMesh *)
Record MState := mkM { sectionNumber : nat; isFound : Card -> bool; foundSource : bool; foundOutput : bool }.
Definition initM : MState := mkM 0 (fun _ => false) false false.
Definition mark (fnd : Card -> bool) (cs : list Card) : Card -> bool :=
  fun c => if existsb (ceqb c) cs then true else fnd c.

(** Result of reading: accepted, stopped with an error message (message(
    MSG_ERROR , ...) exits, message.c:106-107), or undefined behaviour. *)
Inductive outc (A : Type) := Acc (a : A) | Rej | UB.
Arguments Acc {A}. Arguments Rej {A}. Arguments UB {A}.

(** mesh.c:326-336: section and repetition checks. *)
Definition checkCard (st : MState) (c : Card) : outc unit :=
  match nth_error isValidInSection (sectionNumber st) with
  | None => UB                                    (* read past isValidInSection[3] *)
  | Some row =>
      if negb (nth (card_num c) row false) then Rej
      else if isFound st c && isSingleton c then Rej else Acc tt
  end.

(** mesh.c:346-379: card specific semantics *)
Definition special (st : MState) (c : Card) : outc MState :=
  let found cs := Acc (mkM (sectionNumber st) (mark (isFound st) cs) (foundSource st) (foundOutput st)) in
  match c with
  | EX | PW => Acc (mkM (sectionNumber st) (isFound st) true (foundOutput st))
  | OP | FF => Acc (mkM (sectionNumber st) (isFound st) (foundSource st) true)
  | GE => if negb (foundSource st) then Rej else Acc st
  | MS => found [MS; XL; YL; ZL]
  | XL => found [MS; XL]
  | YL => found [MS; YL]
  | ZL => found [MS; ZL]
  | EN => if negb (isFound st MS) || negb (isFound st XL && isFound st YL && isFound st ZL) then Rej else Acc st
  | _ => Acc st
  end.

(** mesh.c:382-393: end of section *)
Definition cardsBetween (a b : Card) : list Card :=
  filter (fun c => Nat.leb (card_num a) (card_num c) && Nat.leb (card_num c) (card_num b)) cards.
Definition endSection (st : MState) (c : Card) : outc MState :=
  if isEndOfSection c then
    match nth_error sectionLimits (sectionNumber st) with
    | None => UB
    | Some (a, b) =>
        if existsb (fun c => isRequired c && negb (isFound st c)) (cardsBetween a b) then Rej
        else Acc (mkM (S (sectionNumber st)) (isFound st) (foundSource st) (foundOutput st))
    end
  else Acc st.

Definition obnd {A B} (x : outc A) (g : A -> outc B) : outc B :=
  match x with Acc a => g a | Rej => Rej | UB => UB end.

(** mesh.c:470-488 getCardType: [None] = CT_ERROR *)
Fixpoint prefixb (p l : list Z) : bool :=
  match p, l with
  | [], _ => true
  | x :: p', y :: l' => (x =? y) && prefixb p' l'
  | _, _ => false
  end.
Definition getCardType (line : list Z) : option Card :=
  if (Z.of_nat (List.length line) <? 2) then None
  else find (fun c => prefixb (chars (CT_STRING c)) line) cards.

(** stdio.h fgets( buf , 1023 , fp ): at most 1022 characters, up to and
    including a newline.  Returns the text read and the rest of the file. *)
Definition BUFFER_LENGTH : nat := 1024.
Fixpoint fgets (n : nat) (file : list Z) : list Z * list Z :=
  match n, file with
  | O, _ => ([], file)
  | _, [] => ([], [])
  | S n', c :: file' =>
      if c =? 10 then ([c], file')
      else let '(l, r) := fgets n' file' in (c :: l, r)
  end.
(** strncpy( line , rawLine , BUFFER_LENGTH ): the C string, padded with NUL *)
Definition lineBuffer (raw : list Z) : buf := cstr raw ++ repeat 0 (BUFFER_LENGTH - List.length (cstr raw)).

Section Reader.
Context {H : Type} (hdl : H -> Card -> list Z -> list Z -> option (H * nat)).

(** mesh.c:326-393, one card with its argument text (line + 2) *)
Definition stepCard (st : MState) (h : H) (c : Card) (arg rest : list Z) : outc (MState * H * nat) :=
  obnd (checkCard st c) (fun _ =>
  let st := mkM (sectionNumber st) (mark (isFound st) [c]) (foundSource st) (foundOutput st) in
  obnd (if hasFunc c then match hdl h c arg rest with Some r => Acc r | None => Rej end else Acc (h, O)) (fun r =>
  obnd (special st c) (fun st =>
  obnd (endSection st c) (fun st => Acc (st, fst r, snd r))))).

(** mesh.c:297-395 the reading loop; [tr] collects the cards processed (for
    the statements only).  The loop ends at end of file; fuel: every iteration
    consumes at least one character. *)
Fixpoint readLoop (n : nat) (file : list Z) (st : MState) (h : H) (tr : list Card) : outc (MState * H * list Card) :=
  match n, file with
  | _, [] => Acc (st, h, tr)
  | O, _ => UB
  | S n', _ =>
      let '(raw, rest) := fgets (BUFFER_LENGTH - 2) file in
      match obind (removeComments (lineBuffer raw)) strtrim with
      | None => UB
      | Some b =>
          let line := cstr b in
          if (Z.of_nat (List.length line) =? 0) then readLoop n' rest st h tr
          else match getCardType line with
               | None => Rej
               | Some c =>
                   obnd (stepCard st h c (skipn 2 line) rest) (fun r =>
                   let '(st', h', used) := r in readLoop n' (skipn used rest) st' h' (tr ++ [c]))
               end
      end
  end.
(** mesh.c:269-405 readMesh (the file is its list of characters) *)
Definition readMesh (file : list Z) (h : H) : outc (MState * H * list Card) :=
  readLoop (List.length file) file initM h [].
End Reader.
