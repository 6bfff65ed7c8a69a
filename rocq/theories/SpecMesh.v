(** Specification of the structure of a mesh file: the four sections. *)
From Coq Require Import ZArith List.
From Verif Require Import CStr SpecText Mesh.
Import ListNotations.
Local Open Scope nat_scope.

Definition count (c : Card) (cs : list Card) : nat := count_occ card_dec cs c.

(** Section 1: any number of comments, exactly one DM, at most one BR and BE. *)
Definition section1 (cs : list Card) : Prop :=
  Forall (fun c => In c [CE; DM; BR; BE]) cs /\
  count DM cs = 1 /\ count BR cs <= 1 /\ count BE cs <= 1.
(** Section 2: any cards, at least one source (EX or PW). *)
Definition section2 (cs : list Card) : Prop :=
  Forall (fun c => In c [MT; BT; WT; MB; TB; TW; WF; EX; PW; OP; FF]) cs /\
  (In EX cs \/ In PW cs).
(** Section 3: exactly one NT, at most one OT, OF, CN, and one mesh definition:
    either MS or all of XL, YL, ZL. *)
Definition section3 (cs : list Card) : Prop :=
  Forall (fun c => In c [NT; OT; OF; CN; MS; XL; YL; ZL]) cs /\
  count NT cs = 1 /\ count OT cs <= 1 /\ count OF cs <= 1 /\ count CN cs <= 1 /\
  ((count MS cs = 1 /\ count XL cs = 0 /\ count YL cs = 0 /\ count ZL cs = 0) \/
   (count MS cs = 0 /\ count XL cs = 1 /\ count YL cs = 1 /\ count ZL cs = 1)).
(** A complete mesh file: VM, section 1, GS, section 2, GE, section 3, EN. *)
Definition complete_mesh (cs : list Card) : Prop :=
  exists s1 s2 s3, cs = VM :: s1 ++ GS :: s2 ++ GE :: s3 ++ [EN] /\
    section1 s1 /\ section2 s2 /\ section3 s3.

(** ** Files as lists of lines *)
(** A line as an editor shows it (without its newline), short enough for the
    reader's line buffer. *)
Definition plain (l : list Z) : Prop := Forall (fun c => c <> 0%Z /\ c <> 10%Z) l /\ length l <= 1021.
Definition file_of (lines : list (list Z)) : list Z := concat (map (fun l => l ++ [10%Z]) lines).
(** What a line means: nothing (a comment), or its text without comment and
    surrounding white space. *)
Inductive meaning (l : list Z) : option (list Z) -> Prop :=
| a_comment t : l = HASH :: t -> meaning l None
| a_text t : trimmed (before_hash l) t -> t <> [] -> meaning l (Some t).
(** The texts of a file, comments dropped. *)
Inductive contents : list (list Z) -> list (list Z) -> Prop :=
| cont_nil : contents [] []
| cont_skip l ls ts : meaning l None -> contents ls ts -> contents (l :: ls) ts
| cont_text l t ls ts : meaning l (Some t) -> contents ls ts -> contents (l :: ls) (t :: ts).
(** A text is a [c] card when it starts with the two letters of [c]. *)
Definition is_card (c : Card) (t : list Z) : Prop := exists arg, t = chars (CT_STRING c) ++ arg.
