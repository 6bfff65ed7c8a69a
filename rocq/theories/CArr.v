(** Bounds-checked one-dimensional C arrays and counted loops.

    A read or write outside the array yields [None] (undefined behaviour), so
    a theorem that a model function returns [Some _] is a memory-safety
    theorem. *)
From Coq Require Import ZArith List Bool Lia.
From Verif Require Import Lang.
Import ListNotations.
Open Scope Z_scope.

(** alloc_array.c:53-150 with ndim = 1: [alen] elements; [adat i] is the value
    of element i, meaningful for 0 <= i < alen. *)
Record carr (A : Type) := mkArr { alen : Z; adat : Z -> A }.
Arguments mkArr {A}. Arguments alen {A}. Arguments adat {A}.

Definition ok {A} (a : carr A) (i : Z) : bool := (0 <=? i) && (i <? alen a).
Definition rd {A} (a : carr A) (i : Z) : option A := if ok a i then Some (adat a i) else None.
Definition wr {A} (a : carr A) (i : Z) (v : A) : option (carr A) :=
  if ok a i then Some (mkArr (alen a) (fun j => if j =? i then v else adat a j)) else None.

Definition obind {A B} (x : option A) (f : A -> option B) : option B :=
  match x with Some a => f a | None => None end.
Notation "'do' x <- e ; f" := (obind e (fun x => f)) (at level 200, x pattern, e at level 100, f at level 200).

(** [for( i = lo ; i <= hi ; i++ ) s = f( s , i )] *)
Fixpoint ofold {S} (f : S -> Z -> option S) (l : list Z) (s : S) : option S :=
  match l with [] => Some s | i :: l' => do s' <- f s i; ofold f l' s' end.
Definition cfor {S} (lo hi : Z) (f : S -> Z -> option S) (s : S) : option S :=
  ofold f (zrange lo hi) s.

(** ** Proof rules *)
Lemma rd_ok {A} (a : carr A) i : 0 <= i < alen a -> rd a i = Some (adat a i).
Proof. intros H. unfold rd, ok. destruct (Z.leb_spec 0 i), (Z.ltb_spec i (alen a)); simpl; auto; lia. Qed.
Lemma wr_ok {A} (a : carr A) i v : 0 <= i < alen a ->
  wr a i v = Some (mkArr (alen a) (fun j => if j =? i then v else adat a j)).
Proof. intros H. unfold wr, ok. destruct (Z.leb_spec 0 i), (Z.ltb_spec i (alen a)); simpl; auto; lia. Qed.

Lemma zrange_nil lo hi : hi < lo -> zrange lo hi = [].
Proof. intros. unfold zrange. replace (Z.to_nat (hi - lo + 1)) with O by lia. reflexivity. Qed.
Lemma zrange_cons lo hi : lo <= hi -> zrange lo hi = lo :: zrange (lo + 1) hi.
Proof.
  intros. unfold zrange. replace (Z.to_nat (hi - lo + 1)) with (S (Z.to_nat (hi - (lo+1) + 1))) by lia.
  cbn [seq map]. f_equal; [lia|]. rewrite <- seq_shift, map_map. apply map_ext. intros. lia.
Qed.

(** Invariant rule: [I i] holds before iteration [i]. *)
Lemma cfor_inv {S} (I : Z -> S -> Prop) lo hi f s :
  lo <= hi + 1 -> I lo s ->
  (forall i t, lo <= i <= hi -> I i t -> exists t', f t i = Some t' /\ I (i + 1) t') ->
  exists s', cfor lo hi f s = Some s' /\ I (hi + 1) s'.
Proof.
  intros L I0 ST. unfold cfor. remember (Z.to_nat (hi + 1 - lo)) as n eqn:En.
  revert lo s L I0 ST En. induction n; intros.
  - rewrite zrange_nil by lia. exists s. split; [reflexivity|]. replace (hi + 1) with lo by lia. exact I0.
  - rewrite zrange_cons by lia. cbn [ofold].
    destruct (ST lo s) as (t & Ft & It); [lia|exact I0|]. rewrite Ft. cbn [obind].
    apply IHn; [lia|exact It| |lia]. intros. apply ST; [lia|assumption].
Qed.
(** Same, inverted: from a successful loop, an invariant preserved by every
    successful iteration holds at the end. *)
Lemma cfor_ind {S} (I : Z -> S -> Prop) lo hi f s s' :
  lo <= hi + 1 -> I lo s ->
  (forall i t t', lo <= i <= hi -> I i t -> f t i = Some t' -> I (i + 1) t') ->
  cfor lo hi f s = Some s' -> I (hi + 1) s'.
Proof.
  intros L I0 ST. unfold cfor. remember (Z.to_nat (hi + 1 - lo)) as n eqn:En.
  revert lo s L I0 ST En. induction n; intros lo s L I0 ST En.
  - rewrite zrange_nil by lia. cbn. intros [= <-]. replace (hi + 1) with lo by lia. exact I0.
  - rewrite zrange_cons by lia. cbn [ofold]. destruct (f s lo) as [t|] eqn:Ft; [|discriminate]. cbn [obind].
    apply IHn; [lia| |intros; eapply ST; eauto; lia|lia]. eapply ST; eauto. lia.
Qed.

(** A loop that writes [a[i] = g i] for lo <= i <= hi. *)
Lemma cfor_fill {A} (g : Z -> A) lo hi (f : carr A -> Z -> option (carr A)) (a : carr A) :
  0 <= lo -> hi < alen a -> lo <= hi + 1 ->
  (forall i t, lo <= i <= hi -> alen t = alen a -> (forall j, ~ (lo <= j <= hi) -> adat t j = adat a j) ->
     (forall j, lo <= j < i -> adat t j = g j) ->  f t i = wr t i (g i)) ->
  exists a', cfor lo hi f a = Some a' /\ alen a' = alen a /\
    (forall j, lo <= j <= hi -> adat a' j = g j) /\
    (forall j, ~ (lo <= j <= hi) -> adat a' j = adat a j).
Proof.
  intros L H LH Hf.
  destruct (cfor_inv (fun i t => alen t = alen a /\ (forall j, lo <= j < i -> adat t j = g j) /\
     (forall j, ~ (lo <= j < i) -> adat t j = adat a j)) lo hi f a) as (a' & E & L' & G & O); auto.
  - repeat split; intros; lia.
  - intros i t Hi (Lt & Gt & Ot). rewrite Hf; auto; [|intros; apply Ot; lia].
    rewrite wr_ok by lia. eexists; split; [reflexivity|]. cbn [alen adat]. split; [auto|].
    split; intros j Hj; destruct (Z.eqb_spec j i); subst; auto; try (apply Gt; lia); try (apply Ot; lia); lia.
  - exists a'. repeat split; auto; intros; [apply G|apply O]; lia.
Qed.
