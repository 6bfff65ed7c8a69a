(** Race freedom of the parallel loops of a time step. *)
From Coq Require Import ZArith List Bool Lia.
From Verif Require Import Types Lang LangProofs BBox Grid Pml Mur Ghost Step SpecGrid StepShape.
Import ListNotations.
Open Scope Z_scope.
Local Arguments Z.mul : simpl never.
Local Arguments Z.add : simpl never.
Local Arguments Z.sub : simpl never.

Section Race.
Context {V : Type}.

(** A parallel loop is race free when every cell has at most one owning
    iteration, iterations write only cells they own and read only cells they
    own or cells nobody owns. *)
Lemma par_for_race_free lo hi (body : Z -> list (stmt V)) (own : Loc -> option Z) :
  (forall x s, In s (body x) -> own (dst s) = Some x /\
     forall l, In l (sreads s) -> own l = Some x \/ own l = None) ->
  race_free (par_for lo hi body).
Proof.
  intros H. unfold par_for. cbn [race_free]. intros pre t mid u post E.
  apply map_eq_app in E. destruct E as (zp & zr & EZ & Hp & E).
  apply map_eq_cons in E. destruct E as (x & zr2 & -> & Hx & E).
  apply map_eq_app in E. destruct E as (zm & zr3 & -> & Hm & E).
  apply map_eq_cons in E. destruct E as (y & zq & -> & Hy & E).
  pose proof (NoDup_zrange lo hi) as ND. rewrite EZ in ND.
  apply NoDup_remove_2 in ND.
  assert (NE : x <> y). { intros ->. apply ND. apply in_or_app. right. apply in_or_app. right. simpl; auto. }
  assert (W : forall x l, In l (twrites (body x)) -> own l = Some x).
  { intros x0 l Hl. unfold twrites in Hl. apply in_map_iff in Hl. destruct Hl as (s & <- & Hs).
    apply (H x0 s); auto. }
  assert (R : forall x l, In l (treads (body x)) -> own l = Some x \/ own l = None).
  { intros x0 l Hl. unfold treads in Hl. apply in_flat_map in Hl. destruct Hl as (s & Hs & Hl).
    destruct (H x0 s Hs); auto. }
  subst t u. split; intros l Hl; apply W in Hl; split; intros Hc;
    [apply W in Hc|apply R in Hc|apply W in Hc|apply R in Hc];
    try (destruct Hc as [Hc|Hc]); congruence.
Qed.

Lemma nest3_race_free lim (body : Z -> Z -> Z -> list (stmt V)) (own : Loc -> option Z) :
  (forall i j k s, In s (body i j k) -> own (dst s) = Some i /\
     forall l, In l (sreads s) -> own l = Some i \/ own l = None) ->
  race_free (nest3 lim body).
Proof.
  intros H. apply (par_for_race_free _ _ _ own). intros x s Hs.
  apply in_for in Hs. destruct Hs as [j [_ Hs]]. apply in_for in Hs. destruct Hs as [k [_ Hs]]. eauto.
Qed.

(** ownership for the loops over component [f]: own field and temporaries by
    coordinate [by], auxiliary PML arrays of [r] by their absolute first index *)
Definition own_by (f : Fld) (off : Z) (co : Loc -> Z) (l : Loc) : option Z :=
  match arr l with
  | AF g => if fld_eqb g f then Some (co l) else None
  | APP _ _ | AP _ _ | AB _ _ => Some (li l + off)
  | ATmp _ => Some (co l)
  | _ => None
  end.

Ltac split_in H := cbn [In] in H;
  repeat match type of H with _ \/ _ => destruct H as [H|H] end; try contradiction.
Ltac all_reads := let l := fresh "l" in let Hl := fresh "Hl" in
  intros l Hl; unfold sreads in Hl; cbn [rhs reads app] in Hl; 
  unfold cHx, cHy, cHz, cEx, cEy, cEz, curl_Hx, curl_Hy, curl_Hz, curl_Ex, curl_Ey, curl_Ez,
    ALPHA, BETA, GAMMA, F, PC, idex, idey, idez, idhx, idhy, idhz, zeta in Hl; cbn [reads app] in Hl;
  split_in Hl; subst l; cbn [arr li lj lk own_by fld_eqb];
  first [right; reflexivity | left; f_equal; lia].

Lemma updF_race_free lim f : race_free (nest3 (V:=V) lim (updF f)).
Proof.
  apply nest3_race_free with (own := own_by f 0 li). intros i j k s Hs.
  destruct f; destruct Hs as [<-|[]]; (split; [reflexivity|all_reads]).
Qed.
Lemma pmlF_race_free r f l lim : race_free (nest3 (V:=V) lim (pmlF r f l)).
Proof.
  apply nest3_race_free with (own := own_by f (l XLO) li). intros i j k s Hs.
  destruct f; cbn [pmlF] in Hs; unfold pmlEx, pmlEy, pmlEz, pmlHx, pmlHy, pmlHz, pmlEbody, pmlHbody in Hs;
    split_in Hs; subst s; cbn [dst own_by arr li lj lk fld_eqb];
    (split; [try reflexivity; f_equal; lia|all_reads]).
Qed.

Lemma mur_race_free c face : Forall race_free (updateMurEface (V:=V) c face).
Proof.
  unfold updateMurEface. destruct (btype_eqb _ _); [|constructor].
  assert (G : forall (f : Fld) (co : Loc -> Z) i1 j1 k1 i j k x s, is_E f = true ->
     co (L (AF f) i j k) = x -> co (L (AF f) i1 j1 k1) = x -> co (L (ATmp 3) i j k) = x ->
     In s (murBody (V:=V) face f (cH f i1 j1 k1) i1 j1 k1 i j k) ->
     own_by f 0 co (dst s) = Some x /\
     forall l, In l (sreads s) -> own_by f 0 co l = Some x \/ own_by f 0 co l = None).
  { intros f co i1 j1 k1 i j k x s E H1 H2 H3 Hs.
    destruct f; try discriminate E; destruct Hs as [<-|[<-|[]]]; unfold own_by;
      (split; [cbn; congruence|];
       intros l Hl; unfold sreads, cH, cHx, cHy, cHz, curl_Hx, curl_Hy, curl_Hz,
         ALPHA, BETA, F, idhx, idhy, idhz, zeta in Hl; cbn [rhs reads app] in Hl;
       split_in Hl; subst l; cbn; first [right; reflexivity | left; congruence]). }
  destruct face; unfold murEX_, murEY_, murEZ_;
   (apply Forall_cons; [|apply Forall_cons; [|apply Forall_nil]]); cbn zeta;
   (match goal with |- race_free (par_for _ _ ?b) =>
      match b with context [murBody _ ?f _] =>
       first [ apply par_for_race_free with (own := own_by f 0 li);
               intros x s Hs; apply in_for in Hs; destruct Hs as [y [_ Hs]];
               eapply G in Hs; [exact Hs|reflexivity|reflexivity|reflexivity|reflexivity]
             | apply par_for_race_free with (own := own_by f 0 lj);
               intros x s Hs; apply in_for in Hs; destruct Hs as [y [_ Hs]];
               eapply G in Hs; [exact Hs|reflexivity|reflexivity|reflexivity|reflexivity] ]
      end end).
Qed.

Lemma Forall_flat_map {X Y} (P : Y -> Prop) (g : X -> list Y) l :
  (forall x, In x l -> Forall P (g x)) -> Forall P (flat_map g l).
Proof.
  intros H. induction l; cbn [flat_map]; [constructor|]. apply Forall_app. split.
  - apply H; simpl; auto.
  - apply IHl. intros; apply H; simpl; auto.
Qed.

Lemma phaseE_race_free c : Forall race_free (phaseE (V:=V) c).
Proof.
  unfold phaseE. rewrite !Forall_app. split; [|split].
  - apply Forall_flat_map. intros r _. destruct (btype_eqb _ _); [|constructor].
    apply Forall_cons; [|apply Forall_cons; [|apply Forall_cons; [|apply Forall_nil]]];
    [apply (pmlF_race_free r EX)|apply (pmlF_race_free r EY)|apply (pmlF_race_free r EZ)].
  - apply Forall_flat_map. intros r _. apply mur_race_free.
  - apply Forall_cons; [|apply Forall_cons; [|apply Forall_cons; [|apply Forall_nil]]];
    [apply (updF_race_free _ EX)|apply (updF_race_free _ EY)|apply (updF_race_free _ EZ)].
Qed.
Lemma phaseH_race_free c : Forall race_free (phaseH (V:=V) c).
Proof.
  unfold phaseH. rewrite !Forall_app. split; [|split].
  - apply Forall_flat_map. intros r _. destruct (btype_eqb _ _); [|constructor].
    apply Forall_cons; [|apply Forall_cons; [|apply Forall_cons; [|apply Forall_nil]]];
    [apply (pmlF_race_free r HX)|apply (pmlF_race_free r HY)|apply (pmlF_race_free r HZ)].
  - apply Forall_flat_map. intros r _. unfold updateMurHface. destruct (btype_eqb _ _); [|constructor].
    destruct r; repeat constructor.
  - apply Forall_cons; [|apply Forall_cons; [|apply Forall_cons; [|apply Forall_nil]]];
    [apply (updF_race_free _ HX)|apply (updF_race_free _ HY)|apply (updF_race_free _ HZ)].
Qed.
Lemma timeStep_race_free c xE xH : Forall race_free xE -> Forall race_free xH ->
  Forall race_free (timeStep (V:=V) c xE xH).
Proof.
  intros HE HH. unfold timeStep. rewrite !Forall_app.
  repeat split; auto using phaseE_race_free, phaseH_race_free; repeat constructor.
Qed.
Lemma steps_race_free c xE xH n : (forall t, Forall race_free (xE t)) -> (forall t, Forall race_free (xH t)) ->
  forall t, Forall race_free (steps (V:=V) c xE xH t n).
Proof.
  intros HE HH. induction n; intros t; cbn [steps]; [constructor|].
  rewrite Forall_app. split; [apply timeStep_race_free; auto|auto].
Qed.
End Race.
