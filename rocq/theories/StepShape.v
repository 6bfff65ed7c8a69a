(** Shape of the statements of one time step: every statement executed by the
    E phase, H phase and ghost updates is one of a few forms, at indices inside
    the limits of its loop. *)
From Coq Require Import ZArith List Bool Lia.
From Verif Require Import Types Lang LangProofs BBox Grid Pml Mur Ghost Step SpecGrid.
Import ListNotations.
Open Scope Z_scope.
Local Arguments Z.mul : simpl never.
Local Arguments Z.add : simpl never.
Local Arguments Z.sub : simpl never.

Definition inl (l : BBox) (i j k : Z) : Prop :=
  l XLO <= i <= l XHI /\ l YLO <= j <= l YHI /\ l ZLO <= k <= l ZHI.

Section Shape.
Context {V : Type}.
Implicit Type s : stmt V.

Lemma flat_app (p q : list (item V)) : flat (p ++ q) = flat p ++ flat q.
Proof. unfold flat. apply flat_map_app. Qed.

Lemma in_flat (p : list (item V)) s : In s (flat p) <-> exists it, In it p /\ In s (flat_item it).
Proof. unfold flat. apply in_flat_map. Qed.

Lemma in_par_for lo hi (body : Z -> list (stmt V)) s :
  In s (flat_item (par_for lo hi body)) <-> exists x, lo <= x <= hi /\ In s (body x).
Proof.
  unfold par_for. cbn [flat_item]. rewrite in_concat. split.
  - intros [t [Ht Hs]]. apply in_map_iff in Ht. destruct Ht as [x [<- Hx]].
    rewrite in_zrange in Hx. eauto.
  - intros [x [Hx Hs]]. exists (body x). split; auto. apply in_map_iff. exists x.
    rewrite in_zrange. auto.
Qed.

Lemma in_nest3 lim (body : Z -> Z -> Z -> list (stmt V)) s :
  In s (flat_item (nest3 lim body)) <-> exists i j k, inl lim i j k /\ In s (body i j k).
Proof.
  unfold nest3, inl. rewrite in_par_for. split.
  - intros [i [Hi Hs]]. apply in_for in Hs. destruct Hs as [j [Hj Hs]].
    apply in_for in Hs. destruct Hs as [k [Hk Hs]]. exists i, j, k. auto.
  - intros (i & j & k & (Hi & Hj & Hk) & Hs). exists i. split; auto.
    apply in_for. exists j. split; auto. apply in_for. eauto.
Qed.

(** kernels indexed by the component *)
Definition cH (f : Fld) (i j k : Z) : expr V :=
  match f with EX => cHx i j k | EY => cHy i j k | EZ => cHz i j k
             | HX => cEx i j k | HY => cEy i j k | HZ => cEz i j k end.
Definition updF (f : Fld) (i j k : Z) : list (stmt V) :=
  match f with EX => updEx i j k | EY => updEy i j k | EZ => updEz i j k
             | HX => updHx i j k | HY => updHy i j k | HZ => updHz i j k end.
Definition pmlF (r : Face) (f : Fld) (l : BBox) (i j k : Z) : list (stmt V) :=
  match f with EX => pmlEx r l i j k | EY => pmlEy r l i j k | EZ => pmlEz r l i j k
             | HX => pmlHx r l i j k | HY => pmlHy r l i j k | HZ => pmlHz r l i j k end.

(** inward step of a face along axis a *)
Definition inw (face : Face) (a : Axis) : Z :=
  if axis_eqb (face_axis face) a then (if is_lo face then 1 else -1) else 0.

Inductive stE (c : Cfg) : stmt V -> Prop :=
| stE_pml r f i j k s : is_E f = true -> outerSurfaceType c r = BT_PML ->
    inl (fplim c r f) i j k -> In s (pmlF r f (fplim c r f) i j k) -> stE c s
| stE_mur face f i j k s : is_E f = true -> outerSurfaceType c face = BT_MUR ->
    fld_axis f <> face_axis face -> inl (fmlim c face f) i j k ->
    In s (let i1 := i + inw face XDIR in let j1 := j + inw face YDIR in
          let k1 := k + inw face ZDIR in
          murBody face f (cH f i1 j1 k1) i1 j1 k1 i j k) -> stE c s
| stE_grid f i j k s : is_E f = true ->
    inl (gfilim c f) i j k -> In s (updF f i j k) -> stE c s.

Inductive stH (c : Cfg) : stmt V -> Prop :=
| stH_pml r f i j k s : is_E f = false -> outerSurfaceType c r = BT_PML ->
    inl (fplim c r f) i j k -> In s (pmlF r f (fplim c r f) i j k) -> stH c s
| stH_mur face f i j k s : is_E f = false -> outerSurfaceType c face = BT_MUR ->
    fld_axis f = face_axis face -> inl (fmlim c face f) i j k ->
    In s (updF f i j k) -> stH c s
| stH_grid f i j k s : is_E f = false ->
    inl (gfilim c f) i j k -> In s (updF f i j k) -> stH c s.

Lemma fmlim_own c face f : fieldIsInBoundary f face = true ->
  fmlim c face f (face_lo (face_axis face)) = gibox c face /\
  fmlim c face f (face_hi (face_axis face)) = gibox c face.
Proof.
  intros H. unfold fmlim, setFieldLimits, murInclude, murbox.
  destruct face, f; try discriminate H; simpl; auto.
Qed.

Ltac inv_in H := cbn [In] in H;
  repeat match type of H with _ \/ _ => destruct H as [H|H] end; try contradiction.

Lemma updateMurEfield_shape c s : In s (flat (updateMurEfield c)) -> stE c s.
Proof.
  rewrite in_flat. intros [it [Hit Hs]]. unfold updateMurEfield in Hit.
  apply in_flat_map in Hit. destruct Hit as [face [_ Hit]]. unfold updateMurEface in Hit.
  destruct (btype_eqb (outerSurfaceType c face) BT_MUR) eqn:ET; [|destruct Hit].
  apply btype_eqb_spec in ET.
  assert (own : forall f, fieldIsInBoundary f face = true -> fmlim c face f (face_lo (face_axis face)) = gibox c face /\
  fmlim c face f (face_hi (face_axis face)) = gibox c face) by (intros; apply fmlim_own; auto).
  pose proof (own EX) as OX. pose proof (own EY) as OY. pose proof (own EZ) as OZ. clear own.
  destruct face; cbn [fieldIsInBoundary face_axis face_lo face_hi] in *;
    unfold murEX_, murEY_, murEZ_ in Hit; inv_in Hit; subst it;
    apply in_par_for in Hs; destruct Hs as [x [Hx Hs]];
    apply in_for in Hs; destruct Hs as [y [Hy Hs]];
    (match type of Hs with In s (murBody ?face ?f _ ?i1 ?j1 ?k1 ?i ?j ?k) =>
       apply (stE_mur c face f i j k s); [reflexivity|assumption|discriminate| |] end;
     [unfold inl; specialize (OX eq_refl) || specialize (OY eq_refl) || specialize (OZ eq_refl);
      try specialize (OY eq_refl); try specialize (OZ eq_refl); lia
     |cbn [inw cH is_lo axis_eqb face_axis]; rewrite ?Z.add_0_r; exact Hs]).
Qed.

Lemma updatePmlEfield_shape c s : In s (flat (updatePmlEfield c)) -> stE c s.
Proof.
  rewrite in_flat. intros [it [Hit Hs]]. unfold updatePmlEfield in Hit.
  apply in_flat_map in Hit. destruct Hit as [r [_ Hit]].
  destruct (btype_eqb (outerSurfaceType c r) BT_PML) eqn:ET; [|destruct Hit].
  apply btype_eqb_spec in ET. inv_in Hit; subst it; apply in_nest3 in Hs;
   destruct Hs as (i & j & k & Hl & Hs);
   [apply (stE_pml c r EX i j k)|apply (stE_pml c r EY i j k)|apply (stE_pml c r EZ i j k)]; auto.
Qed.
Lemma updatePmlHfield_shape c s : In s (flat (updatePmlHfield c)) -> stH c s.
Proof.
  rewrite in_flat. intros [it [Hit Hs]]. unfold updatePmlHfield in Hit.
  apply in_flat_map in Hit. destruct Hit as [r [_ Hit]].
  destruct (btype_eqb (outerSurfaceType c r) BT_PML) eqn:ET; [|destruct Hit].
  apply btype_eqb_spec in ET. inv_in Hit; subst it; apply in_nest3 in Hs;
   destruct Hs as (i & j & k & Hl & Hs);
   [apply (stH_pml c r HX i j k)|apply (stH_pml c r HY i j k)|apply (stH_pml c r HZ i j k)]; auto.
Qed.
Lemma updateGridEfield_shape c s : In s (flat (updateGridEfield c)) -> stE c s.
Proof.
  rewrite in_flat. intros [it [Hit Hs]]. unfold updateGridEfield in Hit.
  inv_in Hit; subst it; apply in_nest3 in Hs; destruct Hs as (i & j & k & Hl & Hs);
   [apply (stE_grid c EX i j k)|apply (stE_grid c EY i j k)|apply (stE_grid c EZ i j k)]; auto.
Qed.
Lemma updateGridHfield_shape c s : In s (flat (updateGridHfield c)) -> stH c s.
Proof.
  rewrite in_flat. intros [it [Hit Hs]]. unfold updateGridHfield in Hit.
  inv_in Hit; subst it; apply in_nest3 in Hs; destruct Hs as (i & j & k & Hl & Hs);
   [apply (stH_grid c HX i j k)|apply (stH_grid c HY i j k)|apply (stH_grid c HZ i j k)]; auto.
Qed.
Lemma updateMurHfield_shape c s : In s (flat (updateMurHfield c)) -> stH c s.
Proof.
  rewrite in_flat. intros [it [Hit Hs]]. unfold updateMurHfield in Hit.
  apply in_flat_map in Hit. destruct Hit as [face [_ Hit]]. unfold updateMurHface in Hit.
  destruct (btype_eqb (outerSurfaceType c face) BT_MUR) eqn:ET; [|destruct Hit].
  apply btype_eqb_spec in ET.
  assert (own : forall f, fieldIsInBoundary f face = true -> fmlim c face f (face_lo (face_axis face)) = gibox c face /\
  fmlim c face f (face_hi (face_axis face)) = gibox c face) by (intros; apply fmlim_own; auto).
  pose proof (own HX) as OX. pose proof (own HY) as OY. pose proof (own HZ) as OZ. clear own.
  destruct face; cbn [fieldIsInBoundary face_axis face_lo face_hi] in *;
    inv_in Hit; subst it; cbn [flat_item] in Hs;
    apply in_for in Hs; destruct Hs as [x [Hx Hs]];
    apply in_for in Hs; destruct Hs as [y [Hy Hs]];
    [specialize (OX eq_refl) | specialize (OX eq_refl)
    |specialize (OY eq_refl) | specialize (OY eq_refl)
    |specialize (OZ eq_refl) | specialize (OZ eq_refl)];
    (match type of Hs with
     | In s (updHx ?i ?j ?k) => eapply (stH_mur c _ HX i j k s); [reflexivity|eassumption|reflexivity| |exact Hs]
     | In s (updHy ?i ?j ?k) => eapply (stH_mur c _ HY i j k s); [reflexivity|eassumption|reflexivity| |exact Hs]
     | In s (updHz ?i ?j ?k) => eapply (stH_mur c _ HZ i j k s); [reflexivity|eassumption|reflexivity| |exact Hs]
     end; unfold inl; lia).
Qed.

Lemma phaseE_shape c s : In s (flat (phaseE c)) -> stE c s.
Proof.
  unfold phaseE. rewrite !flat_app, !in_app_iff. intros [H|[H|H]];
  auto using updatePmlEfield_shape, updateMurEfield_shape, updateGridEfield_shape.
Qed.
Lemma phaseH_shape c s : In s (flat (phaseH c)) -> stH c s.
Proof.
  unfold phaseH. rewrite !flat_app, !in_app_iff. intros [H|[H|H]];
  auto using updatePmlHfield_shape, updateMurHfield_shape, updateGridHfield_shape.
Qed.

(** ghost statements: dst and source differ only in the coordinate of the axis
    of the face *)
Definition coord (a : Axis) (l : Loc) : Z :=
  match a with XDIR => li l | YDIR => lj l | ZDIR => lk l end.

Inductive stG (c : Cfg) (isE : bool) : stmt V -> Prop :=
| stG_intro face f p q src s :
    fieldIsInBoundary f face = false -> is_E f = isE ->
    (outerSurfaceType c face = BT_PERIODIC /\ src = wrapIdx c face \/
     (outerSurfaceType c face = BT_PEC \/ outerSurfaceType c face = BT_PMC) /\ src = insideIdx c face) ->
    gobox c (face_lo (other1 (face_axis face))) - 1 <= p <= gobox c (face_hi (other1 (face_axis face))) ->
    gobox c (face_lo (other2 (face_axis face))) - 1 <= q <= gobox c (face_hi (other2 (face_axis face))) ->
    (s = cp (at_axis (AF f) (face_axis face) (ghostIdx c face) p q) (at_axis (AF f) (face_axis face) src p q) \/
     s = cpneg (at_axis (AF f) (face_axis face) (ghostIdx c face) p q) (at_axis (AF f) (face_axis face) src p q)
       /\ outerSurfaceType c face = BT_PMC) ->
    stG c isE s.

Lemma in_ghost_loop c a (body : Z -> Z -> list (stmt V)) s :
  In s (ghost_loop c a body) <-> exists p q,
   gobox c (face_lo (other1 a)) - 1 <= p <= gobox c (face_hi (other1 a)) /\
   gobox c (face_lo (other2 a)) - 1 <= q <= gobox c (face_hi (other2 a)) /\ In s (body p q).
Proof.
  unfold ghost_loop. rewrite in_for. split.
  - intros [p [Hp Hs]]. apply in_for in Hs. destruct Hs as [q [Hq Hs]]. exists p, q. auto.
  - intros (p & q & Hp & Hq & Hs). exists p. split; auto. apply in_for. eauto.
Qed.

Lemma Efld_inb face : fieldIsInBoundary (Efld (face_axis face)) face = false.
Proof. destruct face; reflexivity. Qed.
Lemma Efld_isE a : is_E (Efld a) = true. Proof. destruct a; reflexivity. Qed.
Lemma tangH_inb face : fieldIsInBoundary (fst (tangH (face_axis face))) face = false /\
  fieldIsInBoundary (snd (tangH (face_axis face))) face = false.
Proof. destruct face; split; reflexivity. Qed.
Lemma tangH_isE a : is_E (fst (tangH a)) = false /\ is_E (snd (tangH a)) = false.
Proof. destruct a; split; reflexivity. Qed.

Lemma ghostE_shape c s : In s (flat (updateGhostEfield c)) -> stG c true s.
Proof.
  unfold updateGhostEfield, flat. cbn [flat_map flat_item]. rewrite app_nil_r.
  intros H. apply in_flat_map in H. destruct H as [face [_ H]]. unfold ghostE in H.
  destruct (outerSurfaceType c face) eqn:ET; try contradiction;
    apply in_ghost_loop in H; destruct H as (p & q & Hp & Hq & Hs); inv_in Hs; subst s;
    eapply (stG_intro c true face (Efld (face_axis face)) p q); eauto using Efld_inb, Efld_isE.
Qed.
Lemma ghostH_shape c s : In s (flat (updateGhostHfield c)) -> stG c false s.
Proof.
  unfold updateGhostHfield, flat. cbn [flat_map flat_item]. rewrite app_nil_r.
  intros H. apply in_flat_map in H. destruct H as [face [_ H]]. unfold ghostH in H.
  destruct (tangH_inb face) as [B1 B2]. destruct (tangH_isE (face_axis face)) as [E1 E2].
  destruct (outerSurfaceType c face) eqn:ET; try contradiction;
    apply in_ghost_loop in H; destruct H as (p & q & Hp & Hq & Hs); inv_in Hs; subst s;
    first [ solve [eapply (stG_intro c false face (fst (tangH (face_axis face))) p q); eauto]
          | solve [eapply (stG_intro c false face (snd (tangH (face_axis face))) p q); eauto] ].
Qed.
End Shape.
