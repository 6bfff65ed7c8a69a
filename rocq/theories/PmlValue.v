(** What a time step computes in the PML regions (any arithmetic). *)
From Coq Require Import ZArith List Bool Lia.
From Verif Require Import Types Lang LangProofs BBox Grid Pml Mur Ghost Step SpecGrid
  StepShape StepBounds StepCount StepOnce SpecCone StepValue.
Import ListNotations.
Open Scope Z_scope.
Local Arguments Z.mul : simpl never.
Local Arguments Z.add : simpl never.
Local Arguments Z.sub : simpl never.

Section Split.
Context {V : Type}.
Lemma split_flat_map {X Y} (g : X -> list Y) xs x : In x xs -> exists p q, flat_map g xs = p ++ g x ++ q.
Proof.
  intros H. apply in_split in H. destruct H as (a & b & ->). exists (flat_map g a), (flat_map g b).
  rewrite flat_map_app. reflexivity.
Qed.
Lemma split_trans {Y} (p q a b x m : list Y) : m = a ++ x ++ b -> exists p' q', p ++ m ++ q = p' ++ x ++ q'.
Proof. intros ->. exists (p ++ a), (b ++ q). rewrite <- !app_assoc. reflexivity. Qed.
Lemma split_nest3 lim (g : Z -> Z -> Z -> list (stmt V)) i j k : inl lim i j k ->
  exists p q, flat_item (nest3 lim g) = p ++ g i j k ++ q.
Proof.
  intros (Hi & Hj & Hk). unfold nest3, par_for. cbn [flat_item]. rewrite <- flat_map_concat_map.
  destruct (split_flat_map (fun i => for_ (lim YLO) (lim YHI) (fun j => for_ (lim ZLO) (lim ZHI) (fun k => g i j k))) (zrange (lim XLO) (lim XHI)) i) as (p1 & q1 & E1); [apply in_zrange; auto|].
  destruct (split_flat_map (fun j => for_ (lim ZLO) (lim ZHI) (fun k => g i j k)) (zrange (lim YLO) (lim YHI)) j) as (p2 & q2 & E2); [apply in_zrange; auto|].
  destruct (split_flat_map (fun k => g i j k) (zrange (lim ZLO) (lim ZHI)) k) as (p3 & q3 & E3); [apply in_zrange; auto|].
  rewrite E1. unfold for_ at 1. rewrite E2. unfold for_. rewrite E3.
  exists (p1 ++ p2 ++ p3), (q3 ++ q2 ++ q1). rewrite <- !app_assoc. reflexivity.
Qed.
Lemma split_flat (p : list (item V)) it : In it p -> exists a b, flat p = a ++ flat_item it ++ b.
Proof. intros H. unfold flat. apply split_flat_map; auto. Qed.

Lemma in_faces r : In r faces. Proof. destruct r; simpl; tauto. Qed.
Lemma split_pmlE c r f i j k : is_E f = true -> outerSurfaceType c r = BT_PML -> inl (fplim c r f) i j k ->
  exists p q, flat (phaseE (V:=V) c) = p ++ pmlF r f (fplim c r f) i j k ++ q.
Proof.
  intros E T H.
  assert (I : In (nest3 (fplim c r f) (pmlF r f (fplim c r f))) (updatePmlEfield (V:=V) c)).
  { unfold updatePmlEfield. apply in_flat_map. exists r. split; [apply in_faces|]. rewrite T. cbn [btype_eqb].
    destruct f; try discriminate E; simpl; tauto. }
  assert (I' : In (nest3 (fplim c r f) (pmlF r f (fplim c r f))) (phaseE (V:=V) c)) by (unfold phaseE; rewrite !in_app_iff; tauto).
  destruct (split_flat _ _ I') as (a & b & ->). destruct (split_nest3 (fplim c r f) (pmlF r f (fplim c r f)) i j k H) as (p & q & S).
  eapply split_trans; eauto.
Qed.
Lemma split_pmlH c r f i j k : is_E f = false -> outerSurfaceType c r = BT_PML -> inl (fplim c r f) i j k ->
  exists p q, flat (phaseH (V:=V) c) = p ++ pmlF r f (fplim c r f) i j k ++ q.
Proof.
  intros E T H.
  assert (I : In (nest3 (fplim c r f) (pmlF r f (fplim c r f))) (updatePmlHfield (V:=V) c)).
  { unfold updatePmlHfield. apply in_flat_map. exists r. split; [apply in_faces|]. rewrite T. cbn [btype_eqb].
    destruct f; try discriminate E; simpl; tauto. }
  assert (I' : In (nest3 (fplim c r f) (pmlF r f (fplim c r f))) (phaseH (V:=V) c)) by (unfold phaseH; rewrite !in_app_iff; tauto).
  destruct (split_flat _ _ I') as (a & b & ->). destruct (split_nest3 (fplim c r f) (pmlF r f (fplim c r f)) i j k H) as (p & q & S).
  eapply split_trans; eauto.
Qed.

(** counting writes to an arbitrary location through a loop nest *)
Lemma writes_nest3_gen l i j k lim (g : Z -> Z -> Z -> list (stmt V)) :
  (forall i' j' k', i' <> i \/ j' <> j \/ k' <> k -> writes l (g i' j' k') = 0%nat) ->
  writes l (flat_item (nest3 lim g)) = if inlb lim i j k then writes l (g i j k) else 0%nat.
Proof.
  intros H. unfold nest3.
  assert (QZ : forall i' j', i' <> i \/ j' <> j -> writes l
      (for_ (lim ZLO) (lim ZHI) (fun k0 => g i' j' k0)) = 0%nat).
  { intros i' j' Hn. apply writes_flat_map_zero. intros k' _. apply H. tauto. }
  assert (QY : forall i', i' <> i -> writes l
      (for_ (lim YLO) (lim YHI) (fun j0 => for_ (lim ZLO) (lim ZHI) (fun k0 => g i' j0 k0))) = 0%nat).
  { intros i' Hn. apply writes_flat_map_zero. intros j' _. apply QZ. tauto. }
  rewrite (writes_par_for _ _ _ _ i) by (intros; apply QY; auto).
  rewrite (writes_for _ _ _ _ j) by (intros; apply QZ; auto).
  rewrite (writes_for _ _ _ _ k) by (intros; apply H; auto).
  unfold inlb. destruct (rng (lim XLO) (lim XHI) i); auto.
  destruct (rng (lim YLO) (lim YHI) j); auto.
Qed.

(** the auxiliary arrays *)
Inductive isAux : (Face -> Fld -> Arr) -> Prop := aux_PP : isAux APP | aux_P : isAux AP | aux_B : isAux AB.
Lemma loc_dec_ne a b : a <> b -> (if loc_dec a b then true else false) = false.
Proof. intros H. destruct (loc_dec a b); congruence. Qed.
Lemma loc_dec_eq a : (if loc_dec a a then true else false) = true.
Proof. destruct (loc_dec a a); congruence. Qed.
Lemma aux_other X r f l i j k r' f' l' i' j' k' : isAux X ->
  r' <> r \/ f' <> f \/ (l' = l /\ (i' <> i \/ j' <> j \/ k' <> k)) ->
  writes (V:=V) (L (X r f) (i - l XLO) (j - l YLO) (k - l ZLO)) (pmlF r' f' l' i' j' k') = 0%nat.
Proof.
  intros A N.
  assert (Q : forall Y, isAux Y -> L (Y r' f') (i' - l' XLO) (j' - l' YLO) (k' - l' ZLO) <> L (X r f) (i - l XLO) (j - l YLO) (k - l ZLO)).
  { intros Y AY Eq. pose proof (f_equal arr Eq) as Ea. pose proof (f_equal li Eq) as Ei. pose proof (f_equal lj Eq) as Ej. pose proof (f_equal lk Eq) as Ek. cbn [arr li lj lk] in *.
    assert (r' = r /\ f' = f) as [-> ->] by (destruct A, AY; first [discriminate Ea|injection Ea; auto]).
    destruct N as [N|[N|[-> N]]]; try congruence. lia. }
  assert (QF : forall g x y z, L (AF g) x y z <> L (X r f) (i - l XLO) (j - l YLO) (k - l ZLO)) by (intros; destruct A; discriminate).
  assert (QT : forall n x y z, L (ATmp n) x y z <> L (X r f) (i - l XLO) (j - l YLO) (k - l ZLO)) by (intros; destruct A; discriminate).
  destruct f'; cbn [pmlF]; unfold pmlEx, pmlEy, pmlEz, pmlHx, pmlHy, pmlHz, pmlEbody, pmlHbody;
  rewrite !writes_cons; cbn [dst]; rewrite !loc_dec_ne; auto using isAux.
Qed.
Lemma aux_self X r f l i j k : isAux X -> (X = AB <-> is_E f = false) ->
  writes (V:=V) (L (X r f) (i - l XLO) (j - l YLO) (k - l ZLO)) (pmlF r f l i j k) = 1%nat.
Proof.
  intros A B.
  destruct A, f; cbn [is_E] in B; try (exfalso; destruct B as [B1 B2]; first [discriminate (B1 eq_refl)|discriminate (f_equal (fun Y : Face -> Fld -> Arr => Y XLO EX) (B2 eq_refl))]);
  cbn [pmlF]; unfold pmlEx, pmlEy, pmlEz, pmlHx, pmlHy, pmlHz, pmlEbody, pmlHbody;
  rewrite !writes_cons; cbn [dst]; rewrite !loc_dec_eq; rewrite !loc_dec_ne by discriminate; reflexivity.
Qed.
End Split.

Section AuxCount.
Context {V : Type}.
Lemma aux_nest c X r f i j k r' f' : isAux X -> (X = AB <-> is_E f = false) -> inl (fplim c r f) i j k ->
  writes (V:=V) (L (X r f) (i - fplim c r f XLO) (j - fplim c r f YLO) (k - fplim c r f ZLO))
    (flat_item (nest3 (fplim c r' f') (pmlF r' f' (fplim c r' f')))) = b2n (face_eqb r' r && fld_eqb f' f).
Proof.
  intros A B I. destruct (face_dec r' r) as [->|Nr].
  - assert (FR : face_eqb r r = true) by (destruct r; reflexivity). rewrite FR. cbn [andb].
    destruct (fld_eqb f' f) eqn:EF.
    + apply fld_eqb_spec in EF. subst f'.
      rewrite (writes_nest3_gen _ i j k) by (intros; apply aux_other; auto; right; right; auto).
      apply inlb_iff in I. rewrite I. apply aux_self; auto.
    + rewrite (writes_nest3_gen _ i j k) by (intros; apply aux_other; auto; right; left; intros ->; destruct f; discriminate).
      rewrite aux_other; auto; [destruct (inlb _ _ _ _); reflexivity|]. right; left; intros ->; destruct f; discriminate.
  - assert (FR : face_eqb r' r = false) by (destruct r', r; try reflexivity; congruence). rewrite FR. cbn [andb b2n].
    rewrite (writes_nest3_gen _ i j k) by (intros; apply aux_other; auto).
    rewrite aux_other; auto. destruct (inlb _ _ _ _); reflexivity.
Qed.

Lemma aux_once_E c X r f i j k : is_E f = true -> isAux X -> X <> AB -> outerSurfaceType c r = BT_PML -> inl (fplim c r f) i j k ->
  writes (V:=V) (L (X r f) (i - fplim c r f XLO) (j - fplim c r f YLO) (k - fplim c r f ZLO)) (flat (phaseE c)) = 1%nat.
Proof.
  intros E A N T I. set (l := L _ _ _ _).
  assert (NF : forall g x y z, l <> L (AF g) x y z) by (unfold l; destruct A; discriminate).
  assert (NT : forall g x y z, l <> L (ATmp g) x y z) by (unfold l; destruct A; discriminate).
  assert (AB' : X = AB <-> is_E f = false) by (split; congruence).
  unfold phaseE. rewrite !flat_app, !writes_app.
  rewrite (flat_zero l (updateMurEfield c)).
  2:{ intros s Hs. apply in_flat in Hs. destruct Hs as (it & Hi & Hs). unfold updateMurEfield in Hi. apply in_flat_map in Hi.
      destruct Hi as (face & _ & Hi). unfold updateMurEface in Hi. destruct (btype_eqb _ _); [|destruct Hi].
      unfold murEX_, murEY_, murEZ_ in Hi.
      destruct face; (destruct Hi as [<-|[<-|[]]]; apply in_par_for in Hs; destruct Hs as (x & _ & Hs); apply in_for in Hs; destruct Hs as (y & _ & Hs);
       destruct Hs as [<-|[<-|[]]]; cbn [dst]; intros Q; symmetry in Q; first [exact (NF _ _ _ _ Q)|exact (NT _ _ _ _ Q)]). }
  rewrite (flat_zero l (updateGridEfield c)).
  2:{ intros s Hs. apply in_flat in Hs. destruct Hs as (it & Hi & Hs). unfold updateGridEfield in Hi.
      destruct Hi as [<-|[<-|[<-|[]]]]; apply in_nest3 in Hs; destruct Hs as (x & y & z & _ & [<-|[]]); cbn [dst]; intros Q; symmetry in Q; first [exact (NF _ _ _ _ Q)|exact (NT _ _ _ _ Q)]. }
  unfold updatePmlEfield. rewrite flat_faces.
  assert (Q : forall r', writes (V:=V) l (flat (if btype_eqb (outerSurfaceType c r') BT_PML
    then [nest3 (fplim c r' EX) (pmlEx r' (fplim c r' EX));
          nest3 (fplim c r' EY) (pmlEy r' (fplim c r' EY));
          nest3 (fplim c r' EZ) (pmlEz r' (fplim c r' EZ))]
    else [])) = b2n (face_eqb r' r)).
  { intros r'. destruct (btype_eqb (outerSurfaceType c r') BT_PML) eqn:T'.
    - rewrite !flat_cons, !writes_app. cbn [flat flat_map]. rewrite writes_nil.
      change (pmlEx r' (fplim c r' EX)) with (pmlF (V:=V) r' EX (fplim c r' EX)).
      change (pmlEy r' (fplim c r' EY)) with (pmlF (V:=V) r' EY (fplim c r' EY)).
      change (pmlEz r' (fplim c r' EZ)) with (pmlF (V:=V) r' EZ (fplim c r' EZ)).
      unfold l. rewrite !(aux_nest c X r f i j k) by auto.
      destruct (face_eqb r' r), f; try discriminate E; reflexivity.
    - cbn [flat flat_map]. rewrite writes_nil. destruct (face_dec r' r) as [->|Nr].
      + rewrite T in T'. discriminate.
      + destruct r', r; try reflexivity; congruence. }
  unfold sum6. rewrite !Q. destruct r; reflexivity.
Qed.
Lemma aux_once_H c r f i j k : is_E f = false -> outerSurfaceType c r = BT_PML -> inl (fplim c r f) i j k ->
  writes (V:=V) (L (AB r f) (i - fplim c r f XLO) (j - fplim c r f YLO) (k - fplim c r f ZLO)) (flat (phaseH c)) = 1%nat.
Proof.
  intros E T I. set (l := L _ _ _ _).
  assert (NF : forall g x y z, l <> L (AF g) x y z) by (unfold l; discriminate).
  assert (AB' : AB = AB <-> is_E f = false) by (split; congruence).
  unfold phaseH. rewrite !flat_app, !writes_app.
  rewrite (flat_zero l (updateMurHfield c)).
  2:{ intros s Hs. apply in_flat in Hs. destruct Hs as (it & Hi & Hs). unfold updateMurHfield in Hi. apply in_flat_map in Hi.
      destruct Hi as (face & _ & Hi). unfold updateMurHface in Hi. destruct (btype_eqb _ _); [|destruct Hi].
      destruct face; (destruct Hi as [<-|[]]; cbn [flat_item] in Hs; apply in_for in Hs; destruct Hs as (x & _ & Hs); apply in_for in Hs; destruct Hs as (y & _ & Hs);
       destruct Hs as [<-|[]]; cbn [dst]; intros Q; symmetry in Q; first [exact (NF _ _ _ _ Q)|exact (NT _ _ _ _ Q)]). }
  rewrite (flat_zero l (updateGridHfield c)).
  2:{ intros s Hs. apply in_flat in Hs. destruct Hs as (it & Hi & Hs). unfold updateGridHfield in Hi.
      destruct Hi as [<-|[<-|[<-|[]]]]; apply in_nest3 in Hs; destruct Hs as (x & y & z & _ & [<-|[]]); cbn [dst]; intros Q; symmetry in Q; first [exact (NF _ _ _ _ Q)|exact (NT _ _ _ _ Q)]. }
  unfold updatePmlHfield. rewrite flat_faces.
  assert (Q : forall r', writes (V:=V) l (flat (if btype_eqb (outerSurfaceType c r') BT_PML
    then [nest3 (fplim c r' HX) (pmlHx r' (fplim c r' HX));
          nest3 (fplim c r' HY) (pmlHy r' (fplim c r' HY));
          nest3 (fplim c r' HZ) (pmlHz r' (fplim c r' HZ))]
    else [])) = b2n (face_eqb r' r)).
  { intros r'. destruct (btype_eqb (outerSurfaceType c r') BT_PML) eqn:T'.
    - rewrite !flat_cons, !writes_app. cbn [flat flat_map]. rewrite writes_nil.
      change (pmlHx r' (fplim c r' HX)) with (pmlF (V:=V) r' HX (fplim c r' HX)).
      change (pmlHy r' (fplim c r' HY)) with (pmlF (V:=V) r' HY (fplim c r' HY)).
      change (pmlHz r' (fplim c r' HZ)) with (pmlF (V:=V) r' HZ (fplim c r' HZ)).
      unfold l. rewrite !(aux_nest c AB r f i j k) by auto using isAux.
      destruct (face_eqb r' r), f; try discriminate E; reflexivity.
    - cbn [flat flat_map]. rewrite writes_nil. destruct (face_dec r' r) as [->|Nr].
      + rewrite T in T'. discriminate.
      + destruct r', r; try reflexivity; congruence. }
  unfold sum6. rewrite !Q. destruct r; reflexivity.
Qed.
End AuxCount.

(** ** Values *)
Definition nextA (a : Axis) : Axis := match a with XDIR => YDIR | YDIR => ZDIR | ZDIR => XDIR end.
Definition prevA (a : Axis) : Axis := match a with XDIR => ZDIR | YDIR => XDIR | ZDIR => YDIR end.
Definition at3 (i j k : Z) (a : Axis) : Z := match a with XDIR => i | YDIR => j | ZDIR => k end.

Section PmlVals.
Context {V : Type} (A : Arith V).
Variables (c : Cfg) (W : wf c).

Lemma eval_upd_ne (m : mem V) l v e : ~ In l (reads e) -> eval A (upd m l v) e = eval A m e.
Proof. intros H. apply eval_ext. intros l' Hl. apply upd_other. intros ->. auto. Qed.

Lemma pmlF_E r f l i j k : is_E f = true -> let a := fld_axis f in let x := at3 i j k in
  pmlF (V:=V) r f l i j k = pmlEbody r f (cH f i j k) (PC ad (nextA a) (x (nextA a))) (PC bd (nextA a) (x (nextA a)))
     (PC ad (prevA a) (x (prevA a))) (PC bd (prevA a) (x (prevA a))) (PC ibh a (x a)) (PC ah a (x a))
     (i - l XLO) (j - l YLO) (k - l ZLO) i j k.
Proof. destruct f; try discriminate; intros _; reflexivity. Qed.
Lemma pmlF_H r f l i j k : is_E f = false -> let a := fld_axis f in let x := at3 i j k in
  pmlF (V:=V) r f l i j k = pmlHbody r f (cH f i j k) (PC ah (nextA a) (x (nextA a))) (PC bh (nextA a) (x (nextA a)))
     (PC ah (prevA a) (x (prevA a))) (PC bh (prevA a) (x (prevA a))) (PC ibd a (x a)) (PC ad a (x a))
     (i - l XLO) (j - l YLO) (k - l ZLO) i j k.
Proof. destruct f; try discriminate; intros _; reflexivity. Qed.

(** the five statements of an electric iteration, executed in any memory *)
Section EBody.
Variables (r : Face) (f : Fld) (curl a1 b1 a2 b2 ib ahx : expr V) (ir jr kr i j k : Z).
Let PPl := L (APP r f) ir jr kr.
Let Pl := L (AP r f) ir jr kr.
Let Fl := L (AF f) i j k.
Hypothesis HR : forall e l, In e [curl; a1; b1; a2; b2; ib; ahx] -> In l (reads e) -> kind l <> Some true.
Let ev m e := eval A m e.
Definition newPP (m : mem V) : V :=
  vadd A (vmul A (m (L (AAlpha f) i j k)) (m PPl)) (vmul A (m (L (ABeta f) i j k)) (ev m curl)).
Definition newP (m : mem V) : V := vadd A (vmul A (ev m a1) (m Pl)) (vmul A (ev m b1) (vsub A (newPP m) (m PPl))).
Definition newE (m : mem V) : V :=
  vadd A (vmul A (ev m a2) (m Fl)) (vmul A (vmul A (ev m b2) (ev m ib)) (vsub A (newP m) (vmul A (ev m ahx) (m Pl)))).
Lemma ebody_run (EF : is_E f = true) m : let m' := run A (pmlEbody r f curl a1 b1 a2 b2 ib ahx ir jr kr i j k) m in
  m' PPl = newPP m /\ m' Pl = newP m /\ m' Fl = newE m.
Proof.
  assert (N : forall e, In e [curl; a1; b1; a2; b2; ib; ahx] -> forall l m v, kind l = Some true -> eval A (upd m l v) e = eval A m e).
  { intros e He l m0 v Hl. apply eval_upd_ne. intros Hin. apply (HR e l He Hin). exact Hl. }
  assert (KPP : kind PPl = Some true) by reflexivity. assert (KP : kind Pl = Some true) by reflexivity.
  assert (KF : kind Fl = Some true) by (cbn; congruence).
  assert (K0 : forall n, n <> 2 -> kind (L (ATmp n) i j k) = Some true) by (intros n Hn; cbn; destruct (Z.eqb_spec n 2); [lia|reflexivity]).
  assert (D1 : PPl <> Pl) by discriminate. assert (D2 : PPl <> Fl) by discriminate. assert (D3 : Pl <> Fl) by discriminate.
  assert (D4 : forall n, PPl <> L (ATmp n) i j k) by discriminate. assert (D5 : forall n, Pl <> L (ATmp n) i j k) by discriminate.
  assert (D6 : forall n, Fl <> L (ATmp n) i j k) by discriminate.
  assert (NA : forall l (m : mem V) v, kind l = Some true -> upd m l v (L (AAlpha f) i j k) = m (L (AAlpha f) i j k)) by (intros l m0 v Hl; apply upd_other; intros <-; discriminate).
  assert (NB : forall l (m : mem V) v, kind l = Some true -> upd m l v (L (ABeta f) i j k) = m (L (ABeta f) i j k)) by (intros l m0 v Hl; apply upd_other; intros <-; discriminate).
  unfold pmlEbody. fold PPl Pl. cbv zeta. unfold F. fold Fl.
  set (m1 := upd m (L (ATmp 0) i j k) (m PPl)).
  set (m2 := upd m1 PPl (newPP m)).
  set (m3 := upd m2 (L (ATmp 1) i j k) (m Pl)).
  set (m4 := upd m3 Pl (newP m)).
  set (m5 := upd m4 Fl (newE m)).
  assert (R : run A [Asg (L (ATmp 0) i j k) (Rd PPl);
     Asg PPl (Add (Mul (ALPHA f i j k) (Rd PPl)) (Mul (BETA f i j k) curl));
     Asg (L (ATmp 1) i j k) (Rd Pl);
     Asg Pl (Add (Mul a1 (Rd Pl)) (Mul b1 (Sub (Rd PPl) (Rd (L (ATmp 0) i j k)))));
     Asg Fl (Add (Mul a2 (Rd Fl)) (Mul (Mul b2 ib) (Sub (Rd Pl) (Mul ahx (Rd (L (ATmp 1) i j k))))))] m = m5).
  { rewrite !run_cons, run_nil. unfold run1. cbn [dst rhs eval]. fold m1.
    assert (E2 : vadd A (vmul A (eval A m1 (ALPHA f i j k)) (m1 PPl)) (vmul A (eval A m1 (BETA f i j k)) (eval A m1 curl)) = newPP m).
    { unfold newPP, ev, ALPHA, BETA. cbn [eval]. unfold m1. rewrite NA, NB, N by (auto; first [apply K0; lia|simpl; tauto]).
      rewrite upd_other by (apply D4). reflexivity. }
    rewrite E2. fold m2.
    assert (E3 : m2 Pl = m Pl) by (unfold m2, m1; rewrite !upd_other; auto).
    rewrite E3. fold m3.
    assert (E4 : vadd A (vmul A (eval A m3 a1) (m3 Pl)) (vmul A (eval A m3 b1) (vsub A (m3 PPl) (m3 (L (ATmp 0) i j k)))) = newP m).
    { unfold newP, ev. unfold m3, m2, m1. rewrite !N by (auto; first [apply K0; lia|simpl; tauto]).
      rewrite (upd_other _ _ _ Pl) by (apply D5). rewrite (upd_other _ _ _ Pl) by auto. rewrite (upd_other _ _ _ Pl) by (apply D5).
      rewrite (upd_other _ _ _ PPl) by (apply D4). rewrite upd_same.
      rewrite (upd_other _ _ _ (L (ATmp 0) i j k)) by (intros Q; injection Q; lia).
      rewrite (upd_other _ _ _ (L (ATmp 0) i j k)) by (intros Q; symmetry in Q; apply D4 in Q; auto).
      rewrite upd_same. reflexivity. }
    rewrite E4. fold m4.
    assert (E5 : vadd A (vmul A (eval A m4 a2) (m4 Fl)) (vmul A (vmul A (eval A m4 b2) (eval A m4 ib)) (vsub A (m4 Pl) (vmul A (eval A m4 ahx) (m4 (L (ATmp 1) i j k))))) = newE m).
    { unfold newE, ev. unfold m4, m3, m2, m1. rewrite !N by (auto; first [apply K0; lia|simpl; tauto]).
      rewrite (upd_other _ _ _ Fl) by auto. rewrite (upd_other _ _ _ Fl) by (apply D6). rewrite (upd_other _ _ _ Fl) by auto. rewrite (upd_other _ _ _ Fl) by (apply D6).
      rewrite upd_same. rewrite (upd_other _ _ _ (L (ATmp 1) i j k)) by (intros Q; symmetry in Q; apply D5 in Q; auto). rewrite upd_same. reflexivity. }
    rewrite E5. reflexivity. }
  rewrite R. unfold m5, m4, m3, m2. split; [|split].
  - rewrite (upd_other _ Fl) by auto. rewrite (upd_other _ Pl) by auto. rewrite (upd_other _ (L (ATmp 1) i j k)) by auto. apply upd_same.
  - rewrite upd_other by auto. apply upd_same.
  - apply upd_same.
Qed.
End EBody.

Section HBody.
Variables (r : Face) (f : Fld) (curl a1 b1 a2 b2 ib ahx : expr V) (ir jr kr i j k : Z).
Let Bl := L (AB r f) ir jr kr.
Let Fl := L (AF f) i j k.
Hypothesis HR : forall e l, In e [curl; a1; b1; a2; b2; ib; ahx] -> In l (reads e) -> kind l <> Some false.
Let ev m e := eval A m e.
Definition newB (m : mem V) : V := vadd A (vmul A (ev m a1) (m Bl)) (vmul A (vmul A (m (L (AGamma f) i j k)) (ev m b1)) (ev m curl)).
Definition newH (m : mem V) : V :=
  vadd A (vmul A (ev m a2) (m Fl)) (vmul A (vmul A (ev m b2) (ev m ib)) (vsub A (newB m) (vmul A (ev m ahx) (m Bl)))).
Lemma hbody_run (EF : is_E f = false) m : let m' := run A (pmlHbody r f curl a1 b1 a2 b2 ib ahx ir jr kr i j k) m in
  m' Bl = newB m /\ m' Fl = newH m.
Proof.
  assert (N : forall e, In e [curl; a1; b1; a2; b2; ib; ahx] -> forall l m v, kind l = Some false -> eval A (upd m l v) e = eval A m e).
  { intros e He l m0 v Hl. apply eval_upd_ne. intros Hin. apply (HR e l He Hin). exact Hl. }
  assert (KB : kind Bl = Some false) by reflexivity.
  assert (KF : kind Fl = Some false) by (cbn; congruence).
  assert (K2 : kind (L (ATmp 2) i j k) = Some false) by reflexivity.
  assert (D1 : Bl <> Fl) by discriminate.
  assert (D4 : forall n, Bl <> L (ATmp n) i j k) by discriminate.
  assert (D6 : forall n, Fl <> L (ATmp n) i j k) by discriminate.
  assert (NA : forall l (m : mem V) v, kind l = Some false -> upd m l v (L (AGamma f) i j k) = m (L (AGamma f) i j k)) by (intros l m0 v Hl; apply upd_other; intros <-; discriminate).
  unfold pmlHbody. fold Bl. cbv zeta. unfold F. fold Fl.
  set (m1 := upd m (L (ATmp 2) i j k) (m Bl)).
  set (m2 := upd m1 Bl (newB m)).
  set (m3 := upd m2 Fl (newH m)).
  assert (R : run A [Asg (L (ATmp 2) i j k) (Rd Bl);
     Asg Bl (Add (Mul a1 (Rd Bl)) (Mul (Mul (GAMMA f i j k) b1) curl));
     Asg Fl (Add (Mul a2 (Rd Fl)) (Mul (Mul b2 ib) (Sub (Rd Bl) (Mul ahx (Rd (L (ATmp 2) i j k))))))] m = m3).
  { rewrite !run_cons, run_nil. unfold run1. cbn [dst rhs eval]. fold m1.
    assert (E2 : vadd A (vmul A (eval A m1 a1) (m1 Bl)) (vmul A (vmul A (eval A m1 (GAMMA f i j k)) (eval A m1 b1)) (eval A m1 curl)) = newB m).
    { unfold newB, ev, GAMMA. cbn [eval]. unfold m1. rewrite NA, !N by (auto; simpl; tauto).
      rewrite upd_other by (apply D4). reflexivity. }
    rewrite E2. fold m2.
    assert (E5 : vadd A (vmul A (eval A m2 a2) (m2 Fl)) (vmul A (vmul A (eval A m2 b2) (eval A m2 ib)) (vsub A (m2 Bl) (vmul A (eval A m2 ahx) (m2 (L (ATmp 2) i j k))))) = newH m).
    { unfold newH, ev. unfold m2, m1. rewrite !N by (auto; simpl; tauto).
      rewrite (upd_other _ _ _ Fl) by auto. rewrite (upd_other _ _ _ Fl) by (apply D6).
      rewrite upd_same. rewrite (upd_other _ _ _ (L (ATmp 2) i j k)) by (intros Q; symmetry in Q; apply D4 in Q; auto). rewrite upd_same. reflexivity. }
    rewrite E5. reflexivity. }
  rewrite R. unfold m3, m2. split.
  - rewrite upd_other by auto. apply upd_same.
  - apply upd_same.
Qed.
End HBody.
End PmlVals.

Section PmlStep.
Context {V : Type} (A : Arith V).
Variables (c : Cfg) (W : wf c) (xE xH : list (item V)).
Hypothesis onlyE : forall s, In s (flat xE) -> kind (dst s) = Some true.
Hypothesis onlyH : forall s, In s (flat xH) -> kind (dst s) = Some false.
Definition stepxx (m : mem V) : mem V := run A (flat (timeStep c xE xH)) m.

Lemma xH_other l : kind l <> Some false -> writes l (flat xH) = 0%nat.
Proof. intros K. apply flat_zero. intros s Hs X. apply onlyH in Hs. congruence. Qed.
Lemma xE_other' l : kind l <> Some true -> writes l (flat xE) = 0%nat.
Proof. intros K. apply flat_zero. intros s Hs X. apply onlyE in Hs. congruence. Qed.

Definition midE (m : mem V) : mem V :=
  run A (flat (updateGhostEfield c)) (run A (flat xE) (run A (flat (phaseE c)) m)).
Lemma stepxx_E m l : kind l <> Some false -> stepxx m l = midE m l.
Proof.
  intros K. unfold stepxx, timeStep, midE. rewrite !flat_app, !run_app.
  rewrite (writes_0_frame A (flat (updateGhostHfield c))) by (apply ghostH_other; congruence).
  rewrite (writes_0_frame A (flat xH)) by (apply xH_other; congruence).
  rewrite (writes_0_frame A (flat (phaseH c))) by (apply phaseH_other; congruence). reflexivity.
Qed.
Lemma midE_other m l : kind l <> Some true -> midE m l = m l.
Proof.
  intros K. unfold midE.
  rewrite (writes_0_frame A (flat (updateGhostEfield c))) by (apply ghostE_other; congruence).
  rewrite (writes_0_frame A (flat xE)) by (apply xE_other'; congruence).
  rewrite (writes_0_frame A (flat (phaseE c))) by (apply phaseE_other; congruence). reflexivity.
Qed.
Lemma stepxx_data m l : kind l = None -> stepxx m l = m l.
Proof. intros K. rewrite stepxx_E, midE_other by congruence. reflexivity. Qed.

Lemma fplim_outer r f i j k : inl (fplim c r f) i j k -> inl (gfolim c f) i j k.
Proof.
  unfold fplim, gfolim. intros H.
  assert (G : forall g, let B := pbox c r in let O := gobox c in
     if is_lo g then O g <= B g else B g <= O g).
  { intros g. cfg_facts c W. destruct r, g; cbn [pbox mkbox is_lo]; lia. }
  revert H. unfold inl, setFieldLimits. destruct r; cbn [pmlInclude setBoundingBoxBoundaryFlags];
  pose proof (G XLO); pose proof (G XHI); pose proof (G YLO); pose proof (G YHI); pose proof (G ZLO); pose proof (G ZHI); cbn [is_lo] in *;
  destruct f; cbn [fieldIsInBoundary]; lia.
Qed.

Lemma ghost_aux b X r f x y z : isAux X -> writes (V:=V) (L (X r f) x y z) (flat (if b : bool then updateGhostEfield c else updateGhostHfield c)) = 0%nat.
Proof.
  intros HA. apply flat_zero. intros s Hs. assert (G : exists b', stG c b' s) by (destruct b; [apply ghostE_shape in Hs|apply ghostH_shape in Hs]; eauto).
  destruct G as (b' & G). destruct G as [face g p q src s B E T Hp Hq Hs'].
  assert (D : dst s = at_axis (AF g) (face_axis face) (ghostIdx c face) p q) by (destruct Hs' as [->|[-> _]]; reflexivity).
  rewrite D. destruct HA, face; cbn; discriminate.
Qed.

Lemma block_writes (p q b : list (stmt V)) l : writes l (p ++ b ++ q) = 1%nat -> writes l b = 1%nat -> writes l p = 0%nat /\ writes l q = 0%nat.
Proof. rewrite !writes_app. lia. Qed.

Definition eCurl f i j k : expr V := cH f i j k.
Section E1.
Variables (r : Face) (f : Fld) (i j k : Z).
Hypotheses (E : is_E f = true) (T : outerSurfaceType c r = BT_PML) (I : inl (fplim c r f) i j k).
Let l0 := fplim c r f.
Let ir := i - l0 XLO. Let jr := j - l0 YLO. Let kr := k - l0 ZLO.
Let a := fld_axis f.
Let x := at3 i j k.
Let C co (b : Axis) : expr V := PC co b (x b).
Definition pmlPP' (m : mem V) : V := newPP A r f (cH f i j k) ir jr kr i j k m.
Definition pmlP' (m : mem V) : V := newP A r f (cH f i j k) (C ad (nextA a)) (C bd (nextA a)) ir jr kr i j k m.
Definition pmlE' (m : mem V) : V :=
  newE A r f (cH f i j k) (C ad (nextA a)) (C bd (nextA a)) (C ad (prevA a)) (C bd (prevA a)) (C ibh a) (C ah a) ir jr kr i j k m.
Hypothesis QPP : writes (L (APP r f) ir jr kr) (flat xE) = 0%nat.
Hypothesis QP : writes (L (AP r f) ir jr kr) (flat xE) = 0%nat.
Hypothesis QF : writes (L (AF f) i j k) (flat xE) = 0%nat.

Lemma pml_E_reads e l : In e [cH f i j k; C ad (nextA a); C bd (nextA a); C ad (prevA a); C bd (prevA a); C ibh a; C ah a] ->
  In l (reads e) -> kind l <> Some true.
Proof.
  clear - E. intros [<-|H].
  - destruct f; try discriminate E; unfold cH, cHx, cHy, cHz, curl_Hx, curl_Hy, curl_Hz, F, idhx, idhy, idhz; cbn [reads app In];
    intros Hl; repeat (destruct Hl as [<-|Hl]; [cbn; congruence|]); contradiction.
  - unfold C, PC in H. cbn [In] in H. repeat (destruct H as [<-|H]; [cbn [reads In]; intros [<-|[]]; cbn; congruence|]). contradiction.
Qed.
Lemma pml_E_step m : let m' := stepxx m in
  m' (L (APP r f) ir jr kr) = pmlPP' m /\ m' (L (AP r f) ir jr kr) = pmlP' m /\ m' (L (AF f) i j k) = pmlE' m.
Proof.
  cbv zeta. destruct (split_pmlE (V:=V) c r f i j k E T I) as (p & q & S).
  assert (WPP : writes (L (APP r f) ir jr kr) (flat (phaseE (V:=V) c)) = 1%nat) by (apply aux_once_E; auto using isAux; intros Q; discriminate (f_equal (fun Y : Face -> Fld -> Arr => Y XLO EX) Q)).
  assert (WP : writes (L (AP r f) ir jr kr) (flat (phaseE (V:=V) c)) = 1%nat) by (apply aux_once_E; auto using isAux; intros Q; discriminate (f_equal (fun Y : Face -> Fld -> Arr => Y XLO EX) Q)).
  assert (WF : writes (L (AF f) i j k) (flat (phaseE (V:=V) c)) = 1%nat).
  { rewrite writes_phaseE, cover_value by (auto; apply (fplim_outer r); auto).
    destruct (mur_edge c f i j k) eqn:M; [|reflexivity]. exfalso.
    pose proof (writes_phaseE (V:=V) c f i j k E) as Q. rewrite cover_value in Q by (auto; apply (fplim_outer r); auto). rewrite M in Q.
    rewrite S, !writes_app, writes_pmlF, same3_true in Q. destruct f; cbn in Q; lia. }
  rewrite S in WPP, WP, WF.
  destruct (block_writes _ _ _ _ WPP) as (P1 & P2). { apply aux_self; auto using isAux. rewrite E. split; [intros Q; discriminate (f_equal (fun Y : Face -> Fld -> Arr => Y XLO EX) Q)|discriminate]. }
  destruct (block_writes _ _ _ _ WP) as (P3 & P4). { apply aux_self; auto using isAux. rewrite E. split; [intros Q; discriminate (f_equal (fun Y : Face -> Fld -> Arr => Y XLO EX) Q)|discriminate]. }
  destruct (block_writes _ _ _ _ WF) as (P5 & P6). { rewrite writes_pmlF, same3_true. destruct f; reflexivity. }
  rewrite !stepxx_E by (cbn; congruence). unfold midE.
  rewrite (writes_0_frame A (flat (updateGhostEfield c))) by (apply (ghost_aux true); auto using isAux).
  rewrite (writes_0_frame A (flat (updateGhostEfield c))) by (apply (ghost_aux true); auto using isAux).
  rewrite (writes_0_frame A (flat (updateGhostEfield c))) by (apply ghostE_inside; auto; apply (fplim_outer r); auto).
  rewrite !(writes_0_frame A (flat xE)) by assumption.
  rewrite S, !run_app. rewrite !(writes_0_frame A q) by assumption.
  rewrite pmlF_E by assumption. cbv zeta.
  set (mp := run A p m).
  assert (M : forall l, kind l <> Some true -> mp l = m l).
  { intros l K. apply writes_0_frame. pose proof (phaseE_other (V:=V) c l K) as Q. rewrite S, !writes_app in Q. lia. }
  assert (MPP : mp (L (APP r f) ir jr kr) = m (L (APP r f) ir jr kr)) by (apply writes_0_frame; auto).
  assert (MP : mp (L (AP r f) ir jr kr) = m (L (AP r f) ir jr kr)) by (apply writes_0_frame; auto).
  assert (MF : mp (L (AF f) i j k) = m (L (AF f) i j k)) by (apply writes_0_frame; auto).
  assert (EV : forall e, In e [cH f i j k; C ad (nextA a); C bd (nextA a); C ad (prevA a); C bd (prevA a); C ibh a; C ah a] -> eval A mp e = eval A m e).
  { intros e He. apply eval_ext. intros l Hl. apply M. eapply pml_E_reads; eauto. }
  destruct (ebody_run A r f (cH f i j k) (C ad (nextA a)) (C bd (nextA a)) (C ad (prevA a)) (C bd (prevA a)) (C ibh a) (C ah a) ir jr kr i j k pml_E_reads E mp) as (R1 & R2 & R3).
  assert (NPP : newPP A r f (cH f i j k) ir jr kr i j k mp = pmlPP' m).
  { unfold pmlPP', newPP. rewrite (M (L (AAlpha f) i j k)), (M (L (ABeta f) i j k)) by discriminate. rewrite MPP, EV by (simpl; tauto). reflexivity. }
  assert (NP : newP A r f (cH f i j k) (C ad (nextA a)) (C bd (nextA a)) ir jr kr i j k mp = pmlP' m).
  { unfold pmlP', newP. rewrite NPP, MPP, MP, !EV by (simpl; tauto). reflexivity. }
  split; [|split].
  - etransitivity; [exact R1|exact NPP].
  - etransitivity; [exact R2|exact NP].
  - etransitivity; [exact R3|]. unfold pmlE', newE. rewrite NP, MP, MF, !EV by (simpl; tauto). reflexivity.
Qed.
End E1.

Section H1.
Variables (r : Face) (f : Fld) (i j k : Z).
Hypotheses (E : is_E f = false) (T : outerSurfaceType c r = BT_PML) (I : inl (fplim c r f) i j k).
Let l0 := fplim c r f.
Let ir := i - l0 XLO. Let jr := j - l0 YLO. Let kr := k - l0 ZLO.
Let a := fld_axis f.
Let x := at3 i j k.
Let C co (b : Axis) : expr V := PC co b (x b).
(** curl of the electric field after the step, everything else before it *)
Definition pmlB' (m m' : mem V) : V :=
  vadd A (vmul A (m (L (APml ah (nextA a)) (x (nextA a)) 0 0)) (m (L (AB r f) ir jr kr)))
         (vmul A (vmul A (m (L (AGamma f) i j k)) (m (L (APml bh (nextA a)) (x (nextA a)) 0 0))) (eval A m' (cH f i j k))).
Definition pmlH' (m m' : mem V) : V :=
  vadd A (vmul A (m (L (APml ah (prevA a)) (x (prevA a)) 0 0)) (m (L (AF f) i j k)))
    (vmul A (vmul A (m (L (APml bh (prevA a)) (x (prevA a)) 0 0)) (m (L (APml ibd a) (x a) 0 0)))
            (vsub A (pmlB' m m') (vmul A (m (L (APml ad a) (x a) 0 0)) (m (L (AB r f) ir jr kr))))).
Hypothesis QB : writes (L (AB r f) ir jr kr) (flat xH) = 0%nat.
Hypothesis QF : writes (L (AF f) i j k) (flat xH) = 0%nat.
Lemma pml_H_reads e l : In e [cH f i j k; C ah (nextA a); C bh (nextA a); C ah (prevA a); C bh (prevA a); C ibd a; C ad a] ->
  In l (reads e) -> kind l <> Some false.
Proof.
  clear - E. intros [<-|H].
  - destruct f; try discriminate E; unfold cH, cEx, cEy, cEz, curl_Ex, curl_Ey, curl_Ez, F, idex, idey, idez; cbn [reads app In];
    intros Hl; repeat (destruct Hl as [<-|Hl]; [cbn; congruence|]); contradiction.
  - unfold C, PC in H. cbn [In] in H. repeat (destruct H as [<-|H]; [cbn [reads In]; intros [<-|[]]; cbn; congruence|]). contradiction.
Qed.
Lemma pml_H_step m : let m' := stepxx m in
  m' (L (AB r f) ir jr kr) = pmlB' m m' /\ m' (L (AF f) i j k) = pmlH' m m'.
Proof.
  cbv zeta. destruct (split_pmlH (V:=V) c r f i j k E T I) as (p & q & S).
  assert (WB : writes (L (AB r f) ir jr kr) (flat (phaseH (V:=V) c)) = 1%nat) by (apply aux_once_H; auto).
  assert (WF : writes (L (AF f) i j k) (flat (phaseH (V:=V) c)) = 1%nat).
  { rewrite writes_phaseH, cover_value by (auto; apply (fplim_outer r); auto).
    destruct (mur_edge c f i j k) eqn:M; [|reflexivity]. exfalso.
    pose proof (writes_phaseH (V:=V) c f i j k E) as Q. rewrite cover_value in Q by (auto; apply (fplim_outer r); auto). rewrite M in Q.
    rewrite S, !writes_app, writes_pmlF, same3_true in Q. destruct f; cbn in Q; lia. }
  rewrite S in WB, WF.
  destruct (block_writes _ _ _ _ WB) as (P1 & P2). { apply aux_self; auto using isAux. rewrite E. tauto. }
  destruct (block_writes _ _ _ _ WF) as (P5 & P6). { rewrite writes_pmlF, same3_true. destruct f; reflexivity. }
  assert (SF : forall l, writes l (flat (updateGhostHfield (V:=V) c)) = 0%nat -> writes l (flat xH) = 0%nat ->
     stepxx m l = run A (flat (phaseH c)) (midE m) l).
  { intros l G X. unfold stepxx, timeStep, midE. rewrite !flat_app, !run_app.
    rewrite (writes_0_frame A (flat (updateGhostHfield c))) by assumption.
    rewrite (writes_0_frame A (flat xH)) by assumption. reflexivity. }
  assert (RB : stepxx m (L (AB r f) ir jr kr) = run A (flat (phaseH c)) (midE m) (L (AB r f) ir jr kr)) by (apply SF; auto; apply (ghost_aux false); auto using isAux).
  assert (RF : stepxx m (L (AF f) i j k) = run A (flat (phaseH c)) (midE m) (L (AF f) i j k)) by (apply SF; auto; apply ghostH_inside; auto; apply (fplim_outer r); auto).
  rewrite S, !run_app in RB, RF. rewrite (writes_0_frame A q) in RB, RF by assumption.
  rewrite pmlF_H in RB, RF by assumption. cbv zeta in RB, RF.
  set (mp := run A p (midE m)) in *.
  assert (M : forall l, kind l <> Some false -> mp l = midE m l).
  { intros l K. apply writes_0_frame. pose proof (phaseH_other (V:=V) c l K) as Q. rewrite S, !writes_app in Q. lia. }
  assert (MD : forall l, kind l = None -> mp l = m l) by (intros l K; rewrite M, midE_other by congruence; reflexivity).
  assert (MB : mp (L (AB r f) ir jr kr) = m (L (AB r f) ir jr kr)) by (unfold mp; rewrite writes_0_frame by auto; apply midE_other; cbn; congruence).
  assert (MF : mp (L (AF f) i j k) = m (L (AF f) i j k)) by (unfold mp; rewrite writes_0_frame by auto; apply midE_other; cbn; congruence).
  assert (EC : eval A mp (cH f i j k) = eval A (stepxx m) (cH f i j k)).
  { apply eval_ext. intros l Hl. assert (K : kind l <> Some false) by (eapply pml_H_reads; eauto; left; reflexivity).
    rewrite M by auto. symmetry. apply stepxx_E. auto. }
  destruct (hbody_run A r f (cH f i j k) (C ah (nextA a)) (C bh (nextA a)) (C ah (prevA a)) (C bh (prevA a)) (C ibd a) (C ad a) ir jr kr i j k pml_H_reads E mp) as (R1 & R2).
  assert (NB : newB A r f (cH f i j k) (C ah (nextA a)) (C bh (nextA a)) ir jr kr i j k mp = pmlB' m (stepxx m)).
  { unfold newB, pmlB', C, PC. cbn [eval]. rewrite EC, MB, !MD by reflexivity. reflexivity. }
  split.
  - rewrite RB. etransitivity; [exact R1|exact NB].
  - rewrite RF. etransitivity; [exact R2|]. unfold newH, pmlH'. rewrite NB. unfold C, PC. cbn [eval]. rewrite MB, MF, !MD by reflexivity. reflexivity.
Qed.
End H1.
(** grid points, with sources *)
Lemma grid_E_step m f i j k : is_E f = true -> inl (gfilim c f) i j k -> writes (L (AF f) i j k) (flat xE) = 0%nat ->
  stepxx m (L (AF f) i j k) =
  vadd A (vmul A (m (L (AAlpha f) i j k)) (m (L (AF f) i j k))) (vmul A (m (L (ABeta f) i j k)) (eval A m (cH f i j k))).
Proof.
  intros E H Q. pose proof (grid_lim_outer c f i j k W H) as HO.
  pose proof (step_gridE A c W m f i j k E H) as S. unfold updStmt in S. rewrite E in S. cbn [rhs eval ALPHA BETA F] in S.
  rewrite <- S. rewrite stepxx_E by (cbn; congruence). unfold midE, step, coreStep, timeStep. cbn [app]. rewrite !flat_app, !run_app.
  rewrite (writes_0_frame A (flat (updateGhostHfield c))) by (apply ghostH_inside; auto).
  rewrite (writes_0_frame A (flat (phaseH c))) by (apply phaseH_other; cbn; congruence).
  rewrite !(writes_0_frame A (flat (updateGhostEfield c))) by (apply ghostE_inside; auto).
  rewrite (writes_0_frame A (flat xE)) by auto. reflexivity.
Qed.
Lemma mesh_H_step m f i j k : is_E f = false -> in_meshH c f i j k -> writes (L (AF f) i j k) (flat xH) = 0%nat ->
  stepxx m (L (AF f) i j k) =
  vadd A (m (L (AF f) i j k)) (vmul A (m (L (AGamma f) i j k)) (eval A (stepxx m) (cH f i j k))).
Proof.
  intros E H Q. pose proof (meshH_outer c W f i j k H) as HO.
  assert (EQ : eval A (stepx A c xE m) (cH f i j k) = eval A (stepxx m) (cH f i j k)).
  { apply eval_ext. intros l Hl. assert (K : kind l <> Some false).
    { destruct (cE_reads c f i j k l E HO Hl) as [->|(g & i' & j' & k' & Eg & -> & _)]; cbn; congruence. }
    rewrite <- (stepx_E_final A c xE m l K), stepxx_E by auto. reflexivity. }
  rewrite <- EQ. rewrite <- (stepx_meshH A c W xE onlyE m f i j k E H).
  unfold stepxx, stepx, timeStep. cbn [app]. rewrite !flat_app, !run_app.
  rewrite !(writes_0_frame A (flat (updateGhostHfield c))) by (apply ghostH_inside; auto).
  rewrite (writes_0_frame A (flat xH)) by auto. reflexivity.
Qed.
End PmlStep.
