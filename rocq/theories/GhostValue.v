(** Values of the ghost cells after a time step. *)
From Coq Require Import ZArith List Bool Lia.
From Verif Require Import Types Lang LangProofs BBox Grid SpecGrid Pml Mur Ghost Step StepShape StepBounds.
Import ListNotations.
Open Scope Z_scope.
Local Arguments Z.mul : simpl never.
Local Arguments Z.add : simpl never.
Local Arguments Z.sub : simpl never.

Section GV.
Context {V : Type} (A : Arith V).
Variable c : Cfg.
Hypothesis W : wf c.

(** statements none of which reads what the list writes *)
Lemma run_indep ss (m : mem V) s :
  (forall s1 s2, In s1 ss -> In s2 ss -> dst s1 = dst s2 -> rhs s1 = rhs s2) ->
  (forall s1 s2, In s1 ss -> In s2 ss -> ~ In (dst s2) (sreads s1)) ->
  In s ss -> run A ss m (dst s) = eval A m (rhs s).
Proof.
  revert m s. induction ss as [|s0 ss IH]; intros m s HD HR Hin; [destruct Hin|]. rewrite run_cons.
  assert (IH' : forall m s, In s ss -> run A ss m (dst s) = eval A m (rhs s)).
  { intros; apply IH; auto; intros; [apply HD|apply HR]; simpl; auto. }
  assert (E0 : forall s1, In s1 (s0 :: ss) -> eval A (run1 A m s0) (rhs s1) = eval A m (rhs s1)).
  { intros s1 H1. apply eval_ext. intros l Hl. unfold run1. apply upd_other. intros ->. apply (HR s1 s0); simpl; auto. }
  destruct (in_dec loc_dec (dst s) (twrites ss)) as [I|N].
  - unfold twrites in I. apply in_map_iff in I. destruct I as (s' & E & Hs'). rewrite <- E, IH' by auto.
    rewrite E0 by (simpl; auto). f_equal. apply HD; simpl; auto.
  - rewrite run_frame by auto. destruct Hin as [->|Hin].
    + unfold run1. apply upd_same.
    + exfalso. apply N. unfold twrites. apply in_map. auto.
Qed.

Definition setc (a : Axis) (n : Z) (l : Loc) : Loc :=
  match a with XDIR => L (arr l) n (lj l) (lk l) | YDIR => L (arr l) (li l) n (lk l) | ZDIR => L (arr l) (li l) (lj l) n end.
Definition active (t : BType) : bool := match t with BT_PEC | BT_PMC | BT_PERIODIC => true | _ => false end.
Definition sgn (t : BType) (x : V) : V := match t with BT_PMC => vneg A x | _ => x end.
Definition srcIdx (G : Face) : Z :=
  match outerSurfaceType c G with BT_PERIODIC => wrapIdx c G | _ => insideIdx c G end.
(** in the range of the ghost loops along the two axes other than [a] *)
Definition okr (a : Axis) (l : Loc) : Prop :=
  forall b, b <> a -> gobox c (face_lo b) - 1 <= coord b l <= gobox c (face_hi b).
Definition carried (isE : bool) (G : Face) (l : Loc) : Prop :=
  exists f, arr l = AF f /\ is_E f = isE /\ fieldIsInBoundary f G = false.
Definition ghostF (isE : bool) (G : Face) : list (stmt V) := if isE then ghostE c G else ghostH c G.

Lemma at_axis_setc a n p q f : coord a (at_axis (AF f) a n p q) = n /\
  forall n', setc a n' (at_axis (AF f) a n p q) = at_axis (AF f) a n' p q.
Proof. destruct a; split; reflexivity. Qed.

Lemma ghostF_stmts isE G s : In s (ghostF isE G) <->
  active (outerSurfaceType c G) = true /\
  exists l, carried isE G l /\ okr (face_axis G) l /\ coord (face_axis G) l = ghostIdx c G /\
    s = Asg l (match outerSurfaceType c G with BT_PMC => Neg (Rd (setc (face_axis G) (srcIdx G) l)) | _ => Rd (setc (face_axis G) (srcIdx G) l) end).
Proof.
  assert (OK : forall f p q, gobox c (face_lo (other1 (face_axis G))) - 1 <= p <= gobox c (face_hi (other1 (face_axis G))) ->
     gobox c (face_lo (other2 (face_axis G))) - 1 <= q <= gobox c (face_hi (other2 (face_axis G))) ->
     okr (face_axis G) (at_axis (AF f) (face_axis G) (ghostIdx c G) p q)).
  { intros f p q Hp Hq b Nb. destruct (face_axis G), b; try congruence; exact Hp || exact Hq. }
  split.
  - intros H. unfold ghostF in H.
    assert (X : active (outerSurfaceType c G) = true /\ exists f p q, is_E f = isE /\ fieldIsInBoundary f G = false /\
      gobox c (face_lo (other1 (face_axis G))) - 1 <= p <= gobox c (face_hi (other1 (face_axis G))) /\
      gobox c (face_lo (other2 (face_axis G))) - 1 <= q <= gobox c (face_hi (other2 (face_axis G))) /\
      s = Asg (at_axis (AF f) (face_axis G) (ghostIdx c G) p q) (match outerSurfaceType c G with
         BT_PMC => Neg (Rd (at_axis (AF f) (face_axis G) (srcIdx G) p q)) | _ => Rd (at_axis (AF f) (face_axis G) (srcIdx G) p q) end)).
    { unfold srcIdx. destruct isE.
      - unfold ghostE in H. destruct (outerSurfaceType c G) eqn:ET; try contradiction;
        apply in_ghost_loop in H; destruct H as (p & q & Hp & Hq & Hs); (split; [reflexivity|]);
        (destruct Hs as [<-|[]]; exists (Efld (face_axis G)), p, q; repeat split; auto using Efld_isE, Efld_inb; lia).
      - unfold ghostH in H. destruct (tangH_inb G) as [B1 B2]. destruct (tangH_isE (face_axis G)) as [E1 E2].
        destruct (outerSurfaceType c G) eqn:ET; try contradiction;
        apply in_ghost_loop in H; destruct H as (p & q & Hp & Hq & Hs); (split; [reflexivity|]);
        (destruct Hs as [<-|[<-|[]]]; [exists (fst (tangH (face_axis G))), p, q|exists (snd (tangH (face_axis G))), p, q];
         repeat split; auto; lia). }
    destruct X as (HA & f & p & q & E & B & Hp & Hq & ->). split; [exact HA|].
    exists (at_axis (AF f) (face_axis G) (ghostIdx c G) p q).
    destruct (at_axis_setc (face_axis G) (ghostIdx c G) p q f) as [C1 C2].
    split; [exists f; split; [destruct (face_axis G); reflexivity|auto]|].
    split; [apply OK; auto|]. split; [exact C1|]. rewrite C2. reflexivity.
  - intros (HA & l & (f & Ef & E & B) & HO & HC & ->). unfold ghostF.
    assert (X : exists p q, l = at_axis (AF f) (face_axis G) (ghostIdx c G) p q /\
      gobox c (face_lo (other1 (face_axis G))) - 1 <= p <= gobox c (face_hi (other1 (face_axis G))) /\
      gobox c (face_lo (other2 (face_axis G))) - 1 <= q <= gobox c (face_hi (other2 (face_axis G)))).
    { exists (coord (other1 (face_axis G)) l), (coord (other2 (face_axis G)) l).
      split; [|split; apply HO; destruct G; discriminate].
      destruct l as [a i j k]. cbn [arr] in Ef. subst a. destruct G; cbn in *; congruence. }
    destruct X as (p & q & -> & Hp & Hq).
    destruct (at_axis_setc (face_axis G) (ghostIdx c G) p q f) as [_ C2]. rewrite C2.
    unfold srcIdx. destruct isE.
    + assert (f = Efld (face_axis G)) by (destruct f; try discriminate E; destruct G; try discriminate B; reflexivity). subst f.
      unfold ghostE. destruct (outerSurfaceType c G); try discriminate HA;
      apply in_ghost_loop; exists p, q; (split; [exact Hp|split; [exact Hq|left; reflexivity]]).
    + assert (FF : f = fst (tangH (face_axis G)) \/ f = snd (tangH (face_axis G)))
        by (destruct f; try discriminate E; destruct G; try discriminate B; cbn; auto).
      unfold ghostH. destruct FF as [->| ->]; destruct (outerSurfaceType c G); try discriminate HA;
      apply in_ghost_loop; exists p, q; (split; [exact Hp|split; [exact Hq|]]); [left|left|left|right; left|right; left|right; left]; reflexivity.
Qed.

Lemma idx_ne G : srcIdx G <> ghostIdx c G /\ srcIdx G <> ghostIdx c (opposite G) /\ ghostIdx c G <> ghostIdx c (opposite G) /\
  gobox c (face_lo (face_axis G)) - 1 <= ghostIdx c G <= gobox c (face_hi (face_axis G)) /\
  gobox c (face_lo (face_axis G)) - 1 <= srcIdx G <= gobox c (face_hi (face_axis G)).
Proof.
  cfg_facts c W. unfold srcIdx, ghostIdx, wrapIdx, insideIdx.
  destruct G; cbn [opposite is_lo face_axis face_lo face_hi]; destruct (outerSurfaceType c _); lia.
Qed.

Lemma setc_same a l : setc a (coord a l) l = l.
Proof. destruct l, a; reflexivity. Qed.
Lemma setc_setc a n n' l : setc a n (setc a n' l) = setc a n l.
Proof. destruct a; reflexivity. Qed.
Lemma coord_setc a n l : coord a (setc a n l) = n.
Proof. destruct a; reflexivity. Qed.
Lemma coord_setc_other a b n l : a <> b -> coord a (setc b n l) = coord a l.
Proof. destruct a, b; congruence || reflexivity. Qed.
Lemma setc_comm a b n n' l : a <> b -> setc a n (setc b n' l) = setc b n' (setc a n l).
Proof. destruct a, b; congruence || reflexivity. Qed.
Lemma arr_setc a n l : arr (setc a n l) = arr l.
Proof. destruct a; reflexivity. Qed.

Lemma ghostF_val isE G m l : active (outerSurfaceType c G) = true -> carried isE G l -> okr (face_axis G) l ->
  coord (face_axis G) l = ghostIdx c G ->
  run A (ghostF isE G) m l = sgn (outerSurfaceType c G) (m (setc (face_axis G) (srcIdx G) l)).
Proof.
  intros HA HC HO Hl.
  set (s := Asg l (match outerSurfaceType c G with BT_PMC => Neg (Rd (setc (face_axis G) (srcIdx G) l)) | _ => Rd (setc (face_axis G) (srcIdx G) l) end) : stmt V).
  change (run A (ghostF isE G) m (dst s) = sgn (outerSurfaceType c G) (m (setc (face_axis G) (srcIdx G) l))).
  rewrite run_indep.
  - unfold s, rhs, sgn. destruct (outerSurfaceType c G); reflexivity.
  - intros s1 s2 H1 H2. apply ghostF_stmts in H1. apply ghostF_stmts in H2.
    destruct H1 as (_ & l1 & _ & _ & _ & ->), H2 as (_ & l2 & _ & _ & _ & ->). cbn [dst]. intros ->. reflexivity.
  - intros s1 s2 H1 H2. apply ghostF_stmts in H1. apply ghostF_stmts in H2.
    destruct H1 as (_ & l1 & _ & _ & C1 & ->), H2 as (_ & l2 & _ & _ & C2 & ->). cbn [dst]. intros I.
    assert (E : l2 = setc (face_axis G) (srcIdx G) l1).
    { unfold sreads in I. cbn [rhs] in I. destruct (outerSurfaceType c G); destruct I as [I|[]]; auto. }
    rewrite E in C2. rewrite coord_setc in C2. destruct (idx_ne G) as (N & _). congruence.
  - apply ghostF_stmts. split; [exact HA|]. exists l. auto.
Qed.
Lemma ghostF_frame isE G m l : ~ (active (outerSurfaceType c G) = true /\ carried isE G l /\ okr (face_axis G) l /\
  coord (face_axis G) l = ghostIdx c G) -> run A (ghostF isE G) m l = m l.
Proof.
  intros N. apply run_frame. intros I. unfold twrites in I. apply in_map_iff in I. destruct I as (s & E & Hs).
  apply ghostF_stmts in Hs. destruct Hs as (HA & l' & H1 & H2 & H3 & ->). cbn [dst] in E. subst l'. auto.
Qed.

(** the relation a face imposes between its ghost plane and the source plane *)
Definition rel (isE : bool) (G : Face) (m : mem V) : Prop :=
  active (outerSurfaceType c G) = true -> forall l, carried isE G l -> okr (face_axis G) l ->
  m (setc (face_axis G) (ghostIdx c G) l) = sgn (outerSurfaceType c G) (m (setc (face_axis G) (srcIdx G) l)).

Lemma carried_setc isE G a n l : carried isE G l -> carried isE G (setc a n l).
Proof. unfold carried. rewrite arr_setc. auto. Qed.
Lemma carried_setc_inv isE G a n l : carried isE G (setc a n l) -> carried isE G l.
Proof. unfold carried. rewrite arr_setc. auto. Qed.
Lemma okr_setc a n l : okr a l -> okr a (setc a n l).
Proof. intros H b N. rewrite coord_setc_other by auto. auto. Qed.

Lemma rel_self isE G m : rel isE G (run A (ghostF isE G) m).
Proof.
  intros HA l HC HO. destruct (idx_ne G) as (N & _).
  rewrite ghostF_val by (auto using carried_setc, okr_setc, coord_setc). rewrite setc_setc.
  rewrite (ghostF_frame isE G m (setc _ (srcIdx G) l)); [reflexivity|].
  intros (_ & _ & _ & X). rewrite coord_setc in X. congruence.
Qed.
Lemma sgn_comm t t' x : sgn t (sgn t' x) = sgn t' (sgn t x).
Proof. destruct t, t'; reflexivity. Qed.
Lemma faces_rel F G : F = G \/ G = opposite F \/ face_axis F <> face_axis G.
Proof. destruct F, G; cbn; auto; right; right; discriminate. Qed.

Lemma rel_other isE F G m : F <> G -> rel isE F m -> rel isE F (run A (ghostF isE G) m).
Proof.
  intros NE HR HA l HC HO. destruct (faces_rel F G) as [E|[->|NA]]; [congruence| |].
  - destruct (idx_ne F) as (N1 & N2 & N3 & _). assert (AX : face_axis (opposite F) = face_axis F) by (destruct F; reflexivity).
    rewrite !ghostF_frame; [apply HR; auto| |]; intros (_ & _ & _ & X); rewrite AX, coord_setc in X; congruence.
  - destruct (active (outerSurfaceType c G)) eqn:AG.
    2:{ rewrite !ghostF_frame by (intros (X & _); congruence). apply HR; auto. }
    destruct (Z.eq_dec (coord (face_axis G) l) (ghostIdx c G)) as [EG|NG].
    2:{ rewrite !ghostF_frame; [apply HR; auto| |]; intros (_ & _ & _ & X); rewrite coord_setc_other in X by congruence; congruence. }
    assert (DC : carried isE G l \/ ~ carried isE G l).
    { destruct HC as (f & Ef & E & B). destruct (fieldIsInBoundary f G) eqn:FB.
      - right. intros (f' & Ef' & _ & B'). congruence.
      - left. exists f. auto. }
    destruct DC as [DC|DC].
    2:{ rewrite !ghostF_frame; [apply HR; auto| |]; intros (_ & X & _); apply carried_setc_inv in X; auto. }
    destruct (idx_ne F) as (_ & _ & _ & RG & RS). destruct (idx_ne G) as (_ & _ & _ & RG' & RS').
    assert (OKG : forall n, gobox c (face_lo (face_axis F)) - 1 <= n <= gobox c (face_hi (face_axis F)) -> okr (face_axis G) (setc (face_axis F) n l)).
    { intros n Hn b Nb. destruct (axis_dec b (face_axis F)) as [->|Nb'].
      - rewrite coord_setc. exact Hn.
      - rewrite coord_setc_other by auto. apply HO; auto. }
    rewrite !ghostF_val; auto using carried_setc; try (rewrite coord_setc_other by congruence; exact EG).
    rewrite !(setc_comm (face_axis G) (face_axis F)) by congruence.
    rewrite HR; [apply sgn_comm|auto|apply carried_setc; auto|].
    intros b Nb. destruct (axis_dec b (face_axis G)) as [->|Nb'].
    + rewrite coord_setc. exact RS'.
    + rewrite coord_setc_other by auto. apply HO; auto.
Qed.

Lemma rel_all isE F m : rel isE F (run A (flat_map (ghostF isE) faces) m).
Proof.
  assert (X : forall fs m, (In F fs \/ rel isE F m) -> rel isE F (run A (flat_map (ghostF isE) fs) m)).
  { induction fs as [|G fs IH]; intros m' H.
    - destruct H as [[]|H]; exact H.
    - cbn [flat_map]. rewrite run_app. apply IH. destruct (face_dec G F) as [->|N].
      + right. apply rel_self.
      + destruct H as [[->|H]|H]; [congruence|auto|]. right. apply rel_other; auto. }
  apply X. left. destruct F; simpl; tauto.
Qed.

Lemma rel_ghostE F m : rel true F (run A (flat (updateGhostEfield c)) m).
Proof. unfold updateGhostEfield, flat. cbn [flat_map flat_item]. rewrite app_nil_r. apply (rel_all true F). Qed.
Lemma rel_ghostH F m : rel false F (run A (flat (updateGhostHfield c)) m).
Proof. unfold updateGhostHfield, flat. cbn [flat_map flat_item]. rewrite app_nil_r. apply (rel_all false F). Qed.
End GV.
