(** C72: the gnuplot export. *)
From Coq Require Import String ZArith List Bool Reals Lra Lia.
From Verif Require Import Types Lang BBox SpecGeom CArr LangProofs Gmsh SpecGmsh GmshProofs Gnuplot SpecGnuplot.
Import ListNotations.
Local Open Scope string_scope. Open Scope Z_scope. Local Open Scope list_scope.

Section One.
Variables (n : Axis -> Z) (physical : bool) (lines : Axis -> carr R).
Hypothesis HL : has_n_lines n lines.
Let u := place physical lines.
Lemma index_ok i a : 0 <= i <= n a -> indexInRealUnits physical lines i a = Some (u a i).
Proof.
  intros I. unfold indexInRealUnits, u, place. destruct physical; [|reflexivity]. unfold rd, ok. destruct (HL a) as (_ & ->).
  destruct (Z.leb_spec 0 i), (Z.ltb_spec i (n a + 1)); try lia. reflexivity.
Qed.
Definition units (b : BBox) : Face -> R := fun f => u (face_axis f) (b f).
Lemma box_ok b : within_mesh n b -> exists r, bboxInRealUnits physical lines b = Some r /\ forall f, r f = units b f.
Proof.
  intros W. pose proof (W XDIR). pose proof (W YDIR). pose proof (W ZDIR). cbn [face_lo face_hi] in *.
  unfold bboxInRealUnits. rewrite !index_ok by lia. cbn [obind]. eexists. split; [reflexivity|]. intros []; reflexivity.
Qed.
Lemma types_of b : let d a := degenerate b a in
  bboxType b = match d XDIR, d YDIR, d ZDIR with
    | true, true, true => BB_POINT | false, false, false => BB_VOLUME
    | true, true, false | true, false, true | false, true, true => BB_LINE | _, _, _ => BB_SURFACE end /\
  bboxDirection b = match d XDIR, d YDIR, d ZDIR with
    | true, false, false | false, true, true => Some XDIR | false, true, false | true, false, true => Some YDIR
    | false, false, true | true, true, false => Some ZDIR | _, _, _ => None end.
Proof.
  cbv zeta. unfold bboxType, bboxDirection, bboxMask, degenerate. cbn [face_lo face_hi].
  destruct (b XLO =? b XHI), (b YLO =? b YHI), (b ZLO =? b ZHI); split; reflexivity.
Qed.
Lemma degenerate_eq b a : degenerate b a = true -> b (face_hi a) = b (face_lo a).
Proof. unfold degenerate. intros E. apply Z.eqb_eq in E. congruence. Qed.
Lemma degenerate_ne b a : degenerate b a = false -> b (face_lo a) <> b (face_hi a).
Proof. unfold degenerate. intros E. apply Z.eqb_neq in E. exact E. Qed.
Lemma zrange_one i : zrange i i = [i].
Proof. rewrite zrange_cons, zrange_nil by lia. reflexivity. Qed.

(** the edges of a box, listed: along each axis it extends along, the four
    (possibly coinciding) edges *)
Definition sgn (x y z : bool) : Axis -> bool := fun a => match a with XDIR => x | YDIR => y | ZDIR => z end.
Definition cn (b : BBox) (x y z : bool) : R * R * R := node u (corner b (sgn x y z)).
Definition bools := [false; true].
Definition edgesOf (b : BBox) : list ((R * R * R) * (R * R * R)) :=
  flat_map (fun y => flat_map (fun z => (if degenerate b XDIR then [] else [(cn b false y z, cn b true y z)]) ++
     (if degenerate b YDIR then [] else [(cn b y false z, cn b y true z)]) ++
     (if degenerate b ZDIR then [] else [(cn b y z false, cn b y z true)])) bools) bools.
Lemma edge_listed b p q : edge u b p q <-> In (p, q) (edgesOf b) \/ In (q, p) (edgesOf b).
Proof.
  assert (E : forall s, node u (corner b s) = cn b (s XDIR) (s YDIR) (s ZDIR)) by (intros s; reflexivity).
  split.
  - intros (a & s & s' & N & D & O & -> & ->). rewrite !E.
    assert (DG : degenerate b a = false) by (unfold degenerate; apply Z.eqb_neq; exact N).
    assert (IB : forall x, In x bools) by (intros []; cbn; auto).
    destruct a.
    + rewrite <- (O YDIR), <- (O ZDIR) by discriminate.
      assert (M : In (cn b false (s YDIR) (s ZDIR), cn b true (s YDIR) (s ZDIR)) (edgesOf b)).
      { unfold edgesOf. apply in_flat_map. exists (s YDIR). split; [apply IB|]. apply in_flat_map. exists (s ZDIR). split; [apply IB|]. rewrite DG. left. reflexivity. }
      destruct (s XDIR), (s' XDIR); try congruence; [right|left]; exact M.
    + rewrite <- (O XDIR), <- (O ZDIR) by discriminate.
      assert (M : In (cn b (s XDIR) false (s ZDIR), cn b (s XDIR) true (s ZDIR)) (edgesOf b)).
      { unfold edgesOf. apply in_flat_map. exists (s XDIR). split; [apply IB|]. apply in_flat_map. exists (s ZDIR). split; [apply IB|]. rewrite DG. apply in_or_app. right. left. reflexivity. }
      destruct (s YDIR), (s' YDIR); try congruence; [right|left]; exact M.
    + rewrite <- (O XDIR), <- (O YDIR) by discriminate.
      assert (M : In (cn b (s XDIR) (s YDIR) false, cn b (s XDIR) (s YDIR) true) (edgesOf b)).
      { unfold edgesOf. apply in_flat_map. exists (s XDIR). split; [apply IB|]. apply in_flat_map. exists (s YDIR). split; [apply IB|]. rewrite DG. apply in_or_app. right. apply in_or_app. right. left. reflexivity. }
      destruct (s ZDIR), (s' ZDIR); try congruence; [right|left]; exact M.
  - assert (K : forall p q, In (p, q) (edgesOf b) -> edge u b p q).
    { clear p q. intros p q I. unfold edgesOf in I. apply in_flat_map in I. destruct I as (y & _ & I). apply in_flat_map in I. destruct I as (z & _ & I).
      rewrite !in_app_iff in I. destruct I as [I|[I|I]].
      - destruct (degenerate b XDIR) eqn:D; [destruct I|]. destruct I as [I|[]]. injection I as <- <-.
        exists XDIR, (sgn false y z), (sgn true y z). split; [exact (degenerate_ne b XDIR D)|]. split; [discriminate|]. split; [intros []; cbn; congruence|]. split; reflexivity.
      - destruct (degenerate b YDIR) eqn:D; [destruct I|]. destruct I as [I|[]]. injection I as <- <-.
        exists YDIR, (sgn y false z), (sgn y true z). split; [exact (degenerate_ne b YDIR D)|]. split; [discriminate|]. split; [intros []; cbn; congruence|]. split; reflexivity.
      - destruct (degenerate b ZDIR) eqn:D; [destruct I|]. destruct I as [I|[]]. injection I as <- <-.
        exists ZDIR, (sgn y z false), (sgn y z true). split; [exact (degenerate_ne b ZDIR D)|]. split; [discriminate|]. split; [intros []; cbn; congruence|]. split; reflexivity. }
    intros [I|I]; [exact (K _ _ I)|]. destruct (K _ _ I) as (a & s & s' & N & D & O & E1 & E2). exists a, s', s. split; [exact N|]. split; [congruence|]. split; [intros c NC; symmetry; auto|]. split; assumption.
Qed.
Definition cornersOf (b : BBox) : list (R * R * R) := flat_map (fun x => flat_map (fun y => map (cn b x y) bools) bools) bools.
Lemma corner_listed b p : (exists s, p = node u (corner b s)) <-> In p (cornersOf b).
Proof.
  split.
  - intros (s & ->). change (node u (corner b s)) with (cn b (s XDIR) (s YDIR) (s ZDIR)). destruct (s XDIR), (s YDIR), (s ZDIR); cbn; tauto.
  - intros I. unfold cornersOf in I. apply in_flat_map in I. destruct I as (x & _ & I). apply in_flat_map in I. destruct I as (y & _ & I). apply in_map_iff in I. destruct I as (z & <- & _). exists (sgn x y z). reflexivity.
Qed.
Lemma wireframe_by b recs : 
  (forall p q, In (p, q) (strokes recs) -> In (p, q) (edgesOf b) \/ In (q, p) (edgesOf b)) ->
  (forall p q, In (p, q) (edgesOf b) -> In (p, q) (strokes recs) \/ In (q, p) (strokes recs)) ->
  (forall p, In (Pt p) recs -> In p (cornersOf b)) -> (forall p, In p (cornersOf b) -> In (Pt p) recs) -> (exists l, recs = (l ++ [Gap])%list) -> wireframe u b recs.
Proof.
  intros A B C D G. split; [intros p q I; apply edge_listed; auto|]. split; [|split; [|exact G]].
  - intros p q E. apply edge_listed in E. destruct E as [E|E]; [auto|]. apply B in E. tauto.
  - intros p. rewrite corner_listed. split; auto.
Qed.
Ltac fin := intros; repeat match goal with H : _ \/ _ |- _ => destruct H as [H|H] | H : False |- _ => destruct H end;
  try match goal with H : _ = _ |- _ => first [discriminate H | injection H as <- <- | injection H as <- | rewrite <- H] end; auto 40.
Lemma box_drawn b : within_mesh n b -> exists recs, gnuplotBoundingBox physical lines b = Some recs /\ wireframe u b recs.
Proof.
  intros W. destruct (box_ok b W) as (r & ER & RV). destruct (types_of b) as (T & D).
  unfold gnuplotBoundingBox. rewrite T, D. clear T D. unfold gnuplotPoint, gnuplotLine, gnuplotSurface, gnuplotVolume. rewrite ER. cbn [obind].
  assert (IX : forall a, indexInRealUnits physical lines (b (face_lo a)) a = Some (u a (b (face_lo a)))).
  { intros a. pose proof (W a). apply index_ok. lia. }
  pose proof (IX XDIR) as IXX. pose proof (IX YDIR) as IXY. pose proof (IX ZDIR) as IXZ. cbn [face_lo] in IXX, IXY, IXZ. clear IX.
  assert (VX : r XLO = u XDIR (b XLO)) by apply RV. assert (VX1 : r XHI = u XDIR (b XHI)) by apply RV.
  assert (VY : r YLO = u YDIR (b YLO)) by apply RV. assert (VY1 : r YHI = u YDIR (b YHI)) by apply RV.
  assert (VZ : r ZLO = u ZDIR (b ZLO)) by apply RV. assert (VZ1 : r ZHI = u ZDIR (b ZHI)) by apply RV.
  clear RV ER W.
  assert (CN : forall x y z, cn b x y z = (u XDIR (b (if x then XHI else XLO)), u YDIR (b (if y then YHI else YLO)), u ZDIR (b (if z then ZHI else ZLO)))).
  { intros [] [] []; reflexivity. }
  destruct (degenerate b XDIR) eqn:DX, (degenerate b YDIR) eqn:DY, (degenerate b ZDIR) eqn:DZ;
  try (pose proof (degenerate_eq b XDIR DX) as EX1; cbn [face_lo face_hi] in EX1); try (pose proof (degenerate_eq b YDIR DY) as EY1; cbn [face_lo face_hi] in EY1); try (pose proof (degenerate_eq b ZDIR DZ) as EZ1; cbn [face_lo face_hi] in EZ1);
  rewrite ?EX1, ?EY1, ?EZ1, ?zrange_one; cbn [map concatO]; rewrite ?IXX, ?IXY, ?IXZ; cbn [obind app];
  (eexists; split; [reflexivity|]); unfold pt; rewrite ?VX, ?VX1, ?VY, ?VY1, ?VZ, ?VZ1, ?EX1, ?EY1, ?EZ1;
  apply wireframe_by; unfold edgesOf, cornersOf; rewrite ?DX, ?DY, ?DZ; cbn [flat_map bools app map strokes]; rewrite ?CN; cbv iota; rewrite ?EX1, ?EY1, ?EZ1;
  repeat match goal with |- context [u ?a ?i] => let v := fresh "w" in generalize (u a i) as v; intros v end;
  try (cbn [In]; fin; fail).
  all: match goal with |- exists l, ?x = _ => exists (removelast x); reflexivity end.
Qed.

Variable mbox : BBox.
Hypothesis HM : is_mesh n mbox.
Lemma mesh_within : within_mesh n mbox.
Proof. intros a. destruct (HM a) as (-> & ->). destruct (HL a). lia. Qed.
Lemma header_ok : exists h, gnuplotProblemSize physical lines mbox = Some h /\ extent_first u mbox h.
Proof.
  unfold gnuplotProblemSize. destruct (box_ok mbox mesh_within) as (r & -> & RV). cbn [obind]. eexists. split; [reflexivity|].
  unfold extent_first, pt, node. rewrite !RV. unfold units. cbn [face_axis face_lo face_hi In]. split; [left; reflexivity|]. do 4 right. left. reflexivity.
Qed.
Lemma concatO_map {A B} (f : A -> option (list B)) (P : A -> list B -> Prop) l : (forall x, In x l -> exists y, f x = Some y /\ P x y) ->
  exists ps, concatO (map f l) = Some (concat ps) /\ Forall2 P l ps.
Proof.
  induction l as [|x l IH]; intros K; [exists []; split; [reflexivity|constructor]|].
  destruct (K x (or_introl eq_refl)) as (y & E & Py). destruct IH as (ps & E' & F); [intros z I; apply K; right; exact I|].
  exists (y :: ps). cbn [map concatO]. rewrite E. cbn [obind]. rewrite E'. split; [reflexivity|constructor; assumption].
Qed.
Lemma boxes_drawn bs : Forall (within_mesh n) bs -> exists h ps, gnuplotBoxes physical lines mbox bs = Some (h ++ concat ps) /\ extent_first u mbox h /\ Forall2 (wireframe u) bs ps.
Proof.
  intros W. destruct header_ok as (h & EH & XH). destruct (concatO_map (gnuplotBoundingBox physical lines) (wireframe u) bs) as (ps & EP & F).
  { intros b I. apply box_drawn. exact (proj1 (Forall_forall _ _) W b I). }
  exists h, ps. unfold gnuplotBoxes, withSize. rewrite EH, EP. cbn [obind]. split; [reflexivity|]. split; assumption.
Qed.
Lemma grid_boxes : Forall (within_mesh n) (gridLineBoxes mbox (fun a => n a + 1)).
Proof.
  pose proof mesh_within as W. pose proof (W XDIR) as WX. pose proof (W YDIR) as WY. pose proof (W ZDIR) as WZ. cbn [face_lo face_hi] in WX, WY, WZ. clear W.
  apply Forall_forall. intros b I. unfold gridLineBoxes in I. rewrite !in_app_iff in I.
  do 5 (try (destruct I as [I|I])); apply in_map_iff in I; destruct I as (i & <- & I); apply in_zrange in I; intros []; cbn [mkbox face_lo face_hi]; lia.
Qed.
Lemma grid_lines_in a i c : 0 <= i <= n a -> a <> c -> exists b, In b (gridLineBoxes mbox (fun a => n a + 1)) /\ grid_line n a i c b.
Proof.
  intros I NE. pose proof (HM XDIR) as WX. pose proof (HM YDIR) as WY. pose proof (HM ZDIR) as WZ. cbn [face_lo face_hi] in WX, WY, WZ.
  assert (IZ : In i (zrange 0 (n a + 1 - 1))) by (apply in_zrange; lia).
  unfold gridLineBoxes. destruct a, c; try congruence; eexists; (split; [rewrite !in_app_iff|]).
  all: match goal with
    | |- grid_line _ _ _ _ _ => idtac
    | |- ?A \/ _ => idtac end.
  1: left; apply in_map_iff; exists i; split; [reflexivity|exact IZ].
  2: right; left; apply in_map_iff; exists i; split; [reflexivity|exact IZ].
  3: right; right; left; apply in_map_iff; exists i; split; [reflexivity|exact IZ].
  4: right; right; right; left; apply in_map_iff; exists i; split; [reflexivity|exact IZ].
  5: right; right; right; right; left; apply in_map_iff; exists i; split; [reflexivity|exact IZ].
  6: right; right; right; right; right; apply in_map_iff; exists i; split; [reflexivity|exact IZ].
  all: split; [congruence|]; cbn [mkbox face_lo face_hi]; do 4 (split; [lia|]); intros [] D1 D2; try congruence; cbn [mkbox face_lo face_hi]; lia.
Qed.

Definition arrow_fits (b : BBox) (a : Axis) : Prop := physical = false \/ b (face_lo a) <> b (face_hi a) \/ b (face_lo a) + 2 <= n a.
Lemma box_idx b : (physical = false \/ within_mesh n b) -> exists r, bboxInRealUnits physical lines b = Some r /\ forall f, r f = units b f.
Proof.
  intros [P|W]; [|exact (box_ok b W)]. unfold bboxInRealUnits, units, u, indexInRealUnits, place. rewrite P. cbn [obind]. eexists. split; [reflexivity|]. intros []; reflexivity.
Qed.
Lemma stretch_tip b a f : stretch b a f = tip b a f.
Proof.
  unfold stretch, tip. rewrite (Z.eqb_sym (b (face_lo a))). destruct (b (face_hi a) =? b (face_lo a)); [|rewrite andb_false_r; reflexivity].
  rewrite andb_true_r. destruct a, f; reflexivity.
Qed.
Lemma tip_within b a : within_mesh n b -> arrow_fits b a -> physical = false \/ within_mesh n (stretch b a).
Proof.
  intros W [P|F]; [left; exact P|]. right. intros c. pose proof (W c) as WC. rewrite !stretch_tip. unfold tip. pose proof (W a).
  destruct (Z.eqb_spec (b (face_lo a)) (b (face_hi a))); [|rewrite !andb_false_r; exact WC].
  rewrite !andb_true_r. destruct F as [F|F]; [congruence|]. destruct a, c; cbn [face_lo face_hi face_axis axis_eqb] in *; lia.
Qed.
Lemma arrow_drawn b a : within_mesh n b -> arrow_fits b a -> exists e b', gnuplotBoundingBoxArrow physical lines b a = Some (e, b') /\ arrow u b a e.
Proof.
  intros W F. unfold gnuplotBoundingBoxArrow. destruct (box_ok b W) as (r0 & -> & _). cbn [obind].
  destruct (box_idx (stretch b a) (tip_within b a W F)) as (r & -> & RV). cbn [obind]. eexists. eexists. split; [reflexivity|].
  unfold arrow. cbv zeta. unfold triple, face_middle.
  assert (RT : forall f, r f = u (face_axis f) (tip b a f)) by (intros f; rewrite RV; unfold units; rewrite stretch_tip; reflexivity).
  assert (MID : forall x y, ((x + y) * (5 / 10) + 0 = (x + y) / 2)%R) by (intros; field).
  assert (MI2 : forall x y, ((x + y) * (5 / 10) = (x + y) / 2)%R) by (intros; field).
  assert (L1 : forall x, (- (5 / 10 * x) = -1 * (x / 2))%R) by (intros; field). assert (L2 : forall x, (5 / 10 * x = 1 * (x / 2))%R) by (intros; field).
  rewrite !stretch_tip. destruct a; cbn [face_lo face_hi axis_eqb]; rewrite !RT, ?MID, ?MI2, ?L1, ?L2; reflexivity.
Qed.
Lemma arrow_outside b a : within_mesh n b -> ~ arrow_fits b a -> gnuplotBoundingBoxArrow physical lines b a = None.
Proof.
  intros W F. assert (P : physical = true) by (unfold arrow_fits in F; destruct physical; [reflexivity|tauto]).
  assert (E : b (face_lo a) = b (face_hi a)) by (unfold arrow_fits in F; lia).
  assert (O : n a < b (face_lo a) + 2) by (unfold arrow_fits in F; lia).
  unfold gnuplotBoundingBoxArrow. destruct (box_ok b W) as (r0 & -> & _). cbn [obind].
  assert (T : stretch b a (face_hi a) = b (face_lo a) + 2).
  { rewrite stretch_tip. unfold tip. rewrite E, Z.eqb_refl. destruct a; cbn [face_lo face_hi face_axis axis_eqb andb]; reflexivity. }
  assert (X : indexInRealUnits physical lines (stretch b a (face_hi a)) a = None).
  { rewrite T. unfold indexInRealUnits. rewrite P. unfold rd, ok. destruct (HL a) as (_ & ->). destruct (Z.leb_spec 0 (b (face_lo a) + 2)), (Z.ltb_spec (b (face_lo a) + 2) (n a + 1)); try lia; reflexivity. }
  unfold bboxInRealUnits. destruct a; cbn [face_lo face_hi] in *; rewrite X;
    repeat match goal with |- context [indexInRealUnits ?p ?l ?i ?d] => destruct (indexInRealUnits p l i d); cbn [obind] end; reflexivity.
Qed.
Lemma sources_drawn srcs : Forall (fun s => within_mesh n (fst s) /\ arrow_fits (fst s) (snd s)) srcs ->
  exists h ps, gnuplotSources physical lines mbox srcs = Some (h ++ concat ps) /\ extent_first u mbox h /\
    Forall2 (fun s recs => exists d e, recs = (d ++ e)%list /\ wireframe u (fst s) d /\ arrow u (fst s) (snd s) e) srcs ps.
Proof.
  intros W. destruct header_ok as (h & EH & XH).
  destruct (concatO_map (fun s => do d <- gnuplotBoundingBox physical lines (fst s); do e <- gnuplotBoundingBoxArrow physical lines (fst s) (snd s); Some (d ++ fst e)%list)
     (fun s recs => exists d e, recs = (d ++ e)%list /\ wireframe u (fst s) d /\ arrow u (fst s) (snd s) e) srcs) as (ps & EP & F).
  { intros s I. destruct (proj1 (Forall_forall _ _) W s I) as (W1 & W2). destruct (box_drawn _ W1) as (d & -> & D). cbn [obind].
    destruct (arrow_drawn _ _ W1 W2) as (e & b' & -> & A). cbn [obind fst]. eexists. split; [reflexivity|]. exists d, e. auto. }
  exists h, ps. unfold gnuplotSources, withSize. rewrite EH, EP. cbn [obind]. auto.
Qed.
Lemma concatO_none {A B} (f : A -> option (list B)) l x : In x l -> f x = None -> concatO (map f l) = None.
Proof.
  induction l as [|y l IH]; intros I E; [destruct I|]. cbn [map concatO]. destruct I as [->|I]; [rewrite E; reflexivity|].
  destruct (f y); [|reflexivity]. cbn [obind]. rewrite IH by assumption. reflexivity.
Qed.
Lemma sources_outside srcs s : In s srcs -> within_mesh n (fst s) -> ~ arrow_fits (fst s) (snd s) -> gnuplotSources physical lines mbox srcs = None.
Proof.
  intros I W F. unfold gnuplotSources, withSize. destruct header_ok as (h & -> & _). cbn [obind].
  rewrite (concatO_none _ srcs s I); [reflexivity|]. destruct (box_drawn _ W) as (d & -> & D). cbn [obind]. rewrite (arrow_outside _ _ W F). reflexivity.
Qed.
Lemma strokes_gap ps : Forall (fun l => strokes l = [] /\ (l = [] \/ exists l', l = (l' ++ [Gap])%list)) ps -> strokes (concat ps) = [] /\ (concat ps = [] \/ exists l', concat ps = (l' ++ [Gap])%list).
Proof.
  assert (K : forall l r, strokes l = [] -> (l = [] \/ exists l', l = (l' ++ [Gap])%list) -> strokes (l ++ r) = strokes r).
  { intros l r E [->|(l' & ->)]; [reflexivity|]. rewrite <- app_assoc. cbn [app]. revert E. induction l' as [|x l' IH]; intros E; [reflexivity|].
    destruct x as [p|]; cbn [app strokes] in *; [|auto]. destruct l' as [|y l']; [reflexivity|]. cbn [app] in *. destruct y; [discriminate|]. cbn [strokes] in *. auto. }
  induction 1 as [|l ps (E & G) _ (IH1 & IH2)]; [split; [reflexivity|left; reflexivity]|]. cbn [concat]. split; [rewrite K by assumption; exact IH1|].
  destruct IH2 as [->|(l' & ->)]; [rewrite app_nil_r; exact G|]. right. exists (l ++ l')%list. rewrite app_assoc. reflexivity.
Qed.
Lemma pts_concat p (ps : list (list Rec)) : In (Pt p) (concat ps) <-> exists l, In l ps /\ In (Pt p) l.
Proof. rewrite in_concat. split; intros (l & I & J); exists l; auto. Qed.
Lemma Forall2_in_l {A B} (P : A -> B -> Prop) l m x : Forall2 P l m -> In x l -> exists y, In y m /\ P x y.
Proof. induction 1; intros []; [subst; eauto with datatypes|]. destruct IHForall2 as (z & I & Q); auto. exists z. split; [right; exact I|exact Q]. Qed.
Lemma Forall2_in_r {A B} (P : A -> B -> Prop) l m y : Forall2 P l m -> In y m -> exists x, In x l /\ P x y.
Proof. induction 1; intros []; [subst; eauto with datatypes|]. destruct IHForall2 as (z & I & Q); auto. exists z. split; [right; exact I|exact Q]. Qed.
Lemma f2len {A B} (P : A -> B -> Prop) l m : Forall2 P l m -> List.length l = List.length m.
Proof. induction 1; cbn [List.length]; congruence. Qed.
Definition okd (S : R * R * R -> Prop) (recs : list Rec) : Prop := (forall p, In (Pt p) recs <-> S p) /\ strokes recs = [] /\ (recs = [] \/ exists l', recs = (l' ++ [Gap])%list).
Lemma okd_concat {A} (f : A -> option (list Rec)) (Q : A -> R * R * R -> Prop) l : (forall x, In x l -> exists y, f x = Some y /\ okd (Q x) y) ->
  exists d, concatO (map f l) = Some d /\ okd (fun p => exists x, In x l /\ Q x p) d.
Proof.
  intros K. destruct (concatO_map f (fun x => okd (Q x)) l K) as (ps & E & F). exists (concat ps). split; [exact E|]. split.
  - intros p. rewrite pts_concat. split.
    + intros (r & I & J). destruct (Forall2_in_r _ _ _ _ F I) as (x & Ix & (P & _)). exists x. split; [exact Ix|]. apply P. exact J.
    + intros (x & I & J). destruct (Forall2_in_l _ _ _ _ F I) as (r & Ir & (P & _)). exists r. split; [exact Ir|]. apply P. exact J.
  - apply strokes_gap. apply Forall_forall. intros r I. destruct (Forall2_in_r _ _ _ _ F I) as (x & _ & (_ & P)). exact P.
Qed.
Lemma zsteps_some lo hi st : 1 <= st -> exists l, zsteps lo hi st = Some l /\ forall x, In x l <-> lo <= x <= hi /\ exists m, 0 <= m /\ x = lo + m * st.
Proof.
  intros P. destruct (zsteps lo hi st) as [l|] eqn:E; [exists l; split; [reflexivity|]; apply (zsteps_in _ _ _ _ E)|].
  exfalso. unfold zsteps in E. destruct (hi <? lo); [discriminate|]. destruct (Z.leb_spec st 0); [lia|discriminate].
Qed.
Lemma nodes_drawn b step : within_mesh n b -> (forall a, 1 <= step a) -> exists recs, gnuplotBoundingBoxNodes physical lines b step = Some recs /\ samples_drawn u b step recs.
Proof.
  intros W P. unfold gnuplotBoundingBoxNodes.
  destruct (zsteps_some (b XLO) (b XHI) _ (P XDIR)) as (xs & EX & IX). destruct (zsteps_some (b YLO) (b YHI) _ (P YDIR)) as (ys & EY & IY). destruct (zsteps_some (b ZLO) (b ZHI) _ (P ZDIR)) as (zs & EZ & IZ).
  rewrite EZ. cbn [obind]. pose proof (W XDIR) as WX. pose proof (W YDIR) as WY. pose proof (W ZDIR) as WZ. cbn [face_lo face_hi] in WX, WY, WZ.
  match goal with |- context [concatO (map ?F zs)] => destruct (okd_concat F (fun k p => exists j, In j ys /\ exists i, In i xs /\ p = (u XDIR i, u YDIR j, u ZDIR k)) zs) as (d & -> & OK) end.
  { intros k IK. rewrite EY. cbn [obind]. match goal with |- context [concatO (map ?F ys)] => apply (okd_concat F (fun j p => exists i, In i xs /\ p = (u XDIR i, u YDIR j, u ZDIR k))) end.
    intros j IJ. rewrite EX. cbn [obind]. match goal with |- context [concatO (map ?F xs)] => apply (okd_concat F (fun i p => p = (u XDIR i, u YDIR j, u ZDIR k))) end.
    intros i II. apply IX in II. apply IY in IJ. apply IZ in IK. rewrite !index_ok by lia. cbn [obind]. eexists. split; [reflexivity|].
    split; [intros p; cbn [In]; split; [intros [E|[E|[]]]; [injection E; auto|discriminate E]|intros ->; auto]|]. split; [reflexivity|]. right. eexists [_]. reflexivity. }
  exists d. split; [reflexivity|]. destruct OK as (OK & ST & _). split; [|exact ST]. intros p. rewrite OK. split.
  - intros (k & IK & j & IJ & i & II & ->). exists (i, j, k). split; [|reflexivity]. apply IX in II. apply IY in IJ. apply IZ in IK. intros []; cbn [coord3 face_lo face_hi]; assumption.
  - intros (((i & j) & k) & SM & ->). exists k. split; [apply IZ; exact (SM ZDIR)|]. exists j. split; [apply IY; exact (SM YDIR)|]. exists i. split; [apply IX; exact (SM XDIR)|reflexivity].
Qed.
Lemma observers_drawn obs : Forall (fun o => within_mesh n (fst o) /\ forall a, 1 <= snd o a) obs ->
  exists h ps, gnuplotObservers physical lines mbox obs = Some (h ++ concat ps) /\ extent_first u mbox h /\ Forall2 (fun o => samples_drawn u (fst o) (snd o)) obs ps.
Proof.
  intros W. destruct header_ok as (h & EH & XH).
  destruct (concatO_map (fun o => gnuplotBoundingBoxNodes physical lines (fst o) (snd o)) (fun o => samples_drawn u (fst o) (snd o)) obs) as (ps & EP & F).
  { intros o I. destruct (proj1 (Forall_forall _ _) W o I). apply nodes_drawn; assumption. }
  exists h, ps. unfold gnuplotObservers, withSize. rewrite EH, EP. cbn [obind]. auto.
Qed.
End One.

(** ** C72 *)
(** blocks, wires and internal surfaces are drawn as the edges of their boxes,
    one after the other, after the extent of the mesh *)
Theorem C72_boxes n physical lines mbox bs : has_n_lines n lines -> is_mesh n mbox -> Forall (within_mesh n) bs ->
  exists h ps, gnuplotBoxes physical lines mbox bs = Some (h ++ concat ps) /\ extent_first (place physical lines) mbox h /\ Forall2 (wireframe (place physical lines)) bs ps.
Proof. intros. apply boxes_drawn with n; assumption. Qed.
(** the outer surfaces: the six faces of the mesh *)
Theorem C72_external n physical lines mbox : has_n_lines n lines -> is_mesh n mbox ->
  exists h ps, gnuplotExternalSurfaces physical lines mbox = Some (h ++ concat ps) /\ List.length ps = 6%nat /\
    forall f, exists recs, In recs ps /\ wireframe (place physical lines) (fun g => if axis_eqb (face_axis g) (face_axis f) then mbox f else mbox g) recs.
Proof.
  intros HL HM. pose proof (mesh_within n lines HL mbox HM) as W. pose proof (W XDIR) as WX. pose proof (W YDIR) as WY. pose proof (W ZDIR) as WZ. cbn [face_lo face_hi] in WX, WY, WZ.
  assert (WF : Forall (within_mesh n) (map (getFaceOfBoundingBox mbox) [ZLO; XLO; YLO; ZHI; XHI; YHI])).
  { apply Forall_forall. intros b I. apply in_map_iff in I. destruct I as (f & <- & _). intros a. destruct f, a; cbn [getFaceOfBoundingBox mkbox face_lo face_hi]; lia. }
  destruct (C72_boxes n physical lines mbox _ HL HM WF) as (h & ps & E & X & F). exists h, ps. split; [exact E|].
  split; [rewrite <- (f2len _ _ _ F); reflexivity|].
  intros f. assert (I : In (getFaceOfBoundingBox mbox f) (map (getFaceOfBoundingBox mbox) [ZLO; XLO; YLO; ZHI; XHI; YHI])) by (apply in_map; destruct f; cbn; tauto).
  destruct (Forall2_in_l _ _ _ _ F I) as (recs & Ir & WR). exists recs. split; [exact Ir|].
  assert (EQ : forall g, getFaceOfBoundingBox mbox f g = (if axis_eqb (face_axis g) (face_axis f) then mbox f else mbox g)) by (intros g; destruct f, g; reflexivity).
  assert (CE : forall s a, corner (getFaceOfBoundingBox mbox f) s a = corner (fun g => if axis_eqb (face_axis g) (face_axis f) then mbox f else mbox g) s a) by (intros s a; unfold corner; apply EQ).
  assert (NE : forall s, node (place physical lines) (corner (getFaceOfBoundingBox mbox f) s) = node (place physical lines) (corner (fun g => if axis_eqb (face_axis g) (face_axis f) then mbox f else mbox g) s)) by (intros s; unfold node; rewrite !CE; reflexivity).
  assert (EE : forall p q, edge (place physical lines) (getFaceOfBoundingBox mbox f) p q <-> edge (place physical lines) (fun g => if axis_eqb (face_axis g) (face_axis f) then mbox f else mbox g) p q).
  { intros p q. unfold edge. split; intros (a & s & s' & N & D & O & P & Q); exists a, s, s'; [rewrite !EQ, !NE in *|rewrite !EQ, !NE]; auto. }
  destruct WR as (A & B & C & D). split; [intros p q J; apply EE, A, J|]. split; [intros p q J; apply B, EE, J|]. split; [|exact D].
  intros p. rewrite C. split; intros (s & ->); exists s; rewrite NE; reflexivity.
Qed.
(** every mesh line is drawn along both of the other axes, on the surface of the mesh *)
Theorem C72_grid_lines n physical lines mbox : has_n_lines n lines -> is_mesh n mbox ->
  exists h ps, gnuplotGridLines physical lines mbox (fun a => n a + 1) = Some (h ++ concat ps) /\
    forall a i c, 0 <= i <= n a -> a <> c -> exists b recs, grid_line n a i c b /\ In recs ps /\ wireframe (place physical lines) b recs.
Proof.
  intros HL HM. destruct (C72_boxes n physical lines mbox _ HL HM (grid_boxes n lines HL mbox HM)) as (h & ps & E & X & F). exists h, ps. split; [exact E|].
  intros a i c I NE. destruct (grid_lines_in n mbox HM a i c I NE) as (b & Ib & G). destruct (Forall2_in_l _ _ _ _ F Ib) as (recs & Ir & WR). exists b, recs. auto.
Qed.
(** sources: the box and an arrow along the field, when the arrow stays within
    the mesh or the drawing is in units of mesh lines *)
Theorem C72_sources_partial n physical lines mbox srcs : has_n_lines n lines -> is_mesh n mbox ->
  Forall (fun s => within_mesh n (fst s) /\ (physical = false \/ fst s (face_lo (snd s)) <> fst s (face_hi (snd s)) \/ fst s (face_lo (snd s)) + 2 <= n (snd s))) srcs ->
  exists h ps, gnuplotSources physical lines mbox srcs = Some (h ++ concat ps) /\ extent_first (place physical lines) mbox h /\
    Forall2 (fun s recs => exists d e, recs = (d ++ e)%list /\ wireframe (place physical lines) (fst s) d /\ arrow (place physical lines) (fst s) (snd s) e) srcs ps.
Proof. intros HL HM W. apply sources_drawn with n; assumption. Qed.
(** a source that is a point along its field, less than two cells from the high
    end of the mesh, cannot be drawn in metres: the arrow is taken from a mesh
    line beyond the last *)
Theorem C72_sources_refuted n lines mbox srcs s : has_n_lines n lines -> is_mesh n mbox -> In s srcs -> within_mesh n (fst s) ->
  fst s (face_lo (snd s)) = fst s (face_hi (snd s)) -> n (snd s) < fst s (face_lo (snd s)) + 2 -> gnuplotSources true lines mbox srcs = None.
Proof. intros HL HM I W E O. apply (sources_outside n true lines HL mbox HM srcs s I W). unfold arrow_fits. intros [D|D]; [discriminate|lia]. Qed.
(** observers: one isolated point for each sampled node *)
Theorem C72_observers n physical lines mbox obs : has_n_lines n lines -> is_mesh n mbox -> Forall (fun o => within_mesh n (fst o) /\ forall a, 1 <= snd o a) obs ->
  exists h ps, gnuplotObservers physical lines mbox obs = Some (h ++ concat ps) /\ extent_first (place physical lines) mbox h /\ Forall2 (fun o => samples_drawn (place physical lines) (fst o) (snd o)) obs ps.
Proof. intros. apply observers_drawn with n; assumption. Qed.
(** an observer with a step of 0 along an axis is never finished *)
Theorem C72_stride_refuted physical lines mbox obs o : In o obs -> snd o ZDIR = 0 -> fst o ZLO <= fst o ZHI -> gnuplotObservers physical lines mbox obs = None.
Proof.
  intros I E L. unfold gnuplotObservers, withSize. destruct (gnuplotProblemSize physical lines mbox); [|reflexivity]. cbn [obind].
  rewrite (concatO_none _ obs o I); [reflexivity|]. clear I. destruct o as [bx st]. unfold fst, snd in *. unfold gnuplotBoundingBoxNodes, zsteps.
  destruct (Z.ltb_spec (bx ZHI) (bx ZLO)); [lia|]. rewrite E. reflexivity.
Qed.
(** a box whose low z exceeds its high z passes the checks on a card whatever its
    low z is, and is then drawn, in metres, from a mesh line that may not exist *)
Theorem C72_reversed_refuted : exists n lines mbox b, has_n_lines n lines /\ is_mesh n mbox /\ bboxIsNormal b = true /\ bboxIsWithin b mbox = true /\
  gnuplotBoxes true lines mbox [b] = None.
Proof.
  exists (fun _ => 2), (fun _ => {| alen := 3; adat := IZR |}), (mkbox 0 2 0 2 0 2), (mkbox 0 1 0 1 7 2).
  split; [intros a; cbn; lia|]. split; [intros []; split; reflexivity|]. split; [reflexivity|]. split; [reflexivity|]. reflexivity.
Qed.
(** the script plots the file of each kind of object that the mesh has, if it has
    observers; *)
Theorem C72_script_partial surfs blocks wires srcs pws : let r := command (gnuplotScript true surfs blocks wires srcs pws true) in
  (forall x, In x (fst r) <-> x = Item "gnuplot-lines.dat" \/ x = Item "gnuplot-external.dat" \/ x = Item "gnuplot-observer.dat" \/
     surfs = true /\ x = Item "gnuplot-surface.dat" \/ blocks = true /\ x = Item "gnuplot-block.dat" \/ wires = true /\ x = Item "gnuplot-wires.dat" \/
     srcs = true /\ x = Item "gnuplot-source.dat" \/ pws = true /\ x = Item "gnuplot-planewave.dat") /\
  snd r = [(Cmd "set output", false); (Cmd "set term pop", false); (Cmd "replot", false)].
Proof.
  cbv zeta. destruct surfs, blocks, wires, srcs, pws; (split; [intros x; cbn [command gnuplotScript fst snd app In]|reflexivity]);
    (split; [intros I; repeat (destruct I as [<-|I]; [tauto|]); destruct I|intros I; repeat (destruct I as [I|I]); try (destruct I as (D & I); try discriminate D); rewrite I; tauto]).
Qed.
(** without any, the plot command swallows the [set output] that follows *)
Theorem C72_script_refuted ext surfs blocks wires srcs pws : In (Cmd "set output") (fst (command (gnuplotScript ext surfs blocks wires srcs pws false))).
Proof. destruct ext, surfs, blocks, wires, srcs, pws; cbn; tauto. Qed.

(** *** Non-vacuity: a mesh of 4 x 3 x 2 cells with a plate, a source and an observer *)
Definition c72_n (a : Axis) : Z := match a with XDIR => 4 | YDIR => 3 | ZDIR => 2 end.
Definition c72_lines (a : Axis) : carr R := {| alen := c72_n a + 1; adat := fun i => (IZR i / 100)%R |}.
Example C72_nonvacuous : has_n_lines c72_n c72_lines /\ is_mesh c72_n (mkbox 0 4 0 3 0 2) /\ within_mesh c72_n (mkbox 1 3 0 3 1 1) /\
  (let s := (mkbox 2 2 1 1 0 1, ZDIR) in within_mesh c72_n (fst s) /\ fst s (face_lo (snd s)) <> fst s (face_hi (snd s))) /\
  (exists recs, gnuplotBoundingBox true c72_lines (mkbox 1 3 0 3 1 1) = Some recs /\ List.length recs = 6%nat).
Proof.
  split; [intros []; split; cbn; lia|]. split; [intros []; split; reflexivity|]. split; [intros []; cbn; lia|].
  split; [split; [intros []; cbn; lia|cbn; lia]|]. eexists. split; reflexivity.
Qed.
