(** C77: a file that meets the hypotheses. *)
From Coq Require Import ZArith List Bool Ascii String Reals Lia Lra.
From Verif Require Import Types CArr BBox Grid Setup Media Medium Source Edges Mesh SpecGeom SpecMedia SpecPhys Front Program MediaProofs Whole SpecFile SpecMaxwell P_Maxwell SpecRecip P_Recip P_RecipEx SpecGauss P_Gauss.
Import ListNotations.
Local Open Scope list_scope.
Open Scope Z_scope.

Definition yeeb1 (f : Fld) (b : BBox) (incl : Face -> bool) (x y z : Z) (a : Axis) : bool :=
  let p := ypos f a (coord x y z a) in
  (2 * b (face_lo a) <=? p) && (p <=? 2 * b (face_hi a)) && (incl (face_lo a) || negb (p =? 2 * b (face_lo a))) && (incl (face_hi a) || negb (p =? 2 * b (face_hi a))).
Definition yeeb f b incl x y z : bool := yeeb1 f b incl x y z XDIR && yeeb1 f b incl x y z YDIR && yeeb1 f b incl x y z ZDIR.
Lemma yeeb1_iff f b incl x y z a : yeeb1 f b incl x y z a = true <-> (let p := ypos f a (coord x y z a) in 2 * b (face_lo a) <= p <= 2 * b (face_hi a) /\ (incl (face_lo a) = false -> p <> 2 * b (face_lo a)) /\ (incl (face_hi a) = false -> p <> 2 * b (face_hi a))).
Proof.
  unfold yeeb1. cbv zeta. generalize (ypos f a (coord x y z a)). intros p. destruct (incl (face_lo a)), (incl (face_hi a)); cbn [orb]; rewrite ?andb_true_r, ?andb_true_iff, ?negb_true_iff, ?Z.eqb_neq, ?Z.leb_le; intuition (try discriminate; try lia).
Qed.
Lemma yeeb_iff f b incl x y z : yeeb f b incl x y z = true <-> yee_in f b incl x y z.
Proof. unfold yeeb. rewrite !andb_true_iff, !yeeb1_iff. split; [intros ((A & B) & C) []; assumption|]. intros Y. split; [split|]; apply Y. Qed.
Definition matB (f : Fld) (x y z : Z) (rs : list Region) : Material := fold_left (fun m r => if yeeb f (g_box r) (g_incl r) x y z then g_mat r else m) rs (Simple 1 0 1).
Lemma matB_ok f x y z rs : made_of f x y z rs (matB f x y z rs).
Proof.
  unfold matB. induction rs as [|r rs IH] using rev_ind; [constructor|]. rewrite fold_left_app. cbn [fold_left]. destruct (yeeb f (g_box r) (g_incl r) x y z) eqn:Q.
  - apply mo_in. apply yeeb_iff. exact Q.
  - apply mo_out; [|exact IH]. rewrite <- yeeb_iff. congruence.
Qed.
Lemma closed_plain c h lines e dt : closed_problem c h lines e dt -> plain_problem c h lines e dt.
Proof. intros []. constructor; try assumption. intros a. right. rewrite cp_walls. discriminate. Qed.
(** the first file of C76: a node between the ports, and a cell at the block of
    metal *)
Example C77_nonvacuous : exists c e dt, plain_problem c h76 lines76 e dt /\ (exists s, set_up c h76 e dt (w_m s) /\ quiet (w_m s)) /\
  inner_node c 1 2 2 /\ (forall a u v w, meets 1 2 2 a u v w -> (exists mu, made_of (Eat a) u v w (regions c h76 lines76) (Simple 1 0 mu)) /\ forall t, In t (h_srcs h76) -> ~ covered (Eat a) u v w t) /\
  mesh_cell c 0 1 0 /\ exists mat, (forall a u v w, bounds 0 1 0 a u v w -> made_of (Hat a) u v w (regions c h76 lines76) (mat a u v w) /\ forall t, In t (h_srcs h76) -> ~ covered (Hat a) u v w t) /\ mat YDIR 0 1 0 = Metal.
Proof.
  destruct C76_nonvacuous as (c & e & dt & P & _ & _ & SU & _). exists c, e, dt. split; [exact (closed_plain _ _ _ _ _ P)|]. split; [exact SU|].
  pose proof (cp_cfg _ _ _ _ _ P) as C. clear P SU. vm_compute in C. injection C as <-.
  remember (h_srcs h76) as L eqn:LE. vm_compute in LE.
  match goal with |- context [regions ?c _ _] => set (c0 := c) in * end.
  split; [intros []; vm_compute; split; discriminate|]. split.
  { intros a u v w M. split.
    - exists 1%R. assert (X : matB (Eat a) u v w (regions c0 h76 lines76) = Simple 1 0 1) by (destruct a; cbn [meets] in M; [destruct M as ([-> | ->] & -> & ->)|destruct M as (-> & [-> | ->] & ->)|destruct M as (-> & -> & [-> | ->])]; vm_compute; reflexivity).
      rewrite <- X. apply matB_ok.
    - intros t I (F & Y). apply yeeb_iff in Y. subst L. destruct I as [<-|[<-|[]]]; destruct a; try discriminate F; cbn [meets] in M; [destruct M as (-> & -> & [-> | ->])|destruct M as ([-> | ->] & -> & ->)]; vm_compute in Y; discriminate Y. }
  split; [intros []; vm_compute; split; discriminate|]. exists (fun a u v w => matB (Hat a) u v w (regions c0 h76 lines76)). split.
  - intros a u v w M. split; [apply matB_ok|]. intros t I (F & Y). subst L. destruct I as [<-|[<-|[]]]; destruct a; discriminate F.
  - vm_compute. reflexivity.
Qed.
