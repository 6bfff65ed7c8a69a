(** C66: complete runs do not depend on the number of threads or the schedule. *)
From Coq Require Import ZArith List Bool Reals FunctionalExtensionality.
From Verif Require Import Types Lang LangProofs BBox Grid Setup Pml Mur Ghost Step StepShape StepRace Media Medium Debye Filter Sibc Source SourceProofs P_Source
  PlaneWave PwProofs P_PlaneWave SpecPw P_PwBounds SpecPhys Whole SpecWhole P_Step P_Whole P_Setup.
Import ListNotations.
Open Scope R_scope.

(** One time step on any number of threads (simulation.c:170-219): the OpenMP
    loops of grid.c, pml.c, mur.c and planewave.c run their iterations in any
    interleaving of single reads and writes ([prog_exec]); the dispersive blocks
    (debye.c), sheets (sibc.c) and sources (source.c) have no OpenMP loop. *)
Definition wstepP (c : Cfg) (g : Prog) (d : Drv) (t : nat) (s s' : WState) : Prop :=
  exists m1 m3 m4 m5 m7 m8,
  prog_exec rArith (phaseE c) (w_m s) m1 /\
  let s2 := sibcE g (debyeStep g (set_m m1 s)) in
  prog_exec rArith (exciteE c (g_de g) (g_dh g) (g_srcs g) (d_wE d) (g_pws g) (d_iE d) t) (w_m s2) m3 /\
  prog_exec rArith (updateGhostEfield c) m3 m4 /\
  prog_exec rArith (phaseH c) m4 m5 /\
  prog_exec rArith (exciteH c (g_de g) (g_dh g) (g_srcs g) (d_wH d) (g_pws g) (d_iH d) t) (run rArith (updateSibcH c (sheetsNow g s2)) m5) m7 /\
  prog_exec rArith (updateGhostHfield c) m7 m8 /\ s' = set_m m8 s2.
Inductive wrunP (c : Cfg) (g : Prog) (d : Drv) : nat -> nat -> WState -> WState -> Prop :=
| wp_done t s : wrunP c g d t 0 s s
| wp_step t n s s1 s2 : wstepP c g d t s s1 -> wrunP c g d (S t) n s1 s2 -> wrunP c g d t (S n) s s2.

Lemma exec_eq p (m m' : mem R) : Forall race_free p -> prog_exec rArith p m m' -> m' = run rArith (flat p) m.
Proof. intros F H. apply functional_extensionality. intros l. exact (prog_exec_seq rArith p m m' F H l). Qed.
Lemma part_rf (p1 p2 : list (item R)) : Forall race_free (p1 ++ p2) -> Forall race_free p1 /\ Forall race_free p2.
Proof. apply Forall_app. Qed.
Lemma phases_rf (c : Cfg) : Forall (@race_free R) (phaseE c) /\ Forall (@race_free R) (updateGhostEfield c) /\
  Forall (@race_free R) (phaseH c) /\ Forall (@race_free R) (updateGhostHfield c).
Proof.
  pose proof (C08_no_data_race R c (fun _ => []) (fun _ => []) 1 (fun _ => Forall_nil _) (fun _ => Forall_nil _)) as H.
  cbn [steps] in H. rewrite app_nil_r in H. unfold Step.timeStep in H. cbn [app] in H.
  repeat match goal with H : Forall _ (_ ++ _) |- _ => apply part_rf in H; destruct H end. auto.
Qed.
Lemma excite_rf c de dh srcs w pws inc t : Forall race_free (exciteE c de dh srcs w pws inc t) /\ Forall race_free (exciteH c de dh srcs w pws inc t).
Proof.
  assert (SQ : forall (g : Act (V:=R) -> list (stmt R)) (l : list (Act (V:=R))), Forall race_free (map (fun s => Seq (g s)) l)).
  { intros g l. induction l; cbn [map]; constructor; [exact I|assumption]. }
  split.
  - unfold exciteE. apply Forall_app. split; [apply SQ|]. apply Forall_flat_map. intros p _. apply updE_rf.
  - unfold exciteH. apply Forall_app. split; [apply SQ|]. apply Forall_flat_map. intros p _. apply updH_rf.
Qed.

(** Whatever the schedule, a complete run ends in the state of the sequential
    one: field arrays, PML and dispersive memory, sheet filters. *)
Theorem C66_schedule_independent : forall c g d n t s s', wrunP c g d t n s s' <-> s' = wrun c g d t n s.
Proof.
  intros c g d.
  assert (ST : forall t s s', wstepP c g d t s s' <-> s' = wstep c g d t s).
  { intros t s s'. destruct (phases_rf c) as (R1 & R4 & R5 & R8).
    pose proof (proj1 (excite_rf c (g_de g) (g_dh g) (g_srcs g) (d_wE d) (g_pws g) (d_iE d) t)) as R3.
    pose proof (proj2 (excite_rf c (g_de g) (g_dh g) (g_srcs g) (d_wH d) (g_pws g) (d_iH d) t)) as R7.
    split.
    - intros (m1 & m3 & m4 & m5 & m7 & m8 & H1 & H3 & H4 & H5 & H7 & H8 & ->).
      apply exec_eq in H1; [|assumption]. subst m1. apply exec_eq in H3; [|assumption]. subst m3. apply exec_eq in H4; [|assumption]. subst m4.
      apply exec_eq in H5; [|assumption]. subst m5. apply exec_eq in H7; [|assumption]. subst m7. apply exec_eq in H8; [|assumption]. subst m8.
      reflexivity.
    - intros ->. unfold wstepP. do 6 eexists. split; [apply prog_exec_flat|]. cbn zeta. do 5 (split; [apply prog_exec_flat|]). reflexivity. }
  intros n. induction n as [|n IH]; intros t s s'; split.
  - intros H. inversion H. reflexivity.
  - intros ->. constructor.
  - intros H. inversion H as [|? ? ? s1 ? A B]; subst. apply ST in A. subst s1. apply IH in B. exact B.
  - intros ->. econstructor; [apply ST; reflexivity|]. apply IH. reflexivity.
Qed.
(** the loops really are parallel on the mesh of C64_nonvacuous: one of the
    plane-wave correction loops and the E loops have several threads *)
Example C66_nonvacuous : exists c ts, setupCfg 6 6 6 initBoundaryReg = Some c /\
  In (Par ts) (exciteE c (g_de (c64prog c)) (g_dh (c64prog c)) (g_srcs (c64prog c)) (fun _ _ => 0) (g_pws (c64prog c)) (fun _ _ _ _ _ _ => 0) 0) /\
  (1 < List.length ts)%nat.
Proof.
  destruct (setupCfg 6 6 6 initBoundaryReg) as [c|] eqn:HC; [|discriminate HC]. exists c. injection HC as <-.
  eexists. split; [reflexivity|]. split.
  - unfold exciteE. apply in_or_app. right. cbn [g_pws c64prog flat_map]. apply in_or_app. left.
    match goal with |- In _ ?l => let l' := eval hnf in l in change l with l' end. left. reflexivity.
  - vm_compute. repeat constructor.
Qed.
