(** C68: an accepted file meeting the hypotheses (the file of C76). *)
From Coq Require Import ZArith List Bool Ascii String Reals Lia.
From Verif Require Import Types Setup Grid PlaneWave Source Mesh Sim Front Program P_RecipEx.
Import ListNotations.
Open Scope Z_scope.
Example C68_nonvacuous : (exists st h cards, readMeshFile (fun _ => None) (text76 "1" "0") = Acc (st, h, cards) /\ h = h76) /\ (exists c, cfgFor h76 = Some c) /\
  (forall p, In p (h_pws h76) -> pw_mbbox p ZLO <= pw_mbbox p ZHI) /\ List.length (h_srcs h76) = 2%nat.
Proof.
  split. { do 3 eexists. split; [vm_compute; reflexivity|]. vm_compute. reflexivity. }
  split. { destruct (cfgFor h76) as [c|] eqn:C; [eexists; reflexivity|vm_compute in C; discriminate C]. }
  split; [|vm_compute; reflexivity]. intros p I. vm_compute in I. destruct I.
Qed.
