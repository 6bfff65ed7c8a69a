(** Concrete cards meeting the hypotheses of the theorems about the text of the
    mesh file (C67), one of every kind, and what becomes of each. *)
From Coq Require Import ZArith List Bool Ascii String Reals Lia Lra.
From Verif Require Import Types CArr CStr Sim P_Sim Scan SpecScan P_Scan BBox Grid Setup SetupProofs SpecSetup P_Setup PmlProfile Media Medium Waveform Source PlaneWave P_PwVectors Observer Edges Mesh SpecGeom SpecText SpecCards P_Cards Front SpecFront P_CardText P_CardText2 P_CardText3.
Import ListNotations.
Open Scope Z_scope.
Local Open Scope list_scope.

(** A line on which every field stands behind one space. *)
Definition spell (l : list (field * list Z * Val)) : list Z := flat_map (fun p => 32 :: snd (fst p)) l.
Lemma spelt more : forall l, Forall (fun p => stands (fst (fst p)) (snd (fst p)) (snd p)) l ->
  written (map (fun p => fst (fst p)) l ++ more) (spell l) (map snd l).
Proof.
  intros l F. induction F as [|((k & t) & v) l ST F IH]; cbn [map spell flat_map fst snd app].
  - destruct more as [|k ks]; [apply wr_all|apply wr_short; constructor].
  - change (32 :: t ++ flat_map (fun p => 32 :: snd (fst p)) l) with ([32] ++ t ++ spell l).
    apply wr_field; [exact bl1|exact ST| |exact IH].
    destruct l as [|((k' & t') & v') l]; [left; reflexivity|]. right. exists 32. eexists. split; [reflexivity|left; reflexivity].
Qed.
Lemma digit d : 0 <= d <= 9 -> stands FInt [48 + d] (VI d).
Proof. intros D. constructor; [|lia]. apply (il [] false [48 + d] d); [constructor|apply nl_one; exact D]. Qed.
Lemma digitC d : 0 <= d <= 9 -> stands FCount [48 + d] (VI d).
Proof. intros D. constructor; [|lia]. apply nl_one; exact D. Qed.
Lemma digitR d : 0 <= d <= 9 -> reallit [48 + d] (IZR d).
Proof.
  intros D. replace (IZR d) with (1 * IZR d * powerRZ 10 0)%R by (cbn [powerRZ]; ring).
  apply (rl [] false [48 + d] (IZR d) [] 0); [constructor|apply mn_int; apply nl_one; exact D|constructor].
Qed.
Lemma tenth d : 0 <= d <= 9 -> reallit [48; 46; 48 + d] (IZR d / 10)%R.
Proof.
  intros D. replace (IZR d / 10)%R with (1 * (IZR 0 + IZR d * powerRZ 10 (- Z.of_nat 1)) * powerRZ 10 0)%R
    by (cbn [powerRZ Z.of_nat Z.opp]; change (Pos.to_nat (Pos.of_succ_nat 0)) with 1%nat; cbn [pow]; field).
  apply (rl [] false [48; 46; 48 + d] _ [] 0); [constructor| |constructor].
  apply (mn_frac [48] 0 [48 + d] d); [constructor; apply (nl_one 0); lia|constructor; apply nl_one; exact D|discriminate].
Qed.
Lemma word s : (s <> "")%string -> (String.length s <= 31)%nat -> forallb (fun c => negb ((c =? 32) || ((9 <=? c) && (c <=? 13)))) (chars s) = true -> stands FName (chars s) (VS s).
Proof.
  intros NE LE NB. assert (T : text (chars s) = s).
  { clear. unfold text, chars. rewrite map_map. induction s as [|c s IH]; [reflexivity|]. cbn. rewrite Nat2Z.id, ascii_nat_embedding. f_equal. exact IH. }
  rewrite <- T at 2. apply st_name. split; [|split].
  - intros E. destruct s; [congruence|discriminate].
  - enough (forall s, List.length (chars s) = String.length s) as -> by exact LE. clear. unfold chars. intros s. rewrite map_length. induction s; cbn; congruence.
  - apply Forall_forall. intros c I. rewrite forallb_forall in NB. specialize (NB c I). unfold wblank. intros W. apply negb_true_iff, orb_false_iff in NB. destruct NB as (N1 & N2).
    apply Z.eqb_neq in N1. apply andb_false_iff in N2. destruct N2 as [N2|N2]; apply Z.leb_gt in N2; lia.
Qed.

Definition dI (d : Z) : field * list Z * Val := (FInt, [48 + d], VI d).
Definition dC (d : Z) : field * list Z * Val := (FCount, [48 + d], VI d).
Definition dR (d : Z) : field * list Z * Val := (FReal, [48 + d], VR (IZR d)).
Definition dT (d : Z) : field * list Z * Val := (FReal, [48; 46; 48 + d], VR (IZR d / 10)).
Definition dW (s : string) : field * list Z * Val := (FName, chars s, VS s).
Lemma okI d : 0 <= d <= 9 -> stands (fst (fst (dI d))) (snd (fst (dI d))) (snd (dI d)). Proof. apply digit. Qed.
Lemma okC d : 0 <= d <= 9 -> stands (fst (fst (dC d))) (snd (fst (dC d))) (snd (dC d)). Proof. apply digitC. Qed.
Lemma okR d : 0 <= d <= 9 -> stands (fst (fst (dR d))) (snd (fst (dR d))) (snd (dR d)). Proof. intros D. constructor. apply digitR, D. Qed.
Lemma okT d : 0 <= d <= 9 -> stands (fst (fst (dT d))) (snd (fst (dT d))) (snd (dT d)). Proof. intros D. constructor. apply tenth, D. Qed.
Lemma okW s : (s <> "")%string -> (String.length s <= 31)%nat -> forallb (fun c => negb ((c =? 32) || ((9 <=? c) && (c <=? 13)))) (chars s) = true ->
  stands (fst (fst (dW s))) (snd (fst (dW s))) (snd (dW s)). Proof. apply word. Qed.
Ltac toks := repeat (first [apply Forall_nil | apply Forall_cons]); first [apply okI; lia | apply okC; lia | apply okR; lia | apply okT; lia | apply okW; [discriminate|cbn; lia|reflexivity]].
Ltac spelling more l := let F := fresh in assert (F : Forall (fun p => stands (fst (fst p)) (snd (fst p)) (snd p)) l) by toks; exact (spelt more l F).

(** The mesh of 4 x 4 x 4 cells, and the same with a waveform. *)
Definition h4 : MeshData := match cardDM mesh0 (chars " 4 4 4") with Some h => h | None => mesh0 end.
Definition h5 : MeshData := match cardWF h4 (chars " g GAUSSIAN_PULSE") with Some h => h | None => mesh0 end.

Ltac boxok := split; [split; cbn; lia|intros [| |]; split; vm_compute; discriminate].
Ltac freshok := intros it I; repeat (destruct I as [<- |I]; [discriminate|]); destruct I.
Example C67_size_nonvacuous : written [FInt; FInt; FInt] (chars " 4 4 4") [VI 4; VI 4; VI 4] /\ cardDM mesh0 (chars " 4 4 4") = Some h4 /\ h_mbox h4 XHI = 4.
Proof. split; [spelling (@nil field) [dI 4; dI 4; dI 4]|]. split; vm_compute; reflexivity. Qed.
Example C67_wire_nonvacuous : written (six ++ [FName; FName; FName]) (chars " 1 3 2 2 2 2 PEC END THRU") (corners 1 3 2 2 2 2 ++ VS "PEC" :: map VS ["END"; "THRU"]%string) /\
  cardTW h4 (chars " 1 3 2 2 2 2 PEC END THRU") <> None /\ cardTW h4 (chars " 1 3 2 3 2 2 PEC END THRU") = None.
Proof. split; [spelling (@nil field) [dI 1; dI 3; dI 2; dI 2; dI 2; dI 2; dW "PEC"; dW "END"; dW "THRU"]|]. split; vm_compute; [discriminate|reflexivity]. Qed.
Example C67_surface_nonvacuous : written (six ++ [FName; FInt; FReal]) (chars " 1 3 1 4 2 2 PEC 1 0") (corners 1 3 1 4 2 2 ++ VS "PEC" :: [VI 1; VR 0]) /\ cardTB h4 (chars " 1 3 1 4 2 2 PEC 1 0") <> None.
Proof.
  assert (W : written (six ++ [FName; FInt; FReal]) (chars " 1 3 1 4 2 2 PEC 1 0") (corners 1 3 1 4 2 2 ++ VS "PEC" :: [VI 1; VR 0])).
  { spelling (@nil field) [dI 1; dI 3; dI 1; dI 4; dI 2; dI 2; dW "PEC"; dI 1; dR 0]. }
  split; [exact W|]. pose proof (C67_surface_card h4 _ _ _ _ _ _ _ _ _ 1 0%R W ltac:(right; right; reflexivity)) as T. cbv zeta in T. intros N. rewrite N in T. apply T.
  split; [split; [lia|lra]|]. split; [|split; [reflexivity|]]. { boxok. }
  destruct (findName (h_breg h4) "PEC") as [n|] eqn:F; [|vm_compute in F; discriminate]. exists n. apply called_some, F.
Qed.
Example C67_source_nonvacuous : exists t, findTag "EZ" = Some t /\ t_type t <> ST_THEVENIN_VOLTAGE /\ t_type t <> ST_NORTON_CURRENT /\
  written (six ++ FName :: FName :: FName :: repeat FReal 2) (chars " 1 1 1 1 1 3 src EZ g 2 3") (corners 1 1 1 1 1 3 ++ VS "src" :: VS "EZ" :: VS "g" :: map VR [2; 3]%R) /\
  cardEX h5 (chars " 1 1 1 1 1 3 src EZ g 2 3") <> None.
Proof.
  eexists. split; [vm_compute; reflexivity|]. do 2 (split; [discriminate|]). split; [spelling (@nil field) [dI 1; dI 1; dI 1; dI 1; dI 1; dI 3; dW "src"; dW "EZ"; dW "g"; dR 2; dR 3]|]. vm_compute. discriminate.
Qed.
Example C67_lumped_nonvacuous : exists t, findTag "VRZ" = Some t /\ t_type t = ST_THEVENIN_VOLTAGE /\
  written (six ++ FName :: FName :: FName :: repeat FReal 3) (chars " 1 1 1 1 1 3 src VRZ g 2") (corners 1 1 1 1 1 3 ++ VS "src" :: VS "VRZ" :: VS "g" :: map VR [2]%R) /\
  cardEX h5 (chars " 1 1 1 1 1 3 src VRZ g 2") <> None.
Proof.
  eexists. split; [vm_compute; reflexivity|]. split; [reflexivity|]. split; [spelling [FReal; FReal] [dI 1; dI 1; dI 1; dI 1; dI 1; dI 3; dW "src"; dW "VRZ"; dW "g"; dR 2]|]. vm_compute. discriminate.
Qed.
Example C67_wire_type_nonvacuous : written [FName; FName] (chars " w PEC") [VS "w"; VS "PEC"]%string /\ cardWT mesh0 (chars " w PEC") <> None /\ cardWT mesh0 (chars " w SIMPLE") = None.
Proof. split; [spelling (@nil field) [dW "w"; dW "PEC"]|]. split; vm_compute; [discriminate|reflexivity]. Qed.
Example C67_medium_nonvacuous : forall df, written (FName :: FName :: repeat FReal (numbers "SIMPLE")) (chars " water SIMPLE 8 2") (VS "water" :: VS "SIMPLE" :: map VR [8; 2]%R) /\ cardMT df mesh0 (chars " water SIMPLE 8 2") <> None.
Proof.
  intros df. assert (W : written (FName :: FName :: repeat FReal (numbers "SIMPLE")) (chars " water SIMPLE 8 2") (VS "water" :: VS "SIMPLE" :: map VR [8; 2]%R)).
  { spelling [FReal] [dW "water"; dW "SIMPLE"; dR 8; dR 2]. }
  split; [exact W|]. pose proof (C67_medium_card df mesh0 _ _ _ _ W ltac:(discriminate)) as T. intros N. rewrite N in T. apply T. split.
  - freshok.
  - eexists. apply mm_simple. split; [|split]; cbn [nth_error]; intros x X; try discriminate; injection X as <-; lra.
Qed.
Example C67_debye_nonvacuous : forall df, written (FName :: FName :: repeat FReal (numbers "DEBYE")) (chars " d DEBYE 8 2 1 1 2") (VS "d" :: VS "DEBYE" :: map VR [8; 2; 1; 1; 2]%R) /\ cardMT df mesh0 (chars " d DEBYE 8 2 1 1 2") <> None.
Proof.
  intros df. assert (W : written (FName :: FName :: repeat FReal (numbers "DEBYE")) (chars " d DEBYE 8 2 1 1 2") (VS "d" :: VS "DEBYE" :: map VR [8; 2; 1; 1; 2]%R)).
  { spelling [FReal; FReal; FReal; FReal] [dW "d"; dW "DEBYE"; dR 8; dR 2; dR 1; dR 1; dR 2]. }
  split; [exact W|]. pose proof (C67_medium_card df mesh0 _ _ _ _ W ltac:(discriminate)) as T. intros N. rewrite N in T. apply T. split.
  - freshok.
  - eexists. apply (mm_debye 8 2 1 [1; 2]%R); [|left; reflexivity]. split; [|split]; cbn [nth_error]; intros x X; try discriminate; injection X as <-; lra.
Qed.
Example C67_medium_file_nonvacuous : written [FName; FName; FFile] (chars " d DEBYE ""water.dat""") [VS "d"; VS "DEBYE"; VS "water.dat"] /\
  cardMT (fun _ => None) mesh0 (chars " d DEBYE ""water.dat""") = None.
Proof.
  split; [|vm_compute; reflexivity].
  assert (BR : forall l, at_break (32 :: l)) by (intros l; right; exists 32, l; split; [reflexivity|left; reflexivity]).
  apply (wr_field FName _ [32] (chars "d") (VS "d") (chars " DEBYE ""water.dat""")); [exact bl1|apply word; [discriminate|cbn; lia|reflexivity]|apply BR|].
  apply (wr_field FName _ [32] (chars "DEBYE") (VS "DEBYE") (chars " ""water.dat""")); [exact bl1|apply word; [discriminate|cbn; lia|reflexivity]|apply BR|].
  apply (wr_field FFile _ [32] (chars """water.dat""") (VS "water.dat") []); [exact bl1| |left; reflexivity|constructor].
  apply (st_file (chars "water.dat")); [discriminate|cbn; lia|]. cbn. intuition discriminate.
Qed.
Example C67_waveform_nonvacuous : written (FName :: FName :: repeat FReal 4) (chars " g GAUSSIAN_PULSE 2 3") (VS "g" :: VS "GAUSSIAN_PULSE" :: map VR [2; 3]%R) /\ cardWF h4 (chars " g GAUSSIAN_PULSE 2 3") <> None.
Proof.
  assert (W : written (FName :: FName :: repeat FReal 4) (chars " g GAUSSIAN_PULSE 2 3") (VS "g" :: VS "GAUSSIAN_PULSE" :: map VR [2; 3]%R)).
  { spelling [FReal; FReal] [dW "g"; dW "GAUSSIAN_PULSE"; dR 2; dR 3]. }
  split; [exact W|]. pose proof (C67_waveform_card h4 _ "g" "GAUSSIAN_PULSE" [2; 3]%R ltac:(discriminate) W) as T. intros N. rewrite N in T. cbv zeta in T.
  destruct T as [T|[(w & I & _)|[(x & X & L)|(x & n & [-> | ->] & X & L)]]]; try discriminate.
  - vm_compute in I. exact I.
  - cbn in X. injection X as <-. lra.
Qed.
Definition pwLine : list Z := chars " 1 3 1 3 1 3 p g 9 0 0 111111 2".
Example C67_planewave_nonvacuous :
  written (six ++ [FName; FName; FReal; FReal; FReal; FName; FReal; FReal]) pwLine (corners 1 3 1 3 1 3 ++ VS "p" :: VS "g" :: VR 9 :: VR 0 :: VR 0 :: [VS "111111"; VR 2]) /\ cardPW h5 pwLine <> None.
Proof.
  assert (W : written (six ++ [FName; FName; FReal; FReal; FReal; FName; FReal; FReal]) pwLine (corners 1 3 1 3 1 3 ++ VS "p" :: VS "g" :: VR 9 :: VR 0 :: VR 0 :: [VS "111111"; VR 2])).
  { unfold pwLine. spelling [FReal] [dI 1; dI 3; dI 1; dI 3; dI 1; dI 3; dW "p"; dW "g"; dR 9; dR 0; dR 0; dW "111111"; dR 2]. }
  split; [exact W|].
  pose proof (C67_planewave_card h5 _ _ _ _ _ _ _ _ _ _ _ _ _ (Some "111111"%string) (Some 2%R) None W ltac:(right; right; left; do 2 eexists; repeat split; reflexivity)) as T.
  intros N. cbv zeta in T. rewrite N in T. apply T. split; [intros q []|]. split. { eexists. split; [left; reflexivity|vm_compute; reflexivity]. }
  do 2 (split; [cbn; lia|]). split. { intros [| |]; split; vm_compute; discriminate. }
  do 3 (split; [lra|]). split. { cbn. lra. } exists (fun _ => true). split; [reflexivity|intros []; reflexivity].
Qed.
Example C67_observer_nonvacuous :
  written (six ++ [FName; FName; FName]) (chars " 1 1 2 2 3 3 o TDOM_ASCII g") (corners 1 1 2 2 3 3 ++ VS "o" :: VS "TDOM_ASCII" :: [VS "g"]) /\ cardOP h5 (chars " 1 1 2 2 3 3 o TDOM_ASCII g") <> None /\
  written (six ++ [FName; FName; FInt; FInt; FInt]) (chars " 1 3 1 3 1 3 o TDOM_BINARY 2 2") (corners 1 3 1 3 1 3 ++ VS "o" :: VS "TDOM_BINARY" :: map VI [2; 2]) /\
  cardOP h5 (chars " 1 3 1 3 1 3 o TDOM_BINARY 2 2") <> None.
Proof.
  split; [spelling (@nil field) [dI 1; dI 1; dI 2; dI 2; dI 3; dI 3; dW "o"; dW "TDOM_ASCII"; dW "g"]|]. split; [vm_compute; discriminate|].
  split; [spelling [FInt] [dI 1; dI 3; dI 1; dI 3; dI 1; dI 3; dW "o"; dW "TDOM_BINARY"; dI 2; dI 2]|vm_compute; discriminate].
Qed.
Example C67_window_nonvacuous : written [FCount; FCount] (chars " 2 9") [VI 2; VI 9] /\ cardOT mesh0 (chars " 2 9") <> None /\ written [FCount; FCount] (chars " 9 2") [VI 9; VI 2] /\ cardOT mesh0 (chars " 9 2") = None.
Proof. split; [spelling (@nil field) [dC 2; dC 9]|]. split; [vm_compute; discriminate|]. split; [spelling (@nil field) [dC 9; dC 2]|vm_compute; reflexivity]. Qed.
Example C67_steps_nonvacuous : written [FCount] (chars " 7") [VI 7]. Proof. spelling (@nil field) [dC 7]. Qed.
Example C67_frequency_nonvacuous : written [FReal; FReal; FCount] (chars " 1 9 5") [VR 1; VR 9; VI 5] /\ cardOF mesh0 (chars " 1 9 5") <> None.
Proof.
  assert (W : written [FReal; FReal; FCount] (chars " 1 9 5") [VR 1; VR 9; VI 5]) by spelling (@nil field) [dR 1; dR 9; dC 5].
  split; [exact W|]. intros N. pose proof (C67_frequency_card mesh0 _ _ _ _ W) as T. rewrite N in T. destruct T as [T|[T|T]]; [lra|lra|lia].
Qed.
Example C67_courant_nonvacuous : written [FReal] (chars " 0.9") [VR (9 / 10)] /\ cardCN mesh0 (chars " 0.9") <> None.
Proof.
  assert (W : written [FReal] (chars " 0.9") [VR (9 / 10)]) by spelling (@nil field) [dT 9].
  split; [exact W|]. intros N. pose proof (C67_courant_card mesh0 _ _ W) as T. rewrite N in T. lra.
Qed.
Example C67_spacing_nonvacuous : written [FReal; FReal; FReal] (chars " 0.1 0.1 0.2") (map VR [1 / 10; 1 / 10; 2 / 10]%R) /\ cardMS h4 (chars " 0.1 0.1 0.2") <> None.
Proof.
  assert (W : written [FReal; FReal; FReal] (chars " 0.1 0.1 0.2") (map VR [1 / 10; 1 / 10; 2 / 10]%R)) by spelling (@nil field) [dT 1; dT 1; dT 2].
  split; [exact W|]. rewrite (C67_spacing_card h4 _ _ W). unfold parseMS. destruct (Rle_dec (1 / 10) 0), (Rle_dec (2 / 10) 0); try lra.
  vm_compute. discriminate.
Qed.
Example C67_walls_nonvacuous : written six (chars " 1 0 1 0 1 0") (corners 1 0 1 0 1 0) /\ cardBR mesh0 (chars " 1 0 1 0 1 0") <> None.
Proof. split; [spelling (@nil field) [dI 1; dI 0; dI 1; dI 0; dI 1; dI 0]|vm_compute; discriminate]. Qed.
Example C67_boundary_nonvacuous : written [FName; FName] (chars " m MUR") [VS "m"; VS "MUR"]%string /\ bt_type "MUR" BT_MUR /\ cardBT mesh0 (chars " m MUR") <> None.
Proof. split; [spelling (@nil field) [dW "m"; dW "MUR"]|]. split; [constructor|vm_compute; discriminate]. Qed.
Example C67_pml_nonvacuous : written [FName; FName; FInt; FInt; FReal; FReal; FReal] (chars " XLO PML 8 3 2") (VS "XLO" :: VS "PML" :: [VI 8; VI 3; VR 2]) /\ cardBT mesh0 (chars " XLO PML 8 3 2") <> None.
Proof. split; [spelling [FReal; FReal] [dW "XLO"; dW "PML"; dI 8; dI 3; dR 2]|vm_compute; discriminate]. Qed.
Example C67_sheet_nonvacuous : written (FName :: FName :: repeat FReal 8) (chars " s SIBC 1 2 3 4") (VS "s" :: VS "SIBC" :: map VR [1; 2; 3; 4]%R) /\ cardBT mesh0 (chars " s SIBC 1 2 3 4") <> None.
Proof. split; [spelling [FReal; FReal; FReal; FReal] [dW "s"; dW "SIBC"; dR 1; dR 2; dR 3; dR 4]|vm_compute; discriminate]. Qed.
Example C67_lines_nonvacuous : numbers_written [0; 1; 2; 4; 8]%R (chars " 0 1 2 4 8") [] /\ h_numLines h4 XDIR = 5.
Proof.
  split; [|vm_compute; reflexivity].
  assert (BR : forall l, at_break (32 :: l)) by (intros l; right; exists 32, l; split; [reflexivity|left; reflexivity]).
  apply (nw_cons [32] [48] 0 (chars " 1 2 4 8")); [exact bl1|apply (digitR 0); lia|apply BR|].
  apply (nw_cons [32] [49] 1 (chars " 2 4 8")); [exact bl1|apply (digitR 1); lia|apply BR|].
  apply (nw_cons [32] [50] 2 (chars " 4 8")); [exact bl1|apply (digitR 2); lia|apply BR|].
  apply (nw_cons [32] [52] 4 (chars " 8")); [exact bl1|apply (digitR 4); lia|apply BR|].
  apply (nw_cons [32] [56] 8 []); [exact bl1|apply (digitR 8); lia|left; reflexivity|constructor].
Qed.
Example C67_version_nonvacuous : cardVM mesh0 (chars " 1.0.2") <> None /\ natlit [49] 1 /\ natlit [48] 0 /\ natlit [50] 2 /\ chars " 1.0.2" = [32] ++ [49] ++ 46 :: [48] ++ 46 :: [50] ++ [].
Proof. split; [vm_compute; discriminate|]. split; [apply (nl_one 1); lia|]. split; [apply (nl_one 0); lia|]. split; [apply (nl_one 2); lia|reflexivity]. Qed.
