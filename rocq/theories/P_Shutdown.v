(** C86: what the program allocates and opens, and what it gives back. *)
From Coq Require Import ZArith List Bool Ascii String Reals Lia.
From Verif Require Import Types CStr Sim Scan BBox Grid Setup Media Medium Waveform Source PlaneWave Observer Mesh Front SpecFront SpecText Program P_Front Shutdown SpecShutdown ShutdownProofs P_FrontRun.
Import ListNotations.
Open Scope string_scope.
Open Scope list_scope.

(** Every complete mesh file the program accepts, on a cubic grid ([aux]) or
    not, with any number of time steps: from start-up to the end nothing is
    allocated where something lives, nothing is used before it is made or after
    it is released, nothing is released twice; in particular the spectra are
    written while the reference waveforms' transforms are there.  At the end
    every file is closed; what is left is the wire types of the mesh and, on a
    cubic grid, two coefficient arrays per plane wave. *)
Theorem C86_shutdown_partial : forall debyeFile file st h cards c aux steps,
  readMeshFile debyeFile file = Acc (st, h, cards) -> In GE cards -> cfgFor h = Some c ->
  exists left, checker [] (lifetime aux c h steps) = Some left /\ (forall r, is_file r -> ~ In r left) /\
    forall r, In r left <->
      (exists n, entry (h_wires h) n /\ r = item "wire" n) \/
      (aux = true /\ exists n p, entry (h_pws h) n /\ (p = "ahx" \/ p = "bhx") /\ r = mkRes "planewave" n p).
Proof.
  intros df file st h cards c aux steps E GE_ _.
  destruct (C69_consistent df file st h cards E) as (_ & _ & X). destruct (X GE_) as [_ W].
  destruct (life_good aux c h steps W []) as (left & CK & H); [intros r; split; intros []|].
  assert (C : forall r, In r left <-> (exists n, entry (h_wires h) n /\ r = item "wire" n) \/
      (aux = true /\ exists n p, entry (h_pws h) n /\ (p = "ahx" \/ p = "bhx") /\ r = mkRes "planewave" n p)).
  { intros [o n p]. rewrite (H (mkRes o n p)). cbn [r_of r_num r_part]. unfold leftOver, upd, entry, item.
    destruct (String.eqb_spec o "planewave") as [->|N1]; [|destruct (String.eqb_spec o "wire") as [->|N2]].
    - split.
      + intros (x & Q & I). right. unfold ofAux in I. destruct aux; [|destruct I]. split; [reflexivity|]. exists n, p.
        split; [exact (nth_lt _ _ _ Q)|]. split; [|reflexivity]. destruct I as [<-|[<-|[]]]; auto.
      + intros [(m & _ & Q)|(-> & m & q & L & Q & R)]; [discriminate Q|]. injection R as -> ->.
        destruct (nth_error (h_pws h) m) as [x|] eqn:Y; [|apply nth_error_None in Y; lia]. exists x. split; [exact Y|]. cbn. intuition.
    - rewrite fam_items. unfold some_items. split.
      + intros [L ->]. left. exists n. auto.
      + intros [(m & L & Q)|(_ & m & q & _ & _ & Q)]; [injection Q as -> ->; auto|discriminate Q].
    - split; [intros []|]. intros [(m & _ & Q)|(_ & m & q & _ & _ & Q)]; injection Q; congruence. }
  exists left. split; [exact CK|]. split; [|exact C].
  intros r F I. apply C in I. unfold is_file in F. destruct I as [(n & _ & ->)|(_ & n & p & _ & Q & ->)]; cbn [item r_part r_of In] in F.
  - intuition discriminate.
  - destruct Q as [-> | ->]; intuition discriminate.
Qed.

(** A mesh with walls of all kinds, a wire, a block, binary,
    time and frequency observers: accepted, and it can be set up. *)
Definition demo86 : list Z := chars "VM 0.7.0
DM 4 4 4
BR -1 -1 0 0 1 1
BE 0 0 3 3 0 0
GS
MT metal PEC
WT thin PEC
MB 1 3 1 4 2 4 metal 111101
TW 1 1 2 2 0 3 thin END
WF w GAUSSIAN_PULSE
EX 2 2 2 2 1 2 src IZ w
OP 0 4 0 4 0 4 out TDOM_BINARY 2 2 1
OP 1 1 1 1 1 1 pt TDOM_ASCII w
OP 1 1 1 1 2 2 fq FDOM_ASCII w
GE
NT 100
XL
0 1 2 3 4 YL
0 1e-1 .2 0.3 0.4 ZL
0 1 2 3 4 EN
"%string.
Example C86_nonvacuous : exists st h cards c, readMeshFile (fun _ => None) demo86 = Acc (st, h, cards) /\ In GE cards /\ cfgFor h = Some c /\
  List.length (h_obs h) = 3%nat /\ thereAreBinary h = true /\ outerSurfaceType c YLO = BT_PML /\ List.length (h_wires h) = 3%nat.
Proof. do 4 eexists. split; [vm_compute; reflexivity|]. split; [cbn; tauto|]. split; [vm_compute; reflexivity|]. repeat split. Qed.
(** The checker at work on a mesh with a Debye block, an SIBC sheet, a plane wave
    on a cubic grid, a tabulated waveform, a frequency observer and default PML
    walls: 2 time steps, and what is left. *)
Definition h86 : MeshData :=
  mkMD (fun _ => 4%Z) (fun _ => 5%Z) (mkbox 0 4 0 4 0 4) (initBoundaryReg ++ [mkItem "sheet" (mkB BT_SIBC 0)]) []
    (initMedReg ++ [mkItem "water" (mkMP MT_DEBYE 1%R 0%R 1%R [])]) [] [mkBlock (mkbox 1 2 1 2 1 2) 2 63] []
    [(mkSurf (mkbox 1 3 1 3 2 2) 3 1, 0%R)] [mkWf "w" EXTERNAL 1%R 0%R 1%R 1%R] []
    [mkPW "pw" (mkbox 1 3 1 3 1 3) "w" (fun _ => true) 0%R 0%R 0%R 1%R 0%R] [mkObs "f" OF_ASCII OD_FREQ OQ_EH (mkbox 1 1 1 1 1 1) (fun _ => 1%Z) 0] 10 None None None (fun _ => None) 0.
Example C86_checker_example : exists c, cfgFor h86 = Some c /\ debyeMedia h86 = [2%nat] /\ sibcBounds h86 = [3%nat] /\ outerSurfaceType c ZHI = BT_PML /\
  checker [] (lifetime true c h86 2) = Some (parts "planewave" 0 ["bhx"; "ahx"]) /\
  checker [] (startUp true c h86 ++ deallocBoundaries h86 ++ deallocExternalSurfaces c h86) = None /\
  checker [] (startUp true c h86 ++ deallocMedia h86 ++ deallocBlocks h86) = None.
Proof. eexists. split; [vm_compute; reflexivity|]. split; [reflexivity|]. split; [reflexivity|]. split; [reflexivity|]. split; [vm_compute; reflexivity|]. split; vm_compute; reflexivity. Qed.

(** Not everything is given back: the wire types never are (wire.c:206-225
    deallocWires is not called), not even the predefined ones. *)
Theorem C86_all_released_refuted : exists st h cards c left, readMeshFile (fun _ => None) demo86 = Acc (st, h, cards) /\ In GE cards /\ cfgFor h = Some c /\
  checker [] (lifetime false c h 1) = Some left /\ left <> [].
Proof.
  destruct C86_nonvacuous as (st & h & cards & c & E & G & C & _ & _ & _ & W).
  destruct (C86_shutdown_partial _ _ _ _ _ _ false 1%nat E G C) as (left & CK & _ & X).
  exists st, h, cards, c, left. repeat split; auto. intros ->. apply (proj2 (X (item "wire" 0))). left. exists 0%nat. split; [unfold entry; rewrite W; lia|reflexivity].
Qed.
