(** The complete time loop: /repo/src/simulation.c:160-220 with every feature a
    mesh file can switch on - external boundaries, media, dispersive (Debye)
    blocks, impedance sheets (WITH_SIBC), sources and plane waves.  Exact
    arithmetic, unscaled fields. *)
From Coq Require Import ZArith List Bool Reals.
From Verif Require Import Types Lang BBox Grid Setup Pml Mur Ghost Step Media Medium Debye Filter Sibc Source P_Source
  PlaneWave P_PwBounds SpecPw SpecPhys.
Import ListNotations.
Open Scope R_scope.

(** What the mesh file fixes: time step, dispersive blocks, sheets with their
    adjacency flags (sibc.c:320-385), sources and plane waves. *)
Record Prog := mkProg { g_eps0 : R; g_dt : R; g_blocks : list DBlock;
  g_sheets : list (Sheet * (Z -> Z -> Z -> Flags) * (Z -> Z -> Z -> Flags));
  g_de : Axis -> Z -> R; g_dh : Axis -> Z -> R; g_srcs : list Src; g_pws : list PW }.
(** What drives it: the waveform value of each source and the incident field of
    each plane wave at each step (E update, H update). *)
Record Drv := mkDrv { d_wE : nat -> Src -> R; d_wH : nat -> Src -> R; d_iE : nat -> PW -> Field; d_iH : nat -> PW -> Field }.

(** The state: grid arrays; polarisation currents and cached fields of the
    dispersive blocks; filter states and tangential fields of the sheets'
    faces. *)
Record WState := mkW { w_m : mem R; w_J : nat -> Fld -> Z -> Z -> Z -> list Cx; w_L : nat -> Fld -> Z -> Z -> Z -> R;
  w_st : nat -> Z -> Z -> Z -> States; w_E : nat -> Z -> Z -> Z -> V4 }.
Definition set_m (m : mem R) (s : WState) : WState := mkW m (w_J s) (w_L s) (w_st s) (w_E s).

Section Whole.
Variables (c : Cfg) (g : Prog).

(** debye.c:264-334 through block.c:331-340 updateBlocksEfield: the
    model of Debye.v, reading E and beta from the grid arrays and writing E back *)
Definition putE (d : DState) (m : mem R) : mem R := fun l =>
  match arr l with AF f => if is_E f then sE d f (li l) (lj l) (lk l) else m l | _ => m l end.
Definition debyeStep (s : WState) : WState :=
  let m := w_m s in
  let d := updateDebyeBlocksEfield (g_eps0 g) (g_dt g) (fun f i j k => m (L (ABeta f) i j k)) (g_blocks g)
             (mkDS (fun f i j k => m (L (AF f) i j k)) (w_J s) (w_L s)) in
  mkW (putE d m) (sJ d) (sL d) (w_st s) (w_E s).
(** the same, with the accesses checked: grid arrays of extent [dims3], block
    arrays of extent hi-lo+1 (debye.c:115-133) indexed by i-lo *)
Definition debyeInb (blk : DBlock) (p : Fld * Z * Z * Z) : bool :=
  let '(f, i, j, k) := p in let b := db_lim blk f in
  inb (dims c) (L (AF f) i j k) && inb (dims c) (L (ABeta f) i j k) &&
  ((0 <=? i - b XLO) && (i - b XLO <? b XHI - b XLO + 1) && (0 <=? j - b YLO) && (j - b YLO <? b YHI - b YLO + 1) &&
   (0 <=? k - b ZLO) && (k - b ZLO <? b ZHI - b ZLO + 1))%Z.
Definition debyeStepO (s : WState) : option WState :=
  if forallb (fun blk => forallb (debyeInb blk) (blockPoints blk)) (g_blocks g) then Some (debyeStep s) else None.

(** sibc.c:443-585 updateSibcSurfacesEfield: the faces in order; per face the
    mesh E is zeroed, the tangential H read and filtered, and Etan stored *)
Definition at3f {T} (n : nat) (i j k : Z) (v : T) (h : nat -> Z -> Z -> Z -> T) : nat -> Z -> Z -> Z -> T :=
  fun n' i' j' k' => if Nat.eqb n' n && (i' =? i)%Z && (j' =? j)%Z && (k' =? k)%Z then v else h n' i' j' k'.
Definition FaceRef := (nat * (Sheet * (Z -> Z -> Z -> Flags) * (Z -> Z -> Z -> Flags)) * (Z * Z * Z))%type.
Definition sibcEface (s : WState) (x : FaceRef) : WState :=
  let '(n, (sh, fA, fB), (i, j, k)) := x in
  let m := run rArith (zeroE (sb_normal sh) i j k) (w_m s) in
  let '(st', e) := sheet (sb_plus sh) (sb_cosa sh) (sb_sina sh) (sb_rcm sh) (w_st s n i j k)
                     (htan (sb_normal sh) (fA i j k) (fB i j k) m i j k) in
  mkW m (w_J s) (w_L s) (at3f n i j k st' (w_st s)) (at3f n i j k e (w_E s)).
Fixpoint numbered {X} (n : nat) (l : list X) : list (nat * X) :=
  match l with [] => [] | x :: l' => (n, x) :: numbered (S n) l' end.
Definition allFaces : list FaceRef :=
  flat_map (fun nx => faces3 (sb_box (fst (fst (snd nx)))) (fun i j k => [(nx, (i, j, k))])) (numbered 0 (g_sheets g)).
Definition sibcE (s : WState) : WState := fold_left sibcEface allFaces s.
Definition faceInb (x : FaceRef) : bool :=
  let '(n, (sh, fA, fB), (i, j, k)) := x in
  forallb (sinb (dims c)) (zeroE (sb_normal sh) i j k) &&
  forallb (fun p => let '(a, b) := htanReads (sb_normal sh) i j k p in inb (dims c) a && inb (dims c) b) idx4.
Definition sibcEO (s : WState) : option WState := if forallb faceInb allFaces then Some (sibcE s) else None.
(** sibc.c:615-776 updateSibcSurfacesHfield *)
Definition sheetsNow (s : WState) : list SheetState :=
  map (fun nx => let '(n, (sh, fA, fB)) := nx in mkSS sh fA fB (w_E s n)) (numbered 0 (g_sheets g)).

(** simulation.c:170-219, step [t] *)
Definition wstep (d : Drv) (t : nat) (s : WState) : WState :=
  let s1 := set_m (run rArith (flat (phaseE c)) (w_m s)) s in
  let s2 := sibcE (debyeStep s1) in
  let m3 := run rArith (flat (exciteE c (g_de g) (g_dh g) (g_srcs g) (d_wE d) (g_pws g) (d_iE d) t)) (w_m s2) in
  let m4 := run rArith (flat (updateGhostEfield c)) m3 in
  let m5 := run rArith (flat (phaseH c)) m4 in
  let m6 := run rArith (updateSibcH c (sheetsNow s2)) m5 in
  let m7 := run rArith (flat (exciteH c (g_de g) (g_dh g) (g_srcs g) (d_wH d) (g_pws g) (d_iH d) t)) m6 in
  set_m (run rArith (flat (updateGhostHfield c)) m7) s2.
(** the same with every access checked *)
Definition wstepO (d : Drv) (t : nat) (s : WState) : option WState :=
  let R p m := runO rArith (dims c) p m in
  match R (flat (phaseE c)) (w_m s) with None => None | Some m1 =>
  match debyeStepO (set_m m1 s) with None => None | Some s1 =>
  match sibcEO s1 with None => None | Some s2 =>
  match R (flat (exciteE c (g_de g) (g_dh g) (g_srcs g) (d_wE d) (g_pws g) (d_iE d) t)) (w_m s2) with None => None | Some m3 =>
  match R (flat (updateGhostEfield c)) m3 with None => None | Some m4 =>
  match R (flat (phaseH c)) m4 with None => None | Some m5 =>
  match R (updateSibcH c (sheetsNow s2)) m5 with None => None | Some m6 =>
  match R (flat (exciteH c (g_de g) (g_dh g) (g_srcs g) (d_wH d) (g_pws g) (d_iH d) t)) m6 with None => None | Some m7 =>
  match R (flat (updateGhostHfield c)) m7 with None => None | Some m8 => Some (set_m m8 s2)
  end end end end end end end end end.
Fixpoint wrun (d : Drv) (t n : nat) (s : WState) : WState :=
  match n with O => s | S n' => wrun d (S t) n' (wstep d t s) end.
Fixpoint wrunO (d : Drv) (t n : nat) (s : WState) : option WState :=
  match n with O => Some s | S n' => match wstepO d t s with Some s' => wrunO d (S t) n' s' | None => None end end.

(** Start: fields, currents, caches, filter states and tangential fields zero
    (grid.c:682-706, pml.c:826-880, debye.c:135-142, sibc.c:298-306); [m] holds the
    media and cell data. *)
Definition start (m : mem R) : WState :=
  mkW m (fun b => zeroJ (g_blocks g) b) zeroL
    (fun n i j k => match nth_error (g_sheets g) n with Some (sh, _, _) => states0 (sb_rcm sh) | None => states0 (fun _ _ => mkRC 0 []) end)
    (fun _ _ _ _ => mkV 0 0 0 0).
End Whole.
