(** Specification of C64 and C65: complete runs - boundaries, media, dispersive
    blocks, impedance sheets, sources and plane waves together. *)
From Coq Require Import ZArith List Bool String Reals.
From Verif Require Import Types Lang BBox Grid Setup Media Medium Debye Filter Sibc Waveform Source SpecSource P_Source PlaneWave SpecPw P_PwBounds P_Media
  SpecPhys P_SibcMesh Whole.
Import ListNotations.
Open Scope R_scope.

(** ** What a mesh file can contain *)
(** [b] was accepted by an MB card on the mesh of [c] *)
Definition accepted_block (c : Cfg) (b : Block) : Prop :=
  exists M (media : Registry M) box name mask, parseMB (meshBox c) media box name mask = Some b.
(** every source, plane wave (ordered along z), sheet and dispersive block of
    the program comes from an accepted card *)
Record accepted (c : Cfg) (wfs : list WfItem) (med : nat -> MType * list Pole) (blocks : list Block) (g : Prog) : Prop := mkAcc {
  acc_src : Forall (accepted_src c wfs) (g_srcs g);
  acc_pw : Forall (fun p => accepted_pw c wfs p /\ (pw_mbbox p ZLO <= pw_mbbox p ZHI)%Z) (g_pws g);
  acc_sheet : Forall (fun x => accepted_sheet c (fst (fst x))) (g_sheets g);
  acc_block : Forall (accepted_block c) blocks;
  acc_debye : g_blocks g = initDebyeBlocks c med blocks }.

(** ** Superposition of two simulations *)
Definition both (a : R) (x : R) (b : R) (y : R) : R := a * x + b * y.
(** complex numbers and lists of them: term by term, same length *)
Definition bothC a (x : Cx) b (y : Cx) : Cx := mkC (both a (re x) b (re y)) (both a (im x) b (im y)).
Inductive sup_cx (a b : R) : list Cx -> list Cx -> list Cx -> Prop :=
| sc_nil : sup_cx a b [] [] []
| sc_cons x y l1 l2 l3 : sup_cx a b l1 l2 l3 -> sup_cx a b (x :: l1) (y :: l2) (bothC a x b y :: l3).
(** the drives: waveform values and incident fields *)
Definition bothD a (d1 : Drv) b (d2 : Drv) : Drv :=
  mkDrv (fun t s => both a (d_wE d1 t s) b (d_wE d2 t s)) (fun t s => both a (d_wH d1 t s) b (d_wH d2 t s))
        (fun t p f i j k => both a (d_iE d1 t p f i j k) b (d_iE d2 t p f i j k))
        (fun t p f i j k => both a (d_iH d1 t p f i j k) b (d_iH d2 t p f i j k)).
(** the whole state: field arrays and PML memory; polarisation currents and
    cached fields; filter states and tangential fields of the sheets *)
Record sup_w (a b : R) (s1 s2 s3 : WState) : Prop := mkSup {
  sw_m : sup_mem a b (w_m s1) (w_m s2) (w_m s3);
  sw_J : forall n f i j k, sup_cx a b (w_J s1 n f i j k) (w_J s2 n f i j k) (w_J s3 n f i j k);
  sw_L : forall n f i j k, w_L s3 n f i j k = both a (w_L s1 n f i j k) b (w_L s2 n f i j k);
  sw_old : forall n i j k p q, rsOld (w_st s3 n i j k p q) = both a (rsOld (w_st s1 n i j k p q)) b (rsOld (w_st s2 n i j k p q));
  sw_zeta : forall n i j k p q, sup_cx a b (rsZeta (w_st s1 n i j k p q)) (rsZeta (w_st s2 n i j k p q)) (rsZeta (w_st s3 n i j k p q));
  sw_E : forall n i j k p, v4 (w_E s3 n i j k) p = both a (v4 (w_E s1 n i j k) p) b (v4 (w_E s2 n i j k) p) }.
