(** The card handlers on the text of their cards, and the mesh they build: the
    program from the first character of the mesh file to the data the solver
    starts from.  Models the sscanf calls of mesh.c, grid.c, boundary.c,
    surface.c, medium.c, wire.c, block.c, line.c, waveform.c, source.c,
    planewave.c, observer.c and simulation.c around the parsers of the other
    files, and mesh.c:244-266 initMesh.
    Not modelled: the limits on the number of items (MAX_xxx, the program
    stops); the title kept by a CE card. *)
From Coq Require Import ZArith List Bool Ascii String DecimalString Reals.
From Verif Require Import Types CArr CStr Sim Scan Mesh BBox Grid Setup PmlProfile Media Medium Waveform Source PlaneWave Observer Edges.
Import ListNotations.
Open Scope Z_scope.

(** What a BoundaryItem holds besides type and layers (boundary.h:73-88):
    S parameters TM and TE (row by row), PML parameters, file name. *)
Record BPar := mkBP { b_tm : list R; b_te : list R; b_pml : PmlPar; b_file : string }.
(** the arguments 0 , 1.0 , rho , 1.0 , empty , NULL , NULL of mesh.c:252-254 *)
Definition plainPar : BPar := mkBP [] [] (mkPar 0 1 0 1) "".

(** The static data the handlers fill. *)
Record MeshData := mkMD {
  h_numCells : Axis -> Z; h_numLines : Axis -> Z; h_mbox : BBox;
  h_breg : BReg; h_bpar : list BPar;
  h_media : MReg; h_wires : Registry WType;
  h_blocks : list Block; h_lines : list Line; h_surfs : list (Surf * R);
  h_wfs : list WfItem; h_srcs : list Src; h_pws : list PW; h_obs : list Obs;
  h_nt : Z; h_ot : option (Z * Z); h_of : option (R * R * Z); h_cn : option R;
  h_mesh : Axis -> option (carr R); h_version : Z }.
(** mesh.c:244-266 initMesh; the rest are zero-initialised statics *)
Definition mesh0 : MeshData :=
  mkMD (fun _ => 0) (fun _ => 0) (fun _ => 0) initBoundaryReg [plainPar; plainPar; plainPar] initMedReg initWireReg
       [] [] [] [] [] [] [] 0 None None None (fun _ => None) 0.

Definition intsOf (vs : list Val) : option (list Z) :=
  fold_right (fun v acc => match v, acc with VI z, Some l => Some (z :: l) | _, _ => None end) (Some []) vs.
Definition realsOf (vs : list Val) : list R := flat_map (fun v => match v with VR x => [x] | _ => [] end) vs.
Definition box6 (vs : list Val) : option (BBox * list Val) :=
  match vs with
  | VI a :: VI b :: VI c :: VI d :: VI e :: VI f :: rest => Some (mkbox a b c d e f, rest)
  | _ => None
  end.
Definition D6 : list Conv := [CvInt; CvInt; CvInt; CvInt; CvInt; CvInt].
(** the quoted file name: blank, quote, %1023[^quote], quote *)
Definition quoted : list Conv := [CvSkip; CvLit 34; CvNotQuote; CvLit 34].

(** mesh.c:211-238 parseVM, "%d.%d.%d" *)
Definition cardVM (h : MeshData) (line : list Z) : option MeshData :=
  match sscanf [CvInt; CvLit 46; CvInt; CvLit 46; CvInt] line with
  | [VI a; VI b; VI c] =>
      if (2000 <=? a) || (1000 <=? b) || (1000 <=? c) then None
      else Some (mkMD (h_numCells h) (h_numLines h) (h_mbox h) (h_breg h) (h_bpar h) (h_media h) (h_wires h) (h_blocks h) (h_lines h)
                   (h_surfs h) (h_wfs h) (h_srcs h) (h_pws h) (h_obs h) (h_nt h) (h_ot h) (h_of h) (h_cn h) (h_mesh h) (1000000 * a + 1000 * b + c))
  | _ => None
  end.
(** grid.c:177-205 parseDM, "%d %d %d" *)
Definition cardDM (h : MeshData) (line : list Z) : option MeshData :=
  match sscanf [CvInt; CvInt; CvInt] line with
  | [VI a; VI b; VI c] =>
      match parseDM a b c with
      | Some (mb, nl) => Some (mkMD (fun x => match x with XDIR => a | YDIR => b | ZDIR => c end) nl mb (h_breg h) (h_bpar h) (h_media h) (h_wires h)
          (h_blocks h) (h_lines h) (h_surfs h) (h_wfs h) (h_srcs h) (h_pws h) (h_obs h) (h_nt h) (h_ot h) (h_of h) (h_cn h) (h_mesh h) (h_version h))
      | None => None
      end
  | _ => None
  end.
Definition setB (reg : BReg) (par : list BPar) (h : MeshData) : MeshData :=
  mkMD (h_numCells h) (h_numLines h) (h_mbox h) reg par (h_media h) (h_wires h)
    (h_blocks h) (h_lines h) (h_surfs h) (h_wfs h) (h_srcs h) (h_pws h) (h_obs h) (h_nt h) (h_ot h) (h_of h) (h_cn h) (h_mesh h) (h_version h).
(** surface.c:124-174 parseBR, "%d %d %d %d %d %d"; addBoundary for the six faces *)
Definition cardBR (h : MeshData) (line : list Z) : option MeshData :=
  match box6 (sscanf D6 line) with
  | Some (ty, []) =>
      match parseBR (h_breg h) ty with
      | Some reg => Some (setB reg (h_bpar h ++ map (fun f => mkBP [] [] (if ty f =? 0 then pmlDefaults else mkPar 0 0 (IZR (ty f)) 0) "") faces) h)
      | None => None
      end
  | _ => None
  end.
(** boundary.c:79-106 parseBE *)
Definition cardBE (h : MeshData) (line : list Z) : option MeshData :=
  match box6 (sscanf D6 line) with
  | Some (depth, []) => match parseBE (h_breg h) depth with Some reg => Some (setB reg (h_bpar h) h) | None => None end
  | _ => None
  end.
(** boundary.c:45, 138-144 *)
Definition btypeOf (s : string) : option BType :=
  if String.eqb s "PMC" then Some BT_PMC else if String.eqb s "PML" then Some BT_PML else if String.eqb s "PEC" then Some BT_PEC
  else if String.eqb s "FREE_SPACE" then Some BT_FREE_SPACE else if String.eqb s "PERIODIC" then Some BT_PERIODIC
  else if String.eqb s "MUR" then Some BT_MUR else if String.eqb s "SIBC" then Some BT_SIBC else None.
(** boundary.c:109-219 parseBT, "%31s %31s", then "%d %d %e %e %e" (PML), eight
    "%e" or a quoted file name (SIBC) *)
Definition cardBT (h : MeshData) (line : list Z) : option MeshData :=
  match sscanf [CvWord; CvWord] line with
  | [VS name; VS ty] =>
      match findName (h_breg h) name, btypeOf ty with
      | None, Some t =>
          let add layers p := Some (setB (addItem (h_breg h) name (mkB t layers)) (h_bpar h ++ [p]) h) in
          let simple rho := add 0 (mkBP [-1; 0; 0; -1]%R [-1; 0; 0; -1]%R (mkPar 0 0 rho 0) "") in
          match t with
          | BT_PEC => simple (-1)%R
          | BT_PMC | BT_PERIODIC => simple 1%R
          | BT_FREE_SPACE | BT_MUR => simple 0%R
          | BT_PML =>
              let vs := sscanf [CvWord; CvWord; CvInt; CvInt; CvReal; CvReal; CvReal] line in
              let n := (List.length vs - 2)%nat in
              let i k := match nth_error vs k with Some (VI z) => z | _ => 0 end in
              let r k := match nth_error vs k with Some (VR x) => x | _ => 0%R end in
              let '(layers, par) := parsePmlCard n (i 2%nat) (i 3%nat) (r 4%nat) (r 5%nat) (r 6%nat) in
              add layers (mkBP [-1; 0; 0; -1]%R [-1; 0; 0; -1]%R par "")
          | BT_SIBC =>
              let ss := realsOf (sscanf ([CvWord; CvWord] ++ repeat CvReal 8) line) in
              if (List.length ss =? 8)%nat then add 0 (mkBP (firstn 4 ss) (skipn 4 ss) (mkPar 0 0 0 0) "")
              else if (List.length ss =? 4)%nat then add 0 (mkBP ss ss (mkPar 0 0 0 0) "")
              else match sscanf ([CvWord; CvWord] ++ quoted) line with
                   | [VS _; VS _; VS f] => 
                       (* the numbers read by the first sscanf stay in S_TM *)
                       add 0 (mkBP (ss ++ skipn (List.length ss) [-1; 0; 0; -1]%R) [-1; 0; 0; -1]%R (mkPar 0 0 0 0) f)
                   | _ => None
                   end
          end
      | _, _ => None
      end
  | _ => None
  end.

Section Handlers.
(** the Debye parameter files that can be opened and read (medium.c:314-377) *)
Variable debyeFile : string -> option DebyeFile.

Definition setMedia (reg : MReg) (h : MeshData) : MeshData :=
  mkMD (h_numCells h) (h_numLines h) (h_mbox h) (h_breg h) (h_bpar h) reg (h_wires h)
    (h_blocks h) (h_lines h) (h_surfs h) (h_wfs h) (h_srcs h) (h_pws h) (h_obs h) (h_nt h) (h_ot h) (h_of h) (h_cn h) (h_mesh h) (h_version h).
(** medium.c:74-184 parseMT, "%31s %31s", up to nine "%lf", or a quoted file *)
Definition cardMT (h : MeshData) (line : list Z) : option MeshData :=
  match sscanf [CvWord; CvWord] line with
  | [VS name; VS ty] =>
      let vals := realsOf (sscanf ([CvWord; CvWord] ++ repeat CvReal (if String.eqb ty "DEBYE" then 9 else 3)) line) in
      let file := match sscanf ([CvWord; CvWord] ++ quoted) line with [VS _; VS _; VS f] => debyeFile f | _ => None end in
      match parseMT (h_media h) name ty vals file with Some reg => Some (setMedia reg h) | None => None end
  | _ => None
  end.
(** wire.c:77-128 parseWT: the type FREE_SPACE is found but fails assert( 0 ):
    the program stops *)
Definition cardWT (h : MeshData) (line : list Z) : option MeshData :=
  match sscanf [CvWord; CvWord] line with
  | [VS name; VS ty] =>
      if String.eqb ty "PEC" then
        match declare (h_wires h) name TW_PEC with
        | Some reg => Some (mkMD (h_numCells h) (h_numLines h) (h_mbox h) (h_breg h) (h_bpar h) (h_media h) reg
            (h_blocks h) (h_lines h) (h_surfs h) (h_wfs h) (h_srcs h) (h_pws h) (h_obs h) (h_nt h) (h_ot h) (h_of h) (h_cn h) (h_mesh h) (h_version h))
        | None => None
        end
      else None
  | _ => None
  end.
Definition setGeo (bs : list Block) (ls : list Line) (ss : list (Surf * R)) (h : MeshData) : MeshData :=
  mkMD (h_numCells h) (h_numLines h) (h_mbox h) (h_breg h) (h_bpar h) (h_media h) (h_wires h)
    bs ls ss (h_wfs h) (h_srcs h) (h_pws h) (h_obs h) (h_nt h) (h_ot h) (h_of h) (h_cn h) (h_mesh h) (h_version h).
(** block.c:63-117 parseMB, "%d %d %d %d %d %d %31s %31s", mask "111111" unless given *)
Definition cardMB (h : MeshData) (line : list Z) : option MeshData :=
  match box6 (sscanf (D6 ++ [CvWord; CvWord]) line) with
  | Some (b, VS name :: m) =>
      let mask := match m with VS s :: _ => list_ascii_of_string s | _ => list_ascii_of_string "111111" end in
      match parseMB (h_mbox h) (h_media h) b name mask with
      | Some blk => Some (setGeo (h_blocks h ++ [blk]) (h_lines h) (h_surfs h) h)
      | None => None
      end
  | _ => None
  end.
(** surface.c:177-236 parseTB, "%d %d %d %d %d %d %31s %d %lf", defaults 1 and 0.0 *)
Definition cardTB (h : MeshData) (line : list Z) : option MeshData :=
  match box6 (sscanf (D6 ++ [CvWord; CvInt; CvReal]) line) with
  | Some (b, VS name :: m) =>
      let o := match m with VI o :: _ => o | _ => 1 end in
      let ang := match m with _ :: VR a :: _ => a | _ => 0%R end in
      match parseTB (h_mbox h) (h_breg h) b name o (Rleb (-180) ang && Rleb ang 180) with
      | Some s => Some (setGeo (h_blocks h) (h_lines h) (h_surfs h ++ [(s, ang)]) h)
      | None => None
      end
  | _ => None
  end.
(** line.c:92-163 parseTW, "%d %d %d %d %d %d %31s %31s %31s"; wire.c:44 end types *)
Definition endType (s : string) : bool := existsb (String.eqb s) ["THRU"; "END"; "CORNER"]%string.
Definition cardTW (h : MeshData) (line : list Z) : option MeshData :=
  match box6 (sscanf (D6 ++ [CvWord; CvWord; CvWord]) line) with
  | Some (b, VS name :: ends) =>
      match parseTW (h_mbox h) (h_wires h) b name with
      | Some l => if forallb (fun v => match v with VS s => endType s | _ => false end) ends
                  then Some (setGeo (h_blocks h) (h_lines h ++ [l]) (h_surfs h) h) else None
      | None => None
      end
  | _ => None
  end.
Definition setExc (wfs : list WfItem) (srcs : list Src) (pws : list PW) (obs : list Obs) (h : MeshData) : MeshData :=
  mkMD (h_numCells h) (h_numLines h) (h_mbox h) (h_breg h) (h_bpar h) (h_media h) (h_wires h)
    (h_blocks h) (h_lines h) (h_surfs h) wfs srcs pws obs (h_nt h) (h_ot h) (h_of h) (h_cn h) (h_mesh h) (h_version h).
(** waveform.c:158-252 parseWF, "%31s %31s", then four "%lf", or (EXTERNAL) a
    quoted file name and two "%lf" *)
Definition cardWF (h : MeshData) (line : list Z) : option MeshData :=
  match sscanf [CvWord; CvWord] line with
  | [VS name; VS ty] =>
      let go args := match parseWF (h_wfs h) name ty args with
                     | Some l => Some (setExc l (h_srcs h) (h_pws h) (h_obs h) h) | None => None end in
      if String.eqb ty "EXTERNAL"
      then match sscanf ([CvWord; CvWord] ++ quoted ++ [CvReal; CvReal]) line with
           | VS _ :: VS _ :: VS _ :: vs => go (realsOf vs)
           | _ => None
           end
      else go (realsOf (sscanf ([CvWord; CvWord] ++ repeat CvReal 4) line))
  | _ => None
  end.
(** source.c:350-465 parseEX, "%d %d %d %d %d %d %31s %31s %31s" and two or (lumped
    sources) three "%lf"; a lumped source registers a medium "__VR_RS_n__",
    source.c:437-438 *)
Definition resistName (n : nat) : string := ("__VR_RS_" ++ NilZero.string_of_uint (Nat.to_uint n) ++ "__")%string.
Definition cardEX (h : MeshData) (line : list Z) : option MeshData :=
  match box6 (sscanf (D6 ++ [CvWord; CvWord; CvWord]) line) with
  | Some (b, [VS name; VS ty; VS wf]) =>
      let lumped := match findTag ty with Some t => isLumped (t_type t) | None => false end in
      let args := realsOf (sscanf (D6 ++ [CvWord; CvWord; CvWord] ++ repeat CvReal (if lumped then 3 else 2)) line) in
      match parseEX (h_mbox h) (h_wfs h) (h_srcs h) b name ty wf args with
      | Some l => let h' := setExc (h_wfs h) l (h_pws h) (h_obs h) h in
          Some (if lumped then setMedia (addItem (h_media h) (resistName (List.length (h_srcs h) + 1)) (mkMP MT_SIMPLE 1 0 1 [])) h' else h')
      | None => None
      end
  | _ => None
  end.
(** planewave.c:176-272 parsePW,
    "%d %d %d %d %d %d %31s %31s %lf %lf %lf %31s %lf %lf" *)
Definition cardPW (h : MeshData) (line : list Z) : option MeshData :=
  match box6 (sscanf (D6 ++ [CvWord; CvWord; CvReal; CvReal; CvReal; CvWord; CvReal; CvReal]) line) with
  | Some (b, VS name :: VS wf :: VR theta :: VR phi :: VR eta :: m) =>
      let mask := match m with VS s :: _ => Some s | _ => None end in
      let size := match m with _ :: VR x :: _ => Some x | _ => None end in
      let delay := match m with _ :: _ :: VR x :: _ => Some x | _ => None end in
      match parsePW (h_mbox h) (h_wfs h) (h_pws h) b name wf theta phi eta mask size delay with
      | Some l => Some (setExc (h_wfs h) (h_srcs h) l (h_obs h) h)
      | None => None
      end
  | _ => None
  end.
(** observer.c:177-281 parseOP, "%d %d %d %d %d %d %31s %31s" and then "%31s" (ASCII) or
    "%d %d %d" (BINARY) *)
Definition cardOP (h : MeshData) (line : list Z) : option MeshData :=
  match box6 (sscanf (D6 ++ [CvWord; CvWord]) line) with
  | Some (b, [VS name; VS ty]) =>
      let wf := match box6 (sscanf (D6 ++ [CvWord; CvWord; CvWord]) line) with Some (_, [_; _; VS w]) => w | _ => ""%string end in
      let steps := match box6 (sscanf (D6 ++ [CvWord; CvWord; CvInt; CvInt; CvInt]) line) with
                   | Some (_, _ :: _ :: vs) => match intsOf vs with Some l => l | None => [] end | _ => [] end in
      match parseOP (h_mbox h) (h_wfs h) (h_obs h) b name ty wf steps with
      | Some l => Some (setExc (h_wfs h) (h_srcs h) (h_pws h) l h)
      | None => None
      end
  | _ => None
  end.
Definition setCtl (nt : Z) (ot : option (Z * Z)) (of : option (R * R * Z)) (cn : option R) (xyz : Axis -> option (carr R)) (h : MeshData) : MeshData :=
  mkMD (h_numCells h) (h_numLines h) (h_mbox h) (h_breg h) (h_bpar h) (h_media h) (h_wires h)
    (h_blocks h) (h_lines h) (h_surfs h) (h_wfs h) (h_srcs h) (h_pws h) (h_obs h) nt ot of cn xyz (h_version h).
(** simulation.c:87-107 parseNT; observer.c:332-396 parseOT "%lu %lu", parseOF
    "%lf %lf %lu"; simulation.c:64-84 parseCN "%lf"; grid.c:208-254 parseMS "%lf %lf %lf" *)
Definition cardNT (h : MeshData) (line : list Z) : option MeshData :=
  match parseNT line with Some n => Some (setCtl n (h_ot h) (h_of h) (h_cn h) (h_mesh h) h) | None => None end.
Definition cardOT (h : MeshData) (line : list Z) : option MeshData :=
  match sscanf [CvULong; CvULong] line with
  | [VI a; VI b] => match parseOT a b with Some p => Some (setCtl (h_nt h) (Some p) (h_of h) (h_cn h) (h_mesh h) h) | None => None end
  | _ => None
  end.
Definition cardOF (h : MeshData) (line : list Z) : option MeshData :=
  match sscanf [CvReal; CvReal; CvULong] line with
  | [VR a; VR b; VI n] => match parseOF a b n with Some p => Some (setCtl (h_nt h) (h_ot h) (Some p) (h_cn h) (h_mesh h) h) | None => None end
  | _ => None
  end.
Definition cardCN (h : MeshData) (line : list Z) : option MeshData :=
  match sscanf [CvReal] line with
  | [VR x] => match parseCN x with Some y => Some (setCtl (h_nt h) (h_ot h) (h_of h) (Some y) (h_mesh h) h) | None => None end
  | _ => None
  end.
Definition cardMS (h : MeshData) (line : list Z) : option MeshData :=
  match parseMS (h_numLines h) (realsOf (sscanf [CvReal; CvReal; CvReal] line)) with
  | Some xyz => Some (setCtl (h_nt h) (h_ot h) (h_of h) (h_cn h) (fun a => Some (xyz a)) h)
  | None => None
  end.
(** grid.c:257-308 parseXL/YL/ZL: the numbers are read from the file behind the
    card's line; also returns how many characters *)
Definition cardL (a : Axis) (h : MeshData) (rest : list Z) : option (MeshData * nat) :=
  match scanReals (Z.to_nat (h_numLines h a)) rest with
  | Some (xs, rest') =>
      match parseLines (h_numLines h a) xs with
      | Some arr => Some (setCtl (h_nt h) (h_ot h) (h_of h) (h_cn h) (fun x => if axis_eqb x a then Some arr else h_mesh h x) h,
                          (List.length rest - List.length rest')%nat)
      | None => None
      end
  | None => None
  end.

(** mesh.c:176-191 cardFunc[] *)
Definition handler (h : MeshData) (c : Card) (line rest : list Z) : option (MeshData * nat) :=
  let plain x := option_map (fun h => (h, O)) x in
  match c with
  | VM => plain (cardVM h line) | CE => Some (h, O) | DM => plain (cardDM h line) | BR => plain (cardBR h line)
  | BE => plain (cardBE h line) | MT => plain (cardMT h line) | BT => plain (cardBT h line) | WT => plain (cardWT h line)
  | MB => plain (cardMB h line) | TB => plain (cardTB h line) | TW => plain (cardTW h line) | WF => plain (cardWF h line)
  | Mesh.EX => plain (cardEX h line) | Mesh.PW => plain (cardPW h line) | OP => plain (cardOP h line) | FF => Some (h, O)
  | NT => plain (cardNT h line) | OT => plain (cardOT h line) | OF => plain (cardOF h line) | CN => plain (cardCN h line)
  | MS => plain (cardMS h line) | XL => cardL XDIR h rest | YL => cardL YDIR h rest | ZL => cardL ZDIR h rest
  | GS | GE | EN => Some (h, O)   (* no function *)
  end.
(** mesh.c:269-405 readMesh with its handlers *)
Definition readMeshFile (file : list Z) : outc (MState * MeshData * list Card) := readMesh handler file mesh0.
End Handlers.
