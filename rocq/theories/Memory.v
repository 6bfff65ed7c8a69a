(** The memory report.  Models the calls [x = allocArray( &bytes , ... );
    memory.yyy += bytes;] of /repo/src/grid.c:241-301 and 457-578,
    pml.c:632-784, medium.c:395-396, observer.c:484, 509-511 and 920-931, and
    memory.c:32-63.
    Simplification: one mesh-line card per axis (XL, YL, ZL or the uniform card);
    Debye blocks and impedance sheets (memory.blocks, memory.surfaces), whose
    sizes depend on the structures of the C compiler, are left out. *)
From Coq Require Import ZArith List Bool.
From Verif Require Import Types Lang BBox Grid Pml Alloc.
Import ListNotations.
Open Scope Z_scope.

(** memory.h:28-45 struct Memory_t *)
Inductive Counter := M_grid | M_ehFields | M_ehCoeffs | M_pmlFields | M_pmlCoeffs | M_waveforms | M_sources
                   | M_observers | M_boundaries | M_surfaces | M_media | M_blocks | M_wires | M_lines.
Definition counter_eqb (a b : Counter) : bool :=
  match a, b with
  | M_grid, M_grid | M_ehFields, M_ehFields | M_ehCoeffs, M_ehCoeffs | M_pmlFields, M_pmlFields | M_pmlCoeffs, M_pmlCoeffs
  | M_waveforms, M_waveforms | M_sources, M_sources | M_observers, M_observers | M_boundaries, M_boundaries
  | M_surfaces, M_surfaces | M_media, M_media | M_blocks, M_blocks | M_wires, M_wires | M_lines, M_lines => true
  | _, _ => false
  end.

(** one call of allocArray and the counter its [bytes] is added to, if any *)
Record Call := mkCall { elemSize : Z; extents : list Z; addedTo : option Counter }.
(** the counters (unsigned long), all zero at the start, memory.c:32 *)
Definition Memory := Counter -> Z.
Definition memory0 : Memory := fun _ => 0.
(** [memory.k += bytes], alloc_array.c:110 [*bytes = blockSize] *)
Definition call (m : Memory) (a : Call) : Memory :=
  match addedTo a with
  | None => m
  | Some k => fun k' => if counter_eqb k k' then u64 (m k' + blockSize (elemSize a) (extents a)) else m k'
  end.
Definition counters (calls : list Call) : Memory := fold_left call calls memory0.

Section Calls.
(** sizeof( real ), sizeof( MediumIndex ), and whether USE_INDEXED_MEDIA is on *)
Variables (REAL INDEX : Z) (indexed : bool) (c : Cfg).
(** grid.c:241-301: xlines, ylines, zlines *)
Definition meshLineCalls : list Call := map (fun a => mkCall REAL [numLines c a] (Some M_grid)) [XDIR; YDIR; ZDIR].
(** an array over the grid *)
Definition cube (size : Z) (k : Counter) : Call := mkCall size [numCells c XDIR; numCells c YDIR; numCells c ZDIR] (Some k).
Definition row (k : Counter) (a : Axis) : Call := mkCall REAL [numCells c a] (Some k).
(** grid.c:457-578 allocGridArrays: dex dey dez, idex.., dhx.., idhx..; the fields; mediumXx or
    alphaEx .. gammaHz *)
Definition gridCalls : list Call :=
  map (row M_grid) [XDIR; YDIR; ZDIR; XDIR; YDIR; ZDIR; XDIR; YDIR; ZDIR; XDIR; YDIR; ZDIR]
  ++ [cube REAL M_ehFields; cube REAL M_ehFields; cube REAL M_ehFields; cube REAL M_ehFields; cube REAL M_ehFields; cube REAL M_ehFields]
  ++ (if indexed
      then [cube INDEX M_ehCoeffs; cube INDEX M_ehCoeffs; cube INDEX M_ehCoeffs; cube INDEX M_ehCoeffs; cube INDEX M_ehCoeffs; cube INDEX M_ehCoeffs]
      else [cube REAL M_ehCoeffs; cube REAL M_ehCoeffs; cube REAL M_ehCoeffs; cube REAL M_ehCoeffs; cube REAL M_ehCoeffs; cube REAL M_ehCoeffs;
            cube REAL M_ehCoeffs; cube REAL M_ehCoeffs; cube REAL M_ehCoeffs]).
(** pml.c:640-690: Px Py Pz PPx PPy PPz Bx By Bz of a region *)
Definition regionCalls (r : Face) : list Call :=
  flat_map (fun f => match pmlDims c r f with
                     | Some (x, y, z) => [mkCall REAL [x; y; z] (Some M_pmlFields)]
                     | None => [] end) [EX; EY; EZ; EX; EY; EZ; HX; HY; HZ].
(** pml.c:692-783: ad bd gd kd ah bh gh kh per axis, then ibd ibh per axis *)
Definition pmlCalls : list Call :=
  flat_map regionCalls faces
  ++ flat_map (fun a => [row M_pmlCoeffs a; row M_pmlCoeffs a; row M_pmlCoeffs a; row M_pmlCoeffs a; row M_pmlCoeffs a; row M_pmlCoeffs a; row M_pmlCoeffs a; row M_pmlCoeffs a]) [XDIR; YDIR; ZDIR]
  ++ flat_map (fun a => [row M_pmlCoeffs a; row M_pmlCoeffs a]) [XDIR; YDIR; ZDIR].
(** medium.c:395-396: mediumArray of pointers *)
Definition mediaCalls (numMedium : Z) : list Call := [mkCall PTR [numMedium] (Some M_media)].
(** observer.c:929-931: dft_real, dft_imag; only the second is added *)
Definition dftCalls (numFreq numComp : Z) : list Call :=
  [mkCall REAL [numComp; numFreq] None; mkCall REAL [numComp; numFreq] (Some M_observers)].
(** observer.c:484 for every frequency-domain observer (its number of components), 510-511: omega *)
Definition observerCalls (numFreq : Z) (comps : list Z) : list Call :=
  flat_map (dftCalls numFreq) comps ++ [mkCall REAL [numFreq] (Some M_observers)].
(** in the order of main, vulture.c:99-138; waveforms, sources, boundaries, wires and lines
    add to no counter *)
Definition setupCalls (numMedium numFreq : Z) (comps : list Z) : list Call :=
  meshLineCalls ++ gridCalls ++ mediaCalls numMedium ++ pmlCalls ++ observerCalls numFreq comps.
End Calls.
