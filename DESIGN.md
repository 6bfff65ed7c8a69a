# Formal model of vulture (FDTD solver) in Rocq/Coq 8.16.1

The plan (first section and the table) was written before the proofs and is kept
up to date as theorems land; the status column is generated from MANIFEST.json.

## Approach

* Every inner loop of the solver is a list of assignments of a tiny language
  (`Lang.v`): array reads, constants, `+ - *`, unary minus.  The semantics is
  parameterised by a record of arithmetic operations *without laws* (`Arith`),
  so memory safety, exactly-once, locality and schedule-independence hold for
  IEEE `float` as well as for the reals.  Physics identities (energy,
  divergence, superposition, TF/SF) are proved over Coq's `R`.
* Undefined behaviour is a distinct outcome: `runO` (and the option/result monads
  of `CArr.v`, `CStr.v`, `Alloc.v`, `Gmsh.v`, ...) return a failure on an access
  outside the allocated extents, a failed assertion or a signed overflow; NULL
  arrays have no elements.
* OpenMP loops are `Par` items whose semantics is an interleaving of
  single-cell reads and writes.
* Parsers are total functions on bytes/tokens with explicit `UB`/`Abort`
  outcomes; unsigned arithmetic is `mod 2^64` where it matters.
* Model files contain definitions only (with /repo citations); `Spec*.v` the
  small independent specifications the theorems are stated in; `*Proofs.v`,
  `*Value.v`, ... the lemmas; `P_*.v` the property theorems and, beside them,
  non-vacuity examples (`..._nonvacuous`); `Assumptions.v` prints the axioms of
  every theorem named in MANIFEST.json.
* Where the unchanged code violates the English property, the model is kept
  faithful, a `..._refuted` theorem gives a concrete witness and the strongest
  true statement is proved beside it (suffix `_partial` when it is weaker than
  the English claim).

## Plan and status per property

| id | property | model | proof | status |
|----|----------|-------|-------|--------|
| C01 | Face-mask strings select exactly the named faces | `BBox.v` setFaceMaskFromString incl. `strtol` base 2 on characters | induction on the string; finite sweep over the 64 masks | proved |
| C02 | Bounding boxes are classified by dimension and orientation | `BBox.v` bboxType, bboxDirection, getFaceOfBoundingBox, fieldIs*, offsetBoundingBox | case analysis + lia | proved |
| C03 | Only well-formed boxes inside the mesh are accepted | `BBox.v` bboxIsNormal/Within; `Media.v` parsers of MB/TB/TW cards | refutation witness (z never checked); true part proved | partial |
| C04 | Field limits enumerate exactly the Yee points of a box | `BBox.v` setFieldLimits | geometric spec in half-cells (`SpecGeom.v`); lia | proved |
| C05 | The grid extents nest and the arrays cover them | `Grid.v` parseDM, setGridExtents | lia | proved |
| C06 | No time-step loop accesses memory outside an allocated array | all field-update loops of `Grid.v Pml.v Mur.v Ghost.v Step.v` as statement lists + `dims` | per-loop bounds, lia | proved |
| C07 | Every field value of the outer grid is updated exactly once per time step | same lists | counting of destinations | proved |
| C08 | Results do not depend on the OpenMP schedule | `Par` items of `Lang.v` | generic race-freedom theorem + footprints of every loop | proved |
| C09 | Signals travel at most one cell per time step | same lists | footprint distance, induction on steps | proved |
| C10 | Superposition | same lists over R | syntactic linearity of right-hand sides | proved |
| C11 | A quiescent grid stays quiescent | same lists over R | linearity, induction on steps | proved |
| C12 | The magnetic update creates no magnetic charge | grid update over R | algebra on the closed form of one step (`StepValue.v`) | proved |
| C13 | Energy is conserved in a lossless closed cavity | grid update + walls over R | summation by parts (`Energy.v`) | proved |
| C14 | Tangential E on PEC is always zero | walls set up by `Media.v` | invariant over steps | proved |
| C15 | PMC walls act as magnetic mirrors | `Ghost.v` | closed form of the ghost loops (`GhostValue.v`) | proved |
| C16 | Periodic faces wrap | `Ghost.v` | agreement of fields and PML auxiliary fields on the two faces is an invariant of the time step, zone by zone (`PeriodicAll.v`, one-cell MUR meshes via `MurThin.v`); spec in `SpecPeriodic.v` | proved |
| C17 | Media coefficients are those of the declared medium and passive | `Medium.v` parseMT, calcCoeffFromParam (complex numbers as pairs) | field / nra | proved |
| C18 | The last block that covers a cell edge determines its medium | `Media.v` setMediumOnGrid, initBlocks, initLines | induction over the list of painters | proved |
| C19 | Names resolve to the declared boundary/medium/waveform | registries in `Setup.v` | invariant over declaration sequences | proved |
| C20 | A mesh file is accepted only if its cards come in section order and the required ones are present | `Mesh.v` readMesh state machine over arbitrary card handlers | simulation of the state machine, induction over lines | partial |
| C21 | Comments and surrounding white space never change the meaning of a line | `CStr.v` strtrim, removeComments over byte buffers | induction over characters | partial |
| C22 | The time step satisfies the Courant limit | `Edges.v` parseCN, timeStep, edge lengths | real analysis | partial |
| C23 | Cell edge lengths match the mesh lines | `Edges.v`/`CArr.v` initCellEdges loops over bounds-checked arrays | loop invariants | proved |
| C24 | Waveforms have their documented shape | `Waveform.v` waveform functions | derivatives in the standard library's real analysis | proved |
| C25 | External waveforms interpolate their samples | `Waveform.v` readExternal, createSplines, evalSpline with its cache | loop invariants; induction over query histories | proved |
| C26 | Hard sources impose, soft sources add | `Source.v` parseEX, initSources, source updates | point-wise closed form of the loops | proved |
| C27 | The plane-wave box injects exactly the incident field | `PlaneWave.v` correction loops of both half steps | closed form of the corrections, then comparison of two runs by induction over the steps | partial |
| C28 | Incident plane waves are transverse | `PlaneWave.v` parsePW, initPlaneWave direction/polarisation vectors | trigonometric identities; case analysis on angles | partial |
| C29 | Auxiliary-grid look-ups stay inside the auxiliary grid | `PlaneWave.v` auxiliary grid, incidentFieldAuxGrid | Cauchy-Schwarz on the diagonal of the box; bounds-checked arrays | proved |
| C30 | Frequency-domain observers output the normalised discrete Fourier transform | `Observer.v` DFT accumulators and flush | induction over the steps | partial |
| C31 | Observer headers announce the number of records actually written | `Observer.v` headers and binary records | induction over the steps; loops with stride | partial |
| C32 | Exactly NT time steps are performed | `Sim.v` parseNT, propagate (mod 2^64) | loop invariant; refutation for NT = 0 and NT < 0 | partial |
| C33 | The PML profile is passive and a PML with no loss is transparent | `PmlProfile.v` profile set-up; `Pml.v` update | closed form of the PML update (`PmlValue.v`); real algebra | partial |
| C34 | The Mur boundary absorbs a normally incident wave at the free-space speed | `MurInit.v`, `Mur.v` | closed form (`MurValue.v`); travelling-wave algebra | proved |
| C35 | Material is continued straight into the PML | `Media.v` copy loops into the PML | index arithmetic (`MediaCopy.v`) | partial |
| C36 | Array allocation gives every element its own memory | `Alloc.v` allocArray pointer-table arithmetic mod 2^64 | induction over dimensions | partial |
| C37 | Mesh export numbers nodes uniquely | `Gmsh.v` encode/decode node numbers on 32-bit ints | mixed-radix arithmetic | partial |
| C38 | Sheet impedance equals the impedance of the given scattering parameters | `Sibc.v` tportS2Z, isPassiveS | real algebra; explicit matrices for the refutations | partial |
| C39 | Recursive-convolution filters are exact for piecewise-linear inputs | `Filter.v` recursive convolution | integrals of the standard library; induction over samples | proved |
| C40 | Command-line handling never crashes | `Cli.v`, `CliG.v` parseOption of both programs | case analysis and induction over argument lists | partial |
| C41 | External boundaries are completed consistently | `Setup.v` boundary completion | case analysis | proved |
| C42 | Fractional mesh coordinates map linearly between mesh lines | `Edges.v` nodeInPhysicalUnits, fieldLocation | real algebra | proved |
| C43 | A mesh is reported uniform only if its cells have equal size | `Edges.v` setGridType | lra; refutation (missing fabs) | partial |
| C44 | Later blocks fully replace dispersive ones | `Debye.v` block updates | refutation + single-block theorem | partial |
| C45 | Hard-source observers see the waveform at its own time | `Observer.v` + `Source.v` run | closed form of a run; refutation | partial |
| C46 | MUR absorbing faces that meet at an edge update the fields on the edge | `Mur.v` edges | refutation | partial |
| C47 | The PML depth card affects only the boundaries of the named faces | `Setup.v` PB card | case analysis | partial |
| C48 | A medium declared with type PEC conducts perfectly | `Medium.v` user PEC | refutation | partial |
| C49 | Dispersive media obey the documented dispersion relation | `Debye.v` + `Medium.v` | complex algebra | proved |
| C50 | Only stable Debye poles are accepted | `Medium.v` parseMT / readDebyeParameters | refutation for inline poles | partial |
| C51 | Waveform cards use the documented parameters and formulas | `Waveform.v` parseWF, initWaveform | case analysis; refutations | partial |
| C52 | Surface current sources are normalised by the sheet width | `Source.v` sheet currents | real algebra; refutation | partial |
| C53 | A lumped voltage source behaves as its Thevenin circuit | `Source.v` lumped sources with their load | real algebra; refutation | partial |
| C54 | Every documented source type is accepted | `Source.v` type tags | finite case analysis | partial |
| C55 | Output frequencies are the requested ones | `Observer.v` OF card | refutations | partial |
| C56 | A BR card assigns the coded boundary to each face | `Setup.v` BR card | case analysis | proved |
| C57 | Away from the absorbing layers a time step is Yee's scheme | `Step.v` | closed form of one step | proved |
| C58 | Exported mesh shows every object completely and consistently | `Gmsh.v` whole export | invariant over the draws (`GmshProofs.v`) | partial |
| C59 | Plane-wave and source excitation never leaves the arrays and is race free | `P_PwBounds.v`: sources and plane-wave corrections of a whole run | footprints of every correction loop; per-iteration ownership | partial |
| C60 | An impedance sheet scatters as its S parameters say, and passively | `Sibc.v` orientation matrices, one face of a sheet | wave algebra; linearity of the filters, induction over the history | partial |
| C61 | Impedance sheets act on the mesh through the discrete curl and stay inside memory | `Sibc.v` E/H updates of sheets, adjacency flags | accumulating-run lemma (`P_SibcMesh.v`), footprints; refutations | partial |
| C62 | The time stepping is stable under the Courant limit | `Grid.v` E/H updates, `Medium.v` coefficients, `Edges.v` time step | discrete Poynting theorem (`Stable.v`, `StableStep.v`): the leapfrog energy never grows and is equivalent to the field energy below the Courant limit | proved |
| C63 | The auxiliary grid of a plane wave stays bounded | `PlaneWave.v` auxiliary grid | same energy argument on the 1-D grid with its absorbing end (`PwStable.v`) | proved |
| C64 | Complete runs stay inside their arrays | `Whole.v`: the complete time loop with all features and a checked twin `wrunO` | the checked run is shown to succeed and to equal the unchecked one, by induction on steps from the per-feature bounds; link theorem to the earlier runs | proved |
| C65 | Complete simulations superpose | `Whole.v`, state superposition in `SpecWhole.v` | each phase maps superposed states to superposed states (`P_Whole.v`); induction on steps | proved |
| C66 | Complete runs do not depend on the number of threads or the schedule | `P_WholePar.v`: the complete time loop of `Whole.v` with every OpenMP loop replaced by all interleavings of its iterations | each phase is race free (C08, C59 lemmas), so `prog_exec` equals the sequential run; induction on steps | proved |
| C67 | Cards are read as written | `Scan.v`: sscanf with the conversions the parsers use; `SpecScan.v`: an inductive grammar of numerals, names and lines, independent of the scanner; `Front.v`: card handlers on text | induction on the grammar (`P_Scan.v`); the cards by composing with the C03 acceptance theorems (`P_CardText.v`) | partial |
| C68 | Every accepted mesh file runs within its arrays | `Front.v`: reader from file text to mesh data; `Program.v`: what the solver is given for it; `Whole.v` | an invariant of the reading loop (`P_Front.v`) says every item came from an accepted card against an earlier table; then C64 and the media set-up bounds (`P_FrontRun.v`) | partial |
| C69 | Every accepted mesh file is consistent | `Front.v`, specification `SpecFront.v` | same reading-loop invariant | partial |
| C70 | A mesh file describing a closed passive cavity gives a stable simulation | `Front.v`, `Program.v` (coefficient set-up with loads, run of the file), `Whole.v` | an invariant of the reading loop gives passive media and complete mesh lines; every coefficient after the set-up belongs to a passive medium or a conductor (`P_FrontStable.v`), then the energy argument of C62; silent soft sources leave the fields alone | proved |
| C71 | Impedance and parameter files are taken as they are written | `FilterFile.v` readers of impedance and Debye files | inductive grammar of the texts (`SpecFilterFile.v`), induction over it; `P_FilterFront.v` ties a boundary to its card | partial |
| C72 | The gnuplot rendering shows the mesh as it is | `Gnuplot.v` data files as lists of records, plot command of the script | corners and edges of a box listed (`P_Gnuplot.v`), eight degeneracy cases; induction over the objects | partial |
| C73 | The media dump shows the medium of every edge | `Dump.v` dumpMediaOnGrid as a list of lines | list arithmetic; coefficients from C17/C35 | partial |
| C74 | The binary output can be read back with the help of process.dat | `Process.v` process.dat on top of `Observer.v` | positions in nested flat_maps (`SpecProcess.v` says where a tool looks) | partial |
| C75 | The run solves the discretised Maxwell equations of the mesh file | no new code: the front end (`Front.v`), set-up (`Program.v`) and complete run (`Whole.v`) together | `SpecMaxwell.v` states the equations in mesh coordinates; `P_Maxwell.v`: painted scene + loads give the material of a point, updates of C64 give the equations; uniqueness by induction over steps; `P_MaxwellOut.v`: with C31 | proved |
| C76 | Reciprocity: transmitter and receiver can be exchanged | no new code: pairs of complete runs of C75 | `SpecRecip.v`: reaction and swap in mesh coordinates; `P_Recip.v`: the two discrete curls are adjoint for fields that vanish on the walls (summation by parts), materials symmetric under convolution in time, deconvolution by the first nonzero sample; `P_RecipEx.v`: two ported files | proved |
| C77 | Charge and magnetic flux are balanced | no new code: complete runs of C75 | `SpecGauss.v`: fluxes out of secondary and primary cells; `P_Gauss.v`: the divergence of each discrete curl vanishes, then the equations of C75; `P_GaussEx.v` | proved |
| C78 | Delaying every excitation delays the response and changes nothing else | no new code: complete time loop of C65 | `SpecDelay.v`: the same excitation later; `P_Delay.v`: silent steps leave the whole state (with the number of poles) as at the start, a step depends on the excitation of that step only, then C65 | proved |
| C79 | Progress reports are sparse and the predicted end is consistent with the speed seen | timer.c and its calls in the time loop (`Timer.v`) | `P_Timer.v`: invariant over the passes of the loop for an arbitrary non-decreasing clock (sampled rates are positive, filtered rate a convex combination of sampled ones); steady clock: second invariant | partial |
| C80 | Symmetry and periodic walls neither absorb nor create energy, and stay stable | `Ghost.v` ghost cells, `Grid.v` E/H updates, `Medium.v` coefficients, `Edges.v` cell sizes and time step | `BoxEnergy.v`, `BoxCurl.v`, `BoxStable.v`, `P_Box.v`: summation by parts with half weights at wall nodes; the wall terms vanish for each of the three wall types; curl bound by continuing the fields one cell beyond the walls (`SpecBox.v` has the energy) | proved |
| C81 | Turning the problem in space turns the result | the whole run as in C75 (`Program.v`, `Front.v`, `Grid.v`, `Source.v`, `Media.v`, `Edges.v`) | `SpecTurn.v` relates the two files; `P_Turn.v`: the turned history of the second run solves the discrete Maxwell equations of the first file (regions, drives, curls, time step carried over), so C83_unique makes it the first run | proved |
| C82 | The mirror image of the problem has the mirror image of the result | as C81 | `SpecMirror.v`, `P_Mirror.v`: as C81, with the mirrored history; reversed sums for source sizes, reversed cells for the time step | proved |
| C83 | A box with electric, magnetic and periodic walls is solved as the discretised Maxwell equations | ghost cells (`Ghost.v`), whole time loop (`Whole.v`, `Program.v`) of an accepted file | `SpecMaxwellBox.v`: continued field and equations; `P_MaxwellBox.v`: the ghost cells hold the continued field after every step (rel_ghostH), C75_solution at wall edges, uniqueness by induction on the step | proved |
| C84 | Half of a symmetric problem with a PMC or PEC wall gives half of the result | as C83 | `SpecImage.v`: the two problems point by point; `P_Image.v`: the mirrored history of the full problem solves its equations (uniqueness: its fields are symmetric), hence their half solves the equations of the half problem, and C83_unique | proved |
| C85 | Moving a periodic problem round its period moves the result | as C83 | `SpecRound.v`: the two problems point by point, indices modulo the period; `P_Round.v`: the fields in the two periodic walls agree (induction on the step), the moved-back history solves the equations of the first problem, C83_unique | proved |
| C86 | Everything the program opens or allocates is used only while it is there and is given back once at the end | `Shutdown.v`: the calls of malloc, allocArray, fopen, free, deallocArray, fclose of every initXxx, update and deallocXxx function as lists of events, in the order of main | `SpecShutdown.v`: a memory checker over events; `ShutdownProofs.v`: the set of live resources followed function by function (induction over the item lists), `P_Shutdown.v`; the part that everything is released is refuted | partial |
| C87 | No warning or error is hidden, and the exit status tells whether the run failed | `Message.v`: `message`, `startMessaging`, the exit calls and both main functions as a process with a log file, stderr and an exit status; the parts of main are lists of messages | `SpecMessage.v`: filters over the list of messages; `P_Message.v`: induction over the messages of a part, parts joined by a lemma on the state after a list of messages | proved |
| C88 | The memory report gives what the arrays take | `Memory.v`: the allocArray calls of the set-up with the counter each is added to, unsigned long arithmetic, sizes by `Alloc.v` | `SpecMemory.v`: bytes of an array; `P_Memory.v`: induction over the calls (no wrap when everything held is below 2^64), sizes by C36, extents positive for every accepted configuration; the observer line is refuted | partial |

## What is modelled

| /repo/src | model file | covered |
|---|---|---|
| bounding_box.c | BBox.v | all functions used by the solver |
| grid.c | Grid.v, Edges.v, Step.v | DM/XL/YL/ZL/CN handling, extents, edge lengths, time step, grid type, physical coordinates, E/H updates for cubic, uniform and non-uniform grids through coefficient arrays, clear/alloc extents |
| pml.c | Pml.v, PmlProfile.v, Media.v | PB card, boxes, profile, coefficients, E/H update, material continuation |
| mur.c | Mur.v, MurInit.v | boxes, coefficients, E/H update |
| surface.c, boundary.c | Setup.v, Ghost.v, Media.v | BT/BR/TB cards, completion, ghost (PEC/PMC/periodic) updates, walls |
| medium.c, debye.c | Medium.v, Debye.v | MT card, coefficients, Debye parameter file, recursive update |
| block.c, line.c, wire.c | Media.v, Setup.v | MB/TW/WT cards, painting of media |
| waveform.c | Waveform.v | WF card, all waveform functions, external waveform spline |
| source.c | Source.v | EX card, conversion of amplitudes, updates, loads |
| observer.c | Observer.v | OP/OT/OF cards, headers, ASCII/binary/impulse output, DFT |
| planewave.c | PlaneWave.v | PW card, vectors, corrections on the box, auxiliary grid, analytic look-up |
| simulation.c | Sim.v, Edges.v, Whole.v | NT/CE cards, loop count, the complete time loop with every feature |
| mesh.c | Mesh.v, CStr.v, Front.v, Program.v | line reader, section state machine, the whole reader from file text to mesh data with every card handler, and what the solver is given for it |
| sscanf/fscanf | Scan.v | the conversions %d %lu %lf %e %31s %1023[^"] as glibc does them, reals exact (no inf, nan, hexadecimal) |
| vulture.c, gvulture.c | Cli.v, CliG.v | option parsing |
| grid.c media dump | Dump.v | complete; the number of an integer is a parameter |
| observer.c process.dat | Process.v | numbers of each line; formats not modelled |
| timer.c | Timer.v | sampling, filter, estimate, report; step count of the final report; not the texts |
| waveform.c evalSpline under threads | ExtRace.v | one read and one write of the shared cache per evaluation |
| gnuplot.c and the gnuplot routines of the modules | Gnuplot.v, GnuplotPw.v | boxes, grid lines, sources, plane waves, observers, plot command; not the number formats |
| filter.c, sibc.c, medium.c readers | FilterFile.v | texts of impedance and Debye files |
| alloc_array.c | Alloc.v | pointer tables and block size |
| message.c, main of vulture.c and gvulture.c | Message.v | log file, stderr, exit status; parts of main as lists of messages |
| memory.c and its counters | Memory.v | grid, fields, coefficients, PML, media, observers; not Debye blocks and sheets |
| gmsh.c | Gmsh.v | node/element/entity numbering and file |
| sibc.c | Sibc.v | S parameters, orientation matrices, sheet update, corrections on the mesh, adjacency flags (compiled only with WITH_SIBC, off by default); files in FilterFile.v |
| filter.c | Filter.v | pole-residue to recursive-convolution conversion and stepping; files in FilterFile.v |

Not modelled: util.c, physical.c beyond its constants
(unit conversions); the printf implementation (numbers written are taken as reals; strtod of the
command line is a parameter); parseCE's stored title; limits MAX_xxx on item counts;
the file system; float rounding (see below).

## Trusted base

* Coq's kernel (8.16.1), without any switched-off check; no axioms of our own.
* Our reading of the C source: each model definition cites the lines it models and
  states where it simplifies.
* Arithmetic: theorems about memory, ordering, locality and parsing hold for every
  arithmetic; theorems about values (energy, spectra, coefficients, injection, ...)
  are about exact real arithmetic, not IEEE rounding.
* OpenMP: sequentially consistent interleavings of single reads and writes of array
  elements (races are shown absent, so this is the only behaviour C11 allows).
* Axioms reported by `Print Assumptions` (generated from `Assumptions.v`): only
  those of the standard library.

  * **no axioms**: C01_mask_accepted, C01_mask_bits, C01_mask6, C02_type, C02_direction, C02_faces, C02_offset, C02_orientation, C03_MB_card, C03_TW_card, C03_TB_card, C31_card, C03_accepted_box_partial, C03_z_order_refuted, C04_field_limits, C05_extents, C05_arrays_cover, C05_mesh_box_mapped, C06_time_steps_in_bounds, C06_every_access, C06_media_in_bounds, C07_exactly_once, C07_exactly_once_no_adjacent_mur, C07_nothing_outside, C08_no_data_race, C08_schedule_independent, C08_executions_exist, C09_upward, C09_downward, C09_box, C15_pmc_image, C15_pec_image, C16_periodic_faces_equal, C16_from_rest, C18_last_paint_wins, C18_last_paint_unique, C19_registry, C19_duplicates_rejected, C19_predefined, C20_accepted_is_initial_part, C20_accepted_iff_partial, C20_unknown_card_rejected, C20_card_after_EN_refuted, C20_truncated_accepted_refuted, C20_nonvacuous, C21_comments, C21_trim_partial, C21_idempotent, C21_layout_irrelevant_partial, C21_blank_line_refuted, C21_long_line_refuted, C26_tags, C26_tags_complete, C29_samples, C32_card, C32_exactly_NT_partial, C32_zero_steps_refuted, C32_negative_refuted, C35_continued_partial, C35_lo_side_refuted, C36_allocation, C36_overflow_refuted, C37_numbering, C37_overflow_refuted, C40_documented_partial, C40_stops, C40_no_crash_partial, C40_renderer, C40_renderer_stops, C40_renderer_no_crash, C40_missing_value_refuted, C40_long_forms_refuted, C40_files_refuted, C40_renderer_long_name_refuted, C40_renderer_files_refuted, C41_completed, C41_refused_iff, C41_wellformed, C44_points, C46_exactly_partial, C46_mur_edges_refuted, C47_BE_partial, C47_negative_refused, C47_BE_refuted, C54_norton_tag_refuted, C54_other_tags_partial, C55_single_frequency_refuted, C55_default_refuted, C56_BR_card, C58_file, C58_success, C58_export, C58_flat_planewave_refuted, C58_zero_stride_refuted, C61_adjacent_partial, C61_flags_partial, C72_script_partial, C72_script_refuted, C79_cells_refuted, C87_vulture, C87_gvulture, C87_no_log, C87_alerts_shown, C88_report_partial, C88_observers_refuted

  * `ClassicalDedekindReals.sig_forall_dec`: C03_EX_card, C26_card, C33_card

  * `ClassicalDedekindReals.sig_forall_dec`, `ClassicalDedekindReals.sig_not_dec`, `Classical_Prop.classic`, `FunctionalExtensionality.functional_extensionality_dep`: C24_gaussian, C24_diff_compact, C27_axis, C27_axis_nonvacuous, C29_inside, C33_profile, C33_passive, C33_update, C33_transparent, C33_gain_refuted, C39_exact, C51_diff_compact_factor_refuted, C63_bounded, C71_stable_file_grows_refuted, C76_swap

  * `ClassicalDedekindReals.sig_forall_dec`, `ClassicalDedekindReals.sig_not_dec`, `FunctionalExtensionality.functional_extensionality_dep`: C22_courant_partial, C22_default, C22_nonvacuous, C22_positive_refuted, C23_edge_lengths, C24_diff_gaussian, C24_compact, C24_modulated, C24_ramp_monotone, C28_vectors, C28_origin, C28_travels, C28_causal, C30_spectrum, C30_window_refuted, run_output, C31_records_partial, C31_window_refuted, C31_zero_stride_refuted, C34_coefficients, C34_outgoing, C38_impedance, C38_passive_rejected_refuted, C38_singular_refuted, C42_field_position, C43_grid_type_partial, C43_refuted, C45_one_step_late, C45_refuted, C51_parameters_partial, C51_negative_delay_refuted, C51_narrow_width_refuted, C51_ricker_sign_refuted, C60_scattering, C60_passive, C60_isotropic, C60_active_refuted, C61_uninitialised_refuted, C61_adjacency_refuted, C61_inverted_refuted, C61_rotation_refuted, C62_stable, C68_runs_in_bounds, C70_stable_file, C70_mesh_complete, C71_anisotropic_partial, C71_isotropic_partial, C71_mesh, C71_needed, C71_other_sizes, C71_documented_order_refuted, C71_truncated_refuted, C71_uninitialised_refuted, C72_planewaves, C72_planewave_axes, C72_phi360_refuted, C72_backwards_refuted, C74_reconstruct, C74_mesh_size_partial, C74_mesh_size_default, C74_mesh_size_refuted, C75_solution, C75_unique, C75_output, C76_reciprocity, C77_charge, C77_neutral, C77_flux, C77_solenoidal, C78_compact, C78_gaussian_refuted, C80_stable, C80_stable_file, C81_turned, C82_mirrored, C82_symmetric, C83_solution, C83_unique, C84_half, C85_round

  * `ClassicalDedekindReals.sig_forall_dec`, `Classical_Prop.classic`, `FunctionalExtensionality.functional_extensionality_dep`: C25_bad_file_rejected

  * `ClassicalDedekindReals.sig_forall_dec`, `FunctionalExtensionality.functional_extensionality_dep`: C28_card, C10_superposition, C11_quiescent, C12_flux_conserved, C13_energy_conserved, C14_pec_stays_zero, C14_outer_walls, C17_declared, C17_simple, C17_pec, C17_debye_stable, C17_debye_file, C17_debye_text, C17_debye_short, C17_debye_reader, C23_uniform_mesh, C23_uniform_mesh_rejects, C25_external_waveform, C25_sample_values, C25_concurrent, C26_sources, C26_in_bounds, C26_superposition, C26_sources_in_place, C27_equations, C27_injection, C27_superposition, C27_lossy_refuted, C28_phi360_refuted, C28_inverted_refuted, C33_defaults_passive, C38_accepted_partial, C38_active_accepted_refuted, C42_node_position, C42_nonvacuous, C44_once_partial, C44_overwrite_refuted, C48_user_pec_refuted, C49_debye_law, C50_inline_pole_refuted, C52_sheet_partial, C52_sheet_refuted, C53_lumped_circuit_partial, C53_ideal_source_refuted, C55_frequencies_partial, C55_single_accepted_refuted, C57_yee_update, C59_in_bounds, C59_schedule_independent, C59_analytic, C59_inverted_refuted, C59_analytic_refuted, C60_orientation, C61_in_bounds, C61_curl, C61_normal, C62_bounded, C62_balance, C64_in_bounds, C64_plain_run, C65_superposition, C65_fields, C65_quiescent, C66_schedule_independent, C67_read_as_written, C67_block_card, C67_wire_card, C67_surface_card, C67_size_card, C67_source_card, C67_source_values, C67_wire_type_card, C67_medium_card, C67_medium_file_card, C67_waveform_card, C67_planewave_card, C67_observer_card, C67_window_card, C67_frequency_card, C67_courant_card, C67_steps_card, C67_spacing_card, C67_walls_card, C67_depth_card, C67_external_card, C67_external_nofile, C67_boundary_card, C67_pml_card, C67_sheet_card, C67_lines_card, C67_version_card, C67_wrap_refuted, C67_long_name_refuted, C68_set_up_in_bounds, C68_mesh_lines_refuted, C69_consistent, C69_media_names_refuted, C72_boxes, C72_external, C72_grid_lines, C72_sources_partial, C72_observers, C72_sources_refuted, C72_stride_refuted, C72_reversed_refuted, C73_layout, C73_free_space, C73_pec, C73_dielectric_partial, C73_magnetic_partial, C73_media, C73_magnetic_refuted, C74_process, C74_frequencies_refuted, C78_delay, C78_state, C78_signals, C79_defined, C79_estimates, C79_sparse, C79_steady, C79_steady_once, C80_energy_conserved, C80_balance, C80_bounded, C86_shutdown_partial, C86_all_released_refuted
