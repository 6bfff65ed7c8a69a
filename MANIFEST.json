{
 "claims": [
  {
   "property": "C01",
   "status": "proved",
   "theorems": [
    "C01_mask_accepted",
    "C01_mask_bits",
    "C01_mask6"
   ],
   "note": ""
  },
  {
   "property": "C02",
   "status": "proved",
   "theorems": [
    "C02_type",
    "C02_direction",
    "C02_faces",
    "C02_offset",
    "C02_orientation"
   ],
   "note": ""
  },
  {
   "property": "C03",
   "status": "partial",
   "theorems": [
    "C03_MB_card",
    "C03_TW_card",
    "C03_TB_card",
    "C03_EX_card",
    "C28_card",
    "C31_card",
    "C03_accepted_box_partial",
    "C03_z_order_refuted"
   ],
   "note": "exact acceptance condition of every card with a box (MB, TW, TB, EX, PW, OP): inside the mesh, ordered in x and y, right dimension; the code does not check the order in z (refuted part)"
  },
  {
   "property": "C04",
   "status": "proved",
   "theorems": [
    "C04_field_limits"
   ],
   "note": ""
  },
  {
   "property": "C05",
   "status": "proved",
   "theorems": [
    "C05_extents",
    "C05_arrays_cover",
    "C05_mesh_box_mapped"
   ],
   "note": ""
  },
  {
   "property": "C06",
   "status": "proved",
   "theorems": [
    "C06_time_steps_in_bounds",
    "C06_every_access",
    "C06_media_in_bounds"
   ],
   "note": ""
  },
  {
   "property": "C07",
   "status": "proved",
   "theorems": [
    "C07_exactly_once",
    "C07_exactly_once_no_adjacent_mur",
    "C07_nothing_outside"
   ],
   "note": ""
  },
  {
   "property": "C08",
   "status": "proved",
   "theorems": [
    "C08_no_data_race",
    "C08_schedule_independent",
    "C08_executions_exist"
   ],
   "note": ""
  },
  {
   "property": "C09",
   "status": "proved",
   "theorems": [
    "C09_upward",
    "C09_downward",
    "C09_box"
   ],
   "note": ""
  },
  {
   "property": "C10",
   "status": "proved",
   "theorems": [
    "C10_superposition"
   ],
   "note": "exact (real) arithmetic"
  },
  {
   "property": "C11",
   "status": "proved",
   "theorems": [
    "C11_quiescent"
   ],
   "note": "exact (real) arithmetic"
  },
  {
   "property": "C12",
   "status": "proved",
   "theorems": [
    "C12_flux_conserved"
   ],
   "note": "exact (real) arithmetic"
  },
  {
   "property": "C13",
   "status": "proved",
   "theorems": [
    "C13_energy_conserved"
   ],
   "note": "exact (real) arithmetic"
  },
  {
   "property": "C14",
   "status": "proved",
   "theorems": [
    "C14_pec_stays_zero",
    "C14_outer_walls"
   ],
   "note": "exact (real) arithmetic; points in the plane of a MUR face excluded"
  },
  {
   "property": "C15",
   "status": "proved",
   "theorems": [
    "C15_pmc_image",
    "C15_pec_image"
   ],
   "note": "ghost image values after every step"
  },
  {
   "property": "C16",
   "status": "proved",
   "theorems": [
    "C16_periodic_faces_equal",
    "C16_from_rest"
   ],
   "note": "any boundary (PEC, PMC, PML, MUR, periodic) on the other faces, any arithmetic, any sources off the two faces; a start from rest meets the hypothesis on fields. Media, PML coefficients and the cell size across are assumed to agree on the two faces (the program does not enforce it)"
  },
  {
   "property": "C17",
   "status": "proved",
   "theorems": [
    "C17_declared",
    "C17_simple",
    "C17_pec",
    "C17_debye_stable",
    "C17_debye_file",
    "C17_debye_text",
    "C17_debye_short",
    "C17_debye_reader"
   ],
   "note": "from the text of the card and of the Debye file; exact (real) arithmetic"
  },
  {
   "property": "C18",
   "status": "proved",
   "theorems": [
    "C18_last_paint_wins",
    "C18_last_paint_unique"
   ],
   "note": ""
  },
  {
   "property": "C19",
   "status": "proved",
   "theorems": [
    "C19_registry",
    "C19_duplicates_rejected",
    "C19_predefined"
   ],
   "note": ""
  },
  {
   "property": "C20",
   "status": "partial",
   "theorems": [
    "C20_accepted_is_initial_part",
    "C20_accepted_iff_partial",
    "C20_unknown_card_rejected",
    "C20_card_after_EN_refuted",
    "C20_truncated_accepted_refuted",
    "C20_nonvacuous"
   ],
   "note": "Proved: whatever the file and the card handlers, the cards processed are an initial part of a complete mesh description, and a line-structured file is accepted iff that holds. The full claim is false of the code: a file without EN (even an empty one) is accepted and a card after EN indexes past isValidInSection (both proved as _refuted)."
  },
  {
   "property": "C21",
   "status": "partial",
   "theorems": [
    "C21_comments",
    "C21_trim_partial",
    "C21_idempotent",
    "C21_layout_irrelevant_partial",
    "C21_blank_line_refuted",
    "C21_long_line_refuted"
   ],
   "note": "Proved for all strings that are empty or contain a non-blank character, and for whole files of such lines up to the buffer size. False for blank lines (strtrim reads in front of the buffer) and for comments longer than the line buffer (both proved as _refuted)."
  },
  {
   "property": "C22",
   "status": "partial",
   "theorems": [
    "C22_courant_partial",
    "C22_default",
    "C22_nonvacuous",
    "C22_positive_refuted"
   ],
   "note": "Proved over R for every positive accepted CN and every mesh with increasing lines; the full claim is false for CN cards with a number <= 0, which are accepted (C22_positive_refuted). Float rounding of dt is not modelled."
  },
  {
   "property": "C23",
   "status": "proved",
   "theorems": [
    "C23_edge_lengths",
    "C23_uniform_mesh",
    "C23_uniform_mesh_rejects"
   ],
   "note": "Over R; includes memory safety of the edge-length loops."
  },
  {
   "property": "C24",
   "status": "proved",
   "theorems": [
    "C24_gaussian",
    "C24_diff_gaussian",
    "C24_compact",
    "C24_diff_compact",
    "C24_modulated",
    "C24_ramp_monotone"
   ],
   "note": "over the reals; derivative claims hold at every time including the ends of the compact support; proportionality constants are stated exactly"
  },
  {
   "property": "C25",
   "status": "proved",
   "theorems": [
    "C25_external_waveform",
    "C25_sample_values",
    "C25_bad_file_rejected",
    "C25_concurrent"
   ],
   "note": "the whole createSplines/evalSpline code over bounds-checked arrays; S is the clamped cubic spline; arbitrary query histories, also of several threads sharing the cached interval (word accesses indivisible)"
  },
  {
   "property": "C26",
   "status": "proved",
   "theorems": [
    "C26_card",
    "C26_tags",
    "C26_tags_complete",
    "C26_sources",
    "C26_in_bounds",
    "C26_superposition",
    "C26_sources_in_place"
   ],
   "note": "point-wise effect of every list of sources, amplitude meaning, memory safety and superposition of runs with sources; exact (real) arithmetic"
  },
  {
   "property": "C27",
   "status": "partial",
   "theorems": [
    "C27_equations",
    "C27_injection",
    "C27_superposition",
    "C27_axis",
    "C27_axis_nonvacuous",
    "C27_lossy_refuted"
   ],
   "note": "exact (real) arithmetic, any incident field that solves the leapfrog equations in the box, any drives and media away from the surface; false (proved) when the surface cuts a lossy medium: the correction is multiplied by alpha twice. C27_axis: end to end, with the program's own auxiliary grid, for waves along a mesh axis on a cubic mesh"
  },
  {
   "property": "C28",
   "status": "partial",
   "theorems": [
    "C28_vectors",
    "C28_origin",
    "C28_card",
    "C28_travels",
    "C28_causal",
    "C28_phi360_refuted",
    "C28_inverted_refuted"
   ],
   "note": "vectors proved for all angles and amplitudes; the analytic incident field is the waveform delayed by the travel time at every sample, and vanishes before the front arrives; the parser accepts phi=360, which then fails an assertion, and z-inverted boxes, which have no valid origin face (both refuted)"
  },
  {
   "property": "C29",
   "status": "proved",
   "theorems": [
    "C29_inside",
    "C29_samples"
   ],
   "note": "every sample the corrections of the box look up lies inside the auxiliary arrays, away from their absorbing end; exact (real) arithmetic"
  },
  {
   "property": "C30",
   "status": "partial",
   "theorems": [
    "C30_spectrum",
    "C30_window_refuted"
   ],
   "note": "for every accepted set of cards and any step count the output is the DFT of the six fields over the OT window divided by the DFT of the reference waveform over the WHOLE run; the manual's claim that both use the OT window is refuted"
  },
  {
   "property": "C31",
   "status": "partial",
   "theorems": [
    "C31_card",
    "run_output",
    "C31_records_partial",
    "C31_window_refuted",
    "C31_zero_stride_refuted"
   ],
   "note": "C31_card: which OP cards are accepted and what is recorded for them; announced = written for every accepted card set with positive strides and a window that ends within the run; false (proved) for a window ending after the run and a zero stride never terminates"
  },
  {
   "property": "C32",
   "status": "partial",
   "theorems": [
    "C32_card",
    "C32_exactly_NT_partial",
    "C32_zero_steps_refuted",
    "C32_negative_refuted"
   ],
   "note": "proved for 1 <= NT < 2^64; NT 0 and negative values are accepted and do not give that number of steps (refuted)"
  },
  {
   "property": "C33",
   "status": "partial",
   "theorems": [
    "C33_card",
    "C33_profile",
    "C33_passive",
    "C33_defaults_passive",
    "C33_update",
    "C33_transparent",
    "C33_gain_refuted"
   ],
   "note": "graded profile, coefficients, update equation and transparency proved; passivity proved for a reflection target <= 1; the PB parameters are not validated, so a target above 1 gives a layer with gain (refuted)"
  },
  {
   "property": "C34",
   "status": "proved",
   "theorems": [
    "C34_coefficients",
    "C34_outgoing"
   ],
   "note": "for meshes at least two cells thick across the face; points on an edge shared by two MUR faces are excluded (C46)"
  },
  {
   "property": "C35",
   "status": "partial",
   "theorems": [
    "C35_continued_partial",
    "C35_lo_side_refuted"
   ],
   "note": "holds for all components except those staggered along an axis on whose LO side they lie: the code copies these from the second mesh cell (refuted part)"
  },
  {
   "property": "C36",
   "status": "partial",
   "theorems": [
    "C36_allocation",
    "C36_overflow_refuted"
   ],
   "note": "proved for any number of dimensions, extents and element size provided the whole array fits in the 64-bit address space; sizes are not checked for overflow, so a larger request gets a block that is too small (refuted)"
  },
  {
   "property": "C37",
   "status": "partial",
   "theorems": [
    "C37_numbering",
    "C37_overflow_refuted"
   ],
   "note": "Proved for every mesh of fewer than 2^31 nodes; above that the int arithmetic of encodeNodeNumber overflows (refuted)."
  },
  {
   "property": "C38",
   "status": "partial",
   "theorems": [
    "C38_impedance",
    "C38_accepted_partial",
    "C38_active_accepted_refuted",
    "C38_passive_rejected_refuted",
    "C38_singular_refuted"
   ],
   "note": "the impedance is right, and the only one, whenever I-S is invertible; the passivity test is wrong (proved): a symmetric sheet with r = t = 0.7 is accepted though active, a passive matrix is rejected, and a perfectly transmitting sheet is accepted though it has no impedance matrix (division by zero)"
  },
  {
   "property": "C39",
   "status": "proved",
   "theorems": [
    "C39_exact"
   ],
   "note": "exact arithmetic; poles other than 0 (a pole at the origin is not rejected and divides by zero); reading of filter files not modelled"
  },
  {
   "property": "C40",
   "status": "partial",
   "theorems": [
    "C40_documented_partial",
    "C40_stops",
    "C40_no_crash_partial",
    "C40_renderer",
    "C40_renderer_stops",
    "C40_renderer_no_crash",
    "C40_missing_value_refuted",
    "C40_long_forms_refuted",
    "C40_files_refuted",
    "C40_renderer_long_name_refuted",
    "C40_renderer_files_refuted"
   ],
   "note": "both programs. Documented short forms and working long forms set exactly their flags; false (proved): a trailing -n is undefined behaviour, the documented --readmesh and --numproc are rejected, a wrong number of files prints the usage but carries on, a file name of 1024 characters is not terminated. strtod itself is a parameter"
  },
  {
   "property": "C41",
   "status": "proved",
   "theorems": [
    "C41_completed",
    "C41_refused_iff",
    "C41_wellformed"
   ],
   "note": ""
  },
  {
   "property": "C42",
   "status": "proved",
   "theorems": [
    "C42_node_position",
    "C42_field_position",
    "C42_nonvacuous"
   ],
   "note": "Over R."
  },
  {
   "property": "C43",
   "status": "partial",
   "theorems": [
    "C43_grid_type_partial",
    "C43_refuted"
   ],
   "note": "Exact on meshes whose cells do not shrink; the full claim is false: setGridType compares without fabs (C43_refuted)."
  },
  {
   "property": "C44",
   "status": "partial",
   "theorems": [
    "C44_points",
    "C44_once_partial",
    "C44_overwrite_refuted"
   ],
   "note": "C44_points: the Debye blocks are the BLOCK cards of DEBYE medium and act on exactly the electric edges the card paints; the update holds where exactly one Debye block and no later block covers the point; the code violates it where a later block covers a Debye block"
  },
  {
   "property": "C45",
   "status": "partial",
   "theorems": [
    "C45_one_step_late",
    "C45_refuted"
   ],
   "note": "the claim is false: a hard source's observer records the waveform one step late; the exact delay is proved"
  },
  {
   "property": "C46",
   "status": "partial",
   "theorems": [
    "C46_exactly_partial",
    "C46_mur_edges_refuted"
   ],
   "note": "every E value is assigned exactly once per step except those along an edge where two MUR faces meet, which never are: there the code violates the property"
  },
  {
   "property": "C47",
   "status": "partial",
   "theorems": [
    "C47_BE_partial",
    "C47_negative_refused",
    "C47_BE_refuted"
   ],
   "note": "holds if every face has its boundary already; BE given before the faces have boundaries is accepted and changes the predefined boundary number 0 (refuted)"
  },
  {
   "property": "C48",
   "status": "partial",
   "theorems": [
    "C17_pec",
    "C48_user_pec_refuted"
   ],
   "note": "only the predefined PEC conducts (C17_pec, whatever else is declared); a medium declared with type PEC is free space (refuted)"
  },
  {
   "property": "C49",
   "status": "proved",
   "theorems": [
    "C49_debye_law"
   ],
   "note": "exact (real) arithmetic"
  },
  {
   "property": "C50",
   "status": "partial",
   "theorems": [
    "C17_debye_file",
    "C50_inline_pole_refuted"
   ],
   "note": "holds for poles read from a file; poles on the MT card are not checked (refuted part)"
  },
  {
   "property": "C51",
   "status": "partial",
   "theorems": [
    "C51_parameters_partial",
    "C51_negative_delay_refuted",
    "C51_narrow_width_refuted",
    "C51_ricker_sign_refuted",
    "C51_diff_compact_factor_refuted"
   ],
   "note": "true for non-negative delays and types other than a default-width NARROW_GAUSSIAN_PULSE; the full claim is false in four ways, each proved"
  },
  {
   "property": "C52",
   "status": "partial",
   "theorems": [
    "C52_sheet_partial",
    "C52_sheet_refuted"
   ],
   "note": "the documented normalisation holds iff the extent of the sheet along its second direction equals its thickness; the manual's own JSXY example is 6 times too small (refuted)"
  },
  {
   "property": "C53",
   "status": "partial",
   "theorems": [
    "C53_lumped_circuit_partial",
    "C53_ideal_source_refuted"
   ],
   "note": "proved for resistances above the code's 0.01 Ohm threshold; below it the edge voltage alternates V/2, 0 (refuted)"
  },
  {
   "property": "C54",
   "status": "partial",
   "theorems": [
    "C54_norton_tag_refuted",
    "C54_other_tags_partial"
   ],
   "note": "all tags except the documented IRX/IRY/IRZ, which the code rejects (it knows IGX/IGY/IGZ)"
  },
  {
   "property": "C55",
   "status": "partial",
   "theorems": [
    "C55_frequencies_partial",
    "C55_single_frequency_refuted",
    "C55_single_accepted_refuted",
    "C55_default_refuted"
   ],
   "note": "true for OF cards with at least two frequencies; one frequency divides by zero; the default set differs from the manual (refuted)"
  },
  {
   "property": "C56",
   "status": "proved",
   "theorems": [
    "C56_BR_card"
   ],
   "note": ""
  },
  {
   "property": "C57",
   "status": "proved",
   "theorems": [
    "C57_yee_update"
   ],
   "note": ""
  },
  {
   "property": "C58",
   "status": "partial",
   "theorems": [
    "C58_file",
    "C58_success",
    "C58_export",
    "C58_flat_planewave_refuted",
    "C58_zero_stride_refuted"
   ],
   "note": "Well-formedness and completeness hold for every file written (C58_file). The export succeeds for all accepted meshes within the stated size limits, except two cases the parser does not reject: flat plane-wave boxes and zero observation strides (refuted)."
  },
  {
   "property": "C59",
   "status": "partial",
   "theorems": [
    "C59_in_bounds",
    "C59_schedule_independent",
    "C59_analytic",
    "C25_concurrent",
    "C59_inverted_refuted",
    "C59_analytic_refuted"
   ],
   "note": "proved for every accepted box that is ordered along z (the parser does not check that: refuted) and, for the analytic incident field, whose active low faces are off the mesh boundary (otherwise xlines[-1] is read: refuted). Incident values are arbitrary; the shared cache of an EXTERNAL waveform, written inside the parallel loops, never changes a value (C25_concurrent)"
  },
  {
   "property": "C60",
   "status": "partial",
   "theorems": [
    "C60_scattering",
    "C60_passive",
    "C60_orientation",
    "C60_isotropic",
    "C60_active_refuted"
   ],
   "note": "S-parameter sheets: scattering and passivity at every angle; filters of any order for orientation and isotropy; exact arithmetic. Needs I-S invertible; without true passivity (the acceptance test does not check it, C38) a sheet can deliver power (refuted)"
  },
  {
   "property": "C61",
   "status": "partial",
   "theorems": [
    "C61_in_bounds",
    "C61_curl",
    "C61_normal",
    "C61_adjacent_partial",
    "C61_flags_partial",
    "C61_uninitialised_refuted",
    "C61_adjacency_refuted",
    "C61_inverted_refuted",
    "C61_rotation_refuted"
   ],
   "note": "bounds for all accepted sheets; curl action for any list of parallel flat sheets, whatever the flags; flags only when all sides have PML and the sheets are parallel; neighbour relation for all the edges the code looks at correctly. False (proved): flags read before they are written when there is no PML, a wrong index in one flag per orientation, negative array extents for z-inverted surfaces, and a correction beyond the rim of a sheet that differs between orientations"
  },
  {
   "property": "C62",
   "status": "proved",
   "theorems": [
    "C62_bounded",
    "C62_balance",
    "C62_stable"
   ],
   "note": "exact arithmetic; PEC walls, every mesh with increasing lines, every accepted scene of simple (non-DEBYE) media, every accepted Courant number; from the parsed cards to a bound on every field value at every step. PML, MUR, PMC and periodic walls and DEBYE media are outside the statement"
  },
  {
   "property": "C63",
   "status": "proved",
   "theorems": [
    "C63_bounded"
   ],
   "note": "exact arithmetic; for every grid length, time step and cell size with c dt < (relative phase velocity) * cell"
  },
  {
   "property": "C64",
   "status": "proved",
   "theorems": [
    "C64_in_bounds",
    "C64_plain_run"
   ],
   "note": "array accesses of the complete time loop, all features at once; allocation and set-up of the arrays are other properties (C06, C46, C61). The model checks every grid, PML and block-array access; sheet-face arrays are indexed by their own loop"
  },
  {
   "property": "C65",
   "status": "proved",
   "theorems": [
    "C65_superposition",
    "C65_fields",
    "C65_quiescent"
   ],
   "note": "exact arithmetic; drives are waveform values and incident fields"
  },
  {
   "property": "C66",
   "status": "proved",
   "theorems": [
    "C66_schedule_independent"
   ],
   "note": "the OpenMP loops of grid.c, pml.c, mur.c and planewave.c under every interleaving; exact arithmetic; EXTERNAL waveforms' shared cache is not modelled"
  },
  {
   "property": "C67",
   "status": "partial",
   "theorems": [
    "C67_read_as_written",
    "C67_block_card",
    "C67_wire_card",
    "C67_surface_card",
    "C67_size_card",
    "C67_source_card",
    "C67_source_values",
    "C67_wire_type_card",
    "C67_medium_card",
    "C67_medium_file_card",
    "C67_waveform_card",
    "C67_planewave_card",
    "C67_observer_card",
    "C67_window_card",
    "C67_frequency_card",
    "C67_courant_card",
    "C67_steps_card",
    "C67_spacing_card",
    "C67_walls_card",
    "C67_depth_card",
    "C67_external_card",
    "C67_external_nofile",
    "C67_boundary_card",
    "C67_pml_card",
    "C67_sheet_card",
    "C67_lines_card",
    "C67_version_card",
    "C67_wrap_refuted",
    "C67_long_name_refuted"
   ],
   "note": "one theorem per card on top of C67_read_as_written; integers within int, counts within 64 bits, names up to 31 characters: beyond that the program silently reads something else (refuted). Reals are exact; inf, nan and hexadecimal are outside the statement; BE where every face has its own boundary (else C47_BE_refuted)"
  },
  {
   "property": "C68",
   "status": "partial",
   "theorems": [
    "C68_runs_in_bounds",
    "C68_set_up_in_bounds",
    "C68_mesh_lines_refuted"
   ],
   "note": "from file text to the end of the run, including the coefficient set-up with the loads of lumped sources, provided plane-wave boxes are ordered along z (not checked by the program, C59); a file with XL/YL/ZL laid out as in the manual makes the reader leave its buffer on the empty rest of line (refuted)"
  },
  {
   "property": "C69",
   "status": "partial",
   "theorems": [
    "C69_consistent",
    "C69_media_names_refuted"
   ],
   "note": "everything but medium names, which a lumped source can duplicate (refuted)"
  },
  {
   "property": "C70",
   "status": "proved",
   "theorems": [
    "C70_stable_file",
    "C70_mesh_complete"
   ],
   "note": "from the text of the file to any number of steps of the complete time loop (media, blocks, wires, surfaces, loads of lumped sources); exact arithmetic"
  },
  {
   "property": "C71",
   "status": "partial",
   "theorems": [
    "C71_anisotropic_partial",
    "C71_isotropic_partial",
    "C71_mesh",
    "C71_needed",
    "C71_other_sizes",
    "C71_documented_order_refuted",
    "C71_stable_file_grows_refuted",
    "C71_truncated_refuted",
    "C71_uninitialised_refuted"
   ],
   "note": "proved for files that give the pole before the residue; false as documented (proved): the manual's order is read with pole and residue exchanged, so that a stable file gives a growing filter; a truncated file is accepted with the last filter repeated, or read from uninitialised memory"
  },
  {
   "property": "C72",
   "status": "partial",
   "theorems": [
    "C72_boxes",
    "C72_external",
    "C72_grid_lines",
    "C72_sources_partial",
    "C72_observers",
    "C72_script_partial",
    "C72_planewaves",
    "C72_planewave_axes",
    "C72_sources_refuted",
    "C72_phi360_refuted",
    "C72_backwards_refuted",
    "C72_stride_refuted",
    "C72_reversed_refuted",
    "C72_script_refuted"
   ],
   "note": "false in general (proved): the arrow of a point source less than two cells from the high end, and a box reversed along z, read beyond the mesh lines; an observer step of 0 never ends; without observers the plot command swallows the next line; a wave from phi = 360 stops the drawing and one on a reversed box gets reversed arrows"
  },
  {
   "property": "C73",
   "status": "partial",
   "theorems": [
    "C73_layout",
    "C73_free_space",
    "C73_pec",
    "C73_dielectric_partial",
    "C73_magnetic_partial",
    "C73_media",
    "C73_magnetic_refuted"
   ],
   "note": "layout for every mesh; medium per point for accepted scenes; false (proved): the comparison is absolute (1e-6), so with small time steps every magnetic medium is shown as free space; lossy media only through their coefficients"
  },
  {
   "property": "C74",
   "status": "partial",
   "theorems": [
    "C74_process",
    "C74_reconstruct",
    "C74_mesh_size_partial",
    "C74_mesh_size_default",
    "C74_mesh_size_refuted",
    "C74_frequencies_refuted"
   ],
   "note": "regions, steps and the place of every record proved (positive strides, window inside the run, boxes ordered along z); false (proved): the announced mesh size is right only for the default Courant number and the announced frequencies ignore the OF card; the steps are counted from 1 and the documented third number of that line is missing"
  },
  {
   "property": "C75",
   "status": "proved",
   "theorems": [
    "C75_solution",
    "C75_unique",
    "C75_output"
   ],
   "note": "from rest; files without DEBYE media, impedance surfaces, plane waves, hard sources (C62, C58, C28, C26 cover their updates); sources with a meaningful extent (C52, C53 show what happens otherwise), no MT card of type PEC (C48). Ampere's law off the walls; uniqueness and output for PEC walls (Mur and PML fields are not solutions of these equations at the walls)"
  },
  {
   "property": "C76",
   "status": "proved",
   "theorems": [
    "C76_reciprocity",
    "C76_swap"
   ],
   "note": "from rest, PEC walls; files without DEBYE media, impedance surfaces, plane waves, hard sources and sources that impress fields"
  },
  {
   "property": "C77",
   "status": "proved",
   "theorems": [
    "C77_charge",
    "C77_neutral",
    "C77_flux",
    "C77_solenoidal"
   ],
   "note": "from rest; files without DEBYE media, impedance surfaces, plane waves and hard sources (hypotheses of C75); electric part for nodes whose six edges are not metal"
  },
  {
   "property": "C78",
   "status": "proved",
   "theorems": [
    "C78_delay",
    "C78_state",
    "C78_signals",
    "C78_compact",
    "C78_gaussian_refuted"
   ],
   "note": "exact arithmetic; the incident field of a plane wave is taken as given at each step; Gaussian waveforms are not zero before time 0 (shown), so for them the delayed run differs by the truncated tail"
  },
  {
   "property": "C79",
   "status": "partial",
   "theorems": [
    "C79_defined",
    "C79_estimates",
    "C79_sparse",
    "C79_steady",
    "C79_steady_once",
    "C79_cells_refuted"
   ],
   "note": "exact real arithmetic; everything but the number of cells of the closing report, which is computed in int and overflows on large meshes (C79_cells_refuted)"
  },
  {
   "property": "C80",
   "status": "proved",
   "theorems": [
    "C80_energy_conserved",
    "C80_balance",
    "C80_bounded",
    "C80_stable",
    "C80_stable_file"
   ],
   "note": "exact real arithmetic, no sources; periodic axes with equal media and equal cell sizes at the two faces (hypotheses per_data, which the code does not check); simple media"
  },
  {
   "property": "C81",
   "status": "proved",
   "theorems": [
    "C81_turned"
   ],
   "note": "outer walls any mixture of PEC, PMC, periodic; SIMPLE media, soft sources (the class of C83_unique), exact real arithmetic; the other rotations by applying it twice"
  },
  {
   "property": "C82",
   "status": "proved",
   "theorems": [
    "C82_mirrored",
    "C82_symmetric"
   ],
   "note": "outer walls any mixture of PEC, PMC, periodic; SIMPLE media, soft sources (the class of C83_unique), exact real arithmetic; mirrors across y and z by combination with C81"
  },
  {
   "property": "C83",
   "status": "proved",
   "theorems": [
    "C83_solution",
    "C83_unique"
   ],
   "note": "exact real arithmetic; SIMPLE media and soft sources (class of C75); the dual cell at a wall has the width of the wall cell, as in the code; no lumped source in an electric wall (C44 refutes that case)"
  },
  {
   "property": "C84",
   "status": "proved",
   "theorems": [
    "C84_half"
   ],
   "note": "exact real arithmetic; class of C83 (SIMPLE media, soft sources); plane at the lower x face (other axes by C81_turned, upper faces by C82_mirrored, which cover the same class)"
  },
  {
   "property": "C85",
   "status": "proved",
   "theorems": [
    "C85_round"
   ],
   "note": "exact real arithmetic; class of C83 (SIMPLE media, soft sources), equal cells along the periodic axis (with unequal first and last cells the code's dual cell at the wall is not that of a periodic mesh)"
  },
  {
   "property": "C86",
   "status": "partial",
   "theorems": [
    "C86_shutdown_partial",
    "C86_all_released_refuted"
   ],
   "note": "no misuse, no double release, every file closed: proved for every accepted complete mesh; that everything is released is false: the wire types are never freed (deallocWires is not called) and deallocAuxGrid forgets ahx and bhx (C86_all_released_refuted; the theorem lists exactly what is left). Matrices of filters count as one resource, order of cards of different kinds fixed, temporaries local to a function left out (see Shutdown.v)"
  },
  {
   "property": "C87",
   "status": "proved",
   "theorems": [
    "C87_vulture",
    "C87_gvulture",
    "C87_no_log",
    "C87_alerts_shown"
   ],
   "note": "a part of the program is the list of messages it would send (Message.v); writing to the log and stderr is taken not to fail"
  },
  {
   "property": "C88",
   "status": "partial",
   "theorems": [
    "C88_report_partial",
    "C88_observers_refuted"
   ],
   "note": "grid, field, coefficient, PML and media lines proved right; the observer line is too small as soon as there is a frequency-domain observer because one of its two DFT arrays is not counted (refuted), and the lines of waveforms, sources, boundaries, wires and lines always read 0. Debye blocks and impedance sheets not modelled here"
  }
 ]
}