(** Axiom audit: what each theorem of MANIFEST.json rests on.  No model here. *)
From Verif Require P_Geometry P_Cards P_PwVectors P_Media P_Setup P_Step P_Phys P_Energy P_Walls P_Periodic P_Medium P_FilterFile P_Mesh P_Grid P_Waveform P_ExtRace P_Source P_PlaneWave P_PwAxis P_PwWave P_PwAux P_Observer P_Sim P_Pml P_Mur P_Alloc P_Gmsh P_Sibc P_Filter P_Cli P_CliG P_Positive P_Yee P_PwBounds P_SibcMesh P_Stable P_Whole P_WholePar P_Scan P_CardText P_CardText2 P_CardText3 P_FrontRun P_FrontStable P_Front P_FilterFront P_Gnuplot P_GnuplotPw P_Dump P_Process P_Maxwell P_MaxwellOut P_Recip P_Gauss P_Delay P_Timer P_Box P_BoxFile P_Turn P_Mirror P_MaxwellBox P_Image P_Round P_Shutdown P_Message P_Memory.

Print Assumptions P_Geometry.C01_mask_accepted.
Print Assumptions P_Geometry.C01_mask_bits.
Print Assumptions P_Geometry.C01_mask6.
Print Assumptions P_Geometry.C02_type.
Print Assumptions P_Geometry.C02_direction.
Print Assumptions P_Geometry.C02_faces.
Print Assumptions P_Geometry.C02_offset.
Print Assumptions P_Geometry.C02_orientation.
Print Assumptions P_Cards.C03_MB_card.
Print Assumptions P_Cards.C03_TW_card.
Print Assumptions P_Cards.C03_TB_card.
Print Assumptions P_Cards.C03_EX_card.
Print Assumptions P_PwVectors.C28_card.
Print Assumptions P_Cards.C31_card.
Print Assumptions P_Media.C03_accepted_box_partial.
Print Assumptions P_Media.C03_z_order_refuted.
Print Assumptions P_Geometry.C04_field_limits.
Print Assumptions P_Setup.C05_extents.
Print Assumptions P_Setup.C05_arrays_cover.
Print Assumptions P_Setup.C05_mesh_box_mapped.
Print Assumptions P_Step.C06_time_steps_in_bounds.
Print Assumptions P_Step.C06_every_access.
Print Assumptions P_Media.C06_media_in_bounds.
Print Assumptions P_Step.C07_exactly_once.
Print Assumptions P_Step.C07_exactly_once_no_adjacent_mur.
Print Assumptions P_Step.C07_nothing_outside.
Print Assumptions P_Step.C08_no_data_race.
Print Assumptions P_Step.C08_schedule_independent.
Print Assumptions P_Step.C08_executions_exist.
Print Assumptions P_Step.C09_upward.
Print Assumptions P_Step.C09_downward.
Print Assumptions P_Step.C09_box.
Print Assumptions P_Phys.C10_superposition.
Print Assumptions P_Phys.C11_quiescent.
Print Assumptions P_Phys.C12_flux_conserved.
Print Assumptions P_Energy.C13_energy_conserved.
Print Assumptions P_Phys.C14_pec_stays_zero.
Print Assumptions P_Media.C14_outer_walls.
Print Assumptions P_Walls.C15_pmc_image.
Print Assumptions P_Walls.C15_pec_image.
Print Assumptions P_Periodic.C16_periodic_faces_equal.
Print Assumptions P_Periodic.C16_from_rest.
Print Assumptions P_Medium.C17_declared.
Print Assumptions P_Medium.C17_simple.
Print Assumptions P_Medium.C17_pec.
Print Assumptions P_Medium.C17_debye_stable.
Print Assumptions P_Medium.C17_debye_file.
Print Assumptions P_FilterFile.C17_debye_text.
Print Assumptions P_FilterFile.C17_debye_short.
Print Assumptions P_FilterFile.C17_debye_reader.
Print Assumptions P_Media.C18_last_paint_wins.
Print Assumptions P_Media.C18_last_paint_unique.
Print Assumptions P_Setup.C19_registry.
Print Assumptions P_Setup.C19_duplicates_rejected.
Print Assumptions P_Setup.C19_predefined.
Print Assumptions P_Mesh.C20_accepted_is_initial_part.
Print Assumptions P_Mesh.C20_accepted_iff_partial.
Print Assumptions P_Mesh.C20_unknown_card_rejected.
Print Assumptions P_Mesh.C20_card_after_EN_refuted.
Print Assumptions P_Mesh.C20_truncated_accepted_refuted.
Print Assumptions P_Mesh.C20_nonvacuous.
Print Assumptions P_Mesh.C21_comments.
Print Assumptions P_Mesh.C21_trim_partial.
Print Assumptions P_Mesh.C21_idempotent.
Print Assumptions P_Mesh.C21_layout_irrelevant_partial.
Print Assumptions P_Mesh.C21_blank_line_refuted.
Print Assumptions P_Mesh.C21_long_line_refuted.
Print Assumptions P_Grid.C22_courant_partial.
Print Assumptions P_Grid.C22_default.
Print Assumptions P_Grid.C22_nonvacuous.
Print Assumptions P_Grid.C22_positive_refuted.
Print Assumptions P_Grid.C23_edge_lengths.
Print Assumptions P_Grid.C23_uniform_mesh.
Print Assumptions P_Grid.C23_uniform_mesh_rejects.
Print Assumptions P_Waveform.C24_gaussian.
Print Assumptions P_Waveform.C24_diff_gaussian.
Print Assumptions P_Waveform.C24_compact.
Print Assumptions P_Waveform.C24_diff_compact.
Print Assumptions P_Waveform.C24_modulated.
Print Assumptions P_Waveform.C24_ramp_monotone.
Print Assumptions P_Waveform.C25_external_waveform.
Print Assumptions P_Waveform.C25_sample_values.
Print Assumptions P_Waveform.C25_bad_file_rejected.
Print Assumptions P_ExtRace.C25_concurrent.
Print Assumptions P_Source.C26_card.
Print Assumptions P_Source.C26_tags.
Print Assumptions P_Source.C26_tags_complete.
Print Assumptions P_Source.C26_sources.
Print Assumptions P_Source.C26_in_bounds.
Print Assumptions P_Source.C26_superposition.
Print Assumptions P_Source.C26_sources_in_place.
Print Assumptions P_PlaneWave.C27_equations.
Print Assumptions P_PlaneWave.C27_injection.
Print Assumptions P_PlaneWave.C27_superposition.
Print Assumptions P_PwAxis.C27_axis.
Print Assumptions P_PwAxis.C27_axis_nonvacuous.
Print Assumptions P_PlaneWave.C27_lossy_refuted.
Print Assumptions P_PwVectors.C28_vectors.
Print Assumptions P_PwVectors.C28_origin.
Print Assumptions P_PwWave.C28_travels.
Print Assumptions P_PwWave.C28_causal.
Print Assumptions P_PwVectors.C28_phi360_refuted.
Print Assumptions P_PwVectors.C28_inverted_refuted.
Print Assumptions P_PwAux.C29_inside.
Print Assumptions P_PwAux.C29_samples.
Print Assumptions P_Observer.C30_spectrum.
Print Assumptions P_Observer.C30_window_refuted.
Print Assumptions P_Observer.run_output.
Print Assumptions P_Observer.C31_records_partial.
Print Assumptions P_Observer.C31_window_refuted.
Print Assumptions P_Observer.C31_zero_stride_refuted.
Print Assumptions P_Sim.C32_card.
Print Assumptions P_Sim.C32_exactly_NT_partial.
Print Assumptions P_Sim.C32_zero_steps_refuted.
Print Assumptions P_Sim.C32_negative_refuted.
Print Assumptions P_Pml.C33_card.
Print Assumptions P_Pml.C33_profile.
Print Assumptions P_Pml.C33_passive.
Print Assumptions P_Pml.C33_defaults_passive.
Print Assumptions P_Pml.C33_update.
Print Assumptions P_Pml.C33_transparent.
Print Assumptions P_Pml.C33_gain_refuted.
Print Assumptions P_Mur.C34_coefficients.
Print Assumptions P_Mur.C34_outgoing.
Print Assumptions P_Media.C35_continued_partial.
Print Assumptions P_Media.C35_lo_side_refuted.
Print Assumptions P_Alloc.C36_allocation.
Print Assumptions P_Alloc.C36_overflow_refuted.
Print Assumptions P_Gmsh.C37_numbering.
Print Assumptions P_Gmsh.C37_overflow_refuted.
Print Assumptions P_Sibc.C38_impedance.
Print Assumptions P_Sibc.C38_accepted_partial.
Print Assumptions P_Sibc.C38_active_accepted_refuted.
Print Assumptions P_Sibc.C38_passive_rejected_refuted.
Print Assumptions P_Sibc.C38_singular_refuted.
Print Assumptions P_Filter.C39_exact.
Print Assumptions P_Cli.C40_documented_partial.
Print Assumptions P_Cli.C40_stops.
Print Assumptions P_Cli.C40_no_crash_partial.
Print Assumptions P_CliG.C40_renderer.
Print Assumptions P_CliG.C40_renderer_stops.
Print Assumptions P_CliG.C40_renderer_no_crash.
Print Assumptions P_Cli.C40_missing_value_refuted.
Print Assumptions P_Cli.C40_long_forms_refuted.
Print Assumptions P_Cli.C40_files_refuted.
Print Assumptions P_CliG.C40_renderer_long_name_refuted.
Print Assumptions P_CliG.C40_renderer_files_refuted.
Print Assumptions P_Setup.C41_completed.
Print Assumptions P_Setup.C41_refused_iff.
Print Assumptions P_Setup.C41_wellformed.
Print Assumptions P_Grid.C42_node_position.
Print Assumptions P_Grid.C42_field_position.
Print Assumptions P_Grid.C42_nonvacuous.
Print Assumptions P_Grid.C43_grid_type_partial.
Print Assumptions P_Grid.C43_refuted.
Print Assumptions P_Medium.C44_points.
Print Assumptions P_Medium.C44_once_partial.
Print Assumptions P_Medium.C44_overwrite_refuted.
Print Assumptions P_Observer.C45_one_step_late.
Print Assumptions P_Observer.C45_refuted.
Print Assumptions P_Positive.C46_exactly_partial.
Print Assumptions P_Step.C46_mur_edges_refuted.
Print Assumptions P_Positive.C47_BE_partial.
Print Assumptions P_Positive.C47_negative_refused.
Print Assumptions P_Setup.C47_BE_refuted.
Print Assumptions P_Medium.C48_user_pec_refuted.
Print Assumptions P_Medium.C49_debye_law.
Print Assumptions P_Medium.C50_inline_pole_refuted.
Print Assumptions P_Waveform.C51_parameters_partial.
Print Assumptions P_Waveform.C51_negative_delay_refuted.
Print Assumptions P_Waveform.C51_narrow_width_refuted.
Print Assumptions P_Waveform.C51_ricker_sign_refuted.
Print Assumptions P_Waveform.C51_diff_compact_factor_refuted.
Print Assumptions P_Source.C52_sheet_partial.
Print Assumptions P_Source.C52_sheet_refuted.
Print Assumptions P_Source.C53_lumped_circuit_partial.
Print Assumptions P_Source.C53_ideal_source_refuted.
Print Assumptions P_Source.C54_norton_tag_refuted.
Print Assumptions P_Source.C54_other_tags_partial.
Print Assumptions P_Observer.C55_frequencies_partial.
Print Assumptions P_Observer.C55_single_frequency_refuted.
Print Assumptions P_Observer.C55_single_accepted_refuted.
Print Assumptions P_Observer.C55_default_refuted.
Print Assumptions P_Setup.C56_BR_card.
Print Assumptions P_Yee.C57_yee_update.
Print Assumptions P_Gmsh.C58_file.
Print Assumptions P_Gmsh.C58_success.
Print Assumptions P_Gmsh.C58_export.
Print Assumptions P_Gmsh.C58_flat_planewave_refuted.
Print Assumptions P_Gmsh.C58_zero_stride_refuted.
Print Assumptions P_PwBounds.C59_in_bounds.
Print Assumptions P_PwBounds.C59_schedule_independent.
Print Assumptions P_PwBounds.C59_analytic.
Print Assumptions P_PwBounds.C59_inverted_refuted.
Print Assumptions P_PwBounds.C59_analytic_refuted.
Print Assumptions P_Sibc.C60_scattering.
Print Assumptions P_Sibc.C60_passive.
Print Assumptions P_Sibc.C60_orientation.
Print Assumptions P_Sibc.C60_isotropic.
Print Assumptions P_Sibc.C60_active_refuted.
Print Assumptions P_SibcMesh.C61_in_bounds.
Print Assumptions P_SibcMesh.C61_curl.
Print Assumptions P_SibcMesh.C61_normal.
Print Assumptions P_SibcMesh.C61_adjacent_partial.
Print Assumptions P_SibcMesh.C61_flags_partial.
Print Assumptions P_SibcMesh.C61_uninitialised_refuted.
Print Assumptions P_SibcMesh.C61_adjacency_refuted.
Print Assumptions P_SibcMesh.C61_inverted_refuted.
Print Assumptions P_SibcMesh.C61_rotation_refuted.
Print Assumptions P_Stable.C62_bounded.
Print Assumptions P_Stable.C62_balance.
Print Assumptions P_Stable.C62_stable.
Print Assumptions P_PwWave.C63_bounded.
Print Assumptions P_Whole.C64_in_bounds.
Print Assumptions P_Whole.C64_plain_run.
Print Assumptions P_Whole.C65_superposition.
Print Assumptions P_Whole.C65_fields.
Print Assumptions P_Whole.C65_quiescent.
Print Assumptions P_WholePar.C66_schedule_independent.
Print Assumptions P_Scan.C67_read_as_written.
Print Assumptions P_CardText.C67_block_card.
Print Assumptions P_CardText.C67_wire_card.
Print Assumptions P_CardText.C67_surface_card.
Print Assumptions P_CardText.C67_size_card.
Print Assumptions P_CardText.C67_source_card.
Print Assumptions P_CardText2.C67_source_values.
Print Assumptions P_CardText2.C67_wire_type_card.
Print Assumptions P_CardText2.C67_medium_card.
Print Assumptions P_CardText2.C67_medium_file_card.
Print Assumptions P_CardText2.C67_waveform_card.
Print Assumptions P_CardText2.C67_planewave_card.
Print Assumptions P_CardText2.C67_observer_card.
Print Assumptions P_CardText2.C67_window_card.
Print Assumptions P_CardText2.C67_frequency_card.
Print Assumptions P_CardText2.C67_courant_card.
Print Assumptions P_CardText2.C67_steps_card.
Print Assumptions P_CardText2.C67_spacing_card.
Print Assumptions P_CardText2.C67_walls_card.
Print Assumptions P_CardText3.C67_depth_card.
Print Assumptions P_CardText3.C67_external_card.
Print Assumptions P_CardText3.C67_external_nofile.
Print Assumptions P_CardText2.C67_boundary_card.
Print Assumptions P_CardText2.C67_pml_card.
Print Assumptions P_CardText2.C67_sheet_card.
Print Assumptions P_CardText2.C67_lines_card.
Print Assumptions P_CardText2.C67_version_card.
Print Assumptions P_CardText.C67_wrap_refuted.
Print Assumptions P_CardText.C67_long_name_refuted.
Print Assumptions P_FrontRun.C68_runs_in_bounds.
Print Assumptions P_FrontStable.C68_set_up_in_bounds.
Print Assumptions P_FrontRun.C68_mesh_lines_refuted.
Print Assumptions P_Front.C69_consistent.
Print Assumptions P_FrontRun.C69_media_names_refuted.
Print Assumptions P_FrontStable.C70_stable_file.
Print Assumptions P_FrontStable.C70_mesh_complete.
Print Assumptions P_FilterFile.C71_anisotropic_partial.
Print Assumptions P_FilterFile.C71_isotropic_partial.
Print Assumptions P_FilterFront.C71_mesh.
Print Assumptions P_FilterFront.C71_needed.
Print Assumptions P_FilterFile.C71_other_sizes.
Print Assumptions P_FilterFile.C71_documented_order_refuted.
Print Assumptions P_FilterFile.C71_stable_file_grows_refuted.
Print Assumptions P_FilterFile.C71_truncated_refuted.
Print Assumptions P_FilterFile.C71_uninitialised_refuted.
Print Assumptions P_Gnuplot.C72_boxes.
Print Assumptions P_Gnuplot.C72_external.
Print Assumptions P_Gnuplot.C72_grid_lines.
Print Assumptions P_Gnuplot.C72_sources_partial.
Print Assumptions P_Gnuplot.C72_observers.
Print Assumptions P_Gnuplot.C72_script_partial.
Print Assumptions P_GnuplotPw.C72_planewaves.
Print Assumptions P_GnuplotPw.C72_planewave_axes.
Print Assumptions P_Gnuplot.C72_sources_refuted.
Print Assumptions P_GnuplotPw.C72_phi360_refuted.
Print Assumptions P_GnuplotPw.C72_backwards_refuted.
Print Assumptions P_Gnuplot.C72_stride_refuted.
Print Assumptions P_Gnuplot.C72_reversed_refuted.
Print Assumptions P_Gnuplot.C72_script_refuted.
Print Assumptions P_Dump.C73_layout.
Print Assumptions P_Dump.C73_free_space.
Print Assumptions P_Dump.C73_pec.
Print Assumptions P_Dump.C73_dielectric_partial.
Print Assumptions P_Dump.C73_magnetic_partial.
Print Assumptions P_Dump.C73_media.
Print Assumptions P_Dump.C73_magnetic_refuted.
Print Assumptions P_Process.C74_process.
Print Assumptions P_Process.C74_reconstruct.
Print Assumptions P_Process.C74_mesh_size_partial.
Print Assumptions P_Process.C74_mesh_size_default.
Print Assumptions P_Process.C74_mesh_size_refuted.
Print Assumptions P_Process.C74_frequencies_refuted.
Print Assumptions P_Maxwell.C75_solution.
Print Assumptions P_Maxwell.C75_unique.
Print Assumptions P_MaxwellOut.C75_output.
Print Assumptions P_Recip.C76_reciprocity.
Print Assumptions P_Recip.C76_swap.
Print Assumptions P_Gauss.C77_charge.
Print Assumptions P_Gauss.C77_neutral.
Print Assumptions P_Gauss.C77_flux.
Print Assumptions P_Gauss.C77_solenoidal.
Print Assumptions P_Delay.C78_delay.
Print Assumptions P_Delay.C78_state.
Print Assumptions P_Delay.C78_signals.
Print Assumptions P_Delay.C78_compact.
Print Assumptions P_Delay.C78_gaussian_refuted.
Print Assumptions P_Timer.C79_defined.
Print Assumptions P_Timer.C79_estimates.
Print Assumptions P_Timer.C79_sparse.
Print Assumptions P_Timer.C79_steady.
Print Assumptions P_Timer.C79_steady_once.
Print Assumptions P_Timer.C79_cells_refuted.
Print Assumptions P_Box.C80_energy_conserved.
Print Assumptions P_Box.C80_balance.
Print Assumptions P_Box.C80_bounded.
Print Assumptions P_Box.C80_stable.
Print Assumptions P_BoxFile.C80_stable_file.
Print Assumptions P_Turn.C81_turned.
Print Assumptions P_Mirror.C82_mirrored.
Print Assumptions P_Mirror.C82_symmetric.
Print Assumptions P_MaxwellBox.C83_solution.
Print Assumptions P_MaxwellBox.C83_unique.
Print Assumptions P_Image.C84_half.
Print Assumptions P_Round.C85_round.
Print Assumptions P_Shutdown.C86_shutdown_partial.
Print Assumptions P_Shutdown.C86_all_released_refuted.
Print Assumptions P_Message.C87_vulture.
Print Assumptions P_Message.C87_gvulture.
Print Assumptions P_Message.C87_no_log.
Print Assumptions P_Message.C87_alerts_shown.
Print Assumptions P_Memory.C88_report_partial.
Print Assumptions P_Memory.C88_observers_refuted.
