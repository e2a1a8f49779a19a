# Output of `Print Assumptions`, by theorem

Generated by `tools/gen_assumptions.py`. All axioms are those of the standard library.

## No axioms (227 theorems)

C04_guard_partial, C04_nan_refuted, C100_second_pass_refuted, C100_shell_partial, C100_solid_partial, C100_solid_refuted, C101_plate_partial, C101_plate_refuted, C101_single_code_partial, C101_solid_partial, C101_solid_refuted, C102_multiplicity, C102_patch_pressures, C103_multipliers, C103_patchwise, C104_radius_partial, C108_directory_refuted, C108_distinct_no_dot_partial, C108_distinct_partial, C108_names_partial, C108_no_dot_partial, C108_same_file_refuted, C109_columns, C109_identifiers, C109_materials_refuted, C109_missing_patch_refuted, C109_model_of_identifier, C109_one_model_partial, C109_other_model_refuted, C110_invalid_set, C110_retained_nodes, C110_selection, C110_several_tags_refuted, C110_unknown_name_refuted, C123_acceleration_refuted, C123_dynamic_partial, C123_final_step_refuted, C123_history_refuted, C123_save_times_refuted, C123_saved_partial, C123_static_partial, C124_dynamic, C124_static_partial, C124_static_refuted, C125_accepted, C125_codes_refuted, C125_face_refuted, C125_loads_partial, C125_sections_refuted, C125_short_line_refuted, C126_all_refuted, C126_one_material, C126_regions_partial, C126_short_line_refuted, C128_plastic, C129_fixed_points_partial, C129_integration_partial, C129_other_points_refuted, C129_saving_interval_refuted, C12_reevaluation, C135_plate_refuted, C136_projection, C136_text_partial, C137_lists, C137_options, C137_position, C137_text_options, C137_twice_refuted, C137_unknown_refuted, C137_unreadable, C137_value_refuted, C138_analysis_partial, C138_check_partial, C138_check_refuted, C138_condensation_refuted, C139_analytical, C139_version_refuted, C13_converged_partial, C140_thickness_partial, C140_thickness_refuted, C144_displacements, C144_vectors, C144_vectors_norms, C149_all_loads, C149_all_loads_refuted, C149_assigned, C149_direction_refuted, C149_functions, C149_loads, C149_missing, C149_missing_refuted, C149_point, C149_same, C149_shown, C149_shown_refuted, C149_swallow_refuted, C149_zero_refuted, C155_closed_refuted, C155_fields, C155_printed, C155_shown, C155_status, C155_system, C23_places, C28_gaps_refuted, C28_late_parameter_refuted, C28_linear_partial, C28_no_gap_partial, C28_slots_exact_partial, C28_solutions, C29_idempotent, C29_mass_only_refuted, C29_modes_partial, C29_roundtrip_partial, C29_static_refuted, C29_unstored_refuted, C30_analytical_partial, C30_distinct_partial, C30_driver_partial, C30_elasticity_partial, C30_one_dim_refuted, C30_principal_refuted, C30_strain_refuted, C30_structures, C30_tensor_partial, C31_distinct_partial, C31_no_overrun, C31_prefix_refuted, C33_axisymmetric_refuted, C33_base, C33_components, C33_elasticity_partial, C33_mixed_fields, C33_mixed_partial, C33_no_prefix_refuted, C33_shell, C34_cut_back_time_refuted, C34_every_step, C34_final_step_partial, C34_first_save_partial, C34_last_step_refuted, C34_multiples_drift_refuted, C34_multiples_partial, C34_next_save_later, C34_next_save_partial, C35_accepted_is_converged, C35_gives_up_when_refused, C35_retry_after_divergence, C35_retry_is_smaller, C35_starts_from_accepted, C35_time_after_accepted, C36_dynamic_divergence, C36_dynamic_sum_refuted, C36_dynamic_zero, C36_nonzero_partial, C36_restart_not_written_refuted, C36_status_9_refuted, C36_zero_partial, C37_accepted_below_tolerance_partial, C37_infinite_reference_refuted, C37_nan_residual_refuted, C37_terminates, C41_active_iff_partial, C41_boundary_terms, C41_history_free, C41_stale_flag_refuted, C57_dimension_refuted, C57_file_partial, C57_last_in_file_partial, C57_last_request_partial, C57_order_in_file_partial, C57_order_refuted, C57_overrides_file_partial, C57_permutation_partial, C59_default_refuted, C59_disjoint_partial, C59_first_listed_refuted, C59_intensity_partial, C59_least_partial, C59_pixel, C59_total_partial, C62_beam_partial, C62_empty_refuted, C62_nonempty_partial, C62_shell_partial, C64_dumps_partial, C64_negative_refuted, C64_off, C64_zero_refuted, C65_count, C65_knots, C65_rejected, C66_active_system, C66_step, C66_work, C67_axes_partial, C67_axes_refuted, C81_matrix, C81_vector, C88_constant_partial, C88_function_refuted, C88_history_refuted, C89_dynamic_refuted, C89_exact_partial, C89_unsaved_refuted, C90_driver_range, C90_export_refuted, C90_linear_partial, C90_nonlinear_partial, C90_shell_refuted, C91_directory_refuted, C91_extension_partial, C91_leading_dots_partial, C91_no_extension_refuted, C91_root_refuted, C92_exporter_refuted, C92_release_partial, C93_keeps_partial, C93_plate_refuted, C93_value_partial, C94_adaptive_partial, C94_arclength_refuted, C95_exception_refuted, C95_fresh_partial, C95_overwrite_refuted, C99_beam_points_partial, C99_shell_points_partial

## `ClassicalDedekindReals.sig_forall_dec` (25 theorems)

C06_no_temperature_partial, C104_combined_direction_refuted, C104_conditions_partial, C104_order_refuted, C104_penalty, C104_slaves_first_partial, C139_volume, C140_contact_once_partial, C140_contact_refuted, C140_default_refuted, C140_properties_partial, C141_assembled_partial, C141_history_refuted, C141_one_patch_partial, C141_outcome, C141_patches_refuted, C141_succeeds, C31_shell_first, C31_shell_projection, C54_two_line_loads_refuted, C60_index_refuted, C96_element_moment_refuted, C96_no_direction_refuted, C96_no_load_vector_refuted, C96_vibration_refuted

## `ClassicalDedekindReals.sig_forall_dec`, `FunctionalExtensionality.functional_extensionality_dep` (297 theorems)

C01_stiffness_spd, C02_inverse, C03_hooke_1d, C03_hooke_3d, C03_hooke_axisymmetric, C03_hooke_plane_strain, C03_hooke_plane_stress, C03_lame, C05_field_refuted, C05_queries_partial, C06_3d_partial, C06_axisymmetric_partial, C06_axisymmetric_refuted, C06_free_expansion_partial, C06_load_consistent, C06_plane_strain_refuted, C06_plane_strain_zz_partial, C06_plane_stress_partial, C09_setups_partial, C09_setups_refuted, C104_active_partial, C104_default_penalty, C104_radius_refuted, C105_elastic, C105_stress, C106_lode_partial, C106_mean_partial, C106_mean_refuted, C106_triax_partial, C106_unloaded_partial, C107_axis_refuted, C107_hoop_stretch_partial, C107_negative_radius, C107_strains, C10_hyperelastic_partial, C10_plastic_partial, C10_small_shear_modulus_refuted, C10_standard_law_refuted, C111_shear_partial, C111_shear_refuted, C112_bad_line_refuted, C112_empty_cell_refuted, C112_function, C112_line_partial, C112_short_line_refuted, C112_table, C112_units, C112_units_refuted, C121_accepted_partial, C121_accepted_refuted, C121_consistent_partial, C121_equilibrium, C121_external, C121_forces, C121_geometric, C121_meaning, C121_momentum_partial, C121_momentum_refuted, C121_stiffness, C121_weight, C122_axisymmetric_stress_partial, C122_axisymmetric_stress_refuted, C122_mixed_refuted, C122_strain_partial, C122_stress_partial, C127_elastic_partial, C127_mixed_refuted, C127_text_refuted, C128_hyperelastic_order_refuted, C128_hyperelastic_partial, C128_hyperelastic_poisson_refuted, C128_hyperelastic_race_refuted, C128_hyperelastic_sequential_partial, C128_linear_partial, C128_linear_race_refuted, C128_linear_sequential_partial, C130_nodal, C130_plane_partial, C130_space_partial, C130_strain_refuted, C133_constants, C133_functions_partial, C133_meaning_refuted, C133_second_function_refuted, C135_arguments, C135_first_solution, C135_material_partial, C135_plate_arguments, C135_plate_partial, C135_plate_text, C135_plate_thickness, C135_text_partial, C135_text_refuted, C135_tractions, C136_codes_partial, C136_elasticity_refuted, C136_materials_partial, C136_none_refuted, C136_plastic_rejected, C136_single_partial, C136_small_partial, C136_text_refuted, C136_version_refuted, C139_energies_partial, C139_plate_groups, C139_plate_projection_report, C139_plate_report, C139_shell_report, C139_total_analytical_refuted, C139_updated, C13_diverged_refuted, C140_couplings, C140_couplings_refuted, C140_same_partial, C141_forces_partial, C141_weights_refuted, C142_conditions, C142_force, C142_formed, C142_one_body, C142_pushes, C142_tolerance, C142_two_bodies_refuted, C142_work, C143_newton_partial, C143_symmetric, C143_tangent_partial, C145_energy_refuted, C145_outcome, C145_sign, C145_term, C14_path_independent, C150_accepted, C150_force, C150_moment_partial, C150_moment_refuted, C150_reciprocal, C150_step, C150_system, C152_dropped_refuted, C152_forces_partial, C152_mixed, C152_plane_refuted, C152_sequence, C152_stored_partial, C17_green_strain_and_derivative, C17_initial_configuration, C18_internal_forces_agree, C19_general_kernel_2D_partial, C19_general_kernel_3D_partial, C19_general_kernel_3D_refuted, C19_isotropic_kernels, C19_weight_1D_refuted, C20_element_tangent_axisymmetric, C20_element_tangent_plane, C20_fbar_correction, C20_space_refuted, C20_symmetric_partial, C20_tangent_plane_axi_partial, C20_tangent_space_partial, C21_average_of_constant, C21_projection, C21_shortcut, C22_grid, C22_slots, C23_newton_matrix, C23_residual, C24_inverted_rejected, C24_nanson_axisymmetric, C24_nanson_plane, C24_nanson_space, C25_total_lagrangian_partial, C25_tractions_partial, C25_updated_lagrangian_refuted, C26_compressive_hoop_refuted, C26_linear_partial, C26_symmetric, C26_virtual_work, C26_virtual_work_axisymmetric_partial, C27_body_load_total, C27_mass, C27_mass_total_and_sign, C27_traction_total_nonlinear, C31_effectivity_partial, C31_plate_boundary_partial, C31_plate_boundary_refuted, C31_plate_effectivity_partial, C31_plate_first_partial, C31_plate_jump_partial, C31_plate_jump_refuted, C31_plate_own_basis_refuted, C31_plate_projection_partial, C31_plate_second_refuted, C31_updated, C32_late_material_refuted, C32_maximum_partial, C32_order_partial, C32_sign_refuted, C37_corrector_normal_plane, C37_corrector_tangent_plane, C40_forces_balance, C40_geometric_translation_partial, C40_mortar_balance, C40_residual, C40_spring_tangent, C41_augmented_condition, C41_closed_gap, C41_gap_average, C41_order_free, C41_penalty_condition, C42_field, C42_in_range, C42_nonnegative, C42_rigid_partial, C42_rigid_refuted, C42_symmetric, C43_rotation, C43_rotation_skewed, C43_symmetric, C43_tension, C44_diagonal_ecc, C44_diagonal_ecc_full, C44_diagonal_global, C44_eccentric_forces, C44_gravity, C44_rotation, C44_symmetric, C44_translation, C45_constant_functions_partial, C45_functions_used, C45_moment_functions_partial, C45_moment_functions_refuted, C45_polar_function_refuted, C45_shear_area, C45_shear_centre, C45_shear_parameter, C47_consistent_partial, C47_coupling_refuted, C47_gravity, C47_lumped, C49_couple_partial, C49_moment_refuted, C49_symmetrised, C50_symmetric, C50_version2, C50_version3, C54_boundary_partial, C54_interior_EW_partial, C54_interior_partial, C54_off_grid_partial, C54_once_refuted, C55_cantilever_boundary, C60_first_refuted, C60_section_single, C60_sections_total, C60_sum_partial, C60_total_partial, C60_total_shared_refuted, C61_order_refuted, C61_unique_partial, C63_constraints_partial, C63_rigid_motion_partial, C63_rigid_motion_refuted, C72_rotation, C72_tangent_energy, C72_tangent_symmetric, C73_path_refuted, C73_single_step_partial, C74_hoop_strain_refuted, C74_in_plane_partial, C74_small_element_refuted, C75_coupling_blocks, C75_unstrained_refuted, C75_volume_pressure_block, C76_projection, C76_symmetric, C77_kernels, C78_conservative, C78_repeat, C78_work, C79_bending_energy_partial, C79_equal_moments_partial, C79_rotary_inertia, C83_kinetic, C83_load, C83_pressure, C83_resultant, C84_others_partial, C96_bar_loads_partial, C96_beam_loads_partial, C96_damped_nodal_loads_partial, C96_shell_loads_partial, C98_bar_work_refuted, C98_beam_work_partial, C98_shell_work_partial, C99_bar_points_partial, C99_missing_patch_refuted

## `ClassicalDedekindReals.sig_forall_dec`, `ClassicalDedekindReals.sig_not_dec`, `FunctionalExtensionality.functional_extensionality_dep` (116 theorems)

C105_equal_stretches, C111_area_refuted, C111_bar_cable_refuted, C111_cable_type_refuted, C111_explicit_partial, C111_section_partial, C117_ul_forces_partial, C117_ul_forces_solid_partial, C122_axisymmetric_tangent_refuted, C122_energy_partial, C122_forces_partial, C122_tangent_partial, C131_energy_density_refuted, C131_energy_partial, C131_resultant_partial, C131_small_refuted, C131_total_axisymmetric_refuted, C131_total_body, C131_total_partial, C132_cylinder_partial, C132_exact_columns, C132_exact_partial, C132_exact_refuted, C132_global, C132_ignored_refuted, C132_local_partial, C139_first_group, C139_projection_group, C139_projection_report, C139_report, C139_total_refuted, C144_element, C144_forces, C144_outside, C144_outside_refuted, C144_positive, C144_rigid, C144_rigid_axial, C144_symmetric, C144_threshold, C144_threshold_refuted, C146_axial, C146_balance, C146_reciprocity, C146_resultant, C146_system, C147_expansion, C147_forces, C147_interior, C148_dual, C148_entries, C148_gravity_refuted, C148_loads, C148_norms, C148_strain, C148_strain_refuted, C154_buckling, C154_factor, C154_kinetic, C154_mass, C154_orthogonal, C154_rayleigh, C154_rigid, C154_scaling, C154_superposition, C154_tension, C154_vibration, C27_revolution, C27_traction_total_linear_partial, C31_boundary, C31_extraction_refuted, C31_first_partial, C31_first_plain_partial, C31_projection_partial, C37_arc_length_kept, C37_increments_add_up, C37_predictor_keeps_direction, C37_predictor_length, C38_cylinder_gap, C38_cylinder_weights, C38_moves_along, C38_sphere_gap, C38_sphere_outward, C39_line_mirrored_refuted, C39_line_projection_partial, C39_plane_gap, C39_plane_projection_partial, C39_weights_swapped_refuted, C40_geometric_translation_refuted, C45_positive, C45_thick_pipe_refuted, C48_material, C51_resultants, C51_stiffness, C51_strains, C52_forces_partial, C52_labels_refuted, C52_linear_surfaces_partial, C52_nonlinear_surfaces_partial, C52_recovered_partial, C52_rotation_moments_refuted, C52_rotation_partial, C53_symmetric, C56_centred_load, C56_point_load, C56_summation_partial, C56_summation_refuted, C56_summation_stops, C61_straight_partial, C80_invariance_refuted, C80_scaling_partial, C85_energy, C85_tangent, C86_opposite_partial, C86_same_refuted, C97_load_gradient

## `ClassicalDedekindReals.sig_forall_dec`, `ClassicalDedekindReals.sig_not_dec`, `Classical_Prop.classic`, `FunctionalExtensionality.functional_extensionality_dep` (181 theorems)

C07_derivatives_partial, C07_law4_refuted, C08_evaluates, C08_objective, C08_small_strain_tangent, C08_stress_formula, C08_stress_free_partial, C08_stress_free_refuted, C08_symmetric, C105_elastic_derivative, C105_return_mapping, C105_spatial, C113_mixed_forces, C114_mixed_tangent_partial, C114_mixed_tangent_refuted, C114_mixed_tangent_solid_partial, C115_lshape_edges, C115_lshape_equilibrium, C115_lshape_stress, C115_wedge_edges, C116_cantilever_displacement, C116_curved_beam_displacement, C116_hole_displacement, C116_lshape_displacement, C116_moment_cantilever_displacement, C117_axisymmetric_refuted, C118_axisymmetric_refuted, C118_rotated_refuted, C118_ul_stiffness_exact_partial, C118_ul_stiffness_partial, C119_tl_forces, C119_tl_stiffness, C11_curve_refuted, C11_radius, C11_slope_partial, C120_fbar_forces_partial, C120_fbar_stiffness_partial, C120_fbar_stiffness_plane_partial, C120_space_refuted, C120_unstrained_refuted, C121_consistent_refuted, C122_fbar_refuted, C122_stiffness_partial, C127_curve_partial, C127_double_partial, C127_power_partial, C127_voce_partial, C130_axisymmetric_refuted, C134_forces_partial, C134_forces_refuted, C134_second_variation_partial, C134_tangent_partial, C134_tangent_refuted, C134_tangent_solid_partial, C135_material_refuted, C135_plane_strain_partial, C146_dual, C146_energy, C146_minimum, C146_unique, C147_patch, C148_balance, C148_best, C148_pythagoras, C150_energy, C150_energy_exists, C150_unique, C151_accepted, C151_force, C151_moment, C151_nearby, C151_potential, C151_rest, C151_stationary, C151_symmetric, C151_tangent, C153_accepted, C153_balance, C153_bending, C153_clapeyron, C153_laplace_refuted, C153_minimum, C153_reciprocal, C153_symmetric, C153_unique, C153_works, C15_text_partial, C15_text_refuted, C15_xml_partial, C16_trial_check_refuted, C16_yields_partial, C21_fbar, C21_pressure_modes, C21_sign_lost, C21_three_field, C27_traction_total_axisymmetric_refuted, C38_cylinder_stiffness, C38_sphere_stiffness, C42_energy, C43_energy, C44_kinetic_energy, C44_nonnegative, C45_box_section, C45_hollow_box, C45_pipe, C45_pipe_section, C45_solid_box, C46_element, C46_equilibrium, C46_geometric_partial, C46_geometric_refuted, C46_gradient, C46_material_translation, C46_objective, C46_tangent, C48_curvature, C48_force, C48_normal, C48_second_binormal, C48_second_curvature_refuted, C48_strain, C48_strain_second, C48_tangent_partial, C49_stiffness_partial, C49_stiffness_refuted, C50_definite, C50_gaussian, C50_nonneg, C50_version1, C53_force, C53_normal, C53_tangent, C55_cantilever_equilibrium, C55_cantilever_resultants, C55_curved_beam_boundary, C55_curved_beam_ends, C55_curved_beam_equilibrium, C55_hole_boundary, C55_hole_equilibrium, C55_hole_far_field, C55_hole_plane_strain, C55_moment_cantilever, C55_pipe_boundary, C55_pipe_equilibrium, C55_pipe_polar_option, C56_circular_deflection_refuted, C56_circular_equilibrium_refuted, C56_circular_partial, C56_deflection, C56_derivatives, C56_equilibrium, C56_partial_load, C56_uniform_load, C58_axes_partial, C58_axis_refuted, C58_cylinder_partial, C58_sphere_partial, C68_consistent_tangent_partial, C68_energy_conjugate_partial, C68_law4_refuted, C69_plane_refuted, C69_safe_3d_partial, C70_derivatives, C70_lode_derivatives, C71_back_stress_matrix_refuted, C71_back_stress_sign_refuted, C71_newton_partial, C75_volume_equation, C75_volume_equation_axisymmetric, C79_bending_axis_refuted, C82_derivatives, C82_moments, C82_shear, C84_same_refuted, C84_version1_partial, C87_compatible_partial, C87_compatible_refuted, C87_displacement_partial, C87_displacement_refuted, C87_no_displacement, C87_temperature
