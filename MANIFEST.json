{
 "claims": [
  {
   "property": "C01",
   "status": "proved",
   "theorems": [
    "C01_stiffness_spd"
   ],
   "note": "All five modes; also shows that no entry is written out of range."
  },
  {
   "property": "C02",
   "status": "proved",
   "theorems": [
    "C02_inverse"
   ],
   "note": "Two-sided inverse in all five modes."
  },
  {
   "property": "C03",
   "status": "proved",
   "theorems": [
    "C03_hooke_3d",
    "C03_hooke_axisymmetric",
    "C03_hooke_plane_strain",
    "C03_hooke_plane_stress",
    "C03_hooke_1d",
    "C03_lame"
   ],
   "note": "3D, axisymmetric, plane strain (incl. sigma_zz), plane stress (condensed), 1D and the Lame parameters."
  },
  {
   "property": "C04",
   "status": "partial",
   "theorems": [
    "C04_nan_refuted",
    "C04_guard_partial"
   ],
   "note": "Statement is false of the code: NaN passes the guard (witness). Exact for every other binary64 value."
  },
  {
   "property": "C05",
   "status": "partial",
   "theorems": [
    "C05_field_refuted",
    "C05_queries_partial"
   ],
   "note": "Statement is false of the code when the stiffness is given as a field: the queries ignore it. Holds for all other combinations."
  },
  {
   "property": "C06",
   "status": "partial",
   "theorems": [
    "C06_plane_strain_refuted",
    "C06_axisymmetric_refuted",
    "C06_3d_partial",
    "C06_plane_stress_partial",
    "C06_axisymmetric_partial",
    "C06_free_expansion_partial",
    "C06_no_temperature_partial",
    "C06_plane_strain_zz_partial",
    "C06_load_consistent"
   ],
   "note": "Statement is false of the code in plane strain (in-plane term missing) and in axisymmetric mode with a plane-strain material (E*epsT subtracted twice). Holds in 3D, plane stress and axisymmetric mode with the default material flags."
  },
  {
   "property": "C07",
   "status": "partial",
   "theorems": [
    "C07_derivatives_partial",
    "C07_law4_refuted"
   ],
   "note": "Volumetric laws 1-3 exact; law 4's first derivative is not the derivative of its energy (witness)."
  },
  {
   "property": "C08",
   "status": "partial",
   "theorems": [
    "C08_stress_formula",
    "C08_objective",
    "C08_evaluates",
    "C08_symmetric",
    "C08_stress_free_partial",
    "C08_stress_free_refuted",
    "C08_small_strain_tangent"
   ],
   "note": "Objectivity, symmetry and small-strain tangent proved for both versions; stress-free reference fails for volumetric law 4 (witness)."
  },
  {
   "property": "C09",
   "status": "partial",
   "theorems": [
    "C09_setups_partial",
    "C09_setups_refuted"
   ],
   "note": "Set-up is idempotent except for the standard version given (K,G), where repeated set-up drifts (witness)."
  },
  {
   "property": "C10",
   "status": "partial",
   "theorems": [
    "C10_plastic_partial",
    "C10_hyperelastic_partial",
    "C10_small_shear_modulus_refuted",
    "C10_standard_law_refuted"
   ],
   "note": "Conversions inverse when the shear modulus exceeds 1/2; smaller shear moduli are mistaken for Poisson's ratio, and the standard hyperelastic version takes K for lambda (witnesses)."
  },
  {
   "property": "C11",
   "status": "partial",
   "theorems": [
    "C11_radius",
    "C11_slope_partial",
    "C11_curve_refuted"
   ],
   "note": "All laws; with a hardening curve the linear term enters the slope but not the yield stress (witness)."
  },
  {
   "property": "C12",
   "status": "proved",
   "theorems": [
    "C12_reevaluation"
   ],
   "note": ""
  },
  {
   "property": "C13",
   "status": "partial",
   "theorems": [
    "C13_converged_partial",
    "C13_diverged_refuted"
   ],
   "note": "Holds when all increments after the first step converge; a diverged increment is committed as history (witness)."
  },
  {
   "property": "C14",
   "status": "proved",
   "theorems": [
    "C14_path_independent"
   ],
   "note": ""
  },
  {
   "property": "C15",
   "status": "partial",
   "theorems": [
    "C15_text_partial",
    "C15_xml_partial",
    "C15_text_refuted"
   ],
   "note": "XML input is safe; text input with hardening type 6 and fewer than 13 parameters reads outside the list (witness)."
  },
  {
   "property": "C16",
   "status": "partial",
   "theorems": [
    "C16_yields_partial",
    "C16_trial_check_refuted"
   ],
   "note": "All criteria except type 3, whose trial check never reports yielding."
  },
  {
   "property": "C17",
   "status": "proved",
   "theorems": [
    "C17_green_strain_and_derivative",
    "C17_initial_configuration"
   ],
   "note": ""
  },
  {
   "property": "C18",
   "status": "proved",
   "theorems": [
    "C18_internal_forces_agree"
   ],
   "note": ""
  },
  {
   "property": "C19",
   "status": "partial",
   "theorems": [
    "C19_general_kernel_2D_partial",
    "C19_general_kernel_3D_partial",
    "C19_general_kernel_3D_refuted",
    "C19_isotropic_kernels",
    "C19_weight_1D_refuted"
   ],
   "note": "2D general and both isotropic kernels exact. The 3D general kernel exchanges Voigt positions 5 and 6 (exact for tangents invariant under that exchange; witness otherwise), and the 1D branch drops the integration weight (witness)."
  },
  {
   "property": "C20",
   "status": "partial",
   "theorems": [
    "C20_tangent_plane_axi_partial",
    "C20_tangent_space_partial",
    "C20_symmetric_partial",
    "C20_space_refuted",
    "C20_element_tangent_plane",
    "C20_element_tangent_axisymmetric",
    "C20_fbar_correction"
   ],
   "note": "2D and axisymmetric exact; in 3D 80 of 81 entries exact, entry (9,3) uses sigma_12 instead of sigma_13 (witness)."
  },
  {
   "property": "C21",
   "status": "proved",
   "theorems": [
    "C21_fbar",
    "C21_pressure_modes",
    "C21_three_field",
    "C21_average_of_constant",
    "C21_projection",
    "C21_shortcut",
    "C21_sign_lost"
   ],
   "note": ""
  },
  {
   "property": "C22",
   "status": "proved",
   "theorems": [
    "C22_grid",
    "C22_slots"
   ],
   "note": ""
  },
  {
   "property": "C23",
   "status": "proved",
   "theorems": [
    "C23_newton_matrix",
    "C23_places",
    "C23_residual"
   ],
   "note": ""
  },
  {
   "property": "C24",
   "status": "proved",
   "theorems": [
    "C24_nanson_space",
    "C24_nanson_plane",
    "C24_nanson_axisymmetric",
    "C24_inverted_rejected"
   ],
   "note": ""
  },
  {
   "property": "C25",
   "status": "partial",
   "theorems": [
    "C25_total_lagrangian_partial",
    "C25_tractions_partial",
    "C25_updated_lagrangian_refuted"
   ],
   "note": "Total Lagrangian volume and boundary loads satisfy it; the updated Lagrangian element adds the gradient to the wrong vector (witness)."
  },
  {
   "property": "C26",
   "status": "partial",
   "theorems": [
    "C26_linear_partial",
    "C26_symmetric",
    "C26_virtual_work",
    "C26_virtual_work_axisymmetric_partial",
    "C26_compressive_hoop_refuted"
   ],
   "note": "Linear in the stress for 2D, 3D and axisymmetric tension; a compressive hoop stress is ignored (witness)."
  },
  {
   "property": "C27",
   "status": "partial",
   "theorems": [
    "C27_mass",
    "C27_mass_total_and_sign",
    "C27_body_load_total",
    "C27_traction_total_nonlinear",
    "C27_traction_total_linear_partial",
    "C27_revolution",
    "C27_traction_total_axisymmetric_refuted"
   ],
   "note": "Mass and body loads in all modes, tractions in the nonlinear elements and in linear non-axisymmetric ones; the linear axisymmetric total omits the 2*pi*r weight (witness)."
  },
  {
   "property": "C28",
   "status": "partial",
   "theorems": [
    "C28_slots_exact_partial",
    "C28_no_gap_partial",
    "C28_gaps_refuted",
    "C28_late_parameter_refuted",
    "C28_linear_partial",
    "C28_solutions"
   ],
   "note": "Refuted as stated: some integrand/mode/parameter combinations write to a matrix or vector the element container does not hold (listed in C28_gaps_refuted), and a parameter set after the mode leaves stale slots. Partial: exact characterisation of the safe combinations over all call sequences, no gap outside the listed ones, and exactly which matrices and vectors linear elasticity forms."
  },
  {
   "property": "C29",
   "status": "partial",
   "theorems": [
    "C29_roundtrip_partial",
    "C29_modes_partial",
    "C29_static_refuted",
    "C29_mass_only_refuted",
    "C29_unstored_refuted",
    "C29_idempotent"
   ],
   "note": "Refuted as stated: a buffered STATIC visit, the mass of MASS_ONLY, and a read of an element never stored. Partial: the round trip holds for every visit sequence when both matrix slots are in use."
  },
  {
   "property": "C30",
   "status": "partial",
   "theorems": [
    "C30_elasticity_partial",
    "C30_tensor_partial",
    "C30_distinct_partial",
    "C30_principal_refuted",
    "C30_strain_refuted",
    "C30_one_dim_refuted",
    "C30_analytical_partial",
    "C30_driver_partial",
    "C30_structures"
   ],
   "note": "Exact condition proved for 2D/3D continua (iff); refuted where principal values meet internal variables, for strain output in plane stress and in one dimension. Plates, shells and cables fully proved."
  },
  {
   "property": "C31",
   "status": "partial",
   "theorems": [
    "C31_first_partial",
    "C31_first_plain_partial",
    "C31_extraction_refuted",
    "C31_prefix_refuted",
    "C31_projection_partial",
    "C31_distinct_partial",
    "C31_effectivity_partial",
    "C31_boundary",
    "C31_updated",
    "C31_no_overrun",
    "C31_plate_first_partial",
    "C31_plate_projection_partial",
    "C31_plate_second_refuted",
    "C31_plate_boundary_partial",
    "C31_plate_boundary_refuted",
    "C31_plate_own_basis_refuted",
    "C31_plate_jump_partial",
    "C31_plate_jump_refuted",
    "C31_plate_effectivity_partial",
    "C31_shell_first",
    "C31_shell_projection"
   ],
   "note": "Every entry of the continuum, updated Lagrangian, plate and shell norms is matched with its label, and no name function reads outside its table, except the refuted cases: extraction entries without analytical solution, prefix dropped with several extraction functions, second nodal projection and boundary slots of version-2 plates, own-basis projections on plate boundaries, unsquared moment jump."
  },
  {
   "property": "C32",
   "status": "partial",
   "theorems": [
    "C32_maximum_partial",
    "C32_order_partial",
    "C32_sign_refuted",
    "C32_late_material_refuted"
   ],
   "note": "Maximum of the absolute value proved for any visiting order; refuted for sign/location under ties and for a material registered after the maximum table is sized."
  },
  {
   "property": "C33",
   "status": "partial",
   "theorems": [
    "C33_base",
    "C33_elasticity_partial",
    "C33_axisymmetric_refuted",
    "C33_components",
    "C33_mixed_partial",
    "C33_no_prefix_refuted",
    "C33_mixed_fields",
    "C33_shell"
   ],
   "note": "Base, continuum and mixed names proved; refuted for the axisymmetric third component with prefix and for names without prefix."
  },
  {
   "property": "C34",
   "status": "partial",
   "theorems": [
    "C34_first_save_partial",
    "C34_next_save_partial",
    "C34_next_save_later",
    "C34_every_step",
    "C34_final_step_partial",
    "C34_multiples_partial",
    "C34_multiples_drift_refuted",
    "C34_last_step_refuted",
    "C34_cut_back_time_refuted"
   ],
   "note": "Save rule relative to the previous save proved for all step sequences, and exactness for equal steps; refuted as stated: save times drift off the multiples, the last step is lost with a long first interval, and a cut-back leaves a stale output time."
  },
  {
   "property": "C35",
   "status": "proved",
   "theorems": [
    "C35_starts_from_accepted",
    "C35_time_after_accepted",
    "C35_retry_is_smaller",
    "C35_retry_after_divergence",
    "C35_accepted_is_converged",
    "C35_gives_up_when_refused"
   ],
   "note": ""
  },
  {
   "property": "C36",
   "status": "partial",
   "theorems": [
    "C36_zero_partial",
    "C36_nonzero_partial",
    "C36_dynamic_zero",
    "C36_status_9_refuted",
    "C36_restart_not_written_refuted",
    "C36_dynamic_sum_refuted",
    "C36_dynamic_divergence"
   ],
   "note": "Status zero and nonzero characterised for all outcome sequences (dynamic driver: iff); refuted: status 9 has two causes, failed serialisation gives 0, dynamic statuses are summed and collide."
  },
  {
   "property": "C37",
   "status": "partial",
   "theorems": [
    "C37_accepted_below_tolerance_partial",
    "C37_terminates",
    "C37_nan_residual_refuted",
    "C37_infinite_reference_refuted",
    "C37_predictor_length",
    "C37_predictor_keeps_direction",
    "C37_corrector_normal_plane",
    "C37_corrector_tangent_plane",
    "C37_increments_add_up",
    "C37_arc_length_kept"
   ],
   "note": "Acceptance, termination, predictor, corrector and bookkeeping proved; refuted: zero first correction accepted with NaN residual, infinite first norm used as reference. Floating point for the convergence test, exact reals for the increments."
  },
  {
   "property": "C38",
   "status": "proved",
   "theorems": [
    "C38_sphere_gap",
    "C38_sphere_outward",
    "C38_sphere_stiffness",
    "C38_cylinder_gap",
    "C38_cylinder_weights",
    "C38_cylinder_stiffness",
    "C38_moves_along"
   ],
   "note": ""
  },
  {
   "property": "C39",
   "status": "partial",
   "theorems": [
    "C39_plane_projection_partial",
    "C39_line_projection_partial",
    "C39_plane_gap",
    "C39_weights_swapped_refuted",
    "C39_line_mirrored_refuted"
   ],
   "note": "The weights sum to one but are attached to the wrong master points and lose their sign: the projection is reproduced exactly on the diagonal p = q >= 0 (3D) and for p >= 0 (2D); refuted elsewhere."
  },
  {
   "property": "C40",
   "status": "partial",
   "theorems": [
    "C40_forces_balance",
    "C40_residual",
    "C40_mortar_balance",
    "C40_spring_tangent",
    "C40_geometric_translation_partial",
    "C40_geometric_translation_refuted"
   ],
   "note": "Force balance, residual = mortar matrix times gaps, and the assembled spring tangent (symmetric, positive semi-definite, translation invariant) are proved in full; the geometric part of the point tangent has the slave-master sign wrong and resists common translations (refuted)."
  },
  {
   "property": "C41",
   "status": "partial",
   "theorems": [
    "C41_active_iff_partial",
    "C41_penalty_condition",
    "C41_augmented_condition",
    "C41_history_free",
    "C41_boundary_terms",
    "C41_order_free",
    "C41_gap_average",
    "C41_closed_gap",
    "C41_stale_flag_refuted"
   ],
   "note": "The active set equals the contact condition of the current state except that the first node keeps a stale flag when the first iteration of the first step is re-entered (refuted there)."
  },
  {
   "property": "C42",
   "status": "partial",
   "theorems": [
    "C42_symmetric",
    "C42_energy",
    "C42_field",
    "C42_nonnegative",
    "C42_rigid_partial",
    "C42_rigid_refuted",
    "C42_in_range"
   ],
   "note": "Stiffness symmetric, non-negative, equal to the Timoshenko energy integral; rigid motions force-free with axes of the eccentric axis (partial). Refuted in general: length and axes are taken from the grid points, so unequal end eccentricities give forces for a rigid rotation."
  },
  {
   "property": "C43",
   "status": "proved",
   "theorems": [
    "C43_symmetric",
    "C43_energy",
    "C43_tension",
    "C43_rotation",
    "C43_rotation_skewed"
   ],
   "note": "Symmetric; energy equals the integral of N times slope squared; exact force couple for rigid rotation and no end moments, also about the shear centre."
  },
  {
   "property": "C44",
   "status": "proved",
   "theorems": [
    "C44_symmetric",
    "C44_kinetic_energy",
    "C44_nonnegative",
    "C44_translation",
    "C44_rotation",
    "C44_gravity",
    "C44_diagonal_global",
    "C44_diagonal_ecc",
    "C44_diagonal_ecc_full",
    "C44_eccentric_forces"
   ],
   "note": "Consistent and lumped mass; rigid translation after global and eccentric transformation; exact rotary inertia; gravity resultant and its moment; diagonal forms."
  },
  {
   "property": "C45",
   "status": "partial",
   "theorems": [
    "C45_hollow_box",
    "C45_solid_box",
    "C45_pipe",
    "C45_positive",
    "C45_constant_functions_partial",
    "C45_shear_area",
    "C45_moment_functions_partial",
    "C45_moment_functions_refuted",
    "C45_polar_function_refuted",
    "C45_pipe_section",
    "C45_box_section",
    "C45_shear_parameter",
    "C45_functions_used",
    "C45_shear_centre",
    "C45_thick_pipe_refuted"
   ],
   "note": "Area integrals of boxes and pipes, positivity, Bredt torsion constant proved. Refuted: second-moment functions give a rotary inertia without the density, the polar function serves both GIt and Ix, and a pipe wall thicker than the diameter is accepted with negative area."
  },
  {
   "property": "C46",
   "status": "partial",
   "theorems": [
    "C46_gradient",
    "C46_equilibrium",
    "C46_objective",
    "C46_tangent",
    "C46_element",
    "C46_material_translation",
    "C46_geometric_partial",
    "C46_geometric_refuted"
   ],
   "note": "Energy gradient, objectivity, exact tangent proved for all strain measures when both parts share a matrix, also for the complete element evaluation. Refuted for a separate geometric matrix: its off-diagonal blocks are taken from the material part."
  },
  {
   "property": "C47",
   "status": "partial",
   "theorems": [
    "C47_lumped",
    "C47_gravity",
    "C47_consistent_partial",
    "C47_coupling_refuted"
   ],
   "note": "Lumped mass and gravity proved. Refuted for the consistent mass, which couples the directions."
  },
  {
   "property": "C48",
   "status": "partial",
   "theorems": [
    "C48_strain",
    "C48_strain_second",
    "C48_normal",
    "C48_curvature",
    "C48_force",
    "C48_material",
    "C48_second_binormal",
    "C48_tangent_partial",
    "C48_second_curvature_refuted"
   ],
   "note": "Strain, unit normal and curvature gradients exact for every curved configuration and number of nodes; forces are the energy gradient; material part PSD. Refuted for the second derivative of the curvature; the tangent is exact where binormal and normal lie along coordinate axes (_partial). The straight-cable fallback is an oracle."
  },
  {
   "property": "C49",
   "status": "partial",
   "theorems": [
    "C49_couple_partial",
    "C49_moment_refuted",
    "C49_stiffness_partial",
    "C49_symmetrised",
    "C49_stiffness_refuted"
   ],
   "note": "Zero resultant and moment in the plane; symmetrised stiffness is the symmetric part. Refuted: at each end two of the four columns of the load stiffness have the wrong sign, and out of plane only part of the moment is applied."
  },
  {
   "property": "C50",
   "status": "proved",
   "theorems": [
    "C50_version1",
    "C50_version2",
    "C50_version3",
    "C50_gaussian",
    "C50_symmetric",
    "C50_nonneg",
    "C50_definite"
   ],
   "note": "All three versions proved equal to their quadratic forms; version 1 against the through-thickness integral of the plane-stress layer energy."
  },
  {
   "property": "C51",
   "status": "proved",
   "theorems": [
    "C51_resultants",
    "C51_stiffness",
    "C51_strains"
   ],
   "note": "Strains, resultants and stiffness times rigid motion vanish for any number of nodes; hypothesis: area element above the tolerance of Vec3::normalize (1e-16)."
  },
  {
   "property": "C52",
   "status": "partial",
   "theorems": [
    "C52_forces_partial",
    "C52_recovered_partial",
    "C52_rotation_partial",
    "C52_rotation_moments_refuted",
    "C52_linear_surfaces_partial",
    "C52_nonlinear_surfaces_partial",
    "C52_labels_refuted"
   ],
   "note": "Refuted in two ways: the nonlinear recovery evaluates the reference curvature with the deformed normal, so a rotation recovers moments; and its moment sign exchanges the Top and Bottom stresses. Proved: internal forces, membrane forces, rotation invariance of the internal forces, linear surface stresses."
  },
  {
   "property": "C53",
   "status": "proved",
   "theorems": [
    "C53_force",
    "C53_tangent",
    "C53_symmetric",
    "C53_normal"
   ],
   "note": "Internal forces are the gradient of the shell potential and the tangent is the exact derivative of the internal forces, for any number of nodes."
  },
  {
   "property": "C54",
   "status": "partial",
   "theorems": [
    "C54_two_line_loads_refuted",
    "C54_interior_partial",
    "C54_interior_EW_partial",
    "C54_boundary_partial",
    "C54_off_grid_partial",
    "C54_once_refuted"
   ],
   "note": "Interior lines get the full load; refuted on the patch boundary (one half) and lines off the grid get nothing. Of several line loads in the input only the last is kept."
  },
  {
   "property": "C55",
   "status": "proved",
   "theorems": [
    "C55_hole_equilibrium",
    "C55_hole_boundary",
    "C55_hole_plane_strain",
    "C55_hole_far_field",
    "C55_cantilever_equilibrium",
    "C55_cantilever_boundary",
    "C55_cantilever_resultants",
    "C55_moment_cantilever",
    "C55_curved_beam_equilibrium",
    "C55_curved_beam_boundary",
    "C55_curved_beam_ends",
    "C55_pipe_equilibrium",
    "C55_pipe_boundary",
    "C55_pipe_polar_option"
   ],
   "note": "Equilibrium in Cartesian coordinates at every point, free boundaries, section resultants and far field. The L-shape is in C115, displacements in C116."
  },
  {
   "property": "C56",
   "status": "partial",
   "theorems": [
    "C56_summation_partial",
    "C56_summation_refuted",
    "C56_summation_stops",
    "C56_derivatives",
    "C56_equilibrium",
    "C56_uniform_load",
    "C56_partial_load",
    "C56_point_load",
    "C56_centred_load",
    "C56_deflection",
    "C56_circular_equilibrium_refuted",
    "C56_circular_deflection_refuted",
    "C56_circular_partial"
   ],
   "note": "Series: each pair of harmonics once, derivatives exact, load coefficients are Fourier's, moments are those of the deflection. Refuted: the relative-change test stops the sum early (e.g. centred patch of two thirds of the sides uses one term). Circular plate refuted: log10 instead of ln and a sign make the moments balance no load and disagree with the deflection."
  },
  {
   "property": "C57",
   "status": "partial",
   "theorems": [
    "C57_order_refuted",
    "C57_dimension_refuted",
    "C57_last_request_partial",
    "C57_permutation_partial",
    "C57_overrides_file_partial",
    "C57_file_partial",
    "C57_last_in_file_partial",
    "C57_order_in_file_partial"
   ],
   "note": "Refuted in general: -UL after -MX or -Fbar downgrades the formulation, and <planestrain/> is lost when -2D follows the file name. Proved: the last request counts (command line, and input file where updatedlagrange refines), invariance under permutation without conflicts; file settings are overridden exactly as stated."
  },
  {
   "property": "C58",
   "status": "partial",
   "theorems": [
    "C58_axis_refuted",
    "C58_cylinder_partial",
    "C58_sphere_partial",
    "C58_axes_partial"
   ],
   "note": "Refuted on the axis of a cylindrical system (0/0). Proved off the axis: the cylindrical, spherical and Cartesian systems are orthonormal and right-handed."
  },
  {
   "property": "C59",
   "status": "partial",
   "theorems": [
    "C59_pixel",
    "C59_first_listed_refuted",
    "C59_default_refuted",
    "C59_least_partial",
    "C59_total_partial",
    "C59_disjoint_partial",
    "C59_intensity_partial"
   ],
   "note": "Refuted: overlapping intervals are resolved in map order, not in the listed order, and a point outside all intervals without default material fails. Proved: pixel index in range for all coordinates, intensity is the first channel scaled to 0..1, least matching interval is used, and listing order irrelevant for disjoint intervals."
  },
  {
   "property": "C60",
   "status": "partial",
   "theorems": [
    "C60_index_refuted",
    "C60_first_refuted",
    "C60_sum_partial",
    "C60_sections_total",
    "C60_section_single",
    "C60_total_partial",
    "C60_total_shared_refuted"
   ],
   "note": "Refuted: the section index is off by one and the last one is out of range; the total reaction counts a node on two sections twice. Proved: weighted sum over the nodes of the section, and the total for sections without common nodes."
  },
  {
   "property": "C61",
   "status": "partial",
   "theorems": [
    "C61_order_refuted",
    "C61_unique_partial",
    "C61_straight_partial"
   ],
   "note": "Refuted on ties (node order decides). Proved when the closest node is unique and for straight boundaries."
  },
  {
   "property": "C62",
   "status": "partial",
   "theorems": [
    "C62_empty_refuted",
    "C62_nonempty_partial",
    "C62_beam_partial",
    "C62_shell_partial"
   ],
   "note": "Refuted for an empty table (index wraps around). Proved for all non-empty tables, for the shell and the beam drivers."
  },
  {
   "property": "C63",
   "status": "partial",
   "theorems": [
    "C63_constraints_partial",
    "C63_rigid_motion_partial",
    "C63_rigid_motion_refuted"
   ],
   "note": "The equations of rigid couplings are generated in IFEM, outside the repository, and are not modelled. For the general couplings read from file: constraints proved to be exactly those listed; they reproduce small rigid motions iff the weights sum to one and interpolate the position, which is not checked (refuted)."
  },
  {
   "property": "C64",
   "status": "partial",
   "theorems": [
    "C64_dumps_partial",
    "C64_off",
    "C64_zero_refuted",
    "C64_negative_refuted"
   ],
   "note": "Proved for positive save increments, with arbitrary write failures; refuted for a zero increment (division by zero) and a negative one (decreasing numbers), which the code does not reject."
  },
  {
   "property": "C65",
   "status": "proved",
   "theorems": [
    "C65_knots",
    "C65_rejected",
    "C65_count"
   ],
   "note": "Exact rational arithmetic; double precision is exact for up to 26 levels (beyond that the knot vector would have more than 67 million knots)."
  },
  {
   "property": "C66",
   "status": "proved",
   "theorems": [
    "C66_active_system",
    "C66_step",
    "C66_work"
   ],
   "note": "Assumes that IFEM's Newmark solver assembles and solves once per iteration and expands once per converged step."
  },
  {
   "property": "C67",
   "status": "partial",
   "theorems": [
    "C67_axes_partial",
    "C67_axes_refuted"
   ],
   "note": "Exact characterisation of when the cast is defined. Refuted: a static-mode object created after a dynamic one is read as a dynamic object (undefined behaviour)."
  },
  {
   "property": "C68",
   "status": "partial",
   "theorems": [
    "C68_energy_conjugate_partial",
    "C68_consistent_tangent_partial",
    "C68_law4_refuted"
   ],
   "note": "Volumetric laws 1-3 in both versions; law 4 refuted."
  },
  {
   "property": "C69",
   "status": "partial",
   "theorems": [
    "C69_safe_3d_partial",
    "C69_plane_refuted"
   ],
   "note": "Three-dimensional evaluation safe; plane evaluation writes outside the matrix."
  },
  {
   "property": "C70",
   "status": "proved",
   "theorems": [
    "C70_derivatives",
    "C70_lode_derivatives"
   ],
   "note": ""
  },
  {
   "property": "C71",
   "status": "partial",
   "theorems": [
    "C71_newton_partial",
    "C71_back_stress_sign_refuted",
    "C71_back_stress_matrix_refuted"
   ],
   "note": "Stress and yield rows exact for all laws; with kinematic hardening the back-stress rows have the opposite sign."
  },
  {
   "property": "C72",
   "status": "proved",
   "theorems": [
    "C72_rotation",
    "C72_tangent_energy",
    "C72_tangent_symmetric"
   ],
   "note": ""
  },
  {
   "property": "C73",
   "status": "partial",
   "theorems": [
    "C73_single_step_partial",
    "C73_path_refuted"
   ],
   "note": "Refuted: intermediate stresses are scaled with the final volume ratio."
  },
  {
   "property": "C74",
   "status": "partial",
   "theorems": [
    "C74_in_plane_partial",
    "C74_hoop_strain_refuted",
    "C74_small_element_refuted"
   ],
   "note": "In-plane part exact; the hoop strain lacks the quadratic term, and elements whose radius tolerance is hit read outside the matrix (witnesses)."
  },
  {
   "property": "C75",
   "status": "partial",
   "theorems": [
    "C75_volume_equation",
    "C75_volume_equation_axisymmetric",
    "C75_coupling_blocks",
    "C75_volume_pressure_block",
    "C75_unstrained_refuted"
   ],
   "note": "All coupling blocks are exact linearisations; in a state with zero Green strain both constraint residuals are skipped although they need not vanish (witness)."
  },
  {
   "property": "C76",
   "status": "proved",
   "theorems": [
    "C76_projection",
    "C76_symmetric"
   ],
   "note": ""
  },
  {
   "property": "C77",
   "status": "proved",
   "theorems": [
    "C77_kernels"
   ],
   "note": ""
  },
  {
   "property": "C78",
   "status": "proved",
   "theorems": [
    "C78_work",
    "C78_repeat",
    "C78_conservative"
   ],
   "note": ""
  },
  {
   "property": "C79",
   "status": "partial",
   "theorems": [
    "C79_bending_energy_partial",
    "C79_equal_moments_partial",
    "C79_bending_axis_refuted",
    "C79_rotary_inertia"
   ],
   "note": "Refuted: stiffness for bending about z uses the moment about y (and vice versa) while the rotary inertia uses the right one; holds for equal moments."
  },
  {
   "property": "C80",
   "status": "partial",
   "theorems": [
    "C80_scaling_partial",
    "C80_invariance_refuted"
   ],
   "note": "Refuted: recovered forces scale with the square of the parameter scale."
  },
  {
   "property": "C81",
   "status": "proved",
   "theorems": [
    "C81_vector",
    "C81_matrix"
   ],
   "note": "Both reductions proved for any number of nodes."
  },
  {
   "property": "C82",
   "status": "proved",
   "theorems": [
    "C82_moments",
    "C82_shear",
    "C82_derivatives"
   ],
   "note": "Moments are through-thickness integrals; shear forces are the divergence of the moments; the plain second derivatives of the other versions recover the moments."
  },
  {
   "property": "C83",
   "status": "proved",
   "theorems": [
    "C83_load",
    "C83_pressure",
    "C83_kinetic",
    "C83_resultant"
   ],
   "note": "Nodal loads, total load and mass matrix proved for 1 and 3 unknowns per node."
  },
  {
   "property": "C84",
   "status": "partial",
   "theorems": [
    "C84_version1_partial",
    "C84_others_partial",
    "C84_same_refuted"
   ],
   "note": "Refuted: version 1 uses E t^3/12, the other versions E t^3/12/(1-nu^2)."
  },
  {
   "property": "C85",
   "status": "proved",
   "theorems": [
    "C85_energy",
    "C85_tangent"
   ],
   "note": "Energy identity with the contravariant reference metric; hypothesis: the base vectors exceed the normalisation tolerance."
  },
  {
   "property": "C86",
   "status": "partial",
   "theorems": [
    "C86_opposite_partial",
    "C86_same_refuted"
   ],
   "note": "Refuted: for every deflection the flat shell reports the opposite of the plate moments."
  },
  {
   "property": "C87",
   "status": "partial",
   "theorems": [
    "C87_temperature",
    "C87_compatible_partial",
    "C87_compatible_refuted",
    "C87_displacement_partial",
    "C87_no_displacement",
    "C87_displacement_refuted"
   ],
   "note": "Refuted for nu > 0: the factor 1/(1-nu^2) instead of 1/(1-nu) matches an in-plane thermal strain alpha T without the plane-strain factor 1+nu (the same omission as in the material, see C06)."
  },
  {
   "property": "C88",
   "status": "partial",
   "theorems": [
    "C88_function_refuted",
    "C88_history_refuted",
    "C88_constant_partial"
   ],
   "note": "Refuted: functions are stored under the property code and looked up with the material index; a zero thickness keeps the value of the patch visited before. Proved for constant non-zero thicknesses."
  },
  {
   "property": "C89",
   "status": "partial",
   "theorems": [
    "C89_exact_partial",
    "C89_dynamic_refuted",
    "C89_unsaved_refuted"
   ],
   "note": "Exact characterisation of the undefined accesses; refuted for linear dynamics and multi-load-case analysis with projection, and for nonlinear statics with visualisation but without projection at the first unsaved step."
  },
  {
   "property": "C90",
   "status": "partial",
   "theorems": [
    "C90_nonlinear_partial",
    "C90_driver_range",
    "C90_shell_refuted",
    "C90_linear_partial",
    "C90_export_refuted"
   ],
   "note": "Nonlinear program: proved for all driver statuses (which are shown to be below 256). Shell program refuted (always zero). Linear program, static analysis: exact set of failures seen; a failing HDF5 export is not."
  },
  {
   "property": "C91",
   "status": "partial",
   "theorems": [
    "C91_extension_partial",
    "C91_leading_dots_partial",
    "C91_root_refuted",
    "C91_directory_refuted",
    "C91_no_extension_refuted"
   ],
   "note": "Proved for names whose only dot is that of the extension (nonlinear program: also leading dots). Refuted for ./model.xinp, dots in directory names and names without extension."
  },
  {
   "property": "C92",
   "status": "partial",
   "theorems": [
    "C92_release_partial",
    "C92_exporter_refuted"
   ],
   "note": "Everything but the HDF5 exporter is released exactly once; the exporter never is, because the clean-up closure captures the pointer before it is set."
  },
  {
   "property": "C93",
   "status": "partial",
   "theorems": [
    "C93_value_partial",
    "C93_keeps_partial",
    "C93_plate_refuted"
   ],
   "note": "Closed form of the result for all sizes; values are kept from the node where (new components)*index reaches the old number of components. Refuted for plates: second node."
  },
  {
   "property": "C94",
   "status": "partial",
   "theorems": [
    "C94_adaptive_partial",
    "C94_arclength_refuted"
   ],
   "note": "Refuted for the arc-length solver of the continuum program (flag passed to an ignored parameter); holds for the others."
  },
  {
   "property": "C95",
   "status": "partial",
   "theorems": [
    "C95_fresh_partial",
    "C95_overwrite_refuted",
    "C95_exception_refuted"
   ],
   "note": "Proved for the nonlinear program when the input file name has an extension. Refuted for the other programs (no check) and for names without extension (exception)."
  },
  {
   "property": "C96",
   "status": "partial",
   "theorems": [
    "C96_bar_loads_partial",
    "C96_shell_loads_partial",
    "C96_beam_loads_partial",
    "C96_no_load_vector_refuted",
    "C96_vibration_refuted",
    "C96_element_moment_refuted",
    "C96_no_direction_refuted",
    "C96_damped_nodal_loads_partial"
   ],
   "note": "Proved for each simulator when the equation system has a load vector. Without one (eigenvalue, vibration or buckling analyses) a plate or shell with a point load, and a rotation-free beam with or without, stop with an error, whereas bars ignore the loads. A moment given on an element of a beam writes outside a three component vector. With HHT damping, nodal loads are scaled by 1+alpha in the residual."
  },
  {
   "property": "C97",
   "status": "proved",
   "theorems": [
    "C97_load_gradient"
   ],
   "note": ""
  },
  {
   "property": "C98",
   "status": "partial",
   "theorems": [
    "C98_shell_work_partial",
    "C98_beam_work_partial",
    "C98_bar_work_refuted"
   ],
   "note": "Proved for plates, shells and rotation-free beams. The bar, beam and cable simulator does not add the work of its point loads."
  },
  {
   "property": "C99",
   "status": "partial",
   "theorems": [
    "C99_shell_points_partial",
    "C99_bar_points_partial",
    "C99_beam_points_partial",
    "C99_missing_patch_refuted"
   ],
   "note": "Proved for existing patches. For a patch that does not exist, an element load on bars and rotation-free beams passes the set-up because the negative answer of the library is taken for an element number; the failure shows first at assembly."
  },
  {
   "property": "C100",
   "status": "partial",
   "theorems": [
    "C100_shell_partial",
    "C100_solid_partial",
    "C100_solid_refuted",
    "C100_second_pass_refuted"
   ],
   "note": "Proved for plates and shells, and for solids if no boundary with a vector function was visited before one with a traction or pressure function. Otherwise the latter gets the traction of the former: the solid integrand evaluates the vector function first and never clears it (the plate and shell integrand does)."
  },
  {
   "property": "C101",
   "status": "partial",
   "theorems": [
    "C101_solid_partial",
    "C101_single_code_partial",
    "C101_solid_refuted",
    "C101_plate_partial",
    "C101_plate_refuted"
   ],
   "note": "All traction conditions are imposed, but of the displacement conditions only those with the code of the first one (plates: first of each range); others are dropped without notice."
  },
  {
   "property": "C102",
   "status": "proved",
   "theorems": [
    "C102_patch_pressures",
    "C102_multiplicity"
   ],
   "note": ""
  },
  {
   "property": "C103",
   "status": "proved",
   "theorems": [
    "C103_multipliers",
    "C103_patchwise"
   ],
   "note": "Library calls that store the multipliers in the patch are assumed to succeed."
  },
  {
   "property": "C104",
   "status": "partial",
   "theorems": [
    "C104_conditions_partial",
    "C104_slaves_first_partial",
    "C104_order_refuted",
    "C104_combined_direction_refuted",
    "C104_radius_partial",
    "C104_radius_refuted",
    "C104_active_partial",
    "C104_penalty",
    "C104_default_penalty"
   ],
   "note": "Refuted: conditions given before the slave boundary are dropped, a prescribed motion in combined directions is ignored, and the radius is inherited from the previous body. Proved: what is in effect for every sequence, the full claim when the slaves come first, and that the penalty is the last one given, one if none is given."
  },
  {
   "property": "C105",
   "status": "proved",
   "theorems": [
    "C105_return_mapping",
    "C105_elastic",
    "C105_elastic_derivative",
    "C105_stress",
    "C105_spatial",
    "C105_equal_stretches"
   ],
   "note": "Assumes the linear solver returns a solution; the code uses the matrix of the last Newton iteration, i.e. a state within the tolerance of the converged one. For stretches closer than 1e-8 but not equal the limit formula is used."
  },
  {
   "property": "C106",
   "status": "partial",
   "theorems": [
    "C106_lode_partial",
    "C106_unloaded_partial",
    "C106_mean_partial",
    "C106_triax_partial",
    "C106_mean_refuted"
   ],
   "note": "Refuted for two-dimensional stresses without the zz component: the in-plane trace is divided by 2."
  },
  {
   "property": "C107",
   "status": "partial",
   "theorems": [
    "C107_strains",
    "C107_negative_radius",
    "C107_hoop_stretch_partial",
    "C107_axis_refuted"
   ],
   "note": "On the axis the deformation gradient has hoop stretch 1 for every displacement, while the linear matrix uses the limit; proved for every radius above the tolerance."
  },
  {
   "property": "C108",
   "status": "partial",
   "theorems": [
    "C108_names_partial",
    "C108_no_dot_partial",
    "C108_distinct_partial",
    "C108_distinct_no_dot_partial",
    "C108_same_file_refuted",
    "C108_directory_refuted"
   ],
   "note": "A superelement file named *.rec is the recovery file itself; names without extension below a directory with a dot share one recovery file."
  },
  {
   "property": "C109",
   "status": "partial",
   "theorems": [
    "C109_one_model_partial",
    "C109_columns",
    "C109_other_model_refuted",
    "C109_materials_refuted",
    "C109_missing_patch_refuted",
    "C109_identifiers",
    "C109_model_of_identifier"
   ],
   "note": "Results of all superelements are evaluated with the integrand of the first FE model, so models with other materials get wrong stresses; a null patch is dereferenced. Proved for one FE model shared by all superelements."
  },
  {
   "property": "C110",
   "status": "partial",
   "theorems": [
    "C110_selection",
    "C110_retained_nodes",
    "C110_invalid_set",
    "C110_several_tags_refuted",
    "C110_unknown_name_refuted"
   ],
   "note": "Only the last condensation tag of a block is read and an unknown identifier gives an empty model without message."
  },
  {
   "property": "C111",
   "status": "partial",
   "theorems": [
    "C111_section_partial",
    "C111_explicit_partial",
    "C111_area_refuted",
    "C111_cable_type_refuted",
    "C111_bar_cable_refuted",
    "C111_shear_partial",
    "C111_shear_refuted"
   ],
   "note": "Holds without EA attribute; with EA the area is not read, so the mass is that of a unit area. A cable tag with another type (or after a bar) casts a bar to a cable; a bar of type cable has no bending stiffness. Poisson's ratios outside [0,0.5) give the shear modulus of steel."
  },
  {
   "property": "C112",
   "status": "partial",
   "theorems": [
    "C112_line_partial",
    "C112_units",
    "C112_units_refuted",
    "C112_short_line_refuted",
    "C112_empty_cell_refuted",
    "C112_table",
    "C112_bad_line_refuted",
    "C112_function"
   ],
   "note": "Holds for lines without empty fields and the units of metres, centi- and millimetres to the fourth power. Lines with less than three non-empty fields end in an exception; empty cells shift the values; other units are taken for one."
  },
  {
   "property": "C113",
   "status": "proved",
   "theorems": [
    "C113_mixed_forces"
   ],
   "note": "The mode inverse is part of the input (IFEM). Materials are functions of the deformation gradient with symmetric stress."
  },
  {
   "property": "C114",
   "status": "partial",
   "theorems": [
    "C114_mixed_tangent_partial",
    "C114_mixed_tangent_solid_partial",
    "C114_mixed_tangent_refuted"
   ],
   "note": "Holds for solids and plane strain. In axisymmetric solids the geometric stiffness leaves out hoop compression; the partial theorem gives the exact difference, and a compressed ring refutes the full statement."
  },
  {
   "property": "C115",
   "status": "proved",
   "theorems": [
    "C115_lshape_equilibrium",
    "C115_lshape_edges",
    "C115_lshape_stress",
    "C115_wedge_edges"
   ],
   "note": "Nine-digit exponent and constant: tractions on the edges of the corner below 1e-9 of the stresses, proved with enclosures of pi, sine and cosine."
  },
  {
   "property": "C116",
   "status": "proved",
   "theorems": [
    "C116_hole_displacement",
    "C116_lshape_displacement",
    "C116_cantilever_displacement",
    "C116_moment_cantilever_displacement",
    "C116_curved_beam_displacement"
   ],
   "note": "Explicit displacements for hole, L-shape, both cantilevers and the curved beam (with the prescribed edge displacement). The heated pipe is C87."
  },
  {
   "property": "C117",
   "status": "partial",
   "theorems": [
    "C117_ul_forces_partial",
    "C117_ul_forces_solid_partial",
    "C117_axisymmetric_refuted"
   ],
   "note": "Proved for solids and plane strain. In axisymmetric solids the strains tested for zero leave the hoop strain out, so that a ring expanded without in-plane strain gets no forces (refuted)."
  },
  {
   "property": "C118",
   "status": "partial",
   "theorems": [
    "C118_ul_stiffness_partial",
    "C118_ul_stiffness_exact_partial",
    "C118_rotated_refuted",
    "C118_axisymmetric_refuted"
   ],
   "note": "Proved when every point is strained or undeformed, up to hoop compression in axisymmetric solids, which the stiffness leaves out (refuted). An element rotated as a rigid body gets the stiffness of the initial configuration, which is not the derivative of the forces (refuted)."
  },
  {
   "property": "C119",
   "status": "proved",
   "theorems": [
    "C119_tl_forces",
    "C119_tl_stiffness"
   ],
   "note": "Axisymmetric solids are not part of the statement. The test for zero strains is taken as exact; the library uses a small tolerance."
  },
  {
   "property": "C120",
   "status": "partial",
   "theorems": [
    "C120_fbar_forces_partial",
    "C120_fbar_stiffness_partial",
    "C120_fbar_stiffness_plane_partial",
    "C120_space_refuted",
    "C120_unstrained_refuted"
   ],
   "note": "Proved for plane strain and axisymmetric solids when points are strained or undeformed. In space one entry of the tangent takes the shear stress 13 for 12 (refuted; the partial theorem gives the exact difference). Points without strain of their own get no forces though the modified volume has changed (refuted)."
  },
  {
   "property": "C121",
   "status": "partial",
   "theorems": [
    "C121_meaning",
    "C121_forces",
    "C121_external",
    "C121_equilibrium",
    "C121_weight",
    "C121_stiffness",
    "C121_geometric",
    "C121_consistent_partial",
    "C121_consistent_refuted",
    "C121_momentum_partial",
    "C121_momentum_refuted",
    "C121_accepted_partial",
    "C121_accepted_refuted"
   ],
   "note": "Forces, weight, stiffness and geometric parts are proved for every mode; refuted: the matrix is not the derivative of the forces in statics not marked linear, displaced eccentric elements are refused when only forces are wanted, and lumped version 2 leaves coupling terms in beam axes. Displacements below 1e-16 of the length count as zero."
  },
  {
   "property": "C122",
   "status": "partial",
   "theorems": [
    "C122_stress_partial",
    "C122_energy_partial",
    "C122_tangent_partial",
    "C122_forces_partial",
    "C122_stiffness_partial",
    "C122_strain_partial",
    "C122_axisymmetric_stress_partial",
    "C122_axisymmetric_stress_refuted",
    "C122_axisymmetric_tangent_refuted",
    "C122_fbar_refuted",
    "C122_mixed_refuted"
   ],
   "note": "refuted for axisymmetric solids (stored strains lack the hoop strain, T treats the hoop row as a shear row), for the F-bar element (strains of the unmodified deformation) and for the mixed element (no strains passed); proved for solids, plane strain and plane stress in the updated Lagrangian element"
  },
  {
   "property": "C123",
   "status": "partial",
   "theorems": [
    "C123_static_partial",
    "C123_saved_partial",
    "C123_dynamic_partial",
    "C123_history_refuted",
    "C123_final_step_refuted",
    "C123_acceleration_refuted",
    "C123_save_times_refuted"
   ],
   "note": "Times and solutions are proved to be the same for models without material history, in dynamics if initial accelerations are not requested. Refuted: plastic history is not stored, so a restarted run starts with virgin material; with initial accelerations requested the restored accelerations are replaced; the final step may not be saved after a restart; in dynamics the save times are counted from the restart."
  },
  {
   "property": "C124",
   "status": "partial",
   "theorems": [
    "C124_dynamic",
    "C124_static_partial",
    "C124_static_refuted"
   ],
   "note": "Proved for dynamics, and for load incrementation when every step is saved. Refuted otherwise: the load incrementation driver writes restart states only at steps where results are saved."
  },
  {
   "property": "C125",
   "status": "partial",
   "theorems": [
    "C125_loads_partial",
    "C125_accepted",
    "C125_sections_refuted",
    "C125_codes_refuted",
    "C125_face_refuted",
    "C125_short_line_refuted"
   ],
   "note": "Refuted in full: a second PRESSURE section, or a pressure for code 1, replaces the pressure of the first section; face numbers are taken modulo 256; a short line dereferences a null pointer."
  },
  {
   "property": "C126",
   "status": "partial",
   "theorems": [
    "C126_regions_partial",
    "C126_one_material",
    "C126_all_refuted",
    "C126_short_line_refuted"
   ],
   "note": "Refuted in full: a material for all patches is ignored when other lines give materials for some patches; a short line is undefined behaviour."
  },
  {
   "property": "C127",
   "status": "partial",
   "theorems": [
    "C127_voce_partial",
    "C127_power_partial",
    "C127_double_partial",
    "C127_curve_partial",
    "C127_elastic_partial",
    "C127_text_refuted",
    "C127_mixed_refuted"
   ],
   "note": "Refuted in full: the text of the tag is never read, and Young's modulus given with a shear modulus is taken as the bulk modulus. Proved for all named hardening parameters and the pairs (E, nu) and (Bmod, Smod > 1/2)."
  },
  {
   "property": "C128",
   "status": "partial",
   "theorems": [
    "C128_linear_partial",
    "C128_linear_sequential_partial",
    "C128_linear_race_refuted",
    "C128_hyperelastic_sequential_partial",
    "C128_hyperelastic_partial",
    "C128_hyperelastic_race_refuted",
    "C128_hyperelastic_order_refuted",
    "C128_hyperelastic_poisson_refuted",
    "C128_plastic"
   ],
   "note": "Holds without property functions (any threads) and with them for evaluations not overlapping in time; refuted for overlapping evaluations, because the functions' values are stored in the shared material object before use. A hyperelastic material takes the constants of the previously evaluated point where its stiffness function is not positive, and ignores a function for Poisson's ratio. Integration points of plastic materials are independent of order and threads."
  },
  {
   "property": "C129",
   "status": "partial",
   "theorems": [
    "C129_fixed_points_partial",
    "C129_integration_partial",
    "C129_saving_interval_refuted",
    "C129_other_points_refuted"
   ],
   "note": "Holds if the same points are visited in the same order after every increment. Refuted when results are saved at a longer interval (increments in between are skipped) and when other result points are evaluated in between (points are identified by their number in the sweep)."
  },
  {
   "property": "C130",
   "status": "partial",
   "theorems": [
    "C130_space_partial",
    "C130_plane_partial",
    "C130_nodal",
    "C130_strain_refuted",
    "C130_axisymmetric_refuted"
   ],
   "note": "With strains requested as results (wantStrain), the forces are computed from strains; in axisymmetric bodies the factor 2 pi r, used for all other boundary integrals, is missing."
  },
  {
   "property": "C131",
   "status": "partial",
   "theorems": [
    "C131_total_partial",
    "C131_total_body",
    "C131_total_axisymmetric_refuted",
    "C131_resultant_partial",
    "C131_energy_partial",
    "C131_energy_density_refuted",
    "C131_small_refuted"
   ],
   "note": "In axisymmetric bodies the total of tractions lacks the factor 2 pi r of the nodal loads; gravity with a density function that is zero at the origin is left out of the external energy; body loads below the absolute tolerance of Vec3::isZero are dropped from the load vector but not from the energy."
  },
  {
   "property": "C132",
   "status": "partial",
   "theorems": [
    "C132_local_partial",
    "C132_cylinder_partial",
    "C132_global",
    "C132_ignored_refuted",
    "C132_exact_refuted",
    "C132_exact_partial",
    "C132_exact_columns"
   ],
   "note": "The transformation is skipped unless principal stresses are wanted too (switched off by an option, and for Lagrange and spectral elements); exact stresses are always in global axes."
  },
  {
   "property": "C133",
   "status": "partial",
   "theorems": [
    "C133_functions_partial",
    "C133_constants",
    "C133_second_function_refuted",
    "C133_meaning_refuted"
   ],
   "note": "The lambdas reading the functions hold a copy of the pointer to the first child, so every further function of a material is read from the first child element."
  },
  {
   "property": "C134",
   "status": "partial",
   "theorems": [
    "C134_forces_partial",
    "C134_second_variation_partial",
    "C134_tangent_partial",
    "C134_tangent_solid_partial",
    "C134_forces_refuted",
    "C134_tangent_refuted"
   ],
   "note": "Holds for strained points and the stress-free state; for solids and plane strain without restriction on the tangent. Refuted for axisymmetric elements: where the in-plane Green strains vanish (a ring widened without change of section) the forces of all three fields are skipped, and the matrix omits compressive hoop stresses in the geometric stiffness. Real arithmetic; the material is a function of the deformation gradient."
  },
  {
   "property": "C135",
   "status": "partial",
   "theorems": [
    "C135_material_partial",
    "C135_plane_strain_partial",
    "C135_material_refuted",
    "C135_tractions",
    "C135_first_solution",
    "C135_text_partial",
    "C135_text_refuted",
    "C135_plate_partial",
    "C135_plate_refuted",
    "C135_arguments",
    "C135_plate_thickness",
    "C135_plate_arguments",
    "C135_plate_text"
   ],
   "note": "Proved for inputs with the material before the solution (the last one for bodies, the first for plates); tractions and the precedence of the first solution hold for all inputs. False otherwise: before the material, a body solution takes the default steel, a plate solution reads a null pointer; a text line with a missing number reads a null pointer."
  },
  {
   "property": "C136",
   "status": "partial",
   "theorems": [
    "C136_materials_partial",
    "C136_codes_partial",
    "C136_single_partial",
    "C136_text_partial",
    "C136_text_refuted",
    "C136_small_partial",
    "C136_plastic_rejected",
    "C136_projection",
    "C136_elasticity_refuted",
    "C136_none_refuted",
    "C136_version_refuted"
   ],
   "note": "Refuted in part: a material given within <elasticity>, and the built-in material if none is given, is not fitted to updated Lagrangian elements (its second Piola-Kirchhoff stress is used as Cauchy stress); the version of a hyperelastic law is ignored in total Lagrangian models; of several materials without code a text section uses the last and a tag the first. Mixed and F-bar elements are not covered here (C122)."
  },
  {
   "property": "C137",
   "status": "partial",
   "theorems": [
    "C137_options",
    "C137_unreadable",
    "C137_text_options",
    "C137_position",
    "C137_lists",
    "C137_unknown_refuted",
    "C137_value_refuted",
    "C137_twice_refuted"
   ],
   "note": "Refuted as stated: an unknown option in front of the input file is taken for the file, which then is not read (this includes -RHSOnly as the usage message spells it; the program knows -RHSonly); a file directly after -dumpMatlab or -staticCond is taken for their value, and the program ends with its usage message and status zero; set names and ignored patches in front of an xml file are listed twice. Proved for all lines of well-formed options otherwise: effect, precedence, and independence of the place of the file."
  },
  {
   "property": "C138",
   "status": "partial",
   "theorems": [
    "C138_analysis_partial",
    "C138_check_partial",
    "C138_check_refuted",
    "C138_condensation_refuted"
   ],
   "note": "Refuted as stated: -check and -staticCond are not honoured together with an eigenvalue analysis (the vibration analysis is done, or nothing, with status zero), and -check not with dynamics, load cases, coupled models or adaptivity. C138_check_partial says exactly when a data check solves nothing; C138_analysis_partial covers all other combinations without conflicts. The solvers themselves are not part of this claim."
  },
  {
   "property": "C139",
   "status": "partial",
   "theorems": [
    "C139_first_group",
    "C139_projection_group",
    "C139_plate_groups",
    "C139_analytical",
    "C139_volume",
    "C139_version_refuted",
    "C139_report",
    "C139_projection_report",
    "C139_plate_report",
    "C139_plate_projection_report",
    "C139_shell_report",
    "C139_updated",
    "C139_energies_partial",
    "C139_total_refuted",
    "C139_total_analytical_refuted"
   ],
   "note": "Proved for the linear program from the integration points to the report (continua), and from the norm groups to the report (plates, shells; updated Lagrangian elements). Refuted for the nonlinear programs with total Lagrangian or small-deformation elements, whose norms have another order: the volume is printed as the L2 norm of the stress, and with an analytical solution three error measures under stress headings. Refuted for plates of version 0, for which simulator and norm disagree on the analytical solution. The index of section forces is computed in IFEM and taken to follow the volume."
  },
  {
   "property": "C140",
   "status": "partial",
   "theorems": [
    "C140_properties_partial",
    "C140_same_partial",
    "C140_couplings",
    "C140_couplings_refuted",
    "C140_contact_refuted",
    "C140_contact_once_partial",
    "C140_default_refuted",
    "C140_thickness_partial",
    "C140_thickness_refuted"
   ],
   "note": "Materials, sections, rigid sets and dual functions are those of the file after any number of refinements, and the whole model is the same for files with a material and neither nodal couplings nor contact. Refuted otherwise: nodal couplings are appended by every reading (after n refinements the slave moves n+1 times as much as it should), a contact analysis is refused at the first refinement (reported as duplicated contact tags), without material tag the default material is replaced by none, and a shell thickness function whose code is not its material index is used after it has been deleted."
  },
  {
   "property": "C141",
   "status": "partial",
   "theorems": [
    "C141_outcome",
    "C141_succeeds",
    "C141_one_patch_partial",
    "C141_assembled_partial",
    "C141_patches_refuted",
    "C141_history_refuted",
    "C141_forces_partial",
    "C141_weights_refuted"
   ],
   "note": "Proved for one patch. With several patches the vectors assembled for the new mesh are right but never stored, so the solution is left as a set of patch vectors; the history of plastic materials is lost because new material objects are created; the node weights for several sections stay those of the old mesh."
  },
  {
   "property": "C142",
   "status": "partial",
   "theorems": [
    "C142_formed",
    "C142_conditions",
    "C142_tolerance",
    "C142_work",
    "C142_pushes",
    "C142_force",
    "C142_two_bodies_refuted",
    "C142_one_body"
   ],
   "note": "Proved for one body (equivalence of the multiplier equation with the contact conditions, tolerance, work, forces). Refuted when two bodies share a slave node (C142_two_bodies_refuted): the node has one multiplier, the equations of both bodies are added, and the sum vanishes with one body penetrated. The first iteration of a step, which keeps the flag of the first node, is excluded."
  },
  {
   "property": "C143",
   "status": "partial",
   "theorems": [
    "C143_symmetric",
    "C143_tangent_partial",
    "C143_newton_partial"
   ],
   "note": "Partial: for master surfaces whose normal does not change with the motion (planes that do not rotate); the geometric stiffness of curved surfaces is not covered here (C39-C41 treat the point contributions)."
  },
  {
   "property": "C144",
   "status": "partial",
   "theorems": [
    "C144_element",
    "C144_symmetric",
    "C144_positive",
    "C144_rigid",
    "C144_rigid_axial",
    "C144_forces",
    "C144_threshold",
    "C144_threshold_refuted",
    "C144_outside",
    "C144_outside_refuted",
    "C144_displacements",
    "C144_vectors",
    "C144_vectors_norms"
   ],
   "note": "Proved for strains that are zero or larger than the zero tolerance, for points inside the extraction domain, and except the geometric stiffness of axisymmetric solids. Refuted for smaller strains (forces are dropped) and outside the extraction domain when displacements are given (their strains are integrated into the dual load)."
  },
  {
   "property": "C145",
   "status": "partial",
   "theorems": [
    "C145_term",
    "C145_sign",
    "C145_outcome",
    "C145_energy_refuted"
   ],
   "note": "The term and its sign at each face are proved; that it never lowers the stiffness of an element is refuted at lower faces."
  },
  {
   "property": "C146",
   "status": "proved",
   "theorems": [
    "C146_system",
    "C146_balance",
    "C146_resultant",
    "C146_energy",
    "C146_axial",
    "C146_reciprocity",
    "C146_dual",
    "C146_unique",
    "C146_minimum"
   ],
   "note": "Isotropic materials with Poisson's ratio in [0,1/2); matrices in real arithmetic. The assembly (IFEM) is modelled as adding at the unknowns of the nodes."
  },
  {
   "property": "C147",
   "status": "proved",
   "theorems": [
    "C147_forces",
    "C147_interior",
    "C147_patch",
    "C147_expansion"
   ],
   "note": "The consistent forces of the constant stress are given by the integrals of the gradients of the functions, which equal the boundary integrals for exact quadrature."
  },
  {
   "property": "C148",
   "status": "partial",
   "theorems": [
    "C148_entries",
    "C148_norms",
    "C148_dual",
    "C148_balance",
    "C148_pythagoras",
    "C148_best",
    "C148_loads",
    "C148_strain",
    "C148_strain_refuted",
    "C148_gravity_refuted"
   ],
   "note": "With the suffix _refuted: strain output changes the entries of extraction fields (main_LinEl.C switches strains off only with an analytical solution), and haveLoads asks for the density at the origin only. Axisymmetric bodies with temperature are not covered (the recovered hoop stress is wrong there, C06)."
  },
  {
   "property": "C149",
   "status": "partial",
   "theorems": [
    "C149_point",
    "C149_same",
    "C149_functions",
    "C149_assigned",
    "C149_loads",
    "C149_all_loads",
    "C149_all_loads_refuted",
    "C149_direction_refuted",
    "C149_missing",
    "C149_missing_refuted",
    "C149_swallow_refuted",
    "C149_zero_refuted",
    "C149_shown",
    "C149_shown_refuted"
   ],
   "note": "C149_assigned gives the fate of each set of the geometry and the thickness, independently of the parsers; C149_functions the pressures with functions."
  },
  {
   "property": "C150",
   "status": "partial",
   "theorems": [
    "C150_system",
    "C150_accepted",
    "C150_force",
    "C150_moment_partial",
    "C150_moment_refuted",
    "C150_energy",
    "C150_energy_exists",
    "C150_reciprocal",
    "C150_step",
    "C150_unique"
   ],
   "note": "moments balance when the two ends of each member have the same eccentricity (C150_moment_refuted otherwise); displacements that are not zero must exceed the threshold 1e-16 L in each displaced member"
  },
  {
   "property": "C151",
   "status": "proved",
   "theorems": [
    "C151_accepted",
    "C151_potential",
    "C151_stationary",
    "C151_tangent",
    "C151_nearby",
    "C151_symmetric",
    "C151_rest",
    "C151_force",
    "C151_moment"
   ],
   "note": "All parts proved. The tangent needs the geometric stiffness in the system matrix (the default); with it switched off (intPrm[3] > 0) the matrix is only that of the rest position. Assembly by IFEM and elimination of supports are modelled as addition and reactions."
  },
  {
   "property": "C152",
   "status": "partial",
   "theorems": [
    "C152_forces_partial",
    "C152_stored_partial",
    "C152_sequence",
    "C152_mixed",
    "C152_dropped_refuted",
    "C152_plane_refuted"
   ],
   "note": "Proper loads are proved from the file to the load vector (without numerical damping). Refuted: loads with a direction, parameter or node out of range are dropped while the file is accepted; in the plane a load in the third direction is accepted by the reader."
  },
  {
   "property": "C153",
   "status": "partial",
   "theorems": [
    "C153_accepted",
    "C153_works",
    "C153_bending",
    "C153_symmetric",
    "C153_balance",
    "C153_clapeyron",
    "C153_reciprocal",
    "C153_minimum",
    "C153_unique",
    "C153_laplace_refuted"
   ],
   "note": "Curvatures are unique in versions 1 and 2; C153_laplace_refuted shows two solutions of an unloaded, unsupported plate with different curvatures in version 3."
  },
  {
   "property": "C154",
   "status": "proved",
   "theorems": [
    "C154_vibration",
    "C154_buckling",
    "C154_rayleigh",
    "C154_kinetic",
    "C154_orthogonal",
    "C154_superposition",
    "C154_rigid",
    "C154_mass",
    "C154_scaling",
    "C154_factor",
    "C154_tension"
   ],
   "note": ""
  },
  {
   "property": "C155",
   "status": "partial",
   "theorems": [
    "C155_status",
    "C155_system",
    "C155_printed",
    "C155_shown",
    "C155_fields",
    "C155_closed_refuted"
   ],
   "note": "Proved but for the closing of the file after failed output (C155_closed_refuted)."
  }
 ]
}