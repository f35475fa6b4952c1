{
 "claims": [
  {
   "property": "C01",
   "status": "proved",
   "theorems": [
    "C01_self_consistent"
   ],
   "note": ""
  },
  {
   "property": "C02",
   "status": "proved",
   "theorems": [
    "C02_no_force_off_surface"
   ],
   "note": ""
  },
  {
   "property": "C03",
   "status": "proved",
   "theorems": [
    "C03_counters"
   ],
   "note": ""
  },
  {
   "property": "C04",
   "status": "proved",
   "theorems": [
    "C04_converged_constraints"
   ],
   "note": ""
  },
  {
   "property": "C05",
   "status": "partial",
   "theorems": [
    "C05_no_penetration_refuted",
    "C05_force_control_refuted",
    "C05_no_penetration_partial"
   ],
   "note": "The full statement is false of the code: C05_no_penetration_refuted and C05_force_control_refuted are successful runs with penetration. The partial theorem covers runs whose last iteration has status cg."
  },
  {
   "property": "C06",
   "status": "partial",
   "theorems": [
    "C06_no_tension_refuted",
    "C06_no_tension_partial"
   ],
   "note": "Refuted by a successful run that returns a tensile force; proved for runs whose last iteration has status cg."
  },
  {
   "property": "C07",
   "status": "proved",
   "theorems": [
    "C07_force_control",
    "C07_force_exact",
    "C07_force_total"
   ],
   "note": "Exactness: total = F or the uniform force F/nb_surface_pts was applied (empty compressive area)."
  },
  {
   "property": "C08",
   "status": "proved",
   "theorems": [
    "C08_offset_kept"
   ],
   "note": ""
  },
  {
   "property": "C09",
   "status": "proved",
   "theorems": [
    "C09_exact_solution_fixed",
    "C09_exact_solution_fixed_force"
   ],
   "note": ""
  },
  {
   "property": "C10",
   "status": "proved",
   "theorems": [
    "C10_no_contact"
   ],
   "note": ""
  },
  {
   "property": "C11",
   "status": "proved",
   "theorems": [
    "C11_height_reference"
   ],
   "note": ""
  },
  {
   "property": "C12",
   "status": "proved",
   "theorems": [
    "C12_decomposition"
   ],
   "note": ""
  },
  {
   "property": "C13",
   "status": "proved",
   "theorems": [
    "C13_units"
   ],
   "note": ""
  },
  {
   "property": "C14",
   "status": "proved",
   "theorems": [
    "C14_relabel",
    "C14_symmetric"
   ],
   "note": ""
  },
  {
   "property": "C15",
   "status": "partial",
   "theorems": [
    "C15_hardness_bound_refuted",
    "C15_hardness_bound_partial"
   ],
   "note": "Refuted when the last iteration has status sd; proved for displacement control and last status cg or mix."
  },
  {
   "property": "C16",
   "status": "proved",
   "theorems": [
    "C16_elastic_never_mixes",
    "C16_mixing_blocks"
   ],
   "note": ""
  },
  {
   "property": "C17",
   "status": "proved",
   "theorems": [
    "C17_line_search"
   ],
   "note": ""
  },
  {
   "property": "C18",
   "status": "partial",
   "theorems": [
    "C18_accuracy_partial",
    "C18_accuracy_refuted"
   ],
   "note": "Proved when the last step length is non-zero (or the run needed one iteration); refuted without this restriction."
  },
  {
   "property": "C19",
   "status": "proved",
   "theorems": [
    "C19_no_iterations",
    "C19_hardness_array",
    "C19_flat_without_offset"
   ],
   "note": ""
  },
  {
   "property": "C20",
   "status": "proved",
   "theorems": [
    "C20_inverse",
    "C20_inverse_up_to_mean"
   ],
   "note": ""
  },
  {
   "property": "C21",
   "status": "proved",
   "theorems": [
    "C21_linear",
    "C21_translation"
   ],
   "note": ""
  },
  {
   "property": "C22",
   "status": "proved",
   "theorems": [
    "C22_reciprocity"
   ],
   "note": ""
  },
  {
   "property": "C23",
   "status": "proved",
   "theorems": [
    "C23_energy_nonneg"
   ],
   "note": ""
  },
  {
   "property": "C24",
   "status": "proved",
   "theorems": [
    "C24_energies_agree",
    "C24_evaluate_k_returns_force"
   ],
   "note": ""
  },
  {
   "property": "C25",
   "status": "proved",
   "theorems": [
    "C25_expansion",
    "C25_gradient"
   ],
   "note": ""
  },
  {
   "property": "C26",
   "status": "proved",
   "theorems": [
    "C26_net_force",
    "C26_net_force_default",
    "C26_net_force_thickness"
   ],
   "note": ""
  },
  {
   "property": "C27",
   "status": "proved",
   "theorems": [
    "C27_eigenmode"
   ],
   "note": ""
  },
  {
   "property": "C28",
   "status": "proved",
   "theorems": [
    "C28_exchange"
   ],
   "note": ""
  },
  {
   "property": "C29",
   "status": "proved",
   "theorems": [
    "C29_scalar_product",
    "C29_energy"
   ],
   "note": ""
  },
  {
   "property": "C30",
   "status": "proved",
   "theorems": [
    "C30_slice",
    "C30_index_error",
    "C30_1d_slice_refuted"
   ],
   "note": "The refuted theorem is the last sentence of the property (1D behaviour), which is proved."
  },
  {
   "property": "C31",
   "status": "proved",
   "theorems": [
    "C31_layer",
    "C31_thick_limit",
    "C31_zero_wavevector",
    "C31_1d_thickness_refuted"
   ],
   "note": "The refuted theorem is the last sentence of the property (1D behaviour), which is proved."
  },
  {
   "property": "C32",
   "status": "proved",
   "theorems": [
    "C32_error_iff",
    "C32_accepts_iff",
    "C32_sizes",
    "C32_1d_stiffness_q0_zero_refuted"
   ],
   "note": "The refuted theorem is the last sentence of the property, which is proved for all arguments."
  },
  {
   "property": "C33",
   "status": "proved",
   "theorems": [
    "C33_free_convolution",
    "C33_one_dimensional_raises"
   ],
   "note": ""
  },
  {
   "property": "C34",
   "status": "proved",
   "theorems": [
    "C34_padded_agrees",
    "C34_semi_padded_agrees",
    "C34_wrong_shape_raises",
    "C34_semi_wrong_shape_raises",
    "C34_parallel_padding"
   ],
   "note": ""
  },
  {
   "property": "C35",
   "status": "proved",
   "theorems": [
    "C35_influence_even_positive",
    "C35_influence_integral",
    "C35_self_adjoint",
    "C35_displacement_sign"
   ],
   "note": ""
  },
  {
   "property": "C36",
   "status": "partial",
   "theorems": [
    "C36_check_boundaries",
    "C36_check_boundaries_serial",
    "C36_check_option",
    "C36_boundary_mask",
    "C36_decomposition_refuted"
   ],
   "note": "Proved in serial and for every decomposition none of whose subdomains starts at the last row/column of the topography; for such a decomposition C36_decomposition_refuted shows that force in the last row goes unnoticed."
  },
  {
   "property": "C37",
   "status": "partial",
   "theorems": [
    "C37_spawn_child",
    "C37_child_response",
    "C37_semi_child_refuted"
   ],
   "note": "Proved for FreeFFTElasticHalfSpace. C37_semi_child_refuted: the inherited method drops periodicity and n_images of a semi-periodic half-space."
  },
  {
   "property": "C38",
   "status": "proved",
   "theorems": [
    "C38_semi_convolution",
    "C38_semi_shift",
    "C38_no_period_is_free",
    "C38_semi_self_adjoint_positive"
   ],
   "note": ""
  },
  {
   "property": "C39",
   "status": "proved",
   "theorems": [
    "C39_get_G_real"
   ],
   "note": ""
  },
  {
   "property": "C40",
   "status": "proved",
   "theorems": [
    "C40_primal_value",
    "C40_primal_gradient",
    "C40_wrong_size_raises",
    "C40_free_raises"
   ],
   "note": ""
  },
  {
   "property": "C41",
   "status": "proved",
   "theorems": [
    "C41_parallel_whole",
    "C41_dual_gradient",
    "C41_dual_gradient_free",
    "C41_dual_gradient_semi",
    "C41_without_gradient_raises",
    "C41_parallel_partition",
    "C41_parallel_refuted"
   ],
   "note": "The refuted theorem is the last sentence of the property (parallel run), proved together with C41_parallel_partition."
  },
  {
   "property": "C42",
   "status": "proved",
   "theorems": [
    "C42_primal_optimality",
    "C42_dual_optimality",
    "C42_swap",
    "C42_swap_back",
    "C42_same_solution",
    "C42_unique",
    "C42_free_minimiser"
   ],
   "note": "For the free half-space only the direction minimiser => contact conditions is proved."
  },
  {
   "property": "C43",
   "status": "proved",
   "theorems": [
    "C43_success",
    "C43_relative_area",
    "C43_failure",
    "C43_history",
    "C43_gap_energy_refuted",
    "C43_primal_success",
    "C43_dual_success",
    "C43_argument_errors"
   ],
   "note": "The refuted theorem is the sentence on gap and energy, proved for all states."
  },
  {
   "property": "C44",
   "status": "proved",
   "theorems": [
    "C44_plastic_success",
    "C44_plastic_failure",
    "C44_plastic_history"
   ],
   "note": ""
  },
  {
   "property": "C45",
   "status": "proved",
   "theorems": [
    "C45_round_trip",
    "C45_wrong_size_raises",
    "C45_objective_of_flat"
   ],
   "note": ""
  },
  {
   "property": "C46",
   "status": "proved",
   "theorems": [
    "C46_comparison",
    "C46_rejected_iff",
    "C46_fresh"
   ],
   "note": ""
  },
  {
   "property": "C47",
   "status": "proved",
   "theorems": [
    "C47_gap_repeats",
    "C47_evaluate",
    "C47_objective",
    "C47_lower_bounds"
   ],
   "note": ""
  },
  {
   "property": "C48",
   "status": "proved",
   "theorems": [
    "C48_one_mode",
    "C48_accepted",
    "C48_unknown_substrate",
    "C48_default_substrate",
    "C48_no_steps",
    "C48_value_error_refuted"
   ],
   "note": "The refuted theorem shows that the exception for unknown names is KeyError, as the property now says."
  },
  {
   "property": "C49",
   "status": "proved",
   "theorems": [
    "C49_records",
    "C49_callback",
    "C49_offsets",
    "C49_pressures",
    "C49_independent",
    "C49_prefix",
    "C49_sorted_refuted"
   ],
   "note": "C49_sorted_refuted is the exception named in the property. The solver, the callback and rms_height_from_area are arbitrary functions."
  },
  {
   "property": "C50",
   "status": "proved",
   "theorems": [
    "C50_choice",
    "C50_unique",
    "C50_cases",
    "C50_bisects",
    "C50_extends_refuted",
    "C50_height_reference_refuted"
   ],
   "note": "The refuted theorems are the exceptions named in the property."
  },
  {
   "property": "C51",
   "status": "proved",
   "theorems": [
    "C51_maps",
    "C51_arrays",
    "C51_mean_gap",
    "C51_mean_gap_refuted",
    "C51_plastic_gap_refuted"
   ],
   "note": "The refuted theorems are the exceptions named in the property."
  },
  {
   "property": "C52",
   "status": "proved",
   "theorems": [
    "C52_read_back",
    "C52_precision",
    "C52_write_succeeds",
    "C52_whole_file",
    "C52_attributes",
    "C52_int_first_refuted",
    "C52_single_precision_refuted",
    "C52_underscore_refuted",
    "C52_hidden_attribute_refuted"
   ],
   "note": "The refuted theorems are the exceptions named in the property, which are proved. The netCDF4 library is modelled (see DESIGN.md)."
  },
  {
   "property": "C53",
   "status": "proved",
   "theorems": [
    "C53_negative_index",
    "C53_iteration",
    "C53_next_frames",
    "C53_length",
    "C53_length_new",
    "C53_append",
    "C53_append_new",
    "C53_open_from_end",
    "C53_append_mode_refuted"
   ],
   "note": "The refuted theorem is the exception named in the property."
  },
  {
   "property": "C54",
   "status": "proved",
   "theorems": [
    "C54_frequency",
    "C54_every_nth",
    "C54_resets",
    "C54_rejects"
   ],
   "note": ""
  },
  {
   "property": "C55",
   "status": "proved",
   "theorems": [
    "C55_late_attach",
    "C55_template_attach",
    "C55_one_file_per_iteration",
    "C55_never_overwrites",
    "C55_plain_name_refuted",
    "C55_detach_refuted",
    "C55_screen_twice_refuted"
   ],
   "note": "The refuted theorems are the exceptions named in the property, which are proved."
  },
  {
   "property": "C56",
   "status": "proved",
   "theorems": [
    "C56_roundtrip",
    "C56_blank_refuted",
    "C56_colon_refuted",
    "C56_message_first_refuted",
    "C56_long_vector_refuted",
    "C56_special_refuted",
    "C56_columns",
    "C56_fits"
   ],
   "note": "The refuted theorems are the exceptions named in the property, which are proved. pandas.read_csv is modelled by splitting at blanks and converting field by field."
  },
  {
   "property": "C57",
   "status": "proved",
   "theorems": [
    "C57_inverse",
    "C57_radius",
    "C57_energy",
    "C57_increasing"
   ],
   "note": ""
  },
  {
   "property": "C58",
   "status": "proved",
   "theorems": [
    "C58_arrays",
    "C58_pressure",
    "C58_load",
    "C58_continuous",
    "C58_center",
    "C58_contact",
    "C58_surface",
    "C58_axis",
    "C58_huber_hamilton",
    "C58_axis_limit"
   ],
   "note": ""
  },
  {
   "property": "C59",
   "status": "proved",
   "theorems": [
    "C59_inverse",
    "C59_pressure",
    "C59_gap",
    "C59_slope",
    "C59_energy",
    "C59_arguments",
    "C59_mean_pressure_unit_refuted"
   ],
   "note": "All parts proved. C59_mean_pressure_unit_refuted records a finding: the mean_pressure argument of _pressure is not in the documented unit (a factor pi)."
  },
  {
   "property": "C60",
   "status": "partial",
   "theorems": [
    "C60_ratios",
    "C60_area_refuted",
    "C60_pressure",
    "C60_surface",
    "C60_deformation",
    "C60_deformation_edge",
    "C60_deformation_refuted",
    "C60_deformation_outside"
   ],
   "note": "Sneddon's formulas hold for radius, load and pressure. Findings: the returned area ratio is pi*R/D instead of pi*(R/D)^2 (C60_area_refuted); deformation inside the contact depends on the largest radius in the array and is right only with a point on the edge (C60_deformation_refuted, C60_deformation_edge)."
  },
  {
   "property": "C61",
   "status": "partial",
   "theorems": [
    "C61_iteration",
    "C61_residual",
    "C61_exact",
    "C61_large_tolerance",
    "C61_nonnegative",
    "C61_bad_eps",
    "C61_s",
    "C61_inverse_refuted",
    "C61_inverse_ends"
   ],
   "note": "The iteration and the variable s are proved. Finding: the function xi(s) is no inverse of s, it raises TypeError for every array with an element in the numerical range because its argument hides the function s (C61_inverse_refuted); at the two ends it is one (C61_inverse_ends)."
  },
  {
   "property": "C62",
   "status": "partial",
   "theorems": [
    "C62_half_space",
    "C62_normal",
    "C62_symmetries",
    "C62_positive",
    "C62_inverse",
    "C62_small_wavevector_refuted",
    "C62_zero",
    "C62_arrays"
   ],
   "note": "All parts proved for wavevectors with a component of at least 1e-6. Finding: below this absolute threshold stiffness is zero although the Green's function has an inverse (C62_small_wavevector_refuted)."
  },
  {
   "property": "C63",
   "status": "proved",
   "theorems": [
    "C63_rotation",
    "C63_invariance",
    "C63_accepts",
    "C63_handedness",
    "C63_rotation_check_refuted",
    "C63_integers_refuted",
    "C63_half_space",
    "C63_layer",
    "C63_hermitian",
    "C63_inverse",
    "C63_zero",
    "C63_eigenvalues",
    "C63_isotropic_eigenvalues",
    "C63_isotropic_refuted",
    "C63_rotated_refuted",
    "C63_scalar_refuted"
   ],
   "note": "All parts of the statement proved, np.linalg.solve, np.roots and null_space being arbitrary functions that are correct when they return. Findings: matrices of determinant 1 that are no rotations are accepted (C63_rotation_check_refuted), integer constants are truncated (C63_integers_refuted), for a stable crystal turned about the y axis no library gives a Green's function because the determinant is not even in qz (C63_rotated_refuted), isotropic constants always raise (C63_isotropic_refuted), scalar wavevectors raise TypeError (C63_scalar_refuted)."
  },
  {
   "property": "C64",
   "status": "proved",
   "theorems": [
    "C64_periodic",
    "C64_free",
    "C64_instance",
    "C64_matching",
    "C64_raises",
    "C64_contact_functions",
    "C64_reader",
    "C64_reader_kind",
    "C64_sizes_refuted"
   ],
   "note": "The refuted theorem is the last sentence of the property (explicit sizes), which is proved."
  },
  {
   "property": "C65",
   "status": "proved",
   "theorems": [
    "C65_containers",
    "C65_others",
    "C65_equivalence",
    "C65_nested_types_matter"
   ],
   "note": ""
  },
  {
   "property": "C66",
   "status": "proved",
   "theorems": [
    "C66_wavevectors",
    "C66_wavevectors_1d",
    "C66_wavevectors_raise",
    "C66_fftn_inverse",
    "C66_fftn_zero_mode",
    "C66_q_from_lambda",
    "C66_q_from_lambda_raises"
   ],
   "note": ""
  },
  {
   "property": "C67",
   "status": "proved",
   "theorems": [
    "C67_output",
    "C67_asked",
    "C67_accepts",
    "C67_rejects",
    "C67_schedule",
    "C67_names",
    "C67_maps",
    "C67_surface",
    "C67_modulus",
    "C67_pipeline",
    "C67_pipeline_pressures",
    "C67_displacement_refuted",
    "C67_header_refuted",
    "C67_height_unit_refuted",
    "C67_stated_modulus_refuted",
    "C67_contact_map_refuted",
    "C67_plastic_refuted"
   ],
   "note": "Findings: --displacement always raises (C67_displacement_refuted); only the first kind of map of a step has the numbers in its header (C67_header_refuted); --height-unit for a file without unit is a KeyError (C67_height_unit_refuted); the pressure map of a periodic run states E instead of E/(1-nu^2) (C67_stated_modulus_refuted); the contact map of a nonperiodic run is on the padded grid (C67_contact_map_refuted); plastic displacements accumulate over the automatic steps, unlike in contact_mechanics (C67_plastic_refuted)."
  },
  {
   "property": "C68",
   "status": "partial",
   "theorems": [
    "C68_complementarity_partial",
    "C68_complementarity_refuted"
   ],
   "note": "Proved when the last step length is non-zero (or the run needed one iteration); refuted without this restriction."
  },
  {
   "property": "C69",
   "status": "proved",
   "theorems": [
    "C69_zero_force_not_accepted_later"
   ],
   "note": ""
  },
  {
   "property": "C70",
   "status": "proved",
   "theorems": [
    "C70_gradient",
    "C70_gradient_exact",
    "C70_gradient_raises",
    "C70_checks_primal_gradient",
    "C70_mean_err",
    "C70_mean_err_shapes",
    "C70_mean_err_rfft"
   ],
   "note": ""
  },
  {
   "property": "C71",
   "status": "proved",
   "theorems": [
    "C71_normal",
    "C71_tangential"
   ],
   "note": ""
  },
  {
   "property": "C72",
   "status": "proved",
   "theorems": [
    "C72_normal",
    "C72_tangential",
    "C72_axis_limit",
    "C72_reciprocal"
   ],
   "note": ""
  },
  {
   "property": "C73",
   "status": "proved",
   "theorems": [
    "C73_read_only",
    "C73_write_raises",
    "C73_grid_raises",
    "C73_other_files"
   ],
   "note": ""
  },
  {
   "property": "C74",
   "status": "proved",
   "theorems": [
    "C74_periodic",
    "C74_free",
    "C74_returns",
    "C74_no_iterations",
    "C74_offsets",
    "C74_pressures"
   ],
   "note": ""
  },
  {
   "property": "C75",
   "status": "proved",
   "theorems": [
    "C75_no_contact",
    "C75_full_contact",
    "C75_wave"
   ],
   "note": ""
  },
  {
   "property": "C76",
   "status": "proved",
   "theorems": [
    "C76_flat",
    "C76_light_load",
    "C76_contact_refuted"
   ],
   "note": "Finding: with heights not above zero, a light load is reported as converged although it rests on points that are 40 tolerances away from the surface (C76_contact_refuted)."
  },
  {
   "property": "C77",
   "status": "proved",
   "theorems": [
    "C77_moved",
    "C77_symmetry",
    "C77_symmetric_surface",
    "C77_reference",
    "C77_units"
   ],
   "note": ""
  },
  {
   "property": "C78",
   "status": "proved",
   "theorems": [
    "C78_one_state",
    "C78_load_curve",
    "C78_one_load",
    "C78_distance",
    "C78_load_error",
    "C78_solution",
    "C78_solver",
    "C78_start"
   ],
   "note": ""
  },
  {
   "property": "C79",
   "status": "proved",
   "theorems": [
    "C79_restart",
    "C79_orthogonal",
    "C79_energy",
    "C79_closed",
    "C79_exact",
    "C79_stops",
    "C79_half_space"
   ],
   "note": ""
  },
  {
   "property": "C80",
   "status": "proved",
   "theorems": [
    "C80_shrinks",
    "C80_fresh",
    "C80_joined",
    "C80_dead_end",
    "C80_reset_refuted",
    "C80_no_restart_refuted",
    "C80_long",
    "C80_maxiter_refuted"
   ],
   "note": "The _refuted theorems are the counterexamples named in the statement: no reset when a point leaves, no convergence for any maxiter."
  },
  {
   "property": "C81",
   "status": "proved",
   "theorems": [
    "C81_same_iterates",
    "C81_offset_control",
    "C81_force_control",
    "C81_both_fail",
    "C81_success",
    "C81_callback",
    "C81_no_iteration",
    "C81_default_tolerance",
    "C81_default_flat",
    "C81_library_later_refuted"
   ],
   "note": "C81_library_later_refuted is the counterexample to the converse named in the statement."
  },
  {
   "property": "C82",
   "status": "proved",
   "theorems": [
    "C82_start",
    "C82_carried",
    "C82_orthogonal",
    "C82_energy",
    "C82_closed",
    "C82_exact",
    "C82_stops",
    "C82_half_space",
    "C82_half_space_start",
    "C82_after_joining_refuted"
   ],
   "note": "C82_after_joining_refuted is the counterexample named in the last sentence of the statement."
  },
  {
   "property": "C83",
   "status": "proved",
   "theorems": [
    "C83_work",
    "C83_least",
    "C83_surfaces",
    "C83_continuous",
    "C83_steps",
    "C83_solver"
   ],
   "note": ""
  },
  {
   "property": "C84",
   "status": "proved",
   "theorems": [
    "C84_one_state",
    "C84_load_curve",
    "C84_one_load",
    "C84_elastic",
    "C84_full",
    "C84_flattened",
    "C84_conditions",
    "C84_mask",
    "C84_unreached",
    "C84_mixing_refuted",
    "C84_solver",
    "C84_step",
    "C84_history",
    "C84_step_cg",
    "C84_start"
   ],
   "note": "C84_mixing_refuted is the counterexample named in the last sentence of the statement."
  },
  {
   "property": "C85",
   "status": "proved",
   "theorems": [
    "C85_result",
    "C85_finite",
    "C85_heights",
    "C85_elastic_heights",
    "C85_outside",
    "C85_pressure",
    "C85_penetration",
    "C85_free",
    "C85_maxcv",
    "C85_load",
    "C85_elastic_nan",
    "C85_elastic_exn",
    "C85_active",
    "C85_active_first",
    "C85_binary64",
    "C85_matrix",
    "C85_plastic_nan_refuted",
    "C85_exact",
    "C85_exact_all"
   ],
   "note": "C85_plastic_nan_refuted is the counterexample that the statement mentions. The theorems assume that the substrate passes non-finite forces on to the displacements (proved for matrix multiplication, assumed for the FFT)."
  },
  {
   "property": "C86",
   "status": "proved",
   "theorems": [
    "C86_rows",
    "C86_exception",
    "C86_area",
    "C86_plastic_area",
    "C86_converged_row",
    "C86_printed",
    "C86_file",
    "C86_header",
    "C86_unreadable_refuted",
    "C86_last_area_refuted",
    "C86_header_refuted"
   ],
   "note": "Log text of the solver for every run; integers printed by numpy are treated as reals, an int 0 in the pressure columns prints like the real 0; refuted companions state what the log does not provide."
  },
  {
   "property": "C87",
   "status": "proved",
   "theorems": [
    "C87_slice",
    "C87_slice_exists",
    "C87_slice_laws",
    "C87_open_frame",
    "C87_round_trip",
    "C87_past_end",
    "C87_open_text",
    "C87_open_container",
    "C87_grid",
    "C87_tiles",
    "C87_open_refuted",
    "C87_below_refuted",
    "C87_padding_refuted",
    "C87_amber_refuted"
   ],
   "note": "Slices, names and partial grids for all inputs; blocks outside the grid are not modelled; four false expectations are refuted."
  },
  {
   "property": "C88",
   "status": "proved",
   "theorems": [
    "C88_half_space",
    "C88_half_space_load",
    "C88_half_space_exists",
    "C88_penetration",
    "C88_touch",
    "C88_pressure",
    "C88_load",
    "C88_response",
    "C88_accuracy",
    "C88_distance",
    "C88_double"
   ],
   "note": "Elastic runs that end with a step of constant contact area; proved for every arithmetic with these rounding errors and instantiated with doubles."
  },
  {
   "property": "C89",
   "status": "proved",
   "theorems": [
    "C89_double",
    "C89_table",
    "C89_break_refuted",
    "C89_contact",
    "C89_run",
    "C89_lines",
    "C89_title_refuted",
    "C89_size"
   ],
   "note": "The placement of the title is a defect, stated as C89_title_refuted and in the property itself."
  },
  {
   "property": "C90",
   "status": "proved",
   "theorems": [
    "C90_file",
    "C90_unfinished"
   ],
   "note": "For a run that ends with an exception the claim is about the file while it is open."
  },
  {
   "property": "C91",
   "status": "proved",
   "theorems": [
    "C91_states",
    "C91_pressures",
    "C91_distance",
    "C91_runs",
    "C91_flat_refuted",
    "C91_file"
   ],
   "note": "C91_flat_refuted is the defect of flat surfaces; plastic runs at prescribed pressures may end with an exception of the solver and are not covered by C91_runs."
  },
  {
   "property": "C92",
   "status": "proved",
   "theorems": [
    "C92_map",
    "C92_light_refuted"
   ],
   "note": "C92_light_refuted is the stated exception: an evenly spread light load is counted as full contact while the contact map is empty."
  },
  {
   "property": "C93",
   "status": "proved",
   "theorems": [
    "C93_one_state",
    "C93_load_curve",
    "C93_stiffness",
    "C93_at_load",
    "C93_distance",
    "C93_load_error",
    "C93_floating_none",
    "C93_solver",
    "C93_at_load_any",
    "C93_load_distance",
    "C93_solver_load",
    "C93_q0_no_effect"
   ],
   "note": ""
  },
  {
   "property": "C94",
   "status": "proved",
   "theorems": [
    "C94_kind",
    "C94_mixfac"
   ],
   "note": ""
  },
  {
   "property": "C95",
   "status": "proved",
   "theorems": [
    "C95_disp",
    "C95_force",
    "C95_force_k",
    "C95_shape",
    "C95_inverse"
   ],
   "note": ""
  },
  {
   "property": "C96",
   "status": "proved",
   "theorems": [
    "C96_one_state",
    "C96_load_curve",
    "C96_at_load",
    "C96_elastic",
    "C96_flattened",
    "C96_full",
    "C96_load_error",
    "C96_solver"
   ],
   "note": ""
  },
  {
   "property": "C97",
   "status": "proved",
   "theorems": [
    "C97_energy",
    "C97_work",
    "C97_least",
    "C97_surfaces",
    "C97_result",
    "C97_solver"
   ],
   "note": ""
  },
  {
   "property": "C98",
   "status": "proved",
   "theorems": [
    "C98_construct",
    "C98_response",
    "C98_contact",
    "C98_yielding",
    "C98_energy",
    "C98_run"
   ],
   "note": ""
  },
  {
   "property": "C99",
   "status": "proved",
   "theorems": [
    "C99_energy",
    "C99_reciprocity",
    "C99_gradient",
    "C99_inverse",
    "C99_padding",
    "C99_shapes",
    "C99_repeats",
    "C99_periodic_repeats",
    "C99_spread"
   ],
   "note": ""
  },
  {
   "property": "C100",
   "status": "proved",
   "theorems": [
    "C100_construct",
    "C100_disp",
    "C100_force",
    "C100_energy",
    "C100_check",
    "C100_child",
    "C100_run"
   ],
   "note": ""
  },
  {
   "property": "C101",
   "status": "proved",
   "theorems": [
    "C101_placed",
    "C101_mirror",
    "C101_exchange",
    "C101_semi_exchange",
    "C101_monotone"
   ],
   "note": ""
  },
  {
   "property": "C102",
   "status": "proved",
   "theorems": [
    "C102_larger",
    "C102_smaller",
    "C102_solver"
   ],
   "note": ""
  },
  {
   "property": "C103",
   "status": "proved",
   "theorems": [
    "C103_states",
    "C103_error",
    "C103_curve"
   ],
   "note": ""
  },
  {
   "property": "C104",
   "status": "proved",
   "theorems": [
    "C104_default",
    "C104_accuracy",
    "C104_increasing",
    "C104_crossed",
    "C104_inverse"
   ],
   "note": ""
  },
  {
   "property": "C105",
   "status": "proved",
   "theorems": [
    "C105_line_search",
    "C105_offset",
    "C105_load"
   ],
   "note": ""
  },
  {
   "property": "C106",
   "status": "proved",
   "theorems": [
    "C106_heights",
    "C106_unknown_unit",
    "C106_titles",
    "C106_header"
   ],
   "note": ""
  },
  {
   "property": "C107",
   "status": "proved",
   "theorems": [
    "C107_state",
    "C107_result",
    "C107_forces",
    "C107_stationary",
    "C107_size_raises"
   ],
   "note": ""
  },
  {
   "property": "C108",
   "status": "proved",
   "theorems": [
    "C108_arrays",
    "C108_given",
    "C108_state",
    "C108_auto",
    "C108_contact",
    "C108_other_methods",
    "C108_default",
    "C108_errors",
    "C108_penetrates",
    "C108_touching",
    "C108_unique"
   ],
   "note": ""
  }
 ]
}