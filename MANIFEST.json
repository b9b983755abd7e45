{
 "claims": [
  {
   "property": "C01",
   "status": "proved",
   "theorems": [
    "C01_check_options_exact"
   ],
   "note": "full"
  },
  {
   "property": "C02",
   "status": "proved",
   "theorems": [
    "C02_implicit_minimal",
    "C02_implicit_idempotent",
    "C02_created_mask"
   ],
   "note": "full"
  },
  {
   "property": "C03",
   "status": "proved",
   "theorems": [
    "C03_check_counts_exact"
   ],
   "note": "full"
  },
  {
   "property": "C04",
   "status": "proved",
   "theorems": [
    "C04_check_solvers_exact",
    "C04_fewer_solvers_still_accepted",
    "C04_created_solvers_compatible"
   ],
   "note": "full"
  },
  {
   "property": "C05",
   "status": "proved",
   "theorems": [
    "C05_create_exact",
    "C05_create_dimensions"
   ],
   "note": "the kernels argument must point to n_kernels entries (caller contract); the beam level 0 values are covered by the handle model"
  },
  {
   "property": "C06",
   "status": "proved",
   "theorems": [
    "C06_get_after_set",
    "C06_other_calls_keep_answers",
    "C06_last_setter_decides"
   ],
   "note": "all setter/getter pairs over all call histories; xrtm_qx is not a value getter; a failed xrtm_solution_2 is excluded (C27)"
  },
  {
   "property": "C07",
   "status": "proved",
   "theorems": [
    "C07_answers_in_documented_range",
    "C07_phase_functions_normalised",
    "C07_nan_accepted_refuted"
   ],
   "note": "ranges as answered by the getters over all histories, NaN as named exception; binary64 via SpecFloat"
  },
  {
   "property": "C08",
   "status": "proved",
   "theorems": [
    "C08_rejected_setter_changes_nothing",
    "C08_refused_at_once_changes_nothing",
    "C08_out_taus_partial_write_refuted",
    "C08_coef_partial_write_refuted",
    "C08_theta_0_partial_write_refuted",
    "C08_out_thetas_partial_write_refuted"
   ],
   "note": "atomic setters, immediate refusals, and a witness for each exception"
  },
  {
   "property": "C09",
   "status": "proved",
   "theorems": [
    "C09_unset_input_refused",
    "C09_no_uninitialised_answer",
    "C09_failed_coef_uninitialised_refuted",
    "C09_lambda_uninitialised_refuted"
   ],
   "note": "refusal before the first solution, no uninitialised answer; two exceptions with witnesses"
  },
  {
   "property": "C10",
   "status": "proved",
   "theorems": [
    "C10_setter_index_refused",
    "C10_getter_index_refused",
    "C10_calls_stay_in_bounds",
    "C10_unchecked_getters_refuted"
   ],
   "note": "index safety of setters and getters; unchecked getters refuted with witnesses"
  },
  {
   "property": "C11",
   "status": "proved",
   "theorems": [
    "C11_reports_first_missing",
    "C11_accepted_means_specified",
    "C11_specified_means_accepted",
    "C11_solution_2_ungated_refuted"
   ],
   "note": "first missing input reported, soundness and completeness of the gate; xrtm_solution_2 is not gated (witness)"
  },
  {
   "property": "C12",
   "status": "proved",
   "theorems": [
    "C12_no_use_after_free",
    "C12_freed_once",
    "C12_destroy_frees_the_rest",
    "C12_kernel_func_flags_leak_refuted"
   ],
   "note": "use after free and double free are a distinct outcome that never occurs; leak of the kernel function flags with witness"
  },
  {
   "property": "C13",
   "status": "proved",
   "theorems": [
    "C13_once_ready_always_ready",
    "C13_solutions_keep_inputs"
   ],
   "note": "over all call histories"
  },
  {
   "property": "C14",
   "status": "proved",
   "theorems": [
    "C14_scaled_properties_current",
    "C14_scaled_profile_current",
    "C14_derivatives_after_toggle_refuted",
    "C14_solution_after_toggle_refuted"
   ],
   "note": "Arithmetic is left open (record physics over an arbitrary value type); the theorems hold for all of it."
  },
  {
   "property": "C15",
   "status": "proved",
   "theorems": [
    "C15_full_refresh_current",
    "C15_partial_refresh_current",
    "C15_one_layer_change_refuted"
   ],
   "note": "disciplined_all is the discipline; refutation C15_one_layer_change_refuted."
  },
  {
   "property": "C16",
   "status": "proved",
   "theorems": [
    "C16_solution_of_current_inputs",
    "C16_set_up_then_plain",
    "C16_left_out_input_refuted",
    "C16_flag_change_refuted"
   ],
   "note": "Arithmetic left open; solvers outside the project, the Lidort form of the phase matrices and STACK_REUSE_ADDING are not modelled."
  },
  {
   "property": "C17",
   "status": "proved",
   "theorems": [
    "C17_saved_results_valid",
    "C17_left_out_input_refuted",
    "C17_other_solver_refuted",
    "C17_flag_change_refuted",
    "C17_layer_above_refuted",
    "C17_failed_check_refuted"
   ],
   "note": "Condition careful_all; each exclusion has its refutation."
  },
  {
   "property": "C18",
   "status": "proved",
   "theorems": [
    "C18_clear_forgets",
    "C18_next_solution"
   ],
   "note": "C18_next_solution, C18_clear_forgets."
  },
  {
   "property": "C19",
   "status": "proved",
   "theorems": [
    "C19_outputs_located",
    "C19_accepted_request_located",
    "C19_nan_output_refuted"
   ],
   "note": "placement search with the carried index, in binary64; the remainder is the rounded difference; NaN outputs refuted; coherence of the cached placement is C14"
  },
  {
   "property": "C20",
   "status": "proved",
   "theorems": [
    "C20_layers_exact",
    "C20_beam_exact",
    "C20_thermal_exact",
    "C20_sources_exact",
    "C20_total_exact",
    "C20_adding_codes_exact",
    "C20_stacks_exact",
    "C20_stays_in_bounds",
    "C20_unions_exact",
    "C20_union_codes_exact",
    "C20_merge_defined",
    "C20_second_unions_refuted"
   ],
   "note": "all arrays of the first and second set in terms of the inputs, union rows of the first set and of all adding codes; union rows of the second set refuted"
  },
  {
   "property": "C21",
   "status": "proved",
   "theorems": [
    "C21_row_summary",
    "C21_table_summary",
    "C21_conjunction_always_false_refuted",
    "C21_copy_exact"
   ],
   "note": "count and disjunction exact, conjunction refuted; placement of the summary in front of the array not modelled"
  },
  {
   "property": "C22",
   "status": "proved",
   "theorems": [
    "C22_planning_ends",
    "C22_single_layers_first",
    "C22_joined_from_adjacent",
    "C22_no_repeats",
    "C22_fits_table",
    "C22_runs_marked",
    "C22_nothing_in_vain",
    "C22_counts"
   ],
   "note": "All in full for unbounded sizes."
  },
  {
   "property": "C23",
   "status": "proved",
   "theorems": [
    "C23_sum_of_reported_terms",
    "C23_stops_only_converged",
    "C23_stops_when_converged",
    "C23_zero_tolerance",
    "C23_fails_only_with_a_term",
    "C23_nan_masks_refuted",
    "C23_other_outputs_untested_refuted"
   ],
   "note": "terms are arbitrary inputs; radiances and derivatives, binary64; NaN masking and untested outputs shown by witnesses"
  },
  {
   "property": "C24",
   "status": "proved",
   "theorems": [
    "C24_expansion",
    "C24_reverse_expansion",
    "C24_reverse_is_adjoint"
   ],
   "note": "over any number type; adjointness over the reals"
  },
  {
   "property": "C25",
   "status": "proved",
   "theorems": [
    "C25_names_round_trip",
    "C25_names_mean_the_constants",
    "C25_index_list",
    "C25_empty_index_list_refuted",
    "C25_value_list_round_trip",
    "C25_name_list_text",
    "C25_list_parsed",
    "C25_every_text_lists",
    "C25_name_list_round_trip",
    "C25_max_name_length",
    "C25_input_names_refuted",
    "C25_input_messages",
    "C25_eigen_solver_names"
   ],
   "note": "all tables, all masks and texts; development solvers and stderr messages not modelled"
  },
  {
   "property": "C26",
   "status": "proved",
   "theorems": [
    "C26_each_output_visited_once",
    "C26_direction_selected",
    "C26_derivatives_of_each_output",
    "C26_failed_pass_spoils_later_outputs_refuted"
   ],
   "note": "The reverse pass itself (get_solution_internal_a) is a parameter; the loop, index decoding and contraction are modelled. C26_failed_pass_spoils_later_outputs_refuted: its return value is ignored by the caller and the seed stays set."
  },
  {
   "property": "C27",
   "status": "proved",
   "theorems": [
    "C27_success_restores",
    "C27_failure_drops_derivatives",
    "C27_failure_restores_refuted"
   ],
   "note": "C27_failure_restores_refuted is the witness that a failed call is not undone."
  },
  {
   "property": "C28",
   "status": "proved",
   "theorems": [
    "C28_angle_kept_away",
    "C28_conflict_refused",
    "C28_conflict_with_output_refused",
    "C28_albedo_below_one",
    "C28_other_node_refuted",
    "C28_small_node_refuted",
    "C28_refused_changes_refuted"
   ],
   "note": "Stated on binary64 values (SpecFloat) and linked to reals through Flocq; threshold is the default 1e-5, which no API call changes. Nodes are assumed at least two thresholds above zero and cosines in (0,1]. Three refutations delimit the claim."
  },
  {
   "property": "C29",
   "status": "proved",
   "theorems": [
    "C29_depths",
    "C29_phase_function",
    "C29_asymmetry",
    "C29_nothing_truncated",
    "C29_ranges",
    "C29_levels",
    "C29_derivatives",
    "C29_asymmetry_derivatives",
    "C29_adjoint",
    "C29_correction_albedo",
    "C29_legendre_offdiagonal_refuted",
    "C29_asymmetry_indices_refuted",
    "C29_two_solvers_refuted"
   ],
   "note": "Over the reals; rounding not modelled. The derivative theorem is for the coefficient branch; the asymmetry-parameter branch is exact only where the exchanged index makes no difference (C29_asymmetry_derivatives) and refuted otherwise."
  },
  {
   "property": "C30",
   "status": "proved",
   "theorems": [
    "C30_plane_parallel",
    "C30_layer_by_layer",
    "C30_decreases",
    "C30_derivatives",
    "C30_adjoint",
    "C30_slant_factors",
    "C30_spherical_bounds",
    "C30_equal_top_levels_refuted",
    "C30_spherical_decrease_refuted"
   ],
   "note": "Over the reals; rounding not modelled. Full refresh only: which levels a partial refresh keeps is C15."
  },
  {
   "property": "C31",
   "status": "proved",
   "theorems": [
    "C31_pair_is_elimination",
    "C31_pair_apart",
    "C31_operators_determined",
    "C31_any_grouping",
    "C31_all_layers_exact",
    "C31_above_surface_exact",
    "C31_from_below_exact",
    "C31_from_above_exact",
    "C31_handle_all_layers_exact",
    "C31_handle_faces_exact",
    "C31_handle_from_above_exact",
    "C31_never_exits",
    "C31_emission_above_refuted",
    "C31_emission_without_surface_refuted",
    "C31_attenuated_sources_refuted"
   ],
   "note": "Over the reals; LAPACK's solve is a parameter with its contract as hypothesis. The linearised routines are modelled as writes to memory slots with the aliasing of the callers; exactness is proved by solving for the derivative of the inverse (Neumann series for openness), not by assuming differentiability of the result."
  },
  {
   "property": "C32",
   "status": "proved",
   "theorems": [
    "C32_calls_are_defined",
    "C32_same_path_same_block",
    "C32_new_blocks_are_fresh",
    "C32_first_retrieval_is_new",
    "C32_call_returns_to_the_path",
    "C32_every_block_freed_once",
    "C32_different_paths_share_a_block_refuted",
    "C32_different_names_share_a_block_refuted",
    "C32_block_large_enough_refuted",
    "C32_proxy_of_itself_refuted"
   ],
   "note": "Whole file src/xrtm_save_tree.c except memory exhaustion and the free callbacks stored in the blocks."
  },
  {
   "property": "C33",
   "status": "proved",
   "theorems": [
    "C33_sorted_and_complete",
    "C33_find_exact",
    "C33_insert_reports_new",
    "C33_balanced",
    "C33_count_min_max"
   ],
   "note": "Whole insertion and lookup side of the tree. Deletion and stepping through parent pointers, which the library never calls, are not modelled."
  },
  {
   "property": "C34",
   "status": "proved",
   "theorems": [
    "C34_sequences",
    "C34_nothing_lost",
    "C34_sorting",
    "C34_ordered_insertion",
    "C34_front_of_empty_refuted"
   ],
   "note": "Heap model of misc/gstruct_dclist.h refined to sequences for all 23 operations; malloc failure is not modelled."
  },
  {
   "property": "C35",
   "status": "proved",
   "theorems": [
    "C35_arrays_apart",
    "C35_callers_keep_theirs",
    "C35_same_arrays_again",
    "C35_second_round_allocates_refuted",
    "C35_bounded",
    "C35_freed",
    "C35_nothing_left",
    "C35_square_arrays_leak_refuted"
   ],
   "note": "Model: malloc does not fail; sizes do not overflow. The refuted theorems name the two exceptions."
  },
  {
   "property": "C36",
   "status": "proved",
   "theorems": [
    "C36_owned_by_one_stack",
    "C36_handed_over",
    "C36_matrices_current",
    "C36_auxiliary_current",
    "C36_one_plan",
    "C36_update_twice_refuted",
    "C36_other_joint_refuted"
   ],
   "note": "Two refutations with witnesses (C36_update_twice_refuted, C36_other_joint_refuted) delimit the positive theorems. One Fourier term is followed; the arrays of a stack are one allocation; allocation failure is not modelled."
  },
  {
   "property": "C38",
   "status": "proved",
   "theorems": [
    "C38_both_ways_exact",
    "C38_both_ways_open_exact",
    "C38_field_unique",
    "C38_top_down_exact",
    "C38_top_down_open_exact",
    "C38_bottom_up_exact",
    "C38_bottom_up_open_exact",
    "C38_handle_both_ways",
    "C38_handle_top_down",
    "C38_handle_bottom_up",
    "C38_layer_and_surface_emission_refuted",
    "C38_emission_and_illumination_refuted",
    "C38_surface_emission_downwards_refuted",
    "C38_illumination_from_below_refuted",
    "C38_boundary_radiances_refuted"
   ],
   "note": "Over the reals, on top of the adding model of C31; rounding is not modelled. The dense solver is taken by its contract. Handle-level theorems use the flags that build_set derives from the inputs."
  },
  {
   "property": "C37",
   "status": "proved",
   "theorems": [
    "C37_thin_enough",
    "C37_solar_exact",
    "C37_thermal_exact",
    "C37_solar_derivs_exact",
    "C37_thermal_derivs_exact",
    "C37_beam_derivs_refuted",
    "C37_cold_top_refuted",
    "C37_cold_top_derivs_refuted",
    "C37_emission_unpolarised_refuted",
    "C37_vector_emission_refuted"
   ],
   "note": "Over the reals with LAPACK's solve as a contract; rounding is not modelled. Hypotheses: the slices and their doubles are such that multiple reflection sums up (slices_regular), layer derivatives are also beam and thermal derivatives. The exceptions are C37_beam_derivs_refuted, C37_cold_top_refuted, C37_cold_top_derivs_refuted, C37_vector_emission_refuted, C37_emission_unpolarised_refuted. layer_double_s and the doubling adjoints are not modelled."
  },
  {
   "property": "C39",
   "status": "proved",
   "theorems": [
    "C39_central_exact",
    "C39_one_sided_exact",
    "C39_limits",
    "C39_forward_second_refuted",
    "C39_backward_refuted",
    "C39_central_refuted",
    "C39_error_restores_refuted",
    "C39_central_restores_refuted",
    "C39_other_outputs_refuted"
   ],
   "note": "Model arithmetic is over the reals; the forward model is an arbitrary function of the inputs that may also fail."
  },
  {
   "property": "C40",
   "status": "proved",
   "theorems": [
    "C40_setters",
    "C40_history",
    "C40_coefficients",
    "C40_levels_setter_refuted",
    "C40_coef_refused_refuted",
    "C40_coef_outside_refuted",
    "C40_delta_unset_refuted"
   ],
   "note": "Arrays passed by the caller are taken to be large enough; the accessors of g are not compiled in to any use (XRTM_SOLVERS_USE_G is empty)."
  },
  {
   "property": "C41",
   "status": "proved",
   "theorems": [
    "C41_boundary_exact",
    "C41_derivs_exact",
    "C41_reverse_is_adjoint",
    "C41_emission_derivs_refuted",
    "C41_reverse_emission_refuted"
   ],
   "note": "The reflection vectors and matrices of the surface are arbitrary inputs; arithmetic is over the reals; C14-C17 treat the dependency flags."
  },
  {
   "property": "C42",
   "status": "proved",
   "theorems": [
    "C42_up_exact",
    "C42_down_exact",
    "C42_fields_exist",
    "C42_up_derivs",
    "C42_down_derivs",
    "C42_correction_up_exact",
    "C42_correction_down_exact",
    "C42_correction_derivs",
    "C42_no_sun_refuted",
    "C42_fixed_depth_refuted"
   ],
   "note": "Exact for all inputs in real arithmetic, up and down, at levels and optical depths, values, derivatives and corrections. Two refutations: no sun, and the point at which the derivatives at optical depths are taken. sl = 1 / mu when looking down is excluded by hypothesis off_beam."
  },
  {
   "property": "C43",
   "status": "proved",
   "theorems": [
    "C43_up_adjoint",
    "C43_down_adjoint",
    "C43_up_gradient",
    "C43_down_gradient",
    "C43_correction_up_adjoint",
    "C43_correction_down_adjoint",
    "C43_entering_lost_refuted",
    "C43_correction_entering_refuted",
    "C43_below_top_refuted",
    "C43_no_sun_refuted"
   ],
   "note": "Real arithmetic. The transpose identity is proved by an induction over layers and outputs with a potential pairing the adjoint state with the forward linearization; the gradient then follows from C42. Four refutations name where the code departs from it."
  },
  {
   "property": "C44",
   "status": "proved",
   "theorems": [
    "C44_pair",
    "C44_face",
    "C44_all_layers",
    "C44_above_surface",
    "C44_from_above",
    "C44_bottom_up",
    "C44_bottom_up_open",
    "C44_both_ways",
    "C44_both_ways_open_top",
    "C44_handle_both_ways",
    "C44_handle_bottom_up",
    "C44_emission_above_refuted",
    "C44_bottom_without_surface_refuted"
   ],
   "note": "Reals for doubles; LAPACK's factorisation and solution by contract (solver, tsolver). Gradients are stated as derivatives of weighted sums along every differentiable path of operators the flags allow, for any family of radiances that solves the interaction equations near the point. Refuted: thermal emission of a layer above an unvarying partner (upwards only), bottom output without a surface."
  },
  {
   "property": "C45",
   "status": "proved",
   "theorems": [
    "C45_layer_exact",
    "C45_light_unique",
    "C45_light_exists",
    "C45_layer_unique",
    "C45_answers",
    "C45_thermal_absorption_refuted",
    "C45_separable",
    "C45_eigenvalues_positive",
    "C45_separable_directions",
    "C45_separable_refuted",
    "C45_layer_exact_weights"
   ],
   "note": "Scalar mode, classical particular solution, symmetric form off, over the reals. The eigenvalue routine is a parameter with a contract. The real eigenbasis (separable, a hypothesis of layer_exact) is proved to exist by C45_separable when all weights are positive and by C45_separable_directions with output directions of weight zero off resonance; C45_separable_refuted shows the latter is needed."
  },
  {
   "property": "C46",
   "status": "proved",
   "theorems": [
    "C46_layer_gradient",
    "C46_no_scattering_refuted",
    "C46_eigensystem_differentiable"
   ],
   "note": "Scalar mode, classical source, the branches of C45. Distinct eigenvalues and the absence of decoupled directions with weight are hypotheses; the existence of differentiable eigenvectors is proved from the former. C46_no_scattering_refuted: the exception."
  },
  {
   "property": "C47",
   "status": "proved",
   "theorems": [
    "C47_adding_regular",
    "C47_light_unique",
    "C47_both_ways",
    "C47_bottom_up",
    "C47_top_down",
    "C47_gradient"
   ],
   "note": "C45/C46 per layer, C20 for the flags, C31/C38 for adding; the hypotheses of C31 and C38 about regular matrices are discharged here by an energy argument (AtmProofs)."
  },
  {
   "property": "C48",
   "status": "proved",
   "theorems": [
    "C48_light_unique",
    "C48_levels",
    "C48_depths",
    "C48_depths_are_levels",
    "C48_depths_thermal_refuted",
    "C48_agrees_with_adding",
    "C48_inside_the_array"
   ],
   "note": "Values; thermal output at depths refuted."
  },
  {
   "property": "C49",
   "status": "proved",
   "theorems": [
    "C49_levels",
    "C49_handle_levels",
    "C49_depths",
    "C49_inside_the_array",
    "C49_fixed_depth_refuted",
    "C49_no_surface_refuted"
   ],
   "note": "Levels for all flags; depths without thermal emission; fixed depth and light from below without a surface refuted."
  },
  {
   "property": "C50",
   "status": "proved",
   "theorems": [
    "C50_inside",
    "C50_no_coefficients_refuted",
    "C50_streams",
    "C50_sun",
    "C50_reciprocal",
    "C50_derivatives",
    "C50_adjoint_streams",
    "C50_adjoint_sun",
    "C50_adjoint_single",
    "C50_conserves",
    "C50_scatters",
    "C50_few_streams"
   ],
   "note": "All loops and recurrences of the scalar code as written, over the reals; writes are bounded by the length of the arrays. The quadrature itself is not modelled: exactness is a hypothesis of C50_conserves and C50_scatters only."
  },
  {
   "property": "C51",
   "status": "proved",
   "theorems": [
    "C51_vector",
    "C51_matrix",
    "C51_vector_derivs",
    "C51_matrix_derivs",
    "C51_reciprocal",
    "C51_li_reciprocity_refuted",
    "C51_lambertian_albedo",
    "C51_derivs_refuted",
    "C51_stale_derivs_refuted",
    "C51_vector_adjoint",
    "C51_matrix_adjoint",
    "C51_adjoint_refuted",
    "C51_mixed_adjoint_refuted",
    "C51_undefined_refuted"
   ],
   "note": "Without the symmetric form. Exceptions: derivs_refuted, stale_derivs_refuted, adjoint_refuted, mixed_adjoint_refuted, li_reciprocity_refuted, undefined_refuted."
  },
  {
   "property": "C52",
   "status": "proved",
   "theorems": [
    "C52_outputs",
    "C52_untouched",
    "C52_never_written_refuted",
    "C52_level_error_refuted",
    "C52_thermal_refuted",
    "C52_vector_refuted",
    "C52_divergence",
    "C52_budget",
    "C52_parallel_budget",
    "C52_conserved",
    "C52_dissipates",
    "C52_fair",
    "C52_spherical_refuted",
    "C52_inside_refuted",
    "C52_surface",
    "C52_column"
   ],
   "note": "C52_column composes the outputs with the eigenvalue solver, adding and the boundary input (C45, C47); the surface part uses C41 and C51, the normalization C50. What the layers absorb is stated with any integral H of the absorbed power."
  },
  {
   "property": "C53",
   "status": "proved",
   "theorems": [
    "C53_roots",
    "C53_iteration",
    "C53_converges",
    "C53_fuel",
    "C53_root_ends",
    "C53_spurious_refuted",
    "C53_normal",
    "C53_doubled",
    "C53_hemisphere",
    "C53_flux_factor",
    "C53_kernel",
    "C53_lobatto_refuted",
    "C53_odd_refuted",
    "C53_one_point"
   ],
   "note": "Over the reals. That the starting values of the code lie in the basins of the roots is a hypothesis (at_roots), except for the rule of one point, which is computed outright. Discharges the hypothesis on the quadrature in C50 and C52."
  },
  {
   "property": "C54",
   "status": "proved",
   "theorems": [
    "C54_light",
    "C54_unique",
    "C54_general",
    "C54_normal",
    "C54_doubled",
    "C54_forward_refuted",
    "C54_resonance_refuted",
    "C54_conservative_refuted",
    "C54_isotropic_refuted"
   ],
   "note": "Values without derivatives and without the source function integration for further output angles. The dense solver (LAPACK general) that the source selects."
  },
  {
   "property": "C55",
   "status": "proved",
   "theorems": [
    "C55_levels",
    "C55_depths",
    "C55_thin_refuted",
    "C55_dark_refuted"
   ],
   "note": "Output at the streams, dense matrix. The derivatives of the optical inputs, beam and surface are inputs; the LU routines are LAPACK's contract."
  },
  {
   "property": "C56",
   "status": "proved",
   "theorems": [
    "C56_levels",
    "C56_depths_flux",
    "C56_depths",
    "C56_unique",
    "C56_flux_refuted",
    "C56_unwritten_refuted",
    "C56_silent_refuted",
    "C56_top_refuted",
    "C56_resonance_refuted"
   ],
   "note": "Without derivatives and without thermal sources, in real arithmetic, one direction at a time. The linear solver is any function that solves non-singular systems."
  },
  {
   "property": "C57",
   "status": "proved",
   "theorems": [
    "C57_general",
    "C57_levels",
    "C57_thin_refuted",
    "C57_slant_refuted"
   ],
   "note": "At levels, with a beam, one parameter and one direction at a time, in real arithmetic; derivatives of output at depths are not modelled (their calls exchange arguments as in C56). The linear solver is any function that solves non-singular systems."
  },
  {
   "property": "C58",
   "status": "proved",
   "theorems": [
    "C58_orders",
    "C58_general",
    "C58_error",
    "C58_top_refuted",
    "C58_boundary_refuted",
    "C58_stop_refuted"
   ],
   "note": "C58_orders, C58_general and C58_error hold for every run that ends with an answer. The atmosphere is the one of thin layers: how far it is from the equation of transfer is not stated. Refuted: light at the top counted at each order, zero reported at the boundaries, stop on negative light."
  },
  {
   "property": "C59",
   "status": "proved",
   "theorems": [
    "C59_derivatives",
    "C59_jump_refuted"
   ],
   "note": "C59_derivatives for every differentiable curve of atmospheres; layers whose derivative flag is off must have phase functions that do not vary. Refuted at a thickness equal to the limit (C59_jump_refuted)."
  },
  {
   "property": "C60",
   "status": "proved",
   "theorems": [
    "C60_not_negative",
    "C60_grows",
    "C60_below",
    "C60_unit",
    "C60_unit_refuted"
   ],
   "note": "C60_not_negative, C60_grows, C60_below, C60_unit for every run that ends with an answer; negative components after the zeroth are outside of the first three. Refuted: proportional to the light at a fixed tolerance (C60_unit_refuted); light that enters at the top (C58_top_refuted)."
  },
  {
   "property": "C61",
   "status": "proved",
   "theorems": [
    "C61_second_order",
    "C61_spherical_refuted"
   ],
   "note": "Full statement proved for the solver without derivatives: C61_second_order from a separate description of the light scattered twice by differential equations; existence of such light shown on a sample. C61_spherical_refuted shows the exception for slants other than that at the top. Derivatives of the solver are not modelled."
  }
 ]
}