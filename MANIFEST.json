{
 "claims": [
  {
   "property": "C01",
   "status": "proved",
   "theorems": [
    "C01_never_accepts_higher_energy"
   ],
   "note": "any arithmetic, any functional"
  },
  {
   "property": "C02",
   "status": "proved",
   "theorems": [
    "C02_uphill_refused",
    "C02_only_uphill_refused"
   ],
   "note": ""
  },
  {
   "property": "C03",
   "status": "proved",
   "theorems": [
    "C03_exact_on_quadratics",
    "C03_point_is_global_minimum"
   ],
   "note": ""
  },
  {
   "property": "C04",
   "status": "proved",
   "theorems": [
    "C04_growth_stops_in_doubles",
    "C04_growth_stops_any_trial_step",
    "C04_stops_if_bounded_below",
    "C04_exact_arithmetic_diverges_refuted"
   ],
   "note": "bound 224 evaluations, attained (example); divergence in exact arithmetic by witness; exact termination when F is bounded below"
  },
  {
   "property": "C05",
   "status": "proved",
   "theorems": [
    "C05_backtracking_stops_exact",
    "C05_backtracking_bound",
    "C05_backtracking_stops_doubles"
   ],
   "note": ""
  },
  {
   "property": "C06",
   "status": "proved",
   "theorems": [
    "C06_invalid_tau_reported",
    "C06_valid_tau_never_reported",
    "C06_reaches_the_caller"
   ],
   "note": ""
  },
  {
   "property": "C07",
   "status": "proved",
   "theorems": [
    "C07_returned_point_is_functional_state"
   ],
   "note": ""
  },
  {
   "property": "C08",
   "status": "proved",
   "theorems": [
    "C08_failed_search_in_a_run",
    "C08_failed_search"
   ],
   "note": ""
  },
  {
   "property": "C09",
   "status": "proved",
   "theorems": [
    "C09_nan_energy_accepted_refuted",
    "C09_nan_reference_accepts_everything"
   ],
   "note": ""
  },
  {
   "property": "C10",
   "status": "proved",
   "theorems": [
    "C10_convergence_flag"
   ],
   "note": ""
  },
  {
   "property": "C11",
   "status": "proved",
   "theorems": [
    "C11_budget_and_records"
   ],
   "note": ""
  },
  {
   "property": "C12",
   "status": "proved",
   "theorems": [
    "C12_free_energy_non_increasing"
   ],
   "note": "curve_energy: the energy along the curve is a function of the step, and t=0 is the current point"
  },
  {
   "property": "C13",
   "status": "proved",
   "theorems": [
    "C13_exit_classification"
   ],
   "note": "NoFuel is excluded for doubles by C61"
  },
  {
   "property": "C14",
   "status": "proved",
   "theorems": [
    "C14_restart_zero_is_UB",
    "C14_restart_zero_defined_refuted",
    "C14_direction_schedule"
   ],
   "note": ""
  },
  {
   "property": "C15",
   "status": "proved",
   "theorems": [
    "C15_C16_info_fields",
    "C15_tolerance_is_residual_refuted"
   ],
   "note": ""
  },
  {
   "property": "C16",
   "status": "proved",
   "theorems": [
    "C15_C16_info_fields",
    "C16_fields_initialised_refuted"
   ],
   "note": ""
  },
  {
   "property": "C17",
   "status": "proved",
   "theorems": [
    "C17_slope_exit_agrees",
    "C17_descent_exit_not_lower",
    "C17_maxiter_exit_agrees_refuted",
    "C17_descent_exit_agrees_refuted"
   ],
   "note": ""
  },
  {
   "property": "C18",
   "status": "proved",
   "theorems": [
    "C18_last_iteration_tested_refuted",
    "C18_last_slope_never_tested"
   ],
   "note": ""
  },
  {
   "property": "C19",
   "status": "proved",
   "theorems": [
    "C19_same_collectives"
   ],
   "note": "collectives derived from the event trace; exceptions are assumed to be raised on both ranks"
  },
  {
   "property": "C20",
   "status": "proved",
   "theorems": [
    "C20_cpu_entry",
    "C20_device_entry",
    "C20_mvp2_entries_raise"
   ],
   "note": ""
  },
  {
   "property": "C21",
   "status": "proved",
   "theorems": [
    "C21_returns_only_solutions",
    "C21_raises_only_without_solution",
    "C21_returns_or_raises"
   ],
   "note": ""
  },
  {
   "property": "C22",
   "status": "proved",
   "theorems": [
    "C22_bounded"
   ],
   "note": ""
  },
  {
   "property": "C23",
   "status": "proved",
   "theorems": [
    "C23_walks_towards_the_solution",
    "C23_step_sizes"
   ],
   "note": ""
  },
  {
   "property": "C24",
   "status": "proved",
   "theorems": [
    "C24_succeeds"
   ],
   "note": ""
  },
  {
   "property": "C25",
   "status": "proved",
   "theorems": [
    "C25_residual_equal_to_tolerance_raises",
    "C25_accepted_value_is_returned_refuted"
   ],
   "note": ""
  },
  {
   "property": "C26",
   "status": "proved",
   "theorems": [
    "C26_returned_charge_error",
    "C26_bounded_and_only_failed_to_converge",
    "C26_last_step",
    "C26_linear_count_is_solved",
    "C26_caller_tolerance_refuted"
   ],
   "note": ""
  },
  {
   "property": "C27",
   "status": "proved",
   "theorems": [
    "C27_electrons_conserved",
    "C27_own_count",
    "C27_occupation_of_union"
   ],
   "note": ""
  },
  {
   "property": "C28",
   "status": "proved",
   "theorems": [
    "C28_independent_of_distribution"
   ],
   "note": ""
  },
  {
   "property": "C29",
   "status": "proved",
   "theorems": [
    "C29_bounds_and_monotone",
    "C29_methfessel_paxton_refuted",
    "C29_cold_refuted"
   ],
   "note": ""
  },
  {
   "property": "C30",
   "status": "proved",
   "theorems": [
    "C30_delta_is_the_derivative",
    "C30_windows_differ"
   ],
   "note": ""
  },
  {
   "property": "C31",
   "status": "proved",
   "theorems": [
    "C31_entropy_consistent",
    "C31_spline_refuted"
   ],
   "note": ""
  },
  {
   "property": "C32",
   "status": "proved",
   "theorems": [
    "C32_dxdelta_is_the_derivative",
    "C32_missing_factor",
    "C32_methfessel_paxton_refuted",
    "C32_spline_refuted"
   ],
   "note": ""
  },
  {
   "property": "C33",
   "status": "proved",
   "theorems": [
    "C33_truncation_error"
   ],
   "note": ""
  },
  {
   "property": "C34",
   "status": "proved",
   "theorems": [
    "C34_free_energy_below_energy",
    "C34_methfessel_paxton_and_cold_refuted"
   ],
   "note": ""
  },
  {
   "property": "C35",
   "status": "proved",
   "theorems": [
    "C35_constructor",
    "C35_negative_temperature_raises_refuted",
    "C35_negative_temperature_inverts"
   ],
   "note": ""
  },
  {
   "property": "C36",
   "status": "proved",
   "theorems": [
    "C36_particle_hole",
    "C36_even_delta",
    "C36_slope_in_energy",
    "C36_cold_refuted",
    "C36_fermi_dirac_outside_refuted"
   ],
   "note": ""
  },
  {
   "property": "C37",
   "status": "proved",
   "theorems": [
    "C37_diagonal_gradient_is_derivative"
   ],
   "note": ""
  },
  {
   "property": "C38",
   "status": "proved",
   "theorems": [
    "C38_restarted_slope_not_positive",
    "C38_negative_delta_refuted"
   ],
   "note": ""
  },
  {
   "property": "C39",
   "status": "proved",
   "theorems": [
    "C39_restarted_directions_tangent",
    "C39_conjugate_directions_tangent"
   ],
   "note": ""
  },
  {
   "property": "C40",
   "status": "proved",
   "theorems": [
    "C40_trial_point_orthonormal",
    "C40_full_rank_along_tangents",
    "C40_zero_step_keeps_the_state"
   ],
   "note": ""
  },
  {
   "property": "C41",
   "status": "proved",
   "theorems": [
    "C41_conjugate_slope",
    "C41_conjugate_direction"
   ],
   "note": ""
  },
  {
   "property": "C42",
   "status": "proved",
   "theorems": [
    "C42_eigensolver_arguments_hermitian",
    "C42_log_entries"
   ],
   "note": "Whole-run model UsRun.v (trial points, occupations, entropy, directions of the library; solvers and functional arbitrary subject to system_ok). Exact complex arithmetic."
  },
  {
   "property": "C43",
   "status": "proved",
   "theorems": [
    "C43_off_diagonal_gradient",
    "C43_limit_not_zero",
    "C43_gradient_continuous_refuted"
   ],
   "note": ""
  },
  {
   "property": "C44",
   "status": "proved",
   "theorems": [
    "C44_inner",
    "C44_transform",
    "C44_outer_of_square_matrices",
    "C44_outer_reads_outside_tall_matrices",
    "C44_outer_of_wide_matrices_is_rejected",
    "C44_outer_documented_refuted",
    "C44_add",
    "C44_add_overflows_on_large_matrices",
    "C44_scale_columns",
    "C44_scale_matrix",
    "C44_unsupported_operands_raise",
    "C44_add_and_scale_raise",
    "C44_inner_product_of_the_descent_model"
   ],
   "note": "Exact arithmetic for the values of inner/transform/outer/scale, any element arithmetic for add, bounds, padding and errors; any order of the element stores. zgemm is modelled by its reference semantics with its argument check. C44_outer_documented_refuted: 2x1 witness reading outside."
  },
  {
   "property": "C45",
   "status": "proved",
   "theorems": [
    "C45_product_with_a_square_matrix",
    "C45_extra_zero_columns",
    "C45_wider_is_out_of_bounds",
    "C45_every_product_refuted"
   ],
   "note": "C45_every_product_refuted: 1x1 times 1x2 witness writing outside."
  },
  {
   "property": "C46",
   "status": "proved",
   "theorems": [
    "C46_add_with_beta_zero",
    "C46_scale_columns_ignores_the_destination",
    "C46_scale_ignores_the_destination",
    "C46_elementwise_add_ignores_the_destination",
    "C46_unary_minus_refuted"
   ],
   "note": "binary64 elements (C99 Annex G complex product for std::complex, plain product for Kokkos::complex). C46_unary_minus_refuted: NaN in the uninitialised destination."
  },
  {
   "property": "C47",
   "status": "proved",
   "theorems": [
    "C47_positive_definite_systems_are_solved",
    "C47_contracts_are_met",
    "C47_info_is_ignored",
    "C47_failures_are_reported_refuted"
   ],
   "note": "LAPACK is a parameter with contracts potrf_ok/potrs_ok; C47_contracts_are_met exhibits a proved reference Cholesky meeting them for every order. C47_failures_are_reported_refuted: witness -1."
  },
  {
   "property": "C48",
   "status": "proved",
   "theorems": [
    "C48_scalars",
    "C48_arrays",
    "C48_lists"
   ],
   "note": ""
  },
  {
   "property": "C49",
   "status": "proved",
   "theorems": [
    "C49_scalars_keep_the_lowest_rank",
    "C49_arrays_keep_the_highest_rank",
    "C49_same_rank_wins_refuted"
   ],
   "note": ""
  },
  {
   "property": "C50",
   "status": "proved",
   "theorems": [
    "C50_tapply",
    "C50_missing_key_raises",
    "C50_tapply_op",
    "C50_eval_keeps_entries_drops_communicator",
    "C50_unzip"
   ],
   "note": ""
  },
  {
   "property": "C51",
   "status": "proved",
   "theorems": [
    "C51_sum_over_all_ranks",
    "C51_smaller_communicator_raises",
    "C51_norms_are_rank_local",
    "C51_norm_is_global_refuted"
   ],
   "note": ""
  },
  {
   "property": "C52",
   "status": "proved",
   "theorems": [
    "C52_missing_bands_count_as_zero",
    "C52_missing_bands_reported_refuted"
   ],
   "note": ""
  },
  {
   "property": "C53",
   "status": "proved",
   "theorems": [
    "C53_store_writes_the_addressed_elements_only",
    "C53_round_trip",
    "C53_strides_separate_the_elements",
    "C53_memory_of_another_kind_is_refused",
    "C53_missing_matrix_throws_before_writing",
    "C53_copy_of_packed_buffers",
    "C53_copy_of_strided_buffers_is_wrong"
   ],
   "note": "Host build (no CUDA); the caller's entries are separate allocations; deep_copy is an element-wise copy in any order after an extent check."
  },
  {
   "property": "C54",
   "status": "proved",
   "theorems": [
    "C54_slab_layout",
    "C54_empty_block_list_is_undefined",
    "C54_row_overflow_is_undefined",
    "C54_row_positions_do_not_matter"
   ],
   "note": "32-bit int; C54_empty_block_list_is_undefined and C54_row_overflow_is_undefined are findings."
  },
  {
   "property": "C55",
   "status": "proved",
   "theorems": [
    "C55_keys_and_vectors_aligned"
   ],
   "note": ""
  },
  {
   "property": "C56",
   "status": "proved",
   "theorems": [
    "C56_all_calls_agree",
    "C56_sampled_once",
    "C56_overlapping_first_calls_agree_refuted"
   ],
   "note": "Relaxed atomics as timestamped messages with per-call views (coherence of one object). C56_overlapping_first_calls_agree_refuted is the finding."
  },
  {
   "property": "C57",
   "status": "proved",
   "theorems": [
    "C57_calls_that_do_not_overlap_are_logged_in_order",
    "C57_overlapping_calls_lose_and_duplicate",
    "C57_overlapping_calls_multiply"
   ],
   "note": "Each of clear, append, emit is one atomic step; the real program has a data race, so these interleavings are the mildest outcomes."
  },
  {
   "property": "C58",
   "status": "proved",
   "theorems": [
    "C58_safe_iff_output_is_shorter",
    "C58_plain_text_overruns",
    "C58_one_integer",
    "C58_one_string"
   ],
   "note": "sprintf modelled for %d, %s, %%. The helper has no callers in the repository."
  },
  {
   "property": "C59",
   "status": "proved",
   "theorems": [
    "C59_complete_traversal_is_undefined",
    "C59_partial_traversal",
    "C59_access_by_key"
   ],
   "note": "The library itself only iterates the wave functions and uses at(key), so it does not run into the finding."
  },
  {
   "property": "C60",
   "status": "proved",
   "theorems": [
    "C60_entry_range",
    "C60_entry_decreases",
    "C60_entry_range_in_binary64",
    "C60_entry_positive_in_binary64_refuted",
    "C60_application",
    "C60_application_in_place",
    "C60_short_diagonal_is_undefined"
   ],
   "note": "Exact arithmetic and binary64. The class is not used by nlcg_us. C60_entry_positive_in_binary64_refuted: witnesses 1e80 and 1e110."
  },
  {
   "property": "C61",
   "status": "proved",
   "theorems": [
    "C61_runs_terminate_in_doubles"
   ],
   "note": ""
  },
  {
   "property": "C62",
   "status": "proved",
   "theorems": [
    "C62_search_succeeds"
   ],
   "note": ""
  },
  {
   "property": "C63",
   "status": "proved",
   "theorems": [
    "C63_fletcher_reeves_chain"
   ],
   "note": ""
  },
  {
   "property": "C64",
   "status": "proved",
   "theorems": [
    "C64_trial_points_orthonormal",
    "C64_overlap_positive_definite"
   ],
   "note": "As C42. Orthonormality is stated entry by entry."
  },
  {
   "property": "C65",
   "status": "proved",
   "theorems": [
    "C65_no_slope_error",
    "C65_nonmonotone_smearing_refuted"
   ],
   "note": "Positive part for the three monotone smearings; C65_nonmonotone_smearing_refuted gives runs that stop with SlopeError for Methfessel-Paxton and cold smearing."
  },
  {
   "property": "C66",
   "status": "proved",
   "theorems": [
    "C66_free_energy_never_increases"
   ],
   "note": "As C42, with the hypothesis energy_of_density."
  },
  {
   "property": "C67",
   "status": "proved",
   "theorems": [
    "C67_every_evaluation_has_the_electrons",
    "C67_occupations_of_all_ranks",
    "C67_entropy_of_all_ranks"
   ],
   "note": "No assumption on solvers or functional; k-point keys distinct. The two other theorems identify us_mu/us_fn/us_entropy with the multi-rank models."
  },
  {
   "property": "C68",
   "status": "proved",
   "theorems": [
    "C68_operator_application",
    "C68_large_extents_become_negative"
   ],
   "note": "The caller's operator is a parameter (any function honouring the descriptors); pointwise_honours shows such operators exist."
  },
  {
   "property": "C69",
   "status": "proved",
   "theorems": [
    "C69_vectors",
    "C69_device_memory_is_refused",
    "C69_strided_vectors_are_read_by_stride_refuted"
   ],
   "note": "C69_strided_vectors_are_read_by_stride_refuted: two elements with stride 2."
  },
  {
   "property": "C70",
   "status": "proved",
   "theorems": [
    "C70_directional_derivative",
    "C70_separated_levels",
    "C70_chemical_potential_exists",
    "C70_eigensolver_exists",
    "C70_restarted_slope",
    "C70_conjugate_slope",
    "C70_no_dropped_part"
   ],
   "note": "Fixed Hamiltonian along the curve. C70_chemical_potential_exists and C70_eigensolver_exists show the hypotheses can be met in general; the close pairs are the finding of C72."
  },
  {
   "property": "C71",
   "status": "proved",
   "theorems": [
    "C71_steepest_descent_lowers",
    "C71_conjugate_direction_lowers"
   ],
   "note": "Monotone smearings for the steepest descent direction; Gaussian spline only with max occupancy 1 (C31_spline_refuted)."
  },
  {
   "property": "C72",
   "status": "proved",
   "theorems": [
    "C72_zero_slope_means_stationary",
    "C72_stationary_points_are_flat",
    "C72_degenerate_levels_refuted"
   ],
   "note": "C72_degenerate_levels_refuted: two bands at 0 coupled by the Hamiltonian, for every kappa and eigensolver."
  },
  {
   "property": "C73",
   "status": "proved",
   "theorems": [
    "C73_occupations_in_range_and_monotone",
    "C73_deltas_finite_and_nonnegative",
    "C73_positive_temperature_refuted",
    "C73_methfessel_paxton_delta_refuted"
   ],
   "note": "exp and erf are arbitrary functions under a contract (monotone, ranges); FloatLibm.v shows that correctly rounded ones meet it. Refuted parts: C73_positive_temperature_refuted, C73_methfessel_paxton_delta_refuted."
  },
  {
   "property": "C74",
   "status": "proved",
   "theorems": [
    "C74_residual_monotone",
    "C74_every_step_towards",
    "C74_steps_of_a_run"
   ],
   "note": "Serial reduction; no fused or extended-precision operations."
  },
  {
   "property": "C75",
   "status": "proved",
   "theorems": [
    "C75_search_succeeds_in_double",
    "C75_occupations_of_a_run"
   ],
   "note": "The bound of 371 updates holds for |lo|, |hi| up to 2^39; the hypotheses are conditions on the residual as evaluated in binary64."
  },
  {
   "property": "C76",
   "status": "proved",
   "theorems": [
    "C76_electrons_in_double"
   ],
   "note": "Standard recursive-summation bound, underflow included."
  },
  {
   "property": "C77",
   "status": "proved",
   "theorems": [
    "C77_restarted_directions",
    "C77_directions_determined",
    "C77_restarted_agrees",
    "C77_conjugated_agrees",
    "C77_restarted_reproducible",
    "C77_conjugated_reproducible",
    "C77_every_point_representable",
    "C77_every_matrix_an_operator"
   ],
   "note": "Host memory, exact complex numbers. C77_restarted_agrees / C77_conjugated_agrees connect the memory model with Descent.v, so that C38, C39, C41, C70-C72 hold for the views."
  },
  {
   "property": "C78",
   "status": "proved",
   "theorems": [
    "C78_trial_point",
    "C78_contract_realisable"
   ],
   "note": "Host memory, exact complex numbers; zheevd by contract, met by heevd_ref (spectral theorem)."
  },
  {
   "property": "C79",
   "status": "proved",
   "theorems": [
    "C79_restarted_then_trial",
    "C79_conjugated_then_trial"
   ],
   "note": "Composition of C77, C38, C41 and C78."
  },
  {
   "property": "C80",
   "status": "proved",
   "theorems": [
    "C80_diag",
    "C80_make_diag",
    "C80_diag_of_make_diag"
   ],
   "note": "Exact complex elements."
  },
  {
   "property": "C81",
   "status": "proved",
   "theorems": [
    "C81_value_semantics",
    "C81_usable",
    "C81_equality",
    "C81_gather_communicator",
    "C81_self_move_refuted",
    "C81_moved_from_refuted",
    "C81_moved_from_by_construction"
   ],
   "note": "MPI errors abort; a handle MPI never returned is undefined behaviour."
  },
  {
   "property": "C82",
   "status": "proved",
   "theorems": [
    "C82_assigns_own_keys",
    "C82_raises",
    "C82_state_after_exception",
    "C82_equal_keys",
    "C82_state_update",
    "C82_copies_refuted"
   ],
   "note": "Template operator= is chosen for every non-const lvalue, also of the same type; operator=(map&&) lacks a return statement and is modelled as UB."
  },
  {
   "property": "C83",
   "status": "proved",
   "theorems": [
    "C83_array_delivered",
    "C83_stays_inside",
    "C83_allgatherv",
    "C83_types_in_use",
    "C83_other_abis",
    "C83_padded_pairs_not_delivered",
    "C83_int_double_refuted",
    "C83_types_leak",
    "C83_types_run_out"
   ],
   "note": "Byte-level; lower bounds 0, basic types without gaps; extent of a struct rounded up to MPI's alignment."
  },
  {
   "property": "C84",
   "status": "proved",
   "theorems": [
    "C84_blocks_lost",
    "C84_returns",
    "C84_memory_exhausted",
    "C84_host_reports",
    "C84_device_silent",
    "C84_failure_raises_refuted",
    "C84_cuda_report",
    "C84_failed_factorisation_silent",
    "C84_handle_valid",
    "C84_handle_stable",
    "C84_handles_never_released",
    "C84_destroy_releases_refuted",
    "C84_magma_workspace_short"
   ],
   "note": "Ledger of allocations; the numbers computed on the device and allocations by Kokkos or the libraries are not modelled."
  },
  {
   "property": "C85",
   "status": "proved",
   "theorems": [
    "C85_record_written",
    "C85_only_rank_0_writes",
    "C85_file_contents",
    "C85_read_back",
    "C85_documents_separable",
    "C85_no_line_breaks",
    "C85_invalid_name_terminates",
    "C85_file_name_ignored",
    "C85_non_finite_told_apart_refuted",
    "C85_bands_in_every_record_refuted"
   ],
   "note": "Serialisation of nlohmann::json is modelled; the text of a double is a parameter with the properties it has there (digits, point or exponent, distinct for distinct finite doubles). File writes succeed."
  },
  {
   "property": "C86",
   "status": "proved",
   "theorems": [
    "C86_restarted_writes_nothing_old",
    "C86_conjugated_writes_nothing_old",
    "C86_evaluation",
    "C86_evaluations_from_the_same_point",
    "C86_copy",
    "C86_copy_needed"
   ],
   "note": "Memory is a heap of numbered allocations and views are references. The overlap and preconditioning operators must not write to their argument, the calling program must write only its own memory, and zheevd must meet its contract. Overlapping operands of a kernel are undefined behaviour in the model. Memory is not reused."
  },
  {
   "property": "C87",
   "status": "proved",
   "theorems": [
    "C87_independent_iterations",
    "C87_add",
    "C87_scale_cols",
    "C87_scale_beta",
    "C87_scale",
    "C87_underscore_add",
    "C87_deep_copy",
    "C87_apply_diag",
    "C87_precond_in_place",
    "C87_fresh_matrices",
    "C87_diag",
    "C87_make_diag",
    "C87_rows",
    "C87_map",
    "C87_map_into",
    "C87_delta_eta",
    "C87_g_eta",
    "C87_undefined",
    "C87_overlapping_columns_refuted",
    "C87_transposed_in_place_refuted"
   ],
   "note": "Sequentially consistent interleaving of single element accesses; a race is undefined behaviour, as in C++. Loop start and end are barriers. Vectors of doubles read by a loop are parameters. The reductions (parallel_reduce) run on Kokkos::Serial on the host and are not parallel."
  },
  {
   "property": "C88",
   "status": "proved",
   "theorems": [
    "C88_run_independent_of_distribution",
    "C88_dFdmu_independent",
    "C88_dmu_deta_independent",
    "C88_restarted_independent",
    "C88_conjugated_independent",
    "C88_entropy_independent",
    "C88_sum_error",
    "C88_distributions_close",
    "C88_sum_finite",
    "C88_sum_sign",
    "C88_binary64_refuted"
   ],
   "note": "Exact statement for whole runs; the functional of the caller is a function of the data of all k-points and does not see the distribution. Binary64 statement for the sums; bitwise independence is refuted."
  },
  {
   "property": "C89",
   "status": "proved",
   "theorems": [
    "C89_directional_derivative",
    "C89_energy_at_start",
    "C89_steepest_descent_lowers",
    "C89_conjugate_direction",
    "C89_mean_field"
   ],
   "note": "Removes the fixed Hamiltonian of C70 and C71. Existence of the chemical potential along the curve is proved, not assumed, in the steepest descent and conjugate statements."
  },
  {
   "property": "C90",
   "status": "proved",
   "theorems": [
    "C90_line_search_succeeds",
    "C90_smooth_energies_fall",
    "C90_runs_without_failed_search",
    "C90_accepts_without_decrease_refuted",
    "C90_negative_slope_refuted"
   ],
   "note": "Exact arithmetic. The conditions are on the energy along the direction; C90_negative_slope_refuted shows that a negative slope alone does not suffice, C90_accepts_without_decrease_refuted that an accepted quadratic step need not lower the energy."
  },
  {
   "property": "C91",
   "status": "proved",
   "theorems": [
    "C91_restarted_directions",
    "C91_restarted_same",
    "C91_conjugated_same",
    "C91_trial_point",
    "C91_host_results_kept",
    "C91_failed_eigensolver_refuted",
    "C91_rejected_arguments_refuted",
    "C91_device_unary_minus"
   ],
   "note": "Exact arithmetic; cuBLAS and rocBLAS are taken to compute the documented expressions and to reject the documented leading dimensions; copies between host and device preserve layout and values; enough device memory. Different libraries may be used on the two sides of C91_restarted_same and C91_conjugated_same. C91_failed_eigensolver_refuted and C91_rejected_arguments_refuted: what the host reports, the devices do not."
  },
  {
   "property": "C92",
   "status": "proved",
   "theorems": [
    "C92_linspace_points",
    "C92_linspace_ends",
    "C92_linspace_negative",
    "C92_linspace_first",
    "C92_linspace_first_refuted",
    "C92_linspace_last_refuted",
    "C92_flatten",
    "C92_check_overlap_meaning",
    "C92_check_overlap_message_refuted",
    "C92_check_overlap_local_refuted"
   ],
   "note": "None of the three functions is called by a run (nlcheck_overlap is exported by the library but commented out of the public header). check_overlap in exact arithmetic; the operators are matrices."
  },
  {
   "property": "C93",
   "status": "proved",
   "theorems": [
    "C93_run_in_memory",
    "C93_no_undefined_behaviour",
    "C93_same_on_every_machine",
    "C93_free_energy_never_increases",
    "C93_eigensolver"
   ],
   "note": "Exact arithmetic; one container entry per key (duplicate keys and the layout of the caller's containers are C49 and Exchange.v); the eigenvectors returned depend on the n x n block only, and on a device the eigensolver does not fail (C91_failed_eigensolver_refuted shows why); undefined behaviour that is left is restart = 0 (C14)."
  },
  {
   "property": "C94",
   "status": "proved",
   "theorems": [
    "C94_memory_safe_in_any_arithmetic",
    "C94_every_binary64_run_ends_well",
    "C94_chemical_potential_returns_or_throws",
    "C94_exact_run_is_the_run_in_memory",
    "C94_binary_numbers",
    "C94_nan_noticed_refuted",
    "C94_extents_checked_refuted"
   ],
   "note": "Nothing is assumed of any number. Assumed: loops stay in their index ranges, sizes fit into int, LAPACK and the operators stay inside the memory they are given, the functional returns the agreed extents (C94_extents_checked_refuted shows that this is needed). Numbers are summed in the order of the code on the host and by an arbitrary tree on devices."
  },
  {
   "property": "C95",
   "status": "proved",
   "theorems": [
    "C95_inner_rounding",
    "C95_transform_rounding",
    "C95_outer_rounding",
    "C95_inner_product_rounding",
    "C95_restarted_slope_rounding",
    "C95_conjugated_slope_rounding",
    "C95_sign_beyond_the_bound",
    "C95_size_of_the_bound",
    "C95_sign_refuted",
    "C95_any_expression",
    "C95_any_order_of_summation"
   ],
   "note": "The slope is compared with 2 Re <g_X, d_X> + Re <g_eta, d_eta> of the directions and gradients as computed; how far those are from their exact values depends on the Cholesky solver and the preconditioner and is not bounded. The sum in a device reduction may be a tree of depth at most the number of rows plus one (fair, shallow). The theorems on inner, transform and outer take zgemm to add in index order without fused multiply-add (reference BLAS); C95_any_order_of_summation bounds the sum in an element for any other order, blocking and use of fused operations, for a BLAS that computes each part from the products of parts (not Strassen, not the three-multiplication form)."
  },
  {
   "property": "C96",
   "status": "proved",
   "theorems": [
    "C96_log_file",
    "C96_complete_on_disk",
    "C96_descent_error_kept_in_memory",
    "C96_slope_error_kept_in_memory",
    "C96_old_text_at_the_end",
    "C96_log_of_one_run_refuted",
    "C96_same_digits_refuted",
    "C96_other_ranks_silent",
    "C96_prefixes",
    "C96_pop_without_prefix_is_undefined"
   ],
   "note": "One thread (concurrent messages: C57). POSIX files: a stream writes at its own position, a gap is filled with NUL. The library may hand text over at any time except, in the two theorems on text kept in memory, after the last message. Digits of numbers are a parameter. That a failed run ends with these log statements is read off nlcglib.cpp 432-439, not derived from the driver model."
  },
  {
   "property": "C97",
   "status": "proved",
   "theorems": [
    "C97_vectors_gathered",
    "C97_vectors_too_long",
    "C97_scalars_gathered",
    "C97_magma_workspaces",
    "C97_magma_large_matrices",
    "C97_copied_elements",
    "C97_local_size",
    "C97_every_size_refuted",
    "C97_matrix_addresses"
   ],
   "note": "32-bit int and 64-bit size_t; size_t to int keeps the low bits (implementation-defined before C++20). make_mmatrix between memory spaces and lsize are not called by nlcg_us. Integers inside BLAS, LAPACK, MPI and MAGMA are not modelled; byte counts are not."
  },
  {
   "property": "C98",
   "status": "proved",
   "theorems": [
    "C98_proper_programs",
    "C98_everything_released",
    "C98_second_start_aborts",
    "C98_pairs_refuted"
   ],
   "note": "Contracts of Kokkos (initialised once, finalised once, otherwise the process ends; undefined outside) and MAGMA (counted) are assumed in the model. Host calculations only; device handles are C84."
  },
  {
   "property": "C99",
   "status": "proved",
   "theorems": [
    "C99_one_object",
    "C99_callers_are_served",
    "C99_after_the_end",
    "C99_always_valid_refuted"
   ],
   "note": "std::call_once by its contract (one thread inside, others wait, an exception leaves the flag unset). The steps of the model are atomic. What the threads then do with the logger is C57 and C96."
  },
  {
   "property": "C100",
   "status": "proved",
   "theorems": [
    "C100_failed_copies_are_returned",
    "C100_mvector",
    "C100_memory_of_another_kind"
   ],
   "note": "Whether each cudaMemcpy succeeds, and what the new matrix holds after one that failed, are arbitrary. Buffers with padding between the columns are in C53. The template is not instantiated in the library at this commit."
  },
  {
   "property": "C101",
   "status": "proved",
   "theorems": [
    "C101_lap_times",
    "C101_never_negative",
    "C101_line_search_alone_refuted",
    "C101_not_negative_refuted"
   ],
   "note": "Times are integers, ticks of the clock; the conversion to a double number of seconds is not modelled. An exception is the end of the sequence of operations at any place."
  }
 ]
}