{
 "claims": [
  {
   "property": "C01",
   "status": "proved",
   "theorems": [
    "C01_multiplicity_rule",
    "C01_multiplicity_support",
    "C01_taus_exact"
   ],
   "note": ""
  },
  {
   "property": "C02",
   "status": "proved",
   "theorems": [
    "C02_all_L_count",
    "C02_rng_count"
   ],
   "note": ""
  },
  {
   "property": "C03",
   "status": "proved",
   "theorems": [
    "C03_dimension_sum",
    "C03_dimSO5_exact"
   ],
   "note": ""
  },
  {
   "property": "C04",
   "status": "proved",
   "theorems": [
    "C04_rngVvarL",
    "C04_rngVrngL",
    "C04_rngVallL",
    "C04_rngV",
    "C04_rngL",
    "C04_allL",
    "C04_invalid_ranges_raise"
   ],
   "note": ""
  },
  {
   "property": "C05",
   "status": "proved",
   "theorems": [
    "C05_omitted_L_max_exact",
    "C05_omitted_L_max_refuted"
   ],
   "note": ""
  },
  {
   "property": "C06",
   "status": "proved",
   "theorems": [
    "C06_full_labels",
    "C06_layout",
    "C06_omitted_L_max",
    "C06_invalid_ranges_raise",
    "C06_radial_labels"
   ],
   "note": ""
  },
  {
   "property": "C07",
   "status": "proved",
   "theorems": [
    "C07_concat",
    "C07_split"
   ],
   "note": ""
  },
  {
   "property": "C08",
   "status": "proved",
   "theorems": [
    "C08_components_parse_back",
    "C08_injective",
    "C08_illegal_raises",
    "C08_database_lookup"
   ],
   "note": ""
  },
  {
   "property": "C09",
   "status": "proved",
   "theorems": [
    "C09_datafile_names",
    "C09_dir2_names",
    "C09_dir1_names",
    "C09_equal_numbers",
    "C09_dir2_dict_keeps_last",
    "C09_dir1_dict_keeps_last",
    "C09_base_dict_keeps_last",
    "C09_all_directories_kept_refuted"
   ],
   "note": ""
  },
  {
   "property": "C10",
   "status": "proved",
   "theorems": [
    "C10_labels",
    "C10_illegal_raises",
    "C10_exchange"
   ],
   "note": ""
  },
  {
   "property": "C11",
   "status": "proved",
   "theorems": [
    "C11_selection_rules",
    "C11_illegal_raises",
    "C11_value",
    "C11_total",
    "C11_get_CG_file",
    "C11_show_CG_file"
   ],
   "note": ""
  },
  {
   "property": "C12",
   "status": "proved",
   "theorems": [
    "C12_exchange_symmetry"
   ],
   "note": ""
  },
  {
   "property": "C13",
   "status": "proved",
   "theorems": [
    "C13_cache_transparent"
   ],
   "note": ""
  },
  {
   "property": "C14",
   "status": "proved",
   "theorems": [
    "C14_value_from_first_load",
    "C14_value_not_loaded",
    "C14_directory_change_honoured_refuted"
   ],
   "note": ""
  },
  {
   "property": "C15",
   "status": "proved",
   "theorems": [
    "C15_not_half_integer_raises",
    "C15_selection_rules",
    "C15_total"
   ],
   "note": ""
  },
  {
   "property": "C16",
   "status": "proved",
   "theorems": [
    "C16_parse_faithful",
    "C16_parse_total",
    "C16_other_symbol_raises",
    "C16_parse_degree"
   ],
   "note": ""
  },
  {
   "property": "C17",
   "status": "proved",
   "theorems": [
    "C17_shifts_add_up",
    "C17_extra_shift_in_front",
    "C17_disabled_assertion"
   ],
   "note": ""
  },
  {
   "property": "C18",
   "status": "proved",
   "theorems": [
    "C18_S_operators_unshifted",
    "C18_remaining_case",
    "C18_product_raises",
    "C18_never_arises_refuted"
   ],
   "note": ""
  },
  {
   "property": "C19",
   "status": "proved",
   "theorems": [
    "C19_splits_well_formed",
    "C19_no_mixed_pair"
   ],
   "note": ""
  },
  {
   "property": "C20",
   "status": "proved",
   "theorems": [
    "C20_factorisation",
    "C20_exceptions",
    "C20_offsets"
   ],
   "note": ""
  },
  {
   "property": "C21",
   "status": "proved",
   "theorems": [
    "C21_nonpositive_lambda",
    "C21_product_denotes_word",
    "C21_only_ValueError",
    "C21_block_range",
    "C21_no_shape_error"
   ],
   "note": ""
  },
  {
   "property": "C22",
   "status": "proved",
   "theorems": [
    "C22_endpoints_do_not_suffice_refuted",
    "C22_large_lambda_succeeds",
    "C22_success_exactly"
   ],
   "note": ""
  },
  {
   "property": "C23",
   "status": "proved",
   "theorems": [
    "C23_su11_relations",
    "C23_casimir",
    "C23_beta2_and_bDb"
   ],
   "note": ""
  },
  {
   "property": "C24",
   "status": "proved",
   "theorems": [
    "C24_beta_ladders_square",
    "C24_inverses",
    "C24_derivative"
   ],
   "note": ""
  },
  {
   "property": "C25",
   "status": "proved",
   "theorems": [
    "C25_inverse_square",
    "C25_inverse_square_other_order",
    "C25_second_derivative",
    "C25_second_derivative_su11",
    "C25_lambda_one_raises"
   ],
   "note": ""
  },
  {
   "property": "C26",
   "status": "proved",
   "theorems": [
    "C26_identity_same_lambda",
    "C26_transpose",
    "C26_one_step",
    "C26_composition",
    "C26_orthogonal",
    "C26_band"
   ],
   "note": ""
  },
  {
   "property": "C27",
   "status": "proved",
   "theorems": [
    "C27_AM_definite",
    "C27_AM_indefinite",
    "C27_AM_empty",
    "C27_tame",
    "C27_tame_is_scalar_refuted",
    "C27_scalar_is_tame",
    "C27_parity",
    "C27_parity_PiqPi_refuted"
   ],
   "note": ""
  },
  {
   "property": "C28",
   "status": "proved",
   "theorems": [
    "C28_Hamiltonian",
    "C28_HamSH3",
    "C28_HamSH6",
    "C28_RigidBeta",
    "C28_RWC",
    "C28_zero_terms_omitted",
    "C28_encoders_are_scalar"
   ],
   "note": ""
  },
  {
   "property": "C29",
   "status": "proved",
   "theorems": [
    "C29_ME_total",
    "C29_ME_negative_raises",
    "C29_product_of_zonal_functions",
    "C29_sum_rule",
    "C29_transpose",
    "C29_Q",
    "C29_QxQ",
    "C29_QxQxQ",
    "C29_QxQxQ_m3",
    "C29_QxQxQ_m3_refuted"
   ],
   "note": ""
  },
  {
   "property": "C30",
   "status": "proved",
   "theorems": [
    "C30_diagonals",
    "C30_product",
    "C30_sqLdim_sign_refuted"
   ],
   "note": ""
  },
  {
   "property": "C31",
   "status": "proved",
   "theorems": [
    "C31_values",
    "C31_davidson",
    "C31_davidson_documented_refuted",
    "C31_parity",
    "C31_jig",
    "C31_constant_parity_refuted",
    "C31_test",
    "C31_test_bases",
    "C31_show"
   ],
   "note": ""
  },
  {
   "property": "C32",
   "status": "proved",
   "theorems": [
    "C32_types",
    "C32_scales",
    "C32_designators",
    "C32_amp_scale_refuted"
   ],
   "note": ""
  },
  {
   "property": "C33",
   "status": "proved",
   "theorems": [
    "C33_eig_fit",
    "C33_rat_fit",
    "C33_output",
    "C33_listln",
    "C33_output_atomic_refuted",
    "C33_listln_atomic_refuted",
    "C33_rat_fit_atomic_refuted",
    "C33_scales",
    "C33_datum",
    "C33_basis_type"
   ],
   "note": ""
  },
  {
   "property": "C34",
   "status": "proved",
   "theorems": [
    "C34_defaults",
    "C34_history",
    "C34_omitted",
    "C34_functions"
   ],
   "note": ""
  },
  {
   "property": "C35",
   "status": "proved",
   "theorems": [
    "C35_segment",
    "C35_full_space_operator",
    "C35_unknown_symbol",
    "C35_split"
   ],
   "note": ""
  },
  {
   "property": "C36",
   "status": "proved",
   "theorems": [
    "C36_signs",
    "C36_documented_sign_refuted"
   ],
   "note": ""
  },
  {
   "property": "C37",
   "status": "proved",
   "theorems": [
    "C37_tame_blocks",
    "C37_tame_total",
    "C37_full_blocks",
    "C37_full_lengths",
    "C37_full_blocks_refuted"
   ],
   "note": ""
  },
  {
   "property": "C38",
   "status": "proved",
   "theorems": [
    "C38_Lvals",
    "C38_validate_Lvals",
    "C38_invalid_ranges_raise"
   ],
   "note": ""
  },
  {
   "property": "C39",
   "status": "proved",
   "theorems": [
    "C39_blocks_tile",
    "C39_unknown_block",
    "C39_blocks_are_label_intervals",
    "C39_AmpXspeig_complete",
    "C39_skipping_refuted"
   ],
   "note": ""
  },
  {
   "property": "C40",
   "status": "proved",
   "theorems": [
    "C40_scale_keeps",
    "C40_only_scale_factors",
    "C40_adapt_eigenvalue",
    "C40_adapt_rate",
    "C40_adapt_lowest"
   ],
   "note": ""
  },
  {
   "property": "C41",
   "status": "proved",
   "theorems": [
    "C41_unavailable",
    "C41_no_index_error",
    "C41_index_error"
   ],
   "note": ""
  },
  {
   "property": "C42",
   "status": "proved",
   "theorems": [
    "C42_quartet",
    "C42_expansion",
    "C42_progression",
    "C42_quintet_beyond",
    "C42_too_long",
    "C42_sequence",
    "C42_empty",
    "C42_rates_and_amplitudes",
    "C42_arrays"
   ],
   "note": ""
  },
  {
   "property": "C43",
   "status": "proved",
   "theorems": [
    "C43_row",
    "C43_outside"
   ],
   "note": ""
  },
  {
   "property": "C44",
   "status": "proved",
   "theorems": [
    "C44_disciplined",
    "C44_complete_calls",
    "C44_stale",
    "C44_stale_matrix_refuted"
   ],
   "note": ""
  },
  {
   "property": "C45",
   "status": "proved",
   "theorems": [
    "C45_root_negative",
    "C45_search",
    "C45_alam_negative",
    "C45_root_nonnegative",
    "C45_alam_nonnegative",
    "C45_minimum",
    "C45_lambda_documented_refuted",
    "C45_exceptions",
    "C45_not_converged",
    "C45_smallest_refuted",
    "C45_special_cases",
    "C45_alam_fun"
   ],
   "note": ""
  },
  {
   "property": "C46",
   "status": "proved",
   "theorems": [
    "C46_variable_lambda",
    "C46_constant_lambda",
    "C46_energy",
    "C46_energy_errors"
   ],
   "note": ""
  },
  {
   "property": "C47",
   "status": "proved",
   "theorems": [
    "C47_symmetrised",
    "C47_not_square"
   ],
   "note": ""
  },
  {
   "property": "C48",
   "status": "proved",
   "theorems": [
    "C48_range_validator",
    "C48_posint_validator",
    "C48_division",
    "C48_parity"
   ],
   "note": ""
  },
  {
   "property": "C49",
   "status": "proved",
   "theorems": [
    "C49_scalar_coupling_value",
    "C49_scalar_coupling_is_delta_refuted",
    "C49_scalar_coupling_multiplicity_free"
   ],
   "note": ""
  },
  {
   "property": "C50",
   "status": "proved",
   "theorems": [
    "C50_orthonormal",
    "C50_complete",
    "C50_lowering",
    "C50_phase"
   ],
   "note": ""
  },
  {
   "property": "C51",
   "status": "proved",
   "theorems": [
    "C51_hermitian",
    "C51_selection",
    "C51_matrix",
    "C51_hermitian_matrix",
    "C51_product_defined",
    "C51_product_nil",
    "C51_product_single",
    "C51_designators",
    "C51_product_app",
    "C51_scalar_harmonic",
    "C51_table_of_harmonics",
    "C51_number_of_harmonics"
   ],
   "note": ""
  },
  {
   "property": "C52",
   "status": "proved",
   "theorems": [
    "C52_twin_entries",
    "C52_twin_defined",
    "C52_ranges",
    "C52_empty_word"
   ],
   "note": ""
  },
  {
   "property": "C53",
   "status": "proved",
   "theorems": [
    "C53_no_matrix",
    "C53_common_ranges",
    "C53_single_seniority"
   ],
   "note": ""
  },
  {
   "property": "C54",
   "status": "proved",
   "theorems": [
    "C54_linear",
    "C54_exception",
    "C54_single_L"
   ],
   "note": ""
  },
  {
   "property": "C55",
   "status": "proved",
   "theorems": [
    "C55_pi_entries",
    "C55_antihermitian",
    "C55_pi_defined"
   ],
   "note": ""
  },
  {
   "property": "C56",
   "status": "proved",
   "theorems": [
    "C56_listing",
    "C56_quartet",
    "C56_quartet_documented_refuted",
    "C56_rat_fit",
    "C56_total",
    "C56_never_fails"
   ],
   "note": ""
  },
  {
   "property": "C57",
   "status": "proved",
   "theorems": [
    "C57_rate_is_square",
    "C57_scaled_square",
    "C57_detailed_balance",
    "C57_rate",
    "C57_amplitude",
    "C57_mix"
   ],
   "note": ""
  },
  {
   "property": "C58",
   "status": "proved",
   "theorems": [
    "C58_p1",
    "C58_m1",
    "C58_p_m1",
    "C58_exceptional",
    "C58_documented_refuted"
   ],
   "note": ""
  },
  {
   "property": "C59",
   "status": "proved",
   "theorems": [
    "C59_negative",
    "C59_nonnegative",
    "C59_exceptions"
   ],
   "note": ""
  },
  {
   "property": "C60",
   "status": "proved",
   "theorems": [
    "C60_defaults",
    "C60_setting_used_refuted"
   ],
   "note": ""
  },
  {
   "property": "C61",
   "status": "proved",
   "theorems": [
    "C61_code_shapes",
    "C61_code_never_succeeds",
    "C61_never_succeeds",
    "C61_value_error"
   ],
   "note": ""
  },
  {
   "property": "C62",
   "status": "proved",
   "theorems": [
    "C62_lowest",
    "C62_no_lowest",
    "C62_shown",
    "C62_nothing"
   ],
   "note": ""
  },
  {
   "property": "C63",
   "status": "proved",
   "theorems": [
    "C63_closed_form_is_entry",
    "C63_element_is_entry",
    "C63_nonpositive_lambda_raises",
    "C63_unknown_operator_raises",
    "C63_same_domain_refuted"
   ],
   "note": ""
  },
  {
   "property": "C64",
   "status": "proved",
   "theorems": [
    "C64_powers_of_beta",
    "C64_large_shift",
    "C64_beta4_without_overlap",
    "C64_no_overlap_needed_refuted",
    "C64_inverse_fourth_power_never_settles",
    "C64_raising_exact",
    "C64_lowering_never_settles"
   ],
   "note": ""
  },
  {
   "property": "C65",
   "status": "proved",
   "theorems": [
    "C65_matrix",
    "C65_matched_needed",
    "C65_spectrum"
   ],
   "note": ""
  },
  {
   "property": "C66",
   "status": "proved",
   "theorems": [
    "C66_expectation",
    "C66_ground_level",
    "C66_larger_space",
    "C66_larger_space_beta4_refuted"
   ],
   "note": ""
  },
  {
   "property": "C67",
   "status": "proved",
   "theorems": [
    "C67_amplitudes",
    "C67_sum_rule",
    "C67_unit_operator"
   ],
   "note": ""
  },
  {
   "property": "C68",
   "status": "proved",
   "theorems": [
    "C68_fields",
    "C68_every_line",
    "C68_line",
    "C68_readers_agree",
    "C68_dict",
    "C68_table",
    "C68_blank_line",
    "C68_labels_heeded_refuted"
   ],
   "note": ""
  },
  {
   "property": "C69",
   "status": "proved",
   "theorems": [
    "C69_bases",
    "C69_energy",
    "C69_beta0",
    "C69_lambda0",
    "C69_link",
    "C69_optimum",
    "C69_flat_refuted"
   ],
   "note": ""
  },
  {
   "property": "C70",
   "status": "proved",
   "theorems": [
    "C70_zeros",
    "C70_close",
    "C70_negative_tolerance",
    "C70_sorted",
    "C70_vector_and_matrix",
    "C70_square",
    "C70_round_trip",
    "C70_round_trip_array",
    "C70_relative_refuted"
   ],
   "note": ""
  },
  {
   "property": "C71",
   "status": "proved",
   "theorems": [
    "C71_observed",
    "C71_fresh",
    "C71_without_defaults_refuted",
    "C71_in_force",
    "C71_reproducible",
    "C71_examples",
    "C71_hamiltonian",
    "C71_parameters",
    "C71_taken_back"
   ],
   "note": ""
  },
  {
   "property": "C72",
   "status": "proved",
   "theorems": [
    "C72_run",
    "C72_session",
    "C72_no_exception",
    "C72_one_basis",
    "C72_fresh",
    "C72_stale_refuted"
   ],
   "note": ""
  },
  {
   "property": "C73",
   "status": "proved",
   "theorems": [
    "C73_su11",
    "C73_su11_zero_refuted",
    "C73_bdb",
    "C73_bdb_zero_iff",
    "C73_laplacian",
    "C73_overlap"
   ],
   "note": ""
  },
  {
   "property": "C74",
   "status": "proved",
   "theorems": [
    "C74_same_effect",
    "C74_silent",
    "C74_refusal_prints_nothing",
    "C74_output_tells",
    "C74_listln_tells",
    "C74_datum_tells",
    "C74_eig_fit_tells",
    "C74_basis_tells",
    "C74_transition_tells",
    "C74_transition_number",
    "C74_amp_form_tells",
    "C74_rat_form_tells",
    "C74_rat_form_desg_refuted",
    "C74_listing",
    "C74_scales",
    "C74_defaults",
    "C74_defaults_same",
    "C74_defaults_same_refuted"
   ],
   "note": ""
  },
  {
   "property": "C75",
   "status": "proved",
   "theorems": [
    "C75_sessions",
    "C75_calls",
    "C75_no_writes",
    "C75_results_stay",
    "C75_orderly",
    "C75_remembering_refuted",
    "C75_unfinished_refuted",
    "C75_raised_refuted",
    "C75_prod_value",
    "C75_lc_value"
   ],
   "note": ""
  },
  {
   "property": "C76",
   "status": "proved",
   "theorems": [
    "C76_gamma",
    "C76_orthonormal",
    "C76_differentiable",
    "C76_beta",
    "C76_inverse",
    "C76_derivative",
    "C76_beta2_and_bDb",
    "C76_su11",
    "C76_inverse_square_and_second_derivative",
    "C76_identity",
    "C76_unique",
    "C76_small_lambda_refuted"
   ],
   "note": ""
  },
  {
   "property": "C77",
   "status": "proved",
   "theorems": [
    "C77_powers_of_beta",
    "C77_large_shift",
    "C77_element_is_integral",
    "C77_matrix_of_one_operator"
   ],
   "note": ""
  },
  {
   "property": "C78",
   "status": "proved",
   "theorems": [
    "C78_davidson",
    "C78_eigenfunctions",
    "C78_matrix",
    "C78_energy",
    "C78_expectation",
    "C78_least",
    "C78_bound"
   ],
   "note": ""
  },
  {
   "property": "C79",
   "status": "proved",
   "theorems": [
    "C79_factorises",
    "C79_defined",
    "C79_ladder_harmonic",
    "C79_quadrupole",
    "C79_quadrupole_rigid",
    "C79_unit_length",
    "C79_normalisation",
    "C79_modes",
    "C79_cos3gamma"
   ],
   "note": "RepXspace of one-term operators, in particular quad_op, quadRigid_op and the beta cos(3 gamma) and cos(3 gamma)/beta terms of ACM_Hamiltonian. The Clebsch-Gordan coefficients, read from files, are a parameter: the theorems hold for every table. The radial integrals are exact where lambda changes by one (ACM and oscillator lambda functions), with constant lambda the rigid operator is treated."
  },
  {
   "property": "C80",
   "status": "proved",
   "theorems": [
    "C80_tables_unobservable",
    "C80_stays",
    "C80_only_new_files",
    "C80_incomplete_file",
    "C80_corrected_file_refuted",
    "C80_completed_file_refuted"
   ],
   "note": "The code that reads coefficients is modelled as a program over three operations (look up a coefficient, remember a matrix under a key, clear tables), run with and without the tables. The lambda function is fixed within a session (changing it is the subject of C72), and the radial matrices are a parameter."
  },
  {
   "property": "C81",
   "status": "proved",
   "theorems": [
    "C81_session",
    "C81_one_basis",
    "C81_no_momentum",
    "C81_no_exception",
    "C81_files",
    "C81_retry",
    "C81_supplied",
    "C81_stale"
   ],
   "note": "Joins C72 (settings and tables) and C80 (files and tables). Without the condition on the lambda function the statement is false (C72_stale_refuted, C81_stale). Radial matrices, eigenvalue and inversion routines are parameters."
  },
  {
   "property": "C82",
   "status": "proved",
   "theorems": [
    "C82_davidson_parity",
    "C82_davidson",
    "C82_davidson_steps",
    "C82_davidson_test",
    "C82_davidson_exact_refuted",
    "C82_davidson_refused",
    "C82_symmetrised",
    "C82_shown",
    "C82_shown_accuracy",
    "C82_adapted",
    "C82_rates",
    "C82_elements",
    "C82_symmetric",
    "C82_symmetric_refuted",
    "C82_elements_accuracy",
    "C82_is_close"
   ],
   "note": "Arithmetic is Flocq's model of IEEE binary64 with round to nearest even. Only the scalar formulas named are evaluated in it; matrix products, the eigenvalue routine and the inverse are not. The range limits are part of the statements."
  },
  {
   "property": "C83",
   "status": "proved",
   "theorems": [
    "C83_careful",
    "C83_same_array",
    "C83_returns",
    "C83_untouched",
    "C83_modified",
    "C83_remembered",
    "C83_careless_refuted"
   ],
   "note": "Radial matrices are values here (their sharing is C75); the coefficients and the lambda function are fixed."
  },
  {
   "property": "C84",
   "status": "proved",
   "theorems": [
    "C84_radial",
    "C84_cos3gamma",
    "C84_hamiltonian",
    "C84_parity",
    "C84_RWC",
    "C84_diagonalised",
    "C84_rigid",
    "C84_cubed",
    "C84_beta3",
    "C84_beta3_refuted",
    "C84_number_refuted",
    "C84_quadrupole"
   ],
   "note": "Real arithmetic. The symmetry of the square root of a matrix, where one is computed, is a hypothesis."
  },
  {
   "property": "C85",
   "status": "proved",
   "theorems": [
    "C85_validators",
    "C85_integers",
    "C85_momentum_integers",
    "C85_momentum_others",
    "C85_momentum_raises",
    "C85_momentum_settings",
    "C85_momentum_history_refuted",
    "C85_momentum_new_process",
    "C85_harmonics",
    "C85_radial_new_process",
    "C85_radial",
    "C85_radial_functions",
    "C85_radial_history_refuted"
   ],
   "note": "Floats are real numbers (no infinities or nan); anorm and lambda_base of the momentum matrices are floats; the lambda function is fixed during the history (changes of it are C44 and C72)."
  },
  {
   "property": "C86",
   "status": "proved",
   "theorems": [
    "C86_hamiltonian",
    "C86_rigid",
    "C86_levels",
    "C86_rigid_levels",
    "C86_lambdas",
    "C86_seniority_refuted"
   ],
   "note": "Floats are real numbers; the eigensolver returns ascending eigenvalues with orthonormal eigenvectors of the symmetrised matrix (eigh_sound, met by eigh0). beta^4 and higher products, whose truncated products are not nested, are the refutation of C66."
  },
  {
   "property": "C87",
   "status": "proved",
   "theorems": [
    "C87_levels",
    "C87_strength",
    "C87_amplitudes",
    "C87_report",
    "C87_rates",
    "C87_degenerate_refuted",
    "C87_sign_refuted"
   ],
   "note": "Floats are real numbers: correct means ascending eigenvalues and orthonormal eigenvectors of the symmetrised matrix, and a left inverse. The theorems about transitions are for Hamiltonians that Op_Tame accepts; that about levels is for all. Both runs are assumed to return."
  },
  {
   "property": "C88",
   "status": "proved",
   "theorems": [
    "C88_prints",
    "C88_constant",
    "C88_value_alone",
    "C88_swapped",
    "C88_twice",
    "C88_unusable",
    "C88_rejected",
    "C88_fields",
    "C88_accepted"
   ],
   "note": "The format of a transition and its fill character are those on import (no procedure changes them, C34), the width and precision are not negative. Conversions !r and !a are not considered."
  },
  {
   "property": "C89",
   "status": "proved",
   "theorems": [
    "C89_Hamiltonian",
    "C89_RWC",
    "C89_matrices",
    "C89_levels",
    "C89_listing",
    "C89_transitions",
    "C89_report"
   ],
   "note": "Over the reals. The bases have positive lambda (positive_bases). Equality of the transition lines needs distinct levels within each angular momentum and rate and amplitude functions that ignore the sign, as in C87; the strengths summed over equal levels need neither. The eigenvalue routine is any that meets the contract of C47/C87."
  },
  {
   "property": "C90",
   "status": "proved",
   "theorems": [
    "C90_matrices",
    "C90_homogeneous",
    "C90_run",
    "C90_Hamiltonian",
    "C90_RWC",
    "C90_estimate",
    "C90_Davidson",
    "C90_optimum",
    "C90_link"
   ],
   "note": "Over the reals, for every routine for the radial elements that do not depend on anorm, every eigenvalue routine and every set of coupling coefficients. The root finding in RWC_alam is not modelled: C90_optimum is about the equations it solves."
  },
  {
   "property": "C91",
   "status": "proved",
   "theorems": [
    "C91_words",
    "C91_matrices",
    "C91_Hamiltonian",
    "C91_RWC",
    "C91_levels",
    "C91_listing",
    "C91_transitions",
    "C91_moments",
    "C91_report"
   ],
   "note": "Over the reals. Amplitudes, moments and rates for Hamiltonians that are not treated as L-changing (Op_Tame); levels and their listing for all. The eigenvalue and inversion routines are assumed to meet their specification, and may differ between the two runs."
  },
  {
   "property": "C92",
   "status": "proved",
   "theorems": [
    "C92_Hamiltonian",
    "C92_matrices",
    "C92_potential",
    "C92_concave",
    "C92_concave_sums",
    "C92_floor"
   ],
   "note": "Over the reals. The eigenvalue routine is assumed to meet its specification, and may differ between the runs; Gamma is any function with Gamma(x+1) = x Gamma(x), positive for x > 0."
  },
  {
   "property": "C93",
   "status": "proved",
   "theorems": [
    "C93_rate",
    "C93_continuous"
   ],
   "note": "Over the reals. The eigenvalue routine is assumed to meet its specification, and may differ between the runs. Nothing is claimed about transition rates, which may jump where levels cross."
  },
  {
   "property": "C94",
   "status": "proved",
   "theorems": [
    "C94_seniority",
    "C94_counts",
    "C94_multiplet_counts",
    "C94_multiplet",
    "C94_multiplet_lists",
    "C94_union"
   ],
   "note": "Over the reals. mult v L is the counting specification of C01. The bases are those for which every lambda_v exceeds 1, as in C92. The eigenvalue routine is assumed to meet its specification. c(v,E) is shown to exist as a real number: it is the dimension of the space of radial solutions."
  },
  {
   "property": "C95",
   "status": "proved",
   "theorems": [
    "C95_moments",
    "C95_centroid"
   ],
   "note": "Over the reals. The eigenvalue routine is assumed to meet its specification."
  },
  {
   "property": "C96",
   "status": "proved",
   "theorems": [
    "C96_algebraic",
    "C96_radial_class",
    "C96_square_root",
    "C96_invalid_range"
   ],
   "note": "Over the reals: the symbolic entries are compared by value. Integer arguments (other types are C85)."
  },
  {
   "property": "C97",
   "status": "proved",
   "theorems": [
    "C97_equality",
    "C97_tuples",
    "C97_hash",
    "C97_hash_refuted",
    "C97_transparent",
    "C97_one_entry",
    "C97_found"
   ],
   "note": "The other arguments are values whose == is equality (numbers of one type and tuples of integers); arguments equal across types are C85. The dictionary is a list of entries with hash, key and value, searched by hash first and then by ==."
  },
  {
   "property": "C98",
   "status": "proved",
   "theorems": [
    "C98_selection",
    "C98_forbidden",
    "C98_moment"
   ],
   "note": "Over the reals, with the eigenvalue and inversion routines as parameters assumed to be correct. C98_case is a run with a non-zero amplitude, C98_levels the runs on each of its seniorities."
  }
 ]
}