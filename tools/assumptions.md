* **no axioms (closed under the global context)** (87 theorems): `C01_pseudo_obs_accepts_documented_ties`, `C01_pseudo_obs_open_unit_interval`, `C02_pseudo_obs_order_preserving`, `C03_pseudo_obs_increasing_transform_invariant`, `C04_ordinal_row_equivariance_refuted`, `C04_pseudo_obs_row_equivariant`, `C05_pseudo_obs_idempotent`, `C06_average_ranks_sum`, `C06_dense_rank_is_position_among_distinct_values`, `C06_ordinal_ranks_are_a_permutation`, `C06_pseudo_obs_by_method_name`, `C06_rank_is_position_in_sorted_column`, `C06_ranks_without_ties_are_a_permutation`, `C07_tri_indices_lower`, `C07_tri_indices_sides`, `C08_bad_length_rejected`, `C08_matrix_to_params_to_matrix`, `C08_params_to_matrix`, `C102_missing_key_refuted`, `C103_inversion_refuted`, `C107_gaussian_state`, `C111_copula`, `C111_degrees_refuted`, `C111_fit_html`, `C111_fit_text`, `C111_mixture`, `C111_mixture_unfitted_refuted`, `C112_one_dimension_refuted`, `C112_repr`, `C112_str`, `C112_str_one_dimension_refuted`, `C113_rho_refuted`, `C116_few_statistics_refuted`, `C116_parallel_refuted`, `C116_repeated_refuted`, `C120_pseudo_obs`, `C136_ranks`, `C137_pseudo_observations`, `C137_ranks`, `C139_pseudo_observations`, `C139_ranks`, `C30_number_refuted`, `C31_all_versions`, `C31_falling_factorials`, `C31_range_check`, `C31_recurrences`, `C31_second_kind_counts_partitions`, `C33_empty_coefficients_refuted`, `C37_any_schedule`, `C37_caller_array_overwritten_refuted`, `C37_copied_input_unchanged`, `C39_associative`, `C39_determined`, `C39_grouping_matters`, `C39_idempotent`, `C39_merge_dict`, `C39_merge_dicts_changes_second_argument`, `C39_merge_dicts_empty`, `C46_frame`, `C46_keyword_refuted`, `C46_missing_column`, `C46_one_observation`, `C46_permutation`, `C46_right_width`, `C46_round_trip`, `C46_series`, `C46_series_other_labels`, `C46_unlabelled`, `C46_wrong_width`, `C47_case_refuted`, `C47_exact_names_partial`, `C47_other_names`, `C51_sample_one_dimension_refuted`, `C51_sample_shape`, `C52_constructor`, `C54_random`, `C55_fit_random`, `C57_names`, `C57_types`, `C74_columns_refuted`, `C74_fit`, `C74_half_fitted_refuted`, `C74_wrong_shape`, `C96_duplicate_refuted`, `C99_arguments_overwritten_refuted`, `C99_entrywise`, `C99_same_array_refuted`
* **`ClassicalDedekindReals.sig_forall_dec`** (34 theorems): `C108_options`, `C108_unknown`, `C110_array`, `C110_frank_ipsi_number_refuted`, `C110_integers`, `C110_integers_refuted`, `C110_keyword_array`, `C110_keyword_list`, `C110_keyword_number`, `C110_keyword_refuted`, `C110_list_array`, `C110_number`, `C113_irho_refuted`, `C116_pool_refuted`, `C120_column_order`, `C120_names_refuted`, `C120_two_series`, `C120_values`, `C123_correlation`, `C123_correlation_vectors`, `C133_complete_refuted`, `C133_correlations`, `C46_log_lik`, `C46_log_lik_single_refuted`, `C48_names`, `C48_two_vectors`, `C49_complete`, `C49_complete_data`, `C49_everything`, `C49_lengths`, `C49_pairwise`, `C49_two_vectors`, `C56_random_refuted`, `C74_parameters`
* **`FunctionalExtensionality.functional_extensionality_dep`** (2 theorems): `C39_merge_dicts`, `C39_self`
* **`ClassicalDedekindReals.sig_forall_dec`, `FunctionalExtensionality.functional_extensionality_dep`** (179 theorems): `C102_fixed_refuted`, `C102_inversion`, `C102_kept_partial`, `C102_list_grows_refuted`, `C102_never_violated_refuted`, `C102_satisfied_everywhere_refuted`, `C103_array_overwritten_refuted`, `C103_detached`, `C103_frame`, `C103_matrix`, `C103_refines`, `C103_two_copulas_refuted`, `C108_mixture_options_refuted`, `C109_itau_kept`, `C109_itau_one_refuted`, `C109_itau_overwrites_refuted`, `C109_itau_values`, `C10_is_psd_nonstrict`, `C10_is_psd_strict_refuted`, `C10_is_psd_strict_scalar_refuted`, `C10_is_symmetric_meaning`, `C10_is_symmetric_tolerance_refuted`, `C10_near_psd`, `C111_inversion_html_refuted`, `C113_fit_refuted`, `C114_arrays`, `C114_frame`, `C114_samples_refuted`, `C114_stale_refuted`, `C115_fit_ties_refuted`, `C115_to_pobs`, `C115_verbose_refuted`, `C116_in_process`, `C116_one_worker`, `C116_own_workers_refuted`, `C117_radial_symmetry`, `C117_seed_refuted`, `C11_integer_params_refuted`, `C11_nan_stored_on_error_refuted`, `C11_rejected_unchanged`, `C11_set_entry`, `C11_set_line`, `C11_set_matrix`, `C121_class_refuted`, `C121_round_trip`, `C123_goodness_of_fit`, `C123_radial_symmetry`, `C125_fit`, `C125_goodness_of_fit`, `C125_radial_symmetry`, `C126_goodness_of_fit`, `C126_goodness_of_fit_statistic`, `C126_radial_symmetry`, `C128_entries`, `C128_frank`, `C129_average`, `C129_correlations`, `C129_min_max`, `C129_no_ties`, `C129_radial_statistic_refuted`, `C129_ties_refuted`, `C133_pseudo_observations`, `C134_responsibilities`, `C136_empirical`, `C136_exchangeability`, `C136_radial_symmetry`, `C137_empirical`, `C138_empirical`, `C139_empirical`, `C14_item_assignment_leaves_psd`, `C14_log_lik_guard`, `C14_sigma_is_correlation_shaped`, `C14_student_sigma_is_correlation_shaped`, `C14_unchecked_range_refuted`, `C14_wrong_length_params_refuted`, `C15_df_positive_over_vector_histories`, `C15_nonpositive_df_refuted`, `C15_student_params_vector`, `C22_tau_itau_cancel`, `C26_clayton_constructor_refuted`, `C26_inadmissible_rejected`, `C26_parameter_space`, `C26_rejected_assignment_unchanged`, `C28_sign`, `C32_counts_ascents`, `C32_range_check`, `C32_recurrence_symmetry_row_sum`, `C32_zero_refuted`, `C33_horner`, `C36_answer_is_a_root`, `C36_expansion_succeeds`, `C36_fails_loudly`, `C36_good_bracket_is_kept`, `C36_order_of_end_points`, `C36_root_at_end_point_refuted`, `C36_solver_sees_sign_change`, `C40_caller_dictionary_partial`, `C40_caller_dictionary_refuted`, `C40_no_options`, `C40_options`, `C40_other_method`, `C41_exception_keeps_summary_partial`, `C41_exception_refuted`, `C41_inversion_partial`, `C41_inversion_refuted`, `C41_nonconvergence_refuted`, `C41_parameters_partial`, `C42_failed_points`, `C42_log_lik_partial`, `C42_parameters`, `C42_scale_refuted`, `C43_archimedean`, `C43_bivariate_refuted`, `C44_case_insensitive`, `C44_known_methods`, `C44_nan_accepted`, `C44_pobs_error`, `C44_rejects`, `C44_too_few_rows`, `C44_unknown_method`, `C45_archimedean_partial`, `C45_clayton_start`, `C45_elliptical`, `C45_infinite_start`, `C45_inversion_start`, `C45_loop_terminates`, `C45_nan_refuted`, `C45_negative_average_refuted`, `C45_terminates`, `C45_user_start`, `C48_correlation_matrix`, `C54_dense_refuted`, `C54_monotone`, `C54_one_refuted`, `C54_round_trip`, `C54_to_marginals`, `C56_cdf`, `C56_density`, `C56_integers_refuted`, `C56_margins`, `C56_pdf`, `C56_random`, `C57_count`, `C57_defaults`, `C57_dictionary`, `C57_separate`, `C57_single`, `C58_decreasing`, `C58_goodness_of_fit`, `C58_radial_symmetry`, `C58_range`, `C59_grid`, `C59_meaning`, `C60_meaning`, `C60_nonnegative`, `C60_reflection_refuted`, `C60_symmetric`, `C61_exchangeability_coins`, `C61_exchangeability_replication`, `C61_goodness_of_fit`, `C61_radial_symmetry`, `C61_radial_symmetry_coins`, `C61_ties_kept`, `C62_accepted`, `C62_dictionary`, `C62_sizes_refuted`, `C65_e_step`, `C68_convolution`, `C70_odd`, `C70_raw_negative`, `C72_mode_refuted`, `C72_validation`, `C75_comonotone_refuted`, `C75_dependence_lost_refuted`, `C75_nonnegative`, `C75_p_value_refuted`, `C75_statistic`, `C79_clusters_refuted`, `C79_k_means`
* **`ClassicalDedekindReals.sig_forall_dec`, `ClassicalDedekindReals.sig_not_dec`, `FunctionalExtensionality.functional_extensionality_dep`** (63 theorems): `C09_corr_cov_corr`, `C09_cov2corr_is_correlation`, `C09_cov_corr_cov`, `C105_central`, `C105_copula`, `C105_invalid`, `C105_normal_limit`, `C105_reproducible`, `C105_rows`, `C105_seed_refuted`, `C108_default_refuted`, `C108_direct`, `C108_kmeans`, `C108_pem_refuted`, `C117_exchangeability_refuted`, `C117_exchangeability_ties`, `C123_exchangeability`, `C123_expectation_maximisation`, `C124_expectation_maximisation`, `C125_exchangeability`, `C126_expectation_maximisation`, `C126_mixture_margins`, `C127_array_refuted`, `C127_assignments`, `C127_dictionary_refuted`, `C127_fresh`, `C127_owned`, `C130_stops`, `C131_marginals`, `C131_samples`, `C134_step`, `C135_fit_refuted`, `C136_step`, `C138_step`, `C25_density_unique`, `C43_integer_array_refuted`, `C58_exchangeability`, `C59_derivative`, `C59_grid_of_one`, `C59_mirror_image`, `C59_nonnegative`, `C59_swap`, `C61_exchangeability`, `C62_sum_refuted`, `C63_vector`, `C65_errors`, `C65_log_lik_refuted`, `C65_m_step`, `C65_max_iter_refuted`, `C65_run`, `C66_grid`, `C66_random_one_dimension_refuted`, `C66_random_total`, `C66_symmetric`, `C67_clenshaw`, `C78_fit`, `C78_params`, `C78_unknown_method_refuted`, `C81_domain`, `C84_gaussian_degenerate`, `C84_student_infinite`, `C85_unique`, `C86_unique`
* **`ClassicalDedekindReals.sig_forall_dec`, `ClassicalDedekindReals.sig_not_dec`, `Classical_Prop.classic`, `FunctionalExtensionality.functional_extensionality_dep`** (295 theorems): `C100_clayton`, `C101_frank_margin_refuted`, `C101_frank_nan_refuted`, `C104_gumbel`, `C104_near_one_refuted`, `C104_stable_law`, `C105_density`, `C105_mixture`, `C106_marginal`, `C106_rows`, `C106_sample`, `C106_single_refuted`, `C107_global_state_refuted`, `C107_gumbel_twice`, `C107_reproducible`, `C107_unseeded`, `C109_frank_integers_refuted`, `C109_frank_overwrites_refuted`, `C109_frank_twice_refuted`, `C109_kept`, `C109_values`, `C118_alpha_one_refuted`, `C118_defaults_refuted`, `C118_law`, `C118_mirror`, `C118_normal`, `C119_accuracy`, `C119_relative_accuracy_refuted`, `C119_sample_margins`, `C122_ascent`, `C122_run`, `C123_empirical_copula`, `C123_log_likelihood`, `C124_marginals`, `C124_values`, `C125_empirical_copula`, `C125_empirical_density`, `C126_empirical_copula`, `C126_empirical_density`, `C126_mixture_values`, `C127_fit_refuted`, `C127_setters`, `C128_countermonotone_refuted`, `C128_limits`, `C129_frank_radial_partial`, `C129_frank_sign_partial`, `C129_gaussian_sign`, `C129_student_sign`, `C12_rank_correlation_maps_inverse`, `C131_li_refuted`, `C131_likelihood`, `C131_run`, `C131_step`, `C132_density`, `C132_log_partial`, `C132_log_refuted`, `C132_samples`, `C133_archimedean`, `C133_empirical`, `C133_independence`, `C133_samples`, `C134_values`, `C135_values`, `C136_log_likelihood`, `C138_log_likelihood`, `C13_drho_dtau_are_derivatives`, `C16_clayton_cancel`, `C16_clayton_independence_refuted`, `C16_frank_cancel_partial`, `C16_frank_small_u_refuted`, `C16_gumbel_cancel`, `C17_clayton_zero_theta_refuted`, `C17_frank_margins_partial`, `C17_frank_zero_coordinates_refuted`, `C17_frank_zero_theta_refuted`, `C17_margins_and_grounded`, `C18_closed_forms`, `C18_frank_partial`, `C18_frank_refuted`, `C18_frechet_lower`, `C18_probability_and_monotone`, `C19_exchangeable`, `C20_boxes_in_every_dimension`, `C20_frank_boxes_partial`, `C20_frank_negative_mass_refuted`, `C20_frank_rectangles_partial`, `C20_rectangles`, `C21_clayton_dipsi`, `C21_clayton_negative_theta_refuted`, `C21_frank_dipsi`, `C21_gumbel_dipsi`, `C21_other_degrees_rejected`, `C23_clayton_gumbel_dtau`, `C23_frank_dtau_refuted`, `C24_clayton_tail`, `C24_frank_tail`, `C24_gumbel_lambda_refuted`, `C25_clayton`, `C25_clayton_negative_partial`, `C25_clayton_zero_refuted`, `C25_frank_dimensions_refuted`, `C25_frank_negative_refuted`, `C25_frank_partial`, `C25_frank_textbook_partial`, `C25_gumbel_dimensions_refuted`, `C25_gumbel_one`, `C25_gumbel_partial`, `C25_gumbel_sort_refuted`, `C27_clayton_conditional_inversion`, `C27_clayton_minus_one_refuted`, `C27_frank_conditional_inversion`, `C28_alpha_one_refuted`, `C28_bad_arguments`, `C28_derivative`, `C28_direct`, `C28_horner_partial`, `C28_horner_refuted`, `C28_log_degree_one_refuted`, `C28_sibuya_partial`, `C28_sibuya_refuted`, `C28_sort_partial`, `C28_sort_refuted`, `C29_alpha_one_refuted`, `C29_default_log_refuted`, `C29_default_sort_refuted`, `C29_degree_one_refuted`, `C29_methods_partial`, `C30_convex`, `C30_dAdu_refuted`, `C30_extreme_value_form`, `C30_pickands`, `C30_vector`, `C34_log1mexp`, `C34_log1pexp`, `C34_log_sum`, `C34_log_sum_infinite_refuted`, `C34_offset_length_check`, `C35_log_partial`, `C35_log_two_refuted`, `C35_other_orders_rejected`, `C35_stirling_overflow_refuted`, `C35_value_is_iterated_derivative_partial`, `C35_value_is_the_series_partial`, `C38_defined_on_one_period`, `C38_nan_outside_one_period_refuted`, `C38_odd`, `C38_periodic_partial`, `C43_elliptical`, `C43_gaussian_irho`, `C50_large_refuted`, `C50_small_partial`, `C50_small_refuted`, `C51_defaults`, `C51_density`, `C51_log`, `C51_normal_limit`, `C51_scalar_point_refuted`, `C51_validation`, `C51_width_refuted`, `C52_boxes`, `C52_counts`, `C52_grounded`, `C52_monotone`, `C52_one`, `C52_outside`, `C52_range`, `C52_row_by_row`, `C53_uniform_margins`, `C55_copula`, `C55_density`, `C55_log`, `C55_pdf`, `C55_product`, `C56_log_pdf`, `C57_shared_refuted`, `C62_failed_assignment`, `C62_history`, `C63_length`, `C63_mutation_refuted`, `C63_normalised`, `C63_round_trip`, `C63_single_refuted`, `C64_log_partial`, `C64_log_refuted`, `C64_mixture`, `C66_cdf`, `C66_inverse`, `C66_inverse_refuted`, `C66_random`, `C66_range_refuted`, `C68_alpha_one_refuted`, `C68_methods_agree`, `C68_zero_refuted`, `C69_clayton_masks`, `C69_clayton_refuted`, `C69_frank_masks`, `C69_gumbel_masks`, `C70_debye`, `C70_drho_refuted`, `C70_increasing`, `C70_range`, `C70_rho_derivative`, `C71_kanter`, `C71_marshall_olkin`, `C71_row_inside`, `C72_density_one_refuted`, `C72_log_partial`, `C72_neighbours_refuted`, `C72_pareto`, `C72_underflow_refuted`, `C73_density`, `C73_log`, `C73_log_zero_refuted`, `C73_only_beta`, `C76_never_a_copula_refuted`, `C77_independent`, `C77_likelihood`, `C78_dictionary_refuted`, `C80_dilogarithm_exists`, `C80_double_precision_partial`, `C80_everywhere`, `C80_near_one_refuted`, `C80_relative_near_zero`, `C81_debye_1`, `C81_debye_2`, `C81_frank`, `C81_zero`, `C82_accuracy`, `C82_function`, `C82_half_period`, `C82_negative`, `C83_gaussian_closed`, `C83_gaussian_copula`, `C83_gaussian_density`, `C83_gaussian_independent`, `C83_gaussian_pdf`, `C83_gaussian_radial`, `C83_student_cdf_refuted`, `C83_student_copula`, `C83_student_density`, `C83_student_large_df_refuted`, `C83_student_pdf`, `C84_gaussian`, `C84_student_lambda_refuted`, `C84_student_one`, `C84_student_range`, `C84_student_tail`, `C84_student_zero`, `C85_clayton`, `C85_frank`, `C85_gumbel`, `C85_itau`, `C86_inverse`, `C86_kendall`, `C86_median`, `C86_spearman`, `C87_exists`, `C87_student_rho_refuted`, `C88_error`, `C88_frank_rho`, `C89_array`, `C89_inverse`, `C89_outside`, `C89_zero`, `C90_aux_f1_partial`, `C90_density_exists`, `C90_exponent`, `C90_levy`, `C90_pdf`, `C90_peak`, `C91_aux_f1`, `C91_pdf`, `C92_levy_refuted`, `C92_vanishing_refuted`, `C93_aux_f2`, `C93_density_exists`, `C93_exponent`, `C94_mirrored_law`, `C94_negative_beta_refuted`, `C94_pdf_refuted`, `C95_fit`, `C95_objective`, `C95_result`, `C95_start`, `C96_max_iter`, `C96_max_iter_refuted`, `C96_single_refuted`, `C97_accuracy`, `C97_accuracy_complex`, `C97_any_angle_inside`, `C97_dilogarithm_exists`, `C97_functional_equations`, `C97_real_axis`, `C98_above_the_cut_refuted`, `C98_angle_refuted`
