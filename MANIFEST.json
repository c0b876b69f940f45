{
 "claims": [
  {
   "property": "C01",
   "status": "proved",
   "theorems": [
    "C01_marginal_logp_is_log_marginal_sum"
   ],
   "note": ""
  },
  {
   "property": "C02",
   "status": "proved",
   "theorems": [
    "C02_hmm_logp_is_log_sum_over_paths",
    "C02_one_step_chain_has_no_logp"
   ],
   "note": ""
  },
  {
   "property": "C03",
   "status": "proved",
   "theorems": [
    "C03_domain_is_support",
    "C03_domain_total",
    "C03_unsupported_refused",
    "C03_batched_bounds_refused"
   ],
   "note": ""
  },
  {
   "property": "C04",
   "status": "proved",
   "theorems": [
    "C04_recovered_lp_is_bayes_posterior",
    "C04_draw_is_domain_value"
   ],
   "note": ""
  },
  {
   "property": "C05",
   "status": "partial",
   "theorems": [
    "C05_connection_sound_partial",
    "C05_sum_over_first_dim_refuted",
    "C05_unit_dim_broadcast_refuted",
    "C05_array_index_with_slice_refuted",
    "C05_integer_key"
   ],
   "note": "Soundness proved for every well-formed graph over DimShuffle, Elemwise/Blockwise/RandomVariable, CAReduce, Subtensor, AdvancedSubtensor nodes, except graphs that reduce an axis connected to batch dim 0 or array-index a connected variable with a partial slice; both exceptions and the length-1 broadcasting case are refuted by concrete accepted graphs. MarginalRV / signature-less SymbolicRandomVariable inner graphs are not modelled. Integer keys address the position modulo the axis length."
  },
  {
   "property": "C06",
   "status": "partial",
   "theorems": [
    "C06_reduced_logp_aligned_partial",
    "C06_multivariate_aligned_partial",
    "C06_transposition_right_iff_involution",
    "C06_three_cycle_refuted",
    "C06_multivariate_extra_axis_refuted",
    "C06_final_alignment"
   ],
   "note": "Refuted in general: reduce_batch_dependent_logps transposes with the permutation instead of its inverse (wrong exactly for non-involutions, e.g. 3-cycles) and enumerates reduced axes relative to the RV's rank although the logp of a multivariate RV has lower rank. Proved for involutive axis orders; final alignment proved for every permutation."
  },
  {
   "property": "C07",
   "status": "proved",
   "theorems": [
    "C07_broadcast_result",
    "C07_broadcast_error_iff",
    "C07_broadcast_error_class"
   ],
   "note": ""
  },
  {
   "property": "C08",
   "status": "proved",
   "theorems": [
    "C08_dependents_are_reachable_variables",
    "C08_inputs_are_first_blockers"
   ],
   "note": "PyTensor's graph walk is modelled with fuel and its termination proved."
  },
  {
   "property": "C09",
   "status": "proved",
   "theorems": [
    "C09_history_keeps_variables_and_dims",
    "C09_unmarginalize_all_restores"
   ],
   "note": "Histories include failing calls. Variable identity is modelled by name within one model."
  },
  {
   "property": "C10",
   "status": "partial",
   "theorems": [
    "C10_rejected_marginalize_changes_model_refuted",
    "C10_final_check_failure_changes_model_refuted",
    "C10_unknown_name_leaves_model_unchanged_partial",
    "C10_first_variable_refused_leaves_model_unchanged_partial",
    "C10_wrong_variable"
   ],
   "note": "Refuted: marginalize is not atomic."
  },
  {
   "property": "C100",
   "status": "proved",
   "theorems": [
    "C100_total",
    "C100_outside",
    "C100_mean",
    "C100_variance",
    "C100_infinite_variance",
    "C100_gumbel",
    "C100_constants_exist",
    "C100_small_xi_total",
    "C100_small_xi_total_refuted",
    "C100_total_shapes",
    "C100_moments_shapes"
   ],
   "note": "All rows of the docstring table, as improper Riemann integrals of the exp of the modelled logp; the Gamma values, Euler's constant and the sum of 1/k^2 (Basel.v, Gum_Analysis.v) are proved, not assumed. The model is exact real arithmetic. Shapes with 0 < |xi| <= 1e-8, where the code switches to the Gumbel formula, are excluded: their total mass is proved to be below one (C100_small_xi_total)."
  },
  {
   "property": "C101",
   "status": "partial",
   "theorems": [
    "C101_accepted",
    "C101_draw_length",
    "C101_P_kept",
    "C101_checks",
    "C101_logits_normalised",
    "C101_accepted_total",
    "C101_negative_entries_refuted",
    "C101_default_initial"
   ],
   "note": "All clauses proved except the last, which is false of the code: an array with a negative entry whose rows sum to one is accepted (C101_negative_entries_refuted)."
  },
  {
   "property": "C102",
   "status": "partial",
   "theorems": [
    "C102_converted",
    "C102_accepted",
    "C102_complete",
    "C102_covariance_refuted"
   ],
   "note": "All clauses but the last proved; nothing becomes missing when the state-holding variables share their dimensions and labels (C102_complete). The last clause is false of the code: a covariance variable is converted along the wrong axis and makes the states incomplete (C102_covariance_refuted)."
  },
  {
   "property": "C103",
   "status": "partial",
   "theorems": [
    "C103_draws",
    "C103_short_covariances",
    "C103_logp_partial",
    "C103_logp_batched_refuted",
    "C103_logp_shape_unchecked_refuted"
   ],
   "note": "Draws proved for every batch shape. The logp part holds without batch dimensions only: the operator's node keeps the moved parameters (time first), so data of the distribution's own shape are refused unless the first batch dimension is as long as time; the number of series is not checked. Broadcasting between batch dimensions of means and covariances, and the SVD inside MvNormalSVD, are not modelled."
  },
  {
   "property": "C104",
   "status": "partial",
   "theorems": [
    "C104_simulation",
    "C104_keywords",
    "C104_P0_parameters_refuted",
    "C104_default_steps_refuted",
    "C104_axes_refuted"
   ],
   "note": "Simulation proved for every model, number of draws and steps. Refuted as stated: the default of 100 steps cannot be reached (the symbolic steps is still a required input), a parameter that occurs only in P0 is an unknown keyword, and axes of length one disappear from the result (one draw, one state). Not modelled: compile modes, static shapes of the outputs, zero steps in pytensor's scan."
  },
  {
   "property": "C105",
   "status": "proved",
   "theorems": [
    "C105_standardized",
    "C105_transform_uses_training_moments",
    "C105_unit_free",
    "C105_options",
    "C105_not_fitted",
    "C105_fit_transform"
   ],
   "note": "All frames and NaN patterns, over exact reals. scikit-learn's StandardScaler is modelled from its documentation (population variance, NaN skipped, zero scale replaced by 1; its rounding-error test for constant columns is not modelled, non-string column labels are not modelled)."
  },
  {
   "property": "C106",
   "status": "partial",
   "theorems": [
    "C106_filter_choice",
    "C106_documented_refuted",
    "C106_documented_exact",
    "C106_group",
    "C106_missing_group"
   ],
   "note": "Choice of filter and group proved for every string. Refuted: the documented names single and steady_state are always refused."
  },
  {
   "property": "C107",
   "status": "partial",
   "theorems": [
    "C107_state_basis",
    "C107_state_basis_univariate",
    "C107_state_basis_smoother",
    "C107_series_order",
    "C107_series_order_univariate_step",
    "C107_series_order_univariate",
    "C107_component_order",
    "C107_series_order_refuted",
    "C107_series_order_univariate_loglike",
    "C107_series_order_univariate_noisy",
    "C107_series_order_smoother",
    "C107_series_order_univariate_smoother"
   ],
   "note": "Basis and order of states/shocks: every output of the standard and the univariate filter and of the smoother, every dimension, data with missing entries, jitter and length. Order of series: standard filter, for each step with H diagonal or data complete with symmetric H; univariate filter: states and covariances of every run, and the log-likelihood of every step of every run in which no series contributes exactly zero (such a term is taken for a missing entry by the code), which holds by itself when all noise variances exceed one. Refuted where it does not hold: with off-diagonal H and a missing entry, the standard filter's covariances depend on the order of the series (C107_series_order_refuted: -7 against 17/9; there the code keeps cross terms, see C02, C14)."
  },
  {
   "property": "C11",
   "status": "partial",
   "theorems": [
    "C11_functional_marginalize_changes_argument_refuted",
    "C11_recover_marginals_changes_model_refuted",
    "C11_other_dims_survive_partial"
   ],
   "note": "Refuted: from_model shares named_vars_to_dims and _marginalized_named_vars_to_dims with the original."
  },
  {
   "property": "C12",
   "status": "partial",
   "theorems": [
    "C12_unknown_names_ignored_refuted",
    "C12_only_unknown_names_refuted"
   ],
   "note": "Refuted: the check compares vars_to_recover (already filtered) with marginalized_rvs, so it never fires."
  },
  {
   "property": "C13",
   "status": "partial",
   "theorems": [
    "C13_unmarginalize_by_name_always_fails_refuted",
    "C13_unmarginalize_by_variable_partial"
   ],
   "note": "Refuted for every name: unmarginalize looks the name up in named_vars, from which marginalize removed it."
  },
  {
   "property": "C14",
   "status": "partial",
   "theorems": [
    "C14_covariances_psd_partial",
    "C14_diagonal_noise_decoupled",
    "C14_full_rows_decoupled",
    "C14_correlated_noise_refuted"
   ],
   "note": "Proved for every run when noise of observed and missing series is uncorrelated at each step (diagonal H, full rows); false otherwise: masked H is not symmetric (witness)."
  },
  {
   "property": "C15",
   "status": "proved",
   "theorems": [
    "C15_update_is_the_conditional",
    "C15_information_form",
    "C15_joint_density_factorises",
    "C15_minimum_variance",
    "C15_every_step_of_a_run"
   ],
   "note": "Exact arithmetic; solver assumed to solve PSD invertible systems."
  },
  {
   "property": "C16",
   "status": "proved",
   "theorems": [
    "C16_filter_outputs_aligned",
    "C16_empty_data_rejected"
   ],
   "note": "All filters, any update/predict; an empty data set is rejected. (The Cholesky filter returns squared P0 at t=0: see C62.)"
  },
  {
   "property": "C17",
   "status": "partial",
   "theorems": [
    "C17_time_varying_matrices_reach_their_slots",
    "C17_smoother_matrices_reach_their_slots",
    "C17_univariate_static",
    "C17_univariate_filter_refuted"
   ],
   "note": "Standard and square-root filters and smoother proved for all 2^7 (2^3) subsets; the univariate filter overrides kalman_step without unpacking, so any time-varying matrix is misrouted (refuted)."
  },
  {
   "property": "C18",
   "status": "partial",
   "theorems": [
    "C18_standard_loglike_partial",
    "C18_standard_one_series",
    "C18_standard_refuted",
    "C18_sqrt_one_series",
    "C18_sqrt_refuted",
    "C18_sqrt_quadratic_term_refuted",
    "C18_univariate_loglike_partial",
    "C18_univariate_refuted"
   ],
   "note": "True for one series; false for two or more (normalising constant, logdet multiplicity, L^-1 L^-1)."
  },
  {
   "property": "C19",
   "status": "partial",
   "theorems": [
    "C19_all_missing_standard",
    "C19_all_missing_sqrt",
    "C19_observed_rows_only_partial",
    "C19_partial_missing_loglike_refuted",
    "C19_univariate_ignores_nan",
    "C19_obs_index_lists_the_observed_series",
    "C19_univariate_fill_value_refuted",
    "C19_missing_slots_ignored_rounding",
    "C19_missing_step_logp_rounding",
    "C19_univariate_missing_slots_ignored_rounding",
    "C19_univariate_missing_step_logp_rounding"
   ],
   "note": "Moments proved; log-likelihood of partly missing rows is wrong; the univariate filter treats the fill value as data. The same in computer arithmetic, whatever the rounding and the linear algebra routines (Tight_G)."
  },
  {
   "property": "C20",
   "status": "partial",
   "theorems": [
    "C20_univariate_equals_joint",
    "C20_jitter_difference",
    "C20_loglike_refuted"
   ],
   "note": "Moments proved; log-likelihoods differ from the standard filter's for two or more series."
  },
  {
   "property": "C21",
   "status": "partial",
   "theorems": [
    "C21_smoother_alignment_partial",
    "C21_time_varying_matrices_off_by_one",
    "C21_time_varying_refuted",
    "C21_rts_step_partial",
    "C21_rts_step_jitter",
    "C21_intercept_ignored",
    "C21_intercept_refuted"
   ],
   "note": "Alignment and RTS step proved for static matrices without intercept; time-varying matrices are off by one and the intercept is ignored."
  },
  {
   "property": "C22",
   "status": "proved",
   "theorems": [
    "C22_differencing_identity",
    "C22_design_size"
   ],
   "note": "Every trajectory of the fast state space, every order and coefficient ring, every t >= d + S D. Season length >= 1 assumed when a seasonal order is positive."
  },
  {
   "property": "C23",
   "status": "proved",
   "theorems": [
    "C23_ar_column_is_product_polynomial",
    "C23_ma_column_is_product_polynomial",
    "C23_state_long_enough",
    "C23_orders_rejected_iff_lags_overlap",
    "C23_season_length_zero_accepted"
   ],
   "note": "Both polynomial identities for every admissible order, and the exact rejection condition. Finding: season length 0 with positive seasonal orders is accepted (C23_season_length_zero_accepted), so admissible needs S >= 1."
  },
  {
   "property": "C24",
   "status": "proved",
   "theorems": [
    "C24_sarima_equation",
    "C24_interpretable_equation",
    "C24_interpretable_states"
   ],
   "note": "Fast and interpretable structures, full SARIMA equation including differencing; for t >= number of states (before that, initial-state terms enter)."
  },
  {
   "property": "C25",
   "status": "partial",
   "theorems": [
    "C25_structural_labels_partial",
    "C25_trend_state_names_refuted",
    "C25_cycle_shock_names_refuted",
    "C25_ar_param_shape_refuted",
    "C25_regression_param_shape_refuted",
    "C25_varmax_labels",
    "C25_varmax_param_shape_partial",
    "C25_varmax_sigma_obs_shape_refuted",
    "C25_ets_labels",
    "C25_ets_param_shape",
    "C25_ets_seasonal_shape_refuted",
    "C25_sarima_labels",
    "C25_sarima_interpretable_labels_partial",
    "C25_sarima_interpretable_labels_refuted",
    "C25_varmax_default_names",
    "C25_ets_seasonal_shape",
    "C25_trend_labels",
    "C25_ets_shock_labels",
    "C25_ets_shock_labels_distinct"
   ],
   "note": "Label counts are proved for VARMAX, ETS, SARIMA(fast) and listed structural components; the statement is false where a _refuted theorem shows it: structural (skipped derivatives, order>7, cycles without innovations, masked AR lags, regression innovations), VARMAX sigma_obs shape, ETS initial_seasonal shape with several series, SARIMA interpretable state names when a seasonal part has no non-seasonal one (exact characterisation proved). Default VARMAX series names state.1..k, distinct. Texts of the trend and ETS labels."
  },
  {
   "property": "C26",
   "status": "proved",
   "theorems": [
    "C26_varma_equation",
    "C26_varma_start",
    "C26_varma_accepted"
   ],
   "note": "for every order, number of series, coefficients and shock sequence; the intercepts are zero in the code. With stationary initialization the initial state is an arbitrary vector."
  },
  {
   "property": "C27",
   "status": "partial",
   "theorems": [
    "C27_ets_recursions",
    "C27_ets_accepted",
    "C27_docstring_damped_refuted",
    "C27_docstring_holt_winters_refuted",
    "C27_damped_without_trend_refuted",
    "C27_string_name_refuted"
   ],
   "note": "The standard ETS recursions (Hyndman) are proved for every option, period and parameter. The literal docstring equations for damped and Holt-Winters models are refuted, as are 'damped_trend ignored without trend' and string endog_names."
  },
  {
   "property": "C28",
   "status": "proved",
   "theorems": [
    "C28_season_pattern",
    "C28_season_period",
    "C28_season_sums_to_zero",
    "C28_season_recursion",
    "C28_season_accepted",
    "C28_pop_state_option_refuted"
   ],
   "note": "Documented pattern for every constructible TimeSeasonality, counting periods from t=1 (the observation at t=0, before any transition, is init[0], i.e. period s). Extra finding: pop_state=False can never construct a component."
  },
  {
   "property": "C29",
   "status": "proved",
   "theorems": [
    "C29_frequency_pattern",
    "C29_frequency_period",
    "C29_dropped_state_irrelevant",
    "C29_frequency_equations",
    "C29_cycle_equations",
    "C29_cycle_amplitude",
    "C29_cycle_period",
    "C29_accepted"
   ],
   "note": "Real cos/sin of the Coq reals; floating point not modelled."
  },
  {
   "property": "C30",
   "status": "partial",
   "theorems": [
    "C30_trend_equations_partial",
    "C30_order_3_refuted",
    "C30_trend_actual",
    "C30_linear_trend"
   ],
   "note": "Holds for order 1 and 2 with every innovation mask. Refuted for every order >= 3: the transition matrix is a full upper triangle of ones, so every state is moved by all higher derivatives at once; C30_trend_actual states what holds instead."
  },
  {
   "property": "C31",
   "status": "proved",
   "theorems": [
    "C31_ar_equation",
    "C31_ar_noise"
   ],
   "note": ""
  },
  {
   "property": "C32",
   "status": "proved",
   "theorems": [
    "C32_superposition",
    "C32_states",
    "C32_noise",
    "C32_associative",
    "C32_duplicate_names_rejected"
   ],
   "note": "Random-variable independence itself is the block structure of C32_noise."
  },
  {
   "property": "C33",
   "status": "partial",
   "theorems": [
    "C33_own_placeholders_partial",
    "C33_two_autoregressions_refuted",
    "C33_two_trends_refuted",
    "C33_second_build_refuted",
    "C33_build_keeps_matrices",
    "C33_regression_coords_refuted",
    "C33_initial_covariance",
    "C33_measurement_error_flag"
   ],
   "note": "Holds when no parameter/data name is repeated. Refuted in general: two AR (or two trend) components share the fixed parameter names and the first one's placeholders are lost; build() appends P0 to the component so a second build lists it twice; two regressions share the coordinate exog_state."
  },
  {
   "property": "C34",
   "status": "partial",
   "theorems": [
    "C34_slices_partition",
    "C34_sum_of_extractions",
    "C34_combined_component",
    "C34_separate_component",
    "C34_mislabelled_column_refuted",
    "C34_statespace_name_refuted",
    "C34_cleanup_labels"
   ],
   "note": "Holds for components whose names do not start with StateSpace and with k_states labels. Refuted for a trend with a skipped derivative (labels shift into the next component) and for a component named StateSpace... The label clean-up is characterised (leftmost removal)."
  },
  {
   "property": "C35",
   "status": "partial",
   "theorems": [
    "C35_horizon_sound",
    "C35_periods",
    "C35_end_date",
    "C35_end_integer_excluded_refuted",
    "C35_initial_state",
    "C35_periods_xor_end",
    "C35_quiet_default_start_refuted",
    "C35_scenario_index_alone_refuted",
    "C35_scenario_index",
    "C35_scenario_needs_index",
    "C35_array_first_scenario_refuted"
   ],
   "note": "Proved: soundness of every returned index, n periods after every valid start, end date included, initial state, exclusive options, scenario index. Refuted: an integer end is excluded; verbose=False disables the default start; use_scenario_index still needs periods or end. Also refuted: with use_scenario_index and a dict of scenarios whose first item is an array, the forecast starts at the start label itself and the index of the other items is ignored."
  },
  {
   "property": "C36",
   "status": "partial",
   "theorems": [
    "C36_columns_checked",
    "C36_array_width",
    "C36_same_order_partial",
    "C36_order_refuted",
    "C36_unknown_variable",
    "C36_missing_variable",
    "C36_values_cover_forecast",
    "C36_caller_modified_refuted",
    "C36_consistent"
   ],
   "note": "Missing/extra columns and variables are rejected, lengths agree. Refuted: permuted columns are accepted but used by position; the caller's DataFrame is modified."
  },
  {
   "property": "C37",
   "status": "partial",
   "theorems": [
    "C37_trajectory_partial",
    "C37_observation_equation",
    "C37_first_observation_without_intercept_refuted",
    "C37_design_off_by_one_refuted",
    "C37_requested_length",
    "C37_data_length",
    "C37_data_steps_refuted",
    "C37_forecast_first_step",
    "C37_initial_noise_shared_refuted"
   ],
   "note": "Proved: lengths, labels, latent dynamics with the matrices of time t, observation equation for static Z,H and zero intercept. Refuted: first observation lacks the intercept d; with time-varying d/Z the observation at t+1 uses time t; steps together with use_data_time_dim gives one state too many; the initial state, initial measurement error and first shock share their random numbers."
  },
  {
   "property": "C38",
   "status": "proved",
   "theorems": [
    "C38_trajectory_convolution",
    "C38_single_shock",
    "C38_covariance_shock",
    "C38_exclusive",
    "C38_compile_kwargs_refuted",
    "C38_orthogonalized_covariance_refuted"
   ],
   "note": "All three clauses proved for every horizon, system and shock. In addition two defects are exhibited: compile_kwargs can never be passed, and the matrix used as covariance with orthogonalize_shocks is symmetric only if the shocks are already uncorrelated."
  },
  {
   "property": "C39",
   "status": "partial",
   "theorems": [
    "C39_whole",
    "C39_wf_init",
    "C39_others_unchanged",
    "C39_rejected_partial",
    "C39_rejected_ndim",
    "C39_rejected_whole_refuted",
    "C39_partial",
    "C39_partial_accepts",
    "C39_readback",
    "C39_ints_only_refuted",
    "C39_read_never_refuted",
    "C39_tensor_unit_refuted",
    "C39_tensor_then_part_refuted",
    "C39_copies_read",
    "C39_copies_write_refuted",
    "C39_init_time_varying_refuted",
    "C39_init_tensor"
   ],
   "note": "Whole and partial assignment, read-back, frame and copies proved; refuted: an all-int full index overwrites whole rows (list index), wrong-shape arrays are stored before being rejected, reads of never-time-varying matrices with one slice too few, tensors without time axis, copies share the registered shapes, constructor does not register time-varying shapes. PyTensor's treatment of list indices is assumed (stated in Repr_Model.v). Tensors given at construction (C39_init_tensor)."
  },
  {
   "property": "C40",
   "status": "partial",
   "theorems": [
    "C40_missing_exactly_nan",
    "C40_collision",
    "C40_no_nan_collision_refuted",
    "C40_infinite_refuted",
    "C40_conditional_agrees",
    "C40_marker_forgotten_refuted",
    "C40_mask",
    "C40_infinite_marker",
    "C40_nan_marker"
   ],
   "note": "Proved for data whose only invalid entries are NaN: exactly they are missing, everything else unchanged, collisions rejected when NaN occur. Refuted: the marker appearing in data without NaN is silently taken as missing; infinities are treated as missing; a custom marker is forgotten by conditional sampling and forecasting. Infinite and NaN markers are covered too."
  },
  {
   "property": "C41",
   "status": "partial",
   "theorems": [
    "C41_reloaded_iff",
    "C41_roundtrip_partial",
    "C41_other_values_refuted",
    "C41_rejected_refuted"
   ],
   "note": "Exact characterisation of the configurations that round-trip (scalars, lists and dicts of plain values at top level; arrays, dims tuples and plain values one level down); for every other configuration load fails or changes it."
  },
  {
   "property": "C42",
   "status": "partial",
   "theorems": [
    "C42_text_partial",
    "C42_names_ignored_refuted",
    "C42_version_type_refuted"
   ],
   "note": "Up to collisions equal ids mean equal text of values+version+type; the claim itself is false: parameter names are ignored and version/type are not separated."
  },
  {
   "property": "C43",
   "status": "partial",
   "theorems": [
    "C43_precedence_partial",
    "C43_config_unchanged",
    "C43_stored_seed_refuted"
   ],
   "note": "Precedence and immutability proved for every configuration; refuted: progressbar/random_seed stored in sampler_config are overridden by the defaults of fit's own arguments."
  },
  {
   "property": "C44",
   "status": "proved",
   "theorems": [
    "C44_contiguous",
    "C44_roundtrip",
    "C44_mean"
   ],
   "note": "Transforms, the average over draws and the Cholesky factor are parameters."
  },
  {
   "property": "C45",
   "status": "partial",
   "theorems": [
    "C45_precedence",
    "C45_configuration",
    "C45_unknown_variable",
    "C45_result_partial",
    "C45_name_clash",
    "C45_idata_refuted",
    "C45_affine",
    "C45_moments"
   ],
   "note": "False as stated for a posterior variable called idata: _flatten(idata, **cfgs) raises TypeError (C45_idata_refuted). Everything else proved: precedence, end-to-end result, unknown variables and name clashes rejected. The new values are the mean of the draws plus the factor times the base vector; their mean and covariance are those of the draws."
  },
  {
   "property": "C46",
   "status": "partial",
   "theorems": [
    "C46_discrete",
    "C46_discrete_data",
    "C46_discrete_potential",
    "C46_min_count_partial",
    "C46_min_count_exact_partial",
    "C46_min_count_refuted",
    "C46_quantile_total",
    "C46_quantile_bins",
    "C46_quantile_error",
    "C46_zero_inflation_partial",
    "C46_zero_inflation_refuted",
    "C46_one_quantile_refuted"
   ],
   "note": "False as stated in three cases (the refuted theorems): discrete_histogram with min_count adds dropped values to the next lower reported one, zero_inflation drops negative observations, n_quantiles=1 gives no bin. Proved exactly otherwise, including that the potential is the exact log-likelihood of discrete data without min_count, and a bound on its error for continuous data with a Lipschitz log-density. xhistogram and np.percentile are modelled from their documentation in exact arithmetic."
  },
  {
   "property": "C47",
   "status": "proved",
   "theorems": [
    "C47_normal",
    "C47_exponential",
    "C47_ends",
    "C47_normal_density",
    "C47_exponential_density",
    "C47_model",
    "C47_other_kinds",
    "C47_positive_transform",
    "C47_interval_transform_refuted"
   ],
   "note": "Real arithmetic, positive scales; scalar nodes in topological order, any hierarchy and any subset reparametrized. PyMC graph replacement itself is assumed. A transform onto the positive numbers (the default) leaves the attained values as they were; a user-chosen transform onto a bounded interval, which no Exponential needs, does not."
  },
  {
   "property": "C48",
   "status": "proved",
   "theorems": [
    "C48_set",
    "C48_set_accepted",
    "C48_named_only",
    "C48_shapes_kept",
    "C48_truncate",
    "C48_idempotent",
    "C48_set_all",
    "C48_set_all_accepted",
    "C48_truncate_all",
    "C48_boundary_refuted",
    "C48_outside_refuted",
    "C48_initial",
    "C48_unsized_refuted"
   ],
   "note": "As stated, for every threshold and call history, in exact real arithmetic (with infinities and NaN). The refuted theorems record departures from the documentation: the thresholds themselves are not clipped, and values outside [0,1] are accepted and become NaN. A new VIP object has every lambda at 1/2; a variable declared without a size has one lambda only (the FIXME in the code)."
  },
  {
   "property": "C49",
   "status": "proved",
   "theorems": [
    "C49_resolution",
    "C49_unknown_method",
    "C49_never_both",
    "C49_defaults",
    "C49_accepts",
    "C49_functions",
    "C49_find_MAP_consistent",
    "C49_defaults_accepted",
    "C49_explicit_hess_refuted"
   ],
   "note": "The method table of better_optimize is a parameter. Beyond the claim: an explicit use_hess=True is silently dropped for methods that default to Hessian-vector products (C49_explicit_hess_refuted)."
  },
  {
   "property": "C50",
   "status": "partial",
   "theorems": [
    "C50_dispatch_partial",
    "C50_unknown_method",
    "C50_refuted"
   ],
   "note": "The two supported names are dispatched or raise; every other string returns None without an error, so the claim as stated is false (C50_refuted)."
  },
  {
   "property": "C51",
   "status": "proved",
   "theorems": [
    "C51_loop",
    "C51_deterministic",
    "C51_attributes",
    "C51_attributes_diagnosis",
    "C51_warning_refuted",
    "C51_kernel"
   ],
   "note": "The BlackJax kernel is a parameter. Beyond the claim: the truncation warning fires exactly when nothing was truncated (C51_warning_refuted)."
  },
  {
   "property": "C52",
   "status": "partial",
   "theorems": [
    "C52_smc_particles",
    "C52_smc_population",
    "C52_smc_unit_refused",
    "C52_smc_dimensions",
    "C52_pathfinder",
    "C52_laplace_constrained",
    "C52_laplace_unconstrained",
    "C52_laplace_hessian_partial",
    "C52_laplace_hessian_refuted",
    "C52_laplace_single_refused",
    "C52_laplace_context_refused",
    "C52_laplace_no_dims_refused",
    "C52_smc_logp_arguments",
    "C52_smc_unit_arguments_refuted"
   ],
   "note": "Draws: every variable gets its own block. Not for all shapes: SMC refuses unit axes and a single particle, Laplace a single scalar parameter and unnamed axes; and the Hessian of the constrained Laplace fit is taken with variables swapped when a transformed variable is registered before an untransformed one (C52_laplace_hessian_refuted)."
  },
  {
   "property": "C53",
   "status": "partial",
   "theorems": [
    "C53_logp_is_chain_probability",
    "C53_sampler_matches_logp",
    "C53_probabilities_sum_to_one",
    "C53_shared_P_shape",
    "C53_outside_support_refuted",
    "C53_batched_P_refuted",
    "C53_negative_state_refuted"
   ],
   "note": "Proved for a shared transition array of any order: product formula, agreement with the sampler, total mass one. Refuted: values outside the states do not get -inf (negative ones wrap around), and a batched P gives a logp of the wrong shape."
  },
  {
   "property": "C54",
   "status": "partial",
   "theorems": [
    "C54_parameters_checked",
    "C54_logp_support",
    "C54_logcdf_increasing",
    "C54_logcdf_below",
    "C54_logcdf_above_refuted",
    "C54_density_is_derivative_of_cdf",
    "C54_cdf_onto",
    "C54_support_point_is_mode",
    "C54_scipy_sign",
    "C54_small_xi_range",
    "C54_cdf_onto_shapes"
   ],
   "note": "Everything holds (also: density = derivative of the cdf, every probability is reached, the support point is the mode) except the value of logcdf above the upper end of the support for xi<0, which is -inf instead of 0. For 0<|xi|<=1e-8 the Gumbel formula is used; which probabilities are then reached is proved exactly (C54_small_xi_range)."
  },
  {
   "property": "C55",
   "status": "partial",
   "theorems": [
    "C55_second_moment",
    "C55_sign_probability",
    "C55_certain_sign",
    "C55_mask",
    "C55_variance_split",
    "C55_explained_total",
    "C55_phi_with_importance",
    "C55_phi_with_concentration",
    "C55_default_total_refuted",
    "C55_phi_errors",
    "C55_centered_agrees",
    "C55_phi_dirichlet_parameters"
   ],
   "note": "All identities proved; refuted for the default arguments, where every variable gets the whole explained variance (total n*r2*var)."
  },
  {
   "property": "C56",
   "status": "partial",
   "theorems": [
    "C56_residual_invariant",
    "C56_solution",
    "C56_error_never_grows",
    "C56_terminate_by_size_refuted",
    "C56_preconditioner_refuted",
    "C56_zero_rhs_stops_early",
    "C56_zero_rhs_accepted",
    "C56_zero_rhs_refuted",
    "C56_vector_rhs_refuted"
   ],
   "note": "Residual invariant proved for every matrix, guess and iteration count for an (n,1) right-hand side without preconditioner; refuted: a zero right-hand side with a nonzero guess stops after one step, a preconditioner or terminate_cg_by_size raises, a 1-d right-hand side returns an (n,n) array. Norm of numpy assumed Euclidean on columns."
  },
  {
   "property": "C57",
   "status": "proved",
   "theorems": [
    "C57_factorization",
    "C57_complete",
    "C57_greedy_pivots",
    "C57_default_max_iter_refuted",
    "C57_accepts"
   ],
   "note": "Every PSD matrix, tolerance and explicit max_iter, exact arithmetic. The documented default max_iter raises OverflowError (C57_default_max_iter_refuted)."
  },
  {
   "property": "C58",
   "status": "partial",
   "theorems": [
    "C58_requested_number",
    "C58_other_numbers",
    "C58_variance_limit_refuted",
    "C58_dominant_eigenvalue_refuted",
    "C58_variance_limit_one_refuted",
    "C58_prior_covariance",
    "C58_all_kept",
    "C58_conditional_interpolates",
    "C58_mean_ignored_refuted"
   ],
   "note": "The requested number is proved; the variance-limit variant is refuted (wrong cut). Eigendecomposition assumed correct."
  },
  {
   "property": "C59",
   "status": "partial",
   "theorems": [
    "C59_first_call",
    "C59_no_decorator_coords",
    "C59_later_calls_refuted"
   ],
   "note": "Holds of the first call, and of all calls when the decorator has no coords; refuted for all later calls: the coords are popped from the shared kwargs."
  },
  {
   "property": "C60",
   "status": "partial",
   "theorems": [
    "C60_truncation",
    "C60_ellipsis_iff_dropped",
    "C60_length",
    "C60_first_too_long",
    "C60_dims",
    "C60_rows",
    "C60_random_marker",
    "C60_count",
    "C60_count_value",
    "C60_shorter_refuted",
    "C60_unnamed_axis_refuted",
    "C60_repeated_dim_refuted"
   ],
   "note": "Truncation, rows, markers and counts proved; refuted for dims with an unnamed axis (KeyError) or a repeated dim (shown once). Argument texts are assumed not to contain commas."
  },
  {
   "property": "C61",
   "status": "partial",
   "theorems": [
    "C61_roundtrip_loses_initval_refuted"
   ],
   "note": "Refuted: register_rv is called without initval/transform."
  },
  {
   "property": "C62",
   "status": "partial",
   "theorems": [
    "C62_sqrt_filter_moments_partial",
    "C62_initial_covariance_squared_refuted",
    "C62_jitter_on_factor_refuted",
    "C62_small_jitter"
   ],
   "note": "Equal to the standard filter started at P0 P0' on full data with zero jitter. With a jitter: in the limit of the jitter going to 0 the moments tend to the exact conditionals, also with rows missing as a whole (C62_small_jitter; partly missing rows make the factor of F singular)."
  },
  {
   "property": "C63",
   "status": "proved",
   "theorems": [
    "C63_smoothed_covariances_psd",
    "C63_filter_then_smooth"
   ],
   "note": "Under uncorrelated noise of observed/missing series, as C14."
  },
  {
   "property": "C64",
   "status": "partial",
   "theorems": [
    "C64_stationary_initialization_iff",
    "C64_differenced_refuted"
   ],
   "note": "Refuted as stated: exact criterion proved (solvable iff d = D = 0 and the AR polynomial is nonzero at 1); with any differencing the default initialization is singular for every parameter value. The Lyapunov equation for P0 is C88."
  },
  {
   "property": "C65",
   "status": "proved",
   "theorems": [
    "C65_regression_equation",
    "C65_regression_constant",
    "C65_regression_accepted",
    "C65_regression_count",
    "C65_default_names"
   ],
   "note": " Default regressor names name_1..k, distinct."
  },
  {
   "property": "C66",
   "status": "proved",
   "theorems": [
    "C66_trend_noise",
    "C66_season_noise",
    "C66_frequency_noise",
    "C66_cycle_noise",
    "C66_regression_noise",
    "C66_measurement_noise",
    "C66_no_other_measurement_noise",
    "C66_no_intercepts"
   ],
   "note": "The AR component's noise is C31_ar_noise."
  },
  {
   "property": "C67",
   "status": "partial",
   "theorems": [
    "C67_ets_noise",
    "C67_varmax_no_noise",
    "C67_varmax_noise_is_not_squared",
    "C67_varmax_noise_refuted"
   ],
   "note": "Proved for ETS; refuted for VARMAX, whose H holds sigma_obs unsquared."
  },
  {
   "property": "C68",
   "status": "partial",
   "theorems": [
    "C68_support_point_partial",
    "C68_support_point_length",
    "C68_support_point_refuted"
   ],
   "note": "The greedy scan starts from the random initial draw instead of its support point; holds when the two coincide."
  },
  {
   "property": "C69",
   "status": "proved",
   "theorems": [
    "C69_gibbs_coordinates",
    "C69_gibbs_order"
   ],
   "note": ""
  },
  {
   "property": "C70",
   "status": "proved",
   "theorems": [
    "C70_parameters_checked",
    "C70_logp_is_pmf",
    "C70_logp_outside",
    "C70_logp_boundary",
    "C70_poisson",
    "C70_poisson_total"
   ],
   "note": ""
  },
  {
   "property": "C71",
   "status": "proved",
   "theorems": [
    "C71_inverse_sampler",
    "C71_inverse_terminates"
   ],
   "note": "one element; the exact-zero boundary of the support (a measure-zero set of parameters) is simplified"
  },
  {
   "property": "C72",
   "status": "partial",
   "theorems": [
    "C72_logp_at_zero",
    "C72_documented_at_zero",
    "C72_draws_refuted"
   ],
   "note": "Refuted: NegativeBinomial.dist is called positionally, so the beta draw becomes its mean. Relies on the signature of pymc's NegativeBinomial.dist."
  },
  {
   "property": "C73",
   "status": "proved",
   "theorems": [
    "C73_inducing_points",
    "C73_prior",
    "C73_inducing_values",
    "C73_prior_covariance",
    "C73_conditional_mean",
    "C73_conditional_covariance",
    "C73_certain_at_inducing_points"
   ],
   "note": "Exact arithmetic, jitter as a parameter; solves assumed exact."
  },
  {
   "property": "C74",
   "status": "partial",
   "theorems": [
    "C74_accepted",
    "C74_time",
    "C74_columns_ignored_refuted",
    "C74_registered"
   ],
   "note": "Acceptance (exactly the admissible data), values and time labels proved; the by-name matching of columns is false and refuted: column names are never looked at. Tight_H: exact statement of what the model holds after registration and of every refusal."
  },
  {
   "property": "C75",
   "status": "partial",
   "theorems": [
    "C75_conditional_partial",
    "C75_observed_intercept_refuted"
   ],
   "note": "Latent draws, lengths and covariances proved; the observation mean omits the intercept d (refuted)."
  },
  {
   "property": "C76",
   "status": "partial",
   "theorems": [
    "C76_same_labels_partial",
    "C76_labels_matched_refuted",
    "C76_duplicate_labels_refuted",
    "C76_distinct_labels"
   ],
   "note": "Holds when inputs and outputs carry the same labels; otherwise rows are matched by label and the stored data have extra rows with holes (refuted). Repeated input labels make fit fail after sampling; with distinct labels every label of either side is stored exactly once."
  },
  {
   "property": "C77",
   "status": "proved",
   "theorems": [
    "C77_find_MAP",
    "C77_discrete_refused",
    "C77_hidden_names",
    "C77_transformed_hidden"
   ],
   "note": "Loss, evaluation and optimizer are parameters; freezing of dims/data and jitter are not modelled. The hidden names are characterised exactly."
  },
  {
   "property": "C78",
   "status": "proved",
   "theorems": [
    "C78_fit_rows"
   ],
   "note": "For every layout whose coordinates match the shapes; a mismatch is refused (xarray's length check, in the model)."
  },
  {
   "property": "C79",
   "status": "proved",
   "theorems": [
    "C79_arguments",
    "C79_error_kind",
    "C79_weights",
    "C79_range_and_ends",
    "C79_degree_one_interpolates",
    "C79_interpolation_refuted",
    "C79_monotone_in_data",
    "C79_no_amplification",
    "C79_affine"
   ],
   "note": "Exact reals; scipy's interval search (with its hint) and de Boor evaluation are modelled. Beyond the claim: for degree >= 2 the curve does not interpolate the values, despite the docstring (C79_interpolation_refuted). Consequences over the API: the curve is monotone in the data, never amplifies a data error, and commutes with shifts and scalings of the data."
  },
  {
   "property": "C80",
   "status": "partial",
   "theorems": [
    "C80_register",
    "C80_substitution",
    "C80_success",
    "C80_missing_parameter",
    "C80_rebuild",
    "C80_extra_variables_refuted",
    "C80_named_model_refuted",
    "C80_missing_data_refuted"
   ],
   "note": "Proved: registration, exact success condition, the substituted matrices, missing parameters leave the object unchanged, independence of earlier builds. Refuted: unneeded variables are never reported (the check compares the required names with themselves); a PyMC model with a name is always rejected; missing exogenous data raise KeyError after the object has been half updated. Static-shape check of pytensor abstracted to 'no known axis differs'."
  },
  {
   "property": "C81",
   "status": "partial",
   "theorems": [
    "C81_matrices",
    "C81_default_refuted",
    "C81_time_varying_refuted",
    "C81_bad_names"
   ],
   "note": "Proved for requests of static matrices under names that are no parameter names. Refuted: the default (all matrices) raises for every model with a parameter named x0 or P0 (SARIMA, VARMAX, ETS, structural); time-varying matrices raise because MATRIX_DIMS has no time axis."
  },
  {
   "property": "C82",
   "status": "partial",
   "theorems": [
    "C82_predict",
    "C82_mean_line",
    "C82_predict_posterior",
    "C82_history",
    "C82_extend_off",
    "C82_fit",
    "C82_single_row_refuted",
    "C82_row_as_column_refuted",
    "C82_two_columns",
    "C82_prior_overwrites_data_refuted",
    "C82_params",
    "C82_set_params_refuted"
   ],
   "note": "Proved for every posterior, input of one column with other than one row, and call history. Refuted parts: a single row is squeezed to a scalar and rejected; a single row of several columns is read as several observations; sampling the prior overwrites the training data; a subset of parameters cannot be set. PyMC's set_data and sampling are modelled by their documented effect."
  },
  {
   "property": "C83",
   "status": "partial",
   "theorems": [
    "C83_logp",
    "C83_total_mass",
    "C83_invalid",
    "C83_zero_rate_refuted",
    "C83_draws"
   ],
   "note": "Proved for all positive rates (total mass also for zero rates). Refuted at the documented boundary: with mu1 = 0 (or mu2 = 0) the logp of every value that can occur is NaN. The Bessel function is its power series, logarithms follow IEEE at 0."
  },
  {
   "property": "C84",
   "status": "partial",
   "theorems": [
    "C84_joint",
    "C84_support_axes_finite",
    "C84_summed_axis_refused",
    "C84_support_axes_chain_refuted",
    "C84_first_dependent_unconnected_refuted",
    "C84_chain_refuted",
    "C84_joint_nested",
    "C84_chain_over_nests"
   ],
   "note": "Proved for two finite discrete variables with any batches and dependents when the first dependent of the variable marginalized first is connected to the other one (more variables: apply repeatedly). Refuted: if that first dependent is not connected, the logp is lined up wrongly; after marginalizing a Markov chain the time axis is not a support axis, so marginalizing a time-indexed variable of the same emissions is accepted and gives a wrong logp. Nested_Tree: any number of variables nested to any depth, and nests under a Markov chain (mixture emissions), under the same connection condition."
  },
  {
   "property": "C85",
   "status": "partial",
   "theorems": [
    "C85_inverse_hessian_partial",
    "C85_always_covariance",
    "C85_error",
    "C85_otherwise",
    "C85_nearest_frobenius",
    "C85_nearest_distinct",
    "C85_small_curvature_refuted",
    "C85_singular_error_refuted",
    "C85_l1_refuted",
    "C85_repeated_refuted"
   ],
   "note": "Inverse plus jitter proved for every positive definite Hessian without nonzero entries below zero_tol; always PSD, exact error condition, Frobenius-nearest for distinct eigenvalues (or orthogonal eigenvectors). Refuted: curvature below zero_tol gives variance diag_jitter; 'error' also raises for singular PSD matrices; the documented L1-nearest claim; numpy eig does not promise orthogonal eigenvectors for repeated eigenvalues. numpy's pinv, eig and cholesky are parameters with their contracts."
  },
  {
   "property": "C86",
   "status": "partial",
   "theorems": [
    "C86_marginal_density",
    "C86_marginal_density_exact",
    "C86_accepted",
    "C86_accepts",
    "C86_one_variable_order",
    "C86_refusal_refuted",
    "C86_cycle_refuted",
    "C86_potential_refuted"
   ],
   "note": "Marginal density proved for every graph, set and order when no potential reads a variable that itself reads a marginalized one. Refuted: such a potential is evaluated at a fresh random draw (it keeps reading the replaced variable); a Deterministic or Potential of a variable with two marginalized parents is refused; a variable lying between two dependents makes the rewritten graph cyclic (exact criterion for one marginalized variable). Assumes potentials share no intermediate expressions with random variables; relies on PyMC substituting values only for the model's registered variables."
  },
  {
   "property": "C87",
   "status": "partial",
   "theorems": [
    "C87_mean",
    "C87_covariance_partial",
    "C87_covariance_refuted",
    "C87_data_matrices_refuted",
    "C87_filter_output_rejected",
    "C87_filter_output_case_refuted"
   ],
   "note": "Means proved for every system and horizon; covariances when the starting state is known exactly. Refuted for an uncertain start: the initial draw and the shocks reuse the same random numbers (exact cross term; a local level model with unit variances gets variance 4 instead of 2). Also refuted: time-varying matrices without scenario are those of the first data steps; upper-case filter_output passes validation and then fails. A draw is mu + factor * normals; the generator is a stream of numbers."
  },
  {
   "property": "C88",
   "status": "partial",
   "theorems": [
    "C88_moments_constant",
    "C88_defined",
    "C88_limit",
    "C88_sarima_fast",
    "C88_sarima_interpretable",
    "C88_small_coefficients",
    "C88_sarima",
    "C88_varmax",
    "C88_varmax_init",
    "C88_var_small",
    "C88_ets",
    "C88_ets_init",
    "C88_differenced_refuted",
    "C88_unit_root_refuted",
    "C88_ets_damped_refuted"
   ],
   "note": "Proved over the reals for SARIMA without differencing (both state structures), VARMAX and ETS: eigenvalues inside the unit circle (from the zeros of the lag polynomials / dampening), existence, invariance, uniqueness, symmetry, positive semidefiniteness, convergence, agreement of both Lyapunov methods given a correct continuous solver (one is exhibited). Refuted for differenced SARIMA (singular), for a unit root, and for ETS with a damped trend and phi = +-1, where phi overwrites initialization_dampening. Exact arithmetic."
  },
  {
   "property": "C89",
   "status": "partial",
   "theorems": [
    "C89_filter_outputs_are_conditionals_partial",
    "C89_loglike_is_the_joint_density_partial",
    "C89_loglike_one_series",
    "C89_univariate_filter",
    "C89_univariate_observed_moments_refuted",
    "C89_smoother_outputs_are_conditionals_partial",
    "C89_filter_then_smooth",
    "C89_best_affine_predictor",
    "C89_noise_makes_data_nonsingular",
    "C89_small_jitter_missing",
    "C89_small_jitter_smoother",
    "C89_small_jitter_univariate",
    "C89_smoother_time_varying_refuted",
    "C89_smoother_exact_with_late_matrices"
   ],
   "note": "Standard filter: zero jitter, complete data, any time-varying matrices; and, with any missing entries, in the limit of the jitter going to 0 (C89_small_jitter_missing); univariate filter: zero jitter, diagonal H, any missing pattern, static matrices (ll exact up to log(2pi)/2 for innovation terms that are exactly 0); smoother: static T,R,Q, zero intercept: exact with zero filter jitter and any singular covariances (Penrose identity of pinv), and in the limit of the jitter going to 0 with any missing entries (C89_small_jitter_smoother). With a time-varying T the smoothed moments are not the conditional ones (C89_smoother_time_varying_refuted: T[0] = 1, T[1] = 0, the second observation is ignored); handed each matrix one slot later it is exact (C89_smoother_exact_with_late_matrices). Refuted: observed moments of the univariate filter with more than one series. Univariate filter: limits for any missing pattern as the jitter goes to 0 (C89_small_jitter_univariate)."
  },
  {
   "property": "C90",
   "status": "partial",
   "theorems": [
    "C90_entry_is_total_of_its_history",
    "C90_loop_ends",
    "C90_law_is_logp",
    "C90_ends_almost_surely",
    "C90_total",
    "C90_mean",
    "C90_variance",
    "C90_negative_lam_total_refuted"
   ],
   "note": "lam >= 0: complete, in exact arithmetic, for arrays of at least one axis. Refuted part: for lam < 0 the documented pmf does not sum to one (mu=4, lam=-1: 1.004), so the documented total, mean and variance fail there."
  },
  {
   "property": "C91",
   "status": "proved",
   "theorems": [
    "C91_standard_filter_complete_data",
    "C91_standard_filter_missing_data",
    "C91_univariate_filter",
    "C91_covers_in_every_direction"
   ],
   "note": "exact arithmetic; jitter and (for complete data) solver arbitrary. The smoother and the square-root filter (which adds the jitter to the factor) are not covered; they are not part of the statement."
  },
  {
   "property": "C92",
   "status": "proved",
   "theorems": [
    "C92_standard_filter_exactly_symmetric",
    "C92_univariate_filter_exactly_symmetric",
    "C92_smoother_exactly_symmetric",
    "C92_filter_then_smoother",
    "C92_ieee_addition_commutative",
    "C92_doubles_commute",
    "C92_observed_covs_refuted"
   ],
   "note": "All roundings and all library routines; IEEE addition is commutative in every format and mode (Flocq). The last theorem shows the boundary of the claim: the covariance of the forecast observations can be asymmetric in doubles. The graph is executed as written (PyTensor rewrites not modelled)."
  },
  {
   "property": "C93",
   "status": "proved",
   "theorems": [
    "C93_chi_follows_documented_pdf",
    "C93_chi_total_mean_variance",
    "C93_chi_nonnegative",
    "C93_maxwell_follows_documented_pdf",
    "C93_maxwell_total_mean_variance",
    "gamma_half"
   ],
   "note": "All real nu, all intervals; the Gaussian integral and the Gamma recursion are proved, not assumed. Assumed: pm.ChiSquared has its textbook density (PyMC, outside the repository)."
  },
  {
   "property": "C94",
   "status": "proved",
   "theorems": [
    "C94_coefficients",
    "C94_own_normal",
    "C94_sign_probabilities",
    "C94_sign_probability_errors",
    "C94_row_total",
    "C94_names_distinct",
    "C94_residual"
   ],
   "note": "All mask patterns, shapes and options. Broadcasting of the arguments (np.broadcast_to) is taken as done; erfinv is any function inverse to erf on (-1,1). The total of the default weights is C55 (refuted there). The residual scale returned by the assembled function, row by row."
  },
  {
   "property": "C95",
   "status": "partial",
   "theorems": [
    "C95_default_fit_partial",
    "C95_unconstrained_fit",
    "C95_compile_kwargs",
    "C95_return_raw_refuted",
    "C95_unconstrained_needs_transformed_refuted",
    "C95_needs_context_refuted",
    "C95_hessian_backend_refuted",
    "C95_unconstrained_mode_refuted"
   ],
   "note": "End-to-end statements for the default and the unconstrained fit (default fit only when untransformed variables are registered first, see C52). Refuted: return_raw=True always raises; include_transformed=False breaks the unconstrained fit; outside a model context every call fails even with model=; gradient_backend does not reach the Hessian; the unconstrained fit is not centred at a mode of the density whose curvature it uses; a caller's compile_kwargs dict keeps mode='JAX' after a jax call (exact effect proved). initvals, jitter, seeds and data groups are not modelled."
  },
  {
   "property": "C96",
   "status": "proved",
   "theorems": [
    "C96_pmf",
    "C96_support",
    "C96_bad_parameters",
    "C96_total_mass",
    "C96_mean",
    "C96_variance"
   ],
   "note": "Proved for the log-probability the code computes, with gammaln the logarithm of the Gamma integral (which is shown to exist) and betaln as pymc computes it from gammaln. The sampler's bug is C72."
  },
  {
   "property": "C97",
   "status": "proved",
   "theorems": [
    "C97_mean",
    "C97_variance",
    "C97_code"
   ],
   "note": "Via the recurrence v p(v) = mu1 p(v-1) - mu2 p(v+1). The zero-rate NaN of the log-probability is recorded under C83."
  },
  {
   "property": "C98",
   "status": "partial",
   "theorems": [
    "C98_saved_outputs_partial",
    "C98_nothing_saved",
    "C98_observed_axes",
    "C98_conditional_uses_defaults",
    "C98_conditional_agrees",
    "C98_conditional_jitter_refuted",
    "C98_smoother_jitter_refuted"
   ],
   "note": "True for the filter outputs and likelihood; the caller's cov_jitter does not reach the smoother, nor conditional sampling and forecasting (refuted for every non-default jitter). The forgotten missing-value marker is C40_marker_forgotten_refuted."
  },
  {
   "property": "C99",
   "status": "partial",
   "theorems": [
    "C99_varmax_tables_agree",
    "C99_sarima_tables_agree",
    "C99_sarima_interpretable_tables_partial",
    "C99_sarima_interpretable_dims_refuted",
    "C99_ets_tables_partial",
    "C99_ets_missing_dims_refuted",
    "C99_ets_extra_dims_refuted",
    "C99_sarima_coords",
    "C99_varmax_coords",
    "C99_ets_coords",
    "C99_varmax_param_names",
    "C99_ets_param_dims_keys"
   ],
   "note": "Full for VARMAX and for SARIMA's default structure. The property is false of the code in three places, each with a theorem: interpretable SARIMA dims of x0/P0 (exact condition proved), ETS with one series lacks dims for the smoothing parameters, ETS param_dims lists names that are not parameters. What is proved for ETS: registrations, and the dims of param_info, for every option. Which coordinates exist, and how long they are, is proved for all three families. VARMAX parameter names are exactly those its options call for."
  }
 ]
}