{
 "claims": [
  {
   "property": "C01",
   "status": "proved",
   "theorems": [
    "lob_never_panics",
    "lob_consistent"
   ],
   "note": "every history of calls in the u64 range"
  },
  {
   "property": "C02",
   "status": "proved",
   "theorems": [
    "lob_refines_specification",
    "lob_price_time_priority"
   ],
   "note": "observational refinement of a list specification; priority is price then arrival (timestamps are ignored by the code)"
  },
  {
   "property": "C03",
   "status": "proved",
   "theorems": [
    "lob_conserves_shares"
   ],
   "note": ""
  },
  {
   "property": "C04",
   "status": "proved",
   "theorems": [
    "lob_add_order",
    "lob_cancel_order"
   ],
   "note": ""
  },
  {
   "property": "C05",
   "status": "proved",
   "theorems": [
    "lob_cancel_undoes_add",
    "lob_cancel_order",
    "lob_add_order"
   ],
   "note": "state equality"
  },
  {
   "property": "C06",
   "status": "proved",
   "theorems": [
    "lob_never_crossed_refuted"
   ],
   "note": "the property is false of the code: add_order never matches; proved by witness"
  },
  {
   "property": "C07",
   "status": "proved",
   "theorems": [
    "ad_gradient_exact"
   ],
   "note": "f64 as reals; calls listed in AdSpec.faulty excluded (they are refuted under C09); negative bases of powf and non-positive arguments of cbrt are outside the modelled domain"
  },
  {
   "property": "C08",
   "status": "proved",
   "theorems": [
    "ad_tape_well_formed",
    "ad_empty_fold_panics",
    "ad_foreign_index_panics",
    "wrt_domain",
    "graph_vars_spec",
    "graph_clear_spec",
    "graph_zero_spec"
   ],
   "note": "one graph"
  },
  {
   "property": "C09",
   "status": "proved",
   "theorems": [
    "ad_unary_exact",
    "ad_binary_exact",
    "ad_constant_right_exact",
    "ad_constant_left_exact",
    "ad_powi_exact",
    "ad_log10_refuted",
    "ad_log2_refuted",
    "ad_log_base_refuted",
    "ad_min_constant_left_refuted",
    "ad_max_constant_left_refuted",
    "ad_powf_constant_base_refuted",
    "ad_min_tie_refuted"
   ],
   "note": "settled: exact for every call outside AdSpec.faulty, refuted for each call in it"
  },
  {
   "property": "C10",
   "status": "proved",
   "theorems": [
    "ad_join_refuted",
    "ad_join_keeps_first"
   ],
   "note": "the property is false of the code: refuted; the part that holds is ad_join_keeps_first"
  },
  {
   "property": "C11",
   "status": "proved",
   "theorems": [
    "cal_following_nearest",
    "cal_preceding_nearest",
    "cal_roll_terminates",
    "cal_roll_exhausted_panics",
    "cal_roll_keeps_business_days",
    "cal_roll_business",
    "cal_roll_idempotent",
    "cal_following_monotone",
    "cal_preceding_monotone",
    "cal_roll_dates_pointwise"
   ],
   "note": "Market holiday rule is an arbitrary (possibly panicking) function of the date."
  },
  {
   "property": "C12",
   "status": "proved",
   "theorems": [
    "cal_modified_following",
    "cal_modified_preceding",
    "cal_modified_same_month",
    "cal_modified_same_year_month",
    "cal_modified_year_refuted"
   ],
   "note": "The month number is preserved; the code does not compare years, so with business days a year apart the result can leave the month (refuted with a witness)."
  },
  {
   "property": "C13",
   "status": "proved",
   "theorems": [
    "cal_business_day_count",
    "cal_business_day_count_max_panics",
    "cal_business_day_count_additive",
    "cal_business_day_count_bound",
    "cal_day_counts_windows",
    "cal_date_sequence",
    "cal_date_sequence_reversed_panics"
   ],
   "note": "Counting up to the last supported date panics; date_sequence panics when the end precedes the start."
  },
  {
   "property": "C14",
   "status": "proved",
   "theorems": [
    "cal_extra_holidays_exact",
    "cal_extra_holidays_set",
    "cal_extra_holidays_roll_further",
    "cal_extra_holidays_count"
   ],
   "note": ""
  },
  {
   "property": "C15",
   "status": "proved",
   "theorems": [
    "dc_actual_constant",
    "dc_actual_laws",
    "dc_thirty_plain",
    "dc_thirty_european",
    "dc_thirty_european_laws",
    "dc_thirty_isda_not_additive",
    "dc_thirty_360_isda",
    "dc_thirty_e_plus",
    "dc_thirty_u_february",
    "dc_thirty_u",
    "dc_thirty_u_us",
    "dc_isda_accrues",
    "dc_isda_additive",
    "dc_isda_whole_years",
    "dc_isda_last_year_panics",
    "dc_365_leap_value",
    "dc_365_actual_refuted",
    "dc_no_leap_refuted",
    "dc_no_leap_same_date",
    "dc_afb_panics",
    "dc_afb_whole_years_refuted",
    "dc_icma_panics",
    "dc_total",
    "dc_no_leap"
   ],
   "note": "Exact rationals instead of f64. Clauses on 365 Actual, NL and AFB are false of the code and refuted; ICMA is unimplemented (panics)."
  },
  {
   "property": "C16",
   "status": "proved",
   "theorems": [
    "easter_table_exact",
    "easter_is_monday",
    "easter_table_range"
   ],
   "note": "All 299 years, both tables, against the golden-number/epact definition of the paschal moon."
  },
  {
   "property": "C17",
   "status": "proved",
   "theorems": [
    "cal_first_weekday_of_month",
    "cal_last_weekday_of_month",
    "cal_first_day_of_month",
    "cal_last_day_of_month_off_by_one",
    "cal_last_day_of_month_refuted",
    "cal_last_day_of_month_panics",
    "cal_is_last_day_of_month",
    "cal_is_last_day_of_february",
    "cal_leap_years_in_range",
    "cal_is_leap",
    "cal_days_between_metric",
    "cal_weekend_util",
    "cal_days_in_years"
   ],
   "note": "get_last_day_of_month returns the weekday of the first day of the next month (refuted)."
  },
  {
   "property": "C18",
   "status": "proved",
   "theorems": [
    "interp_new_total",
    "interp_node",
    "interp_linear_chord",
    "interp_outside",
    "interp_cases",
    "interp_order_irrelevant",
    "interp_linear_monotone",
    "interp_empty_panics",
    "interp_integer_is_left_node",
    "interp_integer_chord_refuted"
   ],
   "note": "Holds for real-valued data; the four cases are shown exhaustive. At integer index types the division truncates and the chord property is refuted; an empty interpolator panics."
  },
  {
   "property": "C19",
   "status": "proved",
   "theorems": [
    "add_point_rebuild",
    "add_points_rebuild",
    "add_point_local"
   ],
   "note": "Also for repeated abscissae (add_point_rebuild) and for any sequence of additions."
  },
  {
   "property": "C20",
   "status": "proved",
   "theorems": [
    "interp_exponential_loglinear",
    "interp_exponential_log",
    "interp_node"
   ],
   "note": ""
  },
  {
   "property": "C21",
   "status": "proved",
   "theorems": [
    "bspline_total",
    "bspline_basis_local",
    "bspline_partition_of_unity",
    "bspline_convex_hull",
    "bspline_local_control",
    "bspline_right_endpoint",
    "bspline_clamped_endpoint_zero",
    "bspline_unity_on_closed_interval_refuted"
   ],
   "note": "Partition of unity proved on the half-open interval for every degree and knot vector, and at the right endpoint when the knots leave it; for clamped knots the curve is always 0 at its right endpoint (refuted)."
  },
  {
   "property": "C22",
   "status": "proved",
   "theorems": [
    "curve_get_node",
    "curve_set_get",
    "curve_set_rates_get",
    "curve_extremes",
    "curve_brackets",
    "curve_fresh",
    "curve_get_insert",
    "curve_empty_panics"
   ],
   "note": "For every curve reachable through the API."
  },
  {
   "property": "C23",
   "status": "proved",
   "theorems": [
    "curve_shift_effect",
    "curve_shift_nodes",
    "curve_shift_refuted",
    "curve_set_rate_stale_refuted"
   ],
   "note": "The property is false: only node reads move. The exact effect is proved, with witnesses refuting the claim."
  },
  {
   "property": "C24",
   "status": "proved",
   "theorems": [
    "bisection_encloses",
    "bisection_near_zero",
    "bisection_early_exit_refuted",
    "newton_sound",
    "newton_stationary_root_refuted",
    "brent_step_divisors",
    "brent_sound",
    "brent_near_zero",
    "solve_cases",
    "solve_total",
    "brent_step_interpolates",
    "nrsign_spec",
    "brent_end"
   ],
   "note": "Holds except when the early exit on a tiny positive midpoint value fires: that case is refuted with a witness."
  },
  {
   "property": "C25",
   "status": "proved",
   "theorems": [
    "solve_no_root",
    "solve_never_wrong_refuted",
    "solve_cases"
   ],
   "note": "The property as stated is false of the code: refuted with a witness, and the exact outcomes are proved."
  },
  {
   "property": "C26",
   "status": "proved",
   "theorems": [
    "fft_is_dft",
    "fft_linear",
    "fft_parseval",
    "fft_injective",
    "fft_length_check",
    "fft_length_check_refuted",
    "fft_rejects"
   ],
   "note": "Length check exact below 2^34 elements; above that the floating-point test accepts 2^35+1 (refuted)."
  },
  {
   "property": "C27",
   "status": "proved",
   "theorems": [
    "fft_real_magnitude_refuted",
    "fft_real_is_walsh"
   ],
   "note": "The property is false of the code: refuted with a witness; what the function does compute is proved."
  },
  {
   "property": "C28",
   "status": "proved",
   "theorems": [
    "mean_laws",
    "variance_laws",
    "variance_singleton",
    "covariance_laws",
    "correlation_laws",
    "correlation_bounded",
    "correlation_affine",
    "skew_kurt_affine",
    "skewness_symmetric"
   ],
   "note": "Over the reals (no rounding)."
  },
  {
   "property": "C29",
   "status": "proved",
   "theorems": [
    "means_ordered",
    "minmax_laws"
   ],
   "note": ""
  },
  {
   "property": "C30",
   "status": "proved",
   "theorems": [
    "quantile_laws",
    "minmax_laws",
    "iqr_bounds",
    "iqr_quantile_refuted"
   ],
   "note": "The interquartile-range clause is false of the code: refuted with a witness."
  },
  {
   "property": "C31",
   "status": "proved",
   "theorems": [
    "vanilla_identities",
    "barrier_identities",
    "barrier_rebate_refuted",
    "binary_identities",
    "lookback_identities",
    "lookback_panics",
    "asian_identities",
    "asian_edge_cases",
    "power_identities",
    "log_identities",
    "supershare_identities"
   ],
   "note": "rebate clause refuted"
  },
  {
   "property": "C32",
   "status": "proved",
   "theorems": [
    "mc_average",
    "mc_linear_monotone",
    "mc_parity",
    "mc_edge_cases"
   ],
   "note": "f64 as R; paths are those the process returned"
  },
  {
   "property": "C33",
   "status": "proved",
   "theorems": [
    "bsm_parity",
    "gbsm_parity",
    "bsm_opt_agrees",
    "bach_parity",
    "heston_parity"
   ],
   "note": "All five GBSM variants, the date-based pricer, Bachelier, Heston."
  },
  {
   "property": "C34",
   "status": "proved",
   "theorems": [
    "first_order_greeks",
    "rho_greeks",
    "second_order_greeks",
    "third_order_greeks",
    "gbsm_greeks",
    "bsm_opt_greeks",
    "black_scholes_equation",
    "lambda_is_elasticity",
    "ultima_refuted",
    "charm_convention_refuted",
    "rho_futures_refuted",
    "gamma_percent_ok",
    "put_ultima_refuted"
   ],
   "note": "All Greeks proved as derivatives except those refuted: ultima has a wrong sign term, charm differentiates in time to expiry, rho is wrong for futures models."
  },
  {
   "property": "C35",
   "status": "proved",
   "theorems": [
    "price_bounds",
    "price_monotone",
    "implied_volatility_unique",
    "price_convex",
    "price_homogeneous"
   ],
   "note": "Bounds, monotonicity in spot, strike and volatility, uniqueness of implied volatility, convexity, homogeneity."
  },
  {
   "property": "C36",
   "status": "proved",
   "theorems": [
    "sabr_atm_refuted"
   ],
   "note": "Refuted for all parameters: at the money the formula returns 0 (rho nonzero) or NaN (rho zero)."
  },
  {
   "property": "C37",
   "status": "proved",
   "theorems": [
    "tridiagonal_inverse",
    "tri_mul_is_product",
    "fd_step_solves",
    "tridiagonal_inverse_size_one_refuted"
   ],
   "note": "Two-sided inverse for every size >= 2 with non-zero determinant; the scheme matrices are invertible for all parameters; size one refuted."
  },
  {
   "property": "C38",
   "status": "proved",
   "theorems": [
    "fd_american_dominates",
    "fd_american_intrinsic",
    "fd_american_refuted"
   ],
   "note": "Holds for the pair Date::MIN/Date::MAX only; refuted for every other American flag."
  },
  {
   "property": "C39",
   "status": "proved",
   "theorems": [
    "fd_total",
    "fd_small_grid_panics",
    "fd_step_solves",
    "fd_put_bounds",
    "fd_call_nonneg",
    "fd_monotone_in_strike",
    "fd_negative_price_refuted"
   ],
   "note": "Explicit, implicit and Crank-Nicolson; negative prices when the boundary value is negative."
  },
  {
   "property": "C40",
   "status": "proved",
   "theorems": [
    "portfolio_identities",
    "update_price_effect",
    "update_quantity_effect",
    "portfolio_history",
    "update_order_irrelevant",
    "weights_sum_to_one",
    "portfolio_ignores_currency_refuted"
   ],
   "note": "Position weights are finite and sum to one exactly when the portfolio value is nonzero. Currencies are ignored (refuted theorem)."
  },
  {
   "property": "C41",
   "status": "proved",
   "theorems": [
    "money_ops",
    "money_total_spec",
    "money_total_perm",
    "money_eq_equivalence",
    "money_cmp_spec",
    "money_eq_cmp_consistent_refuted",
    "currency_codes_distinct",
    "library_currencies_consistent",
    "exchange_convert_spec",
    "convert_round_trip",
    "convert_additive",
    "no_implied_rates"
   ],
   "note": "Equality by ISO code is inconsistent with the ordering for user-made currencies (refuted); consistent for the library constants."
  },
  {
   "property": "C42",
   "status": "proved",
   "theorems": [
    "quote_set_spec",
    "quote_history",
    "quote_reset_invalid",
    "quote_zero_dropped_refuted",
    "quote_none_ignored_refuted"
   ],
   "note": "The claim as stated is false for a first value of zero and for None; both refuted, the rest proved for all histories."
  },
  {
   "property": "C43",
   "status": "proved",
   "theorems": [
    "cashflow_algebra",
    "leg_npv_linear",
    "leg_dates",
    "leg_npv_ignores_dates_refuted"
   ],
   "note": "Finding: NPV uses one factor for every payment date."
  },
  {
   "property": "C44",
   "status": "proved",
   "theorems": [
    "gd_result_spec",
    "gd_iteration",
    "gd_stationary_start_refuted",
    "gd_minimum_not_at_minimizer_refuted",
    "gd_default_tolerance",
    "gd_new_domain"
   ],
   "note": "The returned minimizer is characterised exactly as an iterate of the update rule; the two refuted theorems record that the reported minimum is the objective at the previous iterate (0 when already stationary)."
  },
  {
   "property": "C45",
   "status": "proved",
   "theorems": [
    "times_spec",
    "times_zero_steps_refuted",
    "parallel_equals_serial",
    "simulate_shape",
    "euler_step_real",
    "seeded_reproducible",
    "more_paths_extend",
    "neighbouring_seeds_overlap_refuted",
    "euler_abm_closed_form",
    "euler_gbm_closed_form",
    "euler_ou_recurrence",
    "negative_volatility_panics"
   ],
   "note": "n_steps = 0 yields a NaN time; neighbouring seeds share all but one path"
  },
  {
   "property": "C46",
   "status": "proved",
   "theorems": [
    "milstein_strang_brownian_refuted",
    "milstein_ignores_horizon_refuted",
    "milstein_correction_refuted",
    "schemes_agree_without_diffusion",
    "strang_step_real",
    "milstein_step_real"
   ],
   "note": "the property is false of the code; refuted for every configuration"
  },
  {
   "property": "C47",
   "status": "proved",
   "theorems": [
    "nss_spot_averages_forward",
    "nss_forward_is_derivative",
    "nss_short_end",
    "nss_long_end",
    "nss_dates",
    "nss_discount_monotone",
    "nss_zero_lambda_refuted"
   ],
   "note": "Spot rate is the average of the forward curve, limits at both ends, date validation; zero lambda gives NaN (refuted)."
  },
  {
   "property": "C48",
   "status": "proved",
   "theorems": [
    "knn_distance_metric",
    "knn_minkowski_special",
    "knn_neighbors",
    "knn_majority",
    "knn_panics",
    "knn_predict",
    "knn_training_point",
    "knn_two_neighbors_refuted",
    "knn_fractional_labels_refuted"
   ],
   "note": "Neighbours are exactly the k nearest with ties by position; vote is maximal. Findings: ties go to the furthest class (k=2 ignores the nearest neighbour) and labels are pooled by integer part."
  },
  {
   "property": "C49",
   "status": "proved",
   "theorems": [
    "lasso_loop_sound",
    "lasso_coordinate_minimises",
    "lasso_sweep_near_optimal",
    "lasso_fixed_point_optimal",
    "lasso_terminates",
    "lasso_large_penalty",
    "lasso_intercept",
    "lasso_fit_near_optimal"
   ],
   "note": "Coordinate descent: exact coordinate minimisation, descent, near-optimality at exit with explicit bound, zero solution for large penalties, intercept."
  },
  {
   "property": "C50",
   "status": "proved",
   "theorems": [
    "linear_none_optimal",
    "linear_residuals",
    "linear_recovers",
    "linear_qr_optimal",
    "linear_svd_optimal",
    "linear_methods_agree",
    "linear_svd_collinear_refuted",
    "ridge_optimal",
    "ridge_unique",
    "ridge_shrinks",
    "ridge_zero_is_linear"
   ],
   "note": "Least-squares optimality of each method for any correct factorisation; ridge optimality, uniqueness, shrinkage. SVD with collinear columns is not finite (refuted)."
  },
  {
   "property": "C51",
   "status": "proved",
   "theorems": [
    "bernoulli_moments",
    "bernoulli_shape",
    "bernoulli_centre",
    "bernoulli_cdf_sums",
    "bernoulli_cdf_negative_refuted",
    "bernoulli_quantile",
    "bernoulli_quantile_refuted",
    "binomial_moments",
    "binomial_shape",
    "binomial_pmf_exact",
    "binomial_pmf_overflow_refuted",
    "binomial_cdf_sums",
    "binomial_cdf_top_refuted",
    "binomial_quantile",
    "binomial_quantile_one_refuted",
    "binomial_mode_maximal",
    "binomial_mode_certain_refuted",
    "binomial_median_refuted",
    "poisson_pmf_exact",
    "poisson_pmf_overflow_refuted",
    "poisson_pmf_negative_refuted",
    "poisson_moments",
    "poisson_shape",
    "poisson_mode_maximal",
    "poisson_median_refuted",
    "poisson_cdf_refuted",
    "poisson_quantile",
    "poisson_quantile_zero_refuted",
    "poisson_quantile_panics_refuted",
    "uniform_discrete_moments",
    "uniform_discrete_variance_refuted",
    "uniform_discrete_cdf",
    "uniform_discrete_sample_refuted",
    "uniform_discrete_cf",
    "uniform_continuous_moments",
    "uniform_continuous_cdf",
    "uniform_continuous_edges_refuted",
    "exponential_moments",
    "exponential_cdf_quantile",
    "exponential_negative_refuted",
    "gaussian_moments",
    "gaussian_cdf_quantile",
    "gamma_moments",
    "gamma_cdf_mode",
    "chi_moments",
    "chi_cdf_integral",
    "chi_quantile",
    "chi_quantile_capped_refuted",
    "chi_quantile_panics_refuted",
    "chi_median_refuted",
    "constructors_domain",
    "gamma_cf_correct",
    "chi_cf_correct",
    "chi_entropy_correct",
    "binomial_pmf_domain"
   ],
   "note": "each distribution's functions against its own pmf/pdf; the failures are refuted with witnesses"
  },
  {
   "property": "C52",
   "status": "proved",
   "theorems": [
    "seq_spec",
    "seq_negative_step_diverges",
    "linspace_spec",
    "linspace_one",
    "cumsum_spec",
    "rep_spec"
   ],
   "note": "Negative steps and linspace with one point are findings."
  },
  {
   "property": "C53",
   "status": "proved",
   "theorems": [
    "act_sigmoid",
    "act_relu",
    "act_gelu",
    "act_tanh",
    "act_softplus",
    "act_gaussian_variable",
    "act_gaussian_number_refuted",
    "sigmoid_props",
    "relu_softplus_gelu_order",
    "act_vector"
   ],
   "note": "Variable and numeric versions agree with exact gradients; the numeric gaussian has the wrong sign (refuted)."
  },
  {
   "property": "C54",
   "status": "proved",
   "theorems": [
    "freq_infer_exact",
    "freq_month_year",
    "freq_quarter_refuted",
    "freq_half_year_refuted",
    "freq_semi_quarterly_refuted",
    "freq_per_year_fits",
    "freq_per_year_daily"
   ],
   "note": "Quarters and half-years are refuted."
  },
  {
   "property": "C55",
   "status": "proved",
   "theorems": [
    "schedule_aligned",
    "schedule_empty_panics"
   ],
   "note": "today() is an input of the model."
  },
  {
   "property": "C56",
   "status": "proved",
   "theorems": [
    "cal_business_day_iff"
   ],
   "note": ""
  },
  {
   "property": "C57",
   "status": "proved",
   "theorems": [
    "ratios_leverage",
    "burke_leverage_refuted",
    "return_on_var_spec"
   ],
   "note": "The Burke clause is refuted."
  },
  {
   "property": "C58",
   "status": "proved",
   "theorems": [
    "lsm_single_exercise",
    "lsm_exercise_rule",
    "lsm_bounds",
    "lsm_bridge_marginals",
    "laguerre_rows",
    "lsm_not_discounted_refuted",
    "lsm_below_intrinsic_refuted"
   ],
   "note": "random draws and QR solver are parameters; discount-to-today and intrinsic bound refuted"
  },
  {
   "property": "C59",
   "status": "proved",
   "theorems": [
    "bach_parity",
    "bach_bounds",
    "bach_greeks",
    "bach_delta_refuted",
    "bach_iv_atm_refuted",
    "bach_iv_parity_refuted",
    "bach_iv_tables"
   ],
   "note": "Greeks are derivatives of the undiscounted price; implied volatility clauses refuted."
  },
  {
   "property": "C60",
   "status": "proved",
   "theorems": [
    "heston_parity",
    "heston_homogeneous",
    "heston_gamma_is_delta_derivative"
   ],
   "note": "Complex square root, logarithm and quadrature table are parameters."
  },
  {
   "property": "C61",
   "status": "proved",
   "theorems": [
    "hull_white_is_ou",
    "ho_lee_is_abm",
    "ho_lee_negative_theta_panics",
    "cev_one_is_gbm",
    "cev_special_cases",
    "bdt_diff_exact",
    "bdt_constant_sigma",
    "gbb_drift_pull"
   ],
   "note": ""
  },
  {
   "property": "C62",
   "status": "proved",
   "theorems": [
    "acf_total_variance",
    "acf_special_cases",
    "hurst_one_singular_refuted",
    "seeded_fractional_paths_identical_refuted",
    "euler_fractional_double_scaling_refuted"
   ],
   "note": "covariance proved; distinct seeded paths and single scaling refuted"
  },
  {
   "property": "C63",
   "status": "proved",
   "theorems": [
    "stochvol_shape",
    "stochvol_ignores_volatility_refuted",
    "stochvol_euler"
   ],
   "note": "shape proved; dependence refuted for every input"
  },
  {
   "property": "C64",
   "status": "proved",
   "theorems": [
    "merton_jump_term",
    "merton_jump_count_ignored_refuted",
    "merton_needs_steps_and_rate"
   ],
   "note": "several jumps in one step collapse to one: refuted"
  },
  {
   "property": "C65",
   "status": "proved",
   "theorems": [
    "cir_step_real",
    "cir_negative_is_nan",
    "nan_is_absorbing",
    "cir_can_leave_domain_refuted"
   ],
   "note": "recurrence proved; domain invariance refuted"
  },
  {
   "property": "C66",
   "status": "proved",
   "theorems": [
    "descent_step",
    "gd_monotone",
    "gd_converges",
    "ad_objective_gradient_of",
    "gd_ad_converges",
    "gd_monotone_any_rate_refuted"
   ],
   "note": "Descent and termination for Lipschitz gradients, connected to autodiff objectives; fails for large rates (refuted)."
  },
  {
   "property": "C67",
   "status": "proved",
   "theorems": [
    "ad_directional"
   ],
   "note": "One accumulate call gives all directional derivatives."
  },
  {
   "property": "C68",
   "status": "proved",
   "theorems": [
    "logit_gradient",
    "logit_hessian",
    "logit_stationary_maximal",
    "logit_fit_result",
    "logit_predict_threshold",
    "logit_misclassification",
    "logit_cross_entropy_sign_refuted",
    "logit_validation_refuted",
    "logit_one_class_refuted",
    "logit_equal_means_refuted"
   ],
   "note": "Newton/IRLS facts for any correct solver. Findings: validation never rejects, one-class data is not fitted, equal class averages give NaN, cross entropy has the wrong sign."
  },
  {
   "property": "C69",
   "status": "proved",
   "theorems": [
    "bernoulli_moments",
    "bernoulli_shape",
    "bernoulli_centre",
    "bernoulli_cdf_sums",
    "bernoulli_cdf_negative_refuted",
    "bernoulli_quantile",
    "bernoulli_quantile_refuted",
    "binomial_moments",
    "binomial_shape",
    "binomial_pmf_exact",
    "binomial_pmf_overflow_refuted",
    "binomial_cdf_sums",
    "binomial_cdf_top_refuted",
    "binomial_quantile",
    "binomial_quantile_one_refuted",
    "binomial_mode_maximal",
    "binomial_mode_certain_refuted",
    "binomial_median_refuted"
   ],
   "note": "DistDisc.v"
  },
  {
   "property": "C70",
   "status": "proved",
   "theorems": [
    "poisson_pmf_exact",
    "poisson_pmf_overflow_refuted",
    "poisson_pmf_negative_refuted",
    "poisson_moments",
    "poisson_shape",
    "poisson_mode_maximal",
    "poisson_median_refuted",
    "poisson_cdf_refuted",
    "poisson_quantile",
    "poisson_quantile_zero_refuted",
    "poisson_quantile_panics_refuted"
   ],
   "note": "DistPois.v"
  },
  {
   "property": "C71",
   "status": "proved",
   "theorems": [
    "uniform_discrete_moments",
    "uniform_discrete_variance_refuted",
    "uniform_discrete_cdf",
    "uniform_discrete_sample_refuted",
    "uniform_discrete_cf",
    "uniform_continuous_moments",
    "uniform_continuous_cdf",
    "uniform_continuous_edges_refuted"
   ],
   "note": "DistPois.v (discrete) and DistCont.v (continuous)"
  },
  {
   "property": "C72",
   "status": "proved",
   "theorems": [
    "exponential_moments",
    "exponential_cdf_quantile",
    "exponential_negative_refuted",
    "gaussian_moments",
    "gaussian_cdf_quantile"
   ],
   "note": "DistCont.v and DistGauss.v; erf^-1 is a parameter with a proved-satisfiable specification"
  },
  {
   "property": "C73",
   "status": "proved",
   "theorems": [
    "gamma_moments",
    "gamma_cdf_mode",
    "chi_moments",
    "chi_cdf_integral",
    "chi_quantile",
    "chi_quantile_capped_refuted",
    "chi_quantile_panics_refuted",
    "chi_median_refuted",
    "gamma_cf_correct",
    "chi_cf_correct",
    "chi_entropy_correct"
   ],
   "note": "DistGamma.v and DistChi.v; gamma and lower incomplete gamma are parameters specified as improper integrals, shown to exist"
  },
  {
   "property": "C74",
   "status": "proved",
   "theorems": [
    "easter_table",
    "easter_table_panics",
    "market_panics"
   ],
   "note": "CountrySpec.v, CountryMarket.v; all 299 entries of both tables against the computus"
  },
  {
   "property": "C75",
   "status": "proved",
   "theorems": [
    "argentina_holidays",
    "australia_holidays",
    "austria_holidays",
    "botswana_holidays",
    "brazil_holidays",
    "canada_holidays",
    "chile_holidays",
    "czech_republic_holidays",
    "denmark_holidays",
    "finland_holidays",
    "france_holidays",
    "germany_holidays",
    "hungary_holidays",
    "iceland_holidays",
    "italy_holidays",
    "mexico_holidays",
    "netherlands_holidays",
    "new_zealand_holidays",
    "switzerland_holidays",
    "united_kingdom_holidays",
    "united_states_holidays",
    "market_business_day",
    "new_zealand_matariki",
    "argentina_new_year_refuted",
    "france_ascension_refuted",
    "france_fixed_refuted"
   ],
   "note": "CountryProps.v, CountryMarket.v; the rule language and its meaning are in CountrySpec.v"
  },
  {
   "property": "C76",
   "status": "proved",
   "theorems": [
    "hong_kong_holidays",
    "hong_kong_coverage",
    "singapore_holidays",
    "singapore_coverage",
    "india_holidays",
    "india_coverage",
    "indonesia_holidays",
    "indonesia_coverage",
    "tables_end",
    "china_after_table",
    "china_before_table",
    "china_closed",
    "israel_common_year",
    "israel_leap_year",
    "hong_kong_buddhas_birthday_lunar",
    "hong_kong_tuen_ng_festival_lunar",
    "hong_kong_mid_autumn_festival_lunar",
    "india_mahashivratri_lunar",
    "india_holi_lunar",
    "india_rama_navami_lunar",
    "india_mahavir_jayanti_lunar",
    "india_dussehra_lunar",
    "india_diwali_lunar",
    "india_gurunanak_jayanti_lunar",
    "singapore_25th_refuted",
    "hong_kong_2014_refuted",
    "israel_adar_refuted",
    "israel_adar_purim_refuted",
    "singapore_vesak_refuted",
    "indonesia_eid_refuted",
    "eid_al_adha_refuted"
   ],
   "note": "CountryProps.v, CountryMarket.v, CountryLunar.v"
  },
  {
   "property": "C77",
   "status": "proved",
   "theorems": [
    "normalised_black_accurate",
    "expansions_are_series",
    "constants_accurate",
    "small_t_error",
    "asymptotic_error"
   ],
   "note": "truncation error over the reals; erfcx and ncdf are exact"
  },
  {
   "property": "C78",
   "status": "proved",
   "theorems": [
    "cubic_nodes",
    "cubic_slopes",
    "cubic_second_derivative",
    "cubic_monotone",
    "cubic_monotone_decreasing",
    "control_guard_refuted"
   ],
   "note": "control parameter tracked as an IEEE value"
  },
  {
   "property": "C79",
   "status": "proved",
   "theorems": [
    "lower_step_householder",
    "upper_step_householder",
    "middle_step_newton",
    "middle_step_refuted",
    "map_inverses",
    "map_derivatives",
    "exact_iterate_is_returned",
    "segment_objective"
   ],
   "note": "the middle step is refuted and characterised"
  },
  {
   "property": "C80",
   "status": "proved",
   "theorems": [
    "implied_volatility_exists",
    "implied_volatility_answers",
    "first_guess",
    "implied_volatility_parity",
    "implied_volatility_scaling",
    "round_trip_centre",
    "price_is_normalised_black",
    "carry_refuted"
   ],
   "note": "plus infinity strictly inside the bounds only when a Householder divisor vanishes; moneyness up to |ln(F/K)| = 1e6; accuracy of the returned volatility after two iterations is not bounded except at exact iterates"
  },
  {
   "property": "C81",
   "status": "proved",
   "theorems": [
    "fgn_fft_covariance",
    "fgn_fft_rejects",
    "acf_positive_definite",
    "cholesky_factor",
    "fgn_cholesky_covariance",
    "fractional_brownian_paths",
    "fgn_cholesky_hurst_one_panics"
   ],
   "note": "FgnProps.v. Covariance is of the linear map applied to unit-variance independent draws; the normal law itself is external. Hurst 1 with Cholesky panics (finding)."
  },
  {
   "property": "C82",
   "status": "proved",
   "theorems": [
    "integrate_near_polynomial",
    "integrate_smooth",
    "integrate_power_series",
    "integrate_analytic",
    "integrate_exp",
    "integrate_lipschitz",
    "integrate_misses_spike_refuted",
    "integrate_nonfinite_refuted",
    "integrate_linear",
    "integrate_monotone",
    "integrate_bounds",
    "integrate_reversed"
   ],
   "note": "QuadProps.v; the moments of the table are verified in QuadMath.v by fixed-point arithmetic with error bounds. The tables are the decimals of the source; rounding of the sum is not modelled."
  },
  {
   "property": "C83",
   "status": "proved",
   "theorems": [
    "heston_exponents",
    "heston_prices_solve_equation",
    "heston_prices_short_expiry",
    "heston_characteristic_bounded"
   ],
   "note": "The principal square root and logarithm of num-complex are parameters with their documented specification, realised by psqrt and plog. Reals for f64."
  },
  {
   "property": "C84",
   "status": "proved",
   "theorems": [
    "heston_call_jumps_refuted",
    "heston_library_jumps_refuted"
   ],
   "note": "The expected property is false; the theorems prove the jump for every parameter set with 0 < 2 kappa theta < sigma^2 and 2 kappa rho <> sigma."
  },
  {
   "property": "C85",
   "status": "proved",
   "theorems": [
    "alpha_2_lookup",
    "country_codes_unique",
    "country_codes_wellformed",
    "venue_operator",
    "venue_operator_flag_refuted",
    "venue_country",
    "venue_country_refuted"
   ],
   "note": "Tables are generated from the source by tools/iso_tables.py; venue city and description strings are left out."
  },
  {
   "property": "C86",
   "status": "proved",
   "theorems": [
    "order_book_history",
    "order_book_sides_independent",
    "order_book_price_priority_refuted"
   ],
   "note": ""
  },
  {
   "property": "C87",
   "status": "proved",
   "theorems": [
    "dot_text",
    "dot_text_faithful",
    "dot_edges"
   ],
   "note": "Formatting of floats is a parameter that must not produce a newline."
  },
  {
   "property": "C88",
   "status": "proved",
   "theorems": [
    "euler_mean_is_noiseless",
    "euler_gbm_moments",
    "euler_gbm_strong_error",
    "euler_ou_moments",
    "euler_abm_moments",
    "discounted_forward_bias_refuted",
    "milstein_strang_variance_refuted"
   ],
   "note": "Expectations are iterated integrals against the normal density of one draw per step. Two natural readings are refuted."
  },
  {
   "property": "C89",
   "status": "proved",
   "theorems": [
    "bsm_risk_neutral",
    "gbsm_risk_neutral",
    "bsm_tower",
    "bachelier_risk_neutral",
    "bachelier_tower"
   ],
   "note": "Expectations are improper integrals against the normal density."
  },
  {
   "property": "C90",
   "status": "proved",
   "theorems": [
    "mc_unbiased",
    "mc_lipschitz",
    "mc_vanilla_error",
    "mc_vanilla_converges"
   ],
   "note": "Noise streams of distinct path seeds are independent blocks of standard normal draws (the generator itself is external); expectations are iterated integrals."
  },
  {
   "property": "C91",
   "status": "proved",
   "theorems": [
    "price_below",
    "fd_converges",
    "fd_limit",
    "fine_grids",
    "fd_put_limit_refuted"
   ],
   "note": "fd_put_limit_refuted shows the limit is not exactly the closed form (boundary discounted twice); fd_converges gives the two-sided bound"
  },
  {
   "property": "C92",
   "status": "proved",
   "theorems": [
    "sum_error",
    "sum_finite",
    "sum_order",
    "sum_monotone",
    "sum_order_refuted",
    "portfolio_order_refuted",
    "portfolio_monotone",
    "mean_error",
    "mean_panics",
    "mean_range_refuted",
    "mean_overflow_refuted",
    "variance_nonneg",
    "deviation_nonneg",
    "single_variance",
    "constant_variance_refuted",
    "correlation_bound_refuted",
    "cumsum_prefix",
    "cumsum_monotone",
    "correlation_domain"
   ],
   "note": "F64Sum.v, about F64Model.v: IEEE binary64 (Flocq)"
  },
  {
   "property": "C93",
   "status": "proved",
   "theorems": [
    "min_spec",
    "max_spec",
    "min_max_total",
    "range_spec",
    "sort_spec",
    "median_panics",
    "median_half",
    "median_midpoint",
    "median_overflow_refuted",
    "iqr_spec"
   ],
   "note": "F64Order.v"
  },
  {
   "property": "C94",
   "status": "proved",
   "theorems": [
    "quantile_panics",
    "quantile_between",
    "quantile_range",
    "quantile_monotone",
    "quantile_ends",
    "quantile_overflow_refuted"
   ],
   "note": "F64Quantile.v"
  },
  {
   "property": "C95",
   "status": "proved",
   "theorems": [
    "linspace_total",
    "linspace64_one",
    "linspace64_spec",
    "linspace_end_refuted",
    "linspace_overflow_refuted",
    "seq_elements",
    "seq_terminates",
    "seq_diverges",
    "seq_terminates_refuted",
    "seq_zero_step",
    "seq_count_refuted"
   ],
   "note": "F64Seq.v"
  },
  {
   "property": "C96",
   "status": "proved",
   "theorems": [
    "interp64_cases",
    "interp_accuracy",
    "interp_overshoot_refuted"
   ],
   "note": "F64Interp.v"
  },
  {
   "property": "C97",
   "status": "proved",
   "theorems": [
    "feast_valid",
    "feast_every_year",
    "feast_moon",
    "feast_intervals",
    "chung_yeung_refuted",
    "chung_yeung_2006_refuted",
    "feast_month_refuted"
   ],
   "note": "CountryMoon.v. Mean lunations as the independent specification. Hong Kong's Chung Yeung 2004-2008, Tuen Ng 2009 and Buddha's birthday 2012 and 2020, India's Mahavir Jayanti 2010 and Singapore's Deepavali 2009 contradict the other tables (refuted)."
  },
  {
   "property": "C98",
   "status": "proved",
   "theorems": [
    "close64_zero",
    "product_test",
    "finders64_total",
    "solve64_cases",
    "bisection64_encloses",
    "bisection64_solve",
    "nan_objective64_refuted",
    "bisection64_interval_refuted",
    "bisection64_wide_refuted",
    "brent64_in_bracket",
    "brent64_interval",
    "brent64_sound",
    "newton64_sound"
   ],
   "note": "The objective and its derivative are arbitrary functions on binary64. Brent's and bisection's error bounds assume magnitudes up to 2^1000 and 2^900; outside, bisection64_wide_refuted shows they fail."
  },
  {
   "property": "C99",
   "status": "proved",
   "theorems": [
    "fou_paths",
    "fbm_paths",
    "fbm_times",
    "fbm_displacement",
    "displacement_variance_unique",
    "fbm_start_time_refuted",
    "fbm_euler_vanishes_refuted",
    "fourier_seed_ignored_refuted",
    "fractional_constructors",
    "fractional_needs_time",
    "fcir_steps",
    "fcir_step_real",
    "fcir_negative_nan",
    "fcir_negative_volatility_refuted"
   ],
   "note": "Constructors, shape and covariance are proved for both methods, all schemes and all grids (fou_paths, fbm_paths). The parts that are false of the code are refuted: Euler's extra sqrt(dt), noise for [0,t_n] whatever t_0, the Fourier method's unused seed, the unchecked volatility of fractional CIR."
  },
  {
   "property": "C100",
   "status": "proved",
   "theorems": [
    "gradient64_total",
    "gradient64_program",
    "gradient64_backward",
    "gradient64_forward",
    "recorded64_exact",
    "recorded64_values",
    "recorded64_over",
    "recorded64_inverse",
    "recorded64_sqrt",
    "recorded64_two",
    "subtraction64_exact",
    "division64_error",
    "division64_by_itself_refuted",
    "leaf_gradient64",
    "overflowing_gradient_nan_refuted",
    "unused_variable_gradient_refuted"
   ],
   "note": "Programs over +, -, *, /, negation, reciprocal and square root; transcendental functions are not modelled in binary64. recorded64_* relate what each operator records to the derivative. The error bounds assume finite adjoints and products that are zero or at least 2^-1022; what happens otherwise is leaf_gradient64 and the refutations."
  },
  {
   "property": "C101",
   "status": "proved",
   "theorems": [
    "var_cmp_preorder",
    "var_eq_spec",
    "var_eq_number",
    "var_contracts_refuted",
    "var_classes",
    "var_sign",
    "var_round_spec",
    "var_round_gradient_refuted",
    "wrt_all64_spec",
    "vertex_constructors"
   ],
   "note": "Model has a single NaN without sign; Display is not modelled."
  },
  {
   "property": "C102",
   "status": "proved",
   "theorems": [
    "tables64_nearest",
    "integrate64_error",
    "integrate64_lipschitz",
    "integrate64_exp",
    "nodes64_near",
    "integrate64_outside_refuted",
    "integrate64_endpoints",
    "integrate64_overflow_refuted",
    "integrate64_nonfinite"
   ],
   "note": "F64Quad.v; limits are bounded by 2^500 and values by 2^500 so that nothing overflows."
  },
  {
   "property": "C103",
   "status": "proved",
   "theorems": [
    "vanilla64_rounded",
    "vanilla64_total",
    "payoff_nan_refuted",
    "binary64_exact",
    "supershare64_rounded",
    "barrier64_parity",
    "barrier64_rounded",
    "lookback64_rounded",
    "lookback64_nan_refuted",
    "asian64_error",
    "price_mc64_error",
    "price_mc64_monotone",
    "price_mc64_edges",
    "price_mc64_nan_refuted"
   ],
   "note": "exp (the discount factor) and powf (the geometric average) are parameters: no accuracy is assumed of them. Error bounds hold when the result is finite; payoffs on non-negative finite prices never overflow, except the supershare quotient, whose finiteness is a hypothesis. All NaNs of a path are taken to have the same sign, either one."
  },
  {
   "property": "C104",
   "status": "proved",
   "theorems": [
    "euler64_paths",
    "times64_spec",
    "times64_end_refuted",
    "affine64_bm",
    "affine64_abm",
    "affine64_gbm",
    "affine64_ou",
    "affine64_hull_white",
    "affine64_ho_lee",
    "euler64_error",
    "gbm64_error",
    "gbm64_zero",
    "cir64_nan_refuted"
   ],
   "note": "The reference is the exact Euler step of SimModel with the step length, the times, the coefficients at these times and the noise of the program. The bound holds as long as the computed value is finite. Normal draws are a parameter. Processes with square roots, powers or logarithms (CIR, CEV, bridge, Black-Derman-Toy) and jumps have no error bound; the theorem on infinities and NaNs covers every process without jumps."
  },
  {
   "property": "C105",
   "status": "proved",
   "theorems": [
    "day_count64_rounded",
    "day_count64_quarters",
    "day_count64_fixed",
    "day_count64_isda",
    "day_count64_afb",
    "day_count64_additive_refuted",
    "isda64_nearest_refuted",
    "factors64_spec"
   ],
   "note": "Exact fractions are those of C18-C21; Actual/Actual ICMA is todo!() and panics."
  },
  {
   "property": "C106",
   "status": "proved",
   "theorems": [
    "fft64_error",
    "twiddles64_accurate",
    "fft64_finite",
    "fft64_log_error"
   ],
   "note": "The accuracy of the library cosine and sine is a hypothesis, met by functions that round the exact ones (twiddles64_meets). The real variant (C27) is not modelled in binary64."
  },
  {
   "property": "C107",
   "status": "proved",
   "theorems": [
    "explicit64_bounded",
    "explicit64_error",
    "explicit64_linear",
    "explicit64_expired"
   ],
   "note": "explicit scheme only; exp and ln are parameters and the accuracy of the ingredients (weights, payoffs, boundaries, discount factor) is a hypothesis, met by the example explicit64_case with correctly rounded exp"
  },
  {
   "property": "C108",
   "status": "proved",
   "theorems": [
    "weights64_accurate",
    "explicit64_accurate"
   ],
   "note": "binary64 (Flocq) against the exact scheme of FdModel; exp and ln enter only through their accuracy; weights64_case and explicit64_accurate_case instantiate the theorems with correctly rounded functions. Volatility and time to expiry outside [2^-100, 2^100] are not covered."
  },
  {
   "property": "C109",
   "status": "proved",
   "theorems": [
    "sigmoid64_range",
    "sigmoid64_accurate",
    "relu64_exact",
    "v_relu64_exact",
    "v_relu64_refuted",
    "softplus64_accurate",
    "softplus64_refuted",
    "gaussian64_even",
    "gaussian64_accurate",
    "gelu64_accurate",
    "gelu64_refuted"
   ],
   "note": "exp, ln and erf are parameters: order and sign for the range theorem, relative error mu on |x| <= 610 for accuracy, absolute errors for ln and erf; act64_case, softplus64_case and gelu64_case give functions meeting them. tanh and the vector versions are not covered."
  },
  {
   "property": "C110",
   "status": "proved",
   "theorems": [
    "price64_accurate",
    "parity64",
    "delta64_accurate",
    "expiry64",
    "expired64",
    "expiry64_refuted"
   ],
   "note": "exp, ln and the normal distribution function are parameters with relative error mu on |x| <= 610, absolute error lam on [2^-100, 2^100] and absolute error nu; bsm64_case gives functions and arguments meeting the hypotheses. Greeks other than delta are not covered in binary64."
  },
  {
   "property": "C111",
   "status": "proved",
   "theorems": [
    "cashflow64_algebra",
    "cashflow64_npv",
    "cashflow64_scale",
    "leg64_accurate",
    "leg64_append",
    "leg64_order",
    "leg64_monotone",
    "leg64_split_refuted",
    "quote64_set",
    "quote64_empty",
    "quote64_keep",
    "quote64_refuted",
    "money64_compare",
    "money64_ops",
    "money64_difference",
    "money64_reflexive_refuted",
    "convert64_round_trip",
    "convert64_refuted"
   ],
   "note": "binary64 throughout; the map of exchange rates is the real-valued model's (C41), not repeated here"
  },
  {
   "property": "C112",
   "status": "proved",
   "theorems": [
    "knn64_new",
    "knn64_class",
    "knn64_neighbors",
    "knn64_distance",
    "knn64_nearest",
    "knn64_nearest_refuted",
    "knn64_predict",
    "knn64_total",
    "knn64_infinity_refuted",
    "knn64_nan_label_refuted"
   ],
   "note": "accuracy for the Euclidean metric; for the other metrics totality, order and vote only, since powi and powf are parameters"
  },
  {
   "property": "C113",
   "status": "proved",
   "theorems": [
    "gd64_new",
    "gd64_tolerance",
    "gd64_orbit",
    "gd64_stationary",
    "gd64_nan_gradient",
    "gd64_nan",
    "gd64_dimension",
    "gd64_stall",
    "gd64_stall_refuted",
    "gd64_minimum_refuted",
    "gd64_converges"
   ],
   "note": "The objective is a parameter giving the value and the gradient; convergence is in the largest coordinate under a contraction hypothesis."
  },
  {
   "property": "C114",
   "status": "proved",
   "theorems": [
    "covariance64_accurate",
    "variance64_accurate",
    "deviation64_accurate",
    "covariance64_finite"
   ],
   "note": "Flocq binary64, round to nearest even; square root correctly rounded."
  },
  {
   "property": "C115",
   "status": "proved",
   "theorems": [
    "correlation64_bound",
    "correlation64_tiny_refuted",
    "self_correlation64"
   ],
   "note": "Bound under a range for the standard deviations; refuted for tiny samples."
  },
  {
   "property": "C116",
   "status": "proved",
   "theorems": [
    "skewness64_odd",
    "kurtosis64_even",
    "skew_kurt64_domain",
    "skew_kurt64_constant"
   ],
   "note": "powi expanded into products; the sign of a zero result is not claimed."
  },
  {
   "property": "C117",
   "status": "proved",
   "theorems": [
    "covariance64_symmetric",
    "correlation64_symmetric",
    "covariance64_signs",
    "correlation64_signs"
   ],
   "note": "bit for bit; all NaNs identified"
  }
 ]
}
