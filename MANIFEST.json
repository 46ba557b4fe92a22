{
 "claims": [
  {
   "property": "C01",
   "status": "proved",
   "theorems": [
    "C01_powerlaw_normalised"
   ],
   "note": ""
  },
  {
   "property": "C02",
   "status": "proved",
   "theorems": [
    "C02_powerlaw_floor",
    "C02_powerlaw_floor_reals"
   ],
   "note": ""
  },
  {
   "property": "C03",
   "status": "proved",
   "theorems": [
    "C03_truncnorm_normalised",
    "C03_lognormal_normalised",
    "C03_truncnorm_zero_outside"
   ],
   "note": ""
  },
  {
   "property": "C04",
   "status": "proved",
   "theorems": [
    "C04_logistic_unit",
    "C04_logistic_midpoint",
    "C04_logistic_monotone",
    "C04_log_logistic_all"
   ],
   "note": ""
  },
  {
   "property": "C05",
   "status": "partial",
   "theorems": [
    "C05_smooth_window_partial",
    "C05_smooth_outside_refuted",
    "C05_smooth_refuted"
   ],
   "note": "Refuted: the mask condition is a tautology, so `smooth` is >1/2 (not 0) below xmin, <1/2 (not 1) above xmin+dx and 0 at xmin+dx. Proved strictly inside the window."
  },
  {
   "property": "C06",
   "status": "partial",
   "theorems": [
    "C06_soft_powerlaw",
    "C06_falloff_high_side_refuted",
    "C06_falloff_actual_partial"
   ],
   "note": "The soft-truncated power law itself is fully proved; the fall-off passed through powerlaw_primary_ratio_falloff_pdf never reaches the high-mass side (refuted), where steepness 4 is always used."
  },
  {
   "property": "C07",
   "status": "partial",
   "theorems": [
    "C07_beta_value",
    "C07_beta_floor",
    "C07_beta_normalised",
    "C07_beta_normalised_open",
    "C07_beta_endpoint_refuted",
    "C07_beta_endpoint_inf_refuted"
   ],
   "note": "Value, floor and normalisation (shapes > 1, against Euler's integral) proved; finite values at the end points refuted (NaN for alpha=1, +inf for alpha<1). Shapes below one: C07_beta_normalised_open, with improper integrals."
  },
  {
   "property": "C08",
   "status": "proved",
   "theorems": [
    "C08_joint_powerlaw",
    "C08_joint_powerlaw_support",
    "C08_joint_powerlaw_q_shape"
   ],
   "note": ""
  },
  {
   "property": "C09",
   "status": "proved",
   "theorems": [
    "C09_plpeak_normalised",
    "C09_plpeak_zero_outside",
    "C09_plpeak_mixture",
    "C09_plpeak_ratio_support",
    "C09_plpeak_ratio_joint",
    "C09_plpeak_ratio_value",
    "C09_plpeak_smoothed",
    "C09_plpeak_ratio_smoothed"
   ],
   "note": ""
  },
  {
   "property": "C10",
   "status": "proved",
   "theorems": [
    "C10_tilt_mixture"
   ],
   "note": ""
  },
  {
   "property": "C11",
   "status": "proved",
   "theorems": [
    "C11_independent_tilts",
    "C11_independent_value",
    "C11_iid_tilts",
    "C11_default_tilts",
    "C11_default_value",
    "C11_default_zero_outside",
    "C11_default_symmetric"
   ],
   "note": ""
  },
  {
   "property": "C12",
   "status": "proved",
   "theorems": [
    "C12_spin_magnitudes",
    "C12_independent_magnitudes_joint",
    "C12_independent_value",
    "C12_iid_value"
   ],
   "note": ""
  },
  {
   "property": "C13",
   "status": "partial",
   "theorems": [
    "C13_redshift_model",
    "C13_redshift_grid",
    "C13_redshift_shape",
    "C13_redshift_below_zmin_refuted"
   ],
   "note": "Everything proved except the lower cut: the density is positive below zmin (refuted)."
  },
  {
   "property": "C14",
   "status": "proved",
   "theorems": [
    "C14_chieff_physical"
   ],
   "note": ""
  },
  {
   "property": "C15",
   "status": "proved",
   "theorems": [
    "C15_chip_physical"
   ],
   "note": ""
  },
  {
   "property": "C16",
   "status": "proved",
   "theorems": [
    "C16_shapes_roundtrip",
    "C16_moments_roundtrip"
   ],
   "note": ""
  },
  {
   "property": "C17",
   "status": "partial",
   "theorems": [
    "C17_arguments_unchanged_partial",
    "C17_arguments_changed_refuted",
    "C17_second_call_differs_refuted",
    "C17_effect_refuted"
   ],
   "note": "The functions that build new arrays leave their arguments alone (proved); the in-place updates change the caller's array (refuted)."
  },
  {
   "property": "C18",
   "status": "proved",
   "theorems": [
    "C18_aligned_density"
   ],
   "note": ""
  },
  {
   "property": "C19",
   "status": "proved",
   "theorems": [
    "C19_at_most_one_case",
    "C19_no_case_iff_boundary",
    "C19_even",
    "C19_zero_outside",
    "C19_boundary_average"
   ],
   "note": ""
  },
  {
   "property": "C20",
   "status": "partial",
   "theorems": [
    "C20_returns_partial",
    "C20_never_returns_refuted",
    "C20_nan_never_returns_refuted"
   ],
   "note": "Returns after at most two levels of recursion whenever no two case boundaries are exactly 1e-6 apart (or sum to 1e-6); never returns otherwise, nor for NaN (refuted)."
  },
  {
   "property": "C21",
   "status": "partial",
   "theorems": [
    "C21_density_partial",
    "C21_negative_refuted"
   ],
   "note": "Density properties proved for chi_p >= 0; for negative chi_p the code returns negative densities instead of zero (refuted)."
  },
  {
   "property": "C22",
   "status": "proved",
   "theorems": [
    "C22_exit_means_physical",
    "C22_exit_means_attainable",
    "C22_interpolant_density"
   ],
   "note": ""
  },
  {
   "property": "C23",
   "status": "proved",
   "theorems": [
    "C23_difference_penalty",
    "C23_order_one_value",
    "C23_value"
   ],
   "note": ""
  },
  {
   "property": "C24",
   "status": "partial",
   "theorems": [
    "C24_partition_of_unity_partial",
    "C24_order_one_right_end_refuted",
    "C24_narrow_range_refuted"
   ],
   "note": "BSpline and LogXBSpline with default knots, every n>=k>=1, every x in range. False at the right end for k=1 and when the knot spacing is below the code's 1e-6 threshold (refuted theorems)."
  },
  {
   "property": "C25",
   "status": "proved",
   "theorems": [
    "C25_textbook_splines",
    "C25_zero_out_of_range"
   ],
   "note": "All four B-spline classes on any non-decreasing knots whose distinct neighbours are 1e-6 apart, inside the range; exact zeros (minus infinity for the two log-density classes) out of range, whatever the knots; the log-x classes at x >= 0."
  },
  {
   "property": "C26",
   "status": "proved",
   "theorems": [
    "C26_default_knots"
   ],
   "note": ""
  },
  {
   "property": "C27",
   "status": "partial",
   "theorems": [
    "C27_uniform_interior_knots_partial",
    "C27_interior_knots_refuted",
    "C27_spacing_of_first_two_refuted",
    "C27_fewer_than_two_refused"
   ],
   "note": "The code keeps only the first spacing and the number of interior knots: the refuted theorem shows supplied knots missing from the result. Proved for equally spaced interior knots. For any interior knots the result is characterised exactly: equally spaced by the difference of the first two (C27_spacing_of_first_two_refuted), AssertionError unless there are n+2-k of them, IndexError for fewer than two."
  },
  {
   "property": "C28",
   "status": "proved",
   "theorems": [
    "C28_unit_integral",
    "C28_log_density",
    "C28_linear_density"
   ],
   "note": ""
  },
  {
   "property": "C29",
   "status": "proved",
   "theorems": [
    "C29_linear_gauge",
    "C29_basis_spline_gauge",
    "C29_log_gauge"
   ],
   "note": ""
  },
  {
   "property": "C30",
   "status": "partial",
   "theorems": [
    "C30_unnormalised_zero",
    "C30_unnormalised_zero_default",
    "C30_normalised_zero_partial",
    "C30_infinite_coefficients_refuted",
    "C30_order_one_negative_refuted"
   ],
   "note": "Unnormalised: every coefficient vector including infinities. Normalised: whenever the unnormalised integral is a non-zero number. With normalisation, one infinite coefficient makes every value NaN; LogXLogYBSpline of order one is 1 at negative x."
  },
  {
   "property": "C31",
   "status": "proved",
   "theorems": [
    "C31_system_uniquely_solvable",
    "C31_natural_spline"
   ],
   "note": ""
  },
  {
   "property": "C32",
   "status": "partial",
   "theorems": [
    "C32_left_end_partial",
    "C32_right_end_refuted"
   ],
   "note": "True at the left end. At the right end the code imposes equal curvature on the last interval instead of zero curvature."
  },
  {
   "property": "C33",
   "status": "partial",
   "theorems": [
    "C33_pytree_round_trip_refuted"
   ],
   "note": "tree_flatten returns a 3-tuple instead of a (children, aux) pair."
  },
  {
   "property": "C34",
   "status": "partial",
   "theorems": [
    "C34_bivariate_bases_refuted",
    "C34_default_construction_refuted",
    "C34_indices_exchanged_refuted"
   ],
   "note": "bases calls a method that does not exist; default construction fails. Were the call fixed, the reshape would still exchange the indices."
  },
  {
   "property": "C35",
   "status": "proved",
   "theorems": [
    "C35_model_by_sample",
    "C35_named_models",
    "C35_wrong_number_of_coefficients",
    "C35_built_exactly_when"
   ],
   "note": "Proved for every basis, knots and sample pattern (infinite and NaN samples included), one or more coefficients; a wrong number of coefficients is a ValueError. With the knots left to the class the model is built exactly when there are more splines than the degree (C35_built_exactly_when)."
  },
  {
   "property": "C36",
   "status": "proved",
   "theorems": [
    "C36_symmetric",
    "C36_half_density"
   ],
   "note": "Same density for samples of equal absolute value; half the one-sided spline density at |chi|."
  },
  {
   "property": "C37",
   "status": "partial",
   "theorems": [
    "C37_unit_integral_partial",
    "C37_outside_range_refuted",
    "C37_default_basis_refuted",
    "C37_built_exactly_when"
   ],
   "note": "Unit trapezoid sum proved for linear bases built with normalize=False. Refuted: the default normalised basis is projected with its norm in the rate but without in the normalisation, and outside the spline range the rate is exp(0) times the volume factor, not zero. The model is built exactly when there are more splines than the degree (C37_built_exactly_when)."
  },
  {
   "property": "C38",
   "status": "partial",
   "theorems": [
    "C38_iid_product",
    "C38_independent_magnitudes_product",
    "C38_independent_tilts_product",
    "C38_effective_spins_product",
    "C38_primary_ratio_product",
    "C38_primary_powerlaw_product",
    "C38_plpeak_ratio_product",
    "C38_component_masses_product",
    "C38_magnitudes_exchange",
    "C38_tilts_exchange",
    "C38_iid_masses_ordered",
    "C38_independent_masses_ordered_refuted",
    "C38_built_exactly_when"
   ],
   "note": "Pointwise products for all separable classes, exchange symmetry of the IID spin models, IID component masses zero for m2>m1. Refuted: the independent component-mass model is positive for m2>m1. Each class is built exactly when every dimension has more splines than its degree (C38_built_exactly_when)."
  },
  {
   "property": "C39",
   "status": "partial",
   "theorems": [
    "C39_smoothing_window",
    "C39_unit_integral_partial",
    "C39_any_basis",
    "C39_spline_order_refuted",
    "C39_built_exactly_when"
   ],
   "note": "Smoothing window proved; unit trapezoid sum when a grid mass lies between the power-law limits: unconditionally for the default BSpline basis, for every basis class and normalisation wherever the spline has finite values (C39_any_basis). Refuted: any order k other than 4 fails the knot-count assertion. The window is not used by __call__. The model is built exactly for order four with at least four splines (C39_built_exactly_when)."
  },
  {
   "property": "C40",
   "status": "partial",
   "theorems": [
    "C40_constructor_refuted",
    "C40_attribute_error_refuted"
   ],
   "note": "Refuted: the constructor reads self.qknots, which is never assigned."
  },
  {
   "property": "C41",
   "status": "proved",
   "theorems": [
    "C41_redshift_density",
    "C41_zero_above_zmax",
    "C41_built_exactly_when",
    "C41_any_basis"
   ],
   "note": "Unit trapezoid sum, zero above zmax and agreement with PowerlawRedshiftModel at zero coefficients, for BSpline and LogXBSpline; every basis class wherever the spline has finite values (C41_any_basis). The model is built exactly when there are at least four splines (C41_built_exactly_when)."
  },
  {
   "property": "C42",
   "status": "proved",
   "theorems": [
    "C42_tables_increase"
   ],
   "note": "All grid lengths by induction; flat densities with non-negative matter and radiation."
  },
  {
   "property": "C43",
   "status": "proved",
   "theorems": [
    "C43_table_error",
    "C43_second_order"
   ],
   "note": "Per-step trapezoid error of a decreasing integrand, telescoped; Coquelicot integral. With a non-negative cosmological constant also the second-order bound 2 (c/H0) dz^2 (1+dz)."
  },
  {
   "property": "C44",
   "status": "proved",
   "theorems": [
    "C44_round_trip"
   ],
   "note": "Both directions for whole arrays; the object is left unchanged."
  },
  {
   "property": "C45",
   "status": "proved",
   "theorems": [
    "C45_history_independent",
    "C45_empty_query"
   ],
   "note": "Histories are arbitrary lists of all five query kinds (including failing ones); the answer inside the initial table is unchanged."
  },
  {
   "property": "C46",
   "status": "partial",
   "theorems": [
    "C46_beyond_table_error_partial",
    "C46_every_query_partial",
    "C46_beyond_table_clamped_refuted",
    "C46_answer_changes_refuted",
    "C46_distance_beyond_table_refuted"
   ],
   "note": "Beyond the table the answer is the distance of the last grid point below z (error at most 1.5 (c/H0) dz proved, for every history of queries and every array of non-negative redshifts, and a matching bound for the luminosity distance), it changes when the table grows again, and DL2z raises TypeError."
  },
  {
   "property": "C47",
   "status": "partial",
   "theorems": [
    "C47_cumtrapz_shifted_partial",
    "C47_cumtrapz_constant_partial",
    "C47_cumtrapz_refuted",
    "C47_one_point_refuted"
   ],
   "note": "Proved: entry i is the prefix integral of y shifted by one place (last value repeated), exact for constant y. Refuted: entry 1 is wrong whenever y[0] differs from y[2] on three or more points; a one-point array raises TypeError."
  },
  {
   "property": "C48",
   "status": "partial",
   "theorems": [
    "C48_sine_default_partial",
    "C48_sine_quantiles_partial",
    "C48_sine_other_limits_refuted"
   ],
   "note": "Proved for the default limits; for other limits cdf, icdf and samples are those of the normalised sine, but log_prob ignores the limits, so its density integrates to less than one (refuted)."
  },
  {
   "property": "C49",
   "status": "partial",
   "theorems": [
    "C49_cosine_default_partial",
    "C49_cosine_quantiles_partial",
    "C49_cosine_other_limits_refuted"
   ],
   "note": "Proved for the default limits; for other limits cdf, icdf and samples are those of the normalised cosine, but log_prob ignores the limits, so its density integrates to less than one (refuted)."
  },
  {
   "property": "C50",
   "status": "partial",
   "theorems": [
    "C50_powerlaw_density_partial",
    "C50_powerlaw_quantiles",
    "C50_powerlaw_outside",
    "C50_index_minus_one_refuted",
    "C50_cdf_of_negative_value_refuted"
   ],
   "note": "Density proved for every index but -1; cdf, icdf and samples for every index; values outside the limits. Refuted: at index -1 log_prob subtracts log(max/min) where log(log(max/min)) is needed; cdf of a negative value can be 1."
  },
  {
   "property": "C51",
   "status": "partial",
   "theorems": [
    "C51_redshift_unit_partial",
    "C51_redshift_cdf_partial",
    "C51_cdf_not_integral_refuted",
    "C51_cdf_above_one_refuted",
    "C51_maximum_below_grid_refuted"
   ],
   "note": "Unit trapezoid integral when the grid ends at or below maximum; cdf monotone from 0 to 1 and samples in range on evenly spaced grids. Refuted: cdf is not the integral of the density, can exceed one on uneven grids, and a maximum inside the grid removes probability."
  },
  {
   "property": "C52",
   "status": "partial",
   "theorems": [
    "C52_smoothed_continuous_partial",
    "C52_smoothed_normalised_refuted",
    "C52_sample_below_support_refuted"
   ],
   "note": "Continuity and the power-law pieces proved wherever log_prob is a number. Refuted for all parameters: the integral is greater than one or log_prob is NaN everywhere (wrong signs in the normalising constant; always NaN for alpha=-1, alpha_max=1 or alpha_min=-1)."
  },
  {
   "property": "C53",
   "status": "partial",
   "theorems": [
    "C53_spline_unit_partial",
    "C53_spline_cdf_partial",
    "C53_cdf_not_integral_refuted",
    "C53_out_of_range_refuted"
   ],
   "note": "Unit integral, monotone cdf on evenly spaced grids and samples in range proved for finite design matrices. Refuted: the cdf is not the integral of the density; a NaN column makes log_prob NaN at the neighbouring node."
  },
  {
   "property": "C54",
   "status": "partial",
   "theorems": [
    "C54_log_prob_partial",
    "C54_rejects_partial",
    "C54_sample_shape_refuted",
    "C54_sample_rejected_refuted"
   ],
   "note": "log_prob accepts exactly shape (N,) and equals the difference penalty. Refuted: samples have no event axis and are rejected by log_prob."
  },
  {
   "property": "C55",
   "status": "proved",
   "theorems": [
    "C55_bayes_factor_modes_agree"
   ],
   "note": ""
  },
  {
   "property": "C56",
   "status": "proved",
   "theorems": [
    "C56_effective_sizes_in_range",
    "C56_rescaling"
   ],
   "note": ""
  },
  {
   "property": "C57",
   "status": "proved",
   "theorems": [
    "C57_detection_efficiency_modes_agree",
    "C57_detection_efficiency_value"
   ],
   "note": ""
  },
  {
   "property": "C58",
   "status": "partial",
   "theorems": [
    "C58_efficiency_variance_partial",
    "C58_efficiency_variance_refuted"
   ],
   "note": "The third output plus 1/Ninj is the (non-negative) variance mc_var/mu^2 (proved); the output itself can be negative (refuted)."
  },
  {
   "property": "C59",
   "status": "proved",
   "theorems": [
    "C59_likelihood_always_finite"
   ],
   "note": ""
  },
  {
   "property": "C60",
   "status": "proved",
   "theorems": [
    "C60_likelihood_value",
    "C60_rescaling",
    "C60_permutation"
   ],
   "note": ""
  },
  {
   "property": "C61",
   "status": "proved",
   "theorems": [
    "C61_injection_cut",
    "C61_event_cut",
    "C61_variance_cut",
    "C61_untouched"
   ],
   "note": ""
  },
  {
   "property": "C62",
   "status": "proved",
   "theorems": [
    "C62_contradictory_flags"
   ],
   "note": ""
  },
  {
   "property": "C63",
   "status": "proved",
   "theorems": [
    "C63_names_distinct",
    "C63_rate"
   ],
   "note": ""
  },
  {
   "property": "C64",
   "status": "partial",
   "theorems": [
    "C64_predictive_draws_partial",
    "C64_predictive_draws_refuted"
   ],
   "note": "Proved whenever the event has a sample (and there is an injection) of positive weight that passes the cuts; if all samples of an event are cut, the first sample is recorded regardless (refuted)."
  },
  {
   "property": "C65",
   "status": "partial",
   "theorems": [
    "C65_categorical_partial",
    "C65_categorical_refuted",
    "C65_later_subpopulations_refuted"
   ],
   "note": "Proved for two sub-populations; with three or more, every one but the first is read as the second (refuted). Whichever later sub-population is drawn, the likelihood is that of the second (C65_later_subpopulations_refuted)."
  },
  {
   "property": "C66",
   "status": "partial",
   "theorems": [
    "C66_weights_partial",
    "C66_missing_hyperparameter_raises",
    "C66_unknown_entry_raises",
    "C66_missing_data_raises",
    "C66_shared_parameter_refuted"
   ],
   "note": "Proved for configurations without iid entries, in every state of the closure (arbitrary earlier calls). A shared (iid) parameter makes every call raise (C66_shared_parameter_refuted): analysis.py compares the partner's name the wrong way round. Missing hyper-parameters, unknown entries and missing data raise. Classes and distributions are abstract (a world record)."
  },
  {
   "property": "C67",
   "status": "partial",
   "theorems": [
    "C67_declared_hyperparameters",
    "C67_entries",
    "C67_ragged_lists_refused",
    "C67_models",
    "C67_shared_model",
    "C67_no_other_models",
    "C67_lookups_partial",
    "C67_lookups_refuted",
    "C67_good_configurations_read"
   ],
   "note": "Recorded keys and sampling_params are characterised exactly for any starting reader; entries when keys are distinct, with lists stored as arrays only when rectangular and numeric, any other list being refused (C67_ragged_lists_refused); models when there is no iid. That every looked-up key is present fails for a hyper-parameter declared with neither prior+prior_params nor value (silently skipped): refuted, and partial under that hypothesis. Configurations whose declarations are all well formed are read without an error (C67_good_configurations_read)."
  },
  {
   "property": "C68",
   "status": "partial",
   "theorems": [
    "C68_keys_refuted",
    "C68_keys_partial"
   ],
   "note": "Refuted: a/1_alpha and a_1/alpha share the key a_1_alpha. Partial: distinct when no parameter name extends another by an underscore."
  },
  {
   "property": "C69",
   "status": "partial",
   "theorems": [
    "C69_dotted_paths",
    "C69_undotted_names_raise",
    "C69_python_file_partial",
    "C69_python_file_refuted"
   ],
   "note": "Dotted paths proved for all strings. python files: str.replace removes every occurrence, so directories containing the file name and bare file names go wrong (refuted); partial otherwise."
  },
  {
   "property": "C70",
   "status": "partial",
   "theorems": [
    "C70_events_dropped",
    "C70_number_of_events_partial",
    "C70_number_of_events_refuted"
   ],
   "note": "Remaining events proved; nObs counts the ignored events too (refuted), partial when nothing is ignored."
  },
  {
   "property": "C71",
   "status": "proved",
   "theorems": [
    "C71_mass_prior",
    "C71_spin_prior",
    "C71_redshift_prior"
   ],
   "note": "All four request combinations of the mass helper, both spin modes, and the redshift helper, for all sizes, names, scales and degrees."
  },
  {
   "property": "C72",
   "status": "partial",
   "theorems": [
    "C72_pdf_export_partial",
    "C72_redshift_dropped_refuted",
    "C72_posterior_export_partial",
    "C72_posterior_export_mutates_refuted"
   ],
   "note": "Refuted: with sub-populations redshift is removed from the caller's dictionary and never exported; posterior_dict_to_xarray replaces the caller's arrays. The arrays that are exported are right (partial)."
  },
  {
   "property": "C73",
   "status": "proved",
   "theorems": [
    "C73_found_o4a",
    "C73_found_o3",
    "C73_run_flag",
    "C73_monotone"
   ],
   "note": "Proved for both readers on every well-formed file: the selected rows are exactly the found ones, all columns list the same rows in order, the total is the file's; lowering thresholds keeps every injection."
  },
  {
   "property": "C74",
   "status": "partial",
   "theorems": [
    "C74_cuts_add",
    "C74_additional_cuts_refuted"
   ],
   "note": "Refuted: the cuts are united with the thresholds (found |= ...), so a row that passes no threshold is selected once a cut is given. C74_cuts_add is the exact behaviour. With through_o4a the cuts are ignored."
  },
  {
   "property": "C75",
   "status": "proved",
   "theorems": [
    "C75_prior_o4a",
    "C75_prior_o3"
   ],
   "note": "Proved for both readers and every parameter request."
  },
  {
   "property": "C76",
   "status": "partial",
   "theorems": [
    "C76_missing_components_refuted",
    "C76_missing_components_partial"
   ],
   "note": "Refuted: np.zeros(n_found)[found] raises IndexError as soon as one row of the file is not selected. C76_missing_components_partial: if every row is selected the magnitudes are |spin_z|."
  },
  {
   "property": "C77",
   "status": "partial",
   "theorems": [
    "C77_injections_plain",
    "C77_injections_effective",
    "C77_posteriors_plain",
    "C77_posteriors_effective",
    "C77_second_spin_refuted",
    "C77_both_masses_refuted"
   ],
   "note": "Proved for requests within the available parameters, end to end for injections, and for posteriors given that the earlier stages succeed. Refuted for spin parameters requested without a_1 (KeyError) and for mass_2 together with mass_ratio and chi_eff (mass_ratio is dropped)."
  },
  {
   "property": "C78",
   "status": "partial",
   "theorems": [
    "C78_one_rule_refuted",
    "C78_gwtc1_refuted",
    "C78_above_partial",
    "C78_below_partial"
   ],
   "note": "Refuted: no rule on (mass_1, mmax) alone describes the cut (samples at exactly mmax survive unless some other sample exceeds it), and GWTC-1 events are never cut. The _partial theorems give what holds outside GWTC-1."
  },
  {
   "property": "C79",
   "status": "proved",
   "theorems": [
    "C79_downsampling",
    "C79_succeeds"
   ],
   "note": "Proved for every catalog and every sampling without replacement. C79_succeeds: catalogs without GWTC-1 events never raise."
  },
  {
   "property": "C80",
   "status": "proved",
   "theorems": [
    "C80_prior",
    "C80_undeclared_raises"
   ],
   "note": "Proved for a flat cosmology in any reachable state of its tables and real-valued samples; the tables are grid densities proportional to the analytic shapes."
  },
  {
   "property": "C81",
   "status": "partial",
   "theorems": [
    "C81_injections_refuted",
    "C81_posteriors_refuted",
    "C81_effective_spin_values",
    "C81_isotropic_prior_partial",
    "C81_isotropic_prior_refuted",
    "C81_isotropic_prior_nan_refuted"
   ],
   "note": "Refuted: after reading, the prior of isotropic draws is p_rest/4; conversion divides by (2 pi a1^2)(2 pi a2^2) and multiplies by p(chi_eff|q), so the result is the intended density times 1/((4 pi a1^2)(4 pi a2^2)). With the package's own density of chi_eff (C81_isotropic_prior_partial) the value is the pushforward density off the points where two cases of the formula meet; there it can recurse for ever (C81_isotropic_prior_refuted) or be nan (C81_isotropic_prior_nan_refuted)."
  },
  {
   "property": "C82",
   "status": "partial",
   "theorems": [
    "C82_chi_p_refuted"
   ],
   "note": "Refuted: every call with chi_p raises, with or without chi_eff."
  },
  {
   "property": "C83",
   "status": "proved",
   "theorems": [
    "C83_resample"
   ],
   "note": "Proved for every weight vector with positive sum, fewer injections than draws and every choice that avoids zero-probability entries."
  },
  {
   "property": "C84",
   "status": "partial",
   "theorems": [
    "C84_tilt_curves",
    "C84_beta_curves_partial",
    "C84_beta_curves_refuted",
    "C84_spline_spin_curves_iid",
    "C84_spline_spin_curves_independent",
    "C84_powerlaw_peak_mass_curves",
    "C84_spline_mass_curves",
    "C84_log_peak_mass_curves"
   ],
   "note": "Proved for the tilt mixture, the B-spline spins (both branches), the power-law-plus-peak, B-spline and log-peak masses, and every draw of the Beta magnitudes with alpha, beta > 1. Refuted for the other draws: the curve starts with NaN if alpha <= 1 and ends with NaN if beta <= 1. Draws, rates and fractions of different lengths are not modelled."
  },
  {
   "property": "C85",
   "status": "proved",
   "theorems": [
    "C85_powerlaw_rate_curves",
    "C85_rate_at_zero",
    "C85_spline_rate_curves",
    "C85_zero_coefficients"
   ],
   "note": "Proved for redshift models built from any finite samples above -1 and the two unnormalised linear bases (B-spline and log-x B-spline)."
  },
  {
   "property": "C86",
   "status": "proved",
   "theorems": [
    "C86_aligned_is_pushforward"
   ],
   "note": ""
  },
  {
   "property": "C87",
   "status": "proved",
   "theorems": [
    "C87_chip_prior_is_max_distribution"
   ],
   "note": ""
  },
  {
   "property": "C88",
   "status": "partial",
   "theorems": [
    "C88_array_elementwise_partial",
    "C88_array_q_refuted"
   ],
   "note": "Proved for scalar q; with array q an element on a case boundary makes the recursive call fail (refuted)."
  },
  {
   "property": "C89",
   "status": "partial",
   "theorems": [
    "C89_support_contains_physical_partial",
    "C89_support_refuted",
    "C89_support_nan_refuted"
   ],
   "note": "Proved for a_max = 1; for a_max < 1 the bound mixes up scalings and excludes physical values or is NaN (refuted)."
  },
  {
   "property": "C90",
   "status": "partial",
   "theorems": [
    "C90_integer_count_partial",
    "C90_integer_count_refuted",
    "C90_exactly_when"
   ],
   "note": "Proved up to 46340; above it Ninj**2 wraps in int32. C90_exactly_when shows that 46340 is the exact limit: for every larger integer below 2^31 and any usable weights the effective number of injections differs from that of the float count. C90_integer_count_refuted gives the total loss at 65536."
  },
  {
   "property": "C91",
   "status": "proved",
   "theorems": [
    "C91_log_volume"
   ],
   "note": "Whole arrays, after any history of queries, with table extension."
  },
  {
   "property": "C92",
   "status": "partial",
   "theorems": [
    "C92_isotropic_is_pushforward",
    "C92_boundary_average",
    "C92_nan_inside_refuted",
    "C92_isotropic_normalised",
    "C92_spin_component_density",
    "C92_integral_well_defined"
   ],
   "note": "The value is the pushforward density off the boundaries and the stated average on them; refuted at chi_eff = q a_max/(1+q) for 1/2 < q < 1, where case D is inf - inf and the result is NaN. Total probability one: C92_isotropic_normalised."
  },
  {
   "property": "C93",
   "status": "proved",
   "theorems": [
    "C93_weighted_kde_of_physical_draws"
   ],
   "note": "scipy.stats.gaussian_kde is an arbitrary positive function argument."
  },
  {
   "property": "C94",
   "status": "proved",
   "theorems": [
    "C94_not_flat",
    "C94_luminosity_table",
    "C94_luminosity_query",
    "C94_volume_element",
    "C94_volume_table"
   ],
   "note": ""
  },
  {
   "property": "C95",
   "status": "proved",
   "theorems": [
    "C95_least_squares",
    "C95_least_squares_spline"
   ],
   "note": ""
  },
  {
   "property": "C96",
   "status": "proved",
   "theorems": [
    "C96_sections",
    "C96_no_models_section_raises",
    "C96_python_file"
   ],
   "note": ""
  },
  {
   "property": "C97",
   "status": "proved",
   "theorems": [
    "C97_time_and_total"
   ],
   "note": ""
  },
  {
   "property": "C98",
   "status": "proved",
   "theorems": [
    "C98_reads_each_event",
    "C98_error_is_a_missing_dataset"
   ],
   "note": ""
  },
  {
   "property": "C99",
   "status": "proved",
   "theorems": [
    "C99_configuration_to_likelihood"
   ],
   "note": ""
  },
  {
   "property": "C100",
   "status": "proved",
   "theorems": [
    "C100_redshift_spline",
    "C100_powerlaw_redshift_spline",
    "C100_powerlaw_mass_spline",
    "C100_mass_ratio_joint"
   ],
   "note": ""
  },
  {
   "property": "C101",
   "status": "proved",
   "theorems": [
    "C101_linear",
    "C101_logarithmic",
    "C101_basis_spline",
    "C101_normalised"
   ],
   "note": ""
  },
  {
   "property": "C102",
   "status": "proved",
   "theorems": [
    "C102_components_are_densities",
    "C102_bspline_area"
   ],
   "note": ""
  },
  {
   "property": "C103",
   "status": "proved",
   "theorems": [
    "C103_redshift_density",
    "C103_redshift_sampler",
    "C103_spline_density",
    "C103_spline_sampler"
   ],
   "note": "Tightens C51/C53, which constrain the two gridded distributions only at their grid nodes. The tabulated cdf entries are the ones the code computes (shifted by one node, see C47)."
  },
  {
   "property": "C104",
   "status": "proved",
   "theorems": [
    "C104_moments_of_shapes",
    "C104_shapes_of_moments"
   ],
   "note": "Tightens C16, whose round trips would hold for any mutually inverse pair. The Beta function is an oracle assumed equal to the (improper) Beta integral."
  },
  {
   "property": "C105",
   "status": "partial",
   "theorems": [
    "C105_command_line",
    "C105_spline_defaults",
    "C105_spline_counts_refuted",
    "C105_save_plots_refuted",
    "C105_dash_values"
   ],
   "note": "Both parsers, any sequence of settings, including unambiguous abbreviations and negative numbers as values (C105_command_line); other texts with a dash in front are refused as values (C105_dash_values). Refuted: --m-nsplines and the other spline counts are declared type=str, so any value given on the command line makes the set-up fail; --save-plots is type=bool, so --save-plots False still saves. Out of scope: positional arguments, help output."
  },
  {
   "property": "C106",
   "status": "proved",
   "theorems": [
    "C106_mass_models",
    "C106_independent_spin_models",
    "C106_iid_spin_models",
    "C106_redshift_model",
    "C106_missing_columns",
    "C106_no_samples",
    "C106_secondary_spin_counts"
   ],
   "note": "Every sample's value is the product of the closed-form densities of its own parameters; missing columns raise KeyError; calling the spin set-up with independent spins but without the secondary's counts raises TypeError. A redshift set-up on an empty sample set raises ValueError (C106_no_samples)."
  },
  {
   "property": "C107",
   "status": "partial",
   "theorems": [
    "C107_bspline_example_weights_partial",
    "C107_bspline_example_call_partial",
    "C107_peak_weight_partial",
    "C107_bspline_example_refuted",
    "C107_other_examples_refuted",
    "C107_spin_variance_refuted"
   ],
   "note": "Weights of the B-spline example proved; refuted that any shipped example model reaches the likelihood (they pass surv_hypervolume_fct and vtfct_kwargs, which hierarchical_likelihood does not accept, hence TypeError in every call), and that var_a1/var_a2 of the power-law-peak example is the variance of the spin magnitude (it is mu(1-mu)/(1+var), and both shapes are below one). C107_bspline_example_call_partial shows what the same model computes when the two keywords are left out: each coefficient vector meets its own tables, event by sample weights for the posteriors, a flat vector for the injections. C107_peak_weight_partial gives the power-law-peak weight in closed form."
  },
  {
   "property": "C108",
   "status": "partial",
   "theorems": [
    "C108_saved_is_loaded",
    "C108_name_refused",
    "C108_other_files_kept",
    "C108_catalog_to_likelihood_data",
    "C108_lost_event",
    "C108_metadata_file",
    "C108_no_metadata_refuted"
   ],
   "note": "Component-spin and spin-free requests; effective spins are covered up to the data set by C77 and C81. netCDF writing and reading is trusted to be the identity. An event with no sample below the mass cut makes the whole load raise ValueError (C108_lost_event). A file whose metadata cannot be found (neither in the file nor in a key file) makes the load raise TypeError instead of a message naming it (C108_no_metadata_refuted)."
  },
  {
   "property": "C109",
   "status": "partial",
   "theorems": [
    "C109_mass_figures",
    "C109_spin_figures",
    "C109_rate_figure",
    "C109_band",
    "C109_order_of_draws",
    "C109_too_many_refuted",
    "C109_mass_ratio_missing_refuted",
    "C109_mass_ratio_extra_refuted"
   ],
   "note": "False for more populations than names or colors (three colors by default) and for other numbers of mass-ratio than mass densities: IndexError or silently missing curves (C109_*_refuted). Finite draws; figures are the arguments handed to matplotlib."
  },
  {
   "property": "C110",
   "status": "partial",
   "theorems": [
    "C110_script_refuted",
    "C110_missing_names_refuted",
    "C110_arrays",
    "C110_run",
    "C110_missing_parameter",
    "C110_same_lengths",
    "C110_python_file_refuted"
   ],
   "note": "False: the script imports load_catalog_from_metadata and selection.load_injection_dataset, which do not exist, so it raises ImportError for every configuration (C110_script_refuted). With any loaders in their place the arrays are right (C110_arrays), except for models given as a python file (C110_python_file_refuted). Posterior samples of unequal length are refused (C110_same_lengths)."
  },
  {
   "property": "C111",
   "status": "partial",
   "theorems": [
    "C111_runs_apart",
    "C111_files",
    "C111_missing",
    "C111_other_settings_refuted"
   ],
   "note": "Proved that file names determine label, warm-up, samples, seed and results directory. Refuted for every other setting (mass range, data file, numbers of splines, chains): such runs share the directory and overwrite each other. Creation of directories is not modelled."
  },
  {
   "property": "C112",
   "status": "partial",
   "theorems": [
    "C112_command",
    "C112_tasks_apart",
    "C112_logs",
    "C112_time",
    "C112_missing_refuted"
   ],
   "note": "Round trip through the generated command, the shell words and the argparse model, for settings that are single words. Refuted: a missing file, script or interpreter is not refused but written as the word None. The shell is modelled as splitting at spaces and substituting the array index."
  },
  {
   "property": "C113",
   "status": "partial",
   "theorems": [
    "C113_log_likelihood_partial",
    "C113_gauge_partial",
    "C113_prior_constants_partial"
   ],
   "note": "The model is the B-spline example called with keywords the likelihood accepts; as shipped it raises TypeError (C107), hence _partial. Assumes finite draws above the most negative float, knots at least 1e-6 apart and a positive volume element; the posterior and the injection that must lie inside the ranges are needed for the logarithms to be finite."
  },
  {
   "property": "C114",
   "status": "partial",
   "theorems": [
    "C114_fractions_partial",
    "C114_log_fractions_refuted"
   ],
   "note": "Proved when the sub-population weights are passed as plain weights (log or not for the total). Refuted when log=True and they are passed as log weights like the other arrays: the recorded value is log(w_i)/w, negative for weights below one."
  },
  {
   "property": "C115",
   "status": "partial",
   "theorems": [
    "C115_log_likelihood_partial",
    "C115_prior_constants_partial",
    "C115_recorded_shapes",
    "C115_zero_spin_refuted"
   ],
   "note": "The model is the power-law-peak example called with keywords the likelihood accepts; as shipped it raises TypeError (C107), hence _partial. Spin magnitudes strictly between 0 and 1 and binaries not exactly at m1 = mmin, q = 1 (where the mass-ratio range is a point). Refuted part: a sample with spin exactly zero has infinite weight whenever mu times the sampled shape sum is below one. The columns of a dictionary have one shape."
  },
  {
   "property": "C116",
   "status": "proved",
   "theorems": [
    "C116_planck_distances",
    "C116_planck_redshifts"
   ],
   "note": "Chord error of a function with Lipschitz derivative, for the trapezoid rule and for the interpolation; the second derivative of the comoving rate falls like (1+z)^-2, so the bound does not grow with z. Exact arithmetic: single-precision rounding is not modelled and can exceed this bound at large distances."
  },
  {
   "property": "C117",
   "status": "partial",
   "theorems": [
    "C117_files_to_log_likelihood_partial"
   ],
   "note": "Composes C108 with C113 and C115: the weights of the log-likelihood are evaluated at named samples and rows of the files with named priors. Missing: the calls inside the examples do not bind as written (C107), so the theorem is for keywords that do; found injections must have real values (a spin of exactly zero gives NaN)."
  },
  {
   "property": "C118",
   "status": "partial",
   "theorems": [
    "C118_curves_partial",
    "C118_mass_edges_refuted",
    "C118_chains_refuted"
   ],
   "note": "Partial because the full property is false: the mass curves carry the extra condition m1*q > mmin, so they vanish at the lower edges where the fitted densities do not (refuted), and with several chains the number of draws is not the samples argument and ValueError is raised (refuted). Plots and the NetCDF encoding are not part of the model."
  },
  {
   "property": "C119",
   "status": "partial",
   "theorems": [
    "C119_curves_partial",
    "C119_spin_magnitudes_refuted",
    "C119_chains_refuted"
   ],
   "note": "Partial because the full property is false: for every draw the priors of the example allow (shape sum at most 1/4) both spin-magnitude curves are NaN at 0 and 1 and zero between (refuted); several chains raise ValueError (refuted); mass curves as in C118. betaln is an oracle finite at positive arguments."
  },
  {
   "property": "C120",
   "status": "partial",
   "theorems": [
    "C120_with_grid_partial",
    "C120_shipped_configuration_refuted",
    "C120_redshift_class_refuted",
    "C120_python_model_refuted"
   ],
   "note": "Partial because the full property is false: the model builder passes grid= to the redshift class, whose constructor has no such parameter (it wants zgrid and dVcdz), so every call of the shipped configuration's model raises TypeError (refuted), as does every configuration using one of the package's own classes for the redshift except the B-spline distribution (refuted), and the Python model beside it (refuted). Proved in full for the same configuration with a redshift class that takes the grid. numpyro's own classes are an oracle; outside its range a power law counts with the exponential of the most negative float."
  },
  {
   "property": "C121",
   "status": "partial",
   "theorems": [
    "C121_files_partial",
    "C121_samples_lost_refuted"
   ],
   "note": "Partial because the full property is false: two declarations can share a key (C68); if a prior is then overwritten by a value, the name is still listed as sampled, the trace plot raises KeyError and the samples of a completed run are never saved (refuted). Proved for all documents whose keys are distinct. The constructors of the prior classes are assumed not to raise AttributeError (the model builder would pass the prior object on). One call of the model gives the names of the posterior; plotting and encoding are not modelled."
  },
  {
   "property": "C122",
   "status": "proved",
   "theorems": [
    "C122_options_used",
    "C122_unknown_options_refused",
    "C122_script_options",
    "C122_contradictory_options_refused"
   ],
   "note": "For models sections without a python file (with one the script never looks at the likelihood section). The variance cut alone is refused too, because the cut on the effective samples is on by default: it has to be switched off explicitly (C122_contradictory_options_refused)."
  },
  {
   "property": "C123",
   "status": "proved",
   "theorems": [
    "C123_run_evaluates"
   ],
   "note": "The loaders are arguments: the two the script imports do not exist (C110). Samples of unequal numbers are refused (C110), shared parameters too (C66). The classes are arguments; with the package's own redshift classes every evaluation raises (C120). Injection columns are arrays, the number of injections a float (C90 for integers)."
  }
 ]
}