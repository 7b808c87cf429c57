{
 "claims": [
  {
   "property": "C01",
   "status": "proved",
   "theorems": [
    "C01_lookup_is_latest_created",
    "C01_iteration_order_is_birth_order",
    "C01_failing_operation_changes_nothing",
    "C01_delete_raises_iff_absent",
    "C01_find_lists_matching_names"
   ],
   "note": ""
  },
  {
   "property": "C02",
   "status": "proved",
   "theorems": [
    "C02_registries_do_not_interfere"
   ],
   "note": "For the classes flavio ships (all direct children of the common base). See C58 for subclasses."
  },
  {
   "property": "C03",
   "status": "proved",
   "theorems": [
    "C03_latest_constraint_wins",
    "C03_all_parameters_exact",
    "C03_listing_order",
    "C03_parameter_objects_registered"
   ],
   "note": ""
  },
  {
   "property": "C04",
   "status": "proved",
   "theorems": [
    "C04_central_values",
    "C04_unconstrained_raises"
   ],
   "note": ""
  },
  {
   "property": "C05",
   "status": "proved",
   "theorems": [
    "C05_random_values_joint"
   ],
   "note": ""
  },
  {
   "property": "C06",
   "status": "proved",
   "theorems": [
    "C06_log_probability_is_sum_of_live_contributions",
    "C06_missing_value_raises",
    "C06_each_distribution_once",
    "C06_only_live_values_matter"
   ],
   "note": "For ordinary use (one distribution object per addition, no duplicate name within one addition); C59/C60 show the hypothesis is needed."
  },
  {
   "property": "C07",
   "status": "proved",
   "theorems": [
    "C07_single_agrees_with_all"
   ],
   "note": "Same hypothesis as C06."
  },
  {
   "property": "C08",
   "status": "partial",
   "theorems": [
    "C08_roundtrip_up_to_removals_partial",
    "C08_constraints_in_force_survive_partial",
    "C08_roundtrip_measurement_partial",
    "C08_roundtrip_after_removal_refuted"
   ],
   "note": "Proved up to removals: constraints in force survive. Full statement refuted: a removed constraint is back after saving and reloading."
  },
  {
   "property": "C09",
   "status": "proved",
   "theorems": [
    "C09_set_constraint_all_or_nothing",
    "C09_both_or_neither_rejected"
   ],
   "note": ""
  },
  {
   "property": "C10",
   "status": "proved",
   "theorems": [
    "C10_tuple_to_dict_and_back",
    "C10_dict_to_tuple_and_back",
    "C10_string_form",
    "C10_unknown_name_raises",
    "C10_wrong_number_raises",
    "C10_missing_arguments_raise"
   ],
   "note": "For observables whose argument names are distinct and different from 'name'. Gaps are separate properties C63, C66."
  },
  {
   "property": "C11",
   "status": "proved",
   "theorems": [
    "C11_taxonomy_exact",
    "C11_categories_of_string"
   ],
   "note": ""
  },
  {
   "property": "C12",
   "status": "proved",
   "theorems": [
    "C12_from_function_composes",
    "C12_bad_inputs_rejected",
    "C12_failure_creates_nothing",
    "C12_definition_is_stable"
   ],
   "note": "For a new name that is not among the inputs; C64 covers the other case."
  },
  {
   "property": "C13",
   "status": "proved",
   "theorems": [
    "C13_measurements_found_exactly"
   ],
   "note": "Measurement keys are non-empty tuples or strings (an empty tuple as key would raise IndexError)."
  },
  {
   "property": "C14",
   "status": "proved",
   "theorems": [
    "C14_configured_implementation_is_used",
    "C14_other_configuration_irrelevant"
   ],
   "note": ""
  },
  {
   "property": "C15",
   "status": "partial",
   "theorems": [
    "C15_rejected_implementation_refuted"
   ],
   "note": "Refuted: the constructor registers before it checks; the half-built object replaces an existing one and makes show_all raise."
  },
  {
   "property": "C16",
   "status": "partial",
   "theorems": [
    "C16_show_all_last_partial",
    "C16_show_all_refuted"
   ],
   "note": "Proved: the last implementation of each quantity is shown. Refuted: the others are dropped."
  },
  {
   "property": "C17",
   "status": "proved",
   "theorems": [
    "C17_selected_measurements",
    "C17_registration_order",
    "C17_constructor_check"
   ],
   "note": "For options accepted and with at most one of the two lists given (C67 covers both given)."
  },
  {
   "property": "C18",
   "status": "proved",
   "theorems": [
    "C18_log_likelihood_is_sum",
    "C18_only_wanted_predictions_matter",
    "C18_missing_prediction_raises"
   ],
   "note": "For measurements in ordinary use (see C06)."
  },
  {
   "property": "C19",
   "status": "proved",
   "theorems": [
    "C19_number_of_observations",
    "C19_observations_are_distinct_pairs"
   ],
   "note": ""
  },
  {
   "property": "C20",
   "status": "partial",
   "theorems": [
    "C20_cached_predictions_partial",
    "C20_hash_collision_refuted"
   ],
   "note": "Proved if no earlier call with other predictions has the same hash; refuted otherwise: only the hash of the arguments is compared, and CPython hashes -1 and -2 alike."
  },
  {
   "property": "C21",
   "status": "proved",
   "theorems": [
    "C21_parameter_likelihood_is_sum",
    "C21_central_values_in_order",
    "C21_total_is_sum_of_parts"
   ],
   "note": ""
  },
  {
   "property": "C22",
   "status": "proved",
   "theorems": [
    "C22_sm_covariance_reordered",
    "C22_sm_single_observable",
    "C22_experimental_covariance_reordered",
    "C22_missing_observable_raises",
    "C22_save_load_identity"
   ],
   "note": ""
  },
  {
   "property": "C23",
   "status": "proved",
   "theorems": [
    "C23_cache_discipline"
   ],
   "note": ""
  },
  {
   "property": "C24",
   "status": "partial",
   "theorems": [
    "C24_pseudo_measurements_do_not_leak",
    "C24_own_pseudo_measurement_partial",
    "C24_different_names_do_not_interfere",
    "C24_same_name_refuted"
   ],
   "note": "No leak: proved in full. Own pseudo-measurement: proved unless another measurement of the same name is made; refuted for two FastLikelihoods of the same name."
  },
  {
   "property": "C25",
   "status": "proved",
   "theorems": [
    "C25_average_is_product",
    "C25_order_independent",
    "C25_unconstrained_observables_drop_out",
    "C25_single_observable"
   ],
   "note": "numpy's inverse of a matrix with infinite variances is modelled as the large-variance limit, which is proved (weight_limit). Sample means and covariances are data."
  },
  {
   "property": "C26",
   "status": "proved",
   "theorems": [
    "C26_powers",
    "C26_brackets",
    "C26_zero_error"
   ],
   "note": ""
  },
  {
   "property": "C27",
   "status": "proved",
   "theorems": [
    "C27_plusminus",
    "C27_zero_error"
   ],
   "note": ""
  },
  {
   "property": "C28",
   "status": "partial",
   "theorems": [
    "C28_refuted",
    "C28_partial"
   ],
   "note": "Refuted as stated: '1.0 - 0.2' is accepted by the pattern but yields an empty list and an IndexError; a plain number written with U+2212 yields a dict and an AttributeError. C28_partial shows for every string that these are the only exceptions (besides ValueError) and when they occur."
  },
  {
   "property": "C29",
   "status": "proved",
   "theorems": [
    "C29_number",
    "C29_limit",
    "C29_range",
    "C29_lognormal"
   ],
   "note": ""
  },
  {
   "property": "C30",
   "status": "proved",
   "theorems": [
    "C30_citation_set"
   ],
   "note": ""
  },
  {
   "property": "C31",
   "status": "proved",
   "theorems": [
    "C31_scope",
    "C31_theory_citations",
    "C31_program"
   ],
   "note": ""
  },
  {
   "property": "C32",
   "status": "proved",
   "theorems": [
    "C32_reported_dependence_sound"
   ],
   "note": ""
  },
  {
   "property": "C33",
   "status": "proved",
   "theorems": [
    "C33_error_budget",
    "C33_error_budget_total"
   ],
   "note": ""
  },
  {
   "property": "C34",
   "status": "proved",
   "theorems": [
    "C34_points_list",
    "C34_points_all",
    "C34_serial_parallel"
   ],
   "note": ""
  },
  {
   "property": "C35",
   "status": "proved",
   "theorems": [
    "C35_combine_measurements",
    "C35_keyword_arguments"
   ],
   "note": ""
  },
  {
   "property": "C36",
   "status": "proved",
   "theorems": [
    "C36_same_calls"
   ],
   "note": ""
  },
  {
   "property": "C37",
   "status": "proved",
   "theorems": [
    "C37_same_centre",
    "C37_sum",
    "C37_delta_neutral",
    "C37_single_and_errors",
    "C37_sum_with_delta",
    "C37_mixed"
   ],
   "note": ""
  },
  {
   "property": "C38",
   "status": "proved",
   "theorems": [
    "C38_product_of_densities",
    "C38_weighted_average",
    "C38_mixed"
   ],
   "note": ""
  },
  {
   "property": "C39",
   "status": "proved",
   "theorems": [
    "C39_delta_wins"
   ],
   "note": ""
  },
  {
   "property": "C40",
   "status": "proved",
   "theorems": [
    "C40_constructors",
    "C40_central_value_in_support",
    "C40_accepted_are_documented"
   ],
   "note": ""
  },
  {
   "property": "C41",
   "status": "partial",
   "theorems": [
    "C41_relative_logpdf_partial",
    "C41_multivariate"
   ],
   "note": "Proved for all univariate classes with analytic densities in flavio (uniform, discrete, delta, normal, log-normal, asymmetric, half-normal, Gaussian limit); gamma and numerical densities are oracles. The multivariate normal part is C41_multivariate."
  },
  {
   "property": "C42",
   "status": "proved",
   "theorems": [
    "C42_reduce",
    "C42_positions",
    "C42_range",
    "C42_logpdf",
    "C42_positive"
   ],
   "note": ""
  },
  {
   "property": "C43",
   "status": "proved",
   "theorems": [
    "C43_density",
    "C43_mode"
   ],
   "note": ""
  },
  {
   "property": "C44",
   "status": "proved",
   "theorems": [
    "C44_name_of_class",
    "C44_back_to_class",
    "C44_flavio_classes",
    "C44_all_classes"
   ],
   "note": ""
  },
  {
   "property": "C45",
   "status": "proved",
   "theorems": [
    "C45_probability_distribution",
    "C45_central_outside",
    "C45_default_central_is_mode"
   ],
   "note": ""
  },
  {
   "property": "C46",
   "status": "proved",
   "theorems": [
    "C46_number",
    "C46_triangle",
    "C46_symmetric",
    "C46_accepted"
   ],
   "note": ""
  },
  {
   "property": "C47",
   "status": "proved",
   "theorems": [
    "C47_steps",
    "C47_ends",
    "C47_requested_flavours"
   ],
   "note": ""
  },
  {
   "property": "C48",
   "status": "partial",
   "theorems": [
    "C48_some_configuration",
    "C48_constant_configuration",
    "C48_stale_refuted"
   ],
   "note": "Refuted in full: after a change of the thresholds a call with the same arguments as before still returns the result for the old ones (C48_stale_refuted). Proved: every result belongs to a configuration that was in force, the current one for new arguments, and with a constant configuration the cache is invisible."
  },
  {
   "property": "C49",
   "status": "proved",
   "theorems": [
    "C49_deduplicate"
   ],
   "note": ""
  },
  {
   "property": "C50",
   "status": "partial",
   "theorems": [
    "C50_parameter_difference_partial",
    "C50_change_and_change_back_refuted"
   ],
   "note": "Proved for modifications that are additions differing from every saved default; refuted for change-and-change-back."
  },
  {
   "property": "C51",
   "status": "partial",
   "theorems": [
    "C51_measurement_likelihood_partial",
    "C51_fast_likelihood_partial",
    "C51_likelihood_dump_refuted",
    "C51_pseudo_flag_refuted",
    "C51_no_nuisance_parameters_refuted",
    "C51_parameter_likelihood_partial",
    "C51_empty_parameter_list_refuted"
   ],
   "note": "Round trips proved for MeasurementLikelihood, FastLikelihood, ParameterLikelihood in normal use. Refuted: Likelihood.dump always raises; include_pseudo_measurements is lost; an empty nuisance list becomes 'all'; an empty parameter list becomes None."
  },
  {
   "property": "C52",
   "status": "proved",
   "theorems": [
    "C52_value",
    "C52_unitarity",
    "C52_exchange",
    "C52_names",
    "C52_angles"
   ],
   "note": ""
  },
  {
   "property": "C53",
   "status": "proved",
   "theorems": [
    "C53_parameters",
    "C53_coefficients",
    "C53_ckm"
   ],
   "note": ""
  },
  {
   "property": "C54",
   "status": "proved",
   "theorems": [
    "C54_symmetric",
    "C54_value",
    "C54_masses",
    "C54_add_dict",
    "C54_add_order",
    "C54_add_none"
   ],
   "note": ""
  },
  {
   "property": "C55",
   "status": "proved",
   "theorems": [
    "C55_eigenstates",
    "C55_differences",
    "C55_D_system",
    "C55_asymmetry",
    "C55_rephasing",
    "C55_quark_phases",
    "C55_conjugation",
    "C55_bounds",
    "C55_unitarity_triangle"
   ],
   "note": ""
  },
  {
   "property": "C56",
   "status": "proved",
   "theorems": [
    "C56_distribution",
    "C56_distribution_positive",
    "C56_rate_positive",
    "C56_FL",
    "C56_FL_amplitudes",
    "C56_AFB",
    "C56_reconstruct",
    "C56_rate_asymmetry"
   ],
   "note": ""
  },
  {
   "property": "C57",
   "status": "proved",
   "theorems": [
    "C57_first_success",
    "C57_no_success",
    "C57_maximize",
    "C57_value"
   ],
   "note": ""
  },
  {
   "property": "C58",
   "status": "partial",
   "theorems": [
    "C58_subclass_registry_refuted"
   ],
   "note": "Refuted: a subclass of an already used class shares its registry."
  },
  {
   "property": "C59",
   "status": "partial",
   "theorems": [
    "C59_shared_distribution_object_refuted"
   ],
   "note": "Refuted: two parameters constrained by the same distribution object contribute once."
  },
  {
   "property": "C60",
   "status": "partial",
   "theorems": [
    "C60_duplicate_name_refuted"
   ],
   "note": "Refuted: a name listed twice in one addition silently contributes nothing."
  },
  {
   "property": "C61",
   "status": "proved",
   "theorems": [
    "C61_errors_rightleft"
   ],
   "note": ""
  },
  {
   "property": "C62",
   "status": "partial",
   "theorems": [
    "C62_saved_object_loads_refuted"
   ],
   "note": "Refuted: an argument-less object with a public attribute saves to a dictionary that cannot be loaded."
  },
  {
   "property": "C63",
   "status": "partial",
   "theorems": [
    "C63_list_format_of_dict_refuted"
   ],
   "note": "Refuted: the dictionary form is split into characters."
  },
  {
   "property": "C64",
   "status": "partial",
   "theorems": [
    "C64_self_redefinition_refuted"
   ],
   "note": "Refuted: the observable is replaced before its prediction is read; the prediction is lost."
  },
  {
   "property": "C65",
   "status": "partial",
   "theorems": [
    "C65_implementation_of_other_quantity_refuted"
   ],
   "note": "Refuted: no check that the configured implementation belongs to the quantity."
  },
  {
   "property": "C66",
   "status": "partial",
   "theorems": [
    "C66_surplus_arguments_refuted"
   ],
   "note": "Refuted: surplus dictionary entries are ignored or passed through."
  },
  {
   "property": "C67",
   "status": "partial",
   "theorems": [
    "C67_include_list_refuted"
   ],
   "note": "Refuted: an empty exclude list, which the constructor accepts, makes the include list ignored."
  },
  {
   "property": "C68",
   "status": "partial",
   "theorems": [
    "C68_cache_ignores_configuration_refuted"
   ],
   "note": "Refuted: the cache key is the argument hash only."
  },
  {
   "property": "C69",
   "status": "partial",
   "theorems": [
    "C69_default_parameters_refuted"
   ],
   "note": "Refuted: the default parameters=None raises TypeError."
  },
  {
   "property": "C70",
   "status": "proved",
   "theorems": [
    "C70_correlation_warning_counts"
   ],
   "note": ""
  },
  {
   "property": "C71",
   "status": "partial",
   "theorems": [
    "C71_single_observable_from_larger_file_refuted"
   ],
   "note": "Refuted: MeasurementCovariance.load_dict stores one-element arrays (SMCovariance handles this case)."
  },
  {
   "property": "C72",
   "status": "partial",
   "theorems": [
    "C72_refuted"
   ],
   "note": "Refuted: '1.36 +0.3 -0.1 - 0.5' is read like '1.36 +0.3 -0.1'."
  },
  {
   "property": "C73",
   "status": "partial",
   "theorems": [
    "C73_all_reads_reported_refuted"
   ],
   "note": "Refuted: par.get and par.items are not tracked, and copying a changed AwareDict forgets the change."
  },
  {
   "property": "C74",
   "status": "partial",
   "theorems": [
    "C74_conflicting_arguments_refuted"
   ],
   "note": "Refuted: with several threads the positional value silently wins."
  },
  {
   "property": "C75",
   "status": "partial",
   "theorems": [
    "C75_dict_observables_refuted"
   ],
   "note": "Refuted: the caller's dictionary loses its name at the first sample; the second raises KeyError."
  },
  {
   "property": "C76",
   "status": "proved",
   "theorems": [
    "C76_asymmetric_normal"
   ],
   "note": ""
  },
  {
   "property": "C77",
   "status": "proved",
   "theorems": [
    "C77_gaussian_upper_limit",
    "C77_gamma_upper_limit"
   ],
   "note": ""
  },
  {
   "property": "C78",
   "status": "proved",
   "theorems": [
    "C78_counts",
    "C78_wrong_counts_rejected"
   ],
   "note": ""
  },
  {
   "property": "C79",
   "status": "partial",
   "theorems": [
    "C79_gamma_upper_limit_counts_refuted"
   ],
   "note": "Refuted: GammaUpperLimit drops counts_signal, so every pair except (total, background) raises ValueError."
  },
  {
   "property": "C80",
   "status": "partial",
   "theorems": [
    "C80_negative_lognormal_support_refuted",
    "C80_negative_lognormal_combination_refuted"
   ],
   "note": "Refuted: for negative central values the reported support is (positive number, 0)."
  },
  {
   "property": "C81",
   "status": "proved",
   "theorems": [
    "C81_lognormal_errors"
   ],
   "note": ""
  },
  {
   "property": "C82",
   "status": "partial",
   "theorems": [
    "C82_unchecked_ranges_refuted"
   ],
   "note": "Refuted: negative half_range, lowest > highest, and central_value=0 outside the range are accepted."
  },
  {
   "property": "C83",
   "status": "partial",
   "theorems": [
    "C83_dictionary_roundtrip_partial",
    "C83_wrong_arguments_rejected",
    "C83_kernel_refuted",
    "C83_general_gamma_refuted"
   ],
   "note": "Proved for the twelve analytic classes (for counting processes with non-negative total, for discrete ranges that are not empty); refuted for kernel density estimates and for GeneralGammaUpperLimit with a small background uncertainty. Tables are not modelled here."
  },
  {
   "property": "C84",
   "status": "partial",
   "theorems": [
    "C84_cdf_is_not_the_integral_refuted"
   ],
   "note": "Refuted: the cumulative distribution is a left Riemann sum, the density a linear interpolation: table 0,1,0 has cdf 0 at its middle where the integral is 1/2."
  },
  {
   "property": "C85",
   "status": "proved",
   "theorems": [
    "C85_error_ranges"
   ],
   "note": ""
  },
  {
   "property": "C86",
   "status": "proved",
   "theorems": [
    "C86_combination",
    "C86_no_overlap",
    "C86_common_support_exists",
    "C86_combine_distributions"
   ],
   "note": ""
  },
  {
   "property": "C87",
   "status": "proved",
   "theorems": [
    "C87_convolution",
    "C87_different_centres"
   ],
   "note": ""
  },
  {
   "property": "C88",
   "status": "proved",
   "theorems": [
    "C88_conversion_to_table"
   ],
   "note": ""
  },
  {
   "property": "C89",
   "status": "partial",
   "theorems": [
    "C89_only_last_density_refuted"
   ],
   "note": "Refuted: densities 0,0,1 are accepted (the density can be normalised), but the cumulative sum omits the last density, so cdf and ppf are 0/0."
  },
  {
   "property": "C90",
   "status": "proved",
   "theorems": [
    "C90_loading_adds_entries_in_order"
   ],
   "note": ""
  },
  {
   "property": "C91",
   "status": "partial",
   "theorems": [
    "C91_arbitrary_objects_refuted",
    "C91_names_coincide_refuted"
   ],
   "note": "Both parts of the claim are refuted by proved counterexamples."
  },
  {
   "property": "C92",
   "status": "partial",
   "theorems": [
    "C92_correlation_refuted"
   ],
   "note": "All three parts of the claim are refuted, for all values concerned."
  },
  {
   "property": "C93",
   "status": "proved",
   "theorems": [
    "C93_loaded_as_written",
    "C93_unambiguous",
    "C93_new_format"
   ],
   "note": ""
  },
  {
   "property": "C94",
   "status": "partial",
   "theorems": [
    "C94_failed_load_refuted"
   ],
   "note": "Refuted for every failing file of the three forms."
  },
  {
   "property": "C95",
   "status": "proved",
   "theorems": [
    "C95_correlated_parameters"
   ],
   "note": ""
  },
  {
   "property": "C96",
   "status": "proved",
   "theorems": [
    "C96_particle_data",
    "C96_names_and_numbers"
   ],
   "note": ""
  },
  {
   "property": "C97",
   "status": "partial",
   "theorems": [
    "C97_lifetime_sides_refuted"
   ],
   "note": "Refuted: the sides are exchanged for all asymmetric uncertainties."
  },
  {
   "property": "C98",
   "status": "partial",
   "theorems": [
    "C98_requested_flavours_ignored",
    "C98_requested_flavours_refuted"
   ],
   "note": "Refuted: nf_out is ignored when running up, when the final scale has more flavours than requested, and when the initial scale is below the requested region. The positive part (running down into the region) is C47_requested_flavours."
  },
  {
   "property": "C99",
   "status": "partial",
   "theorems": [
    "C99_shared_result_refuted",
    "C99_equal_scales_copied"
   ],
   "note": "Refuted: the returned array is the cached one. Only between equal scales is the result a copy."
  },
  {
   "property": "C100",
   "status": "proved",
   "theorems": [
    "C100_number_of_flavours",
    "C100_value",
    "C100_start",
    "C100_continuous",
    "C100_increasing",
    "C100_wrong_flavours"
   ],
   "note": ""
  },
  {
   "property": "C101",
   "status": "proved",
   "theorems": [
    "C101_path",
    "C101_start"
   ],
   "note": ""
  },
  {
   "property": "C102",
   "status": "partial",
   "theorems": [
    "C102_wolfenstein_refuted",
    "C102_not_conjugated_refuted"
   ],
   "note": "The property fails: the Wolfenstein parameters are not changed by conjugate_par at all and beta keeps its sign; C102_not_conjugated_refuted gives a unitary parametrisation where the result is not the conjugate."
  },
  {
   "property": "C103",
   "status": "proved",
   "theorems": [
    "C103_symbols",
    "C103_range",
    "C103_known"
   ],
   "note": ""
  },
  {
   "property": "C104",
   "status": "partial",
   "theorems": [
    "C104_restart_refuted"
   ],
   "note": "The property fails: all attempts start from x0, shown with an optimiser that would succeed from the end point of its first attempt and never does."
  },
  {
   "property": "C105",
   "status": "proved",
   "theorems": [
    "C105_inverse",
    "C105_pvalue",
    "C105_one"
   ],
   "note": ""
  },
  {
   "property": "C106",
   "status": "partial",
   "theorems": [
    "C106_negative_refuted"
   ],
   "note": "The property fails for every negative difference, as C106_negative_refuted shows for all of them."
  },
  {
   "property": "C107",
   "status": "proved",
   "theorems": [
    "C107_covariance",
    "C107_triangle",
    "C107_deviations",
    "C107_errors"
   ],
   "note": ""
  },
  {
   "property": "C108",
   "status": "partial",
   "theorems": [
    "C108_small_refuted",
    "C108_example_refuted"
   ],
   "note": "The property fails: C108_small_refuted shows that every upper triangular matrix with positive diagonal and small elements is kept as it is; C108_example_refuted gives variances of 1e-18 with correlation 1/2."
  },
  {
   "property": "C109",
   "status": "proved",
   "theorems": [
    "C109_combination",
    "C109_convolution"
   ],
   "note": ""
  },
  {
   "property": "C110",
   "status": "partial",
   "theorems": [
    "C110_arrays_refuted",
    "C110_none_refuted"
   ],
   "note": "The property fails: C110_arrays_refuted (ValueError for all arrays with other than one component) and C110_none_refuted (None for any number of numerical distributions above one)."
  },
  {
   "property": "C111",
   "status": "partial",
   "theorems": [
    "C111_negative_refuted"
   ],
   "note": "The property fails for position -1 in every dimension above two."
  },
  {
   "property": "C112",
   "status": "proved",
   "theorems": [
    "C112_linear",
    "C112_chirality",
    "C112_matrix_elements",
    "C112_conjugation",
    "C112_standard_model"
   ],
   "note": ""
  },
  {
   "property": "C113",
   "status": "proved",
   "theorems": [
    "C113_symmetric",
    "C113_gim",
    "C113_continuous",
    "C113_unitarity",
    "C113_inami_lim"
   ],
   "note": ""
  },
  {
   "property": "C114",
   "status": "partial",
   "theorems": [
    "C114_sign_refuted",
    "C114_phi12_refuted",
    "C114_x12Im_refuted"
   ],
   "note": "Refuted: M12 = -1, Gamma12 = 0 gives DeltaM = -2 (the sign of q/p is chosen by the principal root, so DeltaM > 0 only for positive real part; DeltaM_positive, DeltaGamma_B and S correct for it); phi12 is the phase of M12/Gamma12, not of -M12/Gamma12; x12Im is x12 sin(phi12)."
  },
  {
   "property": "C115",
   "status": "partial",
   "theorems": [
    "C115_AFB_refuted",
    "C115_FLhat_refuted"
   ],
   "note": "Refuted: C115_AFB_refuted (scalar and vector operators together), C115_FLhat_refuted (purely longitudinal decay)."
  },
  {
   "property": "C116",
   "status": "proved",
   "theorems": [
    "C116_rate",
    "C116_AFB",
    "C116_AFB_vector",
    "C116_AFB_equal_masses"
   ],
   "note": ""
  },
  {
   "property": "C117",
   "status": "proved",
   "theorems": [
    "C117_parity",
    "C117_no_strong_phases",
    "C117_common_factor"
   ],
   "note": ""
  },
  {
   "property": "C118",
   "status": "proved",
   "theorems": [
    "C118_interference",
    "C118_same_amplitudes",
    "C118_opposite_phase",
    "C118_bound"
   ],
   "note": ""
  },
  {
   "property": "C119",
   "status": "proved",
   "theorems": [
    "C119_distribution",
    "C119_positive",
    "C119_integrals",
    "C119_observables"
   ],
   "note": ""
  },
  {
   "property": "C120",
   "status": "proved",
   "theorems": [
    "C120_P123",
    "C120_P48",
    "C120_P56",
    "C120_massless",
    "C120_transversity",
    "C120_published"
   ],
   "note": ""
  },
  {
   "property": "C121",
   "status": "proved",
   "theorems": [
    "C121_vector",
    "C121_frame",
    "C121_pseudoscalar",
    "C121_basis"
   ],
   "note": ""
  },
  {
   "property": "C122",
   "status": "proved",
   "theorems": [
    "C122_charged_current",
    "C122_neutral_current",
    "C122_pseudoscalar"
   ],
   "note": ""
  },
  {
   "property": "C123",
   "status": "partial",
   "theorems": [
    "C123_tensor_refuted",
    "C123_tensor_value"
   ],
   "note": "Refuted: C123_tensor_refuted for every non-zero tensor coefficient; C123_tensor_value shows the amplitude used."
  },
  {
   "property": "C124",
   "status": "proved",
   "theorems": [
    "C124_differential",
    "C124_bins",
    "C124_full",
    "C124_polarisation",
    "C124_positive"
   ],
   "note": ""
  },
  {
   "property": "C125",
   "status": "proved",
   "theorems": [
    "C125_outside",
    "C125_mean",
    "C125_bins",
    "C125_cover",
    "C125_total",
    "C125_polarisation",
    "C125_angle_bins",
    "C125_angle_total",
    "C125_angle_density"
   ],
   "note": ""
  },
  {
   "property": "C126",
   "status": "proved",
   "theorems": [
    "C126_bins",
    "C126_fractions",
    "C126_FL",
    "C126_AFB",
    "C126_FLt"
   ],
   "note": ""
  },
  {
   "property": "C127",
   "status": "proved",
   "theorems": [
    "C127_other_neutrinos",
    "C127_no_mixing",
    "C127_universality",
    "C127_ratios"
   ],
   "note": ""
  },
  {
   "property": "C128",
   "status": "partial",
   "theorems": [
    "C128_refuted"
   ],
   "note": "Refuted: FL, FLtau-style, AFB and I3 for lep='l' raise KeyError (parameter m_l); the other flavours succeed."
  },
  {
   "property": "C129",
   "status": "proved",
   "theorems": [
    "C129_spectrum",
    "C129_bins",
    "C129_bounds"
   ],
   "note": ""
  },
  {
   "property": "C130",
   "status": "proved",
   "theorems": [
    "C130_pole",
    "C130_pole_exact",
    "C130_complex"
   ],
   "note": ""
  },
  {
   "property": "C131",
   "status": "proved",
   "theorems": [
    "C131_spectrum",
    "C131_bins",
    "C131_total",
    "C131_names",
    "C131_differential",
    "C131_binned",
    "C131_integrable"
   ],
   "note": ""
  },
  {
   "property": "C132",
   "status": "proved",
   "theorems": [
    "C132_FL",
    "C132_FL_upper",
    "C132_AFB",
    "C132_P123",
    "C132_P48",
    "C132_P56",
    "C132_R",
    "C132_R_same",
    "C132_R_positive"
   ],
   "note": ""
  },
  {
   "property": "C133",
   "status": "partial",
   "theorems": [
    "C133_half_refuted",
    "C133_instance_refuted"
   ],
   "note": "refuted: the published value is half the CP asymmetry for every decay (C133_half_refuted), with a concrete decay whose asymmetry is 1 and whose published value is 1/2 (C133_instance_refuted)"
  },
  {
   "property": "C134",
   "status": "proved",
   "theorems": [
    "C134_spectrum",
    "C134_bins",
    "C134_total",
    "C134_angular",
    "C134_ACP",
    "C134_bounds",
    "C134_differential",
    "C134_R"
   ],
   "note": ""
  },
  {
   "property": "C135",
   "status": "proved",
   "theorems": [
    "C135_exists",
    "C135_spectrum",
    "C135_names",
    "C135_differential",
    "C135_binned",
    "C135_bins",
    "C135_total"
   ],
   "note": ""
  },
  {
   "property": "C136",
   "status": "proved",
   "theorems": [
    "C136_FL",
    "C136_no_width_difference",
    "C136_R"
   ],
   "note": ""
  },
  {
   "property": "C137",
   "status": "proved",
   "theorems": [
    "C137_sm",
    "C137_np",
    "C137_errors"
   ],
   "note": ""
  },
  {
   "property": "C138",
   "status": "proved",
   "theorems": [
    "C138_same",
    "C138_unique"
   ],
   "note": ""
  },
  {
   "property": "C139",
   "status": "partial",
   "theorems": [
    "C139_predictions_partial",
    "C139_owner_partial",
    "C139_constant",
    "C139_stale_refuted",
    "C139_owner_refuted"
   ],
   "note": "Depends on the dependency wilson (not in the repository): proved for predictions if set_option changes options and cache both in place or replaces both, proved for every history if it replaces both, proved for every variant if the parameters stay the same; refuted for the two mixed variants (wilson's own set_option updates the options in place and replaces the cache: C139_stale_refuted) and, for the owner's calls, whenever options are changed in place (C139_owner_refuted)."
  },
  {
   "property": "C140",
   "status": "partial",
   "theorems": [
    "C140_eft",
    "C140_values",
    "C140_unchecked_refuted"
   ],
   "note": "Proved: get_wcxf, and the values of coefficients that occur in both dictionaries of get_wc; refuted: get_wc accepts an invalid nf_out without new physics (C140_unchecked_refuted). Missing: the dictionaries of get_wc have the keys of the sector in the theory given by eft, not in that of nf_out."
  },
  {
   "property": "C141",
   "status": "partial",
   "theorems": [
    "C141_initial",
    "C141_basis_refuted"
   ],
   "note": "Proved: the initial values are read back unchanged (C141_initial); refuted: they are returned in the basis they were given in, not in the flavio basis (C141_basis_refuted)."
  },
  {
   "property": "C142",
   "status": "proved",
   "theorems": [
    "C142_rate_formula",
    "C142_time_integrated",
    "C142_effective_lifetime",
    "C142_ranges",
    "C142_one_state",
    "C142_asymmetry_from_lifetime",
    "C142_flavours"
   ],
   "note": ""
  },
  {
   "property": "C143",
   "status": "proved",
   "theorems": [
    "C143_widths",
    "C143_charm",
    "C143_helicity_suppression",
    "C143_tau"
   ],
   "note": ""
  },
  {
   "property": "C144",
   "status": "partial",
   "theorems": [
    "C144_bc_masses",
    "C144_scalar_refuted"
   ],
   "note": "Refuted for every D+ and Ds decay: br_dlnu and br_dslnu pass m_b and m_c as quark masses (C144_bc_masses: the result equals that of the B_c formula; C144_scalar_refuted: differs from the width). Without scalar operators the formula is right (C143_charm)."
  },
  {
   "property": "C145",
   "status": "proved",
   "theorems": [
    "C145_standard_model",
    "C145_fermi_constant",
    "C145_fermi_absorbs",
    "C145_left_handed",
    "C145_either_name"
   ],
   "note": ""
  },
  {
   "property": "C146",
   "status": "partial",
   "theorems": [
    "C146_negative_refuted"
   ],
   "note": "Refuted for all lepton masses up to m_tau/16: the interference term -4 G(x) Re(CL CR*) lacks a factor m_l/m_tau, so coefficients with CL_total = CR give a negative branching ratio (C146_negative_refuted)."
  },
  {
   "property": "C147",
   "status": "proved",
   "theorems": [
    "C147_vector",
    "C147_scalar",
    "C147_photon"
   ],
   "note": ""
  },
  {
   "property": "C148",
   "status": "proved",
   "theorems": [
    "C148_range",
    "C148_default",
    "C148_recoil",
    "C148_expansion"
   ],
   "note": ""
  },
  {
   "property": "C149",
   "status": "proved",
   "theorems": [
    "C149_zero_momentum"
   ],
   "note": ""
  },
  {
   "property": "C150",
   "status": "partial",
   "theorems": [
    "C150_plain_bcl_refuted",
    "C150_plain_bcl_D_refuted",
    "C150_opposite_sign_refuted"
   ],
   "note": "Refuted: the completing coefficient has the wrong sign, so f+(0) + f0(0) = 2 chL sum a_j z0^j for all parameters (C150_plain_bcl_refuted, C150_plain_bcl_D_refuted); e.g. f+(0) = 1 and f0(0) = -1 (C150_opposite_sign_refuted)."
  },
  {
   "property": "C151",
   "status": "proved",
   "theorems": [
    "C151_threshold"
   ],
   "note": ""
  },
  {
   "property": "C152",
   "status": "proved",
   "theorems": [
    "C152_zero_momentum"
   ],
   "note": ""
  },
  {
   "property": "C153",
   "status": "partial",
   "theorems": [
    "C153_T23_refuted",
    "C153_T1_T2_refuted"
   ],
   "note": "Refuted: at q2 = 0 the factor 1 + a_T23 is left out (C153_T23_refuted), and T1(0) differs from T2(0) for suitable parameters (C153_T1_T2_refuted)."
  },
  {
   "property": "C154",
   "status": "partial",
   "theorems": [
    "C154_bsz_writes",
    "C154_sse_writes",
    "C154_changed_refuted"
   ],
   "note": "Refuted: B -> V BSZ and Lambda_b SSE overwrite two entries (C154_changed_refuted). Proved: exactly those two, with the constrained values; the result does not depend on their previous content and a second call gives the same (C154_bsz_writes, C154_sse_writes)."
  },
  {
   "property": "C155",
   "status": "proved",
   "theorems": [
    "C155_endpoint"
   ],
   "note": ""
  },
  {
   "property": "C156",
   "status": "partial",
   "theorems": [
    "C156_third_coefficient_ignored_refuted"
   ],
   "note": "Refuted: SSE3 equals SSE2, the third coefficient is ignored (C156_third_coefficient_ignored_refuted)."
  },
  {
   "property": "C157",
   "status": "partial",
   "theorems": [
    "C157_unusable_refuted"
   ],
   "note": "Refuted: five registered implementations raise KeyError for every argument because their process dictionary lacks the transition (C157_unusable_refuted)."
  },
  {
   "property": "C158",
   "status": "proved",
   "theorems": [
    "C158_zero_recoil_Dstar",
    "C158_zero_recoil_D"
   ],
   "note": ""
  },
  {
   "property": "C159",
   "status": "proved",
   "theorems": [
    "C159_Z",
    "C159_coupling",
    "C159_W"
   ],
   "note": ""
  },
  {
   "property": "C160",
   "status": "proved",
   "theorems": [
    "C160_couplings",
    "C160_asymmetries",
    "C160_fcnc",
    "C160_sums",
    "C160_direct",
    "C160_muon_decay",
    "C160_sm"
   ],
   "note": ""
  },
  {
   "property": "C161",
   "status": "proved",
   "theorems": [
    "C161_sm",
    "C161_sum",
    "C161_coupling"
   ],
   "note": ""
  },
  {
   "property": "C162",
   "status": "partial",
   "theorems": [
    "C162_refuted"
   ],
   "note": "Refuted: with phiWB = 1 the width is positive (C162_refuted): the universal part of the shift is added to flavour-off-diagonal couplings too."
  },
  {
   "property": "C163",
   "status": "partial",
   "theorems": [
    "C163_refuted"
   ],
   "note": "Refuted: the interference term is Re(g delta) without complex conjugation (C163_refuted)."
  },
  {
   "property": "C164",
   "status": "proved",
   "theorems": [
    "C164_linear",
    "C164_relations",
    "C164_width",
    "C164_strength",
    "C164_muon_decay"
   ],
   "note": ""
  },
  {
   "property": "C165",
   "status": "partial",
   "theorems": [
    "C165_refuted"
   ],
   "note": "Refuted: e.g. the linearised ttH cross section with G = -1 (C165_refuted)."
  },
  {
   "property": "C166",
   "status": "proved",
   "theorems": [
    "C166_energies",
    "C166_linear",
    "C166_keys"
   ],
   "note": ""
  },
  {
   "property": "C167",
   "status": "partial",
   "theorems": [
    "C167_refuted"
   ],
   "note": "Refuted: 0.702 and 5.434 in the outermost bins of the first energy (C167_refuted)."
  },
  {
   "property": "C168",
   "status": "proved",
   "theorems": [
    "C168_trident",
    "C168_al"
   ],
   "note": ""
  },
  {
   "property": "C169",
   "status": "proved",
   "theorems": [
    "C169_tau",
    "C169_bound",
    "C169_dipole",
    "C169_mu3e"
   ],
   "note": ""
  },
  {
   "property": "C170",
   "status": "proved",
   "theorems": [
    "C170_rate",
    "C170_laws"
   ],
   "note": ""
  },
  {
   "property": "C171",
   "status": "proved",
   "theorems": [
    "C171_vector",
    "C171_vector_laws",
    "C171_pion",
    "C171_pion_laws",
    "C171_kaon"
   ],
   "note": ""
  },
  {
   "property": "C172",
   "status": "partial",
   "theorems": [
    "C172_quark_mass_refuted",
    "C172_quark_mass_partial"
   ],
   "note": "Refuted: get_m returns m_d for the u quark and m_u for the d quark (C172_quark_mass_refuted); holds for leptons and the strange quark (C172_quark_mass_partial)."
  },
  {
   "property": "C173",
   "status": "proved",
   "theorems": [
    "C173_fermions",
    "C173_neutron",
    "C173_nucleus",
    "C173_paramagnetic"
   ],
   "note": ""
  },
  {
   "property": "C174",
   "status": "partial",
   "theorems": [
    "C174_nuclei_refuted",
    "C174_nuclei_partial"
   ],
   "note": "Refuted for each system: thallium has Z=3, N=4 (those of lithium) instead of 81, 124, the molecules Z=N=1, so that the isovector part drops out (C174_nuclei_refuted, C174_nuclei_partial)."
  },
  {
   "property": "C175",
   "status": "proved",
   "theorems": [
    "C175_total",
    "C175_errors"
   ],
   "note": ""
  },
  {
   "property": "C176",
   "status": "proved",
   "theorems": [
    "C176_defined",
    "C176_leptons",
    "C176_linear",
    "C176_corrections",
    "C176_F89"
   ],
   "note": ""
  },
  {
   "property": "C177",
   "status": "proved",
   "theorems": [
    "C177_scale",
    "C177_massless_charm",
    "C177_imaginary_part"
   ],
   "note": ""
  },
  {
   "property": "C178",
   "status": "proved",
   "theorems": [
    "C178_vector_rate",
    "C178_pseudoscalar_rate",
    "C178_longitudinal_fraction",
    "C178_beyond_endpoint",
    "C178_binned_rates",
    "C178_total",
    "C178_binned_fraction"
   ],
   "note": ""
  },
  {
   "property": "C179",
   "status": "proved",
   "theorems": [
    "C179_left_handed",
    "C179_pseudoscalar_sum",
    "C179_flavour_violation_adds"
   ],
   "note": ""
  },
  {
   "property": "C180",
   "status": "proved",
   "theorems": [
    "C180_branching_ratios",
    "C180_grossman_nir",
    "C180_only_sum",
    "C180_cp_conserved",
    "C180_flavour_violation_adds"
   ],
   "note": ""
  },
  {
   "property": "C181",
   "status": "partial",
   "theorems": [
    "C181_refuted",
    "C181_top_partial"
   ],
   "note": "Refuted: the amplitude contains alpha_e(MZ)/alpha_e(scale) for the top-quark (and new-physics) part only, but the prefactor contains alpha_e(scale)^2 for all of it, so the charm contribution depends on the scale (C181_refuted). C181_top_partial: without charm the statement holds."
  },
  {
   "property": "C182",
   "status": "proved",
   "theorems": [
    "C182_rates",
    "C182_outside",
    "C182_total",
    "C182_both_charges",
    "C182_pseudoscalar_sums",
    "C182_quadratic",
    "C182_exchange"
   ],
   "note": ""
  },
  {
   "property": "C183",
   "status": "partial",
   "theorems": [
    "C183_refuted"
   ],
   "note": "Refuted: bvll/lfv.py has no factor 1/2 for rho0, unlike bvll/observables.py, bvnunu.py and the B -> P decays (C183_refuted: the rates of rho0 and rho+ are equal for equal parameters)."
  },
  {
   "property": "C184",
   "status": "proved",
   "theorems": [
    "C184_observables",
    "C184_bounds",
    "C184_null_tests",
    "C184_time_integrated"
   ],
   "note": ""
  },
  {
   "property": "C185",
   "status": "proved",
   "theorems": [
    "C185_defined",
    "C185_imaginary_part",
    "C185_scale",
    "C185_dimensionless",
    "C185_small_q2",
    "C185_light_quarks",
    "C185_continuous",
    "C185_F87"
   ],
   "note": ""
  },
  {
   "property": "C186",
   "status": "proved",
   "theorems": [
    "C186_conventions",
    "C186_electroweak"
   ],
   "note": ""
  },
  {
   "property": "C187",
   "status": "proved",
   "theorems": [
    "C187_nonneg",
    "C187_charges",
    "C187_photon",
    "C187_universality",
    "C187_lifetime",
    "C187_lfv_vector",
    "C187_lfc_vector",
    "C187_lfc_tensor"
   ],
   "note": ""
  },
  {
   "property": "C188",
   "status": "proved",
   "theorems": [
    "C188_nonneg",
    "C188_charges",
    "C188_waves"
   ],
   "note": ""
  },
  {
   "property": "C189",
   "status": "partial",
   "theorems": [
    "C189_partial",
    "C189_refuted"
   ],
   "note": "Refuted by a scalar and a vector coefficient together (C189_refuted): getS_lfv adds m1 X + m2 Y to both amplitudes with the same sign and without complex conjugation. C189_partial: with scalar or with vector coefficients alone the statement holds."
  },
  {
   "property": "C190",
   "status": "partial",
   "theorems": [
    "C190_refuted"
   ],
   "note": "Refuted: the contribution of vector coefficients is m1 X + m2 Y instead of m1 X - m2 Y, so that for equal masses the vector current contributes and the axial-vector current does not (second part of C190_refuted)."
  },
  {
   "property": "C191",
   "status": "proved",
   "theorems": [
    "C191_threshold",
    "C191_positive",
    "C191_massless",
    "C191_charges",
    "C191_equal_mass"
   ],
   "note": ""
  },
  {
   "property": "C192",
   "status": "partial",
   "theorems": [
    "C192_refuted"
   ],
   "note": "Refuted: Fhat_P lacks the term 1/12 of Fhat_S; it is -1/12 at threshold, where all other functions vanish, and at y = 1/2 pseudoscalar and photon operators together have a negative branching ratio (C192_refuted)."
  },
  {
   "property": "C193",
   "status": "proved",
   "theorems": [
    "C193_distribution",
    "C193_bounds"
   ],
   "note": ""
  },
  {
   "property": "C194",
   "status": "proved",
   "theorems": [
    "C194_bounds",
    "C194_normalisation",
    "C194_time_reversal",
    "C194_real",
    "C194_cp",
    "C194_forbidden"
   ],
   "note": ""
  },
  {
   "property": "C195",
   "status": "proved",
   "theorems": [
    "C195_va",
    "C195_wc",
    "C195_sm",
    "C195_couplings"
   ],
   "note": ""
  },
  {
   "property": "C196",
   "status": "proved",
   "theorems": [
    "C196_formula",
    "C196_positive",
    "C196_universal",
    "C196_master"
   ],
   "note": ""
  },
  {
   "property": "C197",
   "status": "proved",
   "theorems": [
    "C197_elements",
    "C197_daughters"
   ],
   "note": ""
  },
  {
   "property": "C198",
   "status": "proved",
   "theorems": [
    "C198_nonnegative",
    "C198_differences",
    "C198_SM",
    "C198_sum_symmetric"
   ],
   "note": ""
  },
  {
   "property": "C199",
   "status": "partial",
   "theorems": [
    "C199_refuted"
   ],
   "note": "Refuted: amplitudes_eff sets Peff and Seff for K_S only if l1 == l2, so that the observable raises UnboundLocalError for all inputs; nothing of the positive claim remains to be proved."
  },
  {
   "property": "C200",
   "status": "proved",
   "theorems": [
    "C200_spectrum",
    "C200_total"
   ],
   "note": ""
  },
  {
   "property": "C201",
   "status": "partial",
   "theorems": [
    "C201_refuted"
   ],
   "note": "Refuted: dBRdq2 returns for pi0 before it reads delta_EM, so that K+ -> pi0 l nu does not depend on it."
  },
  {
   "property": "C202",
   "status": "partial",
   "theorems": [
    "C202_refuted"
   ],
   "note": "Refuted: par['m_l'] is not a parameter (KeyError); lnC(K->pilnu) and all BR(K->pilnu) fail for all inputs."
  },
  {
   "property": "C203",
   "status": "proved",
   "theorems": [
    "C203_SM",
    "C203_scalar",
    "C203_hyperon",
    "C203_right_handed"
   ],
   "note": ""
  },
  {
   "property": "C204",
   "status": "proved",
   "theorems": [
    "C204_relations",
    "C204_parity",
    "C204_amplitude_NP",
    "C204_isospin",
    "C204_operators",
    "C204_parameters",
    "C204_fierz",
    "C204_epsprime_NP",
    "C204_epsprime_SM",
    "C204_sum"
   ],
   "note": ""
  },
  {
   "property": "C205",
   "status": "partial",
   "theorems": [
    "C205_refuted"
   ],
   "note": "Refuted: the factor is 1/2 for the first and -1/2 for the second relation (the comment counts the sign of isospin, but not that of the exchange of chiralities); which of the two signs is right for the operators of the paper cannot be decided from the code."
  },
  {
   "property": "C206",
   "status": "proved",
   "theorems": [
    "C206_helicity_sum",
    "C206_nonneg",
    "C206_moments",
    "C206_fractions",
    "C206_bounds",
    "C206_bins",
    "C206_dBR",
    "C206_mirror",
    "C206_lepton_chirality",
    "C206_zero_recoil",
    "C206_dipole_interference"
   ],
   "note": ""
  },
  {
   "property": "C207",
   "status": "partial",
   "theorems": [
    "C207_real_parts_partial",
    "C207_in_plane_partial",
    "C207_refuted"
   ],
   "note": "Refuted: the coefficients K4sc and K4s of the cosine of the azimuth are computed from imaginary parts of the interferences (as K3sc and K3s), where arXiv:1410.2115 has real parts; the distribution then takes negative values (C207_refuted). With real parts it is never negative (C207_real_parts_partial), and also where the cosine of the azimuth vanishes (C207_in_plane_partial)."
  },
  {
   "property": "C208",
   "status": "proved",
   "theorems": [
    "C208_helicity_sum",
    "C208_nonneg",
    "C208_moments",
    "C208_fractions",
    "C208_bounds",
    "C208_bins",
    "C208_cp",
    "C208_zero_recoil",
    "C208_dipole_interference"
   ],
   "note": ""
  },
  {
   "property": "C209",
   "status": "proved",
   "theorems": [
    "C209_partonic",
    "C209_positive",
    "C209_bins",
    "C209_ratio",
    "C209_sm"
   ],
   "note": ""
  },
  {
   "property": "C210",
   "status": "proved",
   "theorems": [
    "C210_transverse_mass",
    "C210_bins",
    "C210_total",
    "C210_sm"
   ],
   "note": ""
  }
 ]
}