{
"C01_delete_raises_iff_absent": [],
"C01_failing_operation_changes_nothing": [],
"C01_find_lists_matching_names": [],
"C01_iteration_order_is_birth_order": [],
"C01_lookup_is_latest_created": [],
"C02_registries_do_not_interfere": [],
"C03_all_parameters_exact": [],
"C03_latest_constraint_wins": [],
"C03_listing_order": [],
"C03_parameter_objects_registered": [],
"C04_central_values": [],
"C04_unconstrained_raises": [],
"C05_random_values_joint": [],
"C06_each_distribution_once": [],
"C06_log_probability_is_sum_of_live_contributions": [],
"C06_missing_value_raises": [],
"C06_only_live_values_matter": [],
"C07_single_agrees_with_all": [],
"C08_constraints_in_force_survive_partial": [],
"C08_roundtrip_after_removal_refuted": [],
"C08_roundtrip_measurement_partial": [],
"C08_roundtrip_up_to_removals_partial": [],
"C09_both_or_neither_rejected": [],
"C09_set_constraint_all_or_nothing": [],
"C100_continuous": [
"ClassicalDedekindReals.sig_forall_dec",
"ClassicalDedekindReals.sig_not_dec",
"Classical_Prop.classic",
"FunctionalExtensionality.functional_extensionality_dep"
],
"C100_increasing": [
"ClassicalDedekindReals.sig_forall_dec",
"ClassicalDedekindReals.sig_not_dec",
"Classical_Prop.classic",
"FunctionalExtensionality.functional_extensionality_dep"
],
"C100_number_of_flavours": [
"ClassicalDedekindReals.sig_forall_dec",
"FunctionalExtensionality.functional_extensionality_dep"
],
"C100_start": [
"ClassicalDedekindReals.sig_forall_dec",
"ClassicalDedekindReals.sig_not_dec",
"Classical_Prop.classic",
"FunctionalExtensionality.functional_extensionality_dep"
],
"C100_value": [
"ClassicalDedekindReals.sig_forall_dec",
"ClassicalDedekindReals.sig_not_dec",
"Classical_Prop.classic",
"FunctionalExtensionality.functional_extensionality_dep"
],
"C100_wrong_flavours": [
"ClassicalDedekindReals.sig_forall_dec",
"ClassicalDedekindReals.sig_not_dec",
"Classical_Prop.classic",
"FunctionalExtensionality.functional_extensionality_dep"
],
"C101_path": [
"ClassicalDedekindReals.sig_forall_dec",
"ClassicalDedekindReals.sig_not_dec",
"Classical_Prop.classic",
"FunctionalExtensionality.functional_extensionality_dep"
],
"C101_start": [
"ClassicalDedekindReals.sig_forall_dec",
"ClassicalDedekindReals.sig_not_dec",
"Classical_Prop.classic",
"FunctionalExtensionality.functional_extensionality_dep"
],
"C102_not_conjugated_refuted": [
"ClassicalDedekindReals.sig_forall_dec",
"ClassicalDedekindReals.sig_not_dec",
"FunctionalExtensionality.functional_extensionality_dep"
],
"C102_wolfenstein_refuted": [
"ClassicalDedekindReals.sig_forall_dec"
],
"C103_known": [],
"C103_range": [],
"C103_symbols": [],
"C104_restart_refuted": [
"ClassicalDedekindReals.sig_forall_dec",
"FunctionalExtensionality.functional_extensionality_dep"
],
"C105_inverse": [
"ClassicalDedekindReals.sig_forall_dec",
"ClassicalDedekindReals.sig_not_dec",
"FunctionalExtensionality.functional_extensionality_dep"
],
"C105_one": [
"ClassicalDedekindReals.sig_forall_dec",
"ClassicalDedekindReals.sig_not_dec",
"FunctionalExtensionality.functional_extensionality_dep"
],
"C105_pvalue": [
"ClassicalDedekindReals.sig_forall_dec",
"ClassicalDedekindReals.sig_not_dec",
"FunctionalExtensionality.functional_extensionality_dep"
],
"C106_negative_refuted": [
"ClassicalDedekindReals.sig_forall_dec",
"ClassicalDedekindReals.sig_not_dec",
"FunctionalExtensionality.functional_extensionality_dep"
],
"C107_covariance": [
"ClassicalDedekindReals.sig_forall_dec",
"ClassicalDedekindReals.sig_not_dec",
"ClassicalEpsilon.constructive_indefinite_description",
"Classical_Prop.classic",
"FunctionalExtensionality.functional_extensionality_dep"
],
"C107_deviations": [
"ClassicalDedekindReals.sig_forall_dec",
"ClassicalDedekindReals.sig_not_dec",
"ClassicalEpsilon.constructive_indefinite_description",
"Classical_Prop.classic",
"FunctionalExtensionality.functional_extensionality_dep"
],
"C107_errors": [
"ClassicalDedekindReals.sig_forall_dec",
"ClassicalDedekindReals.sig_not_dec",
"ClassicalEpsilon.constructive_indefinite_description",
"Classical_Prop.classic",
"FunctionalExtensionality.functional_extensionality_dep"
],
"C107_triangle": [
"ClassicalDedekindReals.sig_forall_dec",
"ClassicalDedekindReals.sig_not_dec",
"ClassicalEpsilon.constructive_indefinite_description",
"Classical_Prop.classic",
"FunctionalExtensionality.functional_extensionality_dep"
],
"C108_example_refuted": [
"ClassicalDedekindReals.sig_forall_dec",
"ClassicalDedekindReals.sig_not_dec",
"ClassicalEpsilon.constructive_indefinite_description",
"Classical_Prop.classic",
"FunctionalExtensionality.functional_extensionality_dep"
],
"C108_small_refuted": [
"ClassicalDedekindReals.sig_forall_dec",
"ClassicalDedekindReals.sig_not_dec",
"ClassicalEpsilon.constructive_indefinite_description",
"Classical_Prop.classic",
"FunctionalExtensionality.functional_extensionality_dep"
],
"C109_combination": [
"ClassicalDedekindReals.sig_forall_dec",
"ClassicalDedekindReals.sig_not_dec",
"ClassicalEpsilon.constructive_indefinite_description",
"Classical_Prop.classic",
"FunctionalExtensionality.functional_extensionality_dep"
],
"C109_convolution": [
"ClassicalDedekindReals.sig_forall_dec",
"ClassicalDedekindReals.sig_not_dec",
"ClassicalEpsilon.constructive_indefinite_description",
"Classical_Prop.classic",
"FunctionalExtensionality.functional_extensionality_dep"
],
"C10_dict_to_tuple_and_back": [],
"C10_missing_arguments_raise": [],
"C10_string_form": [],
"C10_tuple_to_dict_and_back": [],
"C10_unknown_name_raises": [],
"C10_wrong_number_raises": [],
"C110_arrays_refuted": [
"ClassicalDedekindReals.sig_forall_dec",
"ClassicalDedekindReals.sig_not_dec",
"ClassicalEpsilon.constructive_indefinite_description",
"Classical_Prop.classic",
"FunctionalExtensionality.functional_extensionality_dep"
],
"C110_none_refuted": [
"ClassicalDedekindReals.sig_forall_dec",
"ClassicalDedekindReals.sig_not_dec",
"ClassicalEpsilon.constructive_indefinite_description",
"Classical_Prop.classic",
"FunctionalExtensionality.functional_extensionality_dep"
],
"C111_negative_refuted": [
"ClassicalDedekindReals.sig_forall_dec",
"ClassicalDedekindReals.sig_not_dec",
"ClassicalEpsilon.constructive_indefinite_description",
"Classical_Prop.classic",
"FunctionalExtensionality.functional_extensionality_dep"
],
"C112_chirality": [
"ClassicalDedekindReals.sig_forall_dec",
"ClassicalDedekindReals.sig_not_dec",
"Classical_Prop.classic",
"FunctionalExtensionality.functional_extensionality_dep"
],
"C112_conjugation": [
"ClassicalDedekindReals.sig_forall_dec",
"ClassicalDedekindReals.sig_not_dec",
"Classical_Prop.classic",
"FunctionalExtensionality.functional_extensionality_dep"
],
"C112_linear": [
"ClassicalDedekindReals.sig_forall_dec",
"ClassicalDedekindReals.sig_not_dec",
"Classical_Prop.classic",
"FunctionalExtensionality.functional_extensionality_dep"
],
"C112_matrix_elements": [
"ClassicalDedekindReals.sig_forall_dec",
"ClassicalDedekindReals.sig_not_dec",
"Classical_Prop.classic",
"FunctionalExtensionality.functional_extensionality_dep"
],
"C112_standard_model": [
"ClassicalDedekindReals.sig_forall_dec",
"ClassicalDedekindReals.sig_not_dec",
"Classical_Prop.classic",
"FunctionalExtensionality.functional_extensionality_dep"
],
"C113_continuous": [
"ClassicalDedekindReals.sig_forall_dec",
"ClassicalDedekindReals.sig_not_dec",
"Classical_Prop.classic",
"FunctionalExtensionality.functional_extensionality_dep"
],
"C113_gim": [
"ClassicalDedekindReals.sig_forall_dec",
"ClassicalDedekindReals.sig_not_dec",
"Classical_Prop.classic",
"FunctionalExtensionality.functional_extensionality_dep"
],
"C113_inami_lim": [
"ClassicalDedekindReals.sig_forall_dec",
"ClassicalDedekindReals.sig_not_dec",
"Classical_Prop.classic",
"FunctionalExtensionality.functional_extensionality_dep"
],
"C113_symmetric": [
"ClassicalDedekindReals.sig_forall_dec",
"ClassicalDedekindReals.sig_not_dec",
"Classical_Prop.classic",
"FunctionalExtensionality.functional_extensionality_dep"
],
"C113_unitarity": [
"ClassicalDedekindReals.sig_forall_dec",
"ClassicalDedekindReals.sig_not_dec",
"Classical_Prop.classic",
"FunctionalExtensionality.functional_extensionality_dep"
],
"C114_phi12_refuted": [
"ClassicalDedekindReals.sig_forall_dec",
"ClassicalDedekindReals.sig_not_dec",
"Classical_Prop.classic",
"FunctionalExtensionality.functional_extensionality_dep"
],
"C114_sign_refuted": [
"ClassicalDedekindReals.sig_forall_dec",
"ClassicalDedekindReals.sig_not_dec",
"FunctionalExtensionality.functional_extensionality_dep"
],
"C114_x12Im_refuted": [
"ClassicalDedekindReals.sig_forall_dec",
"ClassicalDedekindReals.sig_not_dec",
"Classical_Prop.classic",
"FunctionalExtensionality.functional_extensionality_dep"
],
"C115_AFB_refuted": [
"ClassicalDedekindReals.sig_forall_dec",
"ClassicalDedekindReals.sig_not_dec",
"Classical_Prop.classic",
"FunctionalExtensionality.functional_extensionality_dep"
],
"C115_FLhat_refuted": [
"ClassicalDedekindReals.sig_forall_dec",
"ClassicalDedekindReals.sig_not_dec",
"FunctionalExtensionality.functional_extensionality_dep"
],
"C116_AFB": [
"ClassicalDedekindReals.sig_forall_dec",
"ClassicalDedekindReals.sig_not_dec",
"Classical_Prop.classic",
"FunctionalExtensionality.functional_extensionality_dep"
],
"C116_AFB_equal_masses": [
"ClassicalDedekindReals.sig_forall_dec",
"ClassicalDedekindReals.sig_not_dec",
"Classical_Prop.classic",
"FunctionalExtensionality.functional_extensionality_dep"
],
"C116_AFB_vector": [
"ClassicalDedekindReals.sig_forall_dec",
"ClassicalDedekindReals.sig_not_dec",
"Classical_Prop.classic",
"FunctionalExtensionality.functional_extensionality_dep"
],
"C116_rate": [
"ClassicalDedekindReals.sig_forall_dec",
"ClassicalDedekindReals.sig_not_dec",
"Classical_Prop.classic",
"FunctionalExtensionality.functional_extensionality_dep"
],
"C117_common_factor": [
"ClassicalDedekindReals.sig_forall_dec",
"ClassicalDedekindReals.sig_not_dec",
"FunctionalExtensionality.functional_extensionality_dep"
],
"C117_no_strong_phases": [
"ClassicalDedekindReals.sig_forall_dec",
"ClassicalDedekindReals.sig_not_dec",
"FunctionalExtensionality.functional_extensionality_dep"
],
"C117_parity": [
"ClassicalDedekindReals.sig_forall_dec",
"ClassicalDedekindReals.sig_not_dec",
"FunctionalExtensionality.functional_extensionality_dep"
],
"C118_bound": [
"ClassicalDedekindReals.sig_forall_dec",
"ClassicalDedekindReals.sig_not_dec",
"FunctionalExtensionality.functional_extensionality_dep"
],
"C118_interference": [
"ClassicalDedekindReals.sig_forall_dec",
"ClassicalDedekindReals.sig_not_dec",
"FunctionalExtensionality.functional_extensionality_dep"
],
"C118_opposite_phase": [
"ClassicalDedekindReals.sig_forall_dec",
"ClassicalDedekindReals.sig_not_dec",
"FunctionalExtensionality.functional_extensionality_dep"
],
"C118_same_amplitudes": [
"ClassicalDedekindReals.sig_forall_dec",
"ClassicalDedekindReals.sig_not_dec",
"FunctionalExtensionality.functional_extensionality_dep"
],
"C119_distribution": [
"ClassicalDedekindReals.sig_forall_dec",
"ClassicalDedekindReals.sig_not_dec",
"FunctionalExtensionality.functional_extensionality_dep"
],
"C119_integrals": [
"ClassicalDedekindReals.sig_forall_dec",
"ClassicalDedekindReals.sig_not_dec",
"Classical_Prop.classic",
"FunctionalExtensionality.functional_extensionality_dep"
],
"C119_observables": [
"ClassicalDedekindReals.sig_forall_dec",
"ClassicalDedekindReals.sig_not_dec",
"FunctionalExtensionality.functional_extensionality_dep"
],
"C119_positive": [
"ClassicalDedekindReals.sig_forall_dec",
"ClassicalDedekindReals.sig_not_dec",
"FunctionalExtensionality.functional_extensionality_dep"
],
"C11_categories_of_string": [],
"C11_taxonomy_exact": [],
"C120_P123": [
"ClassicalDedekindReals.sig_forall_dec",
"ClassicalDedekindReals.sig_not_dec",
"FunctionalExtensionality.functional_extensionality_dep"
],
"C120_P48": [
"ClassicalDedekindReals.sig_forall_dec",
"ClassicalDedekindReals.sig_not_dec",
"FunctionalExtensionality.functional_extensionality_dep"
],
"C120_P56": [
"ClassicalDedekindReals.sig_forall_dec",
"ClassicalDedekindReals.sig_not_dec",
"FunctionalExtensionality.functional_extensionality_dep"
],
"C120_massless": [
"ClassicalDedekindReals.sig_forall_dec",
"ClassicalDedekindReals.sig_not_dec",
"FunctionalExtensionality.functional_extensionality_dep"
],
"C120_published": [
"ClassicalDedekindReals.sig_forall_dec",
"ClassicalDedekindReals.sig_not_dec",
"FunctionalExtensionality.functional_extensionality_dep"
],
"C120_transversity": [
"ClassicalDedekindReals.sig_forall_dec",
"ClassicalDedekindReals.sig_not_dec",
"FunctionalExtensionality.functional_extensionality_dep"
],
"C121_basis": [
"ClassicalDedekindReals.sig_forall_dec",
"FunctionalExtensionality.functional_extensionality_dep"
],
"C121_frame": [
"ClassicalDedekindReals.sig_forall_dec",
"ClassicalDedekindReals.sig_not_dec",
"FunctionalExtensionality.functional_extensionality_dep"
],
"C121_pseudoscalar": [
"ClassicalDedekindReals.sig_forall_dec",
"ClassicalDedekindReals.sig_not_dec",
"FunctionalExtensionality.functional_extensionality_dep"
],
"C121_vector": [
"ClassicalDedekindReals.sig_forall_dec",
"ClassicalDedekindReals.sig_not_dec",
"FunctionalExtensionality.functional_extensionality_dep"
],
"C122_charged_current": [
"ClassicalDedekindReals.sig_forall_dec",
"ClassicalDedekindReals.sig_not_dec",
"FunctionalExtensionality.functional_extensionality_dep"
],
"C122_neutral_current": [
"ClassicalDedekindReals.sig_forall_dec",
"ClassicalDedekindReals.sig_not_dec",
"FunctionalExtensionality.functional_extensionality_dep"
],
"C122_pseudoscalar": [
"ClassicalDedekindReals.sig_forall_dec",
"ClassicalDedekindReals.sig_not_dec",
"FunctionalExtensionality.functional_extensionality_dep"
],
"C123_tensor_refuted": [
"ClassicalDedekindReals.sig_forall_dec",
"ClassicalDedekindReals.sig_not_dec",
"FunctionalExtensionality.functional_extensionality_dep"
],
"C123_tensor_value": [
"ClassicalDedekindReals.sig_forall_dec",
"ClassicalDedekindReals.sig_not_dec",
"FunctionalExtensionality.functional_extensionality_dep"
],
"C124_bins": [
"ClassicalDedekindReals.sig_forall_dec",
"ClassicalDedekindReals.sig_not_dec",
"Classical_Prop.classic",
"FunctionalExtensionality.functional_extensionality_dep"
],
"C124_differential": [
"ClassicalDedekindReals.sig_forall_dec",
"ClassicalDedekindReals.sig_not_dec",
"Classical_Prop.classic",
"FunctionalExtensionality.functional_extensionality_dep"
],
"C124_full": [
"ClassicalDedekindReals.sig_forall_dec",
"ClassicalDedekindReals.sig_not_dec",
"FunctionalExtensionality.functional_extensionality_dep"
],
"C124_polarisation": [
"ClassicalDedekindReals.sig_forall_dec",
"ClassicalDedekindReals.sig_not_dec",
"FunctionalExtensionality.functional_extensionality_dep"
],
"C124_positive": [
"ClassicalDedekindReals.sig_forall_dec",
"ClassicalDedekindReals.sig_not_dec",
"Classical_Prop.classic",
"FunctionalExtensionality.functional_extensionality_dep"
],
"C125_angle_bins": [
"ClassicalDedekindReals.sig_forall_dec",
"ClassicalDedekindReals.sig_not_dec",
"FunctionalExtensionality.functional_extensionality_dep"
],
"C125_angle_density": [
"ClassicalDedekindReals.sig_forall_dec",
"ClassicalDedekindReals.sig_not_dec",
"Classical_Prop.classic",
"FunctionalExtensionality.functional_extensionality_dep"
],
"C125_angle_total": [
"ClassicalDedekindReals.sig_forall_dec",
"ClassicalDedekindReals.sig_not_dec",
"FunctionalExtensionality.functional_extensionality_dep"
],
"C125_bins": [
"ClassicalDedekindReals.sig_forall_dec",
"ClassicalDedekindReals.sig_not_dec",
"FunctionalExtensionality.functional_extensionality_dep"
],
"C125_cover": [
"ClassicalDedekindReals.sig_forall_dec",
"ClassicalDedekindReals.sig_not_dec",
"FunctionalExtensionality.functional_extensionality_dep"
],
"C125_mean": [
"ClassicalDedekindReals.sig_forall_dec",
"ClassicalDedekindReals.sig_not_dec",
"FunctionalExtensionality.functional_extensionality_dep"
],
"C125_outside": [
"ClassicalDedekindReals.sig_forall_dec",
"ClassicalDedekindReals.sig_not_dec",
"FunctionalExtensionality.functional_extensionality_dep"
],
"C125_polarisation": [
"ClassicalDedekindReals.sig_forall_dec",
"ClassicalDedekindReals.sig_not_dec",
"FunctionalExtensionality.functional_extensionality_dep"
],
"C125_total": [
"ClassicalDedekindReals.sig_forall_dec",
"ClassicalDedekindReals.sig_not_dec",
"Classical_Prop.classic",
"FunctionalExtensionality.functional_extensionality_dep"
],
"C126_AFB": [
"ClassicalDedekindReals.sig_forall_dec",
"ClassicalDedekindReals.sig_not_dec",
"Classical_Prop.classic",
"FunctionalExtensionality.functional_extensionality_dep"
],
"C126_FL": [
"ClassicalDedekindReals.sig_forall_dec",
"ClassicalDedekindReals.sig_not_dec",
"Classical_Prop.classic",
"FunctionalExtensionality.functional_extensionality_dep"
],
"C126_FLt": [
"ClassicalDedekindReals.sig_forall_dec",
"ClassicalDedekindReals.sig_not_dec",
"Classical_Prop.classic",
"FunctionalExtensionality.functional_extensionality_dep"
],
"C126_bins": [
"ClassicalDedekindReals.sig_forall_dec",
"ClassicalDedekindReals.sig_not_dec",
"Classical_Prop.classic",
"FunctionalExtensionality.functional_extensionality_dep"
],
"C126_fractions": [
"ClassicalDedekindReals.sig_forall_dec",
"ClassicalDedekindReals.sig_not_dec",
"Classical_Prop.classic",
"FunctionalExtensionality.functional_extensionality_dep"
],
"C127_no_mixing": [
"ClassicalDedekindReals.sig_forall_dec",
"ClassicalDedekindReals.sig_not_dec",
"FunctionalExtensionality.functional_extensionality_dep"
],
"C127_other_neutrinos": [
"ClassicalDedekindReals.sig_forall_dec",
"ClassicalDedekindReals.sig_not_dec",
"Classical_Prop.classic",
"FunctionalExtensionality.functional_extensionality_dep"
],
"C127_ratios": [
"ClassicalDedekindReals.sig_forall_dec",
"ClassicalDedekindReals.sig_not_dec",
"Classical_Prop.classic",
"FunctionalExtensionality.functional_extensionality_dep"
],
"C127_universality": [
"ClassicalDedekindReals.sig_forall_dec",
"ClassicalDedekindReals.sig_not_dec",
"FunctionalExtensionality.functional_extensionality_dep"
],
"C128_refuted": [
"ClassicalDedekindReals.sig_forall_dec",
"ClassicalDedekindReals.sig_not_dec",
"FunctionalExtensionality.functional_extensionality_dep"
],
"C129_bins": [
"ClassicalDedekindReals.sig_forall_dec",
"ClassicalDedekindReals.sig_not_dec",
"Classical_Prop.classic",
"FunctionalExtensionality.functional_extensionality_dep"
],
"C129_bounds": [
"ClassicalDedekindReals.sig_forall_dec",
"ClassicalDedekindReals.sig_not_dec",
"FunctionalExtensionality.functional_extensionality_dep"
],
"C129_spectrum": [
"ClassicalDedekindReals.sig_forall_dec",
"ClassicalDedekindReals.sig_not_dec",
"Classical_Prop.classic",
"FunctionalExtensionality.functional_extensionality_dep"
],
"C12_bad_inputs_rejected": [],
"C12_definition_is_stable": [],
"C12_failure_creates_nothing": [],
"C12_from_function_composes": [],
"C130_complex": [
"ClassicalDedekindReals.sig_forall_dec",
"ClassicalDedekindReals.sig_not_dec",
"FunctionalExtensionality.functional_extensionality_dep"
],
"C130_pole": [
"ClassicalDedekindReals.sig_forall_dec",
"ClassicalDedekindReals.sig_not_dec",
"Classical_Prop.classic",
"FunctionalExtensionality.functional_extensionality_dep"
],
"C130_pole_exact": [
"ClassicalDedekindReals.sig_forall_dec",
"ClassicalDedekindReals.sig_not_dec",
"Classical_Prop.classic",
"FunctionalExtensionality.functional_extensionality_dep"
],
"C131_binned": [
"ClassicalDedekindReals.sig_forall_dec",
"ClassicalDedekindReals.sig_not_dec",
"Classical_Prop.classic",
"FunctionalExtensionality.functional_extensionality_dep"
],
"C131_bins": [
"ClassicalDedekindReals.sig_forall_dec",
"ClassicalDedekindReals.sig_not_dec",
"Classical_Prop.classic",
"FunctionalExtensionality.functional_extensionality_dep"
],
"C131_differential": [
"ClassicalDedekindReals.sig_forall_dec",
"ClassicalDedekindReals.sig_not_dec",
"Classical_Prop.classic",
"FunctionalExtensionality.functional_extensionality_dep"
],
"C131_integrable": [
"ClassicalDedekindReals.sig_forall_dec",
"ClassicalDedekindReals.sig_not_dec",
"FunctionalExtensionality.functional_extensionality_dep"
],
"C131_names": [
"ClassicalDedekindReals.sig_forall_dec",
"ClassicalDedekindReals.sig_not_dec",
"Classical_Prop.classic",
"FunctionalExtensionality.functional_extensionality_dep"
],
"C131_spectrum": [
"ClassicalDedekindReals.sig_forall_dec",
"ClassicalDedekindReals.sig_not_dec",
"Classical_Prop.classic",
"FunctionalExtensionality.functional_extensionality_dep"
],
"C131_total": [
"ClassicalDedekindReals.sig_forall_dec",
"ClassicalDedekindReals.sig_not_dec",
"Classical_Prop.classic",
"FunctionalExtensionality.functional_extensionality_dep"
],
"C132_AFB": [
"ClassicalDedekindReals.sig_forall_dec",
"ClassicalDedekindReals.sig_not_dec",
"Classical_Prop.classic",
"FunctionalExtensionality.functional_extensionality_dep"
],
"C132_FL": [
"ClassicalDedekindReals.sig_forall_dec",
"ClassicalDedekindReals.sig_not_dec",
"Classical_Prop.classic",
"FunctionalExtensionality.functional_extensionality_dep"
],
"C132_FL_upper": [
"ClassicalDedekindReals.sig_forall_dec",
"ClassicalDedekindReals.sig_not_dec",
"Classical_Prop.classic",
"FunctionalExtensionality.functional_extensionality_dep"
],
"C132_P123": [
"ClassicalDedekindReals.sig_forall_dec",
"ClassicalDedekindReals.sig_not_dec",
"Classical_Prop.classic",
"FunctionalExtensionality.functional_extensionality_dep"
],
"C132_P48": [
"ClassicalDedekindReals.sig_forall_dec",
"ClassicalDedekindReals.sig_not_dec",
"Classical_Prop.classic",
"FunctionalExtensionality.functional_extensionality_dep"
],
"C132_P56": [
"ClassicalDedekindReals.sig_forall_dec",
"ClassicalDedekindReals.sig_not_dec",
"Classical_Prop.classic",
"FunctionalExtensionality.functional_extensionality_dep"
],
"C132_R": [
"ClassicalDedekindReals.sig_forall_dec",
"ClassicalDedekindReals.sig_not_dec",
"Classical_Prop.classic",
"FunctionalExtensionality.functional_extensionality_dep"
],
"C132_R_positive": [
"ClassicalDedekindReals.sig_forall_dec",
"ClassicalDedekindReals.sig_not_dec",
"Classical_Prop.classic",
"FunctionalExtensionality.functional_extensionality_dep"
],
"C132_R_same": [
"ClassicalDedekindReals.sig_forall_dec",
"ClassicalDedekindReals.sig_not_dec",
"Classical_Prop.classic",
"FunctionalExtensionality.functional_extensionality_dep"
],
"C133_half_refuted": [
"ClassicalDedekindReals.sig_forall_dec",
"ClassicalDedekindReals.sig_not_dec",
"Classical_Prop.classic",
"FunctionalExtensionality.functional_extensionality_dep"
],
"C133_instance_refuted": [
"ClassicalDedekindReals.sig_forall_dec",
"ClassicalDedekindReals.sig_not_dec",
"Classical_Prop.classic",
"FunctionalExtensionality.functional_extensionality_dep"
],
"C134_ACP": [
"ClassicalDedekindReals.sig_forall_dec",
"ClassicalDedekindReals.sig_not_dec",
"Classical_Prop.classic",
"FunctionalExtensionality.functional_extensionality_dep"
],
"C134_R": [
"ClassicalDedekindReals.sig_forall_dec",
"ClassicalDedekindReals.sig_not_dec",
"FunctionalExtensionality.functional_extensionality_dep"
],
"C134_angular": [
"ClassicalDedekindReals.sig_forall_dec",
"ClassicalDedekindReals.sig_not_dec",
"Classical_Prop.classic",
"FunctionalExtensionality.functional_extensionality_dep"
],
"C134_bins": [
"ClassicalDedekindReals.sig_forall_dec",
"ClassicalDedekindReals.sig_not_dec",
"Classical_Prop.classic",
"FunctionalExtensionality.functional_extensionality_dep"
],
"C134_bounds": [
"ClassicalDedekindReals.sig_forall_dec",
"ClassicalDedekindReals.sig_not_dec",
"FunctionalExtensionality.functional_extensionality_dep"
],
"C134_differential": [
"ClassicalDedekindReals.sig_forall_dec",
"ClassicalDedekindReals.sig_not_dec",
"Classical_Prop.classic",
"FunctionalExtensionality.functional_extensionality_dep"
],
"C134_spectrum": [
"ClassicalDedekindReals.sig_forall_dec",
"ClassicalDedekindReals.sig_not_dec",
"Classical_Prop.classic",
"FunctionalExtensionality.functional_extensionality_dep"
],
"C134_total": [
"ClassicalDedekindReals.sig_forall_dec",
"ClassicalDedekindReals.sig_not_dec",
"Classical_Prop.classic",
"FunctionalExtensionality.functional_extensionality_dep"
],
"C135_binned": [
"ClassicalDedekindReals.sig_forall_dec",
"ClassicalDedekindReals.sig_not_dec",
"Classical_Prop.classic",
"FunctionalExtensionality.functional_extensionality_dep"
],
"C135_bins": [
"ClassicalDedekindReals.sig_forall_dec",
"ClassicalDedekindReals.sig_not_dec",
"Classical_Prop.classic",
"FunctionalExtensionality.functional_extensionality_dep"
],
"C135_differential": [
"ClassicalDedekindReals.sig_forall_dec",
"ClassicalDedekindReals.sig_not_dec",
"Classical_Prop.classic",
"FunctionalExtensionality.functional_extensionality_dep"
],
"C135_exists": [
"ClassicalDedekindReals.sig_forall_dec",
"ClassicalDedekindReals.sig_not_dec",
"Classical_Prop.classic",
"FunctionalExtensionality.functional_extensionality_dep"
],
"C135_names": [
"ClassicalDedekindReals.sig_forall_dec",
"ClassicalDedekindReals.sig_not_dec",
"Classical_Prop.classic",
"FunctionalExtensionality.functional_extensionality_dep"
],
"C135_spectrum": [
"ClassicalDedekindReals.sig_forall_dec",
"ClassicalDedekindReals.sig_not_dec",
"Classical_Prop.classic",
"FunctionalExtensionality.functional_extensionality_dep"
],
"C135_total": [
"ClassicalDedekindReals.sig_forall_dec",
"ClassicalDedekindReals.sig_not_dec",
"Classical_Prop.classic",
"FunctionalExtensionality.functional_extensionality_dep"
],
"C136_FL": [
"ClassicalDedekindReals.sig_forall_dec",
"ClassicalDedekindReals.sig_not_dec",
"Classical_Prop.classic",
"FunctionalExtensionality.functional_extensionality_dep"
],
"C136_R": [
"ClassicalDedekindReals.sig_forall_dec",
"ClassicalDedekindReals.sig_not_dec",
"Classical_Prop.classic",
"FunctionalExtensionality.functional_extensionality_dep"
],
"C136_no_width_difference": [
"ClassicalDedekindReals.sig_forall_dec",
"ClassicalDedekindReals.sig_not_dec",
"Classical_Prop.classic",
"FunctionalExtensionality.functional_extensionality_dep"
],
"C137_errors": [],
"C137_np": [],
"C137_sm": [],
"C138_same": [],
"C138_unique": [],
"C139_constant": [],
"C139_owner_partial": [],
"C139_owner_refuted": [],
"C139_predictions_partial": [],
"C139_stale_refuted": [],
"C13_measurements_found_exactly": [],
"C140_eft": [],
"C140_unchecked_refuted": [],
"C140_values": [],
"C141_basis_refuted": [],
"C141_initial": [],
"C142_asymmetry_from_lifetime": [
"ClassicalDedekindReals.sig_forall_dec",
"ClassicalDedekindReals.sig_not_dec",
"FunctionalExtensionality.functional_extensionality_dep"
],
"C142_effective_lifetime": [
"ClassicalDedekindReals.sig_forall_dec",
"ClassicalDedekindReals.sig_not_dec",
"Classical_Prop.classic",
"FunctionalExtensionality.functional_extensionality_dep"
],
"C142_flavours": [
"ClassicalDedekindReals.sig_forall_dec",
"ClassicalDedekindReals.sig_not_dec",
"FunctionalExtensionality.functional_extensionality_dep"
],
"C142_one_state": [
"ClassicalDedekindReals.sig_forall_dec",
"ClassicalDedekindReals.sig_not_dec",
"FunctionalExtensionality.functional_extensionality_dep"
],
"C142_ranges": [
"ClassicalDedekindReals.sig_forall_dec",
"ClassicalDedekindReals.sig_not_dec",
"FunctionalExtensionality.functional_extensionality_dep"
],
"C142_rate_formula": [
"ClassicalDedekindReals.sig_forall_dec",
"ClassicalDedekindReals.sig_not_dec",
"FunctionalExtensionality.functional_extensionality_dep"
],
"C142_time_integrated": [
"ClassicalDedekindReals.sig_forall_dec",
"ClassicalDedekindReals.sig_not_dec",
"Classical_Prop.classic",
"FunctionalExtensionality.functional_extensionality_dep"
],
"C143_charm": [
"ClassicalDedekindReals.sig_forall_dec",
"ClassicalDedekindReals.sig_not_dec",
"FunctionalExtensionality.functional_extensionality_dep"
],
"C143_helicity_suppression": [
"ClassicalDedekindReals.sig_forall_dec",
"ClassicalDedekindReals.sig_not_dec",
"FunctionalExtensionality.functional_extensionality_dep"
],
"C143_tau": [
"ClassicalDedekindReals.sig_forall_dec",
"ClassicalDedekindReals.sig_not_dec",
"FunctionalExtensionality.functional_extensionality_dep"
],
"C143_widths": [
"ClassicalDedekindReals.sig_forall_dec",
"ClassicalDedekindReals.sig_not_dec",
"FunctionalExtensionality.functional_extensionality_dep"
],
"C144_bc_masses": [
"ClassicalDedekindReals.sig_forall_dec",
"ClassicalDedekindReals.sig_not_dec",
"FunctionalExtensionality.functional_extensionality_dep"
],
"C144_scalar_refuted": [
"ClassicalDedekindReals.sig_forall_dec",
"ClassicalDedekindReals.sig_not_dec",
"FunctionalExtensionality.functional_extensionality_dep"
],
"C145_either_name": [
"ClassicalDedekindReals.sig_forall_dec",
"ClassicalDedekindReals.sig_not_dec",
"Classical_Prop.classic",
"FunctionalExtensionality.functional_extensionality_dep"
],
"C145_fermi_absorbs": [
"ClassicalDedekindReals.sig_forall_dec",
"ClassicalDedekindReals.sig_not_dec",
"Classical_Prop.classic",
"FunctionalExtensionality.functional_extensionality_dep"
],
"C145_fermi_constant": [
"ClassicalDedekindReals.sig_forall_dec",
"ClassicalDedekindReals.sig_not_dec",
"Classical_Prop.classic",
"FunctionalExtensionality.functional_extensionality_dep"
],
"C145_left_handed": [
"ClassicalDedekindReals.sig_forall_dec",
"ClassicalDedekindReals.sig_not_dec",
"Classical_Prop.classic",
"FunctionalExtensionality.functional_extensionality_dep"
],
"C145_standard_model": [
"ClassicalDedekindReals.sig_forall_dec",
"ClassicalDedekindReals.sig_not_dec",
"Classical_Prop.classic",
"FunctionalExtensionality.functional_extensionality_dep"
],
"C146_negative_refuted": [
"ClassicalDedekindReals.sig_forall_dec",
"ClassicalDedekindReals.sig_not_dec",
"Classical_Prop.classic",
"FunctionalExtensionality.functional_extensionality_dep"
],
"C147_photon": [
"ClassicalDedekindReals.sig_forall_dec",
"ClassicalDedekindReals.sig_not_dec",
"FunctionalExtensionality.functional_extensionality_dep"
],
"C147_scalar": [
"ClassicalDedekindReals.sig_forall_dec",
"ClassicalDedekindReals.sig_not_dec",
"FunctionalExtensionality.functional_extensionality_dep"
],
"C147_vector": [
"ClassicalDedekindReals.sig_forall_dec",
"ClassicalDedekindReals.sig_not_dec",
"FunctionalExtensionality.functional_extensionality_dep"
],
"C148_default": [
"ClassicalDedekindReals.sig_forall_dec",
"ClassicalDedekindReals.sig_not_dec",
"FunctionalExtensionality.functional_extensionality_dep"
],
"C148_expansion": [
"ClassicalDedekindReals.sig_forall_dec",
"FunctionalExtensionality.functional_extensionality_dep"
],
"C148_range": [
"ClassicalDedekindReals.sig_forall_dec",
"ClassicalDedekindReals.sig_not_dec",
"FunctionalExtensionality.functional_extensionality_dep"
],
"C148_recoil": [
"ClassicalDedekindReals.sig_forall_dec",
"ClassicalDedekindReals.sig_not_dec",
"FunctionalExtensionality.functional_extensionality_dep"
],
"C149_zero_momentum": [
"ClassicalDedekindReals.sig_forall_dec",
"ClassicalDedekindReals.sig_not_dec",
"FunctionalExtensionality.functional_extensionality_dep"
],
"C14_configured_implementation_is_used": [],
"C14_other_configuration_irrelevant": [],
"C150_opposite_sign_refuted": [
"ClassicalDedekindReals.sig_forall_dec",
"ClassicalDedekindReals.sig_not_dec",
"FunctionalExtensionality.functional_extensionality_dep"
],
"C150_plain_bcl_D_refuted": [
"ClassicalDedekindReals.sig_forall_dec",
"ClassicalDedekindReals.sig_not_dec",
"FunctionalExtensionality.functional_extensionality_dep"
],
"C150_plain_bcl_refuted": [
"ClassicalDedekindReals.sig_forall_dec",
"ClassicalDedekindReals.sig_not_dec",
"FunctionalExtensionality.functional_extensionality_dep"
],
"C151_threshold": [
"ClassicalDedekindReals.sig_forall_dec",
"ClassicalDedekindReals.sig_not_dec",
"FunctionalExtensionality.functional_extensionality_dep"
],
"C152_zero_momentum": [
"ClassicalDedekindReals.sig_forall_dec",
"ClassicalDedekindReals.sig_not_dec",
"FunctionalExtensionality.functional_extensionality_dep"
],
"C153_T1_T2_refuted": [
"ClassicalDedekindReals.sig_forall_dec",
"ClassicalDedekindReals.sig_not_dec",
"FunctionalExtensionality.functional_extensionality_dep"
],
"C153_T23_refuted": [
"ClassicalDedekindReals.sig_forall_dec",
"ClassicalDedekindReals.sig_not_dec",
"FunctionalExtensionality.functional_extensionality_dep"
],
"C154_bsz_writes": [
"ClassicalDedekindReals.sig_forall_dec",
"ClassicalDedekindReals.sig_not_dec",
"FunctionalExtensionality.functional_extensionality_dep"
],
"C154_changed_refuted": [
"ClassicalDedekindReals.sig_forall_dec",
"ClassicalDedekindReals.sig_not_dec",
"FunctionalExtensionality.functional_extensionality_dep"
],
"C154_sse_writes": [
"ClassicalDedekindReals.sig_forall_dec",
"ClassicalDedekindReals.sig_not_dec",
"FunctionalExtensionality.functional_extensionality_dep"
],
"C155_endpoint": [
"ClassicalDedekindReals.sig_forall_dec",
"ClassicalDedekindReals.sig_not_dec",
"FunctionalExtensionality.functional_extensionality_dep"
],
"C156_third_coefficient_ignored_refuted": [
"ClassicalDedekindReals.sig_forall_dec",
"ClassicalDedekindReals.sig_not_dec",
"FunctionalExtensionality.functional_extensionality_dep"
],
"C157_unusable_refuted": [
"ClassicalDedekindReals.sig_forall_dec",
"ClassicalDedekindReals.sig_not_dec",
"FunctionalExtensionality.functional_extensionality_dep"
],
"C158_zero_recoil_D": [
"ClassicalDedekindReals.sig_forall_dec",
"ClassicalDedekindReals.sig_not_dec",
"FunctionalExtensionality.functional_extensionality_dep"
],
"C158_zero_recoil_Dstar": [
"ClassicalDedekindReals.sig_forall_dec",
"ClassicalDedekindReals.sig_not_dec",
"FunctionalExtensionality.functional_extensionality_dep"
],
"C159_W": [
"ClassicalDedekindReals.sig_forall_dec",
"ClassicalDedekindReals.sig_not_dec",
"FunctionalExtensionality.functional_extensionality_dep"
],
"C159_Z": [
"ClassicalDedekindReals.sig_forall_dec",
"ClassicalDedekindReals.sig_not_dec",
"Classical_Prop.classic",
"FunctionalExtensionality.functional_extensionality_dep"
],
"C159_coupling": [
"ClassicalDedekindReals.sig_forall_dec",
"ClassicalDedekindReals.sig_not_dec",
"Classical_Prop.classic",
"FunctionalExtensionality.functional_extensionality_dep"
],
"C15_rejected_implementation_refuted": [],
"C160_asymmetries": [
"ClassicalDedekindReals.sig_forall_dec",
"ClassicalDedekindReals.sig_not_dec",
"Classical_Prop.classic",
"FunctionalExtensionality.functional_extensionality_dep"
],
"C160_couplings": [
"ClassicalDedekindReals.sig_forall_dec",
"ClassicalDedekindReals.sig_not_dec",
"Classical_Prop.classic",
"FunctionalExtensionality.functional_extensionality_dep"
],
"C160_direct": [
"ClassicalDedekindReals.sig_forall_dec",
"ClassicalDedekindReals.sig_not_dec",
"Classical_Prop.classic",
"FunctionalExtensionality.functional_extensionality_dep"
],
"C160_fcnc": [
"ClassicalDedekindReals.sig_forall_dec",
"ClassicalDedekindReals.sig_not_dec",
"Classical_Prop.classic",
"FunctionalExtensionality.functional_extensionality_dep"
],
"C160_muon_decay": [
"ClassicalDedekindReals.sig_forall_dec",
"ClassicalDedekindReals.sig_not_dec",
"Classical_Prop.classic",
"FunctionalExtensionality.functional_extensionality_dep"
],
"C160_sm": [
"ClassicalDedekindReals.sig_forall_dec",
"ClassicalDedekindReals.sig_not_dec",
"Classical_Prop.classic",
"FunctionalExtensionality.functional_extensionality_dep"
],
"C160_sums": [
"ClassicalDedekindReals.sig_forall_dec",
"ClassicalDedekindReals.sig_not_dec",
"Classical_Prop.classic",
"FunctionalExtensionality.functional_extensionality_dep"
],
"C161_coupling": [
"ClassicalDedekindReals.sig_forall_dec",
"ClassicalDedekindReals.sig_not_dec",
"FunctionalExtensionality.functional_extensionality_dep"
],
"C161_sm": [
"ClassicalDedekindReals.sig_forall_dec",
"ClassicalDedekindReals.sig_not_dec",
"FunctionalExtensionality.functional_extensionality_dep"
],
"C161_sum": [
"ClassicalDedekindReals.sig_forall_dec",
"ClassicalDedekindReals.sig_not_dec",
"FunctionalExtensionality.functional_extensionality_dep"
],
"C162_refuted": [
"ClassicalDedekindReals.sig_forall_dec",
"ClassicalDedekindReals.sig_not_dec",
"FunctionalExtensionality.functional_extensionality_dep"
],
"C163_refuted": [
"ClassicalDedekindReals.sig_forall_dec",
"ClassicalDedekindReals.sig_not_dec",
"FunctionalExtensionality.functional_extensionality_dep"
],
"C164_linear": [
"ClassicalDedekindReals.sig_forall_dec",
"FunctionalExtensionality.functional_extensionality_dep"
],
"C164_muon_decay": [
"ClassicalDedekindReals.sig_forall_dec",
"FunctionalExtensionality.functional_extensionality_dep"
],
"C164_relations": [
"ClassicalDedekindReals.sig_forall_dec",
"FunctionalExtensionality.functional_extensionality_dep"
],
"C164_strength": [
"ClassicalDedekindReals.sig_forall_dec",
"ClassicalDedekindReals.sig_not_dec",
"FunctionalExtensionality.functional_extensionality_dep"
],
"C164_width": [
"ClassicalDedekindReals.sig_forall_dec",
"ClassicalDedekindReals.sig_not_dec",
"FunctionalExtensionality.functional_extensionality_dep"
],
"C165_refuted": [
"ClassicalDedekindReals.sig_forall_dec",
"ClassicalDedekindReals.sig_not_dec",
"FunctionalExtensionality.functional_extensionality_dep"
],
"C166_energies": [
"ClassicalDedekindReals.sig_forall_dec",
"FunctionalExtensionality.functional_extensionality_dep"
],
"C166_keys": [
"ClassicalDedekindReals.sig_forall_dec",
"FunctionalExtensionality.functional_extensionality_dep"
],
"C166_linear": [
"ClassicalDedekindReals.sig_forall_dec",
"FunctionalExtensionality.functional_extensionality_dep"
],
"C167_refuted": [
"ClassicalDedekindReals.sig_forall_dec",
"FunctionalExtensionality.functional_extensionality_dep"
],
"C168_al": [
"ClassicalDedekindReals.sig_forall_dec",
"ClassicalDedekindReals.sig_not_dec",
"FunctionalExtensionality.functional_extensionality_dep"
],
"C168_trident": [
"ClassicalDedekindReals.sig_forall_dec",
"ClassicalDedekindReals.sig_not_dec",
"FunctionalExtensionality.functional_extensionality_dep"
],
"C169_bound": [
"ClassicalDedekindReals.sig_forall_dec",
"ClassicalDedekindReals.sig_not_dec",
"Classical_Prop.classic",
"FunctionalExtensionality.functional_extensionality_dep"
],
"C169_dipole": [
"ClassicalDedekindReals.sig_forall_dec",
"ClassicalDedekindReals.sig_not_dec",
"Classical_Prop.classic",
"FunctionalExtensionality.functional_extensionality_dep"
],
"C169_mu3e": [
"ClassicalDedekindReals.sig_forall_dec",
"ClassicalDedekindReals.sig_not_dec",
"Classical_Prop.classic",
"FunctionalExtensionality.functional_extensionality_dep"
],
"C169_tau": [
"ClassicalDedekindReals.sig_forall_dec",
"ClassicalDedekindReals.sig_not_dec",
"Classical_Prop.classic",
"FunctionalExtensionality.functional_extensionality_dep"
],
"C16_show_all_last_partial": [],
"C16_show_all_refuted": [],
"C170_laws": [
"ClassicalDedekindReals.sig_forall_dec",
"ClassicalDedekindReals.sig_not_dec",
"Classical_Prop.classic",
"FunctionalExtensionality.functional_extensionality_dep"
],
"C170_rate": [
"ClassicalDedekindReals.sig_forall_dec",
"ClassicalDedekindReals.sig_not_dec",
"Classical_Prop.classic",
"FunctionalExtensionality.functional_extensionality_dep"
],
"C171_kaon": [
"ClassicalDedekindReals.sig_forall_dec",
"ClassicalDedekindReals.sig_not_dec",
"FunctionalExtensionality.functional_extensionality_dep"
],
"C171_pion": [
"ClassicalDedekindReals.sig_forall_dec",
"ClassicalDedekindReals.sig_not_dec",
"FunctionalExtensionality.functional_extensionality_dep"
],
"C171_pion_laws": [
"ClassicalDedekindReals.sig_forall_dec",
"ClassicalDedekindReals.sig_not_dec",
"FunctionalExtensionality.functional_extensionality_dep"
],
"C171_vector": [
"ClassicalDedekindReals.sig_forall_dec",
"ClassicalDedekindReals.sig_not_dec",
"FunctionalExtensionality.functional_extensionality_dep"
],
"C171_vector_laws": [
"ClassicalDedekindReals.sig_forall_dec",
"ClassicalDedekindReals.sig_not_dec",
"FunctionalExtensionality.functional_extensionality_dep"
],
"C172_quark_mass_partial": [
"ClassicalDedekindReals.sig_forall_dec",
"ClassicalDedekindReals.sig_not_dec",
"FunctionalExtensionality.functional_extensionality_dep"
],
"C172_quark_mass_refuted": [
"ClassicalDedekindReals.sig_forall_dec",
"ClassicalDedekindReals.sig_not_dec",
"FunctionalExtensionality.functional_extensionality_dep"
],
"C173_fermions": [
"ClassicalDedekindReals.sig_forall_dec",
"ClassicalDedekindReals.sig_not_dec",
"FunctionalExtensionality.functional_extensionality_dep"
],
"C173_neutron": [
"ClassicalDedekindReals.sig_forall_dec",
"ClassicalDedekindReals.sig_not_dec",
"FunctionalExtensionality.functional_extensionality_dep"
],
"C173_nucleus": [
"ClassicalDedekindReals.sig_forall_dec",
"FunctionalExtensionality.functional_extensionality_dep"
],
"C173_paramagnetic": [
"ClassicalDedekindReals.sig_forall_dec",
"ClassicalDedekindReals.sig_not_dec",
"FunctionalExtensionality.functional_extensionality_dep"
],
"C174_nuclei_partial": [
"ClassicalDedekindReals.sig_forall_dec",
"ClassicalDedekindReals.sig_not_dec",
"FunctionalExtensionality.functional_extensionality_dep"
],
"C174_nuclei_refuted": [
"ClassicalDedekindReals.sig_forall_dec",
"ClassicalDedekindReals.sig_not_dec",
"FunctionalExtensionality.functional_extensionality_dep"
],
"C175_errors": [
"ClassicalDedekindReals.sig_forall_dec",
"ClassicalDedekindReals.sig_not_dec",
"Classical_Prop.classic",
"FunctionalExtensionality.functional_extensionality_dep"
],
"C175_total": [
"ClassicalDedekindReals.sig_forall_dec",
"ClassicalDedekindReals.sig_not_dec",
"Classical_Prop.classic",
"FunctionalExtensionality.functional_extensionality_dep"
],
"C176_F89": [
"ClassicalDedekindReals.sig_forall_dec",
"ClassicalDedekindReals.sig_not_dec",
"Classical_Prop.classic",
"FunctionalExtensionality.functional_extensionality_dep"
],
"C176_corrections": [
"ClassicalDedekindReals.sig_forall_dec",
"ClassicalDedekindReals.sig_not_dec",
"Classical_Prop.classic",
"FunctionalExtensionality.functional_extensionality_dep"
],
"C176_defined": [
"ClassicalDedekindReals.sig_forall_dec",
"ClassicalDedekindReals.sig_not_dec",
"Classical_Prop.classic",
"FunctionalExtensionality.functional_extensionality_dep"
],
"C176_leptons": [
"ClassicalDedekindReals.sig_forall_dec",
"ClassicalDedekindReals.sig_not_dec",
"Classical_Prop.classic",
"FunctionalExtensionality.functional_extensionality_dep"
],
"C176_linear": [
"ClassicalDedekindReals.sig_forall_dec",
"ClassicalDedekindReals.sig_not_dec",
"Classical_Prop.classic",
"FunctionalExtensionality.functional_extensionality_dep"
],
"C177_imaginary_part": [
"ClassicalDedekindReals.sig_forall_dec",
"ClassicalDedekindReals.sig_not_dec",
"Classical_Prop.classic",
"FunctionalExtensionality.functional_extensionality_dep"
],
"C177_massless_charm": [
"ClassicalDedekindReals.sig_forall_dec",
"ClassicalDedekindReals.sig_not_dec",
"Classical_Prop.classic",
"FunctionalExtensionality.functional_extensionality_dep"
],
"C177_scale": [
"ClassicalDedekindReals.sig_forall_dec",
"ClassicalDedekindReals.sig_not_dec",
"Classical_Prop.classic",
"FunctionalExtensionality.functional_extensionality_dep"
],
"C178_beyond_endpoint": [
"ClassicalDedekindReals.sig_forall_dec",
"ClassicalDedekindReals.sig_not_dec",
"FunctionalExtensionality.functional_extensionality_dep"
],
"C178_binned_fraction": [
"ClassicalDedekindReals.sig_forall_dec",
"ClassicalDedekindReals.sig_not_dec",
"Classical_Prop.classic",
"FunctionalExtensionality.functional_extensionality_dep"
],
"C178_binned_rates": [
"ClassicalDedekindReals.sig_forall_dec",
"ClassicalDedekindReals.sig_not_dec",
"Classical_Prop.classic",
"FunctionalExtensionality.functional_extensionality_dep"
],
"C178_longitudinal_fraction": [
"ClassicalDedekindReals.sig_forall_dec",
"ClassicalDedekindReals.sig_not_dec",
"FunctionalExtensionality.functional_extensionality_dep"
],
"C178_pseudoscalar_rate": [
"ClassicalDedekindReals.sig_forall_dec",
"ClassicalDedekindReals.sig_not_dec",
"FunctionalExtensionality.functional_extensionality_dep"
],
"C178_total": [
"ClassicalDedekindReals.sig_forall_dec",
"ClassicalDedekindReals.sig_not_dec",
"Classical_Prop.classic",
"FunctionalExtensionality.functional_extensionality_dep"
],
"C178_vector_rate": [
"ClassicalDedekindReals.sig_forall_dec",
"ClassicalDedekindReals.sig_not_dec",
"FunctionalExtensionality.functional_extensionality_dep"
],
"C179_flavour_violation_adds": [
"ClassicalDedekindReals.sig_forall_dec",
"ClassicalDedekindReals.sig_not_dec",
"FunctionalExtensionality.functional_extensionality_dep"
],
"C179_left_handed": [
"ClassicalDedekindReals.sig_forall_dec",
"ClassicalDedekindReals.sig_not_dec",
"FunctionalExtensionality.functional_extensionality_dep"
],
"C179_pseudoscalar_sum": [
"ClassicalDedekindReals.sig_forall_dec",
"ClassicalDedekindReals.sig_not_dec",
"FunctionalExtensionality.functional_extensionality_dep"
],
"C17_constructor_check": [],
"C17_registration_order": [],
"C17_selected_measurements": [],
"C180_branching_ratios": [
"ClassicalDedekindReals.sig_forall_dec",
"ClassicalDedekindReals.sig_not_dec",
"Classical_Prop.classic",
"FunctionalExtensionality.functional_extensionality_dep"
],
"C180_cp_conserved": [
"ClassicalDedekindReals.sig_forall_dec",
"ClassicalDedekindReals.sig_not_dec",
"Classical_Prop.classic",
"FunctionalExtensionality.functional_extensionality_dep"
],
"C180_flavour_violation_adds": [
"ClassicalDedekindReals.sig_forall_dec",
"ClassicalDedekindReals.sig_not_dec",
"Classical_Prop.classic",
"FunctionalExtensionality.functional_extensionality_dep"
],
"C180_grossman_nir": [
"ClassicalDedekindReals.sig_forall_dec",
"ClassicalDedekindReals.sig_not_dec",
"Classical_Prop.classic",
"FunctionalExtensionality.functional_extensionality_dep"
],
"C180_only_sum": [
"ClassicalDedekindReals.sig_forall_dec",
"ClassicalDedekindReals.sig_not_dec",
"Classical_Prop.classic",
"FunctionalExtensionality.functional_extensionality_dep"
],
"C181_refuted": [
"ClassicalDedekindReals.sig_forall_dec",
"ClassicalDedekindReals.sig_not_dec",
"Classical_Prop.classic",
"FunctionalExtensionality.functional_extensionality_dep"
],
"C181_top_partial": [
"ClassicalDedekindReals.sig_forall_dec",
"ClassicalDedekindReals.sig_not_dec",
"Classical_Prop.classic",
"FunctionalExtensionality.functional_extensionality_dep"
],
"C182_both_charges": [
"ClassicalDedekindReals.sig_forall_dec",
"ClassicalDedekindReals.sig_not_dec",
"FunctionalExtensionality.functional_extensionality_dep"
],
"C182_exchange": [
"ClassicalDedekindReals.sig_forall_dec",
"ClassicalDedekindReals.sig_not_dec",
"FunctionalExtensionality.functional_extensionality_dep"
],
"C182_outside": [
"ClassicalDedekindReals.sig_forall_dec",
"ClassicalDedekindReals.sig_not_dec",
"FunctionalExtensionality.functional_extensionality_dep"
],
"C182_pseudoscalar_sums": [
"ClassicalDedekindReals.sig_forall_dec",
"ClassicalDedekindReals.sig_not_dec",
"FunctionalExtensionality.functional_extensionality_dep"
],
"C182_quadratic": [
"ClassicalDedekindReals.sig_forall_dec",
"ClassicalDedekindReals.sig_not_dec",
"FunctionalExtensionality.functional_extensionality_dep"
],
"C182_rates": [
"ClassicalDedekindReals.sig_forall_dec",
"ClassicalDedekindReals.sig_not_dec",
"FunctionalExtensionality.functional_extensionality_dep"
],
"C182_total": [
"ClassicalDedekindReals.sig_forall_dec",
"ClassicalDedekindReals.sig_not_dec",
"Classical_Prop.classic",
"FunctionalExtensionality.functional_extensionality_dep"
],
"C183_refuted": [
"ClassicalDedekindReals.sig_forall_dec",
"ClassicalDedekindReals.sig_not_dec",
"Classical_Prop.classic",
"FunctionalExtensionality.functional_extensionality_dep"
],
"C184_bounds": [
"ClassicalDedekindReals.sig_forall_dec",
"ClassicalDedekindReals.sig_not_dec",
"FunctionalExtensionality.functional_extensionality_dep"
],
"C184_null_tests": [
"ClassicalDedekindReals.sig_forall_dec",
"ClassicalDedekindReals.sig_not_dec",
"FunctionalExtensionality.functional_extensionality_dep"
],
"C184_observables": [
"ClassicalDedekindReals.sig_forall_dec",
"ClassicalDedekindReals.sig_not_dec",
"FunctionalExtensionality.functional_extensionality_dep"
],
"C184_time_integrated": [
"ClassicalDedekindReals.sig_forall_dec",
"ClassicalDedekindReals.sig_not_dec",
"FunctionalExtensionality.functional_extensionality_dep"
],
"C185_F87": [
"ClassicalDedekindReals.sig_forall_dec",
"ClassicalDedekindReals.sig_not_dec",
"Classical_Prop.classic",
"FunctionalExtensionality.functional_extensionality_dep"
],
"C185_continuous": [
"ClassicalDedekindReals.sig_forall_dec",
"ClassicalDedekindReals.sig_not_dec",
"Classical_Prop.classic",
"FunctionalExtensionality.functional_extensionality_dep"
],
"C185_defined": [
"ClassicalDedekindReals.sig_forall_dec",
"ClassicalDedekindReals.sig_not_dec",
"Classical_Prop.classic",
"FunctionalExtensionality.functional_extensionality_dep"
],
"C185_dimensionless": [
"ClassicalDedekindReals.sig_forall_dec",
"ClassicalDedekindReals.sig_not_dec",
"Classical_Prop.classic",
"FunctionalExtensionality.functional_extensionality_dep"
],
"C185_imaginary_part": [
"ClassicalDedekindReals.sig_forall_dec",
"ClassicalDedekindReals.sig_not_dec",
"Classical_Prop.classic",
"FunctionalExtensionality.functional_extensionality_dep"
],
"C185_light_quarks": [
"ClassicalDedekindReals.sig_forall_dec",
"ClassicalDedekindReals.sig_not_dec",
"Classical_Prop.classic",
"FunctionalExtensionality.functional_extensionality_dep"
],
"C185_scale": [
"ClassicalDedekindReals.sig_forall_dec",
"ClassicalDedekindReals.sig_not_dec",
"Classical_Prop.classic",
"FunctionalExtensionality.functional_extensionality_dep"
],
"C185_small_q2": [
"ClassicalDedekindReals.sig_forall_dec",
"ClassicalDedekindReals.sig_not_dec",
"Classical_Prop.classic",
"FunctionalExtensionality.functional_extensionality_dep"
],
"C186_conventions": [
"ClassicalDedekindReals.sig_forall_dec",
"FunctionalExtensionality.functional_extensionality_dep"
],
"C186_electroweak": [
"ClassicalDedekindReals.sig_forall_dec",
"ClassicalDedekindReals.sig_not_dec",
"Classical_Prop.classic",
"FunctionalExtensionality.functional_extensionality_dep"
],
"C187_charges": [
"ClassicalDedekindReals.sig_forall_dec",
"ClassicalDedekindReals.sig_not_dec",
"FunctionalExtensionality.functional_extensionality_dep"
],
"C187_lfc_tensor": [
"ClassicalDedekindReals.sig_forall_dec",
"ClassicalDedekindReals.sig_not_dec",
"FunctionalExtensionality.functional_extensionality_dep"
],
"C187_lfc_vector": [
"ClassicalDedekindReals.sig_forall_dec",
"ClassicalDedekindReals.sig_not_dec",
"FunctionalExtensionality.functional_extensionality_dep"
],
"C187_lfv_vector": [
"ClassicalDedekindReals.sig_forall_dec",
"ClassicalDedekindReals.sig_not_dec",
"FunctionalExtensionality.functional_extensionality_dep"
],
"C187_lifetime": [
"ClassicalDedekindReals.sig_forall_dec",
"ClassicalDedekindReals.sig_not_dec",
"FunctionalExtensionality.functional_extensionality_dep"
],
"C187_nonneg": [
"ClassicalDedekindReals.sig_forall_dec",
"ClassicalDedekindReals.sig_not_dec",
"FunctionalExtensionality.functional_extensionality_dep"
],
"C187_photon": [
"ClassicalDedekindReals.sig_forall_dec",
"ClassicalDedekindReals.sig_not_dec",
"FunctionalExtensionality.functional_extensionality_dep"
],
"C187_universality": [
"ClassicalDedekindReals.sig_forall_dec",
"ClassicalDedekindReals.sig_not_dec",
"FunctionalExtensionality.functional_extensionality_dep"
],
"C188_charges": [
"ClassicalDedekindReals.sig_forall_dec",
"ClassicalDedekindReals.sig_not_dec",
"FunctionalExtensionality.functional_extensionality_dep"
],
"C188_nonneg": [
"ClassicalDedekindReals.sig_forall_dec",
"ClassicalDedekindReals.sig_not_dec",
"FunctionalExtensionality.functional_extensionality_dep"
],
"C188_waves": [
"ClassicalDedekindReals.sig_forall_dec",
"ClassicalDedekindReals.sig_not_dec",
"FunctionalExtensionality.functional_extensionality_dep"
],
"C189_partial": [
"ClassicalDedekindReals.sig_forall_dec",
"ClassicalDedekindReals.sig_not_dec",
"FunctionalExtensionality.functional_extensionality_dep"
],
"C189_refuted": [
"ClassicalDedekindReals.sig_forall_dec",
"ClassicalDedekindReals.sig_not_dec",
"FunctionalExtensionality.functional_extensionality_dep"
],
"C18_log_likelihood_is_sum": [],
"C18_missing_prediction_raises": [],
"C18_only_wanted_predictions_matter": [],
"C190_refuted": [
"ClassicalDedekindReals.sig_forall_dec",
"ClassicalDedekindReals.sig_not_dec",
"FunctionalExtensionality.functional_extensionality_dep"
],
"C191_charges": [
"ClassicalDedekindReals.sig_forall_dec",
"ClassicalDedekindReals.sig_not_dec",
"Classical_Prop.classic",
"FunctionalExtensionality.functional_extensionality_dep"
],
"C191_equal_mass": [
"ClassicalDedekindReals.sig_forall_dec",
"ClassicalDedekindReals.sig_not_dec",
"Classical_Prop.classic",
"FunctionalExtensionality.functional_extensionality_dep"
],
"C191_massless": [
"ClassicalDedekindReals.sig_forall_dec",
"ClassicalDedekindReals.sig_not_dec",
"Classical_Prop.classic",
"FunctionalExtensionality.functional_extensionality_dep"
],
"C191_positive": [
"ClassicalDedekindReals.sig_forall_dec",
"ClassicalDedekindReals.sig_not_dec",
"Classical_Prop.classic",
"FunctionalExtensionality.functional_extensionality_dep"
],
"C191_threshold": [
"ClassicalDedekindReals.sig_forall_dec",
"ClassicalDedekindReals.sig_not_dec",
"Classical_Prop.classic",
"FunctionalExtensionality.functional_extensionality_dep"
],
"C192_refuted": [
"ClassicalDedekindReals.sig_forall_dec",
"ClassicalDedekindReals.sig_not_dec",
"Classical_Prop.classic",
"FunctionalExtensionality.functional_extensionality_dep"
],
"C193_bounds": [
"ClassicalDedekindReals.sig_forall_dec",
"ClassicalDedekindReals.sig_not_dec",
"FunctionalExtensionality.functional_extensionality_dep"
],
"C193_distribution": [
"ClassicalDedekindReals.sig_forall_dec",
"ClassicalDedekindReals.sig_not_dec",
"FunctionalExtensionality.functional_extensionality_dep"
],
"C194_bounds": [
"ClassicalDedekindReals.sig_forall_dec",
"ClassicalDedekindReals.sig_not_dec",
"FunctionalExtensionality.functional_extensionality_dep"
],
"C194_cp": [
"ClassicalDedekindReals.sig_forall_dec",
"ClassicalDedekindReals.sig_not_dec",
"FunctionalExtensionality.functional_extensionality_dep"
],
"C194_forbidden": [
"ClassicalDedekindReals.sig_forall_dec",
"ClassicalDedekindReals.sig_not_dec",
"FunctionalExtensionality.functional_extensionality_dep"
],
"C194_normalisation": [
"ClassicalDedekindReals.sig_forall_dec",
"ClassicalDedekindReals.sig_not_dec",
"FunctionalExtensionality.functional_extensionality_dep"
],
"C194_real": [
"ClassicalDedekindReals.sig_forall_dec",
"ClassicalDedekindReals.sig_not_dec",
"FunctionalExtensionality.functional_extensionality_dep"
],
"C194_time_reversal": [
"ClassicalDedekindReals.sig_forall_dec",
"ClassicalDedekindReals.sig_not_dec",
"FunctionalExtensionality.functional_extensionality_dep"
],
"C195_couplings": [
"ClassicalDedekindReals.sig_forall_dec",
"ClassicalDedekindReals.sig_not_dec",
"FunctionalExtensionality.functional_extensionality_dep"
],
"C195_sm": [
"ClassicalDedekindReals.sig_forall_dec",
"ClassicalDedekindReals.sig_not_dec",
"FunctionalExtensionality.functional_extensionality_dep"
],
"C195_va": [
"ClassicalDedekindReals.sig_forall_dec",
"ClassicalDedekindReals.sig_not_dec",
"FunctionalExtensionality.functional_extensionality_dep"
],
"C195_wc": [
"ClassicalDedekindReals.sig_forall_dec",
"ClassicalDedekindReals.sig_not_dec",
"FunctionalExtensionality.functional_extensionality_dep"
],
"C196_formula": [
"ClassicalDedekindReals.sig_forall_dec",
"ClassicalDedekindReals.sig_not_dec",
"Classical_Prop.classic",
"FunctionalExtensionality.functional_extensionality_dep"
],
"C196_master": [
"ClassicalDedekindReals.sig_forall_dec",
"ClassicalDedekindReals.sig_not_dec",
"Classical_Prop.classic",
"FunctionalExtensionality.functional_extensionality_dep"
],
"C196_positive": [
"ClassicalDedekindReals.sig_forall_dec",
"ClassicalDedekindReals.sig_not_dec",
"Classical_Prop.classic",
"FunctionalExtensionality.functional_extensionality_dep"
],
"C196_universal": [
"ClassicalDedekindReals.sig_forall_dec",
"ClassicalDedekindReals.sig_not_dec",
"Classical_Prop.classic",
"FunctionalExtensionality.functional_extensionality_dep"
],
"C197_daughters": [
"ClassicalDedekindReals.sig_forall_dec",
"FunctionalExtensionality.functional_extensionality_dep"
],
"C197_elements": [],
"C198_SM": [
"ClassicalDedekindReals.sig_forall_dec",
"ClassicalDedekindReals.sig_not_dec",
"FunctionalExtensionality.functional_extensionality_dep"
],
"C198_differences": [
"ClassicalDedekindReals.sig_forall_dec",
"ClassicalDedekindReals.sig_not_dec",
"FunctionalExtensionality.functional_extensionality_dep"
],
"C198_nonnegative": [
"ClassicalDedekindReals.sig_forall_dec",
"ClassicalDedekindReals.sig_not_dec",
"FunctionalExtensionality.functional_extensionality_dep"
],
"C198_sum_symmetric": [
"ClassicalDedekindReals.sig_forall_dec",
"ClassicalDedekindReals.sig_not_dec",
"FunctionalExtensionality.functional_extensionality_dep"
],
"C199_refuted": [
"ClassicalDedekindReals.sig_forall_dec",
"ClassicalDedekindReals.sig_not_dec",
"FunctionalExtensionality.functional_extensionality_dep"
],
"C19_number_of_observations": [],
"C19_observations_are_distinct_pairs": [],
"C200_spectrum": [
"ClassicalDedekindReals.sig_forall_dec",
"ClassicalDedekindReals.sig_not_dec",
"Classical_Prop.classic",
"FunctionalExtensionality.functional_extensionality_dep"
],
"C200_total": [
"ClassicalDedekindReals.sig_forall_dec",
"ClassicalDedekindReals.sig_not_dec",
"Classical_Prop.classic",
"FunctionalExtensionality.functional_extensionality_dep"
],
"C201_refuted": [
"ClassicalDedekindReals.sig_forall_dec",
"ClassicalDedekindReals.sig_not_dec",
"FunctionalExtensionality.functional_extensionality_dep"
],
"C202_refuted": [
"ClassicalDedekindReals.sig_forall_dec",
"ClassicalDedekindReals.sig_not_dec",
"Classical_Prop.classic",
"FunctionalExtensionality.functional_extensionality_dep"
],
"C203_SM": [
"ClassicalDedekindReals.sig_forall_dec",
"ClassicalDedekindReals.sig_not_dec",
"Classical_Prop.classic",
"FunctionalExtensionality.functional_extensionality_dep"
],
"C203_hyperon": [
"ClassicalDedekindReals.sig_forall_dec",
"FunctionalExtensionality.functional_extensionality_dep"
],
"C203_right_handed": [
"ClassicalDedekindReals.sig_forall_dec",
"FunctionalExtensionality.functional_extensionality_dep"
],
"C203_scalar": [
"ClassicalDedekindReals.sig_forall_dec",
"ClassicalDedekindReals.sig_not_dec",
"Classical_Prop.classic",
"FunctionalExtensionality.functional_extensionality_dep"
],
"C204_amplitude_NP": [
"ClassicalDedekindReals.sig_forall_dec",
"ClassicalDedekindReals.sig_not_dec",
"FunctionalExtensionality.functional_extensionality_dep"
],
"C204_epsprime_NP": [
"ClassicalDedekindReals.sig_forall_dec",
"ClassicalDedekindReals.sig_not_dec",
"FunctionalExtensionality.functional_extensionality_dep"
],
"C204_epsprime_SM": [
"ClassicalDedekindReals.sig_forall_dec",
"ClassicalDedekindReals.sig_not_dec",
"FunctionalExtensionality.functional_extensionality_dep"
],
"C204_fierz": [
"ClassicalDedekindReals.sig_forall_dec",
"FunctionalExtensionality.functional_extensionality_dep"
],
"C204_isospin": [
"ClassicalDedekindReals.sig_forall_dec",
"FunctionalExtensionality.functional_extensionality_dep"
],
"C204_operators": [
"ClassicalDedekindReals.sig_forall_dec",
"FunctionalExtensionality.functional_extensionality_dep"
],
"C204_parameters": [
"ClassicalDedekindReals.sig_forall_dec",
"FunctionalExtensionality.functional_extensionality_dep"
],
"C204_parity": [
"ClassicalDedekindReals.sig_forall_dec",
"FunctionalExtensionality.functional_extensionality_dep"
],
"C204_relations": [
"ClassicalDedekindReals.sig_forall_dec",
"FunctionalExtensionality.functional_extensionality_dep"
],
"C204_sum": [
"ClassicalDedekindReals.sig_forall_dec",
"ClassicalDedekindReals.sig_not_dec",
"FunctionalExtensionality.functional_extensionality_dep"
],
"C205_refuted": [
"ClassicalDedekindReals.sig_forall_dec",
"FunctionalExtensionality.functional_extensionality_dep"
],
"C206_bins": [
"ClassicalDedekindReals.sig_forall_dec",
"ClassicalDedekindReals.sig_not_dec",
"FunctionalExtensionality.functional_extensionality_dep"
],
"C206_bounds": [
"ClassicalDedekindReals.sig_forall_dec",
"ClassicalDedekindReals.sig_not_dec",
"FunctionalExtensionality.functional_extensionality_dep"
],
"C206_dBR": [
"ClassicalDedekindReals.sig_forall_dec",
"ClassicalDedekindReals.sig_not_dec",
"FunctionalExtensionality.functional_extensionality_dep"
],
"C206_dipole_interference": [
"ClassicalDedekindReals.sig_forall_dec",
"ClassicalDedekindReals.sig_not_dec",
"FunctionalExtensionality.functional_extensionality_dep"
],
"C206_fractions": [
"ClassicalDedekindReals.sig_forall_dec",
"ClassicalDedekindReals.sig_not_dec",
"FunctionalExtensionality.functional_extensionality_dep"
],
"C206_helicity_sum": [
"ClassicalDedekindReals.sig_forall_dec",
"ClassicalDedekindReals.sig_not_dec",
"FunctionalExtensionality.functional_extensionality_dep"
],
"C206_lepton_chirality": [
"ClassicalDedekindReals.sig_forall_dec",
"ClassicalDedekindReals.sig_not_dec",
"FunctionalExtensionality.functional_extensionality_dep"
],
"C206_mirror": [
"ClassicalDedekindReals.sig_forall_dec",
"ClassicalDedekindReals.sig_not_dec",
"FunctionalExtensionality.functional_extensionality_dep"
],
"C206_moments": [
"ClassicalDedekindReals.sig_forall_dec",
"ClassicalDedekindReals.sig_not_dec",
"Classical_Prop.classic",
"FunctionalExtensionality.functional_extensionality_dep"
],
"C206_nonneg": [
"ClassicalDedekindReals.sig_forall_dec",
"ClassicalDedekindReals.sig_not_dec",
"FunctionalExtensionality.functional_extensionality_dep"
],
"C206_zero_recoil": [
"ClassicalDedekindReals.sig_forall_dec",
"ClassicalDedekindReals.sig_not_dec",
"FunctionalExtensionality.functional_extensionality_dep"
],
"C207_in_plane_partial": [
"ClassicalDedekindReals.sig_forall_dec",
"ClassicalDedekindReals.sig_not_dec",
"FunctionalExtensionality.functional_extensionality_dep"
],
"C207_real_parts_partial": [
"ClassicalDedekindReals.sig_forall_dec",
"ClassicalDedekindReals.sig_not_dec",
"FunctionalExtensionality.functional_extensionality_dep"
],
"C207_refuted": [
"ClassicalDedekindReals.sig_forall_dec",
"ClassicalDedekindReals.sig_not_dec",
"FunctionalExtensionality.functional_extensionality_dep"
],
"C208_bins": [
"ClassicalDedekindReals.sig_forall_dec",
"ClassicalDedekindReals.sig_not_dec",
"FunctionalExtensionality.functional_extensionality_dep"
],
"C208_bounds": [
"ClassicalDedekindReals.sig_forall_dec",
"ClassicalDedekindReals.sig_not_dec",
"FunctionalExtensionality.functional_extensionality_dep"
],
"C208_cp": [
"ClassicalDedekindReals.sig_forall_dec",
"ClassicalDedekindReals.sig_not_dec",
"FunctionalExtensionality.functional_extensionality_dep"
],
"C208_dipole_interference": [
"ClassicalDedekindReals.sig_forall_dec",
"ClassicalDedekindReals.sig_not_dec",
"FunctionalExtensionality.functional_extensionality_dep"
],
"C208_fractions": [
"ClassicalDedekindReals.sig_forall_dec",
"ClassicalDedekindReals.sig_not_dec",
"FunctionalExtensionality.functional_extensionality_dep"
],
"C208_helicity_sum": [
"ClassicalDedekindReals.sig_forall_dec",
"ClassicalDedekindReals.sig_not_dec",
"FunctionalExtensionality.functional_extensionality_dep"
],
"C208_moments": [
"ClassicalDedekindReals.sig_forall_dec",
"ClassicalDedekindReals.sig_not_dec",
"Classical_Prop.classic",
"FunctionalExtensionality.functional_extensionality_dep"
],
"C208_nonneg": [
"ClassicalDedekindReals.sig_forall_dec",
"ClassicalDedekindReals.sig_not_dec",
"FunctionalExtensionality.functional_extensionality_dep"
],
"C208_zero_recoil": [
"ClassicalDedekindReals.sig_forall_dec",
"ClassicalDedekindReals.sig_not_dec",
"FunctionalExtensionality.functional_extensionality_dep"
],
"C209_bins": [
"ClassicalDedekindReals.sig_forall_dec",
"ClassicalDedekindReals.sig_not_dec",
"Classical_Prop.classic",
"FunctionalExtensionality.functional_extensionality_dep"
],
"C209_partonic": [
"ClassicalDedekindReals.sig_forall_dec",
"ClassicalDedekindReals.sig_not_dec",
"Classical_Prop.classic",
"FunctionalExtensionality.functional_extensionality_dep"
],
"C209_positive": [
"ClassicalDedekindReals.sig_forall_dec",
"ClassicalDedekindReals.sig_not_dec",
"FunctionalExtensionality.functional_extensionality_dep"
],
"C209_ratio": [
"ClassicalDedekindReals.sig_forall_dec",
"ClassicalDedekindReals.sig_not_dec",
"Classical_Prop.classic",
"FunctionalExtensionality.functional_extensionality_dep"
],
"C209_sm": [
"ClassicalDedekindReals.sig_forall_dec",
"ClassicalDedekindReals.sig_not_dec",
"FunctionalExtensionality.functional_extensionality_dep"
],
"C20_cached_predictions_partial": [],
"C20_hash_collision_refuted": [],
"C210_bins": [
"ClassicalDedekindReals.sig_forall_dec",
"ClassicalDedekindReals.sig_not_dec",
"Classical_Prop.classic",
"FunctionalExtensionality.functional_extensionality_dep"
],
"C210_sm": [
"ClassicalDedekindReals.sig_forall_dec",
"ClassicalDedekindReals.sig_not_dec",
"Classical_Prop.classic",
"FunctionalExtensionality.functional_extensionality_dep"
],
"C210_total": [
"ClassicalDedekindReals.sig_forall_dec",
"ClassicalDedekindReals.sig_not_dec",
"Classical_Prop.classic",
"FunctionalExtensionality.functional_extensionality_dep"
],
"C210_transverse_mass": [
"ClassicalDedekindReals.sig_forall_dec",
"ClassicalDedekindReals.sig_not_dec",
"Classical_Prop.classic",
"FunctionalExtensionality.functional_extensionality_dep"
],
"C21_central_values_in_order": [],
"C21_parameter_likelihood_is_sum": [],
"C21_total_is_sum_of_parts": [],
"C22_experimental_covariance_reordered": [],
"C22_missing_observable_raises": [],
"C22_save_load_identity": [],
"C22_sm_covariance_reordered": [],
"C22_sm_single_observable": [],
"C23_cache_discipline": [],
"C24_different_names_do_not_interfere": [],
"C24_own_pseudo_measurement_partial": [],
"C24_pseudo_measurements_do_not_leak": [],
"C24_same_name_refuted": [],
"C25_average_is_product": [],
"C25_order_independent": [],
"C25_single_observable": [],
"C25_unconstrained_observables_drop_out": [],
"C26_brackets": [],
"C26_powers": [],
"C26_zero_error": [],
"C27_plusminus": [],
"C27_zero_error": [],
"C28_partial": [],
"C28_refuted": [],
"C29_limit": [],
"C29_lognormal": [],
"C29_number": [],
"C29_range": [],
"C30_citation_set": [],
"C31_program": [],
"C31_scope": [],
"C31_theory_citations": [],
"C32_reported_dependence_sound": [],
"C33_error_budget": [],
"C33_error_budget_total": [],
"C34_points_all": [],
"C34_points_list": [],
"C34_serial_parallel": [],
"C35_combine_measurements": [],
"C35_keyword_arguments": [],
"C36_same_calls": [],
"C37_delta_neutral": [
"ClassicalDedekindReals.sig_forall_dec",
"ClassicalDedekindReals.sig_not_dec",
"FunctionalExtensionality.functional_extensionality_dep"
],
"C37_mixed": [
"ClassicalDedekindReals.sig_forall_dec",
"ClassicalDedekindReals.sig_not_dec",
"FunctionalExtensionality.functional_extensionality_dep"
],
"C37_same_centre": [
"ClassicalDedekindReals.sig_forall_dec",
"ClassicalDedekindReals.sig_not_dec",
"FunctionalExtensionality.functional_extensionality_dep"
],
"C37_single_and_errors": [
"ClassicalDedekindReals.sig_forall_dec",
"ClassicalDedekindReals.sig_not_dec",
"FunctionalExtensionality.functional_extensionality_dep"
],
"C37_sum": [
"ClassicalDedekindReals.sig_forall_dec",
"ClassicalDedekindReals.sig_not_dec",
"FunctionalExtensionality.functional_extensionality_dep"
],
"C37_sum_with_delta": [
"ClassicalDedekindReals.sig_forall_dec",
"ClassicalDedekindReals.sig_not_dec",
"FunctionalExtensionality.functional_extensionality_dep"
],
"C38_mixed": [
"ClassicalDedekindReals.sig_forall_dec",
"ClassicalDedekindReals.sig_not_dec",
"FunctionalExtensionality.functional_extensionality_dep"
],
"C38_product_of_densities": [
"ClassicalDedekindReals.sig_forall_dec",
"ClassicalDedekindReals.sig_not_dec",
"Classical_Prop.classic",
"FunctionalExtensionality.functional_extensionality_dep"
],
"C38_weighted_average": [
"ClassicalDedekindReals.sig_forall_dec",
"ClassicalDedekindReals.sig_not_dec",
"Classical_Prop.classic",
"FunctionalExtensionality.functional_extensionality_dep"
],
"C39_delta_wins": [
"ClassicalDedekindReals.sig_forall_dec",
"ClassicalDedekindReals.sig_not_dec",
"FunctionalExtensionality.functional_extensionality_dep"
],
"C40_accepted_are_documented": [
"ClassicalDedekindReals.sig_forall_dec",
"FunctionalExtensionality.functional_extensionality_dep"
],
"C40_central_value_in_support": [
"ClassicalDedekindReals.sig_forall_dec",
"ClassicalDedekindReals.sig_not_dec",
"Classical_Prop.classic",
"FunctionalExtensionality.functional_extensionality_dep"
],
"C40_constructors": [
"ClassicalDedekindReals.sig_forall_dec",
"FunctionalExtensionality.functional_extensionality_dep"
],
"C41_multivariate": [
"ClassicalDedekindReals.sig_forall_dec",
"ClassicalDedekindReals.sig_not_dec",
"ClassicalEpsilon.constructive_indefinite_description",
"Classical_Prop.classic",
"FunctionalExtensionality.functional_extensionality_dep"
],
"C41_relative_logpdf_partial": [
"ClassicalDedekindReals.sig_forall_dec",
"ClassicalDedekindReals.sig_not_dec",
"Classical_Prop.classic",
"FunctionalExtensionality.functional_extensionality_dep"
],
"C42_logpdf": [
"ClassicalDedekindReals.sig_forall_dec",
"ClassicalDedekindReals.sig_not_dec",
"ClassicalEpsilon.constructive_indefinite_description",
"Classical_Prop.classic",
"FunctionalExtensionality.functional_extensionality_dep"
],
"C42_positions": [],
"C42_positive": [
"ClassicalDedekindReals.sig_forall_dec",
"ClassicalEpsilon.constructive_indefinite_description",
"Classical_Prop.classic",
"FunctionalExtensionality.functional_extensionality_dep"
],
"C42_range": [
"ClassicalDedekindReals.sig_forall_dec",
"ClassicalDedekindReals.sig_not_dec",
"ClassicalEpsilon.constructive_indefinite_description",
"Classical_Prop.classic",
"FunctionalExtensionality.functional_extensionality_dep"
],
"C42_reduce": [
"ClassicalDedekindReals.sig_forall_dec",
"ClassicalDedekindReals.sig_not_dec",
"ClassicalEpsilon.constructive_indefinite_description",
"Classical_Prop.classic",
"FunctionalExtensionality.functional_extensionality_dep"
],
"C43_density": [
"ClassicalDedekindReals.sig_forall_dec",
"ClassicalDedekindReals.sig_not_dec",
"ClassicalEpsilon.constructive_indefinite_description",
"Classical_Prop.classic",
"FunctionalExtensionality.functional_extensionality_dep"
],
"C43_mode": [
"ClassicalDedekindReals.sig_forall_dec",
"ClassicalDedekindReals.sig_not_dec",
"ClassicalEpsilon.constructive_indefinite_description",
"Classical_Prop.classic",
"FunctionalExtensionality.functional_extensionality_dep"
],
"C44_all_classes": [],
"C44_back_to_class": [],
"C44_flavio_classes": [],
"C44_name_of_class": [],
"C45_central_outside": [
"ClassicalDedekindReals.sig_forall_dec",
"FunctionalExtensionality.functional_extensionality_dep"
],
"C45_default_central_is_mode": [
"ClassicalDedekindReals.sig_forall_dec",
"FunctionalExtensionality.functional_extensionality_dep"
],
"C45_probability_distribution": [
"ClassicalDedekindReals.sig_forall_dec",
"ClassicalDedekindReals.sig_not_dec",
"Classical_Prop.classic",
"FunctionalExtensionality.functional_extensionality_dep"
],
"C46_accepted": [
"ClassicalDedekindReals.sig_forall_dec",
"FunctionalExtensionality.functional_extensionality_dep"
],
"C46_number": [
"ClassicalDedekindReals.sig_forall_dec",
"FunctionalExtensionality.functional_extensionality_dep"
],
"C46_symmetric": [
"ClassicalDedekindReals.sig_forall_dec",
"FunctionalExtensionality.functional_extensionality_dep"
],
"C46_triangle": [
"ClassicalDedekindReals.sig_forall_dec",
"FunctionalExtensionality.functional_extensionality_dep"
],
"C47_ends": [
"ClassicalDedekindReals.sig_forall_dec",
"FunctionalExtensionality.functional_extensionality_dep"
],
"C47_requested_flavours": [
"ClassicalDedekindReals.sig_forall_dec",
"FunctionalExtensionality.functional_extensionality_dep"
],
"C47_steps": [
"ClassicalDedekindReals.sig_forall_dec",
"FunctionalExtensionality.functional_extensionality_dep"
],
"C48_constant_configuration": [
"ClassicalDedekindReals.sig_forall_dec",
"FunctionalExtensionality.functional_extensionality_dep"
],
"C48_some_configuration": [
"ClassicalDedekindReals.sig_forall_dec",
"FunctionalExtensionality.functional_extensionality_dep"
],
"C48_stale_refuted": [
"ClassicalDedekindReals.sig_forall_dec",
"FunctionalExtensionality.functional_extensionality_dep"
],
"C49_deduplicate": [],
"C50_change_and_change_back_refuted": [],
"C50_parameter_difference_partial": [],
"C51_empty_parameter_list_refuted": [],
"C51_fast_likelihood_partial": [],
"C51_likelihood_dump_refuted": [],
"C51_measurement_likelihood_partial": [],
"C51_no_nuisance_parameters_refuted": [],
"C51_parameter_likelihood_partial": [],
"C51_pseudo_flag_refuted": [],
"C52_angles": [
"ClassicalDedekindReals.sig_forall_dec",
"ClassicalDedekindReals.sig_not_dec",
"Classical_Prop.classic",
"FunctionalExtensionality.functional_extensionality_dep"
],
"C52_exchange": [
"ClassicalDedekindReals.sig_forall_dec",
"FunctionalExtensionality.functional_extensionality_dep"
],
"C52_names": [
"ClassicalDedekindReals.sig_forall_dec"
],
"C52_unitarity": [
"ClassicalDedekindReals.sig_forall_dec"
],
"C52_value": [
"ClassicalDedekindReals.sig_forall_dec"
],
"C53_ckm": [
"ClassicalDedekindReals.sig_forall_dec"
],
"C53_coefficients": [
"ClassicalDedekindReals.sig_forall_dec",
"FunctionalExtensionality.functional_extensionality_dep"
],
"C53_parameters": [
"ClassicalDedekindReals.sig_forall_dec",
"FunctionalExtensionality.functional_extensionality_dep"
],
"C54_add_dict": [
"ClassicalDedekindReals.sig_forall_dec",
"FunctionalExtensionality.functional_extensionality_dep"
],
"C54_add_none": [
"ClassicalDedekindReals.sig_forall_dec"
],
"C54_add_order": [
"ClassicalDedekindReals.sig_forall_dec",
"FunctionalExtensionality.functional_extensionality_dep"
],
"C54_masses": [
"ClassicalDedekindReals.sig_forall_dec",
"FunctionalExtensionality.functional_extensionality_dep"
],
"C54_symmetric": [
"ClassicalDedekindReals.sig_forall_dec",
"FunctionalExtensionality.functional_extensionality_dep"
],
"C54_value": [
"ClassicalDedekindReals.sig_forall_dec",
"FunctionalExtensionality.functional_extensionality_dep"
],
"C55_D_system": [
"ClassicalDedekindReals.sig_forall_dec",
"ClassicalDedekindReals.sig_not_dec",
"Classical_Prop.classic",
"FunctionalExtensionality.functional_extensionality_dep"
],
"C55_asymmetry": [
"ClassicalDedekindReals.sig_forall_dec",
"ClassicalDedekindReals.sig_not_dec",
"Classical_Prop.classic",
"FunctionalExtensionality.functional_extensionality_dep"
],
"C55_bounds": [
"ClassicalDedekindReals.sig_forall_dec",
"ClassicalDedekindReals.sig_not_dec",
"FunctionalExtensionality.functional_extensionality_dep"
],
"C55_conjugation": [
"ClassicalDedekindReals.sig_forall_dec",
"ClassicalDedekindReals.sig_not_dec",
"Classical_Prop.classic",
"FunctionalExtensionality.functional_extensionality_dep"
],
"C55_differences": [
"ClassicalDedekindReals.sig_forall_dec",
"ClassicalDedekindReals.sig_not_dec",
"FunctionalExtensionality.functional_extensionality_dep"
],
"C55_eigenstates": [
"ClassicalDedekindReals.sig_forall_dec",
"ClassicalDedekindReals.sig_not_dec",
"FunctionalExtensionality.functional_extensionality_dep"
],
"C55_quark_phases": [
"ClassicalDedekindReals.sig_forall_dec",
"ClassicalDedekindReals.sig_not_dec",
"Classical_Prop.classic",
"FunctionalExtensionality.functional_extensionality_dep"
],
"C55_rephasing": [
"ClassicalDedekindReals.sig_forall_dec",
"ClassicalDedekindReals.sig_not_dec",
"Classical_Prop.classic",
"FunctionalExtensionality.functional_extensionality_dep"
],
"C55_unitarity_triangle": [
"ClassicalDedekindReals.sig_forall_dec",
"ClassicalDedekindReals.sig_not_dec",
"Classical_Prop.classic",
"FunctionalExtensionality.functional_extensionality_dep"
],
"C56_AFB": [
"ClassicalDedekindReals.sig_forall_dec",
"ClassicalDedekindReals.sig_not_dec",
"FunctionalExtensionality.functional_extensionality_dep"
],
"C56_FL": [
"ClassicalDedekindReals.sig_forall_dec",
"ClassicalDedekindReals.sig_not_dec",
"FunctionalExtensionality.functional_extensionality_dep"
],
"C56_FL_amplitudes": [
"ClassicalDedekindReals.sig_forall_dec",
"ClassicalDedekindReals.sig_not_dec",
"FunctionalExtensionality.functional_extensionality_dep"
],
"C56_distribution": [
"ClassicalDedekindReals.sig_forall_dec",
"ClassicalDedekindReals.sig_not_dec",
"FunctionalExtensionality.functional_extensionality_dep"
],
"C56_distribution_positive": [
"ClassicalDedekindReals.sig_forall_dec",
"ClassicalDedekindReals.sig_not_dec",
"FunctionalExtensionality.functional_extensionality_dep"
],
"C56_rate_asymmetry": [
"ClassicalDedekindReals.sig_forall_dec",
"ClassicalDedekindReals.sig_not_dec",
"FunctionalExtensionality.functional_extensionality_dep"
],
"C56_rate_positive": [
"ClassicalDedekindReals.sig_forall_dec",
"ClassicalDedekindReals.sig_not_dec",
"FunctionalExtensionality.functional_extensionality_dep"
],
"C56_reconstruct": [
"ClassicalDedekindReals.sig_forall_dec",
"FunctionalExtensionality.functional_extensionality_dep"
],
"C57_first_success": [
"ClassicalDedekindReals.sig_forall_dec",
"FunctionalExtensionality.functional_extensionality_dep"
],
"C57_maximize": [
"ClassicalDedekindReals.sig_forall_dec",
"FunctionalExtensionality.functional_extensionality_dep"
],
"C57_no_success": [
"ClassicalDedekindReals.sig_forall_dec",
"FunctionalExtensionality.functional_extensionality_dep"
],
"C57_value": [
"ClassicalDedekindReals.sig_forall_dec",
"FunctionalExtensionality.functional_extensionality_dep"
],
"C58_subclass_registry_refuted": [],
"C59_shared_distribution_object_refuted": [],
"C60_duplicate_name_refuted": [],
"C61_errors_rightleft": [],
"C62_saved_object_loads_refuted": [],
"C63_list_format_of_dict_refuted": [],
"C64_self_redefinition_refuted": [],
"C65_implementation_of_other_quantity_refuted": [],
"C66_surplus_arguments_refuted": [],
"C67_include_list_refuted": [],
"C68_cache_ignores_configuration_refuted": [],
"C69_default_parameters_refuted": [],
"C70_correlation_warning_counts": [],
"C71_single_observable_from_larger_file_refuted": [],
"C72_refuted": [],
"C73_all_reads_reported_refuted": [],
"C74_conflicting_arguments_refuted": [],
"C75_dict_observables_refuted": [],
"C76_asymmetric_normal": [
"ClassicalDedekindReals.sig_forall_dec",
"ClassicalDedekindReals.sig_not_dec",
"Classical_Prop.classic",
"FunctionalExtensionality.functional_extensionality_dep"
],
"C77_gamma_upper_limit": [
"ClassicalDedekindReals.sig_forall_dec",
"FunctionalExtensionality.functional_extensionality_dep"
],
"C77_gaussian_upper_limit": [
"ClassicalDedekindReals.sig_forall_dec",
"FunctionalExtensionality.functional_extensionality_dep"
],
"C78_counts": [
"ClassicalDedekindReals.sig_forall_dec",
"FunctionalExtensionality.functional_extensionality_dep"
],
"C78_wrong_counts_rejected": [
"ClassicalDedekindReals.sig_forall_dec",
"FunctionalExtensionality.functional_extensionality_dep"
],
"C79_gamma_upper_limit_counts_refuted": [
"ClassicalDedekindReals.sig_forall_dec",
"FunctionalExtensionality.functional_extensionality_dep"
],
"C80_negative_lognormal_combination_refuted": [
"ClassicalDedekindReals.sig_forall_dec",
"ClassicalDedekindReals.sig_not_dec",
"Classical_Prop.classic",
"FunctionalExtensionality.functional_extensionality_dep"
],
"C80_negative_lognormal_support_refuted": [
"ClassicalDedekindReals.sig_forall_dec",
"ClassicalDedekindReals.sig_not_dec",
"Classical_Prop.classic",
"FunctionalExtensionality.functional_extensionality_dep"
],
"C81_lognormal_errors": [
"ClassicalDedekindReals.sig_forall_dec",
"ClassicalDedekindReals.sig_not_dec",
"Classical_Prop.classic",
"FunctionalExtensionality.functional_extensionality_dep"
],
"C82_unchecked_ranges_refuted": [
"ClassicalDedekindReals.sig_forall_dec",
"ClassicalDedekindReals.sig_not_dec",
"Classical_Prop.classic",
"FunctionalExtensionality.functional_extensionality_dep"
],
"C83_dictionary_roundtrip_partial": [
"ClassicalDedekindReals.sig_forall_dec",
"FunctionalExtensionality.functional_extensionality_dep"
],
"C83_general_gamma_refuted": [
"ClassicalDedekindReals.sig_forall_dec",
"ClassicalDedekindReals.sig_not_dec",
"FunctionalExtensionality.functional_extensionality_dep"
],
"C83_kernel_refuted": [
"ClassicalDedekindReals.sig_forall_dec",
"FunctionalExtensionality.functional_extensionality_dep"
],
"C83_wrong_arguments_rejected": [
"ClassicalDedekindReals.sig_forall_dec",
"FunctionalExtensionality.functional_extensionality_dep"
],
"C84_cdf_is_not_the_integral_refuted": [
"ClassicalDedekindReals.sig_forall_dec",
"ClassicalDedekindReals.sig_not_dec",
"Classical_Prop.classic",
"FunctionalExtensionality.functional_extensionality_dep"
],
"C85_error_ranges": [
"ClassicalDedekindReals.sig_forall_dec",
"FunctionalExtensionality.functional_extensionality_dep"
],
"C86_combination": [
"ClassicalDedekindReals.sig_forall_dec",
"ClassicalDedekindReals.sig_not_dec",
"Classical_Prop.classic",
"FunctionalExtensionality.functional_extensionality_dep"
],
"C86_combine_distributions": [
"ClassicalDedekindReals.sig_forall_dec",
"ClassicalDedekindReals.sig_not_dec",
"Classical_Prop.classic",
"FunctionalExtensionality.functional_extensionality_dep"
],
"C86_common_support_exists": [
"ClassicalDedekindReals.sig_forall_dec",
"FunctionalExtensionality.functional_extensionality_dep"
],
"C86_no_overlap": [
"ClassicalDedekindReals.sig_forall_dec",
"ClassicalDedekindReals.sig_not_dec",
"Classical_Prop.classic",
"FunctionalExtensionality.functional_extensionality_dep"
],
"C87_convolution": [
"ClassicalDedekindReals.sig_forall_dec",
"ClassicalDedekindReals.sig_not_dec",
"Classical_Prop.classic",
"FunctionalExtensionality.functional_extensionality_dep"
],
"C87_different_centres": [
"ClassicalDedekindReals.sig_forall_dec",
"ClassicalDedekindReals.sig_not_dec",
"Classical_Prop.classic",
"FunctionalExtensionality.functional_extensionality_dep"
],
"C88_conversion_to_table": [
"ClassicalDedekindReals.sig_forall_dec",
"ClassicalDedekindReals.sig_not_dec",
"Classical_Prop.classic",
"FunctionalExtensionality.functional_extensionality_dep"
],
"C89_only_last_density_refuted": [
"ClassicalDedekindReals.sig_forall_dec",
"FunctionalExtensionality.functional_extensionality_dep"
],
"C90_loading_adds_entries_in_order": [],
"C91_arbitrary_objects_refuted": [],
"C91_names_coincide_refuted": [],
"C92_correlation_refuted": [
"ClassicalDedekindReals.sig_forall_dec",
"FunctionalExtensionality.functional_extensionality_dep"
],
"C93_loaded_as_written": [
"ClassicalDedekindReals.sig_forall_dec",
"ClassicalDedekindReals.sig_not_dec",
"FunctionalExtensionality.functional_extensionality_dep"
],
"C93_new_format": [
"ClassicalDedekindReals.sig_forall_dec",
"ClassicalDedekindReals.sig_not_dec",
"FunctionalExtensionality.functional_extensionality_dep"
],
"C93_unambiguous": [
"ClassicalDedekindReals.sig_forall_dec",
"ClassicalDedekindReals.sig_not_dec",
"FunctionalExtensionality.functional_extensionality_dep"
],
"C94_failed_load_refuted": [
"ClassicalDedekindReals.sig_forall_dec",
"ClassicalDedekindReals.sig_not_dec",
"FunctionalExtensionality.functional_extensionality_dep"
],
"C95_correlated_parameters": [
"ClassicalDedekindReals.sig_forall_dec",
"ClassicalDedekindReals.sig_not_dec",
"FunctionalExtensionality.functional_extensionality_dep"
],
"C96_names_and_numbers": [
"ClassicalDedekindReals.sig_forall_dec",
"FunctionalExtensionality.functional_extensionality_dep"
],
"C96_particle_data": [
"ClassicalDedekindReals.sig_forall_dec",
"FunctionalExtensionality.functional_extensionality_dep"
],
"C97_lifetime_sides_refuted": [
"ClassicalDedekindReals.sig_forall_dec",
"FunctionalExtensionality.functional_extensionality_dep"
],
"C98_requested_flavours_ignored": [
"ClassicalDedekindReals.sig_forall_dec",
"FunctionalExtensionality.functional_extensionality_dep"
],
"C98_requested_flavours_refuted": [
"ClassicalDedekindReals.sig_forall_dec",
"FunctionalExtensionality.functional_extensionality_dep"
],
"C99_equal_scales_copied": [
"ClassicalDedekindReals.sig_forall_dec",
"FunctionalExtensionality.functional_extensionality_dep"
],
"C99_shared_result_refuted": [
"ClassicalDedekindReals.sig_forall_dec",
"FunctionalExtensionality.functional_extensionality_dep"
]
}