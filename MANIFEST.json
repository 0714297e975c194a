{
 "claims": [
  {
   "property": "C01",
   "status": "proved",
   "theorems": [
    "C01_accepted_calls",
    "C01_rejected_calls",
    "C01_constructed"
   ],
   "note": ""
  },
  {
   "property": "C02",
   "status": "proved",
   "theorems": [
    "C02_history_consistent",
    "C02_normal_return_consistent"
   ],
   "note": ""
  },
  {
   "property": "C03",
   "status": "proved",
   "theorems": [
    "C03_failed_assignment",
    "C03_restored",
    "C03_truncated_stack",
    "C03_momentum_ignored"
   ],
   "note": ""
  },
  {
   "property": "C04",
   "status": "proved",
   "theorems": [
    "C04_permitivitty_inverts_refl",
    "C04_refl_inverts_permitivitty",
    "C04_refl_antisymmetric",
    "C04_refl_scale_invariant"
   ],
   "note": ""
  },
  {
   "property": "C05",
   "status": "proved",
   "theorems": [
    "C05_round_trip",
    "C05_assignment_round_trip"
   ],
   "note": ""
  },
  {
   "property": "C06",
   "status": "proved",
   "theorems": [
    "C06_rebuilt"
   ],
   "note": ""
  },
  {
   "property": "C07",
   "status": "proved",
   "theorems": [
    "C07_refl_coef_qs_is_parratt"
   ],
   "note": ""
  },
  {
   "property": "C08",
   "status": "proved",
   "theorems": [
    "C08_refl_coef_is_fresnel_parratt"
   ],
   "note": ""
  },
  {
   "property": "C09",
   "status": "proved",
   "theorems": [
    "C09_zero_momentum_sees_only_ends",
    "C09_pdm_ignores_inner_layers"
   ],
   "note": ""
  },
  {
   "property": "C10",
   "status": "proved",
   "theorems": [
    "C10_zero_thickness_layer_invisible",
    "C10_split_layer_invisible"
   ],
   "note": ""
  },
  {
   "property": "C11",
   "status": "proved",
   "theorems": [
    "C11_refl_coef_branch_independent",
    "C11_zero_thickness_layer_invisible",
    "C11_split_layer_invisible"
   ],
   "note": ""
  },
  {
   "property": "C12",
   "status": "proved",
   "theorems": [
    "C12_bulk_refl_independent_of_q",
    "C12_bulk_trans_is_one_plus_refl"
   ],
   "note": ""
  },
  {
   "property": "C13",
   "status": "proved",
   "theorems": [
    "C13_top_interface_dominates",
    "C13_limit_is_top_interface"
   ],
   "note": ""
  },
  {
   "property": "C14",
   "status": "proved",
   "theorems": [
    "C14_lossy_substrate_absorbs",
    "C14_passive_stack",
    "C14_average_absorbs"
   ],
   "note": ""
  },
  {
   "property": "C15",
   "status": "proved",
   "theorems": [
    "C15_conj_refl_trans_qs",
    "C15_conj_averages",
    "C15_conj_fdm_eff_pol",
    "C15_conj_pdm_eff_pol",
    "C15_lossless_is_real"
   ],
   "note": ""
  },
  {
   "property": "C16",
   "status": "proved",
   "theorems": [
    "C16_det_transfer_matrix",
    "C16_reciprocity",
    "C16_det_transfer_matrix_qs",
    "C16_reciprocity_qs"
   ],
   "note": ""
  },
  {
   "property": "C17",
   "status": "proved",
   "theorems": [
    "C17_units_refl_trans_qs",
    "C17_units_far_field",
    "C17_units_averages"
   ],
   "note": ""
  },
  {
   "property": "C18",
   "status": "proved",
   "theorems": [
    "C18_far_field_errors",
    "C18_call_nu_overrides"
   ],
   "note": ""
  },
  {
   "property": "C19",
   "status": "proved",
   "theorems": [
    "C19_wavenumber_irrelevant",
    "C19_missing_wavenumber_is_one",
    "C19_wavenumber_matters_for_explicit_q"
   ],
   "note": ""
  },
  {
   "property": "C20",
   "status": "proved",
   "theorems": [
    "C20_trans_is_one_plus_refl",
    "C20_angle_sign_irrelevant",
    "C20_normal_incidence",
    "C20_energy_conservation",
    "C20_total_reflection"
   ],
   "note": ""
  },
  {
   "property": "C21",
   "status": "proved",
   "theorems": [
    "C21_quasistatic_is_zero_wavenumber"
   ],
   "note": ""
  },
  {
   "property": "C22",
   "status": "proved",
   "theorems": [
    "C22_angle_to_momentum",
    "C22_grazing_incidence_not_total",
    "C22_pi_phase_layer_invisible",
    "C22_half_wave_film_not_invisible"
   ],
   "note": ""
  },
  {
   "property": "C23",
   "status": "proved",
   "theorems": [
    "C23_bulk_averages_exact"
   ],
   "note": ""
  },
  {
   "property": "C24",
   "status": "proved",
   "theorems": [
    "C24_average_in_convex_hull",
    "C24_average_is_scaled_field"
   ],
   "note": ""
  },
  {
   "property": "C25",
   "status": "proved",
   "theorems": [
    "C25_methods_agree",
    "C25_methods_agree_demodulated"
   ],
   "note": ""
  },
  {
   "property": "C26",
   "status": "proved",
   "theorems": [
    "C26_inverse_after_eff_pol",
    "C26_eff_pol_after_inverse",
    "C26_injective"
   ],
   "note": ""
  },
  {
   "property": "C27",
   "status": "proved",
   "theorems": [
    "C27_inverse_after_eff_pol",
    "C27_eff_pol_after_inverse"
   ],
   "note": ""
  },
  {
   "property": "C28",
   "status": "proved",
   "theorems": [
    "C28_exact_remainder",
    "C28_error_bound",
    "C28_converges",
    "C28_order_one_ignores_sample",
    "C28_order_zero"
   ],
   "note": ""
  },
  {
   "property": "C29",
   "status": "proved",
   "theorems": [
    "C29_exact_remainder",
    "C29_converges_to_normalised",
    "C29_taylor_of_eff_pol_n_refuted"
   ],
   "note": ""
  },
  {
   "property": "C30",
   "status": "proved",
   "theorems": [
    "C30_fdm_sound",
    "C30_pdm_sound"
   ],
   "note": ""
  },
  {
   "property": "C31",
   "status": "proved",
   "theorems": [
    "C31_fdm_complete",
    "C31_pdm_complete",
    "C31_fdm_recovers",
    "C31_pdm_recovers",
    "C31_solution_lost_refuted"
   ],
   "note": ""
  },
  {
   "property": "C32",
   "status": "proved",
   "theorems": [
    "C32_fdm_layout",
    "C32_pdm_layout"
   ],
   "note": ""
  },
  {
   "property": "C33",
   "status": "proved",
   "theorems": [
    "C33_default_method",
    "C33_eff_pol_raises",
    "C33_taylor_dispatch"
   ],
   "note": ""
  },
  {
   "property": "C34",
   "status": "proved",
   "theorems": [
    "C34_demod",
    "C34_sample_averages",
    "C34_fdm",
    "C34_pdm"
   ],
   "note": ""
  },
  {
   "property": "C35",
   "status": "proved",
   "theorems": [
    "C35_material",
    "C35_both_raise",
    "C35_conductor_limit"
   ],
   "note": ""
  },
  {
   "property": "C36",
   "status": "proved",
   "theorems": [
    "C36_linear",
    "C36_zero_amplitude",
    "C36_constants"
   ],
   "note": ""
  },
  {
   "property": "C37",
   "status": "proved",
   "theorems": [
    "C37_polynomials_exact",
    "C37_high_harmonics_vanish"
   ],
   "note": ""
  },
  {
   "property": "C38",
   "status": "proved",
   "theorems": [
    "C38_aliasing",
    "C38_default_aliases_mean"
   ],
   "note": ""
  },
  {
   "property": "C39",
   "status": "proved",
   "theorems": [
    "C39_negative_harmonic",
    "C39_conjugation",
    "C39_real",
    "C39_amplitude_sign"
   ],
   "note": ""
  },
  {
   "property": "C40",
   "status": "proved",
   "theorems": [
    "C40_converges_to_fourier_integral"
   ],
   "note": ""
  },
  {
   "property": "C41",
   "status": "proved",
   "theorems": [
    "C41_fdm_tapping_range",
    "C41_pdm_tapping_range",
    "C41_ends_are_reached",
    "C41_no_tapping"
   ],
   "note": ""
  },
  {
   "property": "C42",
   "status": "proved",
   "theorems": [
    "C42_fdm_units",
    "C42_pdm_units"
   ],
   "note": ""
  },
  {
   "property": "C43",
   "status": "proved",
   "theorems": [
    "C43_no_sample",
    "C43_no_harmonics",
    "C43_multi_method_refuted"
   ],
   "note": ""
  },
  {
   "property": "C44",
   "status": "proved",
   "theorems": [
    "C44_decays_to_bare_tip",
    "C44_monotonic"
   ],
   "note": ""
  },
  {
   "property": "C45",
   "status": "proved",
   "theorems": [
    "C45_geometry_zero",
    "C45_geometry_grows",
    "C45_far_limit_is_half"
   ],
   "note": ""
  },
  {
   "property": "C46",
   "status": "proved",
   "theorems": [
    "C46_lorentz_raises",
    "C46_lorentz_value",
    "C46_drude_value",
    "C46_drude_static",
    "C46_passive",
    "C46_passive_drude",
    "C46_reality",
    "C46_high_frequency",
    "C46_absorbing_bulk"
   ],
   "note": ""
  },
  {
   "property": "C47",
   "status": "proved",
   "theorems": [
    "C47_qs_broadcast",
    "C47_far_broadcast",
    "C47_far_rejected",
    "C47_integrals_broadcast"
   ],
   "note": ""
  },
  {
   "property": "C48",
   "status": "proved",
   "theorems": [
    "C48_demod_broadcast",
    "C48_fdm_eff_pol_broadcast",
    "C48_fdm_eff_pol_n_broadcast",
    "C48_fdm_taylor_broadcast",
    "C48_fdm_rejected",
    "C48_pdm_broadcast",
    "C48_pdm_rejected",
    "C48_inverse_broadcast"
   ],
   "note": ""
  },
  {
   "property": "C49",
   "status": "proved",
   "theorems": [
    "C49_environment_axis",
    "C49_aligned",
    "C49_two_environments_refuted"
   ],
   "note": ""
  },
  {
   "property": "C50",
   "status": "proved",
   "theorems": [
    "C50_bulk_agrees",
    "C50_multilayer_series_refuted"
   ],
   "note": ""
  },
  {
   "property": "C51",
   "status": "proved",
   "theorems": [
    "C51_permittivity",
    "C51_coefficient",
    "C51_rejected"
   ],
   "note": ""
  },
  {
   "property": "C52",
   "status": "proved",
   "theorems": [
    "C52_safe_region",
    "C52_thick_stack_nan",
    "C52_graded_film_safe",
    "C52_thick_film_reflects_nothing_refuted",
    "C52_thick_film_nan_refuted"
   ],
   "note": ""
  },
  {
   "property": "C53",
   "status": "proved",
   "theorems": [
    "C53_one_node_spoils_average"
   ],
   "note": ""
  },
  {
   "property": "C54",
   "status": "proved",
   "theorems": [
    "C54_maxwell"
   ],
   "note": ""
  },
  {
   "property": "C55",
   "status": "proved",
   "theorems": [
    "C55_electrostatic"
   ],
   "note": ""
  },
  {
   "property": "C56",
   "status": "proved",
   "theorems": [
    "C56_energy_balance",
    "C56_reflects_at_most_everything"
   ],
   "note": ""
  },
  {
   "property": "C57",
   "status": "proved",
   "theorems": [
    "C57_evanescent_absorption"
   ],
   "note": ""
  },
  {
   "property": "C58",
   "status": "proved",
   "theorems": [
    "C58_documented_rule_exists",
    "C58_documented_rule_unique",
    "C58_documented_rule_exact"
   ],
   "note": ""
  },
  {
   "property": "C59",
   "status": "proved",
   "theorems": [
    "C59_surf_pot_and_field_converges",
    "C59_average_converges",
    "C59_image_converges",
    "C59_lossy_substrate_converges"
   ],
   "note": ""
  },
  {
   "property": "C60",
   "status": "proved",
   "theorems": [
    "C60_q_ave_converges",
    "C60_multi_converges",
    "C60_harmonics_converge",
    "C60_taylor_converges"
   ],
   "note": ""
  },
  {
   "property": "C61",
   "status": "proved",
   "theorems": [
    "C61_image_charge",
    "C61_one_sign",
    "C61_not_at_surface_refuted"
   ],
   "note": ""
  },
  {
   "property": "C62",
   "status": "proved",
   "theorems": [
    "C62_graded_stack",
    "C62_graded_average",
    "C62_high_charge"
   ],
   "note": ""
  },
  {
   "property": "C63",
   "status": "proved",
   "theorems": [
    "C63_pdm_absorbs",
    "C63_pdm_passive_stack",
    "C63_fdm_absorbs",
    "C63_far_resonance_refuted"
   ],
   "note": ""
  },
  {
   "property": "C64",
   "status": "proved",
   "theorems": [
    "C64_small_amplitude",
    "C64_expansion_unique",
    "C64_fdm_bulk",
    "C64_pdm",
    "C64_pdm_first_harmonic"
   ],
   "note": ""
  },
  {
   "property": "C65",
   "status": "proved",
   "theorems": [
    "C65_near_solution",
    "C65_fdm_consistent",
    "C65_pdm_consistent",
    "C65_permittivity",
    "C65_lossless_lost_refuted"
   ],
   "note": ""
  },
  {
   "property": "C66",
   "status": "proved",
   "theorems": [
    "C66_fdm_round_trip",
    "C66_pdm_round_trip"
   ],
   "note": ""
  },
  {
   "property": "C67",
   "status": "proved",
   "theorems": [
    "C67_opaque_layer_hides",
    "C67_transparent_layer_periodic"
   ],
   "note": ""
  },
  {
   "property": "C68",
   "status": "proved",
   "theorems": [
    "C68_opaque_layer_nan_refuted",
    "C68_safe_region"
   ],
   "note": ""
  },
  {
   "property": "C69",
   "status": "proved",
   "theorems": [
    "C69_pdm_contrast",
    "C69_pdm_approach",
    "C69_pdm_permittivity",
    "C69_fdm_contrast",
    "C69_fdm_approach",
    "C69_fdm_permittivity",
    "C69_unique_permittivity"
   ],
   "note": ""
  },
  {
   "property": "C70",
   "status": "proved",
   "theorems": [
    "C70_pdm_self_consistent",
    "C70_pdm_rounds",
    "C70_pdm_taylor_rounds",
    "C70_fdm_self_consistent",
    "C70_fdm_rounds",
    "C70_fdm_taylor_rounds",
    "C70_fdm_lengths"
   ],
   "note": ""
  },
  {
   "property": "C71",
   "status": "proved",
   "theorems": [
    "C71_fresnel_angles",
    "C71_guide_formulas_swapped_refuted",
    "C71_brewster",
    "C71_brewster_angle",
    "C71_dense_environment_no_brewster",
    "C71_surface_polariton",
    "C71_guide_number_refuted"
   ],
   "note": ""
  },
  {
   "property": "C72",
   "status": "proved",
   "theorems": [
    "C72_poles_are_modes",
    "C72_qs_poles_are_modes",
    "C72_propagating_finite",
    "C72_evanescent_finite"
   ],
   "note": ""
  },
  {
   "property": "C73",
   "status": "proved",
   "theorems": [
    "C73_demod_error",
    "C73_exact_arithmetic",
    "C73_noise_floor",
    "C73_constant_noise_refuted"
   ],
   "note": ""
  },
  {
   "property": "C74",
   "status": "proved",
   "theorems": [
    "C74_fdm_eff_pol",
    "C74_fdm_eff_pol_n",
    "C74_fdm_taylor",
    "C74_pdm_eff_pol",
    "C74_pdm_eff_pol_n",
    "C74_pdm_taylor",
    "C74_contrast",
    "C74_digits",
    "C74_relative_error_refuted"
   ],
   "note": ""
  },
  {
   "property": "C75",
   "status": "proved",
   "theorems": [
    "C75_refl_coef_qs",
    "C75_trans_coef_qs",
    "C75_above_surf",
    "C75_surf_pot_and_field",
    "C75_image_depth_and_charge",
    "C75_lorentz",
    "C75_drude",
    "C75_fdm_round_trip",
    "C75_pdm_round_trip"
   ],
   "note": ""
  },
  {
   "property": "C76",
   "status": "proved",
   "theorems": [
    "C76_single",
    "C76_bulk",
    "C76_bulk_relative_refuted",
    "C76_single_vs_transfer"
   ],
   "note": ""
  },
  {
   "property": "C77",
   "status": "proved",
   "theorems": [
    "C77_refl_coef",
    "C77_trans_coef",
    "C77_half_digits",
    "C77_light_line_refuted"
   ],
   "note": ""
  },
  {
   "property": "C78",
   "status": "proved",
   "theorems": [
    "C78_fdm_default",
    "C78_fdm_inverse",
    "C78_pdm_default",
    "C78_pdm_inverse",
    "C78_high_tip_refuted"
   ],
   "note": ""
  },
  {
   "property": "C79",
   "status": "proved",
   "theorems": [
    "C79_best_polynomial",
    "C79_pdm_closed_form",
    "C79_pdm_fourier",
    "C79_pdm_error",
    "C79_poles_exist",
    "C79_pdm_default"
   ],
   "note": ""
  },
  {
   "property": "C80",
   "status": "proved",
   "theorems": [
    "C80_fdm_error",
    "C80_fdm_default"
   ],
   "note": ""
  },
  {
   "property": "C81",
   "status": "proved",
   "theorems": [
    "C81_value_semantics",
    "C81_results",
    "C81_constructed",
    "C81_arguments_kept",
    "C81_separate",
    "C81_written_through",
    "C81_consistent",
    "C81_beta_written",
    "C81_nu_vac_shared_refuted"
   ],
   "note": ""
  },
  {
   "property": "C82",
   "status": "proved",
   "theorems": [
    "C82_values",
    "C82_far_field",
    "C82_recursion",
    "C82_from_reflection_coefficients",
    "C82_round_trip",
    "C82_lossless_metal",
    "C82_zero_wavenumber",
    "C82_same_permittivities_refuted"
   ],
   "note": ""
  },
  {
   "property": "C83",
   "status": "proved",
   "theorems": [
    "C83_fdm_units",
    "C83_pdm_units",
    "C83_fdm_defaults",
    "C83_pdm_defaults",
    "C83_pdm_material"
   ],
   "note": ""
  },
  {
   "property": "C84",
   "status": "proved",
   "theorems": [
    "C84_fdm_first",
    "C84_fdm_stable",
    "C84_fdm_overestimates",
    "C84_pdm_first",
    "C84_pdm_stable",
    "C84_pdm_overestimates"
   ],
   "note": ""
  },
  {
   "property": "C85",
   "status": "proved",
   "theorems": [
    "C85_order",
    "C85_strict",
    "C85_between",
    "C85_thickness",
    "C85_average",
    "C85_signal_order",
    "C85_apparent"
   ],
   "note": ""
  },
  {
   "property": "C86",
   "status": "proved",
   "theorems": [
    "C86_reciprocal",
    "C86_reciprocal_image"
   ],
   "note": ""
  },
  {
   "property": "C87",
   "status": "proved",
   "theorems": [
    "C87_converted",
    "C87_taylor_harmonics",
    "C87_heights_doubled",
    "C87_potential_rejected",
    "C87_centre_rejected",
    "C87_centre_concatenated",
    "C87_inverse_harmonics",
    "C87_list_harmonics_refuted"
   ],
   "note": ""
  },
  {
   "property": "C88",
   "status": "proved",
   "theorems": [
    "C88_low_bits",
    "C88_far_field_in_range",
    "C88_near_field_in_range",
    "C88_permittivity_in_range",
    "C88_point_dipole_in_range",
    "C88_only_low_bits",
    "C88_normal_incidence",
    "C88_wavenumber_lost",
    "C88_no_interference",
    "C88_unsigned_lorentz",
    "C88_unsigned_drude",
    "C88_unsigned_interface",
    "C88_point_dipole_lost",
    "C88_integers_are_floats_refuted"
   ],
   "note": ""
  },
  {
   "property": "C89",
   "status": "proved",
   "theorems": [
    "C89_fdm_sensitivity",
    "C89_pdm_sensitivity",
    "C89_permittivity_sensitivity",
    "C89_bounded_relative_error_refuted",
    "C89_fdm_taylor_stable",
    "C89_pdm_taylor_stable",
    "C89_fdm_taylor_unique",
    "C89_pdm_taylor_unique",
    "C89_mean_signal"
   ],
   "note": ""
  },
  {
   "property": "C90",
   "status": "proved",
   "theorems": [
    "C90_pdm_pole",
    "C90_pdm_one_resonance",
    "C90_pdm_approach",
    "C90_pdm_sign",
    "C90_pdm_lorentzian",
    "C90_pdm_phonon",
    "C90_red_shift",
    "C90_pdm_plasmon",
    "C90_fdm_pole",
    "C90_pdm_harmonics",
    "C90_always_finite_refuted"
   ],
   "note": ""
  },
  {
   "property": "C91",
   "status": "proved",
   "theorems": [
    "C91_thin_film",
    "C91_thick_film",
    "C91_fdm_thin_film",
    "C91_image_series",
    "C91_subsurface_lost"
   ],
   "note": ""
  },
  {
   "property": "C92",
   "status": "proved",
   "theorems": [
    "C92_integer_orders",
    "C92_other_orders",
    "C92_float_after_numpy",
    "C92_history_matters_refuted",
    "C92_rejected_orders",
    "C92_computed_once"
   ],
   "note": ""
  },
  {
   "property": "C93",
   "status": "proved",
   "theorems": [
    "C93_assembled",
    "C93_undisturbed",
    "C93_one_assignment",
    "C93_explicit_arguments",
    "C93_torn_update_refuted",
    "C93_n_lag_torn_refuted",
    "C93_roots_assembled",
    "C93_roots_one_assignment",
    "C93_roots_explicit"
   ],
   "note": ""
  },
  {
   "property": "C94",
   "status": "proved",
   "theorems": [
    "C94_effective_film",
    "C94_average",
    "C94_fdm",
    "C94_mean_permittivity_refuted"
   ],
   "note": ""
  },
  {
   "property": "C95",
   "status": "proved",
   "theorems": [
    "C95_bounded_correction",
    "C95_self_reference",
    "C95_units",
    "C95_pdm_lossless",
    "C95_fdm_lossless",
    "C95_phase_is_absorption_refuted"
   ],
   "note": ""
  },
  {
   "property": "C96",
   "status": "proved",
   "theorems": [
    "C96_response",
    "C96_limit",
    "C96_mode",
    "C96_every_film"
   ],
   "note": ""
  },
  {
   "property": "C97",
   "status": "proved",
   "theorems": [
    "C97_pdm_contrast",
    "C97_pdm_phase",
    "C97_pdm_bound",
    "C97_pdm_unique",
    "C97_fdm_contrast",
    "C97_fdm_phase",
    "C97_fdm_bound",
    "C97_pdm_first_harmonic",
    "C97_pdm_phase_refuted",
    "C97_fdm_weak"
   ],
   "note": ""
  },
  {
   "property": "C98",
   "status": "proved",
   "theorems": [
    "C98_pdm_total",
    "C98_pdm_bulk",
    "C98_pdm_double",
    "C98_fdm_total",
    "C98_pdm_taylor",
    "C98_fdm_taylor",
    "C98_fdm_bulk",
    "C98_taylor_bulk",
    "C98_fdm_double"
   ],
   "note": ""
  },
  {
   "property": "C99",
   "status": "proved",
   "theorems": [
    "C99_admittance",
    "C99_lossless_coating",
    "C99_quarter_wave",
    "C99_antireflection",
    "C99_quarter_wavelength_refuted",
    "C99_bragg_mirror",
    "C99_fabry_perot",
    "C99_band_gap",
    "C99_pass_band"
   ],
   "note": ""
  },
  {
   "property": "C100",
   "status": "proved",
   "theorems": [
    "C100_rejections",
    "C100_fdm_inverse",
    "C100_pdm_inverse",
    "C100_round_trip"
   ],
   "note": ""
  },
  {
   "property": "C101",
   "status": "proved",
   "theorems": [
    "C101_complementary",
    "C101_invisible_to_the_tip",
    "C101_lens_amplifies",
    "C101_perfect_lens",
    "C101_resolution",
    "C101_thick_lens"
   ],
   "note": ""
  },
  {
   "property": "C102",
   "status": "proved",
   "theorems": [
    "C102_reflection",
    "C102_pdm",
    "C102_fdm",
    "C102_peak",
    "C102_sum_rule",
    "C102_near_field_area"
   ],
   "note": ""
  },
  {
   "property": "C103",
   "status": "proved",
   "theorems": [
    "C103_perfect_conductor",
    "C103_buried_conductor_refuted",
    "C103_metal_sample",
    "C103_buried_limit",
    "C103_infinite_thickness",
    "C103_pdm_any_height",
    "C103_fdm_nan_refuted",
    "C103_long_tip",
    "C103_conducting_tip"
   ],
   "note": ""
  },
  {
   "property": "C104",
   "status": "proved",
   "theorems": [
    "C104_width",
    "C104_static"
   ],
   "note": ""
  },
  {
   "property": "C105",
   "status": "proved",
   "theorems": [
    "C105_objective",
    "C105_passive",
    "C105_residual",
    "C105_weak",
    "C105_script",
    "C105_mask"
   ],
   "note": ""
  },
  {
   "property": "C106",
   "status": "proved",
   "theorems": [
    "C106_pdm_order",
    "C106_fdm_order",
    "C106_alias",
    "C106_absorbing",
    "C106_script",
    "C106_pdm_taylor",
    "C106_fdm_taylor",
    "C106_weak",
    "C106_weak_pdm",
    "C106_weak_default"
   ],
   "note": ""
  }
 ]
}
