{
 "claims": [
  {
   "property": "C01",
   "status": "proved",
   "theorems": [
    "C01_prepend_is_cons"
   ],
   "note": ""
  },
  {
   "property": "C02",
   "status": "proved",
   "theorems": [
    "C02_transform_rule"
   ],
   "note": ""
  },
  {
   "property": "C03",
   "status": "proved",
   "theorems": [
    "C03_Gauss_Legendre"
   ],
   "note": ""
  },
  {
   "property": "C04",
   "status": "proved",
   "theorems": [
    "C04_Clenshaw_Curtis"
   ],
   "note": ""
  },
  {
   "property": "C05",
   "status": "proved",
   "theorems": [
    "C05_finite_differences"
   ],
   "note": ""
  },
  {
   "property": "C06",
   "status": "proved",
   "theorems": [
    "C06_scattering_angle",
    "C06_scattering_angle_range"
   ],
   "note": ""
  },
  {
   "property": "C07",
   "status": "proved",
   "theorems": [
    "C07_affine_change_of_variable"
   ],
   "note": ""
  },
  {
   "property": "C08",
   "status": "partial",
   "theorems": [
    "C08_zero_scale_rejected_refuted",
    "C08_zero_scale_rejected_partial"
   ],
   "note": "False of the code as stated: np.any(a_arr)==0 only detects the all-zero array. _refuted gives the witness, _partial what holds."
  },
  {
   "property": "C09",
   "status": "proved",
   "theorems": [
    "C09_linear_spline"
   ],
   "note": ""
  },
  {
   "property": "C10",
   "status": "proved",
   "theorems": [
    "C10_thermal_source"
   ],
   "note": ""
  },
  {
   "property": "C11",
   "status": "proved",
   "theorems": [
    "C11_Planck",
    "C11_Planck_monotone"
   ],
   "note": ""
  },
  {
   "property": "C12",
   "status": "proved",
   "theorems": [
    "C12_emissivity",
    "C12_emissivity_Lambertian"
   ],
   "note": ""
  },
  {
   "property": "C13",
   "status": "partial",
   "theorems": [
    "C13_same_solution_with_cache_partial",
    "C13_two_streams_other_surface",
    "C13_two_streams_refuted",
    "C13_scalar_mode_with_beam_refuted",
    "C13_BDRF_cache_transparent_partial",
    "C13_BDRF_cache_transparent_refuted"
   ],
   "note": "False of the code in two cases: two streams with a cache made for a beam (C13_two_streams_refuted: the call is solved over another surface and the results differ) and scalar modes under a beam (C13_scalar_mode_with_beam_refuted: no such call is answered). _partial: in all other cases the values are the same at the nodes, and the whole call gives the same error or the same results (C13_same_solution_with_cache_partial)."
  },
  {
   "property": "C14",
   "status": "proved",
   "theorems": [
    "C14_interpolate_accepts",
    "C14_interpolate_value",
    "C14_interpolate_nodes",
    "C14_interpolate_polynomials",
    "C14_interpolate_range",
    "C14_interpolate_passes_errors",
    "C14_interpolate_rejects_fluxes"
   ],
   "note": ""
  },
  {
   "property": "C15",
   "status": "partial",
   "theorems": [
    "C15_extra_outputs_of_u",
    "C15_extra_outputs_of_u0_by_position",
    "C15_depths_of_u0_refuted"
   ],
   "note": "Proved for the intensity u (all flags). For u0: which values come out is proved; the documented meaning of the flags is refuted, since they are passed by position (return_tau_arr gives an internal value instead of the depths)."
  },
  {
   "property": "C16",
   "status": "proved",
   "theorems": [
    "C16_interpolate_no_memory"
   ],
   "note": ""
  },
  {
   "property": "C17",
   "status": "proved",
   "theorems": [
    "C17_diagonal_ordered_form"
   ],
   "note": ""
  },
  {
   "property": "C18",
   "status": "proved",
   "theorems": [
    "C18_isotropic_particular_solution",
    "C18_branches_agree"
   ],
   "note": ""
  },
  {
   "property": "C19",
   "status": "partial",
   "theorems": [
    "C19_isotropic_antiderivative_refuted",
    "C19_isotropic_antiderivative_partial"
   ],
   "note": "Refuted for several layers (shape error, or values that depend on the position in the tau array); proved for one layer."
  },
  {
   "property": "C20",
   "status": "proved",
   "theorems": [
    "C20_scattering_matrix_parity"
   ],
   "note": ""
  },
  {
   "property": "C21",
   "status": "proved",
   "theorems": [
    "C21_eigenvector_assembly"
   ],
   "note": ""
  },
  {
   "property": "C22",
   "status": "proved",
   "theorems": [
    "C22_beam_particular_solution"
   ],
   "note": ""
  },
  {
   "property": "C23",
   "status": "proved",
   "theorems": [
    "C23_no_uninitialised_memory"
   ],
   "note": ""
  },
  {
   "property": "C24",
   "status": "proved",
   "theorems": [
    "C24_banded_matrix_is_dense_matrix",
    "C24_banded_threshold_irrelevant",
    "C24_banded_threshold_same_success"
   ],
   "note": ""
  },
  {
   "property": "C25",
   "status": "proved",
   "theorems": [
    "C25_modes_do_not_leak",
    "C25_fresh_buffers"
   ],
   "note": ""
  },
  {
   "property": "C26",
   "status": "proved",
   "theorems": [
    "C26_top_boundary_condition"
   ],
   "note": ""
  },
  {
   "property": "C27",
   "status": "proved",
   "theorems": [
    "C27_bottom_boundary_condition"
   ],
   "note": ""
  },
  {
   "property": "C28",
   "status": "proved",
   "theorems": [
    "C28_continuity",
    "C28_interfaces"
   ],
   "note": ""
  },
  {
   "property": "C29",
   "status": "proved",
   "theorems": [
    "C29_transfer_equation",
    "C29_solution_exists",
    "C29_modes_unique"
   ],
   "note": ""
  },
  {
   "property": "C30",
   "status": "proved",
   "theorems": [
    "C30_no_growing_exponentials"
   ],
   "note": ""
  },
  {
   "property": "C31",
   "status": "proved",
   "theorems": [
    "C31_layer_lookup"
   ],
   "note": ""
  },
  {
   "property": "C32",
   "status": "proved",
   "theorems": [
    "C32_scaled_depth"
   ],
   "note": ""
  },
  {
   "property": "C33",
   "status": "proved",
   "theorems": [
    "C33_out_of_range_rejected"
   ],
   "note": ""
  },
  {
   "property": "C34",
   "status": "proved",
   "theorems": [
    "C34_angle_check",
    "C34_validation_sound",
    "C34_validation_exact"
   ],
   "note": ""
  },
  {
   "property": "C35",
   "status": "proved",
   "theorems": [
    "C35_delta_M"
   ],
   "note": ""
  },
  {
   "property": "C36",
   "status": "proved",
   "theorems": [
    "C36_unit_scaling"
   ],
   "note": ""
  },
  {
   "property": "C37",
   "status": "partial",
   "theorems": [
    "C37_no_division_by_zero_refuted",
    "C37_corrections_divide_by_zero_refuted",
    "C37_corrections_divide_by_zero_everywhere_refuted",
    "C37_preparation_partial"
   ],
   "note": "Refuted: an isotropic source that vanishes at both ends without other sources, and f = 1 with the NT corrections, divide by zero. Proved: preparation of scaled properties and sources for all other accepted inputs."
  },
  {
   "property": "C38",
   "status": "proved",
   "theorems": [
    "C38_outputs_scale_with_sources"
   ],
   "note": ""
  },
  {
   "property": "C39",
   "status": "partial",
   "theorems": [
    "C39_actinic_down_refuted",
    "C39_actinic_down_scaling_refuted",
    "C39_actinic_fluxes_partial",
    "C39_actinic_up_scales_partial"
   ],
   "note": "Refuted: the reclassified beam is not multiplied back by the rescaling factor. Proved: what is returned instead, and scaling of the upward flux."
  },
  {
   "property": "C40",
   "status": "proved",
   "theorems": [
    "C40_fluxes"
   ],
   "note": ""
  },
  {
   "property": "C41",
   "status": "partial",
   "theorems": [
    "C41_azimuth_corrected_partial",
    "C41_corrected_mean_partial",
    "C41_corrected_mean_refuted",
    "C41_azimuth_partial"
   ],
   "note": "Without the corrections as stated (C41_azimuth_partial). With them period and symmetry hold (C41_azimuth_corrected_partial), and the mean is computed (C41_corrected_mean_partial); C41_corrected_mean_refuted: it is not u0, for every call whose lost source has a mean other than 0, and one such call."
  },
  {
   "property": "C42",
   "status": "proved",
   "theorems": [
    "C42_only_flux_irrelevant_for_fluxes"
   ],
   "note": ""
  },
  {
   "property": "C43",
   "status": "partial",
   "theorems": [
    "C43_antiderivatives_partial",
    "C43_downward_flux_refuted",
    "C43_isotropic_source_refuted",
    "C43_u0_without_beam_refuted"
   ],
   "note": "Proved for one layer or no isotropic source (flux_up, u, direct beam, u0 with a beam, flux_down diffuse for one layer / one depth / no beam). The full property is false of the code: flux_down and isotropic-source antiderivatives raise broadcasting errors for several layers, and the flag of u0 is ignored without a beam. For u with the Nakajima-Tanaka corrections see C49."
  },
  {
   "property": "C44",
   "status": "proved",
   "theorems": [
    "C44_energy_balance"
   ],
   "note": ""
  },
  {
   "property": "C45",
   "status": "partial",
   "theorems": [
    "C45_matrix_boundary_refuted",
    "C45_matrix_boundary_partial"
   ],
   "note": "Refuted for every non-zero matrix with four or more streams (the call fails). Proved for the calls that succeed."
  },
  {
   "property": "C46",
   "status": "partial",
   "theorems": [
    "C46_caller_array_refuted",
    "C46_caller_array_partial"
   ],
   "note": "Refuted: the first column of Leg_coeffs_all is overwritten. Proved: nothing else of it changes."
  },
  {
   "property": "C47",
   "status": "partial",
   "theorems": [
    "C47_fourier_error_refuted",
    "C47_fourier_error_partial"
   ],
   "note": "Refuted for a beam and several layers (error for most numbers of depths). Proved without a beam."
  },
  {
   "property": "C48",
   "status": "partial",
   "theorems": [
    "C48_correction_partial",
    "C48_jump_refuted",
    "C48_boundaries"
   ],
   "note": "Refuted for layers with different lost sources: the code multiplies the contribution of every layer by the source of the layer of the depth asked for, so the intensity jumps at interfaces. Proved: what is returned exactly; the documented formula when the lost source is the same in all layers; vanishing for incoming directions."
  },
  {
   "property": "C49",
   "status": "partial",
   "theorems": [
    "C49_antiderivative_partial",
    "C49_antiderivative_refuted"
   ],
   "note": "Refuted when the optical depth scaling differs between layers. Proved for one layer or equal scaling."
  },
  {
   "property": "C50",
   "status": "partial",
   "theorems": [
    "C50_second_order_partial",
    "C50_shape_refuted"
   ],
   "note": "Refuted shape for two streams (error with two or more azimuths). Proved: value as documented double integral, zero at the top, antiderivative (in C49)."
  },
  {
   "property": "C51",
   "status": "partial",
   "theorems": [
    "C51_split_solved",
    "C51_refined_layers",
    "C51_split_layer",
    "C51_corrected_intensity",
    "C51_corrections_refuted"
   ],
   "note": "Proved for the directions, fluxes, mean intensity, rejected depths and the intensity without the Nakajima-Tanaka corrections. With the corrections the two intensities are proved to differ by the second-order correction only, and C51_corrections_refuted shows that they do differ (the averages are weighted by cumulative depths). Premises: linalg_unique, and that both calls succeed; for physical atmospheres without a resonating beam C51_split_solved needs neither."
  },
  {
   "property": "C52",
   "status": "partial",
   "theorems": [
    "C52_direct_flux_partial",
    "C52_direct_flux_shape_refuted"
   ],
   "note": "Value proved for I0 > 0; the shape is refuted for I0 = 0 (scalar 0 for any number of depths)."
  },
  {
   "property": "C53",
   "status": "partial",
   "theorems": [
    "C53_interleaved_calls_partial",
    "C53_different_hemispheres_partial",
    "C53_calls_in_turn_refuted",
    "C53_interference_refuted",
    "C53_calls_end"
   ],
   "note": "Proved for every schedule in which no call overwrites values another one has stored but not read (in particular calls in different hemispheres), and that every call ends. Refuted without this condition: calls that take turns return each other's values. Histories of completed calls: C16."
  },
  {
   "property": "C54",
   "status": "partial",
   "theorems": [
    "C54_negative_sources_refuted",
    "C54_negative_sources_zero_refuted",
    "C54_negative_sources_partial"
   ],
   "note": "Refuted when there is no positive source at all (all results are 0). Proved in all other cases."
  },
  {
   "property": "C55",
   "status": "proved",
   "theorems": [
    "C55_uninitialised_memory_irrelevant"
   ],
   "note": ""
  },
  {
   "property": "C56",
   "status": "proved",
   "theorems": [
    "C56_autograd_flag_irrelevant"
   ],
   "note": ""
  },
  {
   "property": "C57",
   "status": "proved",
   "theorems": [
    "C57_fluxes_independent_of_NFourier"
   ],
   "note": ""
  },
  {
   "property": "C58",
   "status": "proved",
   "theorems": [
    "C58_weak_scattering_solved",
    "C58_absorbing_atmosphere_solved"
   ],
   "note": ""
  },
  {
   "property": "C59",
   "status": "proved",
   "theorems": [
    "C59_only_solution",
    "C59_linear_algebra_irrelevant"
   ],
   "note": ""
  },
  {
   "property": "C60",
   "status": "proved",
   "theorems": [
    "C60_quadrature_determined",
    "C60_reported_directions"
   ],
   "note": ""
  },
  {
   "property": "C61",
   "status": "proved",
   "theorems": [
    "C61_no_negative_radiation"
   ],
   "note": ""
  },
  {
   "property": "C62",
   "status": "proved",
   "theorems": [
    "C62_more_source_more_radiation"
   ],
   "note": ""
  },
  {
   "property": "C63",
   "status": "proved",
   "theorems": [
    "C63_bounded_by_sources",
    "C63_equilibrium"
   ],
   "note": ""
  },
  {
   "property": "C64",
   "status": "proved",
   "theorems": [
    "C64_superposition",
    "C64_superposition_corrected"
   ],
   "note": ""
  },
  {
   "property": "C65",
   "status": "proved",
   "theorems": [
    "C65_solved_iff_no_resonance",
    "C65_no_beam",
    "C65_far_from_nodes",
    "C65_overhead_sun_unsolved"
   ],
   "note": ""
  },
  {
   "property": "C66",
   "status": "proved",
   "theorems": [
    "C66_only_solution",
    "C66_answer_exists",
    "C66_linear_algebra_irrelevant"
   ],
   "note": ""
  },
  {
   "property": "C67",
   "status": "proved",
   "theorems": [
    "C67_phase_function_series",
    "C67_intensity_solves_transfer",
    "C67_only_solution"
   ],
   "note": ""
  },
  {
   "property": "C68",
   "status": "proved",
   "theorems": [
    "C68_no_negative_intensity",
    "C68_bounded_intensity",
    "C68_equilibrium",
    "C68_more_source_more_intensity"
   ],
   "note": ""
  },
  {
   "property": "C69",
   "status": "partial",
   "theorems": [
    "C69_comparison_is_pointwise",
    "C69_passing_means_agreement_partial",
    "C69_passing_means_agreement_refuted"
   ],
   "note": "The pairing and the printed maxima are proved for all data. Passing assertions are proved to mean agreement at every positive reference; where the reference is 0 or negative the relative difference is 0 or negative and the assertions pass whatever is reported (refuted)."
  },
  {
   "property": "C70",
   "status": "proved",
   "theorems": [
    "C70_stability"
   ],
   "note": ""
  },
  {
   "property": "C71",
   "status": "proved",
   "theorems": [
    "C71_monotone_in_everything"
   ],
   "note": ""
  },
  {
   "property": "C72",
   "status": "proved",
   "theorems": [
    "C72_reciprocity"
   ],
   "note": ""
  },
  {
   "property": "C73",
   "status": "proved",
   "theorems": [
    "C73_upside_down"
   ],
   "note": ""
  },
  {
   "property": "C74",
   "status": "proved",
   "theorems": [
    "C74_rule_exists",
    "C74_rule_unique",
    "C74_rule_zeros",
    "C74_directions_exist",
    "C74_every_NQuad",
    "C74_only_inputs_matter"
   ],
   "note": ""
  },
  {
   "property": "C75",
   "status": "proved",
   "theorems": [
    "C75_almost_every_sun"
   ],
   "note": ""
  },
  {
   "property": "C76",
   "status": "proved",
   "theorems": [
    "C76_continuous",
    "C76_change_bound"
   ],
   "note": ""
  },
  {
   "property": "C77",
   "status": "partial",
   "theorems": [
    "C77_finite_refuted",
    "C77_nan_up",
    "C77_nan_down",
    "C77_finite_up_partial",
    "C77_finite_down_partial"
   ],
   "note": "False of the code as stated: C77_finite_refuted, and C77_nan_up/down show that every sufficiently deep inner layer boundary gives NaN. _partial: finite when the atmosphere is at most 690 mu deep (the antiderivative if moreover at most half of what a layer removes goes into the forward peak)."
  },
  {
   "property": "C78",
   "status": "proved",
   "theorems": [
    "C78_checks_exact",
    "C78_scaling_safe"
   ],
   "note": ""
  },
  {
   "property": "C79",
   "status": "proved",
   "theorems": [
    "C79_depth",
    "C79_boundary_depth",
    "C79_system_factors",
    "C79_system_accurate",
    "C79_attenuation",
    "C79_beam",
    "C79_boundary_beam"
   ],
   "note": ""
  },
  {
   "property": "C80",
   "status": "partial",
   "theorems": [
    "C80_overscattering_unsolved_partial",
    "C80_two_streams_partial",
    "C80_refuted"
   ],
   "note": "False of the code as stated: C80_refuted (Henyey-Greenstein with g = 9/10, albedo 99/100, two streams, any number of coefficients). _partial: which inputs have no answer, in general and for two streams. C81 says which have one."
  },
  {
   "property": "C81",
   "status": "proved",
   "theorems": [
    "C81_almost_every_sun",
    "C81_only_inputs_matter",
    "C81_solved_iff_no_resonance",
    "C81_only_solution",
    "C81_linear_algebra_irrelevant",
    "C81_physical_loses",
    "C81_Lambertian",
    "C81_two_streams",
    "C81_scaled_Henyey_Greenstein"
   ],
   "note": ""
  },
  {
   "property": "C82",
   "status": "proved",
   "theorems": [
    "C82_enough_streams_lose",
    "C82_enough_streams_solved",
    "C82_sharp",
    "C82_almost_every_sun"
   ],
   "note": ""
  },
  {
   "property": "C83",
   "status": "proved",
   "theorems": [
    "C83_warned",
    "C83_rejected",
    "C83_corrected"
   ],
   "note": ""
  },
  {
   "property": "C84",
   "status": "partial",
   "theorems": [
    "C84_refuted",
    "C84_two_streams_partial"
   ],
   "note": "False of the code: C84_refuted. Proved for two streams, no phase-function warning and scaled albedos up to 0.935."
  },
  {
   "property": "C85",
   "status": "proved",
   "theorems": [
    "C85_converges",
    "C85_exact_field"
   ],
   "note": ""
  },
  {
   "property": "C86",
   "status": "proved",
   "theorems": [
    "C86_settles"
   ],
   "note": ""
  },
  {
   "property": "C87",
   "status": "partial",
   "theorems": [
    "C87_units_refuted",
    "C87_units_partial"
   ],
   "note": "False of the code as documented: C87_units_refuted. _partial: the value is Planck's law for wavenumbers in cm^-1."
  },
  {
   "property": "C88",
   "status": "partial",
   "theorems": [
    "C88_finite_refuted",
    "C88_accurate_partial",
    "C88_zero"
   ],
   "note": "False of the code for photon energies below about 2^-54 kT: C88_finite_refuted. _partial: finite, not negative and accurate from 2^-40 kT on, for all temperatures and wavenumbers from 2^-100 to 2^100."
  },
  {
   "property": "C89",
   "status": "proved",
   "theorems": [
    "C89_same_values",
    "C89_same_values_lossy"
   ],
   "note": ""
  },
  {
   "property": "C90",
   "status": "partial",
   "theorems": [
    "C90_solved_together_refuted",
    "C90_solved_together_partial"
   ],
   "note": "False of the code: C90_solved_together_refuted (with NT_cor an elevation of the beam that is not used can be rejected). _partial: for well-formed descriptions (which exclude this, and the division 0/0 of C37) of an atmosphere that loses."
  },
  {
   "property": "C91",
   "status": "proved",
   "theorems": [
    "C91_exact_radiation",
    "C91_average_over_azimuth",
    "C91_symmetric"
   ],
   "note": ""
  },
  {
   "property": "C92",
   "status": "proved",
   "theorems": [
    "C92_intensity_converges"
   ],
   "note": ""
  },
  {
   "property": "C93",
   "status": "proved",
   "theorems": [
    "C93_sun_for_every_order"
   ],
   "note": ""
  },
  {
   "property": "C94",
   "status": "proved",
   "theorems": [
    "C94_boundaries_fade",
    "C94_boundaries_fade_every_azimuth"
   ],
   "note": ""
  },
  {
   "property": "C95",
   "status": "proved",
   "theorems": [
    "C95_interior_is_thermal"
   ],
   "note": ""
  },
  {
   "property": "C96",
   "status": "partial",
   "theorems": [
    "C96_depths_refuted",
    "C96_directions_refuted",
    "C96_later_writes_partial",
    "C96_other_arrays_partial"
   ],
   "note": "False of the code: tau_arr given as an array, f_arr given as an array and the returned mu_arr (both with the Nakajima-Tanaka corrections) and the array handed out by return_tau_arr are read again by every call. C96_depths_refuted, C96_directions_refuted. _partial: all histories in which each call finds these arrays with their first contents; writes into any other array never matter."
  },
  {
   "property": "C97",
   "status": "proved",
   "theorems": [
    "C97_surface_seen_at_nodes",
    "C97_scalar_is_constant_function"
   ],
   "note": ""
  },
  {
   "property": "C98",
   "status": "proved",
   "theorems": [
    "C98_earlier_calls_do_not_matter",
    "C98_other_warnings",
    "C98_warned_once",
    "C98_same_warnings_refuted",
    "C98_array_after",
    "C98_unused_coefficients"
   ],
   "note": "As stated. C98_same_warnings_refuted shows that the exception made for the warning of the zeroth coefficient is needed: a repeated call is silent."
  },
  {
   "property": "C99",
   "status": "proved",
   "theorems": [
    "C99_only_the_bearing_matters",
    "C99_rotation",
    "C99_mirror"
   ],
   "note": ""
  },
  {
   "property": "C100",
   "status": "proved",
   "theorems": [
    "C100_concurrent_calls",
    "C100_no_waiting",
    "C100_array",
    "C100_warning_has_cause",
    "C100_somebody_warns",
    "C100_warned_once_refuted"
   ],
   "note": "Each access to an element of the first column is a step and steps interleave arbitrarily; memory is sequentially consistent. C100_warned_once_refuted shows that, unlike successive calls, concurrent ones can all warn."
  },
  {
   "property": "C101",
   "status": "proved",
   "theorems": [
    "C101_energy_budget",
    "C101_reflects_no_more_than_it_receives"
   ],
   "note": ""
  },
  {
   "property": "C102",
   "status": "proved",
   "theorems": [
    "C102_emission_is_absorption"
   ],
   "note": ""
  },
  {
   "property": "C103",
   "status": "partial",
   "theorems": [
    "C103_factorial_fits_partial",
    "C103_usual_machines_partial",
    "C103_no_rejection",
    "C103_one_more_coefficient_refuted"
   ],
   "note": "Holds while the factorials fit (C103_factorial_fits_partial, C103_usual_machines_partial), and no call is rejected because of the integers (C103_no_rejection). C103_one_more_coefficient_refuted: from 22 coefficients (64 bits) or 14 (32 bits) the reported field does not satisfy the equation, for every such call, and one such call."
  },
  {
   "property": "C104",
   "status": "partial",
   "theorems": [
    "C104_range_partial",
    "C104_accurate",
    "C104_accurate_away_from_vertical",
    "C104_range_refuted"
   ],
   "note": "Finite, accurate (C104_accurate, C104_accurate_away_from_vertical) and of magnitude at most 1 + 2^-49 (C104_range_partial). C104_range_refuted: the result can exceed 1, so its arccosine need not exist."
  },
  {
   "property": "C105",
   "status": "proved",
   "theorems": [
    "C105_source_warning",
    "C105_overflow_is_warned",
    "C105_cache_warning"
   ],
   "note": ""
  },
  {
   "property": "C106",
   "status": "partial",
   "theorems": [
    "C106_same_partial",
    "C106_beyond_range",
    "C106_refuted"
   ],
   "note": "Holds without a source, with scaled depths, and for depths whose powers fit the integers (C106_same_partial). C106_beyond_range: at the first depths whose power does not fit, the answer always differs; C106_refuted: depth 128 with 10 coefficients and 64 bits, where nothing warns."
  },
  {
   "property": "C107",
   "status": "proved",
   "theorems": [
    "C107_continuous",
    "C107_change_bound"
   ],
   "note": ""
  },
  {
   "property": "C108",
   "status": "proved",
   "theorems": [
    "C108_continuous",
    "C108_change_bound"
   ],
   "note": ""
  },
  {
   "property": "C109",
   "status": "proved",
   "theorems": [
    "C109_continuous",
    "C109_change_bound"
   ],
   "note": ""
  },
  {
   "property": "C110",
   "status": "partial",
   "theorems": [
    "C110_cut_off",
    "C110_continuous_partial",
    "C110_continuous_refuted",
    "C110_change_bound",
    "C110_continuous_up_to_jump_partial"
   ],
   "note": "False of the code: scattering is left out of a layer up to a scaled albedo of about 2e-8, and the reported intensity jumps there (C110_continuous_refuted; C110_cut_off gives both sides for a layer of any thickness). C110_continuous_partial: holds between atmospheres without such layers. C110_change_bound and C110_continuous_up_to_jump_partial: for all atmospheres the jump is at most 4e-8 NLeg (M + I0/(4 pi)) divided by the smallest share of absorption, where M bounds the intensity."
  },
  {
   "property": "C111",
   "status": "proved",
   "theorems": [
    "C111_boundary_emission",
    "C111_boundary_matches_atmosphere"
   ],
   "note": ""
  },
  {
   "property": "C112",
   "status": "proved",
   "theorems": [
    "C112_left_out",
    "C112_left_out_fluxes",
    "C112_left_out_reported",
    "C112_only_solution",
    "C112_nothing_left_out",
    "C112_solution_exists",
    "C112_error_known",
    "C112_never_adds",
    "C112_never_adds_flux"
   ],
   "note": ""
  }
 ]
}