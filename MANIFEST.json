{
 "claims": [
  {
   "property": "C01",
   "status": "proved",
   "theorems": [
    "C01_integer_shift_is_roll",
    "C01_integer_shift_is_roll_complex"
   ],
   "note": "Real, complex and modulus output; any dimension."
  },
  {
   "property": "C02",
   "status": "proved",
   "theorems": [
    "C02_complex_shifts_compose",
    "C02_complex_shift_invertible"
   ],
   "note": "Composition and inversion for any real offsets and phases."
  },
  {
   "property": "C03",
   "status": "proved",
   "theorems": [
    "C03_real_shifts_compose",
    "C03_real_shifts_compose_refuted"
   ],
   "note": "Proved under exactly the condition in the statement (all axes odd, or one shift whole-pixel); the unconditional version is refuted by C03_real_shifts_compose_refuted (image [1,-1], two half-pixel shifts)."
  },
  {
   "property": "C04",
   "status": "proved",
   "theorems": [
    "C04_shift_conserves_flux",
    "C04_complex_shift_conserves_energy",
    "C04_real_shift_energy",
    "C04_zero_shift_is_identity"
   ],
   "note": ""
  },
  {
   "property": "C05",
   "status": "proved",
   "theorems": [
    "C05_shift_periodic"
   ],
   "note": ""
  },
  {
   "property": "C06",
   "status": "proved",
   "theorems": [
    "C06_shift_linear"
   ],
   "note": ""
  },
  {
   "property": "C07",
   "status": "proved",
   "theorems": [
    "C07_shift2d_is_shiftnd",
    "C07_shift2d_rejects_non_2d"
   ],
   "note": ""
  },
  {
   "property": "C08",
   "status": "proved",
   "theorems": [
    "C08_nan_is_zero",
    "C08_shape_and_flags",
    "C08_offset_length",
    "C08_nan_is_zero_complex",
    "C08_phase_argument",
    "C08_empty_axes"
   ],
   "note": ""
  },
  {
   "property": "C09",
   "status": "proved",
   "theorems": [
    "C09_backends_agree",
    "C09_transform_definition_and_roundtrip"
   ],
   "note": "numpy.fft and fftw3 plans are external code, modelled by their documented (un)normalised DFT definitions."
  },
  {
   "property": "C10",
   "status": "proved",
   "theorems": [
    "C10_interp1d_reproduces_samples",
    "C10_interp1d_periodic",
    "C10_interp1d_is_trig_interpolant"
   ],
   "note": ""
  },
  {
   "property": "C11",
   "status": "proved",
   "theorems": [
    "C11_band_limited_exact"
   ],
   "note": ""
  },
  {
   "property": "C12",
   "status": "proved",
   "theorems": [
    "C12_data_x_between_nodes",
    "C12_data_x_nodes",
    "C12_validation",
    "C12_equally_spaced"
   ],
   "note": ""
  },
  {
   "property": "C13",
   "status": "proved",
   "theorems": [
    "C13_interp2d_is_separable_interpolant",
    "C13_index_array_form_agrees",
    "C13_interp2d_reproduces_pixels",
    "C13_validation",
    "C13_two_row_array_form_agrees"
   ],
   "note": ""
  },
  {
   "property": "C14",
   "status": "proved",
   "theorems": [
    "C14_shift_is_interpolation",
    "C14_shift_equals_fourier_interp1d",
    "C14_shift_equals_fourier_interp2d"
   ],
   "note": ""
  },
  {
   "property": "C15",
   "status": "proved",
   "theorems": [
    "C15_return_xouts_flag",
    "C15_zoom1d_coordinates",
    "C15_zoomnd_2d_coordinates",
    "C15_zoom_on_pixel_2d_coordinates",
    "C15_zoom_on_pixel_1d_coordinates"
   ],
   "note": ""
  },
  {
   "property": "C16",
   "status": "proved",
   "theorems": [
    "C16_zoom1d_default_is_identity",
    "C16_zoomnd_default_is_identity_2d",
    "C16_zoomnd_default_is_identity_1d"
   ],
   "note": ""
  },
  {
   "property": "C17",
   "status": "proved",
   "theorems": [
    "C17_zoom1d_values",
    "C17_zoom_on_pixel_2d_values",
    "C17_zoom_on_pixel_1d_values",
    "C17_zoomnd_2d_values",
    "C17_return_flags"
   ],
   "note": ""
  },
  {
   "property": "C18",
   "status": "proved",
   "theorems": [
    "C18_zoom_bad_arguments",
    "C18_zoom1d_zoomnd_agree",
    "C18_one_pixel_zoom_refuted",
    "C18_argument_validation",
    "C18_empty_2d_zoom_raises",
    "C18_short_outshape_raises"
   ],
   "note": ""
  },
  {
   "property": "C19",
   "status": "proved",
   "theorems": [
    "C19_dftups_any_factor",
    "C19_dftups_is_padded_dft_window"
   ],
   "note": ""
  },
  {
   "property": "C20",
   "status": "proved",
   "theorems": [
    "C20_any_factor",
    "C20_upsampled_pixel_is_interpolant",
    "C20_original_samples_preserved",
    "C20_factor_one_is_identity",
    "C20_odd_real_image_gives_real_output",
    "C20_all_reals_refuted",
    "C20_other_cases"
   ],
   "note": ""
  },
  {
   "property": "C21",
   "status": "proved",
   "theorems": [
    "C21_dftups1d_is_dft_sum",
    "C21_dftups1d_other_cases",
    "C21_dftups1d_of_inverse_fft_interpolates",
    "C21_odddftups_equals_dftups"
   ],
   "note": ""
  },
  {
   "property": "C22",
   "status": "proved",
   "theorems": [
    "C22_downsample_estimates_blocks",
    "C22_blocks_partition_cropped_image",
    "C22_bad_factors_and_ranks_raise"
   ],
   "note": ""
  },
  {
   "property": "C23",
   "status": "proved",
   "theorems": [
    "C23_constant_image_stays_constant",
    "C23_factor_one_is_identity",
    "C23_mean_over_valid_pixels",
    "C23_mean_conserved_when_divisible",
    "C23_default_estimator_is_mean_of_valid"
   ],
   "note": ""
  },
  {
   "property": "C24",
   "status": "proved",
   "theorems": [
    "C24_truncate_drops_remainder",
    "C24_default_pads_last_group",
    "C24_modern_numpy_refuted",
    "C24_bad_arguments_raise",
    "C24_default_pads_with_nan"
   ],
   "note": ""
  },
  {
   "property": "C25",
   "status": "proved",
   "theorems": [
    "C25_downsample_1d_always_raises_refuted",
    "C25_downsample_cube_always_raises_refuted",
    "C25_downsample_1d_without_asserts",
    "C25_downsample_1d_without_asserts_any_rank"
   ],
   "note": ""
  },
  {
   "property": "C26",
   "status": "proved",
   "theorems": [
    "C26_fill_boundary_never_wraps",
    "C26_fill_boundary_complex_inputs"
   ],
   "note": ""
  },
  {
   "property": "C27",
   "status": "proved",
   "theorems": [
    "C27_wrap_is_circular_convolution"
   ],
   "note": ""
  },
  {
   "property": "C28",
   "status": "proved",
   "theorems": [
    "C28_output_shape",
    "C28_delta_kernel_is_identity",
    "C28_errors"
   ],
   "note": ""
  },
  {
   "property": "C29",
   "status": "proved",
   "theorems": [
    "C29_constant_image_unchanged",
    "C29_total_flux_conserved"
   ],
   "note": ""
  },
  {
   "property": "C30",
   "status": "proved",
   "theorems": [
    "C30_nan_interpolation_is_weighted_average"
   ],
   "note": ""
  },
  {
   "property": "C31",
   "status": "proved",
   "theorems": [
    "C31_effects",
    "C31_returns_intact",
    "C31_real_arguments_intact",
    "C31_normalized_kernel_loses_nan_refuted",
    "C31_exception_loses_nan_refuted"
   ],
   "note": "False as stated; C31_effects says exactly what every array holds afterwards.  Successful calls lose the other component of NaN pixels of complex arrays; exceptions and normalised kernels lose the NaNs."
  },
  {
   "property": "C32",
   "status": "proved",
   "theorems": [
    "C32_wrap_is_circular_correlation",
    "C32_zero_lag_pixel",
    "C32_fill_never_wraps",
    "C32_largest_dimension_refuted",
    "C32_size_limit",
    "C32_exchange",
    "C32_errors",
    "C32_size_limit_fill"
   ],
   "note": ""
  },
  {
   "property": "C33",
   "status": "proved",
   "theorems": [
    "C33_roll_peak",
    "C33_peak_unique"
   ],
   "note": ""
  },
  {
   "property": "C34",
   "status": "proved",
   "theorems": [
    "C34_scalar_error",
    "C34_error_array"
   ],
   "note": ""
  },
  {
   "property": "C35",
   "status": "proved",
   "theorems": [
    "C35_nonnegative_and_zero_at_match",
    "C35_reduced_map"
   ],
   "note": ""
  },
  {
   "property": "C36",
   "status": "proved",
   "theorems": [
    "C36_values_at_masked_pixels_irrelevant",
    "C36_masked_pixels_excluded_at_zero_shift",
    "C36_masked_pixels_excluded_refuted"
   ],
   "note": ""
  },
  {
   "property": "C37",
   "status": "proved",
   "theorems": [
    "C37_shape_mismatch_raises",
    "C37_return_all_terms",
    "C37_negative_errors_act_as_positive",
    "C37_size_limit",
    "C37_error_shape_mismatch_raises",
    "C37_each_term"
   ],
   "note": ""
  },
  {
   "property": "C38",
   "status": "proved",
   "theorems": [
    "C38_roll_reproduced",
    "C38_odd_square_exact",
    "C38_even_square_odd_factor_exact",
    "C38_uniqueness_criterion",
    "C38_subpixel_on_grid"
   ],
   "note": ""
  },
  {
   "property": "C39",
   "status": "proved",
   "theorems": [
    "C39_minimum_on_grid",
    "C39_least_squares_over_grid",
    "C39_whole_pixel_missed",
    "C39_large_factor_never_exact",
    "C39_window"
   ],
   "note": ""
  },
  {
   "property": "C40",
   "status": "proved",
   "theorems": [
    "C40_auto_never_fails"
   ],
   "note": ""
  },
  {
   "property": "C41",
   "status": "proved",
   "theorems": [
    "C41_odd_axis_covered",
    "C41_even_size_refuted",
    "C41_non_square_refuted"
   ],
   "note": ""
  },
  {
   "property": "C42",
   "status": "proved",
   "theorems": [
    "C42_error_bars",
    "C42_monotone_in_level",
    "C42_inverse_to_zoom",
    "C42_constant_offset",
    "C42_no_level_raises",
    "C42_level_is_documented"
   ],
   "note": ""
  },
  {
   "property": "C43",
   "status": "proved",
   "theorems": [
    "C43_return_layout",
    "C43_zeromean_ignores_constants",
    "C43_error_scale_keeps_shift",
    "C43_nfitted_unused_with_factor",
    "C43_bad_factor_raises",
    "C43_full_result",
    "C43_no_level_raises",
    "C43_verbose",
    "C43_zeromean_ignores_constants_any_factor"
   ],
   "note": ""
  },
  {
   "property": "C44",
   "status": "proved",
   "theorems": [
    "C44_chi2_shift_iterzoom_always_fails_refuted",
    "C44_repaired_name_reports_zero_refuted",
    "C44_repaired_result",
    "C44_repaired_exceptions",
    "C44_repaired_single_sample",
    "C44_repaired_even_size_refuted"
   ],
   "note": "The property is false (NameError on every call).  Also shown: if the name existed, the answer would be (0,0) whenever the chi2 differences are at most mindiff.  C44_repaired_* theorems say what the function would return with the missing name supplied."
  },
  {
   "property": "C45",
   "status": "proved",
   "theorems": [
    "C45_roll_result_all_sizes",
    "C45_roll_recovered_even",
    "C45_last_row_refuted"
   ],
   "note": "No non-degeneracy hypothesis: the Hessian of an autocorrelation at a strict maximum is proved non-degenerate.  Peak on the last row/column: refuted (half a pixel off) by C45_last_row_refuted; on the first: ValueError, C50."
  },
  {
   "property": "C46",
   "status": "proved",
   "theorems": [
    "C46_odd_sizes_half_pixel_bias"
   ],
   "note": "The property is false; the theorem gives the exact bias (+1/2 on every odd axis)."
  },
  {
   "property": "C47",
   "status": "proved",
   "theorems": [
    "C47_refinement_exact_iff",
    "C47_refinement_refuted"
   ],
   "note": "Exact characterisation (iff) of when the refinement returns the vertex, plus a concrete refutation."
  },
  {
   "property": "C48",
   "status": "proved",
   "theorems": [
    "C48_second_derivative"
   ],
   "note": ""
  },
  {
   "property": "C49",
   "status": "proved",
   "theorems": [
    "C49_maxoff_always_raises"
   ],
   "note": "The property is false; proved that every call with maxoff and signal raises TypeError."
  },
  {
   "property": "C50",
   "status": "proved",
   "theorems": [
    "C50_shape_mismatch",
    "C50_no_signal_returns_zero",
    "C50_blank_image",
    "C50_first_row_or_column_raises",
    "C50_constants_ignored",
    "C50_scale_ignored",
    "C50_gaussfit_needs_agpy"
   ],
   "note": ""
  },
  {
   "property": "C51",
   "status": "proved",
   "theorems": [
    "C51_unique_peak_is_returned",
    "C51_roll_recovered",
    "C51_sign_ambiguity_refuted"
   ],
   "note": "Also proved for any image pair with a unique |correlation| peak and with maxoff; without the sign condition refuted (image (1,-1))."
  },
  {
   "property": "C52",
   "status": "proved",
   "theorems": [
    "C52_roll_recovered_every_factor",
    "C52_noninteger_factor_refuted"
   ],
   "note": "Integer factors and all factors <= 2; non-integer factors refuted by C52_noninteger_factor_refuted."
  },
  {
   "property": "C53",
   "status": "proved",
   "theorems": [
    "C53_whole_pixel_maximum",
    "C53_half_pixel_maximum",
    "C53_upsampled_maximum",
    "C53_interpolates_the_correlation"
   ],
   "note": ""
  },
  {
   "property": "C54",
   "status": "proved",
   "theorems": [
    "C54_maxoff_whole_pixel",
    "C54_maxoff_half_pixel",
    "C54_maxoff_upsampled",
    "C54_maxoff_zero_is_no_limit",
    "C54_minus_maxoff_is_excluded_refuted",
    "C54_half_pixel_units_refuted"
   ],
   "note": "Bounds for usfac = 1, <= 2, > 2 (M/2 + 3/4 + 1/usfac); refuted: -maxoff itself is excluded, and for usfac = 2 the limit counts half pixels."
  },
  {
   "property": "C55",
   "status": "proved",
   "theorems": [
    "C55_registered_image",
    "C55_registered_roll",
    "C55_registered_refuted"
   ],
   "note": "The property is false; the theorems state exactly what is returned, for all inputs."
  },
  {
   "property": "C56",
   "status": "proved",
   "theorems": [
    "C56_shape_mismatch",
    "C56_factor_zero",
    "C56_only_2d",
    "C56_layout",
    "C56_negative_factor_registered",
    "C56_single_row_or_column",
    "C56_constants_ignored",
    "C56_factors_ignored",
    "C56_backend_irrelevant"
   ],
   "note": ""
  },
  {
   "property": "C57",
   "status": "proved",
   "theorems": [
    "C57_iterative_zoom_terminates",
    "C57_iterative_zoom_1d_terminates",
    "C57_iterative_zoom_always_ends",
    "C57_iterative_zoom_1d_always_ends",
    "C57_zoomstep_one_runs_forever",
    "C57_iterative_zoom_succeeds"
   ],
   "note": "Explicit bound from the image, 1-D and 2-D; zoomstep=1 shown to run forever for every odd image with a central extremum."
  },
  {
   "property": "C58",
   "status": "proved",
   "theorems": [
    "C58_iterative_zoom_result",
    "C58_near_best_pixel",
    "C58_iterative_zoom_1d_result",
    "C58_iterative_zoom_path"
   ],
   "note": ""
  },
  {
   "property": "C59",
   "status": "proved",
   "theorems": [
    "C59_constant_image_raises",
    "C59_nan_raises",
    "C59_small_differences",
    "C59_minimum_position_refuted",
    "C59_any_rank_raises",
    "C59_other_ranks",
    "C59_other_ranks_1d"
   ],
   "note": "'Returns the minimum position' refuted by C59_minimum_position_refuted."
  },
  {
   "property": "C60",
   "status": "proved",
   "theorems": [
    "C60_gaussian",
    "C60_boxcar",
    "C60_boxcar_on_current_numpy_refuted",
    "C60_boxcar_float_width_raises",
    "C60_tophat",
    "C60_trapezoid",
    "C60_force_odd",
    "C60_errors"
   ],
   "note": "Boxcar: proved for the numpy that accepts a list of slices as index (< 1.23); on later ones every boxcar call raises IndexError (C60_boxcar_on_current_numpy_refuted)."
  },
  {
   "property": "C61",
   "status": "proved",
   "theorems": [
    "C61_tophat_odd_sizes",
    "C61_boxcar_odd_width",
    "C61_tophat_even_size_refuted",
    "C61_boxcar_refuted"
   ],
   "note": "False as stated; proved exactly where it holds and refuted on concrete kernels elsewhere."
  },
  {
   "property": "C62",
   "status": "proved",
   "theorems": [
    "C62_smooth_always_raises_refuted",
    "C62_smooth_default_call",
    "C62_which_exception"
   ],
   "note": "The property is false; proved that no call to smooth returns."
  },
  {
   "property": "C63",
   "status": "proved",
   "theorems": [
    "C63_union_covers_both",
    "C63_intersection_covers_common",
    "C63_other_overlap_raises",
    "C63_zero_pixel_scale_raises",
    "C63_unusable_header_raises",
    "C63_symmetric",
    "C63_longitudes_modulo_360",
    "C63_union_disjoint_refuted",
    "C63_mixed_scale_refuted",
    "C63_straddling_180_refuted",
    "C63_fits_overlap_of_files",
    "C63_fits_overlap_unreadable_file"
   ],
   "note": "True for overlapping footprints; refuted for disjoint union, mixed CD/CDELT headers and footprints straddling the wrap longitude."
  },
  {
   "property": "C64",
   "status": "proved",
   "theorems": [
    "C64_cards"
   ],
   "note": ""
  },
  {
   "property": "C65",
   "status": "proved",
   "theorems": [
    "C65_match_fits",
    "C65_shape_mismatch_raises",
    "C65_equal_shapes_succeed"
   ],
   "note": ""
  },
  {
   "property": "C66",
   "status": "proved",
   "theorems": [
    "C66_layout",
    "C66_wrong_number_raises",
    "C66_chi2_shift_roll"
   ],
   "note": ""
  },
  {
   "property": "C67",
   "status": "proved",
   "theorems": [
    "C67_result",
    "C67_shape_mismatch_raises",
    "C67_noise",
    "C67_masked_pixel_disables_sigma_cut",
    "C67_roll_recovered"
   ],
   "note": ""
  },
  {
   "property": "C68",
   "status": "proved",
   "theorems": [
    "C68_load_header",
    "C68_load_data",
    "C68_missing_file_reported_as_attribute_error",
    "C68_get_cd"
   ],
   "note": "astropy's readers are parameters; what is proved is the dispatch, including the gaps (None for unreadable files and zero CD elements, negative axis numbers)."
  },
  {
   "property": "C69",
   "status": "proved",
   "theorems": [
    "C69_register_images",
    "C69_chi2n_map",
    "C69_chi2_shift",
    "C69_cross_correlation_shifts",
    "C69_shiftnd",
    "C69_leastsq_overwrites_error_map_refuted",
    "C69_leastsq_images_intact"
   ],
   "note": "Proved for register_images, chi2n_map, cross_correlation_shifts and shiftnd; refuted for chi2_shift_leastsq, which writes inf into the error map.  chi2_shift and register_fits only call these."
  },
  {
   "property": "C70",
   "status": "proved",
   "theorems": [
    "C70_chi2_and_register_agree",
    "C70_all_methods_agree_even"
   ],
   "note": "chi2_shift, register_images and shift2d for all sizes; cross_correlation_shifts for even sizes (odd sizes: half-pixel bias, C46); chi2_shift_iterzoom always raises (C44)."
  },
  {
   "property": "C71",
   "status": "proved",
   "theorems": [
    "C71_swap_negates"
   ],
   "note": ""
  },
  {
   "property": "C72",
   "status": "proved",
   "theorems": [
    "C72_error_is_unit_dependent"
   ],
   "note": "The property is false; refuted on a concrete image and factor."
  },
  {
   "property": "C73",
   "status": "proved",
   "theorems": [
    "C73_swapping_negates",
    "C73_negated_in_range"
   ],
   "note": ""
  },
  {
   "property": "C74",
   "status": "proved",
   "theorems": [
    "C74_odd_zoomshape_never_worse",
    "C74_even_zoomshape_refuted"
   ],
   "note": "True for odd zoomshape; refuted for even zoomshape."
  },
  {
   "property": "C75",
   "status": "proved",
   "theorems": [
    "C75_self_overlap_refuted"
   ],
   "note": "The property is false; the theorem states the exact size and offset of the result."
  },
  {
   "property": "C76",
   "status": "proved",
   "theorems": [
    "C76_register_fits_default_fails_refuted",
    "C76_other_methods_rejected_refuted",
    "C76_cross_correlation_shifts_FITS_methods_refuted"
   ],
   "note": "The property is false; the theorems give the exception for every method except chi2_shift (which is C66)."
  },
  {
   "property": "C77",
   "status": "proved",
   "theorems": [
    "C77_defaults_raise"
   ],
   "note": "The property is false; every such call raises TypeError."
  },
  {
   "property": "C78",
   "status": "proved",
   "theorems": [
    "C78_uniqueness_without_mean",
    "C78_objective",
    "C78_roll_is_the_perfect_fit",
    "C78_returns_what_lmfit_finds"
   ],
   "note": "lmfit is an arbitrary strategy that asks for residuals at points of its choice."
  },
  {
   "property": "C79",
   "status": "proved",
   "theorems": [
    "C79_interpnd_2d_is_interp2d",
    "C79_interpnd_is_separable_interpolant",
    "C79_interpnd_never_returns_on_modern_numpy",
    "C79_interpnd_other_dimensions_raise",
    "C79_interpnd_exceptions"
   ],
   "note": "Dimension 2 in full; for other dimensions the failure is proved."
  },
  {
   "property": "C80",
   "status": "proved",
   "theorems": [
    "C80_every_option",
    "C80_padding_is_wide_enough",
    "C80_other_failures"
   ],
   "note": ""
  },
  {
   "property": "C81",
   "status": "proved",
   "theorems": [
    "C81_return_fft",
    "C81_inverse_is_convolution"
   ],
   "note": ""
  },
  {
   "property": "C82",
   "status": "proved",
   "theorems": [
    "C82_any_schedule",
    "C82_every_call_finishes"
   ],
   "note": ""
  },
  {
   "property": "C83",
   "status": "proved",
   "theorems": [
    "C83_error_formula",
    "C83_errors_belong_to_the_other_axis_refuted",
    "C83_error_every_case",
    "C83_zero_errors_refuted"
   ],
   "note": ""
  },
  {
   "property": "C84",
   "status": "proved",
   "theorems": [
    "C84_error_images_ignored_refuted",
    "C84_error_images_of_other_shapes"
   ],
   "note": ""
  },
  {
   "property": "C85",
   "status": "proved",
   "theorems": [
    "C85_half_pixel_shifts_recovered",
    "C85_grid_shifts_recovered",
    "C85_within_a_grid_step_refuted"
   ],
   "note": ""
  },
  {
   "property": "C86",
   "status": "proved",
   "theorems": [
    "C86_gaussian_peak_one",
    "C86_tophat_peak_one",
    "C86_boxcar_peak_one",
    "C86_trapezoid_ignores_normalize_kernel_refuted",
    "C86_degenerate_widths_give_nan"
   ],
   "note": ""
  },
  {
   "property": "C87",
   "status": "proved",
   "theorems": [
    "C87_masks_are_ignored",
    "C87_masked_pixels_are_nan_refuted"
   ],
   "note": ""
  },
  {
   "property": "C88",
   "status": "proved",
   "theorems": [
    "C88_error_map_is_shifted_too",
    "C88_constant_error_map",
    "C88_map_coordinates_objective",
    "C88_map_coordinates_sign"
   ],
   "note": ""
  },
  {
   "property": "C89",
   "status": "proved",
   "theorems": [
    "C89_exact_when_squares_fit",
    "C89_overflow_adds_a_constant",
    "C89_negative_chi2_refuted",
    "C89_wrong_minimum_refuted",
    "C89_different_shapes_raise"
   ],
   "note": ""
  },
  {
   "property": "C90",
   "status": "proved",
   "theorems": [
    "C90_correlate2d",
    "C90_chi2n_map",
    "C90_chi2_shift",
    "C90_cross_correlation_shifts",
    "C90_register_images"
   ],
   "note": ""
  },
  {
   "property": "C91",
   "status": "proved",
   "theorems": [
    "C91_correlate2d",
    "C91_chi2n_map",
    "C91_cross_correlation_shifts",
    "C91_register_images",
    "C91_chi2_shift",
    "C91_chi2_shift_rectangular_refuted",
    "C91_register_images_half_pixel",
    "C91_register_images_upsampled"
   ],
   "note": ""
  },
  {
   "property": "C92",
   "status": "proved",
   "theorems": [
    "C92_correlate2d",
    "C92_chi2n_map",
    "C92_chi2_shift",
    "C92_cross_correlation_shifts",
    "C92_register_images"
   ],
   "note": ""
  },
  {
   "property": "C93",
   "status": "proved",
   "theorems": [
    "C93_chi2n_map",
    "C93_chi2_shift",
    "C93_unit_dependence_refuted"
   ],
   "note": ""
  },
  {
   "property": "C94",
   "status": "proved",
   "theorems": [
    "C94_chi2n_map",
    "C94_chi2_shift",
    "C94_register_images",
    "C94_nonnegative_images",
    "C94_cross_correlation_shifts",
    "C94_bound_is_sharp"
   ],
   "note": ""
  },
  {
   "property": "C95",
   "status": "proved",
   "theorems": [
    "C95_refinement_unbounded_refuted"
   ],
   "note": ""
  },
  {
   "property": "C96",
   "status": "proved",
   "theorems": [
    "C96_error_bars_grow_with_the_error",
    "C96_error_bars_vanish_for_small_errors",
    "C96_exact_roll_zero_error_bars"
   ],
   "note": ""
  },
  {
   "property": "C97",
   "status": "proved",
   "theorems": [
    "C97_linear_in_the_image",
    "C97_wrap_commutes_with_rolls",
    "C97_wrap_order_does_not_matter"
   ],
   "note": ""
  },
  {
   "property": "C98",
   "status": "proved",
   "theorems": [
    "C98_smoothing_stays_in_range",
    "C98_wrap_stays_in_range",
    "C98_nan_interpolation_stays_in_range"
   ],
   "note": ""
  },
  {
   "property": "C99",
   "status": "proved",
   "theorems": [
    "C99_downsampling_in_two_steps",
    "C99_with_nan_refuted"
   ],
   "note": ""
  },
  {
   "property": "C100",
   "status": "proved",
   "theorems": [
    "C100_zoom_of_rolled_image",
    "C100_upsampling_of_rolled_image",
    "C100_zoom_is_linear",
    "C100_upsampling_is_linear"
   ],
   "note": ""
  },
  {
   "property": "C101",
   "status": "proved",
   "theorems": [
    "C101_options_reach_chi2_shift",
    "C101_return_chi2array_refuted",
    "C101_header_and_use_mad_std_refuted",
    "C101_options_with_errfile_refuted",
    "C101_no_chi2_shift_option_with_errfile",
    "C101_truth_values"
   ],
   "note": ""
  },
  {
   "property": "C102",
   "status": "proved",
   "theorems": [
    "C102_modelled_options_work",
    "C102_documented_options_refuted",
    "C102_cross_correlation_options",
    "C102_different_shapes_raise",
    "C102_truth_values"
   ],
   "note": ""
  },
  {
   "property": "C103",
   "status": "proved",
   "theorems": [
    "C103_correlate2d",
    "C103_shiftnd",
    "C103_chi2n_map",
    "C103_chi2_minimum",
    "C103_register_images",
    "C103_register_same_answer",
    "C103_distance_form",
    "C103_l2_accuracy",
    "C103_exact_transforms",
    "C103_same_exceptions",
    "C103_ties_refuted"
   ],
   "note": ""
  },
  {
   "property": "C104",
   "status": "proved",
   "theorems": [
    "C104_in_phase",
    "C104_closest",
    "C104_moved_image"
   ],
   "note": ""
  },
  {
   "property": "C105",
   "status": "proved",
   "theorems": [
    "C105_edges_of_equal_bins",
    "C105_centres_between_edges",
    "C105_too_short",
    "C105_descending_refuted",
    "C105_unequal_refuted"
   ],
   "note": ""
  },
  {
   "property": "C106",
   "status": "proved",
   "theorems": [
    "C106_odd_multiple_never_worse",
    "C106_identical_images_worse_above_size",
    "C106_even_multiple_worse"
   ],
   "note": ""
  },
  {
   "property": "C107",
   "status": "proved",
   "theorems": [
    "C107_any_images_agree",
    "C107_negative_image"
   ],
   "note": ""
  },
  {
   "property": "C108",
   "status": "proved",
   "theorems": [
    "C108_without_error_map_same_result",
    "C108_returned_map_off_by_a_constant",
    "C108_exact_when_squares_fit",
    "C108_error_map_refuted"
   ],
   "note": ""
  },
  {
   "property": "C109",
   "status": "proved",
   "theorems": [
    "C109_same_when_differences_fit",
    "C109_unsigned_minimum",
    "C109_signed_small_range",
    "C109_unsigned_maximum_not_zoomed",
    "C109_saturated_star_refuted",
    "C109_needless_zoom_refuted"
   ],
   "note": ""
  },
  {
   "property": "C110",
   "status": "proved",
   "theorems": [
    "C110_same_offsets",
    "C110_same_errors_when_squares_fit",
    "C110_errors_refuted"
   ],
   "note": ""
  },
  {
   "property": "C111",
   "status": "proved",
   "theorems": [
    "C111_zoom",
    "C111_upsample_image",
    "C111_chi2_shift",
    "C111_chi2_shift_same_answer",
    "C111_exact_operations"
   ],
   "note": ""
  },
  {
   "property": "C112",
   "status": "proved",
   "theorems": [
    "C112_fft_is_accurate",
    "C112_zoom_is_accurate",
    "C112_roundoff",
    "C112_register_images",
    "C112_chi2_shift"
   ],
   "note": ""
  },
  {
   "property": "C113",
   "status": "proved",
   "theorems": [
    "C113_double_is_accurate",
    "C113_double_register_images",
    "C113_double_chi2_shift",
    "C113_chi2n_map",
    "C113_chi2_shift",
    "C113_chi2_shift_same_answer",
    "C113_register_images",
    "C113_register_same_answer"
   ],
   "note": ""
  },
  {
   "property": "C114",
   "status": "proved",
   "theorems": [
    "C114_fit",
    "C114_unique_maximum",
    "C114_roll_recovered_even",
    "C114_error_map_uniform",
    "C114_error_map_refuted",
    "C114_scale_ignored"
   ],
   "note": ""
  },
  {
   "property": "C115",
   "status": "proved",
   "theorems": [
    "C115_double",
    "C115_same_answer"
   ],
   "note": ""
  },
  {
   "property": "C116",
   "status": "proved",
   "theorems": [
    "C116_mismatch",
    "C116_chi2_shift",
    "C116_offset_error",
    "C116_corrected"
   ],
   "note": ""
  },
  {
   "property": "C117",
   "status": "proved",
   "theorems": [
    "C117_register_images",
    "C117_offset_error",
    "C117_registered"
   ],
   "note": ""
  },
  {
   "property": "C118",
   "status": "proved",
   "theorems": [
    "C118_chi2_helper",
    "C118_chi2_helper_is_the_map",
    "C118_chi2_helper_refuted",
    "C118_chi2_helper_upsampled",
    "C118_offset_image",
    "C118_taper_refuted",
    "C118_extended_test"
   ],
   "note": ""
  },
  {
   "property": "C119",
   "status": "proved",
   "theorems": [
    "C119_chi2_shift",
    "C119_automatic_factor",
    "C119_register_images"
   ],
   "note": ""
  },
  {
   "property": "C120",
   "status": "proved",
   "theorems": [
    "C120_roll",
    "C120_double_roll",
    "C120_cross_correlation_shifts"
   ],
   "note": ""
  },
  {
   "property": "C121",
   "status": "proved",
   "theorems": [
    "C121_chi2_shift",
    "C121_register_images",
    "C121_convergence",
    "C121_register_images_any_flux",
    "C121_register_convergence"
   ],
   "note": ""
  },
  {
   "property": "C122",
   "status": "proved",
   "theorems": [
    "C122_double_errors",
    "C122_double",
    "C122_rounded_answer",
    "C122_exact"
   ],
   "note": ""
  },
  {
   "property": "C123",
   "status": "proved",
   "theorems": [
    "C123_integer_factor",
    "C123_double",
    "C123_register_images",
    "C123_same_answer",
    "C123_half",
    "C123_exact",
    "C123_whole"
   ],
   "note": ""
  },
  {
   "property": "C124",
   "status": "proved",
   "theorems": [
    "C124_double",
    "C124_small",
    "C124_convolution",
    "C124_weighted",
    "C124_return_fft",
    "C124_exact",
    "C124_zero_weight_refuted"
   ],
   "note": ""
  },
  {
   "property": "C125",
   "status": "proved",
   "theorems": [
    "C125_double",
    "C125_double_shift2d",
    "C125_double_size",
    "C125_shiftnd",
    "C125_shift2d",
    "C125_integer_shift_is_roll",
    "C125_small",
    "C125_exact"
   ],
   "note": ""
  },
  {
   "property": "C126",
   "status": "proved",
   "theorems": [
    "C126_double",
    "C126_recipe"
   ],
   "note": ""
  },
  {
   "property": "C127",
   "status": "proved",
   "theorems": [
    "C127_raw_is_dftups",
    "C127_test_compares_neighbours",
    "C127_odd_axis_raises",
    "C127_python2_raises"
   ],
   "note": ""
  },
  {
   "property": "C128",
   "status": "proved",
   "theorems": [
    "C128_offset_images",
    "C128_refuted",
    "C128_true_shift",
    "C128_test_shifts"
   ],
   "note": ""
  },
  {
   "property": "C129",
   "status": "proved",
   "theorems": [
    "C129_make_extended",
    "C129_psd_refuted",
    "C129_zero_pixel"
   ],
   "note": ""
  },
  {
   "property": "C130",
   "status": "proved",
   "theorems": [
    "C130_readme_example",
    "C130_nearest_pixel"
   ],
   "note": ""
  },
  {
   "property": "C131",
   "status": "proved",
   "theorems": [
    "C131_fits",
    "C131_extended_fits",
    "C131_column_order_refuted",
    "C131_plotted_error_refuted",
    "C131_drivers_refuted",
    "C131_registered_column_refuted"
   ],
   "note": ""
  },
  {
   "property": "C132",
   "status": "proved",
   "theorems": [
    "C132_shiftnd",
    "C132_sampled_function",
    "C132_zoom",
    "C132_zoom1d",
    "C132_interpolation",
    "C132_nyquist_refuted",
    "C132_every_odd_image",
    "C132_every_even_image_refuted"
   ],
   "note": ""
  },
  {
   "property": "C133",
   "status": "proved",
   "theorems": [
    "C133_mismatch",
    "C133_chi2_shift",
    "C133_corrected",
    "C133_register_images"
   ],
   "note": ""
  },
  {
   "property": "C134",
   "status": "proved",
   "theorems": [
    "C134_chi2_shift",
    "C134_noisy_images",
    "C134_register_images",
    "C134_register_noisy_images"
   ],
   "note": ""
  },
  {
   "property": "C135",
   "status": "proved",
   "theorems": [
    "C135_compose",
    "C135_round_trip",
    "C135_flux_and_norm"
   ],
   "note": ""
  },
  {
   "property": "C136",
   "status": "proved",
   "theorems": [
    "C136_near_coarse",
    "C136_register_images",
    "C136_double"
   ],
   "note": ""
  },
  {
   "property": "C137",
   "status": "proved",
   "theorems": [
    "C137_error_bars_cover_exact_roll"
   ],
   "note": ""
  },
  {
   "property": "C138",
   "status": "proved",
   "theorems": [
    "C138_extended_shifts",
    "C138_extended_shifts_refuted",
    "C138_noiseless_passes",
    "C138_every_image_is_reachable",
    "C138_shifts",
    "C138_issue_60",
    "C138_issue19"
   ],
   "note": ""
  },
  {
   "property": "C139",
   "status": "proved",
   "theorems": [
    "C139_no_gaussian_is_fitted_refuted",
    "C139_verdict",
    "C139_perfect_pair",
    "C139_perfect_pairs_exist",
    "C139_lownoise",
    "C139_lownoise_refuted"
   ],
   "note": ""
  }
 ]
}