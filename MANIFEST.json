{
 "claims": [
  {
   "property": "C01",
   "status": "proved",
   "theorems": [
    "C01_closest_value_index"
   ],
   "note": ""
  },
  {
   "property": "C02",
   "status": "proved",
   "theorems": [
    "C02_closest_monotone"
   ],
   "note": ""
  },
  {
   "property": "C03",
   "status": "proved",
   "theorems": [
    "C03_make_radius_list",
    "C03_make_radius_list_log",
    "C03_make_radius_list_log_one"
   ],
   "note": ""
  },
  {
   "property": "C04",
   "status": "proved",
   "theorems": [
    "C04_ellip_elong_inverse",
    "C04_range_increasing",
    "C04_zero_division"
   ],
   "note": ""
  },
  {
   "property": "C05",
   "status": "proved",
   "theorems": [
    "C05_elliptical_area",
    "C05_circle_area"
   ],
   "note": ""
  },
  {
   "property": "C06",
   "status": "proved",
   "theorems": [
    "C06_natural_sort",
    "C06_numbered_names",
    "C06_numbers_raise",
    "C06_superscripts_raise"
   ],
   "note": ""
  },
  {
   "property": "C07",
   "status": "proved",
   "theorems": [
    "C07_abmag_scalar",
    "C07_fainter",
    "C07_abmag_array",
    "C07_abmag_int_array"
   ],
   "note": ""
  },
  {
   "property": "C08",
   "status": "proved",
   "theorems": [
    "C08_cutout_window",
    "C08_cutout_reject",
    "C08_cutout_inplace",
    "C08_cutout_thin"
   ],
   "note": ""
  },
  {
   "property": "C09",
   "status": "proved",
   "theorems": [
    "C09_interpolated_none",
    "C09_interpolated_grid"
   ],
   "note": ""
  },
  {
   "property": "C10",
   "status": "proved",
   "theorems": [
    "C10_pixel_angular_round",
    "C10_linear",
    "C10_assert"
   ],
   "note": ""
  },
  {
   "property": "C11",
   "status": "proved",
   "theorems": [
    "C11_aperture_axes",
    "C11_annulus_axes"
   ],
   "note": ""
  },
  {
   "property": "C12",
   "status": "proved",
   "theorems": [
    "C12_one_entry_per_radius",
    "C12_raises_at_first_bad_radius",
    "C12_values",
    "C12_raises_iff_nan"
   ],
   "note": ""
  },
  {
   "property": "C13",
   "status": "proved",
   "theorems": [
    "C13_masked_pixels_ignored"
   ],
   "note": ""
  },
  {
   "property": "C14",
   "status": "proved",
   "theorems": [
    "C14_accuracy",
    "C14_monotone",
    "C14_monotone_center"
   ],
   "note": ""
  },
  {
   "property": "C15",
   "status": "proved",
   "theorems": [
    "C15_petrosian_formula",
    "C15_accepted_inputs"
   ],
   "note": ""
  },
  {
   "property": "C16",
   "status": "proved",
   "theorems": [
    "C16_repeated_areas",
    "C16_misaligned_witness"
   ],
   "note": ""
  },
  {
   "property": "C17",
   "status": "proved",
   "theorems": [
    "C17_integer_areas"
   ],
   "note": ""
  },
  {
   "property": "C18",
   "status": "proved",
   "theorems": [
    "C18_scale_free",
    "C18_constant_brightness",
    "C18_declining_bounded"
   ],
   "note": ""
  },
  {
   "property": "C19",
   "status": "proved",
   "theorems": [
    "C19_petrosian_errors",
    "C19_wrong_length"
   ],
   "note": ""
  },
  {
   "property": "C20",
   "status": "proved",
   "theorems": [
    "C20_petrosian_radius",
    "C20_total",
    "C20_monotone_in_eta",
    "C20_first_entries_ignored"
   ],
   "note": ""
  },
  {
   "property": "C21",
   "status": "proved",
   "theorems": [
    "C21_error_of_radius",
    "C21_nonnegative_constant_errors",
    "C21_nonnegative_resampled",
    "C21_negative_witness"
   ],
   "note": ""
  },
  {
   "property": "C22",
   "status": "proved",
   "theorems": [
    "C22_outside_data",
    "C22_sampled_radius",
    "C22_nan_radius",
    "C22_nan_radius_witness",
    "C22_monotone"
   ],
   "note": ""
  },
  {
   "property": "C23",
   "status": "proved",
   "theorems": [
    "C23_concentration_index",
    "C23_sign"
   ],
   "note": ""
  },
  {
   "property": "C24",
   "status": "proved",
   "theorems": [
    "C24_history",
    "C24_independent"
   ],
   "note": ""
  },
  {
   "property": "C25",
   "status": "proved",
   "theorems": [
    "C25_half_flux_err",
    "C25_flux_without_interpolation"
   ],
   "note": ""
  },
  {
   "property": "C26",
   "status": "proved",
   "theorems": [
    "C26_rescaling",
    "C26_total_flux_err"
   ],
   "note": ""
  },
  {
   "property": "C27",
   "status": "proved",
   "theorems": [
    "C27_nearest_row",
    "C27_same_measurement"
   ],
   "note": ""
  },
  {
   "property": "C28",
   "status": "proved",
   "theorems": [
    "C28_range",
    "C28_empty"
   ],
   "note": ""
  },
  {
   "property": "C29",
   "status": "proved",
   "theorems": [
    "C29_epsilon"
   ],
   "note": ""
  },
  {
   "property": "C30",
   "status": "proved",
   "theorems": [
    "C30_correct",
    "C30_independent_settings",
    "C30_shared_arrays",
    "C30_shared_arrays_witness"
   ],
   "note": ""
  },
  {
   "property": "C31",
   "status": "proved",
   "theorems": [
    "C31_rows",
    "C31_any_order",
    "C31_any_order_back",
    "C31_plot_with_workers",
    "C31_saving_ignored"
   ],
   "note": ""
  },
  {
   "property": "C32",
   "status": "proved",
   "theorems": [
    "C32_radii",
    "C32_rejected"
   ],
   "note": ""
  },
  {
   "property": "C33",
   "status": "proved",
   "theorems": [
    "C33_special_functions",
    "C33_half_light_constant",
    "C33_enclosed_flux"
   ],
   "note": ""
  },
  {
   "property": "C34",
   "status": "proved",
   "theorems": [
    "C34_inverse"
   ],
   "note": ""
  },
  {
   "property": "C35",
   "status": "proved",
   "theorems": [
    "C35_petrosian_profile"
   ],
   "note": ""
  },
  {
   "property": "C36",
   "status": "proved",
   "theorems": [
    "C36_intensities"
   ],
   "note": ""
  },
  {
   "property": "C37",
   "status": "proved",
   "theorems": [
    "C37_gen_sersic"
   ],
   "note": ""
  },
  {
   "property": "C38",
   "status": "proved",
   "theorems": [
    "C38_nuker",
    "C38_not_at_break"
   ],
   "note": ""
  },
  {
   "property": "C39",
   "status": "proved",
   "theorems": [
    "C39_symmetric_samples"
   ],
   "note": ""
  },
  {
   "property": "C40",
   "status": "proved",
   "theorems": [
    "C40_transparent",
    "C40_any_coordinates"
   ],
   "note": ""
  },
  {
   "property": "C41",
   "status": "proved",
   "theorems": [
    "C41_mean",
    "C41_affine"
   ],
   "note": ""
  },
  {
   "property": "C42",
   "status": "proved",
   "theorems": [
    "C42_from_origin",
    "C42_shifted",
    "C42_shift_error",
    "C42_border",
    "C42_unknown_name",
    "C42_factor_one"
   ],
   "note": ""
  },
  {
   "property": "C43",
   "status": "proved",
   "theorems": [
    "C43_cache_invisible",
    "C43_identity_model_refuted"
   ],
   "note": ""
  },
  {
   "property": "C44",
   "status": "proved",
   "theorems": [
    "C44_compatible",
    "C44_rejected_unchanged",
    "C44_none_accepted",
    "C44_psf_none_accepted",
    "C44_none_breaks_evaluation"
   ],
   "note": ""
  },
  {
   "property": "C45",
   "status": "proved",
   "theorems": [
    "C45_wrap",
    "C45_unwrap",
    "C45_assignments_local",
    "C45_no_double_wrap",
    "C45_fixed_keyword"
   ],
   "note": ""
  },
  {
   "property": "C46",
   "status": "proved",
   "theorems": [
    "C46_linear",
    "C46_evaluate_linear",
    "C46_delta",
    "C46_delta_oversampled",
    "C46_flux",
    "C46_evaluate_flux"
   ],
   "note": ""
  },
  {
   "property": "C47",
   "status": "proved",
   "theorems": [
    "C47_defaults"
   ],
   "note": ""
  },
  {
   "property": "C48",
   "status": "proved",
   "theorems": [
    "C48_rectangle",
    "C48_pixels",
    "C48_size_rejected",
    "C48_size_errors",
    "C48_center_rejected"
   ],
   "note": ""
  },
  {
   "property": "C49",
   "status": "proved",
   "theorems": [
    "C49_call",
    "C49_unique_order",
    "C49_nan_pixels",
    "C49_weights_shape",
    "C49_returns_class"
   ],
   "note": ""
  },
  {
   "property": "C50",
   "status": "proved",
   "theorems": [
    "C50_holder",
    "C50_residual"
   ],
   "note": ""
  },
  {
   "property": "C51",
   "status": "proved",
   "theorems": [
    "C51_label",
    "C51_list",
    "C51_empty",
    "C51_other"
   ],
   "note": ""
  },
  {
   "property": "C52",
   "status": "proved",
   "theorems": [
    "C52_lists",
    "C52_background_sticks",
    "C52_background_clean",
    "C52_unchanged",
    "C52_label_independent"
   ],
   "note": ""
  },
  {
   "property": "C53",
   "status": "proved",
   "theorems": [
    "C53_masked_image",
    "C53_rejected"
   ],
   "note": ""
  },
  {
   "property": "C54",
   "status": "proved",
   "theorems": [
    "C54_centre",
    "C54_cutout",
    "C54_default_side",
    "C54_int_side",
    "C54_float_side"
   ],
   "note": ""
  },
  {
   "property": "C55",
   "status": "proved",
   "theorems": [
    "C55_sorted",
    "C55_unknown_key"
   ],
   "note": ""
  },
  {
   "property": "C56",
   "status": "proved",
   "theorems": [
    "C56_other_pixels",
    "C56_other_errors",
    "C56_arguments_unchanged"
   ],
   "note": ""
  },
  {
   "property": "C57",
   "status": "proved",
   "theorems": [
    "C57_make_radius_list_f64_end_refuted"
   ],
   "note": ""
  },
  {
   "property": "C58",
   "status": "proved",
   "theorems": [
    "C58_closest_monotone_f64_refuted"
   ],
   "note": ""
  },
  {
   "property": "C59",
   "status": "proved",
   "theorems": [
    "C59_integer_areas_with_errors"
   ],
   "note": ""
  },
  {
   "property": "C60",
   "status": "proved",
   "theorems": [
    "C60_error_window",
    "C60_same_radius"
   ],
   "note": ""
  },
  {
   "property": "C61",
   "status": "proved",
   "theorems": [
    "C61_radius_search_writes_only_copies",
    "C61_constructor_copies",
    "C61_object_isolated",
    "C61_getters_share",
    "C61_getter_leak_witness"
   ],
   "note": ""
  },
  {
   "property": "C62",
   "status": "proved",
   "theorems": [
    "C62_unique_values",
    "C62_filter"
   ],
   "note": ""
  },
  {
   "property": "C63",
   "status": "proved",
   "theorems": [
    "C63_row_is_measurement",
    "C63_round_trip"
   ],
   "note": ""
  },
  {
   "property": "C64",
   "status": "proved",
   "theorems": [
    "C64_core_sersic"
   ],
   "note": ""
  },
  {
   "property": "C65",
   "status": "proved",
   "theorems": [
    "C65_estimates_ordered",
    "C65_outside_range"
   ],
   "note": ""
  },
  {
   "property": "C66",
   "status": "proved",
   "theorems": [
    "C66_binary64_refuted",
    "C66_exact"
   ],
   "note": ""
  },
  {
   "property": "C67",
   "status": "proved",
   "theorems": [
    "C67_linear_interp",
    "C67_oversample",
    "C67_affine",
    "C67_refused"
   ],
   "note": ""
  },
  {
   "property": "C68",
   "status": "proved",
   "theorems": [
    "C68_clipped_pixels_passed",
    "C68_mask_ignored",
    "C68_no_sigma"
   ],
   "note": ""
  },
  {
   "property": "C69",
   "status": "proved",
   "theorems": [
    "C69_start",
    "C69_nan_start",
    "C69_empty"
   ],
   "note": ""
  },
  {
   "property": "C70",
   "status": "proved",
   "theorems": [
    "C70_default_raises",
    "C70_default_error",
    "C70_width",
    "C70_turned"
   ],
   "note": ""
  },
  {
   "property": "C71",
   "status": "proved",
   "theorems": [
    "C71_arguments",
    "C71_amplitude"
   ],
   "note": ""
  },
  {
   "property": "C72",
   "status": "proved",
   "theorems": [
    "C72_disc_inside",
    "C72_default_cutout"
   ],
   "note": ""
  },
  {
   "property": "C73",
   "status": "proved",
   "theorems": [
    "C73_catalog",
    "C73_errors"
   ],
   "note": ""
  },
  {
   "property": "C74",
   "status": "proved",
   "theorems": [
    "C74_few_pixels",
    "C74_clip",
    "C74_bound",
    "C74_other_type"
   ],
   "note": ""
  },
  {
   "property": "C75",
   "status": "proved",
   "theorems": [
    "C75_row",
    "C75_integer_image",
    "C75_no_overlap"
   ],
   "note": ""
  },
  {
   "property": "C76",
   "status": "proved",
   "theorems": [
    "C76_weights",
    "C76_covers",
    "C76_photometry"
   ],
   "note": ""
  },
  {
   "property": "C77",
   "status": "proved",
   "theorems": [
    "C77_flux",
    "C77_default_cutout"
   ],
   "note": ""
  },
  {
   "property": "C78",
   "status": "proved",
   "theorems": [
    "C78_row_contents",
    "C78_unique"
   ],
   "note": ""
  },
  {
   "property": "C79",
   "status": "proved",
   "theorems": [
    "C79_drawn",
    "C79_outcome",
    "C79_total_refuted"
   ],
   "note": ""
  },
  {
   "property": "C80",
   "status": "proved",
   "theorems": [
    "C80_drawn",
    "C80_outcome"
   ],
   "note": ""
  },
  {
   "property": "C81",
   "status": "proved",
   "theorems": [
    "C81_percent",
    "C81_percent_f64",
    "C81_radii"
   ],
   "note": ""
  },
  {
   "property": "C82",
   "status": "proved",
   "theorems": [
    "C82_drawn",
    "C82_total"
   ],
   "note": ""
  },
  {
   "property": "C83",
   "status": "proved",
   "theorems": [
    "C83_drawn",
    "C83_same_row",
    "C83_errors"
   ],
   "note": ""
  },
  {
   "property": "C84",
   "status": "proved",
   "theorems": [
    "C84_residual",
    "C84_outside",
    "C84_segments"
   ],
   "note": ""
  },
  {
   "property": "C85",
   "status": "proved",
   "theorems": [
    "C85_drawn",
    "C85_none"
   ],
   "note": ""
  },
  {
   "property": "C86",
   "status": "proved",
   "theorems": [
    "C86_window"
   ],
   "note": ""
  },
  {
   "property": "C87",
   "status": "proved",
   "theorems": [
    "C87_write_read",
    "C87_corrections",
    "C87_no_overwrite",
    "C87_missing"
   ],
   "note": ""
  },
  {
   "property": "C88",
   "status": "proved",
   "theorems": [
    "C88_plot",
    "C88_limit",
    "C88_limit_nan"
   ],
   "note": ""
  },
  {
   "property": "C89",
   "status": "proved",
   "theorems": [
    "C89_same",
    "C89_empty",
    "C89_figures",
    "C89_slices"
   ],
   "note": ""
  },
  {
   "property": "C90",
   "status": "proved",
   "theorems": [
    "C90_unplotted",
    "C90_plotted",
    "C90_maps"
   ],
   "note": ""
  },
  {
   "property": "C91",
   "status": "proved",
   "theorems": [
    "C91_failed",
    "C91_drawn",
    "C91_default"
   ],
   "note": ""
  },
  {
   "property": "C92",
   "status": "proved",
   "theorems": [
    "C92_arcsec_radii"
   ],
   "note": ""
  },
  {
   "property": "C93",
   "status": "proved",
   "theorems": [
    "C93_getters",
    "C93_missing"
   ],
   "note": ""
  },
  {
   "property": "C94",
   "status": "proved",
   "theorems": [
    "C94_arguments"
   ],
   "note": ""
  },
  {
   "property": "C95",
   "status": "proved",
   "theorems": [
    "C95_enclosed_model",
    "C95_petrosian_model"
   ],
   "note": ""
  },
  {
   "property": "C96",
   "status": "proved",
   "theorems": [
    "C96_bracket"
   ],
   "note": ""
  },
  {
   "property": "C97",
   "status": "proved",
   "theorems": [
    "C97_radius"
   ],
   "note": ""
  },
  {
   "property": "C98",
   "status": "proved",
   "theorems": [
    "C98_fraction"
   ],
   "note": ""
  },
  {
   "property": "C99",
   "status": "proved",
   "theorems": [
    "C99_flux",
    "C99_concentration"
   ],
   "note": ""
  },
  {
   "property": "C100",
   "status": "proved",
   "theorems": [
    "C100_profile",
    "C100_radius"
   ],
   "note": ""
  },
  {
   "property": "C101",
   "status": "proved",
   "theorems": [
    "C101_fraction"
   ],
   "note": ""
  },
  {
   "property": "C102",
   "status": "proved",
   "theorems": [
    "C102_zoom",
    "C102_arcsec"
   ],
   "note": ""
  },
  {
   "property": "C103",
   "status": "proved",
   "theorems": [
    "C103_profile",
    "C103_radius",
    "C103_fraction"
   ],
   "note": ""
  },
  {
   "property": "C104",
   "status": "proved",
   "theorems": [
    "C104_transposed",
    "C104_mirrored",
    "C104_upended",
    "C104_center_transposes",
    "C104_center_mirrors",
    "C104_center_upends"
   ],
   "note": ""
  },
  {
   "property": "C105",
   "status": "proved",
   "theorems": [
    "C105_window"
   ],
   "note": ""
  },
  {
   "property": "C106",
   "status": "proved",
   "theorems": [
    "C106_half_turn",
    "C106_circle"
   ],
   "note": ""
  },
  {
   "property": "C107",
   "status": "proved",
   "theorems": [
    "C107_weights",
    "C107_unique"
   ],
   "note": ""
  },
  {
   "property": "C108",
   "status": "proved",
   "theorems": [
    "C108_on_image"
   ],
   "note": ""
  },
  {
   "property": "C109",
   "status": "proved",
   "theorems": [
    "C109_bound",
    "C109_monotone",
    "C109_monotone_subpixel"
   ],
   "note": ""
  },
  {
   "property": "C110",
   "status": "proved",
   "theorems": [
    "C110_exact",
    "C110_subpixel",
    "C110_half_turn",
    "C110_circle",
    "C110_window"
   ],
   "note": ""
  },
  {
   "property": "C111",
   "status": "proved",
   "theorems": [
    "C111_weights",
    "C111_one"
   ],
   "note": ""
  },
  {
   "property": "C112",
   "status": "proved",
   "theorems": [
    "C112_known",
    "C112_unknown"
   ],
   "note": ""
  },
  {
   "property": "C113",
   "status": "proved",
   "theorems": [
    "C113_nearest",
    "C113_itself",
    "C113_unit",
    "C113_turns",
    "C113_errors"
   ],
   "note": ""
  },
  {
   "property": "C114",
   "status": "proved",
   "theorems": [
    "C114_pixels",
    "C114_total",
    "C114_negative"
   ],
   "note": ""
  },
  {
   "property": "C115",
   "status": "proved",
   "theorems": [
    "C115_modes",
    "C115_affine",
    "C115_bounds"
   ],
   "note": ""
  },
  {
   "property": "C116",
   "status": "proved",
   "theorems": [
    "C116_sandwich",
    "C116_fluxes"
   ],
   "note": ""
  },
  {
   "property": "C117",
   "status": "proved",
   "theorems": [
    "C117_pixels",
    "C117_fluxes"
   ],
   "note": ""
  },
  {
   "property": "C118",
   "status": "proved",
   "theorems": [
    "C118_sersic"
   ],
   "note": ""
  },
  {
   "property": "C119",
   "status": "proved",
   "theorems": [
    "C119_petrosian"
   ],
   "note": ""
  },
  {
   "property": "C120",
   "status": "proved",
   "theorems": [
    "C120_fraction"
   ],
   "note": ""
  },
  {
   "property": "C121",
   "status": "proved",
   "theorems": [
    "C121_flux",
    "C121_concentration"
   ],
   "note": ""
  },
  {
   "property": "C122",
   "status": "proved",
   "theorems": [
    "C122_pixels",
    "C122_window"
   ],
   "note": ""
  },
  {
   "property": "C123",
   "status": "proved",
   "theorems": [
    "C123_photometry"
   ],
   "note": ""
  },
  {
   "property": "C124",
   "status": "proved",
   "theorems": [
    "C124_input",
    "C124_small"
   ],
   "note": ""
  },
  {
   "property": "C125",
   "status": "proved",
   "theorems": [
    "C125_exact_fit",
    "C125_residual",
    "C125_rendered",
    "C125_background"
   ],
   "note": "for fitters that meet finds_exact or fits_planes of S_LSQ.v (ideal minimisers); instances are built in E_LSQ.v"
  },
  {
   "property": "C126",
   "status": "proved",
   "theorems": [
    "C126_plane_removed",
    "C126_plane_added",
    "C126_bound_removed",
    "C126_bound_offset"
   ],
   "note": "for fitters that meet fits_planes of S_LSQ.v (exact least squares); an instance is built in E_LSQ.v"
  },
  {
   "property": "C127",
   "status": "proved",
   "theorems": [
    "C127_value",
    "C127_no_exception",
    "C127_zero",
    "C127_sampling_ignored",
    "C127_nonnegative"
   ],
   "note": ""
  },
  {
   "property": "C128",
   "status": "proved",
   "theorems": [
    "C128_aliases",
    "C128_concentration",
    "C128_indices",
    "C128_fluxes",
    "C128_total_is_epsilon"
   ],
   "note": ""
  },
  {
   "property": "C129",
   "status": "proved",
   "theorems": [
    "C129_lines",
    "C129_close",
    "C129_same_text"
   ],
   "note": ""
  },
  {
   "property": "C130",
   "status": "proved",
   "theorems": [
    "C130_gen_sersic",
    "C130_core_sersic",
    "C130_nuker",
    "C130_transposed",
    "C130_mirrored",
    "C130_upended",
    "C130_shifted",
    "C130_scaled",
    "C130_galaxy_transposed",
    "C130_galaxy_mirrored",
    "C130_galaxy_upended",
    "C130_galaxy_shifted"
   ],
   "note": ""
  },
  {
   "property": "C131",
   "status": "proved",
   "theorems": [
    "C131_curvature",
    "C131_radius",
    "C131_fraction",
    "C131_flux",
    "C131_concentration"
   ],
   "note": ""
  },
  {
   "property": "C132",
   "status": "proved",
   "theorems": [
    "C132_petrosian",
    "C132_fraction",
    "C132_flux",
    "C132_concentration"
   ],
   "note": ""
  },
  {
   "property": "C133",
   "status": "proved",
   "theorems": [
    "C133_computed",
    "C133_errors",
    "C133_unique",
    "C133_exact",
    "C133_overshoot"
   ],
   "note": ""
  },
  {
   "property": "C134",
   "status": "proved",
   "theorems": [
    "C134_radius",
    "C134_fraction",
    "C134_flux",
    "C134_concentration"
   ],
   "note": ""
  },
  {
   "property": "C135",
   "status": "proved",
   "theorems": [
    "C135_petrosian",
    "C135_fraction",
    "C135_flux",
    "C135_concentration"
   ],
   "note": ""
  },
  {
   "property": "C136",
   "status": "proved",
   "theorems": [
    "C136_limits",
    "C136_petrosian",
    "C136_share"
   ],
   "note": ""
  },
  {
   "property": "C137",
   "status": "proved",
   "theorems": [
    "C137_units",
    "C137_linear",
    "C137_moved",
    "C137_steady"
   ],
   "note": ""
  },
  {
   "property": "C138",
   "status": "proved",
   "theorems": [
    "C138_flux_unit",
    "C138_length_unit",
    "C138_radius",
    "C138_fraction"
   ],
   "note": ""
  },
  {
   "property": "C139",
   "status": "proved",
   "theorems": [
    "C139_epsilon",
    "C139_radius",
    "C139_half_light",
    "C139_bias",
    "C139_measured_half_light",
    "C139_measured_flux",
    "C139_measured_concentration",
    "C139_concentration"
   ],
   "note": ""
  },
  {
   "property": "C140",
   "status": "proved",
   "theorems": [
    "C140_petrosian",
    "C140_fraction",
    "C140_samples"
   ],
   "note": ""
  },
  {
   "property": "C141",
   "status": "proved",
   "theorems": [
    "C141_values",
    "C141_between",
    "C141_errors",
    "C141_units"
   ],
   "note": ""
  },
  {
   "property": "C142",
   "status": "proved",
   "theorems": [
    "C142_reported",
    "C142_missing",
    "C142_attributes"
   ],
   "note": ""
  },
  {
   "property": "C143",
   "status": "proved",
   "theorems": [
    "C143_radius",
    "C143_level",
    "C143_missing",
    "C143_reported"
   ],
   "note": ""
  },
  {
   "property": "C144",
   "status": "proved",
   "theorems": [
    "C144_profile"
   ],
   "note": ""
  },
  {
   "property": "C145",
   "status": "proved",
   "theorems": [
    "C145_sample",
    "C145_same_as_exact"
   ],
   "note": ""
  },
  {
   "property": "C146",
   "status": "proved",
   "theorems": [
    "C146_radius_list"
   ],
   "note": ""
  },
  {
   "property": "C147",
   "status": "proved",
   "theorems": [
    "C147_round_trip"
   ],
   "note": ""
  },
  {
   "property": "C148",
   "status": "proved",
   "theorems": [
    "C148_flux",
    "C148_order"
   ],
   "note": ""
  },
  {
   "property": "C149",
   "status": "proved",
   "theorems": [
    "C149_counts",
    "C149_area"
   ],
   "note": ""
  },
  {
   "property": "C150",
   "status": "proved",
   "theorems": [
    "C150_grid",
    "C150_resampled"
   ],
   "note": ""
  },
  {
   "property": "C151",
   "status": "proved",
   "theorems": [
    "C151_radius"
   ],
   "note": ""
  },
  {
   "property": "C152",
   "status": "proved",
   "theorems": [
    "C152_rounding",
    "C152_rint",
    "C152_counts"
   ],
   "note": ""
  },
  {
   "property": "C153",
   "status": "proved",
   "theorems": [
    "C153_same_as_exact"
   ],
   "note": ""
  },
  {
   "property": "C154",
   "status": "proved",
   "theorems": [
    "C154_fraction",
    "C154_missing"
   ],
   "note": ""
  },
  {
   "property": "C155",
   "status": "proved",
   "theorems": [
    "C155_error"
   ],
   "note": ""
  },
  {
   "property": "C156",
   "status": "proved",
   "theorems": [
    "C156_photometry",
    "C156_rounding"
   ],
   "note": ""
  },
  {
   "property": "C157",
   "status": "proved",
   "theorems": [
    "C157_same_as_exact"
   ],
   "note": ""
  },
  {
   "property": "C158",
   "status": "proved",
   "theorems": [
    "C158_total_flux",
    "C158_half_flux"
   ],
   "note": ""
  },
  {
   "property": "C159",
   "status": "proved",
   "theorems": [
    "C159_deviation",
    "C159_nearest",
    "C159_found",
    "C159_same"
   ],
   "note": ""
  },
  {
   "property": "C160",
   "status": "proved",
   "theorems": [
    "C160_coordinates",
    "C160_powers",
    "C160_oversampled"
   ],
   "note": ""
  },
  {
   "property": "C161",
   "status": "proved",
   "theorems": [
    "C161_errors"
   ],
   "note": ""
  },
  {
   "property": "C162",
   "status": "proved",
   "theorems": [
    "C162_runs",
    "C162_error"
   ],
   "note": ""
  },
  {
   "property": "C163",
   "status": "proved",
   "theorems": [
    "C163_units",
    "C163_any_factor_refuted"
   ],
   "note": ""
  }
 ]
}