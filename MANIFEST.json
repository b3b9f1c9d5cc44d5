{"claims": [
  {"property": "C01", "status": "proved", "theorems": ["C01_vector_views_agree", "C01_names_are_paths"], "note": "Tree of parameter objects of any shape; names are component lists."},
  {"property": "C02", "status": "proved", "theorems": ["C02_set_params_writes_exactly_thawed", "C02_short_vector_raises", "C02_long_vector_refuted"], "note": "Exact-length vectors; too-long vectors are silently accepted by lists (finding)."},
  {"property": "C03", "status": "proved", "theorems": ["C03_write_back_identity"], "note": ""},
  {"property": "C04", "status": "proved", "theorems": ["C04_set_one_param", "C04_out_of_range_raises"], "note": ""},
  {"property": "C05", "status": "proved", "theorems": ["C05_all_params_round_trip"], "note": ""},
  {"property": "C06", "status": "proved", "theorems": ["C06_flags_replay", "C06_reported_indices"], "note": "Histories of any length, including raising calls."},
  {"property": "C07", "status": "proved", "theorems": ["C07_recursive_flags", "C07_freeze_all_recursive", "C07_thaw_all_recursive", "C07_catalog_member_names_refuted"], "note": "Needs consistently declared names; Catalog violates that (finding)."},
  {"property": "C08", "status": "proved", "theorems": ["C08_thaw_paths_to"], "note": ""},
  {"property": "C09", "status": "proved", "theorems": ["C09_liquid_index"], "note": ""},
  {"property": "C10", "status": "partial", "theorems": ["C10_copy_preserves", "C10_copy_independent", "C10_set_params_local", "C10_flag_append_local", "C10_unshared_refines", "C10_copy_drops_bounds_refuted", "C10_copy_missing_refuted", "C10_shared_member_refuted"], "note": "Values, flags and independence through every later history, over object graphs with sharing. The full claim is false for a group with a missing member (the copy raises); bounds are not copied."},
  {"property": "C100", "status": "proved", "theorems": ["C100_program", "C100_keys", "C100_copy", "C100_equal"], "note": "For every sequence of operations, by an invariant on the doubly linked list in the heap."},
  {"property": "C101", "status": "partial", "theorems": ["C101_read", "C101_write", "C101_write_all", "C101_write_one", "C101_fortran_refuted", "C101_bounds_refuted", "C101_copy_refuted"], "note": "Reading for every array; writing for C-contiguous ones. Refuted: writes with Fortran order are lost, bounds are empty, copy raises."},
  {"property": "C102", "status": "proved", "theorems": ["C102_entries", "C102_exp", "C102_dev", "C102_half_light"], "note": "For all radii; integrals and the 2.2 per cent bound by interval arithmetic inside the kernel."},
  {"property": "C103", "status": "partial", "theorems": ["C103_unit", "C103_exp", "C103_dev", "C103_core", "C103_light", "C103_gaussian_refuted"], "note": "For all points of the plane. Refuted in part: re does not hold half the light of a GaussianGalaxy (39 per cent)."},
  {"property": "C104", "status": "partial", "theorems": ["C104_inside", "C104_half", "C104_half_refuted", "C104_falls", "C104_law_light", "C104_law", "C104_law_refuted"], "note": "Positive and falling: all tabulated indices, all radii. Half light: to 0.4 per cent up to 0.85, but 53 per cent at 4 and 56 at 6 (refuted). Law: in proportion within 6 per cent (9 at index 1) from 0.1 to 3 radii, but up to 12 per cent brighter than the law of unit flux (refuted). Indices between the rows are not covered (the spline is arbitrary there)."},
  {"property": "C105", "status": "partial", "theorems": ["C105_one", "C105_catalogue", "C105_disk_radius", "C105_unknown_refuted", "C105_faint_star_refuted", "C105_dr7_refuted"], "note": "Proved for rows with known disk and spheroid magnitudes and distinct bands; the half-light radius of the disk to one part in a thousand of its light. Refuted for NaN magnitudes, for faint stars and for DR7."},
  {"property": "C106", "status": "partial", "theorems": ["C106_rows", "C106_free", "C106_none_refuted", "C106_parent_refuted", "C106_unnamed_refuted"], "note": "Proved without None members, the agreement with getParamNames for named entries. Refuted for None members, for the documented meaning of the last column and for unnamed entries."},
  {"property": "C107", "status": "partial", "theorems": ["C107_values", "C107_nan_refuted", "C107_thing_refuted"], "note": "Proved for values that are not NaN. Refuted for NaN and for operands that are not parameters."},
  {"property": "C108", "status": "partial", "theorems": ["C108_error", "C108_counts", "C108_sign_refuted", "C108_large_counts_refuted"], "note": "The error bound and the exactness of counts are proved for any precision. Refuted: that sums of boxes of non-negative pixels are not negative, and exactness for larger counts."},
  {"property": "C109", "status": "partial", "theorems": ["C109_not_positive", "C109_error", "C109_zero", "C109_order", "C109_chi", "C109_order_refuted", "C109_zero_refuted"], "note": "Proved for chi images in binary32, the sign for any. The order of two models is proved beyond the rounding and refuted within; zero for a perfect fit only is refuted for binary64 chi images."},
  {"property": "C11", "status": "proved", "theorems": ["C11_flags_follow_members"], "note": ""},
  {"property": "C110", "status": "partial", "theorems": ["C110_error", "C110_order", "C110_light", "C110_counts", "C110_error_double", "C110_order_refuted"], "note": "Independence of the order is proved up to twice the error and refuted exactly."},
  {"property": "C111", "status": "partial", "theorems": ["C111_mask", "C111_full", "C111_cover", "C111_radius", "C111_normalized", "C111_normalized_mask_refuted", "C111_skip", "C111_skip_refuted"], "note": "Proved for any interpolation. Refuted: masks with normalised PSFs, and the skipping of stars for stamps coarser than the image. Pixels within one pixel of the edge of the stamp may be missing, and a radius drops the last row and column."},
  {"property": "C112", "status": "partial", "theorems": ["C112_views", "C112_write", "C112_group", "C112_all_params", "C112_set_all", "C112_freeze", "C112_bounds_plain", "C112_steps_refuted", "C112_all_params_refuted", "C112_bounds_refuted", "C112_freeze_refuted", "C112_trials_refuted"], "note": "Parameters, names, steps and writes are passed on (proved for any nesting and in groups). Refuted: setting steps, getAllParams with frozen parameters, bounds, recursive freezing, and trial steps of the constrained optimizer."},
  {"property": "C113", "status": "partial", "theorems": ["C113_flux", "C113_missing", "C113_pixel", "C113_step", "C113_nanomaggies", "C113_swallowed_refuted", "C113_pixel_refuted"], "note": "Bounds for every type and step. Refuted without a bound on the flux or the counts: a step swallowed by the flux gives no derivative, and one lost in binary32 pixels gives derivative 0."},
  {"property": "C114", "status": "partial", "theorems": ["C114_frozen", "C114_left_at", "C114_never_worse", "C114_undone", "C114_short", "C114_constrained_frozen", "C114_constrained_never_worse", "C114_only_free_means", "C114_undone_refuted"], "note": "Frozen values and structure survive any fit and any interruption, and completed fits are no worse (proved for both line searches on parameter trees). Refuted: an interrupted fit leaves trial values."},
  {"property": "C115", "status": "partial", "theorems": ["C115_model", "C115_runs", "C115_counted", "C115_band_refuted", "C115_position_refuted", "C115_cutoff_refuted", "C115_mask_refuted", "C115_region_refuted"], "note": "Proved when only the fluxes in the band of the images are free, profiles do not depend on the cutoff, and no expected mask is missing; without regions and minimum flux. Refuted otherwise."},
  {"property": "C116", "status": "partial", "theorems": ["C116_optimum", "C116_start", "C116_unique", "C116_curvature", "C116_known_refuted"], "note": "Optimality, independence of the start and the curvature along each flux are proved for all inputs, given an exact least-squares direction. Refuted: the inverse variances ignore the other sources, so they do not tell how well a flux is known when sources overlap."},
  {"property": "C117", "status": "partial", "theorems": ["C117_compact", "C117_dense", "C117_dense_compact", "C117_repeated_refuted"], "note": "Proved if each parameter has at most one derivative per image, for updates that are returned (the compact optimizer raises for derivatives with different boxes, C36_boxes_refuted). Refuted for repeated derivatives: the dense optimizers then ignore all but the last."},
  {"property": "C118", "status": "partial", "theorems": ["C118_rounded", "C118_limit_refuted", "C118_reduce_refuted"], "note": "Bounds exactly; limits, fraction and direction within explicit rounding bounds, for any precision. Refuted as exact statements: in double precision a maximum step can be exceeded by rounding and a reduced fraction can exceed the requested one."},
  {"property": "C119", "status": "partial", "theorems": ["C119_likelihood", "C119_blank", "C119_system", "C119_chi", "C119_fit", "C119_forced", "C119_iv", "C119_nan_refuted", "C119_forced_nan_refuted"], "note": "For finite data in the masked pixels, with the default optimizer and forced photometry. Refuted for NaN or infinite data in a masked pixel. The dense and the constrained optimizer are not considered here."},
  {"property": "C12", "status": "partial", "theorems": ["C12_step_sizes_round_trip", "C12_step_sizes_refuted"], "note": "The full claim is false: raises with frozen entries once step sizes exist."},
  {"property": "C120", "status": "proved", "theorems": ["C120_params", "C120_step", "C120_update", "C120_likelihood", "C120_fit"], "note": "Exact arithmetic, default optimizer without column scaling and shared parameters. C120_fit takes as hypothesis that the updates of the two fits are rearrangements of one another; C120_step and C120_update show that the exact solutions of the least-squares systems are."},
  {"property": "C121", "status": "proved", "theorems": ["C121_likelihood", "C121_offset", "C121_step"], "note": "Exact arithmetic, default optimizer without column scaling and shared parameters. C121_step covers images in other units with any priors (K = 1) and a common factor of the errors without priors; case_prior shows that with priors the factor matters."},
  {"property": "C122", "status": "proved", "theorems": ["C122_maximum", "C122_perfect"], "note": "C122_perfect in exact arithmetic; C122_maximum for any arithmetic and any log-probability. The update direction is arbitrary, of the length of the parameter vector or empty."},
  {"property": "C123", "status": "proved", "theorems": ["C123_params", "C123_step", "C123_freeze_name", "C123_freeze", "C123_mask", "C123_exact"], "note": "Exact arithmetic, default optimizer without column scaling and shared parameters. C123_freeze_name and C123_freeze show that the calls give the relation freezes; C123_params and C123_step hold for all pairs in this relation. C123_mask and C123_exact say which parameters are frozen: those whose flags, or the flags of a group they are in, carry a requested name."},
  {"property": "C124", "status": "proved", "theorems": ["C124_objective", "C124_fit", "C124_unique"], "note": "Exact arithmetic, default optimizer without column scaling. That the first direction solves the assembled system is a hypothesis: the LSQR solver is scipy code outside the model."},
  {"property": "C125", "status": "partial", "theorems": ["C125_set_get", "C125_own_refuted", "C125_shifted", "C125_shifted_refuted", "C125_pickle", "C125_unset", "C125_copy", "C125_pix_copy"], "note": "Refuted parts: copies lose sampling and Lanczos order (C125_copy gives the defaults for every original; C125_pix_copy shows that all attributes but two addresses agree for an original with the default sampling and order, and that the sampling and native size are lost otherwise), shifted hybrids are not independent, names of the class are not read back. The delegation law itself is proved for all other names."},
  {"property": "C126", "status": "proved", "theorems": ["C126_likelihood", "C126_cut", "C126_step", "C126_derivs", "C126_parts_ok", "C126_subimage"], "note": "Models and derivatives of the parts are the parts of those of the whole: hypothesis cut_derivs, met by the moved patches (C126_derivs, C126_parts_ok). More cuts follow by repetition. System without column scaling, as in C33. At most 2^31 pixels in all."},
  {"property": "C127", "status": "proved", "theorems": ["C127_likelihood", "C127_trim_likelihood", "C127_drop", "C127_edge", "C127_step", "C127_trim", "C127_derivs", "C127_trim_derivs"], "note": "Finite data and models (for other values under a mask see C119). Systems without column scaling that are not empty: when no derivative is left the optimizer returns no system. At most 2^31 pixels in all."},
  {"property": "C128", "status": "proved", "theorems": ["C128_likelihood", "C128_coadd", "C128_step"], "note": "Exact arithmetic; the exposures have the same model and derivatives (same PSF, coordinates and calibration). System without column scaling. At most 2^31 pixels in all."},
  {"property": "C13", "status": "partial", "theorems": ["C13_bounds_aligned", "C13_detached_list_refuted", "C01_vector_views_agree"], "note": "Proved for lists that keep their values themselves; false for lists made without values (MogParams and the Gaussian mixture PSFs), which have no bounds at all and shift those of later members."},
  {"property": "C14", "status": "partial", "theorems": ["C14_prior_indices_when_lists_thawed", "C14_prior_indices_refuted"], "note": "The full claim is false once a list entry is frozen."},
  {"property": "C15", "status": "proved", "theorems": ["C15_prior_rows", "C15_add_prior"], "note": "Rational arithmetic; default isLegal; sigma non-zero."},
  {"property": "C16", "status": "proved", "theorems": ["C16_add_to"], "note": ""},
  {"property": "C17", "status": "proved", "theorems": ["C17_clip_to", "C17_true_without_overlap_refuted"], "note": "The return value True does not imply an overlap (patch left of or above the image): refuted separately."},
  {"property": "C18", "status": "proved", "theorems": ["C18_clip_to_roi", "C18_reports_overlap"], "note": ""},
  {"property": "C19", "status": "proved", "theorems": ["C19_arithmetic_pointwise", "C19_no_data_operand_refuted", "C19_add_patches_none"], "note": "For patches with data; a no-data operand raises, which is shown by a counterexample."},
  {"property": "C20", "status": "proved", "theorems": ["C20_trim_keeps_image", "C20_trim_tight", "C20_trim_all_zero"], "note": ""},
  {"property": "C21", "status": "proved", "theorems": ["C21_pixel_indices", "C21_large_image_refuted"], "note": "For images under 2^31 pixels; refuted for larger ones with the default int32 index type."},
  {"property": "C22", "status": "proved", "theorems": ["C22_bbox_overlap", "C22_box_overlap", "C22_nonzero_overlap", "C22_empty_patch_refuted", "C22_negative_pixels_refuted"], "note": "For patches with pixels; counterexamples for empty patches and negative pixels."},
  {"property": "C23", "status": "proved", "theorems": ["C23_get_slices", "C23_get_slice_in_parent"], "note": ""},
  {"property": "C24", "status": "proved", "theorems": ["C24_model_image", "C24_sum_of_sources", "C24_order_independent"], "note": "Order independence for exact addition; in catalog order for any arithmetic."},
  {"property": "C25", "status": "proved", "theorems": ["C25_loglik_not_positive", "C25_loglik_value", "C25_logprob", "C25_prior_short_circuit", "C25_errors_propagate", "C25_masked_pixel", "C25_masked_nan_pixel_refuted"], "note": "Exact rationals with NaN and infinities."},
  {"property": "C26", "status": "proved", "theorems": ["C26_masks", "C26_no_masks", "C26_wrong_length", "C26_repeated_image_refuted"], "note": "Distinct image objects; refuted when one image object is listed twice."},
  {"property": "C27", "status": "proved", "theorems": ["C27_capacity", "C27_lookup", "C27_store", "C27_no_needless_eviction", "C27_evicts_least_recently_used", "C27_counters", "C27_overwrite_is_not_a_use_refuted", "C27_overwrite_evicts_refuted", "C27_zero_capacity_raises"], "note": "LRU order for histories that do not overwrite held keys; counterexamples otherwise."},
  {"property": "C28", "status": "partial", "theorems": ["C28_transparent", "C28_mask_change_refuted", "C28_twin_sources_refuted", "C28_disabled_cache_drops_limit_refuted"], "note": "The full claim is false when masks change without clearing the cache, for twin sources with different masks, and when the cache is disabled."},
  {"property": "C29", "status": "proved", "theorems": ["C29_try_updates", "C29_never_worse", "C29_short_direction_raises"], "note": "Objective is an oracle with values in the rationals plus NaN and infinities; parameter arithmetic arbitrary."},
  {"property": "C30", "status": "proved", "theorems": ["C30_bounds", "C30_exact", "C30_needs_increasing", "C30_outside_start_refuted"], "note": "Bounds for any arithmetic; step limits in exact arithmetic from a start inside the bounds; counterexample from a start outside."},
  {"property": "C31", "status": "proved", "theorems": ["C31_try_updates", "C31_stays_within", "C31_hit_limit", "C31_stale_last_flag"], "note": ""},
  {"property": "C32", "status": "proved", "theorems": ["C32_optimize_loop", "C32_zero_steps_raises", "C32_constrained_loop"], "note": ""},
  {"property": "C33", "status": "proved", "theorems": ["C33_layout", "C33_objective", "C33_scaling"], "note": "Rational arithmetic; total number of pixels at most 2^31 (32-bit row numbers). Layout and objective for the plain system; C33_scaling relates the column-scaled system to it, with the code's removal of elements below 1e-8 bounded."},
  {"property": "C34", "status": "proved", "theorems": ["C34_sharing_test_restores", "C34_point_symmetric", "C54_get_derivs", "C48_point", "C48_galaxy"], "note": "Values and patches of any type; runs that do not raise."},
  {"property": "C35", "status": "partial", "theorems": ["C35_columns", "C35_objective", "C35_same_update", "C35_no_sharing", "C35_scaled_refuted", "C35_unused_last_parameter_refuted", "C35_variance_refuted"], "note": "Holds without column scaling; refuted for the default scale_columns=True, for a last parameter without derivatives, and for the variances."},
  {"property": "C36", "status": "partial", "theorems": ["C36_compact", "C36_dense", "C36_dense_skipped", "C36_cov", "C36_runs", "C36_cov_unscaled_refuted", "C36_cov_zero_refuted", "C36_boxes_refuted", "C36_outside_refuted", "C36_repeated_refuted"], "note": "Over every field, with any least-squares solver: whenever an update is returned it has one entry per parameter, zero where skipped, and solves the normal equations of the full system; runs whenever the derivatives of an image cover one box. Refuted: derivatives with different boxes in one image raise, an image whose only derivative is outside raises, two derivatives of one parameter in one image overwrite each other, covariance without column scaling is zero."},
  {"property": "C37", "status": "partial", "theorems": ["C37_rendered", "C37_same_step", "C37_sky_last", "C37_fractions", "C37_floor", "C37_never_worse", "C37_no_minimum", "C37_one_pass", "C37_terminates", "C37_roi_data_refuted", "C37_swapped_refuted", "C37_floor_start_refuted", "C37_sky_refuted", "C37_prior_refuted"], "note": "Over every ring with a strict order, any update direction. The rendered model never uses a flux below the minimum; without fitted sky, without a minimum, or with a single step fraction the parameters are moved by one common fraction, never become less likely, and the reported result is theirs; the loop ends (over R). Refuted with fitted sky, a minimum and several fractions: sky levels take the last fraction tried. Also refuted: data with regions, priors in the line search, fluxes that start below the minimum."},
  {"property": "C38", "status": "proved", "theorems": ["C38_iv", "C38_skyvariance_refuted"], "note": "Over every ring, all positions of the unit-flux models including outside the image. Asking for sky variances at the same time always raises (refuted)."},
  {"property": "C39", "status": "proved", "theorems": ["C39_rectangle_sums", "C39_refuses"], "note": "Any commutative ring of pixel values."},
  {"property": "C40", "status": "proved", "theorems": ["C40_symmetric_rectangles", "C40_symmetric_reference", "C40_empty_box_refuted"], "note": "Any commutative ring of pixel values; non-empty boxes (empty ones raise)."},
  {"property": "C41", "status": "partial", "theorems": ["np_round_nearest", "C41_around_position", "C41_sky_box", "C41_default", "C41_explicit_roi_refuted", "C41_negative_size_refuted"], "note": "Holds for regions from sky positions with non-negative size; refuted for explicit regions and negative sizes."},
  {"property": "C42", "status": "proved", "theorems": ["C42_mag_flux_inverse", "C42_zeropoint_inverse", "C42_scale", "C42_flux_errors", "C42_mags_add", "C42_mags_mul", "C42_copy_values", "C42_from_mag", "C42_calibrations_agree", "C42_faint_cut", "C42_fluxes", "C42_missing_band_raises"], "note": "Real numbers; axioms of the standard library reals."},
  {"property": "C43", "status": "partial", "theorems": ["C43_basis", "C43_soft_basis", "C43_soft_range", "C43_from_rabphi", "C43_soft_from_rabphi", "C43_same_ellipse", "C43_phi_east_of_north_refuted", "C43_soft_round_trip", "C43_to_plain", "C43_round_to_soft_refuted", "C43_covariance", "C43_covariance_symmetric", "C43_tensor", "C43_from_covariance", "C43_from_covariance_refuted"], "note": "Real numbers. Round-trip to the softened form needs a non-round ellipse (refuted otherwise)."},
  {"property": "C44", "status": "partial", "theorems": ["C44_convolve", "C44_convolve_good", "C44_linear_good", "C44_linear", "C44_affine_moments", "C44_affine_means_refuted", "C44_add", "C44_dimensions_checked", "C44_init_symmetric", "C44_fourier_convolution", "C44_fourier_total", "C44_fourier_shear", "C44_fourier_c"], "note": "Real numbers. Affine maps of the moments need zero component means (refuted otherwise)."},
  {"property": "C45", "status": "partial", "theorems": ["C45_once", "C45_render", "C45_box", "C45_minradius", "C45_star", "C45_start_inside", "C45_start_moved", "C45_box_refuted", "C45_connected_refuted", "C45_safe_refuted", "C45_patch"], "note": "Every brightness function. Renders exactly the pixels reached by an outward walk, once each, inside the box, always terminating when the start is inside. Refuted: reported box for tilted thin sources, connectivity by arbitrary paths, start inside for one-wide boxes at negative coordinates."},
  {"property": "C46", "status": "proved", "theorems": ["C46_inout", "C46_inplace", "C46_refuses", "C46_neighbourhood", "C46_filter"], "note": "Layout for any arithmetic; the single 7x7 sum in exact arithmetic; filter over the reals."},
  {"property": "C47", "status": "partial", "theorems": ["C47_prior_rows", "C47_scaled_columns_raise", "C47_frozen_refuted", "C47_copy_loses_prior", "C47_square_grid", "C47_neighbours_refuted", "C47_size_checked"], "note": "Holds without column scaling and frozen coefficients; refuted with them."},
  {"property": "C48", "status": "partial", "theorems": ["C48_point", "C48_galaxy", "C48_composite", "C48_sersic", "C48_sersic_refuted", "C48_devcore", "C48_sercore", "C48_sercore_refuted", "C48_fixed_composite", "C48_fixed_composite_refuted"], "note": "Lengths and every entry, for every freeze combination. The full claim is false for a Sersic galaxy that does not render and for FixedCompositeGalaxy with frozen brightness."},
  {"property": "C49", "status": "proved", "theorems": ["C49_padding"], "note": "Every stamp and target size; centre inside the array for odd stamps."},
  {"property": "C50", "status": "partial", "theorems": ["C50_shift", "C50_full", "C50_mask", "C50_none", "C50_derivatives", "C50_radius", "C50_radius_refuted", "C50_wings_refuted"], "note": "Exact arithmetic. Agreement at every mask pixel inside the stamp box; outside it (up to 3 pixels) refuted."},
  {"property": "C51", "status": "proved", "theorems": ["C51_get_set", "C51_set_get", "C51_injective", "C51_construct", "C51_copy", "C51_set_one", "C51_set_all", "C51_set_thawed", "C51_names", "C51_name_of_position", "C51_bounds_refuted", "C51_ellipse_get_set", "C51_ellipse_set_one"], "note": "Every number of components, any value type. Bounds and step limits of mixture parameters are missing (refuted)."},
  {"property": "C52", "status": "partial", "theorems": ["C52_in_order", "C52_shipped_refuted", "C52_no_sources_refuted"], "note": "Order proved for every tractor once the missing attribute and imports exist; as shipped every call raises."},
  {"property": "C53", "status": "partial", "theorems": ["C53_fits", "C53_wrapper", "C53_compose", "C53_shift_twice", "C53_round_trip", "C53_null_refuted", "C53_not_shiftable", "C53_scaled", "C53_scaled_cd_refuted", "C53_sky", "C53_psfex", "C53_shifted_psf", "C53_shifted_psf_mask_refuted", "C53_stamp", "C53_stamp_halfway_refuted", "C53_pixels", "C53_negative_corner_refuted"], "note": "Holds for FITS coordinates, wrappers, skies, PsfEx; refuted for NullWCS, scaled CD, masks with ShiftedPsf, half-way stamps, negative corners."},
  {"property": "C54", "status": "proved", "theorems": ["C54_get_derivs"], "note": "Values, patches and model images of any type; no keyword arguments (Image.getParamDerivatives accepts none)."},
  {"property": "C55", "status": "proved", "theorems": ["C55_index_bijective", "C55_terms"], "note": "Every degree; real-number axioms for the values."},
  {"property": "C56", "status": "partial", "theorems": ["C56_read", "C56_round_trip", "C56_mixture", "C56_many_components_refuted", "C56_frozen_refuted"], "note": "Round trip proved when nothing is frozen and there are at most 100 values; refuted otherwise."},
  {"property": "C57", "status": "partial", "theorems": ["C57_stats", "C57_edge_refuted", "C57_frozen_refuted", "C57_masked_refuted"], "note": "Over every field: all statistics equal the whole-image sums of the source profile if no unit-flux model begins left of or below an image and the catalog begins with the fitted sources. Refuted otherwise: models beginning at negative positions give no statistics and leak into the next source; a frozen source earlier in the catalog supplies the counts; a completely masked source reports a masked fraction of 0."},
  {"property": "C58", "status": "proved", "theorems": ["C58_umodels"], "note": "Any number of sources, components, images and regions, provided a source has equally many models in every image."},
  {"property": "C59", "status": "proved", "theorems": ["C59_mask", "C59_full", "C59_outside", "C59_agree", "C59_outside_refuted"], "note": "Over the reals, any rounding to within half a pixel, any rendered image. With the centre in the mask the mask is always covered; without a mask a patch that begins beyond the image edge may extend outside the image. With the centre outside the mask a pixelized PSF raises RuntimeError (refuted)."},
  {"property": "C60", "status": "proved", "theorems": ["C60_split", "C60_share", "C60_pixels"], "note": "Over the reals, for all mixtures with non-negative variances, patch widths >= 1 and sigma limits up to 100000; C60_pixels: every pixel of a hybrid rendering with a rectangular mask is the share-weighted sum."},
  {"property": "C61", "status": "partial", "theorems": ["C61_bands", "C61_scaling", "C61_sersic", "C61_magsphotocal", "C61_ncirc", "C61_ncirc_hashkey", "C61_bands_frozen_refuted", "C61_sersic_frozen_refuted", "C61_ncirc_frozen_refuted"], "note": "All values, names and order are kept when nothing is frozen, in all classes; the full claim is false with frozen bands, members or components (refuted for each)."},
  {"property": "C62", "status": "partial", "theorems": ["C62_binop", "C62_in_place", "C62_reflected", "C62_add_sub", "C62_reflected_sub_refuted", "C62_division_refuted"], "note": "Sum, difference, product and their in-place forms, for any element operations. The full claim is false for a number minus an object and for division, which raises in Python 3."},
  {"property": "C63", "status": "partial", "theorems": ["C63_key", "C63_cache", "C63_hash", "C63_hash_collision_refuted", "C63_stale_model_refuted", "C63_band_refuted", "C63_pixelized_refuted", "C63_psfex_refuted", "C63_hybrid_refuted", "C63_nullwcs_refuted"], "note": "The tuple of keys is equal exactly when all classes, members and values are equal, for any nesting, and without hash collisions the cache is then transparent. The full claim is false: hash(-1) = hash(-2) gives stale models, and several attributes are missing from the keys (each refuted)."},
  {"property": "C64", "status": "partial", "theorems": ["C64_pixelized", "C64_normalized", "C64_normalized_whole", "C64_psfex", "C64_psfex_normalized", "C64_negative_refuted", "C64_oversampled_first_basis", "C64_oversampled_refuted", "C64_copy"], "note": "Proved for every history with sampling 1 and, for normalised PSFs, a stamp of positive sum. The full claim is false for stamps of negative sum, for oversampled PsfEx models (transform of the first basis image only) and for copies of oversampled PSFs (each shown)."},
  {"property": "C65", "status": "partial", "theorems": ["C65_grid", "C65_masked", "C65_masked_derivs", "C65_mixture", "C65_mask_box", "C65_history", "C65_point_source", "C65_weights", "C65_exception_refuted"], "note": "Coverage, pixel values, masks and derivatives are proved for minval = 0; histories are harmless if no rendering raised. The full claim is false: weights are not normalised (C65_weights) and a rendering that raises shifts all later ones (C65_exception_refuted). Rendering with minval > 0 is covered by the ring-growing claims, not here."},
  {"property": "C66", "status": "partial", "theorems": ["C66_profile", "C66_clamped", "C66_rows", "C66_continuous", "C66_no_cancel_at_ends", "C66_blend", "C66_jump_refuted"], "note": "Existence, unit total, order, clamping and tabulated rows hold for every index; continuity holds at every index but 0.51 and 0.57, where the tables do not join (C66_jump_refuted). Unit total and continuity between nodes assume that the interpolated amplitudes do not sum to zero."},
  {"property": "C67", "status": "proved", "theorems": ["C67_profiles", "C67_succeeds", "C67_counts"], "note": "Assumes one step per shape parameter and, for the counts, the default bounds of SersicIndex and a step below 0.025."},
  {"property": "C68", "status": "partial", "theorems": ["C68_frames", "C68_shift", "C68_chisq", "C68_kept", "C68_models", "C68_point_source", "C68_cpu", "C68_stale_refuted", "C68_edge_refuted", "C68_far_refuted"], "note": "All parts proved for fresh frames and steps that stay in them; kept frames of another tractor (C68_stale_refuted), taps lost at the edge of kept frames (C68_edge_refuted) and far steps in fresh frames (C68_far_refuted) break it."},
  {"property": "C69", "status": "partial", "theorems": ["C69_same", "C69_haywire", "C69_never_worse", "C69_limited_refuted", "C69_no_steps_refuted", "C69_excluded_start_refuted", "C69_check_refuted"], "note": "Parameters, gain, fraction and the two limit flags agree from any start of finite probability with at least one step; stepLimited, an empty list of steps, an excluded start and check_step differ (four refutations)."},
  {"property": "C70", "status": "proved", "theorems": ["C70_stamps", "C70_batch_free", "C70_cpu_share", "C70_needs_light"], "note": "Over the reals, for a linear inverse transform and PSF components with determinant at least 1e-30; a batch of zero amplitudes raises AttributeError (C70_needs_light)."},
  {"property": "C71", "status": "partial", "theorems": ["C71_direction", "C71_fluxes", "C71_place", "C71_solver", "C71_zeropoint_refuted", "C71_band_refuted", "C71_prior_refuted", "C71_prior_rows_refuted", "C71_frozen_refuted", "C71_matrix_refuted"], "note": "Minimisation, length and zeros are proved for images whose bands are thawed fluxes, one-row priors on seen parameters and photometric scale 1; the text is false for other photometric scales, for images or priors in other bands (KeyError), for priors of several rows, for a frozen brightness (IndexError) and for get_A (zero matrix)."},
  {"property": "C72", "status": "partial", "theorems": ["C72_step", "C72_flux", "C72_best", "C72_climb", "C72_one", "C72_stamp", "C72_far_refuted", "C72_negative_refuted", "C72_nan_refuted", "C72_singular_refuted"], "note": "Ascent is proved for each step, over the pixels within ten standard deviations of some component and against the cut-off mixture before the step; for whole fits (alpha > 0) if no pixel is beyond ten standard deviations of a component on the way. The text is false for pixels further out, for components without flux near them (NaN), for alpha = 0 with flux on a line (singular), and for the unit flux with negative pixels."},
  {"property": "C73", "status": "proved", "theorems": ["C73_step", "C73_flux", "C73_moments", "C73_excess", "C73_climb", "C73_dark_refuted"], "note": "Per step against the mixture cut off below approx; for whole fits with alpha > 0 where no component is cut off. Images with negative total are outside the text (C73_dark_refuted)."},
  {"property": "C74", "status": "partial", "theorems": ["C74_contract", "C74_cutoff", "C74_zero_refuted"], "note": "The equality is proved where the rendering takes no cutoff; with one, both sides are within it of the exact image. The text is false for the cutoff 0, or none, of a source with two components, where the error is bounded by twice the cutoff of the image."},
  {"property": "C75", "status": "partial", "theorems": ["C75_frac", "C75_frac_derivative_refuted", "C75_soft", "C75_profile", "C75_box", "C75_fixed_box"], "note": "All but the derivative of FracDev outside [0,1], where it is wrong."},
  {"property": "C76", "status": "partial", "theorems": ["C76_cost", "C76_descends", "C76_minimises", "C76_jacobian", "C76_predicted", "C76_entries", "C76_unused", "C76_unused_refuted", "C76_nonneg_refuted", "C76_ims_sky_refuted"], "note": "Objective, Jacobians and minimum are proved for the fit without nonneg. The text is false in three places: nonneg always raises, parameters unknown to all images are zeroed, and the images reported are wrong when the sky is fitted."},
  {"property": "C77", "status": "partial", "theorems": ["C77_start", "C77_objective", "C77_optimize", "C77_maximum", "C77_bounds", "C77_scales", "C77_variance", "C77_prior_index", "C77_prior_frozen_refuted", "C77_empty_refuted", "C77_loop", "C77_numeric_refuted", "C77_index", "C77_fill", "C77_jacobian", "C77_no_pixel_refuted"], "note": "Objective, gain, bounds, scales, variances, numbering and Jacobian are proved. The text is false in four places: priors beside frozen parameters, numeric=True, an empty tractor, and the Jacobian of a parameter without a pixel in the image."},
  {"property": "C78", "status": "partial", "theorems": ["C78_time", "C78_theta_range", "C78_position", "C78_linear", "C78_at_rest", "C78_year", "C78_parallax", "C78_no_time_refuted", "C78_copy_refuted", "C78_copy_epoch_refuted", "C78_prior_unbounded_refuted"], "note": "Place and time are proved for xyztoradec that gives the direction of its argument. The text is false for copies and for images without a time."},
  {"property": "C79", "status": "partial", "theorems": ["C79_derivs", "C79_patch", "C79_off_image_refuted"], "note": "Proved where the PSF draws something and the WCS does not look at the source; false where the PSF draws nothing."},
  {"property": "C80", "status": "partial", "theorems": ["C80_grid", "C80_total", "C80_history", "C80_caching", "C80_from_fitted", "C80_cell", "C80_default_class_refuted", "C80_cell_negative_refuted", "C80_from_unfitted_refuted", "C80_from_radius_refuted"], "note": "Proved for classes whose fit takes the list of parameters, interpolating splines and grids of at least four points; false for the default class, for negative positions and for fromPsfEx of an unfitted PSF."},
  {"property": "C81", "status": "partial", "theorems": ["C81_data", "C81_mixture", "C81_loaded", "C81_model", "C81_type_refuted", "C81_import_refuted", "C81_loaded_lazy_refuted", "C81_copy_refuted"], "note": "The numbers come back (C81_data, C81_mixture) and the PSF is the same once the type check and the import are put right and the splines are made (C81_loaded); as the code stands no file can be read."},
  {"property": "C82", "status": "partial", "theorems": ["C82_gauss", "C82_position", "C82_radec", "C82_galaxy", "C82_galaxy_y", "C82_component", "C82_null_refuted", "C82_ra_refuted", "C82_galaxy_edge_refuted"], "note": "The x and y images are the derivatives; the position derivatives are right where the inverse CD matrix is the matrix of derivatives, for Dec always, not for RA (1/cos Dec) nor for pixel positions."},
  {"property": "C83", "status": "partial", "theorems": ["C83_invvar", "C83_precedence", "C83_copy", "C83_copy_refuted", "C83_fits", "C83_fits_loses_refuted", "C83_null_wcs_refuted", "C83_required_args_refuted", "C83_reused_header_refuted"], "note": "Copies and files are right for the calibrations listed in copies and survives; other classes, offsets, flags and re-used headers are lost or fail."},
  {"property": "C84", "status": "partial", "theorems": ["C84_nodes", "C84_boxes", "C84_median", "C84_median_range", "C84_grid", "C84_works", "C84_masked_ignored", "C84_constant", "C84_no_mask_refuted", "C84_all_masked_refuted", "C84_sizes_refuted"], "note": "All claims for masks given as arrays with gridsize at least 4 and a usable pixel in every box; None as mask fails, empty boxes give 0."},
  {"property": "C85", "status": "partial", "theorems": ["C85_add_to", "C85_set", "C85_derivative", "C85_offset", "C85_scale", "C85_shift", "C85_run", "C85_new", "C85_copy", "C85_subimage", "C85_table_general", "C85_table", "C85_library", "C85_table_refuted"], "note": "Proved for any spline library with the four stated properties; tables keep the sky only when positions and offsets are whole numbers."},
  {"property": "C86", "status": "partial", "theorems": ["C86_parameters", "C86_names", "C86_set_param", "C86_inverse", "C86_cd", "C86_new", "C86_steps", "C86_copy", "C86_shifted", "C86_wrapper", "C86_cd_stale_refuted", "C86_shared_refuted", "C86_degenerate_refuted", "C86_hash_refuted", "C86_bounds_refuted"], "note": "Proved for any projection; the matrix told is the one used only until a cd parameter is changed; hash key and bounds do not hold."},
  {"property": "C87", "status": "partial", "theorems": ["C87_model", "C87_works", "C87_derivatives", "C87_frozen", "C87_linear", "C87_masks", "C87_subimage", "C87_subimage_refuted", "C87_wrapped_refuted"], "note": "Proved for NullWCS and FITS coordinate systems; subimages keep the value only for the latter, other coordinate systems fail."},
  {"property": "C88", "status": "partial", "theorems": ["C88_works", "C88_bilinear", "C88_center", "C88_constant", "C88_range", "C88_local", "C88_ebv", "C88_extinction", "C88_unknown_filter", "C88_reddening", "C88_wrap_refuted", "C88_wrap_rows_refuted"], "note": "Proved from the centres of the first row and column on; in the half pixel before them the opposite edge is mixed in."},
  {"property": "C89", "status": "partial", "theorems": ["C89_source", "C89_outside", "C89_together", "C89_nearest", "C89_whole_tiles", "C89_rows", "C89_bands", "C89_region_refuted", "C89_mixed_refuted"], "note": "Proved for any fit; the reporting tile is the nearest one if images around a source do not compete with those it is on, which holds for whole tiles but not for those cut to a region; dates and statistics may come from another tile."},
  {"property": "C90", "status": "partial", "theorems": ["C90_patch", "C90_modelmask", "C90_image", "C90_minsb_refuted", "C90_derivs_refuted", "C90_derivs", "C90_thawed_images_refuted", "C90_optimize_call_refuted", "C90_forced", "C90_forced_refuted", "C90_forced_lsqr", "C90_pickle", "C90_pickle_refuted", "C90_old_state"], "note": "Proved for model patches, for all options but minsb of model images, and for forced photometry with Ceres; derivatives, thawed images, options of optimize() and forced photometry with LSQR do not get the options; pickling keeps everything but the options, without which nothing renders."},
  {"property": "C91", "status": "partial", "theorems": ["C91_right", "C91_all", "C91_works", "C91_composite", "C91_extra_only", "C91_extra_refuted", "C91_none_refuted", "C91_unclassified_refuted", "C91_twice_refuted"], "note": "Proved but for the start values of extra bands, regions without classified objects when extra outputs are asked for, and tables used twice; order and completeness without radecrad."},
  {"property": "C92", "status": "partial", "theorems": ["C92_patch", "C92_radius", "C92_model", "C92_none", "C92_equal_refuted", "C92_mask_refuted"], "note": "Proved for distinct thresholds, no model mask, and for the radius where the power law has fallen to the tolerance at 200 pixels."},
  {"property": "C93", "status": "partial", "theorems": ["C93_image", "C93_whole", "C93_position", "C93_box", "C93_constant", "C93_constant_image", "C93_psf", "C93_calibration", "C93_trim", "C93_retry", "C93_position_refuted", "C93_box_refuted", "C93_constant_image_refuted", "C93_retry_refuted"], "note": "Proved: pixels, weights, coordinates, PSF, constant weights of regions; positions are only within one pixel (corners at most half a pixel outside); constant weights as an image fail for whole frames; fetching again fails with the reader as positional argument."},
  {"property": "C94", "status": "partial", "theorems": ["C94_eligible", "C94_friendly", "C94_fallback", "C94_single", "C94_checks", "C94_parent", "C94_variances", "C94_search", "C94_images", "C94_same_images", "C94_own_step", "C94_pickle", "C94_no_masks_refuted", "C94_options_refuted", "C94_background_refuted", "C94_twice_refuted", "C94_frozen_source_refuted", "C94_module_refuted"], "note": "Proved: choice of the code, images used, own steps if everything in the catalogue is thawed, pickling with the module given by name; fails without masks, for other options, frozen sources and modules."},
  {"property": "C95", "status": "partial", "theorems": ["C95_points", "C95_grid", "C95_approx", "C95_upright", "C95_symmetric_part", "C95_flat", "C95_negative", "C95_two_stars_refuted"], "note": "Proved: values at points for every good mixture, the grid, the approximate grid at the pixels it reaches, and its error bound for components along the axes around one point (in the box or not); fails for separate components and negative ones."},
  {"property": "C96", "status": "partial", "theorems": ["C96_parameters", "C96_names", "C96_restore", "C96_inverse", "C96_origin", "C96_cd", "C96_all_steps", "C96_steps", "C96_hash", "C96_cfht", "C96_sdss_mags", "C96_photocal_copy", "C96_derivative", "C96_cfht_set", "C96_photocal_hash", "C96_constant_refuted", "C96_pixscale_refuted", "C96_steps_refuted", "C96_copy_refuted", "C96_shared_refuted", "C96_color_refuted", "C96_photocal_copy_refuted", "C96_derivative_refuted", "C96_photocal_hash_refuted", "C96_photocal_bounds_refuted"], "note": "Proved: parameters, names, restoring, inverse without colour, matrices, agreement of the CFHT calibrations; fails: pixel scale in arcseconds, renewed constants, copies, step sizes, derivatives by phot_c and aa, hash key of CfhtPhotoCal."},
  {"property": "C97", "status": "partial", "theorems": ["C97_box", "C97_ranges", "C97_wcs", "C97_wrap_refuted", "C97_pole_refuted"], "note": "Proved for boxes that do not cross RA = 0 and images whose radec_bounds bound their declinations; fails across RA = 0 and at a pole."},
  {"property": "C98", "status": "partial", "theorems": ["C98_region", "C98_whole", "C98_missing", "C98_around", "C98_noise", "C98_time", "C98_tile_size", "C98_tile_size_tight", "C98_tiles", "C98_tiles_sound", "C98_no_tile_refuted"], "note": "Proved for images and for found tiles (given a metric on the sky and polygons_intersect); where no tile overlaps the image an exception is raised."},
  {"property": "C99", "status": "partial", "theorems": ["C99_rebin", "C99_flat", "C99_model", "C99_place", "C99_python3_refuted", "C99_galaxies_refuted"], "note": "Proved for point sources with integer division; in Python 3 the function always raises TypeError, and galaxies cannot be drawn into its result."}
]}
