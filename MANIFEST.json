{
 "claims": [
  {
   "property": "C01",
   "status": "proved",
   "theorems": [
    "C01_recon_slices_cover",
    "C01_distribute_slices_cover",
    "C01_empty_axis_rejected"
   ],
   "note": "Slices of both splitting functions; the empty axis is rejected. Negative counts: see C43."
  },
  {
   "property": "C02",
   "status": "proved",
   "theorems": [
    "C02_default_split_balanced",
    "C02_chunks_for_all_cores"
   ],
   "note": "get_ncore_slices (reconstruction) and get_ncore_nchunk (filters)."
  },
  {
   "property": "C03",
   "status": "proved",
   "theorems": [
    "C03_ranks_partition_slices",
    "C03_ranks_cover_axis",
    "C03_default_split_refuted"
   ],
   "note": "Proved for numpy versions that have np.int or an explicit nchunk; with newer numpy the default split raises AttributeError (C03_default_split_refuted)."
  },
  {
   "property": "C04",
   "status": "proved",
   "theorems": [
    "C04_schedule_independent",
    "C04_schedule_independent_in_place",
    "C04_any_split_any_schedule",
    "C04_some_schedule_completes"
   ],
   "note": "All interleavings of element reads and writes of jobs over disjoint slices, for any job function and for in-place jobs."
  },
  {
   "property": "C05",
   "status": "proved",
   "theorems": [
    "C05_returned_means_all_ran",
    "C05_failure_raises",
    "C05_host_fallback_completes"
   ],
   "note": "Multi-process path. The theorems ending in _refuted concern the single-core path and termination, i.e. property C44."
  },
  {
   "property": "C06",
   "status": "proved",
   "theorems": [
    "C06_validation_exact_any_history",
    "C06_verdict_history_independent",
    "C06_table_unchanged_refuted"
   ],
   "note": "The verdict never depends on the history, although the module table itself grows with every mlem/sirt call (C06_table_unchanged_refuted)."
  },
  {
   "property": "C07",
   "status": "proved",
   "theorems": [
    "C07_each_slice_once_any_schedule",
    "C07_plan_always_exists"
   ],
   "note": "Kernels that use their own slice only; see C29, C41, C42 for those that do not."
  },
  {
   "property": "C08",
   "status": "proved",
   "theorems": [
    "C08_env_restored",
    "C08_env_restored_any_history",
    "C08_numexpr_threads_restored"
   ],
   "note": "Returning calls and numexpr."
  },
  {
   "property": "C09",
   "status": "proved",
   "theorems": [
    "C09_normalize_value",
    "C09_beer_lambert",
    "C09_never_divides_by_zero",
    "C09_cutoff_never_exceeded",
    "C09_float32_value"
   ],
   "note": "Exact real model of normalize and minus_log plus a bit-level float32 model of one pixel; means in float32 are modelled exactly."
  },
  {
   "property": "C10",
   "status": "proved",
   "theorems": [
    "C10_each_projection_in_one_group",
    "C10_groups_are_consecutive",
    "C10_group_nearest_up_to_one"
   ],
   "note": "Flat locations sorted and non-negative. Exact nearness is C52."
  },
  {
   "property": "C11",
   "status": "proved",
   "theorems": [
    "C11_normalize_bg_value",
    "C11_flat_air_gives_one"
   ],
   "note": "Real arithmetic; at least one air pixel and two columns (with one column or no air pixel the code divides 0 by 0)."
  },
  {
   "property": "C12",
   "status": "proved",
   "theorems": [
    "C12_adjust_range_clamps",
    "C12_one_limit"
   ],
   "note": "IEEE binary32 values including infinities. NaN and limits beyond the data: C46."
  },
  {
   "property": "C13",
   "status": "proved",
   "theorems": [
    "C13_remove_nan_exact",
    "C13_remove_neg_exact",
    "C13_commute"
   ],
   "note": "IEEE binary32, all values."
  },
  {
   "property": "C14",
   "status": "proved",
   "theorems": [
    "C14_repairs_exactly_nonfinite",
    "C14_raises_exactly_when_window_empty",
    "C14_projections_independent"
   ],
   "note": "IEEE binary32, all values; np.median modelled with its rounding."
  },
  {
   "property": "C15",
   "status": "proved",
   "theorems": [
    "C15_median_filter",
    "C15_window_values",
    "C15_dezinger",
    "C15_schedule_independent",
    "C15_orders",
    "C15_window_complete",
    "C15_window_inner",
    "C15_api_median",
    "C15_api_dezinger",
    "C15_threshold_uint16",
    "C15_threshold_float",
    "C15_2d"
   ],
   "note": "qsort is any sorting function; NaN-free windows for floats, all windows for uint16."
  },
  {
   "property": "C16",
   "status": "proved",
   "theorems": [
    "C16_remove_outlier_exact",
    "C16_never_raises_a_value",
    "C16_threshold_in_reals"
   ],
   "note": "IEEE binary32, all values including infinities and NaN; scipy median filter output is arbitrary."
  },
  {
   "property": "C17",
   "status": "proved",
   "theorems": [
    "C17_mask_is_disc",
    "C17_circ_mask_all_axes",
    "C17_symmetric_nested_idempotent"
   ],
   "note": "Exact arithmetic with a rational ratio."
  },
  {
   "property": "C18",
   "status": "proved",
   "theorems": [
    "C18_pad_edge",
    "C18_pad_constant",
    "C18_default_holds_diagonal",
    "C18_arguments"
   ],
   "note": "The array is the list of its slices along the axis; the diagonal bound is exact real arithmetic."
  },
  {
   "property": "C19",
   "status": "proved",
   "theorems": [
    "C19_downsample_axis0",
    "C19_downsample_axis1",
    "C19_downsample_axis2",
    "C19_upsample",
    "C19_down_up"
   ],
   "note": "Flat loops of morph.c over real numbers; sizes along axes 1 and 2 multiples of the factor (see C54)."
  },
  {
   "property": "C20",
   "status": "proved",
   "theorems": [
    "C20_columns_left",
    "C20_columns_right",
    "C20_recovers_row"
   ],
   "note": "Real arithmetic; overlap between 2 and width - 1 (see C55)."
  },
  {
   "property": "C21",
   "status": "proved",
   "theorems": [
    "C21_detector",
    "C21_buffers",
    "C21_pixels",
    "C21_points",
    "C21_ordered",
    "C21_length",
    "C21_distinct",
    "C21_inside_pixel",
    "C21_quadrant"
   ],
   "note": "Exact real arithmetic. Buffers and pixel range for every angle; order, length and distinctness for angles on an axis or at least 1/340870420 rad away (the resolution of calc_quadrant)."
  },
  {
   "property": "C22",
   "status": "proved",
   "theorems": [
    "C22_merge",
    "C22_frame"
   ],
   "note": "Real arithmetic, both orientations, entries beyond the merged ones untouched."
  },
  {
   "property": "C23",
   "status": "proved",
   "theorems": [
    "C23_ray_sums",
    "C23_linear",
    "C23_back_projection",
    "C23_adjoint"
   ],
   "note": "Exact real arithmetic; adjointness needs a common centre (project uses center[0], fbp center[s]: C56)."
  },
  {
   "property": "C24",
   "status": "proved",
   "theorems": [
    "C24_ray_equation",
    "C24_last_ray",
    "C24_fixed_point",
    "C24_never_farther"
   ],
   "note": "Exact real arithmetic; the fixed point holds for every angle, the other parts for angles on an axis or resolved by calc_quadrant."
  },
  {
   "property": "C25",
   "status": "proved",
   "theorems": [
    "C25_finite",
    "C25_fixed_point",
    "C25_unhit"
   ],
   "note": "Exact real arithmetic, any number of subsets in any order. Convergence: C57."
  },
  {
   "property": "C26",
   "status": "partial",
   "theorems": [
    "C26_nonnegative",
    "C26_positive",
    "C26_fixed_point",
    "C26_counts",
    "C26_refuted"
   ],
   "note": "Refuted for zero counts: the image becomes zero and the second iteration computes 0/0. Proved: finite values stay non-negative, positive data stay finite and positive, fixed points, count conservation."
  },
  {
   "property": "C27",
   "status": "proved",
   "theorems": [
    "C27_schedule",
    "C27_even",
    "C27_once"
   ],
   "note": "Any number of subsets, also more subsets than projections."
  },
  {
   "property": "C28",
   "status": "proved",
   "theorems": [
    "C28_positive",
    "C28_minimises",
    "C28_constant",
    "C28_zero_penalty"
   ],
   "note": "Exact real arithmetic, both penalties; positivity and the fixed point for any number of subsets, the minimisation for one subset (pml_quad, pml_hybrid)."
  },
  {
   "property": "C29",
   "status": "partial",
   "theorems": [
    "C29_gridrec_common_center_partial",
    "C29_gridrec_own_center_refuted"
   ],
   "note": "Refuted as stated: gridrec uses one centre per pair of slices, so results depend on the chunking; proved when all slices share a centre."
  },
  {
   "property": "C30",
   "status": "partial",
   "theorems": [
    "C30_quick_sort",
    "C30_bubble",
    "C30_rolling_median_partial",
    "C30_float_partial",
    "C30_radius_zero_refuted",
    "C30_window_outside_refuted"
   ],
   "note": "Holds for radius at least 1 and a first window that ends inside the image; refuted for rwidth = 0 and for slices that are small compared with rwidth (reads outside the arrays)."
  },
  {
   "property": "C31",
   "status": "partial",
   "theorems": [
    "C31_rolling_mean_partial",
    "C31_zero_stays_zero_refuted",
    "C31_reflect_outside_refuted"
   ],
   "note": "Exact real arithmetic. Refuted: zero differences in the first row are not kept; theta_min near 180 with reflection reads row -1."
  },
  {
   "property": "C32",
   "status": "partial",
   "theorems": [
    "C32_outside_unchanged",
    "C32_any_schedule",
    "C32_between",
    "C32_completes",
    "C32_weighted_mean",
    "C32_more_iterations_refuted",
    "C32_median_2d_refuted",
    "C32_median_3d_refuted",
    "C32_size_zero_refuted",
    "C32_signed_refuted"
   ],
   "note": "Bounds, completion and weighted means in exact reals, unmasked voxels and the schedule for any value type. Refuted parts: iterations above one have no effect, the 2-D median kernel does not give the median, the 3-D one writes zeros, size 0 is undefined, cancelling signed neighbours stay unfilled."
  },
  {
   "property": "C33",
   "status": "partial",
   "theorems": [
    "C33_padded",
    "C33_no_padding_refuted",
    "C33_pad_width",
    "C33_pad_width_refuted",
    "C33_even"
   ],
   "note": "Proved for pad widths of at least one and any Fourier filter. Refuted: with pad=False, and with pad=True when the width comes out as zero, every projection is replaced by its last pixel before filtering; the padded size can be one pixel short."
  },
  {
   "property": "C34",
   "status": "partial",
   "theorems": [
    "C34_positions",
    "C34_identity",
    "C34_rank_order",
    "C34_default",
    "C34_large_window_refuted"
   ],
   "note": "Any value type with a strict weak order without NaN; argsort is any sorting permutation; scipy's median_filter in reflect mode. Refuted for square windows larger than twice the number of projections (rank order is lost)."
  },
  {
   "property": "C35",
   "status": "proved",
   "theorems": [
    "C35_shift",
    "C35_mean",
    "C35_only"
   ],
   "note": "Exact real arithmetic, size at least 1."
  },
  {
   "property": "C36",
   "status": "partial",
   "theorems": [
    "C36_blocks",
    "C36_divisible_partial",
    "C36_trailing_refuted",
    "C36_too_many_refuted"
   ],
   "note": "Exact real arithmetic. Proved for projections in complete blocks. Refuted: projections after the last complete block become constant, more blocks than projections raise."
  },
  {
   "property": "C37",
   "status": "partial",
   "theorems": [
    "C37_sum",
    "C37_flat",
    "C37_order",
    "C37_concat",
    "C37_sizes",
    "C37_float_order_refuted",
    "C37_grid",
    "C37_centre",
    "C37_centre_refuted",
    "C37_shepp",
    "C37_single_slice_refuted"
   ],
   "note": "Coordinates and values in exact reals; ellipsoids with non-zero half axes (others are empty). Refuted: in float32 the order matters; (x0, y0, z0) are coordinates along the rotated axes; a single slice is taken at the border and empty."
  },
  {
   "property": "C38",
   "status": "partial",
   "theorems": [
    "C38_terminates",
    "C38_found",
    "C38_near",
    "C38_fallback_refuted"
   ],
   "note": "Corners of one image are a parameter that does not raise. Termination proved; refuted: the fallback is never reached, IndexError is raised instead."
  },
  {
   "property": "C39",
   "status": "partial",
   "theorems": [
    "C39_positions",
    "C39_endless_refuted",
    "C39_exposures",
    "C39_default_step_refuted",
    "C39_near"
   ],
   "note": "Proved whenever the probe is at most as long as projection and step together; refuted beyond (endless loop) and for the default step of a probe of one pixel."
  },
  {
   "property": "C40",
   "status": "proved",
   "theorems": [
    "C40_sinogram",
    "C40_range",
    "C40_trivial",
    "C40_centre",
    "C40_linear",
    "C40_load"
   ],
   "note": "Exact arithmetic (in the code only the projections' coordinates are rounded to float32), up to 32767 rows."
  },
  {
   "property": "C41",
   "status": "partial",
   "theorems": [
    "C41_art_common_center_partial",
    "C41_art_own_center_refuted"
   ],
   "note": "Refuted as stated: the centre of the first slice of a chunk is used for the whole chunk; proved when all slices share a centre."
  },
  {
   "property": "C42",
   "status": "partial",
   "theorems": [
    "C42_prior_single_chunk_partial",
    "C42_prior_alignment_refuted"
   ],
   "note": "Refuted as stated: the prior is not sliced; proved for a single chunk."
  },
  {
   "property": "C43",
   "status": "partial",
   "theorems": [
    "C43_negative_ncore_refuted",
    "C43_negative_nchunk_refuted",
    "C43_zero_ncore_rejected_partial"
   ],
   "note": "Refuted as stated: negative counts are accepted and no slice is processed; zero cores are rejected."
  },
  {
   "property": "C44",
   "status": "partial",
   "theorems": [
    "C44_single_core_refuted",
    "C44_termination_refuted"
   ],
   "note": "Refuted as stated: a requesting job is lost on one core and repeated requests never terminate."
  },
  {
   "property": "C45",
   "status": "partial",
   "theorems": [
    "C45_env_after_exception_refuted",
    "C45_env_poisoned_refuted"
   ],
   "note": "Refuted as stated: the variable is left set after an exception, and an empty dimension makes all later default calls raise."
  },
  {
   "property": "C46",
   "status": "partial",
   "theorems": [
    "C46_upper_limit_refuted",
    "C46_upper_limit_below_data",
    "C46_nan_disables_clamping_refuted"
   ],
   "note": "Refuted: one NaN disables clamping; an upper limit below all data sets everything to the old minimum."
  },
  {
   "property": "C47",
   "status": "partial",
   "theorems": [
    "C47_repaired_between_partial",
    "C47_overflow_refuted"
   ],
   "note": "Refuted for values of at least 2^127 (overflow); proved below."
  },
  {
   "property": "C48",
   "status": "partial",
   "theorems": [
    "C48_failed_call_atomic_refuted"
   ],
   "note": "Refuted: earlier repairs stay in the array."
  },
  {
   "property": "C49",
   "status": "partial",
   "theorems": [
    "C49_task_failures_refuted",
    "C49_task_failures_partial"
   ],
   "note": "Refuted: futures are never inspected; proved when no task fails."
  },
  {
   "property": "C50",
   "status": "partial",
   "theorems": [
    "C50_kernel_matches_data_refuted",
    "C50_kernel_matches_data_partial"
   ],
   "note": "Refuted: the type is read before the conversion, so converted float data are read as uint16."
  },
  {
   "property": "C51",
   "status": "partial",
   "theorems": [
    "C51_single_location_partial",
    "C51_averaging_refuted",
    "C51_median_refuted"
   ],
   "note": "Refuted: normalize_nf always uses the median of the flats and averaging=median raises TypeError; proved for a single flat frame."
  },
  {
   "property": "C52",
   "status": "partial",
   "theorems": [
    "C52_nearest_partial",
    "C52_nearest_refuted"
   ],
   "note": "Refuted for distances 4k+1; proved for all others."
  },
  {
   "property": "C53",
   "status": "proved",
   "theorems": [
    "C53_roi_normalisation"
   ],
   "note": ""
  },
  {
   "property": "C54",
   "status": "partial",
   "theorems": [
    "C54_incomplete_groups_refuted",
    "C54_incomplete_groups_axis1_refuted",
    "C54_incomplete_groups_partial"
   ],
   "note": "Refuted for axes 1 and 2: the input index is not advanced over the remainder; proved for axis 0."
  },
  {
   "property": "C55",
   "status": "partial",
   "theorems": [
    "C55_overlap_one_refuted",
    "C55_overlap_zero_right_refuted",
    "C55_overlap_zero_left_partial",
    "C55_full_overlap_refuted"
   ],
   "note": "Refuted: one column is lost or doubled, zero overlap on the right and full overlap raise; proved for zero overlap on the left."
  },
  {
   "property": "C56",
   "status": "partial",
   "theorems": [
    "C56_project_refuted",
    "C56_art_refuted",
    "C56_fbp_partial",
    "C56_bart_partial",
    "C56_osem_partial"
   ],
   "note": "Refuted for project and art, which use the first centre for all slices; proved for fbp, bart/sirt and osem/mlem."
  },
  {
   "property": "C57",
   "status": "partial",
   "theorems": [
    "C57_sirt_partial",
    "C57_sirt_refuted"
   ],
   "note": "Refuted: bart divides by the sum of squared lengths, so short chords overshoot; proved if every ray has sum of lengths <= 2 * sum of squares."
  },
  {
   "property": "C58",
   "status": "partial",
   "theorems": [
    "C58_assertion_refuted",
    "C58_bound_partial"
   ],
   "note": "Refuted: subset_end equals dt in the last subset of every call; proved: it never exceeds dt."
  },
  {
   "property": "C59",
   "status": "partial",
   "theorems": [
    "C59_separate",
    "C59_single_row_refuted"
   ],
   "note": "Refuted for one row: slice 0 depends on slice 1. For at least two rows and columns see C28 and C59_separate."
  },
  {
   "property": "C60",
   "status": "partial",
   "theorems": [
    "C60_ring_image",
    "C60_polar_image",
    "C60_pixel",
    "C60_seam_refuted",
    "C60_bounded_change"
   ],
   "note": "Exact real arithmetic; windows must fit (see C30, C31). C60_seam_refuted: pixels in the last half sector before a full turn are never corrected."
  },
  {
   "property": "C61",
   "status": "proved",
   "theorems": [
    "C61_constant"
   ],
   "note": "Exact real arithmetic; windows must fit (see C30, C31)."
  },
  {
   "property": "C62",
   "status": "partial",
   "theorems": [
    "C62_outside_circle",
    "C62_samples_inside",
    "C62_slices",
    "C62_centre_outside_refuted"
   ],
   "note": "Exact real arithmetic. Refuted for a centre outside the slice (no polar row exists, but one is used)."
  },
  {
   "property": "C63",
   "status": "partial",
   "theorems": [
    "C63_slices",
    "C63_thin_slices_refuted",
    "C63_volume"
   ],
   "note": "Refuted for slices of a single row or column (np.squeeze); proved for all others and for whole volumes. Mask and volume have the same shape."
  },
  {
   "property": "C64",
   "status": "partial",
   "theorems": [
    "C64_even",
    "C64_odd_refuted",
    "C64_symmetric_refuted"
   ],
   "note": "Exact reals. Proved for even padded sizes: largest factor at the zero frequency, all factors positive. Refuted for odd sizes (fftshift instead of ifftshift) and for the symmetry."
  },
  {
   "property": "C65",
   "status": "partial",
   "theorems": [
    "C65_sorting",
    "C65_square_window_refuted",
    "C65_smoothing",
    "C65_large",
    "C65_interpolation",
    "C65_dead",
    "C65_all",
    "C65_filtering",
    "C65_ti_refuted",
    "C65_equal_sums_refuted",
    "C65_single_refuted"
   ],
   "note": "Exact real arithmetic; polyfit is exact on horizontal lines; detection based methods for three or at least five columns and positive snr. Proved for sorting, filtering (window over columns), smoothing, large, dead, interpolation and all. Refuted for remove_stripe_ti (NaN everywhere, also for equal projection sums and for blocks of one projection) and for square windows."
  },
  {
   "property": "C66",
   "status": "proved",
   "theorems": [
    "C66_minimal",
    "C66_alpha",
    "C66_terminates",
    "C66_correction",
    "C66_kernels"
   ],
   "note": "Exact real arithmetic, up to 1,000,000 pixels (the iteration limit); the mean row must have a non-zero difference (see C65)."
  },
  {
   "property": "C67",
   "status": "partial",
   "theorems": [
    "C67_detect",
    "C67_thresholds",
    "C67_large",
    "C67_interpolation",
    "C67_dead",
    "C67_sequence",
    "C67_between",
    "C67_border_refuted"
   ],
   "note": "Exact real arithmetic; scipy's and numpy's functions as described in Model_StripeLarge.v. Refuted: a dead column next to the border is kept, and with normalisation it and its interpolated neighbour become NaN."
  },
  {
   "property": "C68",
   "status": "partial",
   "theorems": [
    "C68_gauss",
    "C68_symmetric",
    "C68_odd_refuted",
    "C68_attenuation",
    "C68_laplacian",
    "C68_tilt",
    "C68_linear"
   ],
   "note": "Exact real arithmetic. Refuted: for odd sizes the default centre is half a pixel off."
  },
  {
   "property": "C69",
   "status": "partial",
   "theorems": [
    "C69_box",
    "C69_small_box_refuted",
    "C69_square",
    "C69_rectangle_refuted"
   ],
   "note": "Refuted: the fourth quadrant is wrong in images that are not square; boxes near the edge are cut with negative limits."
  },
  {
   "property": "C70",
   "status": "partial",
   "theorems": [
    "C70_scale",
    "C70_zero_refuted",
    "C70_blur",
    "C70_blur_refuted",
    "C70_joint_refuted",
    "C70_caller_refuted",
    "C70_aligned",
    "C70_shift",
    "C70_pad",
    "C70_converges"
   ],
   "note": "Exact real arithmetic; reconstruction, projection, correlation and warping are parameters. Refuted: align_joint returns the images unaligned, both leave the caller's array scaled, stacks of zeros become NaN, equal radii divide by zero."
  },
  {
   "property": "C71",
   "status": "partial",
   "theorems": [
    "C71_slope",
    "C71_none",
    "C71_step",
    "C71_finite",
    "C71_descent",
    "C71_closer",
    "C71_rate",
    "C71_bound",
    "C71_fixed_point",
    "C71_first",
    "C71_bb",
    "C71_bb_length",
    "C71_default_refuted",
    "C71_bb_refuted"
   ],
   "note": "Exact real arithmetic; the step bound is a hypothesis on the rays, with C71_bound a sufficient condition on row and column sums. Refuted: the default reg_par = 1 diverges, a negative reg_par gives NaN from the second iteration for an exact start."
  },
  {
   "property": "C72",
   "status": "partial",
   "theorems": [
    "C72_none",
    "C72_step",
    "C72_no_prior",
    "C72_descent",
    "C72_rate",
    "C72_fixed_point",
    "C72_prior_refuted"
   ],
   "note": "Exact real arithmetic. Refuted: the prior image is not rescaled, so a start and prior that both explain the data are not kept."
  },
  {
   "property": "C73",
   "status": "partial",
   "theorems": [
    "C73_none",
    "C73_run",
    "C73_optimal",
    "C73_bounded",
    "C73_settles",
    "C73_short",
    "C73_still",
    "C73_still_optimal",
    "C73_square",
    "C73_layout_refuted",
    "C73_zero_refuted"
   ],
   "note": "Exact real arithmetic. Boundedness needs a certificate of optimality and a margin theta for the fixed step 0.35. Refuted: on grids that are not square the penalty compares pixels that are not neighbours, lambda = 0 gives NaN."
  },
  {
   "property": "C74",
   "status": "proved",
   "theorems": [
    "C74_value",
    "C74_alone",
    "C74_others"
   ],
   "note": "Exact real arithmetic; FFTW as the sum it computes. The centre used is that of the first slice of the pair (refuted as a property in C29)."
  },
  {
   "property": "C75",
   "status": "proved",
   "theorems": [
    "C75_linear",
    "C75_offset",
    "C75_opposite",
    "C75_full_turn",
    "C75_shift",
    "C75_order"
   ],
   "note": "Exact real arithmetic; FFTW as the sum it computes. Mirroring about the middle of the detector, shifts by whole pixels with nothing leaving the detector; reordering for filters that are the same for all projections."
  },
  {
   "property": "C76",
   "status": "partial",
   "theorems": [
    "C76_pdim",
    "C76_walk",
    "C76_box",
    "C76_winv",
    "C76_winv_set",
    "C76_winv_reads",
    "C76_inside",
    "C76_memory",
    "C76_edge",
    "C76_memory_refuted",
    "C76_large_refuted"
   ],
   "note": "Index bounds in exact arithmetic. Proved for grids smaller than the padded size. Refuted: a grid of the padded size (the default for power of two detectors) reads the entry behind the correction table, so that the first row and last column depend on uninitialised memory; larger grids read in front of it."
  },
  {
   "property": "C77",
   "status": "partial",
   "theorems": [
    "C77_legendre",
    "C77_table",
    "C77_falls",
    "C77_prolate",
    "C77_norm",
    "C77_centre",
    "C77_centre_refuted",
    "C77_axis",
    "C77_axis_refuted"
   ],
   "note": "Exact rationals and reals; decimal constants exact. Refuted: the correction is symmetric about position -1 (for padded sizes up to 4096 shown to differ), and for odd grids the axis is not in the middle pixel."
  },
  {
   "property": "C78",
   "status": "partial",
   "theorems": [
    "C78_attenuates",
    "C78_low_pass",
    "C78_hann_refuted",
    "C78_hann",
    "C78_custom",
    "C78_two_dimensional",
    "C78_default"
   ],
   "note": "Exact real arithmetic. Refuted: hann and hamming with the default parameter rise again above half of the highest frequency; proved for them from parameter 1."
  },
  {
   "property": "C79",
   "status": "partial",
   "theorems": [
    "C79_same_line",
    "C79_mirror",
    "C79_default_angles",
    "C79_gridline_refuted"
   ],
   "note": "Exact real arithmetic. Angles off the grid directions by more than the tolerances of C21 or exactly along them. Refuted when the central ray runs along a grid line (axis on a detector pixel of an even image): the two sides count it in different rows."
  },
  {
   "property": "C80",
   "status": "partial",
   "theorems": [
    "C80_padded_covers",
    "C80_padded_border",
    "C80_row_sums",
    "C80_column_sums",
    "C80_conserved",
    "C80_odd_refuted",
    "C80_unpadded_refuted",
    "C80_crop"
   ],
   "note": "Exact real arithmetic. Refuted: for odd widths the padded projection at angle zero misses the first row of voxels; with pad=False the detector has the first size although the second one is across it at angle zero."
  },
  {
   "property": "C81",
   "status": "partial",
   "theorems": [
    "C81_values",
    "C81_common_center",
    "C81_transmission",
    "C81_pad_refuted",
    "C81_angles",
    "C81_angles_negative"
   ],
   "note": "Exact real arithmetic. Within a chunk the centre of its first slice is used (C81_values), so the claim needs a common centre. Refuted: pad values other than the constants True and False raise UnboundLocalError."
  },
  {
   "property": "C82",
   "status": "partial",
   "theorems": [
    "C82_project3",
    "C82_project2",
    "C82_components",
    "C82_opposite",
    "C82_reads",
    "C82_outside_refuted",
    "C82_no_axis"
   ],
   "note": "Exact real arithmetic. Refuted: for volumes that are not cubes, axes 1 and 2 read behind the arrays; axes other than 0, 1, 2 are accepted and add nothing."
  },
  {
   "property": "C83",
   "status": "partial",
   "theorems": [
    "C83_step",
    "C83_finite",
    "C83_fixed_point",
    "C83_unhit_refuted",
    "C83_never_farther_partial"
   ],
   "note": "Exact real arithmetic. Refuted: a pixel no ray meets becomes NaN. Monotonicity in the norm weighted by pixel totals and under the condition on ray lengths that SIRT needs too (C57)."
  },
  {
   "property": "C84",
   "status": "partial",
   "theorems": [
    "C84_vector2_step",
    "C84_vector3_step",
    "C84_start",
    "C84_fixed_point",
    "C84_never_farther_partial",
    "C84_geometry_ignored",
    "C84_second_geometry_refuted",
    "C84_axes_refuted",
    "C84_no_axis_refuted"
   ],
   "note": "Exact real arithmetic, cubes for the step theorems. Refuted: angles and centres of the second and third data set are ignored; the axis arguments change what is simulated but not what is updated; unknown axes accumulate the data. Monotonicity per pass, weighted, under the condition of C57."
  },
  {
   "property": "C85",
   "status": "partial",
   "theorems": [
    "C85_corrupted",
    "C85_default_value",
    "C85_gaussian",
    "C85_rings",
    "C85_drift",
    "C85_ramp_refuted",
    "C85_copies",
    "C85_in_place_refuted"
   ],
   "note": "Exact real arithmetic, random draws arbitrary; add_poisson not modelled. Refuted: add_drift multiplies by an undocumented ramp; add_gaussian and add_salt_pepper modify the caller's array."
  },
  {
   "property": "C86",
   "status": "partial",
   "theorems": [
    "C86_circle",
    "C86_limits",
    "C86_room",
    "C86_histogram",
    "C86_defined",
    "C86_bounds",
    "C86_least",
    "C86_places",
    "C86_ratio_refuted",
    "C86_outside_refuted",
    "C86_reversed",
    "C86_start"
   ],
   "note": "Exact real arithmetic; the reconstruction is a parameter, scipy's minimiser is not modelled. Refuted: ratio has no effect; an image of which nothing lies within the histogram limits costs less than a two-valued one inside."
  },
  {
   "property": "C87",
   "status": "partial",
   "theorems": [
    "C87_metric",
    "C87_fine",
    "C87_mirror_partial",
    "C87_nonneg",
    "C87_scale",
    "C87_offset",
    "C87_centre_refuted"
   ],
   "note": "Exact real arithmetic; candidates at whole and half columns (others use scipy's spline, a parameter). The mirror theorem is for odd widths. Refuted: for even widths the mask is centred one column beside frequency zero."
  },
  {
   "property": "C88",
   "status": "partial",
   "theorems": [
    "C88_coarse",
    "C88_best",
    "C88_answers",
    "C88_order_refuted",
    "C88_fine",
    "C88_fine_cover",
    "C88_range_refuted",
    "C88_start_refuted",
    "C88_linear",
    "C88_binned",
    "C88_binned_refuted",
    "C88_vo",
    "C88_slices"
   ],
   "note": "Exact arithmetic of candidates, any metric. Refuted: bounds in the wrong order raise ValueError; the last fine candidate may lie beyond the detector; the start need not be a candidate; for large data the coarse answer is 1.5 columns off (C88_binned, C88_binned_refuted)."
  },
  {
   "property": "C89",
   "status": "partial",
   "theorems": [
    "C89_mask",
    "C89_radius",
    "C89_few",
    "C89_few_answer",
    "C89_few_refuted"
   ],
   "note": "Exact real arithmetic. Elements within one column of the edge of the wedge are not decided by C89_mask. Refuted: with two projections and ratio 1/2 the mask is empty and the search returns its first candidate for any data."
  },
  {
   "property": "C90",
   "status": "proved",
   "theorems": [
    "C90_exact"
   ],
   "note": "Image shifts by whole columns and the registration are parameters with the stated behaviour."
  },
  {
   "property": "C91",
   "status": "partial",
   "theorems": [
    "C91_default",
    "C91_range",
    "C91_files",
    "C91_name",
    "C91_names_refuted"
   ],
   "note": "Names as exact decimal rounding (half to even); the reconstruction of one slice is a parameter. Refuted: steps of 0.01 can give two centres the same name."
  },
  {
   "property": "C92",
   "status": "partial",
   "theorems": [
    "C92_rows",
    "C92_length",
    "C92_flat",
    "C92_threshold",
    "C92_order",
    "C92_scale",
    "C92_blank_refuted"
   ],
   "note": "Exact real arithmetic, positive maxima. Refuted: of blank data no slice is marked (0/0)."
  },
  {
   "property": "C93",
   "status": "partial",
   "theorems": [
    "C93_checks",
    "C93_weight",
    "C93_order",
    "C93_range",
    "C93_scale",
    "C93_flat",
    "C93_stripes",
    "C93_range_refuted",
    "C93_median_refuted",
    "C93_outside_refuted"
   ],
   "note": "Exact real arithmetic; qsort is any sorting routine. Refuted: flat negative data get weights below 0; the filter takes the element below the median (for size 1 the minimum); a single slice is accepted and makes the loops read outside the arrays."
  },
  {
   "property": "C94",
   "status": "partial",
   "theorems": [
    "C94_checks",
    "C94_quota",
    "C94_quota_mono",
    "C94_quota_refuted",
    "C94_mask",
    "C94_order",
    "C94_source",
    "C94_stripe",
    "C94_deep",
    "C94_merge",
    "C94_threshold",
    "C94_threshold_refuted",
    "C94_border_refuted",
    "C94_outside_refuted"
   ],
   "note": "Weights exact reals, percentages in binary32. Widths up to a quarter of the number of angles. Refuted: larger widths are accepted and read outside the arrays; 85 % of 60 is 50; with the depth check a higher threshold can empty the mask; merging grows a stripe to the border of the detector."
  },
  {
   "property": "C95",
   "status": "partial",
   "theorems": [
    "C95_nearest",
    "C95_planes",
    "C95_range",
    "C95_linear",
    "C95_disc",
    "C95_back",
    "C95_back_refuted",
    "C95_count",
    "C95_count_range",
    "C95_count_disc",
    "C95_bounds",
    "C95_bounds_refuted"
   ],
   "note": "Exact real arithmetic, cv::warpAffine without its fixed point rounding; cubic is a parameter. Refuted: with an even number of rows half a turn loses a column (centre truncated to n/2); with more detector pixels than num_gridy the loops leave the image."
  },
  {
   "property": "C96",
   "status": "partial",
   "theorems": [
    "C96_step",
    "C96_iterate",
    "C96_slices",
    "C96_unseen",
    "C96_outside",
    "C96_nonneg",
    "C96_zero",
    "C96_consistent",
    "C96_fixed_refuted",
    "C96_scale_refuted"
   ],
   "note": "CPU path, exact real arithmetic, nearest neighbour and linear, dx at most num_gridy. Refuted: an image that explains the data is not a fixed point (r becomes r(r+1)/n), doubling data and image does not double the result."
  },
  {
   "property": "C97",
   "status": "partial",
   "theorems": [
    "C97_step",
    "C97_iterate",
    "C97_slices",
    "C97_unseen",
    "C97_outside",
    "C97_scale",
    "C97_start_refuted",
    "C97_consistent",
    "C97_fixed_refuted",
    "C97_growth_refuted"
   ],
   "note": "CPU path, exact real arithmetic, nearest neighbour and linear, dx at most num_gridy. Refuted: an image that explains the data is not a fixed point (r becomes r(1+1/n)); a pixel grows without bound; an image of zeros is never left."
  },
  {
   "property": "C98",
   "status": "partial",
   "theorems": [
    "C98_device_cpu",
    "C98_device_gpu",
    "C98_device_default",
    "C98_device_there",
    "C98_device_answers",
    "C98_device_refuted",
    "C98_numbers",
    "C98_index_words",
    "C98_device_index",
    "C98_interp",
    "C98_interp_known",
    "C98_interp_refuted",
    "C98_pool",
    "C98_pool_auto",
    "C98_pool_auto_gpu",
    "C98_pool_refuted",
    "C98_dispatch",
    "C98_fallback_refuted"
   ],
   "note": "C locale, int parsing as in libstdc++ and libc++. Refuted: words with two digits are read as an index; unknown interpolation means nearest neighbour on the CPU and abort() on the GPU; a negative pool size becomes huge; failures are not seen by Python and the announced fallback does not happen."
  },
  {
   "property": "C99",
   "status": "partial",
   "theorems": [
    "C99_buffers",
    "C99_buffers_refuted"
   ],
   "note": "Steps of a task are atomic between buffer fill and use; numbering of threads by PTL is an assumption (consecutive numbers), without it the claim is refuted by a schedule."
  },
  {
   "property": "C100",
   "status": "partial",
   "theorems": [
    "C100_removed",
    "C100_single",
    "C100_wide",
    "C100_border_refuted"
   ],
   "note": "Window over columns (dim 1). Refuted: a stripe in the first or last columns (nearer than half a window) stays."
  },
  {
   "property": "C101",
   "status": "partial",
   "theorems": [
    "C101_kernel",
    "C101_value",
    "C101_default",
    "C101_wave",
    "C101_lowpass",
    "C101_stripe",
    "C101_residue_refuted",
    "C101_odd_refuted"
   ],
   "note": "Exact real arithmetic. Refuted: the window is centred between two frequencies, so 1-exp(-1/(8 sigma^2)) of every stripe stays; with an odd number of samples a constant column does not stay constant."
  },
  {
   "property": "C102",
   "status": "partial",
   "theorems": [
    "C102_scale",
    "C102_mean",
    "C102_constant",
    "C102_ripple",
    "C102_odd_refuted"
   ],
   "note": "Exact real arithmetic; the Savitzky-Golay filter is a parameter (linear, keeps constants). Refuted: with an odd number of columns a constant sinogram does not stay constant. The ripple is stated for fewer than ten rows (no padding)."
  },
  {
   "property": "C103",
   "status": "partial",
   "theorems": [
    "C103_unchanged",
    "C103_odd",
    "C103_even",
    "C103_stripe_band",
    "C103_haar",
    "C103_uniform",
    "C103_stripes",
    "C103_residue_refuted",
    "C103_level",
    "C103_level_refuted"
   ],
   "note": "Exact real arithmetic; the wavelet transform is a parameter with perfect reconstruction, shown to exist for 'haar'. Refuted: with an even number of rows in a band a part of a perfect stripe stays; the default level depends on the number of sinograms."
  },
  {
   "property": "C104",
   "status": "partial",
   "theorems": [
    "C104_wavelength",
    "C104_pad_pixels",
    "C104_wave",
    "C104_response",
    "C104_frequency_refuted",
    "C104_zero_frequency",
    "C104_linear",
    "C104_constant",
    "C104_even",
    "C104_odd_refuted",
    "C104_energy",
    "C104_mean",
    "C104_contact",
    "C104_contact_padded",
    "C104_unpadded_refuted",
    "C104_contact_refuted"
   ],
   "note": "Exact real arithmetic, padded by at least one pixel. Refuted: odd sizes reduce constant projections, without padding every projection becomes a constant (also at distance zero for powers of two), and the response belongs to shifted and stretched frequencies."
  },
  {
   "property": "C105",
   "status": "partial",
   "theorems": [
    "C105_arrays",
    "C105_private",
    "C105_overwrites_refuted",
    "C105_chain",
    "C105_copy",
    "C105_slice_refuted",
    "C105_memory",
    "C105_transposed_refuted",
    "C105_out",
    "C105_out_in_place_refuted",
    "C105_out_strided_refuted"
   ],
   "note": "All arrays of one call have the same dtype, no empty axes; splitting and scheduling of the jobs are C01 and C04. Refuted: a shared array of the caller is overwritten, a shared slice is refused, a shared array with exchanged axes is processed in memory order, `out` stays as it was if the jobs work in place, a strided shared `out` is refused."
  },
  {
   "property": "C106",
   "status": "partial",
   "theorems": [
    "C106_tomo",
    "C106_theta",
    "C106_theta_seen",
    "C106_theta_refuted",
    "C106_theta_reversed_refuted",
    "C106_object",
    "C106_object_refuted",
    "C106_filter",
    "C106_median",
    "C106_median_refuted",
    "C106_stripe_sf",
    "C106_ring",
    "C106_ring_out_refuted"
   ],
   "note": "Layouts without empty axes; the C routine is a function from the elements it can see. Refuted: angles and centres that are already 32 bit floats but strided are read wrongly (reversed ones from outside of the buffer), objects of project2 and project3 and arguments of median_filter3d with exchanged axes are scrambled, remove_ring with `out` ignores its argument."
  },
  {
   "property": "C107",
   "status": "partial",
   "theorems": [
    "C107_columns",
    "C107_whole",
    "C107_rounded_refuted",
    "C107_far_refuted",
    "C107_slices",
    "C107_raises",
    "C107_gpus",
    "C107_lost_refuted",
    "C107_no_gpus",
    "C107_options",
    "C107_needed",
    "C107_callers_refuted"
   ],
   "note": "ASTRA itself is a parameter (a function that may fail), the threads work on different slices and are run one after the other. Refuted: half a column is ignored, a centre beyond 1.5 detector widths leaves data of other angles, failures on GPUs are lost and the start image is returned, the caller's dictionary is changed."
  },
  {
   "property": "C108",
   "status": "partial",
   "theorems": [
    "C108_batches",
    "C108_wide_refuted",
    "C108_exclusive",
    "C108_free",
    "C108_ends",
    "C108_length",
    "C108_result",
    "C108_two_calls_refuted"
   ],
   "note": "lprec's method is a parameter that keeps the number of slices; a task is split into steps at the lock, the computation and the release. Refuted: more than 4096 columns raise ZeroDivisionError; two calls at the same time clear each other's list of busy GPUs."
  },
  {
   "property": "C109",
   "status": "partial",
   "theorems": [
    "C109_crop",
    "C109_defined",
    "C109_grid",
    "C109_small_refuted",
    "C109_angles",
    "C109_first",
    "C109_angles_refuted"
   ],
   "note": "UFO itself is not modelled. Refuted: an image that is smaller than the detector by two pixels is accepted and one pixel fills the slice; angles that are not evenly spaced are replaced."
  },
  {
   "property": "C110",
   "status": "proved",
   "theorems": [
    "C110_choice",
    "C110_raises"
   ],
   "note": "Choice of the implementation; the package itself is not modelled."
  },
  {
   "property": "C111",
   "status": "partial",
   "theorems": [
    "C111_cover",
    "C111_cover3",
    "C111_grid",
    "C111_mlem_rows",
    "C111_sirt_rows",
    "C111_update",
    "C111_atomic",
    "C111_count",
    "C111_count_refuted"
   ],
   "note": "Exact arithmetic; NPP's rotation is given by a coverage and a value for each cell (parameters). Refuted: in images with more columns than rows the buffer of the count is cleared only in its first nx*nx cells."
  },
  {
   "property": "C112",
   "status": "partial",
   "theorems": [
    "C112_mlem",
    "C112_sirt",
    "C112_mlem_orderly",
    "C112_sirt_orderly",
    "C112_mlem_release_refuted",
    "C112_sirt_release_refuted",
    "C112_cpu",
    "C112_progress",
    "C112_ends",
    "C112_sirt_refuted"
   ],
   "note": "Exact arithmetic; a kernel is one atomic step of its stream except for the atomic additions (C111), NPP is a parameter, one device. Proved for debug builds and for runs in which the reset comes first; refuted for release builds (a late reset makes MLEM return zero and SIRT its start) and for SIRT against the version for the host (rays with sum zero)."
  },
  {
   "property": "C113",
   "status": "partial",
   "theorems": [
    "C113_exclusive",
    "C113_holder",
    "C113_free",
    "C113_pass",
    "C113_same",
    "C113_wrong_refuted",
    "C113_throw_refuted"
   ],
   "note": "The check, the counter and NPP's stream as a transition system; the initialisation of the static stream is not modelled. Refuted: with streams of their own a thread that finds its stream set does not take the lock, its rotation may run in the stream of another thread or throw."
  },
  {
   "property": "C114",
   "status": "partial",
   "theorems": [
    "C114_recon",
    "C114_wrappers",
    "C114_succeeds",
    "C114_int",
    "C114_wrap_refuted",
    "C114_dtype_refuted",
    "C114_project",
    "C114_project2",
    "C114_project3",
    "C114_vector",
    "C114_vector2",
    "C114_vector3",
    "C114_prep",
    "C114_detect",
    "C114_mask",
    "C114_sample",
    "C114_ring",
    "C114_median_float",
    "C114_median_uint16",
    "C114_inpainter"
   ],
   "note": "Refuted: an integer outside the range of int is reduced modulo 2^32; the element type of an array is not checked. restype and loading of the libraries are not modelled."
  },
  {
   "property": "C115",
   "status": "partial",
   "theorems": [
    "C115_art",
    "C115_fbp",
    "C115_grad",
    "C115_tikh",
    "C115_tv",
    "C115_subsets",
    "C115_quad",
    "C115_hybrid",
    "C115_gridrec",
    "C115_project",
    "C115_normalize_bg",
    "C115_normalize_bg_refuted",
    "C115_row_refuted"
   ],
   "note": "On the models of the solvers in exact arithmetic (C53-C76); accelerated versions, vector solvers, project2/3 and the filters of misc/prep other than normalize_bg are not covered. Refuted: normalize_bg with more air than columns reads in front of the row; the penalised solvers on grids of one column read behind the row."
  },
  {
   "property": "C116",
   "status": "partial",
   "theorems": [
    "C116_bounds",
    "C116_values",
    "C116_unknown",
    "C116_default",
    "C116_init_refuted",
    "C116_reg_par_refuted",
    "C116_ind_block_refuted",
    "C116_reg_data_refuted",
    "C116_filter_refuted",
    "C116_num_block_refuted",
    "C116_int_refuted",
    "C116_float32_refuted",
    "C116_number"
   ],
   "note": "Sizes of the arrays behind one chunk; the C int arithmetic on indices is not modelled. Refuted (nothing is checked): init_recon of another size, one number as reg_par where two are read, short ind_block, the default reg_data on wider grids, custom filters without table, num_block 0; indices of one fair chunk exceed int."
  },
  {
   "property": "C117",
   "status": "partial",
   "theorems": [
    "C117_exists",
    "C117_affine",
    "C117_last_row",
    "C117_errors",
    "C117_unique",
    "C117_shift",
    "C117_scene",
    "C117_drift_refuted"
   ],
   "note": "Exact real arithmetic; lstsq is any solution with the least sum of squares, interpolation is exact at pixels. Refuted: the fitted map from the image to the reference is used as map from the result to the image and x, y as row, column, so a drift is changed into another one."
  },
  {
   "property": "C118",
   "status": "partial",
   "theorems": [
    "C118_peak",
    "C118_falls",
    "C118_symmetric",
    "C118_cdf",
    "C118_one_refuted",
    "C118_few",
    "C118_thinned",
    "C118_largest_refuted",
    "C118_no_steps"
   ],
   "note": "Exact real arithmetic, any sorting routine. Refuted: the last height is n/(n-1), the largest number may be lost by thinning; one number gives NaN, steps <= 0 raises ZeroDivisionError or IndexError."
  },
  {
   "property": "C119",
   "status": "partial",
   "theorems": [
    "C119_weight",
    "C119_range",
    "C119_monotone",
    "C119_strict",
    "C119_recoded",
    "C119_normalised",
    "C119_order",
    "C119_exposure",
    "C119_black_refuted",
    "C119_stack",
    "C119_negative_refuted"
   ],
   "note": "Exact real arithmetic, any sorting routine, median filter a parameter; the pool of processes is not modelled. Refuted: a black image gives NaN, negative values become bright."
  },
  {
   "property": "C120",
   "status": "partial",
   "theorems": [
    "C120_grid",
    "C120_points",
    "C120_kept",
    "C120_margin",
    "C120_pixels",
    "C120_lengths",
    "C120_ordered",
    "C120_near_line",
    "C120_buffers",
    "C120_solver_rays",
    "C120_large_refuted"
   ],
   "note": "IEEE binary32 with rounding to nearest even (double where C computes in double); sinf and cosf any values in [-1,1]; assumes no fused multiply-add and no excess precision. Accuracy is proved for the first family of grid lines, not the sum of the lengths. Refuted: grids of 2^20 columns."
  },
  {
   "property": "C121",
   "status": "partial",
   "theorems": [
    "C121_project",
    "C121_fbp",
    "C121_art",
    "C121_subsets",
    "C121_empty",
    "C121_no_blocks_refuted",
    "C121_nan_angle_refuted"
   ],
   "note": "IEEE binary32/binary64, ints of 32 bits, assert compiled away (C54 treats it), malloc succeeds; fmodf, sinf and cosf any functions in their ranges. grad, tv, tikh, pml, ospml and vector are covered for exact arithmetic only (C114). Refuted: num_block = 0, angles that are not numbers."
  },
  {
   "property": "C122",
   "status": "partial",
   "theorems": [
    "C122_quadrant",
    "C122_tiny_refuted",
    "C122_ordered",
    "C122_ordered_any"
   ],
   "note": "sinf and cosf any functions with relative error up to 1/1000. Order for project is proved except for angles in (-3e-9, 0). Refuted: calc_quadrant for angles in [-2.9e-9, 0)."
  },
  {
   "property": "C123",
   "status": "proved",
   "theorems": [
    "C123_project",
    "C123_fbp",
    "C123_art",
    "C123_subsets"
   ],
   "note": "Same machine arithmetic as C121; both calls have no undefined behaviour."
  },
  {
   "property": "C124",
   "status": "partial",
   "theorems": [
    "C124_project",
    "C124_fbp",
    "C124_osem",
    "C124_zero",
    "C124_untouched",
    "C124_zero_ray_refuted"
   ],
   "note": "Same machine arithmetic as C121; NaN has no sign. Refuted: an image that is zero along a ray becomes NaN."
  },
  {
   "property": "C125",
   "status": "proved",
   "theorems": [
    "C125_project",
    "C125_fbp"
   ],
   "note": "Same machine arithmetic as C121. The terms are those of the traced ray in machine arithmetic (C120 bounds how far its points are from the exact line); the bound is on the summation."
  },
  {
   "property": "C126",
   "status": "partial",
   "theorems": [
    "C126_safe",
    "C126_no_blocks_refuted",
    "C126_one_row_refuted"
   ],
   "note": "Machine arithmetic as in C121; sqrt and fabs are the double functions. Refuted: grids of one row, num_block = 0."
  },
  {
   "property": "C127",
   "status": "proved",
   "theorems": [
    "C127_slices"
   ],
   "note": "Same machine arithmetic as C126; both calls have no undefined behaviour."
  },
  {
   "property": "C128",
   "status": "proved",
   "theorems": [
    "C128_value",
    "C128_gamma"
   ],
   "note": "One subset (num_block = 1). The terms are those of the traced ray in machine arithmetic."
  },
  {
   "property": "C129",
   "status": "partial",
   "theorems": [
    "C129_discriminant",
    "C129_pixel_e",
    "C129_bound_partial",
    "C129_quad_partial",
    "C129_negative_refuted"
   ],
   "note": "Bound for one pass only (after it pixels may be slightly negative). Refuted: pixels stay non-negative."
  },
  {
   "property": "C130",
   "status": "partial",
   "theorems": [
    "C130_grad_safe",
    "C130_tikh_safe",
    "C130_tv_safe",
    "C130_short_refuted"
   ],
   "note": "Machine arithmetic as in C126. Refuted: too short reg_pars or reg_data (the Python side does not check them, C116)."
  },
  {
   "property": "C131",
   "status": "proved",
   "theorems": [
    "C131_grad",
    "C131_tikh",
    "C131_tv"
   ],
   "note": "Same machine arithmetic as C130; both calls have no undefined behaviour."
  },
  {
   "property": "C132",
   "status": "proved",
   "theorems": [
    "C132_grad",
    "C132_tikh",
    "C132_tv",
    "C132_scale"
   ],
   "note": "The terms are those of the traced ray in machine arithmetic."
  },
  {
   "property": "C133",
   "status": "proved",
   "theorems": [
    "C133_grad",
    "C133_grad_nan",
    "C133_tv",
    "C133_tv_zero"
   ],
   "note": "The NaN cases are proved for all geometries as part of the property."
  },
  {
   "property": "C134",
   "status": "partial",
   "theorems": [
    "C134_bg_safe",
    "C134_bg_air_refuted",
    "C134_sf_safe"
   ],
   "note": "Machine arithmetic as in C121. Refuted: more air pixels than columns (not checked by the wrapper)."
  },
  {
   "property": "C135",
   "status": "partial",
   "theorems": [
    "C135_bg",
    "C135_bg_close",
    "C135_bg_cancel_refuted",
    "C135_bg_nan"
   ],
   "note": "Machine arithmetic as in C121. Refuted: the result is near the exact one for all positive rows."
  },
  {
   "property": "C136",
   "status": "proved",
   "theorems": [
    "C136_sf",
    "C136_sf_close",
    "C136_sf_one",
    "C136_sf_nan"
   ],
   "note": "Machine arithmetic as in C121."
  },
  {
   "property": "C137",
   "status": "partial",
   "theorems": [
    "C137_vector",
    "C137_project2",
    "C137_project3",
    "C137_project3_refuted"
   ],
   "note": "Machine arithmetic as in C121. Refuted: project3 on an object that is no cube, axis 1."
  },
  {
   "property": "C138",
   "status": "partial",
   "theorems": [
    "C138_vector",
    "C138_passes",
    "C138_slices",
    "C138_unseen_refuted"
   ],
   "note": "The rays are those of the traced ray in machine arithmetic. Refuted: pixels without rays stay."
  },
  {
   "property": "C139",
   "status": "proved",
   "theorems": [
    "C139_project2",
    "C139_project3",
    "C139_no_axis",
    "C139_rays",
    "C139_direction",
    "C139_ray_direction",
    "C139_error"
   ],
   "note": "The rays are those of the traced ray in machine arithmetic."
  }
 ]
}