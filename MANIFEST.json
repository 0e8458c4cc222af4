{
 "claims": [
  {
   "property": "C01",
   "status": "proved",
   "theorems": [
    "C01_clusters_are_connected_components"
   ],
   "note": "All shapes of rank 1-3 (zero-length axes included), both periodicities."
  },
  {
   "property": "C02",
   "status": "proved",
   "theorems": [
    "C02_clusters_numbered_in_scan_order",
    "C02_numbering_is_determined"
   ],
   "note": "The second theorem shows the rules leave one possible output."
  },
  {
   "property": "C03",
   "status": "proved",
   "theorems": [
    "C03_foreground_is_what_was_added"
   ],
   "note": "Any rank, any kernel, any history."
  },
  {
   "property": "C04",
   "status": "proved",
   "theorems": [
    "C04_partition_is_connected_components",
    "C04_partition_default_constructor",
    "C04_partition_kernel_constructor"
   ],
   "note": "Symmetric kernels within the range of C13."
  },
  {
   "property": "C05",
   "status": "proved",
   "theorems": [
    "C05_partition_independent_of_order_and_batching"
   ],
   "note": "Symmetric kernels within the range of C13."
  },
  {
   "property": "C06",
   "status": "proved",
   "theorems": [
    "C06_legal_calls_return",
    "C06_legal_calls_return_any_kernel",
    "C06_illegal_calls_throw_with_assertions"
   ],
   "note": "Out-of-range accesses and loops that do not end are distinct outcomes of the model."
  },
  {
   "property": "C07",
   "status": "proved",
   "theorems": [
    "C07_add_keeps_smallest_previous_label"
   ],
   "note": ""
  },
  {
   "property": "C08",
   "status": "proved",
   "theorems": [
    "C08_prune_renumbers_and_keeps_the_rest"
   ],
   "note": ""
  },
  {
   "property": "C09",
   "status": "proved",
   "theorems": [
    "C09_reset_is_fresh"
   ],
   "note": ""
  },
  {
   "property": "C10",
   "status": "proved",
   "theorems": [
    "C10_add_sequence_labels_and_reports"
   ],
   "note": ""
  },
  {
   "property": "C11",
   "status": "partial",
   "theorems": [
    "C11_add_sequence_reports_more_refuted",
    "C11_reports_changes_or_revisits_partial",
    "C11_reports_exactly_changes_partial"
   ],
   "note": "False of the code: revisited pixels can be reported. Proved: every reported position is a new or merged cluster or a revisited pixel; the report is exact if all pixels are different and new."
  },
  {
   "property": "C12",
   "status": "partial",
   "theorems": [
    "C12_default_is_nearest_rank_1_2_partial",
    "C12_default_is_nearest_rank_3_refuted",
    "C12_nearest_rank_3_clusters"
   ],
   "note": "True for rank 1 and 2, false for rank 3, where kernel::nearest gives clusters of voxels that share a face or an edge (proved)."
  },
  {
   "property": "C13",
   "status": "partial",
   "theorems": [
    "C13_kernel_entries_are_offsets_partial",
    "C13_long_negative_offset_refuted",
    "C13_diagonal_on_one_row_refuted"
   ],
   "note": "True for kernels in range (always for rank >= 3), false beyond."
  },
  {
   "property": "C14",
   "status": "partial",
   "theorems": [
    "C14_order_independence_any_kernel_refuted",
    "C14_partition_any_kernel_partial"
   ],
   "note": "False for asymmetric kernels; C05 is the true version for symmetric ones. Proved for any kernel in range: exactly how the partition follows from the order."
  },
  {
   "property": "C15",
   "status": "partial",
   "theorems": [
    "C15_islands_of_equal_value_refuted",
    "C15_islands_of_equal_value_partial"
   ],
   "note": "False of the code: any non-zero value is foreground. Proved for images in which pixels of different non-zero values do not touch."
  },
  {
   "property": "C16",
   "status": "proved",
   "theorems": [
    "C16_map_then_rename_is_target",
    "C16_map_rows"
   ],
   "note": ""
  },
  {
   "property": "C17",
   "status": "proved",
   "theorems": [
    "C17_rename_applies_table",
    "C17_rename_missing_label",
    "C17_rename_table_must_have_two_columns"
   ],
   "note": ""
  },
  {
   "property": "C18",
   "status": "proved",
   "theorems": [
    "C18_prune_renumbers"
   ],
   "note": ""
  },
  {
   "property": "C19",
   "status": "proved",
   "theorems": [
    "C19_reorder_maps_order_to_position",
    "C19_reorder_by_identity"
   ],
   "note": "Non-empty images (see C20)."
  },
  {
   "property": "C20",
   "status": "partial",
   "theorems": [
    "C20_reorder_negative_labels_refuted",
    "C20_reorder_empty_image_refuted",
    "C20_reorder_throws_or_returns_partial"
   ],
   "note": "False of the code for negative labels and for the empty image; true otherwise."
  },
  {
   "property": "C21",
   "status": "proved",
   "theorems": [
    "C21_sizes_count_pixels",
    "C21_sizes_of_names"
   ],
   "note": ""
  },
  {
   "property": "C22",
   "status": "proved",
   "theorems": [
    "C22_dilate_keeps_labelled_pixels",
    "C22_dilate_returns"
   ],
   "note": ""
  },
  {
   "property": "C23",
   "status": "proved",
   "theorems": [
    "C23_dilated_foreground_is_minkowski",
    "C23_default_kernel"
   ],
   "note": "Rank 0 to 3; labels below 2^62."
  },
  {
   "property": "C24",
   "status": "proved",
   "theorems": [
    "C24_labels_spread_from_their_own_pixels"
   ],
   "note": ""
  },
  {
   "property": "C25",
   "status": "partial",
   "theorems": [
    "C25_more_iterations_keep_labels_partial",
    "C25_more_iterations_keep_labels_periodic_partial",
    "C25_more_iterations_keep_labels_periodic_refuted"
   ],
   "note": "True when not periodic; when periodic, true of the pixels from which the kernel reaches no boundary, and false of others."
  },
  {
   "property": "C26",
   "status": "partial",
   "theorems": [
    "C26_dilate_guard_refuted",
    "C26_dilate_guard_partial",
    "C26_dilate_reads_outside"
   ],
   "note": "False of the code: the guard is too weak by two; proved that every label in between makes the call read outside the list."
  },
  {
   "property": "C27",
   "status": "proved",
   "theorems": [
    "C27_bresenham_connects"
   ],
   "note": "Coordinate differences below 2^30."
  },
  {
   "property": "C28",
   "status": "proved",
   "theorems": [
    "C28_bresenham_within_half_a_pixel",
    "C28_bresenham_nearest"
   ],
   "note": ""
  },
  {
   "property": "C29",
   "status": "partial",
   "theorems": [
    "C29_same_point_bresenham_partial",
    "C29_same_point_refuted"
   ],
   "note": "True for Bresenham in 3-d, false otherwise."
  },
  {
   "property": "C30",
   "status": "proved",
   "theorems": [
    "C30_actual_reaches_target",
    "C30_full_reaches_target",
    "C30_origin"
   ],
   "note": "Exact arithmetic; also for other lines through the origin."
  },
  {
   "property": "C31",
   "status": "partial",
   "theorems": [
    "C31_bresenham_translation_partial",
    "C31_line_translation_partial",
    "C31_line_translation_refuted"
   ],
   "note": "True for Bresenham, false for actual and full except along lines through the origin."
  },
  {
   "property": "C32",
   "status": "proved",
   "theorems": [
    "C32_padding",
    "C32_distance_along_axis",
    "C32_no_such_axis"
   ],
   "note": "Axes of length 1 to 2^62, after any history of calls."
  },
  {
   "property": "C33",
   "status": "proved",
   "theorems": [
    "C33_distance",
    "C33_distance_scaled",
    "C33_distance_along_axis_scaled",
    "C33_length_is_euclidean"
   ],
   "note": "Exact arithmetic with formal square roots; the last theorem relates them to real numbers."
  },
  {
   "property": "C34",
   "status": "proved",
   "theorems": [
    "C34_S2_masked",
    "C34_S2_unmasked"
   ],
   "note": "Exact arithmetic."
  },
  {
   "property": "C35",
   "status": "proved",
   "theorems": [
    "C35_S2_periodic"
   ],
   "note": "Exact arithmetic."
  },
  {
   "property": "C36",
   "status": "partial",
   "theorems": [
    "C36_masked_ignored_partial",
    "C36_masked_ignored_C2_partial",
    "C36_masked_ignored_W2_partial",
    "C36_masked_ignored_heightheight_partial",
    "C36_masked_ignored_refuted",
    "C36_masked_ignored_C2_refuted",
    "C36_masked_ignored_W2_refuted",
    "C36_masked_ignored_heightheight_refuted",
    "C36_S2_as_computed",
    "C36_C2_as_computed",
    "C36_W2_as_computed",
    "C36_heightheight_as_computed"
   ],
   "note": "True when not periodic; false of the code when periodic: masked pixels count when seen through the boundary."
  },
  {
   "property": "C37",
   "status": "proved",
   "theorems": [
    "C37_C2_masked",
    "C37_C2_unmasked",
    "C37_C2_periodic"
   ],
   "note": ""
  },
  {
   "property": "C38",
   "status": "proved",
   "theorems": [
    "C38_W2_masked",
    "C38_W2_unmasked",
    "C38_W2_no_weight",
    "C38_W2_periodic"
   ],
   "note": "Exact arithmetic."
  },
  {
   "property": "C39",
   "status": "proved",
   "theorems": [
    "C39_heightheight_masked",
    "C39_heightheight_unmasked",
    "C39_heightheight_periodic"
   ],
   "note": "Exact arithmetic."
  },
  {
   "property": "C40",
   "status": "partial",
   "theorems": [
    "C40_L_counts_free_paths",
    "C40_L_probability",
    "C40_L_centre_partial",
    "C40_L_centre_refuted",
    "C40_L_other_modes_refuted"
   ],
   "note": "Counts and bounds proved for every image and path mode (axes of at most 2^30 pixels for Bresenham, 10^6 otherwise). The value at the centre is the volume fraction unless the roi is a single pixel, in which case there are no paths and the result is 0 (refuted by witness). Axes of exactly two pixels are undefined behaviour for the modes actual and full."
  },
  {
   "property": "C41",
   "status": "partial",
   "theorems": [
    "C41_W2c_skips_cluster_refuted",
    "C41_W2c_skips_one_pixel_partial",
    "C41_W2c_ignores_extent"
   ],
   "note": "False of the code: the counter is incremented unconditionally, so only the centre pixel is skipped. Proved: exactly what is counted, and that the extent of the clusters has no influence."
  },
  {
   "property": "C42",
   "status": "partial",
   "theorems": [
    "C42_W2c_stays_inside_refuted",
    "C42_W2c_right_place_refuted",
    "C42_W2c_stays_inside_partial"
   ],
   "note": "False of the code for some rank-3 roi (the third index uses the padding of the second axis). Proved for rank 1, 2 and for rank 3 if the half sizes of the last two axes agree."
  },
  {
   "property": "C43",
   "status": "proved",
   "theorems": [
    "C43_data_add_up",
    "C43_sequence_works",
    "C43_order_is_irrelevant"
   ],
   "note": "All eight measures, any sequence. Reading is a pure function of the state in the model, as the methods are const in the code."
  },
  {
   "property": "C44",
   "status": "proved",
   "theorems": [
    "C44_mean_and_variance"
   ],
   "note": "Exact arithmetic."
  },
  {
   "property": "C45",
   "status": "proved",
   "theorems": [
    "C45_locked",
    "C45_variance"
   ],
   "note": "A call that throws returns no new state in the model: the assertions precede every write in the code."
  },
  {
   "property": "C46",
   "status": "proved",
   "theorems": [
    "C46_S2_probability",
    "C46_S2_centre",
    "C46_S2_maximum_and_symmetry"
   ],
   "note": "Exact arithmetic."
  },
  {
   "property": "C47",
   "status": "proved",
   "theorems": [
    "C47_center_is_mean",
    "C47_center_of_mass_is_weighted_mean",
    "C47_equal_weights",
    "C47_no_position",
    "C47_center_translates"
   ],
   "note": "Real arithmetic (stdlib axioms of R)."
  },
  {
   "property": "C48",
   "status": "partial",
   "theorems": [
    "C48_center_is_circular_mean",
    "C48_center_of_mass_is_circular_mean",
    "C48_center_of_mass_negative_total",
    "C48_weights_that_cancel",
    "C48_weights_must_match",
    "C48_circular_mean_is_determined",
    "C48_single_position",
    "C48_wrapped_positions",
    "C48_order_is_irrelevant",
    "C48_translation_partial",
    "C48_translation_refuted"
   ],
   "note": "All parts proved in real arithmetic, but for translation: true unless the positions balance on the circle (two opposite positions), in which case the result is 0 wherever they are (refuted by witness)."
  },
  {
   "property": "C49",
   "status": "proved",
   "theorems": [
    "C49_labels_centers",
    "C49_labels_centers_of_mass",
    "C49_illegal_calls_throw"
   ],
   "note": "Real arithmetic."
  },
  {
   "property": "C50",
   "status": "proved",
   "theorems": [
    "C50_image_is_union_of_discs",
    "C50_within_is_euclidean",
    "C50_bad_arguments_throw"
   ],
   "note": "Unbounded integers; a periodic image needs non-empty axes."
  },
  {
   "property": "C51",
   "status": "partial",
   "theorems": [
    "C51_nearest_is_face_neighbours_partial",
    "C51_nearest_rank_3_refuted",
    "C51_nearest_rank_3_is_edge_neighbours"
   ],
   "note": "True for rank 1 and 2, false for rank 3, where the edge neighbours are set as well (proved)."
  },
  {
   "property": "C52",
   "status": "proved",
   "theorems": [
    "C52_structure_factor_1d",
    "C52_power_is_product_with_opposite",
    "C52_only_nyquist_unwritten"
   ],
   "note": "Real arithmetic, floating point input arrays."
  },
  {
   "property": "C53",
   "status": "partial",
   "theorems": [
    "C53_structure_factor_2d_partial",
    "C53_power_is_product_with_opposite",
    "C53_mixed_parity_throws",
    "C53_every_entry",
    "C53_depends_on_memory_refuted",
    "C53_mixed_frequencies_refuted"
   ],
   "note": "True where both frequencies have the same sign (the part qnorm describes); false for the other entries: some are never written, the others hold another product (every entry is characterised in C53_every_entry)."
  },
  {
   "property": "C54",
   "status": "partial",
   "theorems": [
    "C54_size_partial",
    "C54_python_size_refuted"
   ],
   "note": "True in C++; the Python property size returns the shape."
  },
  {
   "property": "C55",
   "status": "proved",
   "theorems": [
    "C55_version_without_quotes",
    "C55_text_is_determined"
   ],
   "note": ""
  },
  {
   "property": "C56",
   "status": "proved",
   "theorems": [
    "C56_pixels_on_the_line",
    "C56_actual_in_order"
   ],
   "note": "Exact arithmetic."
  },
  {
   "property": "C57",
   "status": "proved",
   "theorems": [
    "C57_center_inside_the_window",
    "C57_center_of_mass_inside_the_window"
   ],
   "note": "Real arithmetic."
  },
  {
   "property": "C58",
   "status": "proved",
   "theorems": [
    "C58_weights_scale",
    "C58_negative_factor_mean",
    "C58_negative_factor_circular",
    "C58_negative_factor_refuted",
    "C58_weights_are_repetitions",
    "C58_order_is_irrelevant"
   ],
   "note": "Real arithmetic with signed zeros. With a negative factor the coordinate itself can change: a position at 0 with weight -1 gives the length of the box (refuted by witness)."
  },
  {
   "property": "C59",
   "status": "partial",
   "theorems": [
    "C59_random_circles_partial",
    "C59_random_circles_small_image_refuted"
   ],
   "note": "True for axes of at least twenty pixels, undefined behaviour below; the numbers the generator returns are arbitrary."
  },
  {
   "property": "C60",
   "status": "partial",
   "theorems": [
    "C60_origin_is_irrelevant_1d",
    "C60_origin_is_irrelevant_2d_partial",
    "C60_origin_is_irrelevant_2d_refuted",
    "C60_sum_rule"
   ],
   "note": "Full in one dimension. In two dimensions proved where both frequencies have the same sign, false elsewhere (witness)."
  },
  {
   "property": "C61",
   "status": "proved",
   "theorems": [
    "C61_frequencies_1d",
    "C61_opposite_frequencies",
    "C61_frequencies_2d",
    "C61_qnorm_1d",
    "C61_qnorm_2d"
   ],
   "note": "Real arithmetic."
  },
  {
   "property": "C62",
   "status": "proved",
   "theorems": [
    "C62_repr_shows_rank_and_shape",
    "C62_repr_tells_shapes_apart"
   ],
   "note": ""
  },
  {
   "property": "C63",
   "status": "proved",
   "theorems": [
    "C63_python_labeller_default",
    "C63_python_labeller_kernel",
    "C63_python_labeller_throws",
    "C63_classes",
    "C63_class_of_a_rank"
   ],
   "note": ""
  },
  {
   "property": "C64",
   "status": "proved",
   "theorems": [
    "C64_batching_is_invisible"
   ],
   "note": "Any rank, any kernel, from any reachable state."
  },
  {
   "property": "C65",
   "status": "proved",
   "theorems": [
    "C65_growing_never_splits",
    "C65_labellers"
   ],
   "note": "clusters(): rank 1 to 3; labellers with kernels: any rank, symmetric kernels with offsets in range (C13)."
  },
  {
   "property": "C66",
   "status": "proved",
   "theorems": [
    "C66_labelling_labels_changes_nothing",
    "C66_only_the_support_matters"
   ],
   "note": "Rank 1 to 3."
  },
  {
   "property": "C67",
   "status": "proved",
   "theorems": [
    "C67_rolling_a_periodic_image",
    "C67_flipping",
    "C67_transposing",
    "C67_every_pixel_is_moved"
   ],
   "note": "Rank 1 to 3."
  },
  {
   "property": "C68",
   "status": "proved",
   "theorems": [
    "C68_no_iterations_change_nothing",
    "C68_iterations_add_up",
    "C68_monotone",
    "C68_periodic_dilates_more",
    "C68_rolling_a_periodic_image",
    "C68_default_kernel_in_three_dimensions"
   ],
   "note": "Labels below 2^62."
  },
  {
   "property": "C69",
   "status": "proved",
   "theorems": [
    "C69_rolling_periodic_images",
    "C69_flipping",
    "C69_transposing"
   ],
   "note": "Exact arithmetic. Rolling: without masks (C36 is why)."
  },
  {
   "property": "C70",
   "status": "proved",
   "theorems": [
    "C70_adding_a_constant",
    "C70_scaling",
    "C70_from_the_autocorrelation"
   ],
   "note": "Exact arithmetic."
  },
  {
   "property": "C71",
   "status": "proved",
   "theorems": [
    "C71_linear_in_the_first_image",
    "C71_linear_in_the_second_image"
   ],
   "note": "Exact arithmetic."
  },
  {
   "property": "C72",
   "status": "partial",
   "theorems": [
    "C72_S2_exchange_partial",
    "C72_C2_exchange_partial",
    "C72_heightheight_symmetric_partial",
    "C72_exchange_refuted",
    "C72_heightheight_refuted"
   ],
   "note": "False for periodic images with masks (witnesses): the mask of the second pixel is ignored through the boundary. Proved in all other cases."
  },
  {
   "property": "C73",
   "status": "proved",
   "theorems": [
    "C73_constant_image",
    "C73_scaling_the_weights",
    "C73_unit_weights",
    "C73_linear_in_the_image"
   ],
   "note": "Exact arithmetic."
  },
  {
   "property": "C74",
   "status": "proved",
   "theorems": [
    "C74_renaming_labels",
    "C74_bounded_by_S2"
   ],
   "note": ""
  },
  {
   "property": "C75",
   "status": "partial",
   "theorems": [
    "C75_variance_cpp_default",
    "C75_variance_python_partial",
    "C75_python_default_is_nan",
    "C75_python_default_refuted"
   ],
   "note": "True with the C++ default (variance=true). False with the Python default (variance=False): variance() returns NaN instead of failing. Proved in Python for variance=True."
  },
  {
   "property": "C76",
   "status": "proved",
   "theorems": [
    "C76_flag_irrelevant_to_averages",
    "C76_functions_for_one_image"
   ],
   "note": ""
  },
  {
   "property": "C77",
   "status": "partial",
   "theorems": [
    "C77_images_analysed_partial",
    "C77_rounded_towards_zero",
    "C77_images_analysed_refuted"
   ],
   "note": "False: unmasked S2, W2 and W2c round images towards zero unless the dtypes match an overload exactly (int overload registered first). Proved for exact dtypes, integer values, masked calls and all other methods. pybind11's two-pass overload resolution is an assumed contract."
  },
  {
   "property": "C78",
   "status": "proved",
   "theorems": [
    "C78_integers_are_exact"
   ],
   "note": "IEEE 754 binary64 (Flocq). pow(x, 2) and pow(x, 4) are assumed exact on integers while the power is at most 2^53; xt::sum may add in any order."
  },
  {
   "property": "C79",
   "status": "partial",
   "theorems": [
    "C79_mean_ignores_masked_values",
    "C79_W2c_ignores_masked_values",
    "C79_S2_partial",
    "C79_W2_partial",
    "C79_heightheight_partial",
    "C79_S2_refuted",
    "C79_W2_refuted",
    "C79_heightheight_refuted",
    "C79_S2_of_finite_images_refuted"
   ],
   "note": "Proved for mean and W2c. False for S2, W2 and heightheight (witnesses): the mask is a factor 0, and NaN * 0 = NaN, also after overflow of finite values. Proved for these when not periodic and the products (powers of differences) of masked with unmasked values are finite."
  },
  {
   "property": "C80",
   "status": "partial",
   "theorems": [
    "C80_order_of_integers_partial",
    "C80_order_refuted"
   ],
   "note": "False in general (witness). Proved for images of integers whose sums cannot exceed 2^53."
  },
  {
   "property": "C81",
   "status": "proved",
   "theorems": [
    "C81_accepted_samples",
    "C81_order_is_irrelevant"
   ],
   "note": "Real arithmetic."
  },
  {
   "property": "C82",
   "status": "partial",
   "theorems": [
    "C82_exact_range",
    "C82_mean_of_integers_partial",
    "C82_variance_of_integers_partial",
    "C82_range_refuted"
   ],
   "note": "Proved in exact arithmetic. False in doubles (three pixels of 0.1). Proved in doubles for images of integers with sums up to 2^53 (variance: 2^50)."
  },
  {
   "property": "C83",
   "status": "proved",
   "theorems": [
    "C83_rounding_is_immaterial",
    "C83_actual_reaches_target",
    "C83_full_reaches_target",
    "C83_pixels_on_the_line"
   ],
   "note": "Binary64 arithmetic, to nearest even, without fused operations."
  },
  {
   "property": "C84",
   "status": "partial",
   "theorems": [
    "C84_pixels_on_the_line_partial",
    "C84_actual_skips_refuted",
    "C84_full_strays_refuted"
   ],
   "note": "True up to 707 pixels along each axis; false at 708 pixels, in exact arithmetic and in doubles."
  },
  {
   "property": "C85",
   "status": "proved",
   "theorems": [
    "C85_L_below_S2"
   ],
   "note": "Exact rationals."
  },
  {
   "property": "C86",
   "status": "proved",
   "theorems": [
    "C86_L_monotone"
   ],
   "note": "Exact rationals."
  },
  {
   "property": "C87",
   "status": "partial",
   "theorems": [
    "C87_L_defined_everywhere",
    "C87_L_uniform_partial",
    "C87_L_uniform_refuted"
   ],
   "note": "Normalisation: proved (regions up to 2^30 pixels along an axis, 1415 for actual and full). The value one: proved for periodic images, false otherwise (witness), because walks that leave the image are counted as blocked."
  },
  {
   "property": "C88",
   "status": "partial",
   "theorems": [
    "C88_L_line",
    "C88_L_line_decays_and_is_even",
    "C88_L_even_refuted"
   ],
   "note": "One dimension: proved. Opposite offsets in two dimensions: false (witness), because a Bresenham path is not that of the way back."
  },
  {
   "property": "C89",
   "status": "proved",
   "theorems": [
    "C89_complement",
    "C89_W2_from_S2"
   ],
   "note": "Exact arithmetic."
  },
  {
   "property": "C90",
   "status": "proved",
   "theorems": [
    "C90_cauchy_schwarz",
    "C90_autocorrelation_peaks_at_zero",
    "C90_triangle_inequality",
    "C90_lower_bound"
   ],
   "note": "Exact arithmetic."
  },
  {
   "property": "C91",
   "status": "proved",
   "theorems": [
    "C91_sum_rule"
   ],
   "note": "Exact arithmetic."
  },
  {
   "property": "C92",
   "status": "partial",
   "theorems": [
    "C92_wiener_khinchin_1d",
    "C92_wiener_khinchin_2d_partial",
    "C92_wiener_khinchin_2d_refuted"
   ],
   "note": "One dimension: proved, for every frequency but the Nyquist one, which Structure does not write (C52). Two dimensions: for the entries whose frequencies have the same sign; false in the others (witness, C53)."
  },
  {
   "property": "C93",
   "status": "partial",
   "theorems": [
    "C93_integers_1d_partial",
    "C93_integers_2d_partial",
    "C93_zero_frequency_is_exact",
    "C93_integers_refuted"
   ],
   "note": "False: the powers are stored in an array of the dtype of the sample, that is rounded down to integers before the division (witness: a binary sample whose power is lost altogether). Proved: at most 1 / n too small, exact at zero frequency. Integers without bound."
  },
  {
   "property": "C94",
   "status": "partial",
   "theorems": [
    "C94_dilate_by_name_partial",
    "C94_dilate_by_position_partial",
    "C94_kernel_taken_for_iterations",
    "C94_number_by_position_throws",
    "C94_misuse_raises",
    "C94_flag_of_iterations",
    "C94_dilate_by_position_refuted"
   ],
   "note": "Proved if all arguments but the image are named (any order, any dtype), and by position for the dtypes of the C++ signature. False by position otherwise (witnesses): the kernel of a one-dimensional image is taken for the iterations, a number for the kernel. pybind11's overload resolution is an assumed contract, and so is that an array of the wrong rank does not load (used by the second witness only)."
  },
  {
   "property": "C95",
   "status": "partial",
   "theorems": [
    "C95_integers_as_passed_partial",
    "C95_wrong_rank_raises",
    "C95_clusters_of_any_array",
    "C95_foreground_refuted"
   ],
   "note": "True for arrays of integers of any dtype. False for fractions (0.5 becomes background); which pixels are background is proved for every array."
  },
  {
   "property": "C96",
   "status": "proved",
   "theorems": [
    "C96_histories_as_in_cpp",
    "C96_any_history_returns_or_raises"
   ],
   "note": "The second part holds with the assertions that the Python module is compiled with (CMakeLists.txt:16). Values of images in the range of int; indices of integer dtype."
  },
  {
   "property": "C97",
   "status": "proved",
   "theorems": [
    "C97_counted_statistics",
    "C97_weighted_statistics"
   ],
   "note": "Forward error bounds by induction over all roundings; pow(x, 2) is assumed within one unit in the last place."
  },
  {
   "property": "C98",
   "status": "partial",
   "theorems": [
    "C98_path_as_passed_partial",
    "C98_circles_as_passed_partial",
    "C98_labels_as_passed_partial",
    "C98_centers_as_passed",
    "C98_wrong_rank_raises",
    "C98_path_refuted",
    "C98_labels_refuted"
   ],
   "note": "True for the centers of any positions, and for positions, radii and labels that are integers of any dtype. False for fractions, which are rounded towards zero without an exception (witnesses)."
  },
  {
   "property": "C99",
   "status": "proved",
   "theorems": [
    "C99_same_partition_same_measures",
    "C99_prune_keeps_the_partition",
    "C99_reorder_sorts",
    "C99_renaming_composes",
    "C99_labeller_is_clusters_but_for_names"
   ],
   "note": "Labeller: default kernel, rank 1 to 3."
  },
  {
   "property": "C100",
   "status": "partial",
   "theorems": [
    "C100_center_of_mass_translates",
    "C100_center_of_mass_of_wrapped_positions",
    "C100_periodic_center_of_mass_translates_partial",
    "C100_rolling_a_label_image_partial",
    "C100_rolling_labels_and_weights_partial",
    "C100_rolling_refuted"
   ],
   "note": "Real arithmetic. Proved without periodicity, and for wrapped positions. In a periodic box false for positions that balance (witness: two opposite pixels; cause as C48), proved for all others of positive total weight."
  },
  {
   "property": "C101",
   "status": "partial",
   "theorems": [
    "C101_mirrored_partial",
    "C101_axes_partial",
    "C101_reversed_bresenham_partial",
    "C101_reversed_bresenham_exactly",
    "C101_reversed_actual_partial",
    "C101_axes_refuted",
    "C101_reversed_refuted"
   ],
   "note": "Mirroring is proved in every mode. Interchanging axes is proved but for full, which passes corners along the first axis first (witness). Reversing is proved for Bresenham exactly when no point is halfway between two pixels (for instance if the largest difference is odd) and for actual through the origin; false for Bresenham at halfway points and for full at corners (witnesses). Exact arithmetic (C83: rounding does not change these paths)."
  },
  {
   "property": "C102",
   "status": "proved",
   "theorems": [
    "C102_order_and_repetition",
    "C102_monotone",
    "C102_union",
    "C102_centres_modulo_shape",
    "C102_rolled",
    "C102_periodic_covers_more",
    "C102_fitting",
    "C102_flipped",
    "C102_transposed"
   ],
   "note": "Every law is proved for dummy_circles on all shapes and lists of circles."
  },
  {
   "property": "C103",
   "status": "proved",
   "theorems": [
    "C103_clusters_of_circles"
   ],
   "note": "For all shapes with fewer pixels than the int range."
  },
  {
   "property": "C104",
   "status": "partial",
   "theorems": [
    "C104_circles_exact_partial",
    "C104_circles_refuted",
    "C104_random_circles",
    "C104_random_circles_exact"
   ],
   "note": "Proved for radii up to 2^26, false for 2^26 + 1 (witness, with the square root of IEEE 754). Random circles: proved for images of up to 2^28 by 2^28 (and 2^53 pixels), with the default radius up to a relative error of 2^-48. pow(x, 0.5) is any square root accurate to one unit in the last place."
  },
  {
   "property": "C105",
   "status": "proved",
   "theorems": [
    "C105_mean",
    "C105_mean_of_integers",
    "C105_weighted_mean",
    "C105_circular_mean",
    "C105_circular_center_of_mass",
    "C105_labels_centers",
    "C105_labels_centers_periodic",
    "C105_labels_centers_of_mass",
    "C105_weights_must_match"
   ],
   "note": "For up to 2^40 positions, boxes with sides between 2^-100 and 2^100, positions up to 2^20 boxes away, weights that are zero or between 2^-400 and 2^400; periodic: if the concentration is at least four times the error of the means (balanced sets have no direction). The library is an argument with the contract precise."
  },
  {
   "property": "C106",
   "status": "partial",
   "theorems": [
    "C106_in_the_box_partial",
    "C106_mass_in_the_box_partial",
    "C106_in_the_box_refuted"
   ],
   "note": "Proved up to a relative error of 2^-51; false without (witness: a box of length 115, whatever correctly rounded library)."
  },
  {
   "property": "C107",
   "status": "proved",
   "theorems": [
    "C107_path",
    "C107_dummy_circles",
    "C107_clusters",
    "C107_labels",
    "C107_center",
    "C107_center_of_mass",
    "C107_labels_centers",
    "C107_labels_centers_of_mass",
    "C107_other_calls_raise"
   ],
   "note": "What the functions do with the arguments: C94-C96, C98. Numbers in place of flags or arrays are not modelled here, nor dummy_circles with a seed."
  },
  {
   "property": "C108",
   "status": "partial",
   "theorems": [
    "C108_methods",
    "C108_wrappers_partial",
    "C108_wrappers_in_order_partial",
    "C108_mask_refuted",
    "C108_flag_refuted"
   ],
   "note": "Proved for the methods, and for the functions but for masks of one pixel (W2, heightheight), which may be taken for periodic (witness). W2c has mode before periodic: a flag after f is taken for the mask (witness)."
  },
  {
   "property": "C109",
   "status": "proved",
   "theorems": [
    "C109_passes",
    "C109_passes_determine"
   ],
   "note": "Non-periodic images; an example shows that periodic images follow another rule where labels meet across the boundary."
  },
  {
   "property": "C110",
   "status": "partial",
   "theorems": [
    "C110_full_below_C2_partial",
    "C110_default_path_refuted",
    "C110_actual_path_refuted",
    "C110_any_path_below_C2_with_diagonals",
    "C110_axes_below_C2"
   ],
   "note": "Proved for path_mode::full, and in every mode along the axes; elsewhere false for the default (Bresenham) and for actual, whose steps may be diagonal while clusters() only joins faces (witnesses). In every mode L is at most C2 of the labels of a labeller with the kernel of all neighbours."
  },
  {
   "property": "C111",
   "status": "partial",
   "theorems": [
    "C111_variance_1d",
    "C111_variance_2d_partial",
    "C111_variance_2d_refuted",
    "C111_averages_as_before",
    "C111_nonnegative",
    "C111_order_is_irrelevant",
    "C111_origin_is_irrelevant"
   ],
   "note": "Proved in one dimension, and in two dimensions for frequencies of equal sign; elsewhere false as C53: entries that are never written (witness)."
  },
  {
   "property": "C112",
   "status": "partial",
   "theorems": [
    "C112_outcome",
    "C112_refused_leaves_no_trace_partial",
    "C112_shape_given",
    "C112_shape_of_first_sample_partial",
    "C112_refused_leaves_no_trace_refuted",
    "C112_spoiled_by_first_sample",
    "C112_spoiled_object"
   ],
   "note": "Proved once a shape is fixed (given to the constructor, or by a first sample that was accepted) and for empty samples. False for a first sample with an even and an odd axis: _allocate lets the base class allocate before it asserts, so that the object keeps that shape: usable samples are refused from then on, and the refused one is accepted when offered again. By the contract of enstat.static: add_sample allocates if nothing is allocated, and compares shapes."
  },
  {
   "property": "C113",
   "status": "proved",
   "theorems": [
    "C113_sum_over_offsets",
    "C113_sum_is_squared_sizes",
    "C113_clusters"
   ],
   "note": "For two images of labels, for one, and for the labels of clusters()."
  },
  {
   "property": "C114",
   "status": "partial",
   "theorems": [
    "C114_between_partial",
    "C114_constant_partial",
    "C114_constant_refuted",
    "C114_linear",
    "C114_masked_pixels",
    "C114_between_every_region",
    "C114_linear_every_region",
    "C114_masked_pixels_every_region"
   ],
   "note": "Linearity and masked pixels: always. Bounds: proved for periodic images; false otherwise: unlike the other statistics, W2c pads the mask with 0, so that the zeros around the image count (witness: the average of ones is 1/2)."
  },
  {
   "property": "C115",
   "status": "partial",
   "theorems": [
    "C115_rolled",
    "C115_rolled_every_region",
    "C115_flipped_partial",
    "C115_transposed_partial",
    "C115_flipped_refuted",
    "C115_transposed_refuted"
   ],
   "note": "Rolling: always (for W2c including masks). Flipping: proved for regions of interest that are odd along the flipped axes, in every mode; false for even ones, whose end points are not symmetric (witness). Transposing: proved for Bresenham and actual; false for full, which passes corners along the first axis first (witness)."
  },
  {
   "property": "C116",
   "status": "partial",
   "theorems": [
    "C116_ensemble_outcome_partial",
    "C116_labeller_outcome",
    "C116_ensemble_partial",
    "C116_labeller",
    "C116_python_ensemble_partial",
    "C116_python_labeller",
    "C116_sums",
    "C116_variance_refuted",
    "C116_result_refuted"
   ],
   "note": "Labellers: always. Ensembles: with assertions enabled always; without them unless mean is called with a mask whose shape cannot be broadcast with the image: the ensemble is then locked to mean, so that variance() no longer throws and result() of heightheight loses its root (witnesses). The sums are never changed."
  },
  {
   "property": "C117",
   "status": "partial",
   "theorems": [
    "C117_two_point_partial",
    "C117_larger",
    "C117_L_axes_partial",
    "C117_L_refuted",
    "C117_W2c_refuted"
   ],
   "note": "True of S2, C2, W2 and heightheight for any sequence of calls, and of L along the axes. False of L elsewhere and of W2c: in a larger region other paths pass the same element (witnesses)."
  },
  {
   "property": "C118",
   "status": "proved",
   "theorems": [
    "C118_L_along_axes",
    "C118_L_axes_decay_and_are_even"
   ],
   "note": "For regions for which the paths are known to reach all elements (coverable: at most 2^30 pixels along an axis for Bresenham, at most 1415 and not 2 for the other modes). A region of one pixel is excluded: L measures nothing there (C40)."
  },
  {
   "property": "C119",
   "status": "partial",
   "theorems": [
    "C119_statistics_partial",
    "C119_W2c_refuted",
    "C119_clusters",
    "C119_dilate",
    "C119_default_kernel_refuted"
   ],
   "note": "True of S2, C2, W2, heightheight and L for any sequence of calls, of clusters, and of dilate with a given kernel. False of W2c when the region is not even sided in three dimensions (C42) and of dilate with the default kernel, which in three dimensions is not the faces only (witnesses)."
  },
  {
   "property": "C120",
   "status": "partial",
   "theorems": [
    "C120_two_point_partial",
    "C120_along_paths",
    "C120_W2c_every_region",
    "C120_masked_refuted",
    "C120_negative_refuted"
   ],
   "note": "True of L and W2c (masks included), and of S2, C2, W2 and heightheight without masks and without negative weights. False with masks, as the mask of the second pixel is not looked at across the periodic boundary (C36), and with negative weights, as a normalisation that is not positive is replaced by one (witnesses)."
  },
  {
   "property": "C121",
   "status": "partial",
   "theorems": [
    "C121_every_pixel_is_placed",
    "C121_clusters",
    "C121_dilate_default",
    "C121_dilate_partial",
    "C121_dilate_more",
    "C121_dilate_refuted",
    "C121_statistics"
   ],
   "note": "True of clusters, of the statistics, and of dilation with the default kernel and with every kernel that has, with a displacement, also those in between. With other kernels the larger image can have more foreground inside (a label leaves the image and comes back), never less (witness)."
  },
  {
   "property": "C122",
   "status": "proved",
   "theorems": [
    "C122_clusters",
    "C122_dilate",
    "C122_dilate_default"
   ],
   "note": "The number of clusters is the largest label, as the labels are 1, 2, ... (also in the statement)."
  },
  {
   "property": "C123",
   "status": "partial",
   "theorems": [
    "C123_labels_partial",
    "C123_labels_default_partial",
    "C123_labels_default3_partial",
    "C123_labels_periodic_refuted",
    "C123_labels_faces_refuted",
    "C123_foreground"
   ],
   "note": "False for labels in a periodic image, where a label can be written on both sides of the boundary and then be lost on one of them, and in three dimensions if only pixels that share a face count as connected; the rest is proved in full."
  },
  {
   "property": "C124",
   "status": "partial",
   "theorems": [
    "C124_rename_partial",
    "C124_rename_refuted",
    "C124_prune_unsigned",
    "C124_prune_partial",
    "C124_prune_keeps_labels_apart",
    "C124_prune_refuted",
    "C124_reorder_partial",
    "C124_reorder_refuted",
    "C124_sizes_partial",
    "C124_sizes_modulo",
    "C124_sizes_refuted",
    "C124_sizes_names_partial",
    "C124_sizes_names_refuted",
    "C124_as_in_python"
   ],
   "note": "False as stated: sizes are counted in the type of the labels, new labels are numbered in it, and labels and names are converted to the type of the table or image; true with the bounds of the theorems, and always for the type used in Python. labels_map only copies values."
  },
  {
   "property": "C125",
   "status": "partial",
   "theorems": [
    "C125_center_of_mass_reflects",
    "C125_flipping_a_label_image",
    "C125_flipping_labels_and_weights",
    "C125_periodic_center_of_mass_reflects_partial",
    "C125_flipping_a_periodic_label_image_partial",
    "C125_flipping_periodic_labels_and_weights_partial",
    "C125_flipping_refuted",
    "C125_axes_are_independent_and_alike",
    "C125_transposing_a_label_image",
    "C125_transposing_labels_and_weights",
    "C125_units_of_length",
    "C125_center_is_center_of_unit_masses",
    "C125_center_of_mass_of_a_union",
    "C125_merging_two_labels"
   ],
   "note": "Reflections in a periodic box are false for positions that balance (C48): two opposite pixels; true otherwise. All other parts are proved in full."
  },
  {
   "property": "C126",
   "status": "partial",
   "theorems": [
    "C126_bresenham_partial",
    "C126_bresenham_refuted",
    "C126_lines",
    "C126_lines_exact",
    "C126_ends",
    "C126_all_end",
    "C126_circles_partial",
    "C126_circles_refuted"
   ],
   "note": "False for every int coordinate: points 2^30 or more apart overflow (exactly those), and so do circles near the ends of the range of int; proved for all others."
  },
  {
   "property": "C127",
   "status": "partial",
   "theorems": [
    "C127_labels_are_ints_partial",
    "C127_labels_modulo",
    "C127_labels_refuted"
   ],
   "note": "Proved for fewer than 2^31 clusters (so for every image of fewer than 2^31 pixels); false beyond: the labels are converted modulo 2^32, and label 2^31 is negative (witness)."
  },
  {
   "property": "C128",
   "status": "partial",
   "theorems": [
    "C128_even_1d",
    "C128_mirror_1d",
    "C128_scale_and_offset_1d",
    "C128_zero_frequency_1d",
    "C128_even_2d_partial",
    "C128_mirror_2d_partial",
    "C128_scale_and_offset_2d_partial",
    "C128_transposed_2d_partial",
    "C128_flipped_2d_refuted"
   ],
   "note": "Proved in one dimension, and in two dimensions for the entries of two frequencies of the same sign; the other entries of two dimensions are wrong (C53), so flipping one axis does not flip the frequencies (witness)."
  },
  {
   "property": "C129",
   "status": "proved",
   "theorems": [
    "C129_union",
    "C129_larger_kernel",
    "C129_union_of_kernels",
    "C129_flipped",
    "C129_even_kernels_have_no_middle",
    "C129_transposed",
    "C129_adjoint"
   ],
   "note": "Of the foreground; which label a pixel takes depends on the order of the pixels (C109). Flipping a kernel of even length does not flip the dilation (witness)."
  },
  {
   "property": "C130",
   "status": "partial",
   "theorems": [
    "C130_error_1d",
    "C130_error_2d_partial",
    "C130_error_of_integers_1d",
    "C130_integers_refuted",
    "C130_exactly_even_1d",
    "C130_exactly_even_2d_partial",
    "C130_not_negative_1d"
   ],
   "note": "In two dimensions for the entries that hold structure factors at all (C53). The last sentence is false: the powers of integer samples are truncated, so that one unit in the last place of the transform changes a structure factor 1/3 into 0 (refuted); the error is at most 1/size more."
  },
  {
   "property": "C131",
   "status": "partial",
   "theorems": [
    "C131_one_center_each",
    "C131_center_is_rounded_mean",
    "C131_centers",
    "C131_W2c_exactly",
    "C131_W2c_every_region",
    "C131_every_cluster_counts_partial",
    "C131_hole_refuted",
    "C131_no_background_refuted",
    "C131_same_center_refuted",
    "C131_nearest_refuted"
   ],
   "note": "Proved: the image of centers, exactly, and exactly which clusters W2c starts from: all of them if there is background and every cluster contains its center pixel. False otherwise (witnesses): a ring, the first cluster of an image without background, a cluster whose center pixel is also that of a later one; and next to the boundary of a periodic image the pixel is not the nearest. Real arithmetic."
  },
  {
   "property": "C132",
   "status": "partial",
   "theorems": [
    "C132_accepted_or_refused",
    "C132_any_calls",
    "C132_unchecked_partial",
    "C132_unchecked_refuted",
    "C132_python_any_calls",
    "C132_python_unchecked_partial"
   ],
   "note": "Proved with assertions enabled. Without them (the default for users of the headers) proved for arrays of one shape, for any values of the masks and any mix of measures; false otherwise (witnesses: a mask smaller than the image in S2, clusters smaller than the image in W2c). No empty axes; the regions of interest exclude those of C40 and C42."
  },
  {
   "property": "C133",
   "status": "partial",
   "theorems": [
    "C133_not_periodic",
    "C133_made",
    "C133_periodic_partial",
    "C133_periodic_refuted"
   ],
   "note": "Proved for images that are not periodic. Periodic: the image of centers is always made; it is the exact one if no center is within the error bound of C105 of the middle between two pixels or of an end of the axis; false else (witness: three of eight pixels around pixel 0, put on pixel 7 by every correctly rounded library)."
  },
  {
   "property": "C134",
   "status": "partial",
   "theorems": [
    "C134_row_major_partial",
    "C134_clusters_checked",
    "C134_sizes_partial",
    "C134_map_partial",
    "C134_column_major",
    "C134_order_of_memory",
    "C134_labels_refuted",
    "C134_map_refuted",
    "C134_add_image_refuted",
    "C134_clusters_refuted",
    "C134_gaps_refuted"
   ],
   "note": "True of arrays in row-major order for all the functions that read through flat(i); clusters with assertions refuses all others; labels_sizes is right for every array without gaps, labels_map for two arrays of one layout; C++ containers that are column-major by type are right. False else: from Python, labels_rename, labels_prune, labels_reorder and add_image of a Fortran-ordered (or transposed) array silently give the result for the elements in the order of memory, and a reversed view is read outside its memory."
  },
  {
   "property": "C135",
   "status": "partial",
   "theorems": [
    "C135_later_refuted",
    "C135_write_refuted",
    "C135_outside_refuted",
    "C135_read_is_current",
    "C135_copy",
    "C135_careful_partial"
   ],
   "note": "False: in Python the property labels is the array of the labeller itself. Proved: what was read always shows the current labels; a copy keeps those of the moment; a program that writes to copies only leaves the labeller as by its calls alone. Writing to what was read changes the labeller, and can make the next call read outside its memory, also with assertions."
  },
  {
   "property": "C136",
   "status": "partial",
   "theorems": [
    "C136_actual_ends",
    "C136_full_ends",
    "C136_never_ends",
    "C136_in_the_plane",
    "C136_on_the_line_refuted"
   ],
   "note": "Proved: exactly when these calls return, and that what is returned connects the points. That the pixels are touched by the line is false unless the line passes through the origin (C56); proved instead: the pixels as seen from x0 are touched by it. Differences of coordinates up to 707 (beyond it the tolerance of the code plays a role, see C84); exact arithmetic, C143 for doubles and ints."
  },
  {
   "property": "C137",
   "status": "proved",
   "theorems": [
    "C137_W2c_slides"
   ],
   "note": "Completes C41 and C42, which are restricted to regions of interest whose last two half sizes agree. Exact arithmetic; regions of interest on which the paths end (walkable)."
  },
  {
   "property": "C138",
   "status": "proved",
   "theorems": [
    "C138_passes",
    "C138_one_pass"
   ],
   "note": "The periodic counterpart of C109. The surroundings are not refreshed between passes, which is why labelled pixels near the boundary can change in later passes (C25)."
  },
  {
   "property": "C139",
   "status": "proved",
   "theorems": [
    "C139_every_pixel_is_moved",
    "C139_transposing_is_one",
    "C139_clusters",
    "C139_dilation",
    "C139_statistics",
    "C139_paths",
    "C139_centers",
    "C139_centers_of_mass"
   ],
   "note": "Generalises the reversal of axes in C67, C69, C115, C125 and C129. Paths of mode full go along the first axis first, so that L and W2c along them do not follow (C115_transposed_refuted)."
  },
  {
   "property": "C140",
   "status": "proved",
   "theorems": [
    "C140_labels_move_along",
    "C140_labels_move_along_kernel",
    "C140_same_clusters",
    "C140_same_clusters_kernel",
    "C140_rolling",
    "C140_flipping",
    "C140_order_of_axes"
   ],
   "note": "The first two hold for kernels that are not symmetric; the next two need symmetric ones, since for others the clusters depend on the order of the pixels (C14)."
  },
  {
   "property": "C141",
   "status": "proved",
   "theorems": [
    "C141_prune_at_any_moment",
    "C141_prune_at_any_moment_kernel"
   ],
   "note": "No hypothesis on the kernel but its shape."
  },
  {
   "property": "C142",
   "status": "proved",
   "theorems": [
    "C142_one_pixel",
    "C142_one_pixel_kernel",
    "C142_next_label",
    "C142_next_label_kernel"
   ],
   "note": "With C64 (batches may be split) this determines every label after every history up to the choice of new labels. Offsets of the kernel within the size of a periodic image, as in C13."
  },
  {
   "property": "C143",
   "status": "proved",
   "theorems": [
    "C143_rounding_is_immaterial",
    "C143_actual_ends",
    "C143_full_ends",
    "C143_never_ends",
    "C143_machine_ends",
    "C143_machine_overflows"
   ],
   "note": "C83 for every line, C136 in floating point, C126_lines_exact for every line that ends. What a call computes that does not end is irrelevant once one axis has passed its target, so no accuracy is needed far from the origin."
  },
  {
   "property": "C144",
   "status": "proved",
   "theorems": [
    "C144_exact_paths",
    "C144_integers_are_exact"
   ],
   "note": "L and W2c of the model in floating point, now calling path as it is computed with doubles and ints (C83, C126). The limit of 1415 pixels is that of the paths of 707 pixels of C83; what happens beyond it is not claimed (C84 shows that the tolerance of the code then plays a role)."
  },
  {
   "property": "C145",
   "status": "proved",
   "theorems": [
    "C145_named_after_the_first_piece",
    "C145_pieces_are_glued"
   ],
   "note": "The three assertions in the documented example are among the conclusions."
  },
  {
   "property": "C146",
   "status": "partial",
   "theorems": [
    "C146_frequencies_1d",
    "C146_frequencies_2d",
    "C146_qnorm_1d",
    "C146_qnorm_2d",
    "C146_nearest_refuted",
    "C146_half_refuted",
    "C146_equal_norms_refuted"
   ],
   "note": "The last sentence is false: with 10 points the fourth frequency is not the double nearest to 0.3, with 98 points the last frequency is not -1/2, and in a sample of 11 by 11 points the norms of (3, 4) and (5, 0) differ. All else is proved in full."
  },
  {
   "property": "C147",
   "status": "partial",
   "theorems": [
    "C147_axis",
    "C147_distance",
    "C147_scaled_axis",
    "C147_scaled",
    "C147_wrong_arguments",
    "C147_equal_distances_refuted"
   ],
   "note": "The last sentence is false: with pixels of 0.7 the elements at offsets (3, 4) and (0, 5) get different values. All else is proved in full."
  },
  {
   "property": "C148",
   "status": "proved",
   "theorems": [
    "C148_S2",
    "C148_C2",
    "C148_heightheight",
    "C148_triangle"
   ],
   "note": ""
  },
  {
   "property": "C149",
   "status": "proved",
   "theorems": [
    "C149_C2",
    "C149_heightheight",
    "C149_heightheight_masked",
    "C149_W2"
   ],
   "note": ""
  },
  {
   "property": "C150",
   "status": "proved",
   "theorems": [
    "C150_steps",
    "C150_chords",
    "C150_convex"
   ],
   "note": "Regions of interest in which every path ends (coverable, as in C118)."
  },
  {
   "property": "C151",
   "status": "proved",
   "theorems": [
    "C151_labels",
    "C151_number",
    "C151_lineal"
   ],
   "note": ""
  },
  {
   "property": "C152",
   "status": "proved",
   "theorems": [
    "C152_bounds",
    "C152_labellers",
    "C152_by_S2"
   ],
   "note": ""
  },
  {
   "property": "C153",
   "status": "proved",
   "theorems": [
    "C153_near",
    "C153_lineal",
    "C153_labellers"
   ],
   "note": ""
  },
  {
   "property": "C154",
   "status": "proved",
   "theorems": [
    "C154_one_cluster"
   ],
   "note": ""
  },
  {
   "property": "C155",
   "status": "proved",
   "theorems": [
    "C155_heightheight",
    "C155_masked",
    "C155_S2"
   ],
   "note": ""
  },
  {
   "property": "C156",
   "status": "proved",
   "theorems": [
    "C156_register"
   ],
   "note": ""
  },
  {
   "property": "C157",
   "status": "proved",
   "theorems": [
    "C157_same_cluster"
   ],
   "note": ""
  },
  {
   "property": "C158",
   "status": "proved",
   "theorems": [
    "C158_clusters_repeat"
   ],
   "note": ""
  }
 ]
}