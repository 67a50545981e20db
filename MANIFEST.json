{
 "claims": [
  {
   "property": "C01",
   "status": "proved",
   "theorems": [
    "set_option_is_read_back",
    "set_option_frame",
    "refused_set_changes_nothing"
   ],
   "note": "registry level; names registered in tidy form as the library does"
  },
  {
   "property": "C02",
   "status": "partial",
   "theorems": [
    "option_values_in_domain_partial",
    "out_of_domain_integer_refused",
    "nan_option_value_refuted"
   ],
   "note": "False for NaN (nan_option_value_refuted); proved for all other values."
  },
  {
   "property": "C03",
   "status": "proved",
   "theorems": [
    "normalisation_identifies_spellings",
    "normalisation_idempotent",
    "spelling_is_irrelevant"
   ],
   "note": ""
  },
  {
   "property": "C04",
   "status": "proved",
   "theorems": [
    "locked_registry_refuses",
    "locked_registry_unchanged"
   ],
   "note": ""
  },
  {
   "property": "C05",
   "status": "proved",
   "theorems": [
    "categorical_value_is_label",
    "option_values_in_domain_partial"
   ],
   "note": "options built by the strict constructor"
  },
  {
   "property": "C06",
   "status": "proved",
   "theorems": [
    "error_trace_keeps_first_cause",
    "recording_returns_status",
    "printing_trace_in_bounds"
   ],
   "note": "all histories of records and clears, action DA_RECORD"
  },
  {
   "property": "C07",
   "status": "partial",
   "theorems": [
    "error_message_partial",
    "error_message_without_error_refuted"
   ],
   "note": "False when nothing was recorded since the last reset: front() of an empty vector. Proved otherwise."
  },
  {
   "property": "C08",
   "status": "proved",
   "theorems": [
    "saved_value_reads_back",
    "size_pass_is_exact",
    "short_reservation_refused",
    "saved_model_reads_back"
   ],
   "note": "all element types of the serializer, any sequence of typed values"
  },
  {
   "property": "C09",
   "status": "proved",
   "theorems": [
    "reading_any_bytes_is_safe",
    "reading_any_metadata_is_safe",
    "reading_any_options_is_safe"
   ],
   "note": "any byte string, any sequence of reads"
  },
  {
   "property": "C10",
   "status": "partial",
   "theorems": [
    "options_survive_save_and_load",
    "loaded_options_in_domain_refuted"
   ],
   "note": "Round trip proved; values loaded from a foreign buffer are not validated (refuted)."
  },
  {
   "property": "C11",
   "status": "proved",
   "theorems": [
    "cache_is_least_recently_used",
    "cache_hit_returns_last_stored"
   ],
   "note": "columns abstract"
  },
  {
   "property": "C12",
   "status": "partial",
   "theorems": [
    "cache_update_visible_partial",
    "cache_update_lost_refuted"
   ],
   "note": "False: the node left by the first insertion takes the mapping with it when evicted. Visible immediately after the update."
  },
  {
   "property": "C13",
   "status": "proved",
   "theorems": [
    "array_behaves_as_list"
   ],
   "note": "for programs that keep to the contract; memory suffices"
  },
  {
   "property": "C14",
   "status": "partial",
   "theorems": [
    "moved_from_array_partial",
    "moved_from_array_refuted"
   ],
   "note": "False: growing a moved-from array writes outside its allocation or never returns. Works after clear or assignment."
  },
  {
   "property": "C15",
   "status": "proved",
   "theorems": [
    "split_copies_chosen_rows"
   ],
   "note": "index products unbounded; every interleaving of the parallel iterations"
  },
  {
   "property": "C16",
   "status": "partial",
   "theorems": [
    "shuffled_indices_are_a_permutation",
    "stratified_indices_partial",
    "stratified_shuffle_in_bounds_partial"
   ],
   "note": "Proved without classes; with classes for up to 2^25 samples (rounding errors of the double arithmetic included). Class labels are integers."
  },
  {
   "property": "C17",
   "status": "proved",
   "theorems": [
    "selection_is_union_of_insertions",
    "insertion_refuses_only_reversed_ranges"
   ],
   "note": "all histories of insertions and clears"
  },
  {
   "property": "C18",
   "status": "partial",
   "theorems": [
    "removal_exact_partial",
    "selection_history_exact_behaviour",
    "removal_refuted",
    "removal_of_enclosing_range_ignored"
   ],
   "note": "False as stated: a range strictly enclosing the whole selection is ignored (removal_refuted). Exact in every other case."
  },
  {
   "property": "C19",
   "status": "partial",
   "theorems": [
    "store_is_matrix_partial",
    "store_shared_rows_refuted",
    "store_chain_loops_refuted",
    "store_row_heights_refuted",
    "store_incomplete_row_refuted"
   ],
   "note": "False after a row block shared by several column blocks, for partial row blocks of different heights, and while a row is incomplete. Proved for every history without these."
  },
  {
   "property": "C20",
   "status": "partial",
   "theorems": [
    "extract_column_exact",
    "extract_slice_exact",
    "extract_selection_partial",
    "extract_row_major_refuted",
    "extract_row_major_ld_refuted",
    "extract_column_major_ld_refuted"
   ],
   "note": "Columns and slices exact. Selections: false in row-major order with several column intervals and for small leading dimensions; proved otherwise."
  },
  {
   "property": "C21",
   "status": "partial",
   "theorems": [
    "select_non_missing_partial",
    "select_non_missing_refuted",
    "select_non_missing_past_end",
    "select_non_missing_empty_refuted"
   ],
   "note": "False when no selected row is complete; the row flags are read one past the end when the last row is incomplete. Proved when some row is kept."
  },
  {
   "property": "C22",
   "status": "partial",
   "theorems": [
    "refused_call_keeps_store_partial",
    "refused_partial_row_refuted"
   ],
   "note": "False for a block refused in the middle of a row (the row count is reduced). Proved otherwise."
  },
  {
   "property": "C23",
   "status": "partial",
   "theorems": [
    "labels_exact",
    "label_identifies_column_partial",
    "label_reused_refuted",
    "label_after_concatenation_refuted"
   ],
   "note": "False for a label given to two columns and after a horizontal concatenation."
  },
  {
   "property": "C24",
   "status": "proved",
   "theorems": [
    "integers_read_exactly",
    "integers_never_overflow"
   ],
   "note": "both integer types are instances; strings without NUL"
  },
  {
   "property": "C25",
   "status": "partial",
   "theorems": [
    "float_arithmetic_partial",
    "float_text_consumed_refuted",
    "float_arithmetic_refuted"
   ],
   "note": "False: 12abc is read as 12, and long exponents overflow an int. Arithmetic defined for exponents of up to nine digits. Double precision."
  },
  {
   "property": "C26",
   "status": "partial",
   "theorems": [
    "written_table_reads_back",
    "written_data_reads_back",
    "written_text_reads_back_partial",
    "trailing_blank_refuted"
   ],
   "note": "The parsed table is exact for any mixture of quoting styles and line ends the settings allow (empty lines not skipped; any chunking without a byte order mark at the start of a later chunk). False for text stored through char**: trailing blanks are removed, even quoted ones; proved for fields without them."
  },
  {
   "property": "C27",
   "status": "partial",
   "theorems": [
    "chunking_irrelevant_partial",
    "chunking_mark_refuted",
    "chunking_blanks_refuted"
   ],
   "note": "False when a later chunk of the first line starts with a byte order mark, and for blanks at a chunk end when empty lines are skipped. Proved otherwise (for files with short lines: if both runs end normally)."
  },
  {
   "property": "C28",
   "status": "partial",
   "theorems": [
    "malformed_reported_partial",
    "unterminated_quote_refuted",
    "short_line_refuted",
    "lost_line_refuted",
    "repeated_line_refuted",
    "comment_field_refuted"
   ],
   "note": "False: the parser failure is dropped (unterminated quotes, lines lost or repeated), short lines are padded. Proved: longer lines are refused, and accepted data are the table read."
  },
  {
   "property": "C29",
   "status": "partial",
   "theorems": [
    "column_types_partial",
    "column_blocks",
    "written_file_detected",
    "number_prefix_refuted",
    "boolean_prefix_refuted",
    "empty_line_refuted"
   ],
   "note": "Proved for the kinds given by the library conversions, for any number type. What the conversions take for a number or a boolean includes texts that only start with one (refuted), and a file without fields is undefined behaviour."
  },
  {
   "property": "C30",
   "status": "proved",
   "theorems": [
    "transpose_row_to_column",
    "transpose_column_to_row"
   ],
   "note": "every schedule of the block iterations; index products unbounded"
  },
  {
   "property": "C31",
   "status": "partial",
   "theorems": [
    "blocking_scheme_partitions",
    "tall_skinny_partitions_partial",
    "tall_skinny_max_blocks_refuted"
   ],
   "note": "Partition proved for both schemes. The documented maximum number of blocks is exceeded (refuted); at most one block too many up to 256 blocks."
  },
  {
   "property": "C32",
   "status": "partial",
   "theorems": [
    "check_data_finds_nan",
    "check_data_arguments",
    "check_data_exact_partial",
    "check_2D_array_exact_partial",
    "check_data_only_nan_refuted"
   ],
   "note": "False: infinities and numbers such as 2^53 are reported as NaN. Exact for elements below 2^53 in magnitude; every NaN is found. Double precision."
  },
  {
   "property": "C33",
   "status": "partial",
   "theorems": [
    "quantiles_are_order_statistics_partial",
    "five_point_summary_correct",
    "quantile_input_checked",
    "quantile_nan_refuted"
   ],
   "note": "Proved for double data without NaN, lengths up to 2^50, all types, axes and storage orders, with the positions as rounded by double arithmetic. Missing: the adjustment of positions for float data. A NaN quantile is not refused (refuted)."
  },
  {
   "property": "C34",
   "status": "proved",
   "theorems": [
    "intro_sort_correct",
    "intro_sort_correct_generic",
    "heap_sort_correct",
    "bucket_sort_correct",
    "compress_count_correct"
   ],
   "note": "Double values; with NaN still a rearrangement inside the range, only the order is lost. std::sort is an oracle with its contract."
  },
  {
   "property": "C35",
   "status": "partial",
   "theorems": [
    "partition_correct_partial",
    "partition_all_left_refuted",
    "training_splits_off_a_sample_refuted",
    "histogram_leading_dimension_refuted"
   ],
   "note": "Holds whenever one sample is on the right side; if all are on the left the last is split off (happens when the threshold rounds up), and with histograms padded data are partitioned by wrong bins (refuted)."
  },
  {
   "property": "C36",
   "status": "partial",
   "theorems": [
    "training_sample_reaches_its_leaf_partial",
    "training_sample_predicted_as_its_leaf_partial",
    "whole_numbers_separated",
    "training_sample_predicted_elsewhere_refuted",
    "one_vs_all_bins_predicted_elsewhere_refuted"
   ],
   "note": "Whole trees, raw and histogram data; for values with a double between them (raw, node minimum at most 2) and ordered splits (histograms). Refuted for adjacent doubles and for one-vs-all splits of bins."
  },
  {
   "property": "C37",
   "status": "partial",
   "theorems": [
    "minimum_size_partial",
    "minimum_size_refuted",
    "weighted_categories_refuted"
   ],
   "note": "Same conditions as C36. Refuted for ties with a minimum of 3 and for weighted one-vs-all splits."
  },
  {
   "property": "C38",
   "status": "partial",
   "theorems": [
    "predicted_class_most_probable_partial",
    "predicted_class_not_most_probable_refuted"
   ],
   "note": "Trees without one-vs-all splits, conditions of C36; refuted for one-vs-all splits."
  },
  {
   "property": "C39",
   "status": "partial",
   "theorems": [
    "forest_vote_partial",
    "forest_vote_thread_beyond_refuted"
   ],
   "note": "All schedules over the threads the buffer is made for. Refuted if OpenMP gives an iteration to a later thread, which the code does not exclude."
  },
  {
   "property": "C40",
   "status": "proved",
   "theorems": [
    "serial_dbscan_correct"
   ],
   "note": "All symmetric neighbour lists and all min_samples; also fixes the numbering of clusters and the cluster of border samples."
  },
  {
   "property": "C41",
   "status": "partial",
   "theorems": [
    "parallel_dbscan_partial",
    "parallel_splits_cluster_refuted",
    "parallel_merges_clusters_refuted"
   ],
   "note": "False: with more than one thread clusters are split or merged, already when the iterations run in order. Proved for every interleaving: same noise samples, no gaps in the labels, equally labelled samples are linked."
  },
  {
   "property": "C42",
   "status": "partial",
   "theorems": [
    "radius_blocks_complete",
    "radius_search_partial",
    "dbscan_brute_serial_partial",
    "minkowski_two_refuted",
    "radius_small_team_refuted"
   ],
   "note": "exact distances, up to 2^33 samples, all distributions of blocks over threads; refuted for Minkowski with p = 2 and for teams smaller than requested"
  },
  {
   "property": "C43",
   "status": "proved",
   "theorems": [
    "query_null_arguments_rejected",
    "query_wrong_precision_rejected",
    "query_dispatched_to_owned_algorithm",
    "algorithm_owned_for_known_types"
   ],
   "note": "all call histories; algorithms abstract"
  },
  {
   "property": "C44",
   "status": "partial",
   "theorems": [
    "loading_any_bytes_partial",
    "loading_without_algorithm_refuted"
   ],
   "note": "False for headers naming no algorithm (null dereference); proved for headers naming a known handle type."
  },
  {
   "property": "C45",
   "status": "partial",
   "theorems": [
    "string_option_buffer_partial",
    "string_buffer_negative_length_refuted"
   ],
   "note": "False for negative declared lengths; proved for lengths 0..2^63-1."
  },
  {
   "property": "C46",
   "status": "partial",
   "theorems": [
    "user_data_saved_partial",
    "one_column_row_major_saved_refuted"
   ],
   "note": "False for a row-major one-column matrix with ldx > 1; proved otherwise."
  },
  {
   "property": "C47",
   "status": "partial",
   "theorems": [
    "handle_without_algorithm_partial",
    "saving_without_algorithm_refuted"
   ],
   "note": "False for da_handle_save_model (null dereference); proved for the other calls."
  },
  {
   "property": "C48",
   "status": "partial",
   "theorems": [
    "refused_option_change_partial",
    "refused_option_change_refuted"
   ],
   "note": "False for algorithms whose refresh discards the model; option values are always kept."
  },
  {
   "property": "C49",
   "status": "proved",
   "theorems": [
    "concurrent_insertions_are_disjoint"
   ],
   "note": "parts 1 and 3 of put atomic (OpenMP lock)"
  },
  {
   "property": "C50",
   "status": "proved",
   "theorems": [
    "kernel_columns_are_right"
   ],
   "note": "kernel function an oracle"
  },
  {
   "property": "C51",
   "status": "partial",
   "theorems": [
    "failed_growth_keeps_contents_partial",
    "failed_growth_refuted"
   ],
   "note": "False: the capacity is raised before the allocation, so the next push writes past the old buffer. Contents are kept."
  },
  {
   "property": "C52",
   "status": "partial",
   "theorems": [
    "pushing_own_element_partial",
    "pushing_own_element_refuted"
   ],
   "note": "False when the array is full (the old buffer is freed before the value is read)."
  },
  {
   "property": "C53",
   "status": "partial",
   "theorems": [
    "split_status_partial",
    "split_size_check_refuted"
   ],
   "note": "False: train_size + test_size may overflow da_int in the check itself. Exact otherwise."
  },
  {
   "property": "C54",
   "status": "proved",
   "theorems": [
    "sample_without_replacement"
   ],
   "note": "the random engine is an arbitrary function within its range"
  },
  {
   "property": "C55",
   "status": "proved",
   "theorems": [
    "shuffle_is_unbiased"
   ],
   "note": "draws of the engine taken as independent and uniform"
  },
  {
   "property": "C56",
   "status": "partial",
   "theorems": [
    "qr_blocks_sound_partial",
    "qr_blocks_sound_refuted"
   ],
   "note": "False for more than 1024 columns (3071 x 1500, 64 threads: tau overflows). Proved for up to 1024 columns and when the block limit decides."
  },
  {
   "property": "C57",
   "status": "proved",
   "theorems": [
    "stored_input_is_the_matrix",
    "stored_input_copied_back",
    "results_array_layout"
   ],
   "note": "mode 0 of store_2D_array; every schedule of the copies"
  },
  {
   "property": "C58",
   "status": "proved",
   "theorems": [
    "short_numbers_correctly_rounded"
   ],
   "note": "double precision"
  },
  {
   "property": "C59",
   "status": "partial",
   "theorems": [
    "csv_in_bounds_partial",
    "csv_in_bounds_refuted"
   ],
   "note": "False for files with short lines (heap over-read). Proved when no line is shorter than the one before, and for the data array always."
  },
  {
   "property": "C60",
   "status": "partial",
   "theorems": [
    "numbers_read_up_to_dropped_digits",
    "numbers_read_accurately_partial",
    "leading_zeros_refuted"
   ],
   "note": "False: leading zeros use up the 17 digits kept, and a zero with exponent above 308 is refused. Proved when the first digit is not zero, magnitude within 2^-998..2^998; for leading zeros the error is bounded by the dropped digits. Double precision."
  },
  {
   "property": "C61",
   "status": "proved",
   "theorems": [
    "trained_tree_is_well_grown"
   ],
   "note": "Serial training with the whole split search; the scoring function and the draws of features are arbitrary."
  },
  {
   "property": "C62",
   "status": "partial",
   "theorems": [
    "best_split_of_feature_partial"
   ],
   "note": "Features that are not categorical, raw data; values closer than the feature threshold must be equal and not tied among the first ones when the minimum is 3 or more."
  },
  {
   "property": "C63",
   "status": "partial",
   "theorems": [
    "best_split_of_feature_partial",
    "constant_in_sibling_refuted"
   ],
   "note": "Refuted: features constant in one child are skipped in the other. What holds is the statement about a single feature that is evaluated."
  },
  {
   "property": "C64",
   "status": "partial",
   "theorems": [
    "trained_depth_partial",
    "trained_tree_is_well_grown",
    "depth_and_leaves_refuted"
   ],
   "note": "Depth in a first training and leaves of trees that may have children; refuted for a second training and for maximum depth 0."
  },
  {
   "property": "C65",
   "status": "partial",
   "theorems": [
    "forest_probabilities_partial",
    "forest_probabilities_repeatable_refuted",
    "pure_forest_probabilities",
    "pure_forest_vote_most_probable",
    "forest_vote_not_most_probable_refuted"
   ],
   "note": "The mean in some order of additions for every execution; repeatable and consistent with the vote if every leaf is pure. Refuted otherwise."
  },
  {
   "property": "C66",
   "status": "partial",
   "theorems": [
    "forest_score_double",
    "forest_score_single_refuted"
   ],
   "note": "Proved for doubles up to 2^53 samples; refuted in single precision beyond 2^24 right predictions."
  },
  {
   "property": "C67",
   "status": "proved",
   "theorems": [
    "threads_for_trees"
   ],
   "note": ""
  },
  {
   "property": "C68",
   "status": "partial",
   "theorems": [
    "histograms_double",
    "histogram_bins_of_equal_size",
    "histogram_tree_predicts_its_samples",
    "histogram_single_refuted"
   ],
   "note": "Proved for doubles, up to 2^32 samples, data without NaN (none empty and equal sizes: finite data). Refuted in single precision: 1000 bins of 100000 samples store one threshold behind the array."
  },
  {
   "property": "C69",
   "status": "proved",
   "theorems": [
    "brute_force_finds_the_nearest",
    "brute_force_finds_the_largest"
   ],
   "note": "std::sort of the final candidates is modelled by a stable sort of the distances."
  },
  {
   "property": "C70",
   "status": "partial",
   "theorems": [
    "brute_force_distances_reproducible",
    "brute_force_indices_reproducible_refuted"
   ],
   "note": "Distances are reproducible; refuted for the indices of equally distant samples."
  },
  {
   "property": "C71",
   "status": "proved",
   "theorems": [
    "kd_tree_holds_every_sample"
   ],
   "note": ""
  },
  {
   "property": "C72",
   "status": "proved",
   "theorems": [
    "kd_tree_radius_search",
    "kd_tree_radius_search_exact",
    "kd_tree_radius_search_doubles"
   ],
   "note": "Exact for doubles with a radius between 2^-400 and 2^500; for other arithmetics under stated order properties; Minkowski under a contract of pow."
  },
  {
   "property": "C73",
   "status": "partial",
   "theorems": [
    "kd_tree_finds_the_nearest_partial",
    "kd_tree_overflow_refuted"
   ],
   "note": "Proved when no distance overflows; refuted for distances that overflow."
  },
  {
   "property": "C74",
   "status": "partial",
   "theorems": [
    "algorithms_agree_partial",
    "tree_gemm_distance_refuted"
   ],
   "note": "Proved for k-d tree and brute force, Euclidean and Manhattan; refuted for euclidean_gemm."
  },
  {
   "property": "C75",
   "status": "partial",
   "theorems": [
    "dbscan_algorithm_fits_partial",
    "dbscan_automatic_refuted"
   ],
   "note": "Refuted for the squared Euclidean and cosine distances with the automatic choice."
  },
  {
   "property": "C76",
   "status": "partial",
   "theorems": [
    "session_answers_partial",
    "session_automatic_locked",
    "automatic_tree_offered",
    "session_roots_refuted",
    "session_refused_data_refuted",
    "session_options_ignored_refuted"
   ],
   "note": "Proved for handles not used before with a metric that needs roots; refuted for those, after refused data and after options changed."
  },
  {
   "property": "C77",
   "status": "partial",
   "theorems": [
    "knn_label_is_majority",
    "knn_classifier_partial",
    "knn_more_neighbours_than_samples_refuted",
    "knn_new_labels_refuted"
   ],
   "note": "Proved for brute force in double precision with at most as many neighbours as samples; refuted beyond that and for labels set twice."
  },
  {
   "property": "C78",
   "status": "partial",
   "theorems": [
    "nearer_weighs_more_partial",
    "weights_positive",
    "nearer_weighs_more_refuted"
   ],
   "note": "Proved above the machine precision; refuted below: an exact match counts 1."
  },
  {
   "property": "C79",
   "status": "proved",
   "theorems": [
    "knn_probabilities",
    "knn_uniform_probabilities",
    "classes_are_the_labels"
   ],
   "note": "Double precision, up to 2^50 neighbours."
  },
  {
   "property": "C80",
   "status": "partial",
   "theorems": [
    "radius_predict_none",
    "radius_predict_most_frequent",
    "radius_predict_manual_partial",
    "radius_predict_manual_refuted"
   ],
   "note": "Proved for uniform weights; the label of the caller only if labels have no gap or lack it, refuted otherwise (wrong label, write out of bounds)."
  },
  {
   "property": "C81",
   "status": "partial",
   "theorems": [
    "radius_counts_partial",
    "radius_offsets_lead",
    "radius_indices_fit",
    "radius_counts_refuted",
    "classes_result_refuted"
   ],
   "note": "Counts proved for arrays of exactly the needed size; refuted for larger ones (read out of bounds)."
  },
  {
   "property": "C82",
   "status": "partial",
   "theorems": [
    "radius_brute_exact",
    "radius_brute_gemm_refuted"
   ],
   "note": "Proved for every schedule; refuted that distances are numbers for euclidean_gemm."
  },
  {
   "property": "C83",
   "status": "partial",
   "theorems": [
    "radius_distances_partial",
    "radius_refused_order",
    "radius_distances_refuted"
   ],
   "note": "Proved after an accepted search; refuted when a call was refused in between."
  },
  {
   "property": "C84",
   "status": "proved",
   "theorems": [
    "pairwise_in_bounds",
    "sizes_are_good"
   ],
   "note": "For all metrics of the packed loops; gemm-based metrics are calls of BLAS."
  },
  {
   "property": "C85",
   "status": "partial",
   "theorems": [
    "pairwise_entries_from_rows",
    "cosine_of_many_rows_refuted"
   ],
   "note": "Proved for all metrics but cosine with more than 1024 rows of Y, which is refuted (norms of other rows are used)."
  },
  {
   "property": "C86",
   "status": "partial",
   "theorems": [
    "pairwise_exact",
    "pairwise_cosine_exact_partial",
    "cosine_of_many_rows_refuted"
   ],
   "note": "Cosine only up to 1024 columns of distances and rows that are not tiny."
  },
  {
   "property": "C87",
   "status": "partial",
   "theorems": [
    "pairwise_nonneg",
    "pairwise_symmetric",
    "cosine_of_many_rows_to_themselves_refuted"
   ],
   "note": "Refuted for cosine with more than 1024 rows; sign and NaN proved for euclidean, sqeuclidean and manhattan."
  },
  {
   "property": "C88",
   "status": "partial",
   "theorems": [
    "pairwise_same_on_all_cpus",
    "pairwise_euclidean_same_on_all_cpus_refuted"
   ],
   "note": "Proved for manhattan, minkowski and cosine; refuted for (squared) Euclidean distances."
  },
  {
   "property": "C89",
   "status": "partial",
   "theorems": [
    "euclidean_gemm_exact",
    "euclidean_gemm_symmetric",
    "euclidean_gemm_nan_refuted"
   ],
   "note": "Refuted that results are numbers and not negative in double precision."
  },
  {
   "property": "C90",
   "status": "proved",
   "theorems": [
    "km_label_in_range"
   ],
   "note": "Double precision, scalar kernel and kernels with any number of lanes."
  },
  {
   "property": "C91",
   "status": "partial",
   "theorems": [
    "km_label_smallest",
    "km_label_smallest_scalar",
    "km_label_same_on_all_cpus_partial",
    "km_label_same_on_all_cpus_refuted",
    "km_label_after_nan_refuted",
    "km_labels_nearest"
   ],
   "note": "Proved for clean padding; refuted after NaN was left in the padding of a reused handle, and for ties on different processors."
  },
  {
   "property": "C92",
   "status": "proved",
   "theorems": [
    "km_centres_are_means"
   ],
   "note": "Exact arithmetic."
  },
  {
   "property": "C93",
   "status": "proved",
   "theorems": [
    "km_fit_result"
   ],
   "note": "Exact arithmetic, Lloyd; the product of matrices meets its contract."
  },
  {
   "property": "C94",
   "status": "proved",
   "theorems": [
    "km_inertia_decreases",
    "km_more_iterations",
    "km_split_fills"
   ],
   "note": "Exact arithmetic, Lloyd."
  },
  {
   "property": "C95",
   "status": "partial",
   "theorems": [
    "km_fit_converges_partial",
    "km_split_refuted"
   ],
   "note": "Proved unless empty clusters are split; refuted with splitting: two equal samples never converge."
  },
  {
   "property": "C96",
   "status": "partial",
   "theorems": [
    "km_fit_labels_are_predicted_partial",
    "km_fit_labels_are_predicted_refuted",
    "km_fit_result"
   ],
   "note": "Proved in any arithmetic for one thread or a fixed distribution, without splitting; refuted in double precision for two threads."
  },
  {
   "property": "C97",
   "status": "partial",
   "theorems": [
    "km_split_fills",
    "km_error_on_empty_refuted",
    "km_split_refuted"
   ],
   "note": "The splitting step is proved to fill all clusters; refuted for the final result in both modes."
  },
  {
   "property": "C98",
   "status": "partial",
   "theorems": [
    "km_elkan_result_partial",
    "km_elkan_converges_partial",
    "km_elkan_inertia_partial",
    "km_elkan_reduction",
    "km_elkan_split_refuted"
   ],
   "note": "Exact arithmetic, proved unless empty clusters are split; refuted with splitting: the half distances of the centres before the split are used."
  },
  {
   "property": "C99",
   "status": "partial",
   "theorems": [
    "km_lloyd_blocks",
    "km_elkan_blocks_partial",
    "km_elkan_blocks_refuted"
   ],
   "note": "Proved for Lloyd's algorithm in full; for Elkan's and predict if a thread gets its blocks in increasing order, refuted for other orders, which schedule(dynamic) permits."
  },
  {
   "property": "C100",
   "status": "partial",
   "theorems": [
    "km_elkan_labels_are_predicted_partial",
    "km_elkan_labels_are_predicted_refuted"
   ],
   "note": "Proved in exact arithmetic if no sample has two nearest centres; refuted for ties."
  },
  {
   "property": "C101",
   "status": "proved",
   "theorems": [
    "km_elkan_labels_in_range"
   ],
   "note": "Any arithmetic, any mode for empty clusters."
  },
  {
   "property": "C102",
   "status": "partial",
   "theorems": [
    "km_macqueen_result_partial",
    "km_macqueen_converges_partial",
    "km_macqueen_nearest_refuted"
   ],
   "note": "Proved if the first means have the norms of the initial centres (always true again after a split); refuted otherwise: the cached norms are those of the initial centres until a cluster changes."
  },
  {
   "property": "C103",
   "status": "partial",
   "theorems": [
    "km_macqueen_first_labels_refuted"
   ],
   "note": "Refuted: the first candidate is read from the wrong element of the distance array."
  },
  {
   "property": "C104",
   "status": "proved",
   "theorems": [
    "km_macqueen_labels_in_range"
   ],
   "note": "Any arithmetic, any mode for empty clusters."
  },
  {
   "property": "C105",
   "status": "proved",
   "theorems": [
    "km_macqueen_centres_are_means"
   ],
   "note": "Exact arithmetic; any first labels and norms; clusters may be split."
  },
  {
   "property": "C106",
   "status": "partial",
   "theorems": [
    "km_best_run_partial",
    "km_results_returned_partial",
    "km_best_run_refuted",
    "km_stale_results_refuted"
   ],
   "note": "Proved if some run has an inertia below infinity; refuted otherwise: zeros or the results of an earlier computation are returned with success."
  },
  {
   "property": "C107",
   "status": "partial",
   "theorems": [
    "km_calls_in_any_order_partial",
    "km_initial_centres_refuted",
    "km_results_after_failure_refuted",
    "km_stale_results_refuted"
   ],
   "note": "Proved for sequences in which a trained handle gets a new number of clusters only from a computation that succeeds and initial centres are used with the dimensions they were given for; refuted otherwise."
  },
  {
   "property": "C108",
   "status": "partial",
   "theorems": [
    "km_info_after_option_refuted",
    "km_results_returned_partial"
   ],
   "note": "Refuted: every call that sets an option, also one that is refused, sets inertia and iterations to 0. Proved directly after the computation."
  },
  {
   "property": "C109",
   "status": "proved",
   "theorems": [
    "step_minimises_the_coordinate"
   ],
   "note": "Exact arithmetic, all four scalings."
  },
  {
   "property": "C110",
   "status": "proved",
   "theorems": [
    "fixed_point_minimises"
   ],
   "note": "Exact arithmetic, all four scalings."
  },
  {
   "property": "C111",
   "status": "proved",
   "theorems": [
    "descent_never_worse"
   ],
   "note": "Exact arithmetic; for scaling none and centering the threshold below which changes are dropped is 0 (see C112 for what happens otherwise)."
  },
  {
   "property": "C112",
   "status": "partial",
   "theorems": [
    "report_is_true_partial",
    "standardize_convergence_refuted",
    "small_step_convergence_refuted"
   ],
   "note": "Proved in exact arithmetic for scaling none and centering; refuted for standardize (gap of the residual before the last step) and for changes below twice the machine epsilon."
  },
  {
   "property": "C113",
   "status": "partial",
   "theorems": [
    "report_is_true_partial",
    "standardize_report_refuted",
    "least_squares_convergence_refuted"
   ],
   "note": "Proved in exact arithmetic for scaling none and centering unless progress is slow; refuted for standardize and for slow progress (infinite objective)."
  },
  {
   "property": "C114",
   "status": "partial",
   "theorems": [
    "unpenalised_gap_is_the_objective",
    "least_squares_convergence_refuted",
    "scale_only_convergence_refuted"
   ],
   "note": "Refuted: without a penalty the gap is the objective itself; with \"scale only\" the penalty is counted n_samples times."
  },
  {
   "property": "C115",
   "status": "partial",
   "theorems": [
    "intercept_without_scaling_refuted",
    "least_squares_convergence_refuted",
    "fixed_point_minimises"
   ],
   "note": "Refuted: fit returns success after slow progress; with scaling none the step for the intercept is wrong."
  },
  {
   "property": "C116",
   "status": "proved",
   "theorems": [
    "every_entry_once",
    "sums_are_complete"
   ],
   "note": "Sizes are unbounded integers: overflow of da_int in m*n is out of scope."
  },
  {
   "property": "C117",
   "status": "proved",
   "theorems": [
    "moments_exact",
    "statistics_layout_independent",
    "sums_are_complete"
   ],
   "note": "Exact arithmetic; the variance of one observation is 0."
  },
  {
   "property": "C118",
   "status": "proved",
   "theorems": [
    "skewness_exact",
    "kurtosis_exact"
   ],
   "note": "Exact arithmetic."
  },
  {
   "property": "C119",
   "status": "partial",
   "theorems": [
    "geometric_mean_exact",
    "harmonic_mean_partial",
    "harmonic_mean_refuted"
   ],
   "note": "Refuted for the harmonic mean of data with a zero; proved otherwise in exact arithmetic."
  },
  {
   "property": "C120",
   "status": "proved",
   "theorems": [
    "standardized_data"
   ],
   "note": "Exact arithmetic."
  },
  {
   "property": "C121",
   "status": "partial",
   "theorems": [
    "deviation_about_supplied_means_partial",
    "deviation_about_supplied_means_refuted",
    "deviation_about_supplied_mean_infinite_refuted"
   ],
   "note": "Proved for dof < 0; refuted for dof >= 0."
  },
  {
   "property": "C122",
   "status": "partial",
   "theorems": [
    "reversal_restores_partial",
    "reversal_of_constant_data_refuted"
   ],
   "note": "Proved in exact arithmetic unless every scale is zero; refuted for constant data."
  },
  {
   "property": "C123",
   "status": "partial",
   "theorems": [
    "logistic_objective_is_the_cost",
    "rsc_objective_partial",
    "rsc_penalty_refuted"
   ],
   "note": "Exact arithmetic with the real exp and log. Proved for two classes and the symmetric side constraint; with a reference category the penalty covers the first class only (refuted)."
  },
  {
   "property": "C124",
   "status": "partial",
   "theorems": [
    "logistic_gradient_is_the_slope",
    "rsc_gradient_is_the_slope_partial",
    "logistic_stationary_point_is_optimal",
    "ssc_gradient_at_a_new_point_refuted"
   ],
   "note": "Exact arithmetic. With a reference category the slope is that of the objective actually used (C123). Refuted for the symmetric side constraint when xnew is set (the bundled solver never sets it)."
  },
  {
   "property": "C125",
   "status": "proved",
   "theorems": [
    "symmetric_side_is_kept"
   ],
   "note": "Exact arithmetic."
  },
  {
   "property": "C126",
   "status": "partial",
   "theorems": [
    "most_likely_class_predicted",
    "ssc_most_likely_class_predicted_partial",
    "ssc_negative_scores_refuted",
    "rsc_overflow_refuted"
   ],
   "note": "Proved in exact arithmetic for two classes and a reference category, and for scores that do not add up to a negative number; refuted for negative scores (ssc) and for scores whose exponential overflows (rsc)."
  },
  {
   "property": "C127",
   "status": "partial",
   "theorems": [
    "coefficients_handed_out",
    "coefficients_taken_as_a_start",
    "coefficients_round_trip",
    "rsc_coefficients_refuted"
   ],
   "note": "Refuted with a reference category and three or more classes; the round trip holds always."
  },
  {
   "property": "C128",
   "status": "partial",
   "theorems": [
    "scaled_data_is_the_table",
    "scaled_data_is_centred",
    "coordinate_factors",
    "constant_feature_refuted",
    "constant_response_refuted"
   ],
   "note": "Exact arithmetic; the factor 1/sqrt(N) of the table is missing for \"standardize\" in the code and in the specification. Refuted in double precision for a constant feature (\"standardize\") and a constant response (\"scale only\")."
  },
  {
   "property": "C129",
   "status": "partial",
   "theorems": [
    "scaled_minimiser_reverts",
    "unpenalised_fit",
    "documented_cost_partial",
    "documented_ridge_refuted",
    "scale_only_path_refuted"
   ],
   "note": "Exact arithmetic, for minimisers of the problem the solver gets. The documented cost for scalings none and centering with a 1-norm or no penalty; otherwise the cost actually minimised is stated. Refuted for ridge regression."
  },
  {
   "property": "C130",
   "status": "partial",
   "theorems": [
    "direct_solutions_minimise",
    "direct_fit",
    "coordinate_fit",
    "svd_small_data_refuted"
   ],
   "note": "Exact arithmetic; LAPACK and conjugate gradients are hypotheses (exact factors and solutions). SVD without a penalty only for singular values that are 0 or above the threshold; refuted for small data."
  },
  {
   "property": "C131",
   "status": "partial",
   "theorems": [
    "reverted_predictions_partial",
    "warm_start_round_trip",
    "warm_start_model_partial",
    "warm_start_refuted"
   ],
   "note": "Exact arithmetic. Refuted for \"scale only\" with an intercept."
  },
  {
   "property": "C132",
   "status": "proved",
   "theorems": [
    "linreg_objective",
    "linreg_gradient",
    "linreg_stationary"
   ],
   "note": "Exact arithmetic; with a 1-norm penalty the gradient is a subgradient."
  },
  {
   "property": "C133",
   "status": "proved",
   "theorems": [
    "first_fit",
    "documented_call_unique"
   ],
   "note": "The solvers are an oracle; mixed precision is off."
  },
  {
   "property": "C134",
   "status": "partial",
   "theorems": [
    "history_independent_partial",
    "method_sticks_refuted",
    "scaling_sticks_refuted",
    "retry_sticks_refuted"
   ],
   "note": "Proved when solver and scaling are set explicitly, Cholesky never fails numerically and the model is not switched on prepared data; refuted for automatic solver, automatic scaling and after a retry."
  },
  {
   "property": "C135",
   "status": "partial",
   "theorems": [
    "solver_sees_the_data_partial",
    "model_switch_refuted"
   ],
   "note": "Proved for all call sequences that do not switch the model between a fit and the next define_features or option change; refuted otherwise."
  },
  {
   "property": "C136",
   "status": "partial",
   "theorems": [
    "lambda_kept_partial",
    "reported_loss_refuted"
   ],
   "note": "Refuted: lambda as rescaled for the solver is used."
  },
  {
   "property": "C137",
   "status": "partial",
   "theorems": [
    "working_set_full",
    "working_set_extremes",
    "working_set_room"
   ],
   "note": "Exact arithmetic; the pair is held when the working set has at least three places, as it does from four dual variables with \"max_ws_size\" at least 3."
  },
  {
   "property": "C138",
   "status": "proved",
   "theorems": [
    "rounds_feasible",
    "trained_is_round",
    "trained_feasible"
   ],
   "note": "Exact arithmetic."
  },
  {
   "property": "C139",
   "status": "proved",
   "theorems": [
    "rounds_gradient",
    "rounds_descend"
   ],
   "note": "Exact arithmetic; the scalar kernels."
  },
  {
   "property": "C140",
   "status": "partial",
   "theorems": [
    "trained_gap_partial",
    "trained_optimal_partial",
    "trained_optimal_refuted"
   ],
   "note": "Exact arithmetic. Proved from four dual variables and a working set option of three; refuted for three samples with default options."
  },
  {
   "property": "C141",
   "status": "partial",
   "theorems": [
    "margin_partial",
    "classifier_margin_partial",
    "regressor_tube_partial",
    "stored_model_close",
    "bias_exists"
   ],
   "note": "Exact arithmetic; same restriction on size as C140; coefficients up to machine epsilon are dropped from the model, with the error bounded by stored_model_close."
  },
  {
   "property": "C142",
   "status": "proved",
   "theorems": [
    "predicts_favourite",
    "votes_are_wins"
   ],
   "note": ""
  },
  {
   "property": "C143",
   "status": "partial",
   "theorems": [
    "ovr_best_is_favourite",
    "ovr_agrees_partial",
    "ovr_agrees_refuted"
   ],
   "note": "Exact arithmetic. The best one-versus-rest value always belongs to a class with the most votes; it is the predicted class if that class is unique. Refuted for ties."
  },
  {
   "property": "C144",
   "status": "proved",
   "theorems": [
    "probabilities_distribution",
    "probabilities_near_best"
   ],
   "note": "Exact arithmetic; the sigmoid values are arbitrary."
  },
  {
   "property": "C145",
   "status": "proved",
   "theorems": [
    "results_laid_out",
    "results_in_bounds"
   ],
   "note": "The coefficients are arbitrary."
  },
  {
   "property": "C146",
   "status": "partial",
   "theorems": [
    "first_counts_partial",
    "first_norms_partial",
    "recompute_in_bounds_refuted",
    "recompute_counts_refuted",
    "recompute_norms_refuted"
   ],
   "note": "Refuted: numbers of support vectors and squared norms add up over calls, and with several classes the second call can write past the end of both result arrays. The first call is right."
  },
  {
   "property": "C147",
   "status": "partial",
   "theorems": [
    "support_vectors_are_rows_partial",
    "support_vectors_are_rows_refuted"
   ],
   "note": "Refuted for column-major data with a leading dimension larger than the number of rows; holds otherwise."
  },
  {
   "property": "C148",
   "status": "proved",
   "theorems": [
    "search_finds_cell",
    "search_finds_uniform_cell"
   ],
   "note": "Exact arithmetic."
  },
  {
   "property": "C149",
   "status": "proved",
   "theorems": [
    "spline_is_the_spline",
    "hermite_is_the_spline"
   ],
   "note": "Exact arithmetic; the external tridiagonal solver is assumed to solve its system."
  },
  {
   "property": "C150",
   "status": "proved",
   "theorems": [
    "cubic_reproduced"
   ],
   "note": "Exact arithmetic; the external tridiagonal solver is assumed to solve its system."
  },
  {
   "property": "C151",
   "status": "partial",
   "theorems": [
    "orders_are_derivatives",
    "orders_in_place_partial",
    "orders_in_place_refuted"
   ],
   "note": "The values are the derivatives. Their places are right for increasing orders; refuted otherwise: the blocks come by increasing order, and repeated orders get one block only."
  },
  {
   "property": "C152",
   "status": "partial",
   "theorems": [
    "sites_accepted",
    "uniform_steps_partial",
    "uniform_steps_refuted",
    "values_read_partial",
    "values_read_refuted",
    "dimensions_agree_partial",
    "dimensions_checked_refuted"
   ],
   "note": "Refuted in three ways: steps of a refused call of set_sites stay for uniform sites, the leading dimension of the values is ignored, and numbers of dimensions that disagree make interpolate read outside arrays. Right for new handles, values without gaps, and calls that agree on the number of dimensions."
  },
  {
   "property": "C153",
   "status": "partial",
   "theorems": [
    "index_holds_rows_partial",
    "index_numbering_refuted"
   ],
   "note": "Proved for any additions and searches after a training on new data; refuted for a handle that is trained again: the count of rows is not reset, so the indices returned belong to no row."
  },
  {
   "property": "C154",
   "status": "proved",
   "theorems": [
    "search_finds_the_nearest_probed",
    "exhaustive_search_exact"
   ],
   "note": "Distances are those computed; all are assumed to be numbers below the largest finite one."
  },
  {
   "property": "C155",
   "status": "partial",
   "theorems": [
    "index_in_bounds_partial",
    "failed_training_refuted"
   ],
   "note": "Proved while no training fails; refuted after a training refused for too large an n_list, which leaves the handle trained with the new n_list."
  },
  {
   "property": "C156",
   "status": "partial",
   "theorems": [
    "training_rows_partial",
    "training_rows_refuted",
    "clusters_within_rows_refuted"
   ],
   "note": "Proved for the first training on a set of data; refuted for further ones, which take the share of what the last one used."
  },
  {
   "property": "C157",
   "status": "proved",
   "theorems": [
    "covariance_exact",
    "covariance_semidefinite",
    "covariance_refusals"
   ],
   "note": "Exact arithmetic; da_syrk is taken to form the triangle it documents."
  },
  {
   "property": "C158",
   "status": "proved",
   "theorems": [
    "correlation_exact",
    "correlation_bounded"
   ],
   "note": "Exact arithmetic; da_syrk is taken to form the triangle it documents."
  }
 ]
}