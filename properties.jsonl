{"id": "C01", "title": "Setting an option is read back exactly and touches nothing else", "statement": "After da_options_set returns success, da_options_get on the same option returns the stored value (for categorical string options the normalised label and its id); every other option keeps its value. When da_options_set returns any error, every option keeps the value it had.", "quantifier": "all registries built by registration, all option names, all values of all four types, all histories of set calls", "why_tests_cant": "tests set a few options on a few handles; the frame condition ranges over every registry content and every history", "anchors": ["source/core/utilities/options.hpp: OptionRegistry::set, OptionRegistry::get, OptionNumeric::set, OptionString::set", "source/core/utilities/options_public.cpp: da_options_set, da_options_get"]}
{"id": "C02", "title": "Numeric option values always respect their declared bounds", "statement": "Through the public set interface, the value an option holds always satisfies its declared lower and upper bounds (open, closed or infinite); a value outside is refused with da_status_option_invalid_value.", "quantifier": "all bound kinds, all bounds, all sequences of set calls, including NaN arguments for floating options", "why_tests_cant": "there are infinitely many bound/value pairs, and special values (NaN) escape comparison-based checks", "anchors": ["source/core/utilities/options.hpp: OptionBase::validate, OptionNumeric::set"]}
{"id": "C03", "title": "Option names are insensitive to case, leading/trailing and repeated blanks", "statement": "Two spellings of an option name that differ only in letter case and in the amount of surrounding or internal white space designate the same option; normalising a name twice is the same as once.", "quantifier": "all strings", "why_tests_cant": "the space of spellings is infinite", "anchors": ["source/core/utilities/options.hpp: OptionUtils::prep_str, OptionRegistry::set, OptionRegistry::get"]}
{"id": "C04", "title": "A locked registry cannot be modified", "statement": "While a registry is locked every set and every registration is refused with da_status_option_locked and leaves all options unchanged; reading still works; unlocking restores normal behaviour.", "quantifier": "all registries, all sequences of lock/unlock/set/register/get calls", "why_tests_cant": "the guarantee is over call histories", "anchors": ["source/core/utilities/options.hpp: OptionRegistry::lock, unlock, set, register_opt"]}
{"id": "C05", "title": "Categorical string options only ever hold a declared label", "statement": "A string option with a non-empty list of labels always holds one of them and reports the id declared for it; any other value is refused and the previous value kept.", "quantifier": "all label tables, all sequences of set calls", "why_tests_cant": "histories and label tables are unbounded", "anchors": ["source/core/utilities/options.hpp: OptionString::set, OptionString::get, OptionString ctor"]}
{"id": "C06", "title": "Error trace keeps the first cause and stays bounded", "statement": "For any sequence of error recordings the trace holds at most ten entries; the status and message a caller retrieves are those of the first error recorded since the last reset; recording always returns the status it was given.", "quantifier": "all sequences of error, warning, trace and clear calls", "why_tests_cant": "the overflow behaviour needs arbitrarily long sequences", "anchors": ["source/core/utilities/da_error.hpp: da_error_t::rec, get_status, clear, DA_ERROR_STACK_SIZE"]}
{"id": "C07", "title": "Asking for the last error message is always well defined", "statement": "da_handle_get_error_message on a live handle returns a message (possibly empty) whatever calls were made before, including right after a successful call.", "quantifier": "all call histories on a handle", "why_tests_cant": "reads past an empty container may appear to work in a test", "anchors": ["source/core/utilities/da_error.hpp: get_mesg_char", "source/core/utilities/da_handle_public.cpp: da_handle_get_error_message"]}
{"id": "C08", "title": "Saved data reads back unchanged", "statement": "Deserialising what was serialised yields the same value for every supported scalar and every (nested) container, and consumes exactly the bytes written; the size computed before writing equals the number of bytes written.", "quantifier": "all supported values and all nesting depths", "why_tests_cant": "values and nestings are unbounded; boundary sizes are not sampled by tests", "anchors": ["source/core/utilities/model_persistence.cpp: serialize_container_impl, deserialize_container_impl, serialize_data, deserialize_data", "source/core/utilities/model_persistence.hpp: get_type_size, get_container_size"]}
{"id": "C09", "title": "Loading arbitrary bytes never reads outside the buffer", "statement": "For any byte sequence offered to the model loader, each read made while decoding stays inside the buffer, decoding ends, and a too short or inconsistent buffer yields da_status_invalid_file_data.", "quantifier": "all byte strings of all lengths", "why_tests_cant": "malicious or truncated inputs cannot be enumerated", "anchors": ["source/core/utilities/model_persistence.cpp: deserialize_container_impl, deserialize_data, deserialize_metadata"]}
{"id": "C10", "title": "Options survive a save/load cycle", "statement": "Saving the option registry and loading it into a registry with the same declared options restores every value; loading from any other bytes keeps every option inside its declared domain.", "quantifier": "all registries, all byte strings", "why_tests_cant": "the reading side must hold for every possible file content", "anchors": ["source/core/utilities/options.hpp: OptionRegistry::save_registry, load_registry, compute_serialized_size"]}
{"id": "C11", "title": "The kernel-column cache returns the column last stored for a key", "statement": "After any sequence of insertions of not-yet-cached columns and lookups, a lookup hits exactly the most recently used columns (at most the capacity) and returns the data last stored under that key; distinct cached keys never share storage.", "quantifier": "all capacities, all sequences of get/put on keys, all column data", "why_tests_cant": "histories are unbounded", "anchors": ["source/core/utilities/da_cache.hpp: LRUCache::get, put, set_size"]}
{"id": "C12", "title": "Updating an already cached key keeps it retrievable", "statement": "After storing a column for a key that is already cached, the key keeps returning the new column for as long as fewer than capacity other columns were used since.", "quantifier": "all histories", "why_tests_cant": "needs a specific eviction order after the update", "anchors": ["source/core/utilities/da_cache.hpp: LRUCache::put (documented 'Add or update')"]}
{"id": "C13", "title": "The growable array behaves as a list", "statement": "push_back, append, resize, reserve, clear, copy and element access behave as on a mathematical list; capacity always is at least size, so no write falls outside the allocation.", "quantifier": "all operation sequences, all contents", "why_tests_cant": "growth interacts with every history of sizes", "anchors": ["source/core/utilities/da_vector.hpp: da_vector"]}
{"id": "C14", "title": "A moved-from growable array is still usable", "statement": "After its content is moved out, an array behaves as an empty array for later push_back/append/resize.", "quantifier": "all histories containing a move", "why_tests_cant": "undefined behaviour or non-termination is not observable by a passing test", "anchors": ["source/core/utilities/da_vector.hpp: move constructor, move assignment, push_back, resize"]}
{"id": "C15", "title": "Train/test split copies exactly the requested rows", "statement": "da_train_test_split writes row k of X_train from the k-th shuffled index (or k) and row k of X_test from index train_size+k, for both storage orders and any leading dimensions, writes nothing else, and the result does not depend on the number of threads.", "quantifier": "all shapes, orders, leading dimensions, index arrays in range, thread counts and schedules", "why_tests_cant": "index arithmetic over all shapes and schedules", "anchors": ["source/core/utilities/train_test_split_internal.hpp: split_column_data, split_row_data_serial, split_row_data_parallel", "source/core/utilities/train_test_split.cpp: train_test_split"]}
{"id": "C16", "title": "Random shuffling yields a permutation", "statement": "da_get_shuffled_indices without classes writes a permutation of 0..m-1 for every seed; with classes (stratified) the train and test index blocks are in range, have the requested sizes and are disjoint.", "quantifier": "all sizes, all class vectors, all random streams", "why_tests_cant": "random streams cannot be enumerated", "anchors": ["source/core/utilities/da_std.hpp: shuffle", "source/core/utilities/da_utils.cpp: get_shuffled_indices, stratified_shuffle, class_frequency_approximation"]}
{"id": "C17", "title": "Selections of rows and columns behave as sets of indices", "statement": "Adding index ranges to a selection selects exactly the union of the ranges; membership queries answer accordingly; the stored ranges stay disjoint, non adjacent and ordered.", "quantifier": "all sequences of range insertions and queries", "why_tests_cant": "merging cases depend on arbitrary histories", "anchors": ["source/core/data_management/interval_set.cpp: interval_set::insert, find"]}
{"id": "C18", "title": "Removing a range from a selection removes exactly that range", "statement": "After removing a range from a selection, an index is selected iff it was selected before and is not in the range.", "quantifier": "all selections and all ranges", "why_tests_cant": "boundary cases (range enclosing whole intervals) depend on the relative position of arbitrary intervals", "anchors": ["source/core/data_management/interval_set.cpp: interval_set::erase", "source/core/data_management/data_store.hpp: remove_rows_from_selection, remove_columns_from_selection"]}
{"id": "C19", "title": "A data store behaves as one matrix", "statement": "After any sequence of successful column and row concatenations, element access at (i,j) returns the element of the corresponding block, as for the mathematical concatenation of the blocks; writing an element changes that element only.", "quantifier": "all block shapes, orders, types and concatenation sequences", "why_tests_cant": "index arithmetic across block chains for every history", "anchors": ["source/core/data_management/data_store.hpp: concatenate_columns, concatenate_rows, get_element, set_element", "source/core/data_management/interval_map.hpp"]}
{"id": "C20", "title": "Extraction returns the stored elements", "statement": "Extracting a column, a slice or a selection writes exactly the elements of the selected rows and columns, in order, in the requested storage order, inside the user array, and nothing else.", "quantifier": "all stores, all slices and selections, both orders, all leading dimensions", "why_tests_cant": "index arithmetic over all shapes", "anchors": ["source/core/data_management/data_store.hpp: extract_column, extract_slice, extract_selection, block_dense::copy_slice_dense"]}
{"id": "C21", "title": "Selecting non-missing rows keeps exactly the complete rows", "statement": "After selecting non missing rows, a previously selected row remains selected iff none of its selected columns holds a missing value.", "quantifier": "all stores, all missing patterns", "why_tests_cant": "all missing patterns, including missing last row", "anchors": ["source/core/data_management/data_store.hpp: select_non_missing, mark_missing_slice, block_dense::missing_rows"]}
{"id": "C22", "title": "A refused data store operation leaves the store unchanged", "statement": "When concatenation, extraction or selection returns an error status, the dimensions, elements, labels and selections of the store are as before.", "quantifier": "all stores and all failing calls, including failures in the middle of an assembled row", "why_tests_cant": "mid-operation failure points times store contents", "anchors": ["source/core/data_management/data_store.hpp: concatenate_rows (cleanup), concatenate_columns"]}
{"id": "C23", "title": "Column labels identify columns", "statement": "After labelling a column, looking the label up returns that column and asking the column for its label returns that label, until it is relabelled.", "quantifier": "all labelling histories", "why_tests_cant": "depends on histories with repeated labels", "anchors": ["source/core/data_management/data_store.hpp: label_column, get_idx_from_label, get_col_label, horizontal_concat"]}
{"id": "C24", "title": "Integers in CSV text are read exactly or refused", "statement": "A text field is accepted as integer iff it is optional blanks, optional sign, digits (with optional thousands separators), optional blanks, and its value is representable; the value stored is then exact and no intermediate computation overflows.", "quantifier": "all strings, both integer widths", "why_tests_cant": "all digit strings around the limits and all malformed strings", "anchors": ["source/core/csv/char_to_num.hpp: char_to_num(int64_t*), char_to_num(int32_t*)"]}
{"id": "C25", "title": "Floating point text is fully consumed, with defined arithmetic", "statement": "A text field accepted as a floating point number consists of a number and blanks only, and converting it involves no undefined arithmetic or table access out of range.", "quantifier": "all strings", "why_tests_cant": "exponent strings of arbitrary length; trailing garbage of any form", "anchors": ["source/core/csv/char_to_num.hpp: char_to_num(double*), char_to_num(float*)"]}
{"id": "C26", "title": "Reading back a written CSV table gives the same fields", "statement": "For any rectangular table of text fields written in the standard way (fields quoted when needed, one record per line), reading it yields exactly the same table.", "quantifier": "all tables, all field contents", "why_tests_cant": "all field contents including delimiters and newlines inside quotes", "anchors": ["source/core/csv/tokenizer.c: tokenize_bytes, end_field, end_line, parser_handle_eof"]}
{"id": "C27", "title": "CSV parsing does not depend on how the file is buffered", "statement": "The sequence of fields and lines produced from a file does not depend on the boundaries of the chunks in which it is read.", "quantifier": "all files, all chunkings", "why_tests_cant": "chunk boundaries fall at arbitrary positions", "anchors": ["source/core/csv/tokenizer.c: tokenize_bytes, _tokenize_helper, CHECK_FOR_BOM, WHITESPACE_LINE backtracking"]}
{"id": "C28", "title": "Malformed CSV input is reported", "statement": "A file whose last quoted field is not terminated, or whose lines have different numbers of fields, is refused with an error instead of yielding a truncated or misaligned table.", "quantifier": "all files", "why_tests_cant": "position of the malformation and preceding content are arbitrary", "anchors": ["source/core/csv/read_csv.hpp: parse_file, populate_data_array", "source/core/csv/tokenizer.c: parser_handle_eof"]}
{"id": "C29", "title": "Column type detection is independent of row order", "statement": "When reading a CSV file into a data store, the detected type of a column depends only on the multiset of its fields: integer if all are integers, floating if all are numbers and one is not an integer, boolean if all are booleans, text otherwise; every column holds one entry per row.", "quantifier": "all tables, all row orders", "why_tests_cant": "all sequences of field types", "anchors": ["source/core/data_management/auto_detect_csv.hpp: detect_columns, update_column, convert_col_to_char"]}
{"id": "C30", "title": "Blocked transposition moves every element once", "statement": "Copying a matrix from row to column major (and back) places element (i,j) correctly for all shapes and leading dimensions, leaves padding untouched, and is unaffected by thread schedule.", "quantifier": "all shapes, leading dimensions, schedules", "why_tests_cant": "block boundaries for all shapes", "anchors": ["source/core/utilities/da_utils.cpp: copy_transpose_2D_array_row_to_column_major, copy_transpose_2D_array_column_to_row_major"]}
{"id": "C31", "title": "Blocking schemes cover all samples exactly once", "statement": "The block count, block size and last block size returned partition the samples: blocks are disjoint, non-empty and cover every sample, and the number of blocks respects the requested maximum.", "quantifier": "all sample counts and parameters", "why_tests_cant": "divisibility cases for all sizes", "anchors": ["source/core/utilities/da_utils.cpp: blocking_scheme, tall_skinny_blocking_scheme"]}
{"id": "C32", "title": "The data check reports NaN and only NaN", "statement": "With data checking enabled a matrix is refused as containing NaN iff one of its elements is NaN.", "quantifier": "all matrices of IEEE values", "why_tests_cant": "all representable values", "anchors": ["source/core/utilities/da_utils.cpp: check_data"]}
{"id": "C33", "title": "Quantiles are order statistics", "statement": "Each requested quantile equals the value obtained from the sorted data by the documented formula of its type, whatever the order and multiplicity of the requested quantiles and whatever the storage order and axis.", "quantifier": "all data sets, all quantile lists, all nine types, every conforming partial-sort implementation", "why_tests_cant": "all data and all quantile lists with shared partially sorted work array", "anchors": ["source/core/basic_statistics/order_statistics.cpp: quantile, quick_selection, get_quantile_indices"]}
{"id": "C34", "title": "Sorting samples by feature value is correct", "statement": "The combined sort leaves feature values in non-decreasing order, applies the same permutation to sample indices, and leaves positions outside the range untouched, for every depth limit (including the heap sort fallback).", "quantifier": "all arrays, ranges and depth limits", "why_tests_cant": "all inputs including adversarial ones", "anchors": ["source/core/decision_forest/common/idx_sorting.cpp: multi_range_intro_sort, multi_range_heap_sort, compress_count_occurences, bucket_sort_samples"]}
{"id": "C35", "title": "Splitting a node partitions its samples", "statement": "Partitioning the samples of a node permutes them so that exactly the samples on the left side of the split come first, and the returned index is the boundary.", "quantifier": "all sample orders, all feature values, both split kinds", "why_tests_cant": "all value patterns", "anchors": ["source/core/decision_forest/tree/decision_tree_training_partition.hpp: partition_samples_*"]}
{"id": "C36", "title": "Training and prediction route a training sample the same way", "statement": "For each split, a training sample sent to the left child during training goes to the left child at prediction time.", "quantifier": "all data, thresholds, both histogram and raw modes, all leading dimensions", "why_tests_cant": "equality with thresholds, padding", "anchors": ["source/core/decision_forest/tree/decision_tree_training_partition.hpp", "source/core/decision_forest/tree/decision_tree_inference.hpp: predict", "source/core/decision_forest/common/histogram.cpp: compute_histograms"]}
{"id": "C37", "title": "Every accepted split respects the minimum node size", "statement": "A split accepted during training leaves at least the configured minimum number of samples in both children and its class counts are those of the children.", "quantifier": "all data sets including ties", "why_tests_cant": "tie patterns below the minimum size", "anchors": ["source/core/decision_forest/tree/decision_tree_training_split.hpp: split_raw_continuous, update_split_sorted"]}
{"id": "C38", "title": "Predicted class is the most probable class", "statement": "For every sample the predicted class maximises the predicted probabilities.", "quantifier": "all fitted trees and samples", "why_tests_cant": "all trees including categorical splits", "anchors": ["source/core/decision_forest/tree/decision_tree_inference.hpp: predict, predict_proba"]}
{"id": "C39", "title": "Forest vote is schedule independent", "statement": "The class predicted by a forest is the majority class of its trees, ties broken by smallest class, for every thread count, block size and interleaving.", "quantifier": "all forests, samples, block sizes and schedules", "why_tests_cant": "interleavings cannot be enumerated", "anchors": ["source/core/decision_forest/forest/decision_forest_inference.hpp: parallel_count_classes, predict"]}
{"id": "C40", "title": "DBSCAN (one thread) computes density-connected clusters", "statement": "Two core samples get the same label iff they are connected through core samples; a non-core sample gets the label of a cluster having a core sample in its neighbourhood, or noise if there is none; labels are 0..n_clusters-1.", "quantifier": "all symmetric neighbourhood graphs and min_samples", "why_tests_cant": "all graphs", "anchors": ["source/core/clustering/dbscan/dbscan.cpp: dbscan_clusters_serial, dbscan_clusters"]}
{"id": "C41", "title": "DBSCAN gives the same clustering for any number of threads", "statement": "The multi-threaded clustering labels the same samples as noise and groups core samples in the same clusters as the single-threaded one, under every interleaving.", "quantifier": "all neighbourhood graphs, all interleavings", "why_tests_cant": "interleavings and graphs cannot be enumerated", "anchors": ["source/core/clustering/dbscan/dbscan.cpp: dbscan_clusters_parallel"]}
{"id": "C42", "title": "Brute force radius neighbours lists exactly the samples within the radius", "statement": "For each sample the list contains each other sample at distance at most eps exactly once, for every block decomposition, thread count and metric.", "quantifier": "all data, metrics, block sizes, thread schedules", "why_tests_cant": "block index arithmetic for all sizes", "anchors": ["source/core/nearest_neighbors/radius_neighbors.cpp: radius_neighbors_brute"]}
{"id": "C43", "title": "Result queries are guarded", "statement": "da_handle_get_result_* on a null handle, with null arguments, or with the wrong precision reports the documented status without touching the result; other calls are dispatched to the algorithm of the handle.", "quantifier": "all handle states and arguments", "why_tests_cant": "all handle states", "anchors": ["source/core/utilities/da_handle_public.cpp: da_handle_get_result", "source/core/utilities/da_handle.hpp: check_precision"]}
{"id": "C44", "title": "Loading a model never dereferences an absent algorithm", "statement": "da_handle_load_model on any byte buffer either loads a complete model or returns an error status.", "quantifier": "all byte strings", "why_tests_cant": "the header can name any handle type", "anchors": ["source/core/utilities/da_handle.cpp: load_handle, save_handle, da_handle_init", "source/core/utilities/basic_handle.cpp: load_model"]}
{"id": "C45", "title": "Reading a string option respects the caller's buffer", "statement": "da_options_get_string writes at most the declared length, always terminates the string, and when the buffer is too small writes nothing and reports the length that suffices.", "quantifier": "all options, all values, all declared lengths", "why_tests_cant": "all lengths, including zero and negative ones", "anchors": ["source/core/utilities/options_public.cpp: da_options_get (string), da_datastore_options_get (string)"]}
{"id": "C46", "title": "User data saved with a model keeps every logical element", "statement": "When a model keeps the user's matrix, the saved buffer holds, for every layout and leading dimension the model was trained with, exactly the element (i,j) of the user's matrix at its position in the packed saved matrix.", "quantifier": "all layouts, dimensions and leading dimensions", "why_tests_cant": "layout, shape and leading dimension are independent", "anchors": ["source/core/utilities/model_persistence.cpp: serialize_user_data", "source/core/factorization/kernel_pca/kernel_pca.cpp: save"]}
{"id": "C47", "title": "A handle without an algorithm answers every call with an error status", "statement": "After da_handle_init with a handle type outside the enumeration, every handle call (options, results, refresh, print, save) reports an error status and dereferences no absent algorithm.", "quantifier": "all handle types, all call sequences", "why_tests_cant": "the set of integers passed as handle type is unbounded", "anchors": ["source/core/utilities/da_handle_public.cpp: da_handle_init, da_handle_get_result", "source/core/utilities/da_handle.cpp: get_current_opts, save_handle"]}
{"id": "C48", "title": "A refused option change does not disturb a trained model", "statement": "When da_options_set_* returns an error status, the handle answers every later result query as if the call had not been made.", "quantifier": "all handles, options, values and call histories", "why_tests_cant": "all histories of successful and refused option changes", "anchors": ["source/core/utilities/options_public.cpp: da_options_set", "source/core/utilities/da_handle.cpp: get_current_opts"]}
{"id": "C49", "title": "Concurrent insertions into the kernel-column cache do not interfere", "statement": "When several threads insert columns at the same time, in every interleaving each thread copies only into columns of the buffer no other thread holds, and no lookup ever sees a column change.", "quantifier": "all capacities, all interleavings of any number of threads", "why_tests_cant": "interleavings cannot be enumerated", "anchors": ["source/core/utilities/da_cache.hpp: LRUCache::put", "source/core/svm/nu_svm.cpp: initialise_gradient (parallel loop)"]}
{"id": "C50", "title": "The SVM solver gets the right kernel column for every working-set index", "statement": "Whatever was cached before, each position of the working set receives exactly one column, and it is the kernel column of that sample when the computation returns, for every cache capacity (including none and smaller than the working set) and with repeated samples.", "quantifier": "all cache histories, capacities, working sets", "why_tests_cant": "needs an eviction pattern that overwrites a column still in use", "anchors": ["source/core/svm/base_svm.cpp: kernel_compute", "source/core/utilities/da_cache.hpp"]}
{"id": "C51", "title": "A growable array survives a failed growth", "statement": "When memory runs out while an array grows, the array keeps its contents and stays usable: later operations, memory being available again, behave as on a list.", "quantifier": "all histories, any failing allocation", "why_tests_cant": "allocation failures are not exercised by tests", "anchors": ["source/core/utilities/da_vector.hpp: push_back, append, resize, reserve"]}
{"id": "C52", "title": "An element of a growable array can be pushed onto the same array", "statement": "v.push_back(v[i]) appends the value of v[i], for every array and index.", "quantifier": "all histories and indices", "why_tests_cant": "reading freed memory usually goes unnoticed", "anchors": ["source/core/utilities/da_vector.hpp: push_back"]}
{"id": "C53", "title": "A train/test split is refused when its sizes are inconsistent", "statement": "da_train_test_split succeeds exactly when the documented constraints on sizes, leading dimensions and pointers hold, for every da_int argument; otherwise it returns an error and copies nothing.", "quantifier": "all da_int arguments", "why_tests_cant": "sizes near the largest integer are not tested", "anchors": ["source/core/utilities/train_test_split.cpp: validate_parameters_train_test_split"]}
{"id": "C54", "title": "Sampling without replacement returns what was asked for", "statement": "da_std::sample returns min(n, population) elements, in the order of the population, no position twice, and reads no element past the end, whatever the random numbers.", "quantifier": "all populations, sizes and random streams", "why_tests_cant": "random streams cannot be enumerated", "anchors": ["source/core/utilities/da_std.hpp: sample", "source/core/clustering/kmeans/kmeans.cpp: initialize_centres"]}
{"id": "C55", "title": "A random shuffle is unbiased", "statement": "Every arrangement of the elements is produced by exactly one of the equally likely sequences of random draws, so all arrangements are equally likely.", "quantifier": "all lists of distinct elements", "why_tests_cant": "bias is invisible in a few shuffles", "anchors": ["source/core/utilities/da_std.hpp: shuffle"]}
{"id": "C56", "title": "The row blocks of the QR factorisation are tall enough and fit their arrays", "statement": "For every shape and number of threads, each block of rows the factorisation works on has at least as many rows as columns, its reflector coefficients are stored inside the allocated array without overlapping another block's, and the triangle saved for a block consists of rows of that block.", "quantifier": "all m >= n >= 1, all numbers of threads", "why_tests_cant": "needs particular shapes together with many threads", "anchors": ["source/core/utilities/da_qr.hpp: da_qr", "source/core/utilities/da_utils.cpp: tall_skinny_blocking_scheme", "source/core/factorization/pca/pca.cpp"]}
{"id": "C57", "title": "Algorithms see the matrix the user passed, whatever the storage order", "statement": "After a handle stored a row- or column-major input with any leading dimension, element (r,c) read by the algorithm is element (r,c) of the user's matrix, and results are returned densely in the user's order; no access leaves the arrays, for any thread schedule.", "quantifier": "all shapes, orders, leading dimensions, schedules", "why_tests_cant": "block boundaries for all shapes", "anchors": ["source/core/utilities/basic_handle.cpp: store_2D_array, copy_2D_results_array"]}
{"id": "C58", "title": "Short decimal numbers in CSV text are read correctly rounded", "statement": "A number of at most 15 digits, with any decimal point and exponent such that the power of ten is at most 22 in magnitude, is read as the double nearest to the number written, and its text is consumed entirely.", "quantifier": "all such texts, signs, blanks and settings of decimal point and exponent character", "why_tests_cant": "all digit strings; rounding of every intermediate operation", "anchors": ["source/core/csv/char_to_num.hpp: char_to_num(double*)"]}
{"id": "C59", "title": "Reading a CSV file stays inside the parser's buffers", "statement": "For every file and every reader setting, no read or write of the tokenizer or of the code that fills the data array leaves the allocated arrays.", "quantifier": "all files, settings and chunkings", "why_tests_cant": "the buffers are oversized for all but special sequences of short lines", "anchors": ["source/core/csv/tokenizer.c: make_stream_space, push_char, end_field, end_line", "source/core/csv/read_csv.hpp: populate_data_array"]}
{"id": "C60", "title": "Decimal numbers of any length in CSV text are read accurately", "statement": "Every decimal number whose magnitude lies well inside the range of doubles is read as a double whose relative error is a few units of the last place (at most 10 * 2^-53), whatever the number of digits, leading zeros and exponent; zero is read as zero.", "quantifier": "all such texts, signs, digit counts, exponents and settings of the parser", "why_tests_cant": "the error of a chain of roundings for all digit strings", "anchors": ["source/core/csv/char_to_num.hpp: char_to_num(double*)"]}
{"id": "C61", "title": "A trained decision tree is a partition of the training set with majority leaves", "statement": "Training on valid data ends without leaving any array; the tree has a root with all samples, every inner node divides its samples between two children one level deeper, every sample is in one leaf, no leaf is deeper than the maximum, and every node predicts the majority class of its samples (smallest class on ties) and stores their class proportions.", "quantifier": "all data, labels, options, scoring functions and random draws, raw and histogram modes, with or without bootstrap", "why_tests_cant": "all training sets and growth histories", "anchors": ["source/core/decision_forest/tree/decision_tree_training_fit.hpp: fit, fit_serial, add_node, split_node_and_add_children"]}
{"id": "C62", "title": "The split found for a feature is the best admissible one", "statement": "Evaluating a numeric feature in a node returns the cut between two different values with the smallest score among all cuts that leave the minimum number of samples on both sides and gain more than the minimum impurity decrease, or none if there is none.", "quantifier": "all nodes, data, weights and scoring functions", "why_tests_cant": "optimality over all cuts of all data sets", "anchors": ["source/core/decision_forest/tree/decision_tree_training_split.hpp: split_raw_continuous, update_split_sorted, compute_best_split_raw"]}
{"id": "C63", "title": "A node above the limits stays a leaf only if no feature can split it", "statement": "With all features allowed in every split, a node that is above the size, depth and score limits becomes a leaf only if no feature has an admissible split.", "quantifier": "all data and trees", "why_tests_cant": "interaction between the nodes visited before", "anchors": ["source/core/decision_forest/tree/decision_tree_training_fit.hpp: fit_serial (const_feat_idx), split_node_and_add_children"]}
{"id": "C64", "title": "The reported depth and number of leaves are those of the tree", "statement": "After training, the depth and the number of leaves returned to the user are those of the trained tree.", "quantifier": "all data, options and sequences of trainings on one handle", "why_tests_cant": "histories of a handle", "anchors": ["source/core/decision_forest/tree/decision_tree_training_fit.hpp: fit, add_node", "source/core/decision_forest/tree/decision_tree_handle_utilities.hpp: get_result"]}
{"id": "C65", "title": "Forest probabilities are repeatable means of the trees", "statement": "The class probabilities a forest returns for a sample are the mean of those of its trees, normalised; calling predict_proba again gives the same values, and the predicted class is one of largest probability.", "quantifier": "all forests, samples, block sizes, thread counts and interleavings", "why_tests_cant": "interleavings of atomic floating point additions cannot be enumerated", "anchors": ["source/core/decision_forest/forest/decision_forest_inference.hpp: predict_proba, predict"]}
{"id": "C66", "title": "Forest score is the proportion of right predictions", "statement": "The score of a forest is the correctly rounded proportion of samples whose predicted class is the given one.", "quantifier": "all forests, samples, labels, thread counts and interleavings, both precisions", "why_tests_cant": "numbers of samples beyond what tests use, and interleavings", "anchors": ["source/core/decision_forest/forest/decision_forest_inference.hpp: score"]}
{"id": "C67", "title": "Threads for the trees of a forest", "statement": "While a forest is trained, the threads used by the trees trained at the same time never exceed those available, each tree has at least one, and no tree more than the given maximum.", "quantifier": "all numbers of threads, trees and maxima", "why_tests_cant": "numbers of threads that test machines do not have", "anchors": ["source/core/decision_forest/forest/decision_forest_training.hpp: compute_thread_distribution"]}
{"id": "C68", "title": "Histograms describe the training data", "statement": "When trees are trained with histograms, every sample is in the bin of its value, there are at most as many bins as asked for, none is empty, bins of a feature without close values have equal sizes up to one or two samples, and nothing is stored outside the arrays.", "quantifier": "all data, numbers of samples, features and bins, thread counts and interleavings, both precisions", "why_tests_cant": "the number of bins depends on rounding errors that add up over many additions, and on interleavings", "anchors": ["source/core/decision_forest/common/histogram.cpp: compute_thresholds, compute_histograms", "source/core/decision_forest/common/histogram.hpp: bins"]}
{"id": "C69", "title": "Brute force finds the nearest neighbours", "statement": "The k nearest neighbours computed by brute force are k training samples with their distances (all samples if there are fewer), none left out is nearer than one returned, and they come in order of distance; for the inner product the largest values.", "quantifier": "all distances, k, block sizes, vector widths, thread counts and assignments of blocks to threads", "why_tests_cant": "the answer is merged from candidates of blocks and threads; ties and short blocks depend on scheduling", "anchors": ["source/core/nearest_neighbors/nearest_neighbors.cpp: kneighbors_compute_brute_force, kneighbors_kernel", "source/core/nearest_neighbors/nearest_neighbors_kernels.cpp: smaller_values_and_indices"]}
{"id": "C70", "title": "Nearest neighbours are reproducible", "statement": "Two searches with the same data and options return the same neighbours and distances, whatever the number of threads, the size of the blocks and the schedule.", "quantifier": "all data, block sizes, thread counts and schedules", "why_tests_cant": "depends on which thread is given which block", "anchors": ["source/core/nearest_neighbors/nearest_neighbors.cpp: kneighbors_compute_brute_force"]}
{"id": "C71", "title": "k-d tree holds every sample", "statement": "A k-d tree built from training data holds every sample in exactly one node, for every leaf size, number of threads and data with repeated values.", "quantifier": "all data, leaf sizes, thread counts", "why_tests_cant": "repeated values and sizes around the leaf size split in many ways", "anchors": ["source/core/nearest_neighbors/binary_tree.cpp: build_tree"]}
{"id": "C72", "title": "k-d tree finds all neighbours within a radius", "statement": "A radius search in a k-d tree returns every training sample within the radius, with its distance, once, and no other.", "quantifier": "all finite data, queries, radii, leaf sizes, thread counts; Euclidean, Manhattan and Minkowski metrics, floating point included", "why_tests_cant": "whether rounding in the bounds of boxes loses a neighbour is a question about all floating point values", "anchors": ["source/core/nearest_neighbors/binary_tree.cpp: radius_neighbors, radius_neighbors_recursive"]}
{"id": "C73", "title": "k-d tree finds the nearest neighbours", "statement": "A k-d tree returns k samples with their distances, none left out nearer than one returned, in order of distance.", "quantifier": "all finite data, queries, k, leaf sizes, thread counts", "why_tests_cant": "branches are skipped by bounds which have to be right for every tree and every rounding", "anchors": ["source/core/nearest_neighbors/binary_tree.cpp: k_neighbors, k_neighbors_recursive", "source/core/nearest_neighbors/binary_tree.hpp: MaxHeap"]}
{"id": "C74", "title": "Algorithms for nearest neighbours agree", "statement": "The algorithms kd_tree, ball_tree and brute report the same distances for the same data and metric.", "quantifier": "all data, queries, metrics, options", "why_tests_cant": "the algorithms round differently on inputs that tests do not contain", "anchors": ["source/core/nearest_neighbors/nearest_neighbors.cpp: kneighbors_compute", "source/core/nearest_neighbors/binary_tree.cpp: distance"]}
{"id": "C75", "title": "DBSCAN selects an algorithm that fits the metric", "statement": "The algorithm that DBSCAN uses can work with the given metric, whether it was selected by the caller or automatically.", "quantifier": "all metrics, numbers of features and algorithms", "why_tests_cant": "every combination of options has to be considered together with what the algorithm assumes", "anchors": ["source/core/clustering/dbscan/dbscan.cpp: compute"]}
{"id": "C76", "title": "Answers belong to the data and options of the handle", "statement": "Once options were set and data accepted on a handle of nearest neighbours, the neighbours returned are those of these data, in the metric and number asked for, whatever was done with the handle before; a change of options or refused data does not silently change the meaning of the answers.", "quantifier": "all sequences of calls on a handle", "why_tests_cant": "tests use a fresh handle per case; leftovers show only for particular sequences of options and data", "anchors": ["source/core/nearest_neighbors/nearest_neighbors.cpp: set_data, set_params, check_options_update, kneighbors"]}
{"id": "C77", "title": "k nearest neighbours vote", "statement": "With uniform weights the label predicted for a query is the one most of its k nearest training samples have, the smallest of several such labels.", "quantifier": "all labels, neighbours, k and schedules, rounding of the probabilities included", "why_tests_cant": "votes are compared through rounded quotients; ties, odd k and more neighbours than samples", "anchors": ["source/core/nearest_neighbors/nearest_neighbors.cpp: predict, predict_proba_compute_knn, available_classes, set_labels"]}
{"id": "C78", "title": "Nearer neighbours weigh no less", "statement": "With weights by distance, of two neighbours the nearer one never has the smaller weight; a training sample equal to the query decides.", "quantifier": "all finite distances", "why_tests_cant": "distances near zero are treated apart, for all floating point values", "anchors": ["source/core/nearest_neighbors/nearest_neighbors.cpp: get_weights"]}
{"id": "C79", "title": "Class probabilities are probabilities", "statement": "The class probabilities of a query are finite numbers between 0 and 1, a class without a vote has probability 0, and with uniform weights each is the rounded fraction of votes.", "quantifier": "all labels, neighbours, finite distances, both weightings", "why_tests_cant": "sums and quotients of arbitrary weights can overflow or divide by zero", "anchors": ["source/core/nearest_neighbors/nearest_neighbors.cpp: predict_proba_compute_knn"]}
{"id": "C80", "title": "Queries without neighbours in the radius", "statement": "In radius classification a query with neighbours gets their majority label; a query without gets an error, the caller's label or the most frequent label, as selected by the option.", "quantifier": "all labels, queries, neighbours", "why_tests_cant": "labels with gaps, negative labels and labels unknown to the training data", "anchors": ["source/core/nearest_neighbors/nearest_neighbors.cpp: predict_proba_compute_rnn, predict, most_frequent_element"]}
{"id": "C81", "title": "Counts and offsets describe the radius neighbours", "statement": "The counts returned for a radius search are the numbers of neighbours of each query and their sum, and each offset leads to the neighbours of its query; arrays that are larger than needed are not written or read beyond the results.", "quantifier": "all results of searches and sizes of arrays", "why_tests_cant": "sizes of the caller's arrays other than the needed ones", "anchors": ["source/core/nearest_neighbors/nearest_neighbors.cpp: get_result, radius_neighbors_count_internal", "source/core/nearest_neighbors/nearest_neighbors_public.hpp: nn_classes"]}
{"id": "C82", "title": "Brute force finds all neighbours within a radius", "statement": "A radius search by brute force returns every training sample within the radius once, with its distance, and no other; the distances are numbers.", "quantifier": "all distances, radii, block sizes, thread counts and schedules", "why_tests_cant": "lists of threads are joined in an order that depends on scheduling; rounding of the matrix product", "anchors": ["source/core/nearest_neighbors/nearest_neighbors.cpp: radius_neighbors_compute_brute_force"]}
{"id": "C83", "title": "Radius distances are those of the last search", "statement": "The distances returned after a radius search are those of the last successful search, in order if that was asked for.", "quantifier": "all sequences of calls", "why_tests_cant": "depends on refused calls between a search and the retrieval of its result", "anchors": ["source/core/nearest_neighbors/nearest_neighbors.cpp: radius_neighbors, radius_neighbors_distances_internal"]}
{"id": "C84", "title": "Pairwise distances stay inside the arrays", "statement": "da_pairwise_distances with accepted arguments reads only the data, writes exactly the m x n entries of D, and never leaves its own buffers, whatever the sizes, leading dimensions, order, metric, instruction set and order of the threads.", "quantifier": "all sizes, strides, orders, metrics, block sizes with the asserted divisibility, schedules, buffer contents", "why_tests_cant": "blocks, panels and masks combine five loops; tests cover few remainders", "anchors": ["source/core/metrics/partitioning_infrastructure.hpp: LoopOne_packed .. LoopFive_packed, PackBlock_BLOCKxKC, dispatch_packed_distance", "source/core/metrics/metrics_kernels.hpp", "source/core/metrics/pairwise_distances.cpp"]}
{"id": "C85", "title": "A distance depends on its two rows only", "statement": "An entry of the matrix returned by da_pairwise_distances is, bit for bit, a function of the two rows it belongs to: not of the other rows, their number, the order, the leading dimensions, the number of threads or earlier contents of D.", "quantifier": "all inputs and schedules", "why_tests_cant": "needs comparison of all calls that contain the two rows", "anchors": ["source/core/metrics/partitioning_infrastructure.hpp: LoopFive_packed", "source/core/metrics/cosine_distance.cpp: CosinePostOp"]}
{"id": "C86", "title": "Pairwise distances are the distances", "statement": "In exact arithmetic every entry returned by da_pairwise_distances is the distance of its rows by the chosen metric.", "quantifier": "all matrices, sizes, orders and metrics", "why_tests_cant": "errors at block borders need sizes beyond those of tests", "anchors": ["source/core/metrics/pairwise_distances.cpp", "source/core/metrics/metrics_kernels.hpp", "source/core/metrics/cosine_distance.cpp"]}
{"id": "C87", "title": "Distances of finite data are numbers, symmetric, zero on the diagonal", "statement": "In double precision, distances of finite data are never NaN and never negative; the distances of a matrix to itself are symmetric to the last bit with zeros on the diagonal.", "quantifier": "all finite data, sizes and schedules", "why_tests_cant": "rounding, overflow and signed zeros of all values", "anchors": ["source/core/metrics/metrics_kernels.hpp: sqeuclidean_kernel_packed_impl, manhattan_kernel_packed_impl", "source/core/metrics/cosine_distance.cpp: CosinePostOp"]}
{"id": "C88", "title": "Distances do not depend on the instruction set", "statement": "The same data give the same bits on processors with AVX2 and with AVX-512.", "quantifier": "all data and sizes", "why_tests_cant": "needs two kinds of processors and rounding differences in rare values", "anchors": ["source/core/metrics/partitioning_infrastructure.hpp: BlockSizes", "source/core/metrics/metrics_kernels.hpp"]}
{"id": "C89", "title": "Distances by products of matrices are distances", "statement": "The metrics euclidean_gemm and sqeuclidean_gemm return the Euclidean distance and its square in exact arithmetic, symmetric with a zero diagonal for a matrix and itself, and numbers that are not negative for finite data.", "quantifier": "all matrices", "why_tests_cant": "cancellation of nearly equal rows", "anchors": ["source/core/metrics/euclidean_gemm_distance.cpp: euclidean_gemm_distance, euclidean_gemm"]}
{"id": "C90", "title": "A cluster label is always the number of a cluster", "statement": "da_kmeans_compute and da_kmeans_predict (Lloyd's kernels) give every sample a label from 0 to n_clusters - 1 and load no vector from outside the row of distances, even if distances are NaN or infinite.", "quantifier": "all values of the distances including NaN and infinities, all numbers of clusters, all vector lengths, all contents of the padding", "why_tests_cant": "remainders of vectors combined with NaN", "anchors": ["source/core/clustering/kmeans/kmeans_kernels.cpp: lloyd_iteration_kernel_scalar, lloyd_iteration_kernel", "source/include/da_kernel_utils.hpp: get_padding"]}
{"id": "C91", "title": "The label is that of the nearest centre", "statement": "A sample gets the label of a nearest centre, on every processor, on a fresh and on a reused handle; the choice among equally near centres does not depend on the processor.", "quantifier": "all data without NaN, all vector lengths, all earlier uses of the handle", "why_tests_cant": "ties and values left in padding by earlier calls", "anchors": ["source/core/clustering/kmeans/kmeans_kernels.cpp", "source/core/clustering/kmeans/kmeans.cpp: init, predict"]}
{"id": "C92", "title": "The centres are the means of the clusters", "statement": "In exact arithmetic every iteration of Lloyd's algorithm returns as centres the means of the samples of each cluster, whatever the number of threads, the distribution of the blocks and the order of the storage.", "quantifier": "all data, labels, block sizes, distributions of blocks over threads", "why_tests_cant": "needs all schedules and all remainders", "anchors": ["source/core/clustering/kmeans/kmeans_lloyd.hpp: lloyd_iteration, lloyd_iteration_update_centres", "source/core/clustering/kmeans/kmeans.cpp: scale_current_cluster_centres"]}
{"id": "C93", "title": "The result of k-means is consistent", "statement": "The labels returned are labels of nearest returned centres, the centres are means of a clustering, and means of the returned clusters if the run ended because no label changed.", "quantifier": "all data, initial centres, iteration limits, tolerances, modes for empty clusters, schedules", "why_tests_cant": "an invariant of runs of every length", "anchors": ["source/core/clustering/kmeans/kmeans.cpp: perform_kmeans, convergence_test"]}
{"id": "C94", "title": "The inertia does not increase", "statement": "In exact arithmetic the inertia returned is not larger than the sum of squares for the initial centres, and more iterations never give a larger one, also if empty clusters are split.", "quantifier": "all data, initial centres, iteration limits, schedules", "why_tests_cant": "needs all runs", "anchors": ["source/core/clustering/kmeans/kmeans.cpp: perform_kmeans, handle_empty_clusters, compute_current_inertia"]}
{"id": "C95", "title": "Lloyd's algorithm converges", "statement": "In exact arithmetic, with enough iterations allowed, the run ends by convergence.", "quantifier": "all data and initial centres", "why_tests_cant": "termination is not testable", "anchors": ["source/core/clustering/kmeans/kmeans.cpp: perform_kmeans, convergence_test, handle_empty_clusters"]}
{"id": "C96", "title": "The labels of the training data are those predict returns", "statement": "da_kmeans_predict on the training data returns the labels that da_kmeans_compute returned.", "quantifier": "all data, arithmetic with rounding, all schedules", "why_tests_cant": "differences come from rounding in rare schedules", "anchors": ["source/core/clustering/kmeans/kmeans.cpp: perform_kmeans, predict", "source/core/clustering/kmeans/kmeans_lloyd.hpp: lloyd_iteration"]}
{"id": "C97", "title": "Empty clusters are handled as the option says", "statement": "With 'error' a successful run has no empty cluster; with 'split' no cluster of the result is empty if there are at least as many samples as clusters.", "quantifier": "all data and initial centres", "why_tests_cant": "clusters become empty in rare configurations only", "anchors": ["source/core/clustering/kmeans/kmeans.cpp: handle_empty_clusters, perform_kmeans"]}
{"id": "C98", "title": "Elkan's algorithm skips no nearer centre", "statement": "In exact arithmetic Elkan's algorithm returns labels of nearest returned centres; the centres are means of a clustering, and means of the returned clusters if the run ended because no label changed; it converges; the sum of squares is not larger than for the initial centres.", "quantifier": "all data, initial centres, iteration limits, tolerances, modes for empty clusters, schedules", "why_tests_cant": "an invariant on bounds over runs of every length", "anchors": ["source/core/clustering/kmeans/kmeans_elkan.hpp", "source/core/clustering/kmeans/kmeans_kernels.cpp: elkan_reduction, elkan_iteration", "source/core/clustering/kmeans/kmeans.cpp: perform_kmeans, handle_empty_clusters"]}
{"id": "C99", "title": "Every sample is treated once per iteration of k-means", "statement": "Lloyd's algorithm, Elkan's algorithm and predict treat every sample exactly once whichever blocks OpenMP gives to which thread in which order.", "quantifier": "all numbers of samples, block sizes and dynamic schedules", "why_tests_cant": "schedules cannot be forced in tests", "anchors": ["source/core/clustering/kmeans/kmeans_lloyd.hpp: lloyd_iteration", "source/core/clustering/kmeans/kmeans_elkan.hpp: elkan_iteration", "source/core/clustering/kmeans/kmeans.cpp: predict"]}
{"id": "C100", "title": "The labels of Elkan's algorithm are those predict returns", "statement": "da_kmeans_predict on the training data returns the labels that da_kmeans_compute returned with Elkan's algorithm.", "quantifier": "all data and initial centres", "why_tests_cant": "ties are rare", "anchors": ["source/core/clustering/kmeans/kmeans_elkan.hpp", "source/core/clustering/kmeans/kmeans.cpp: perform_kmeans, predict"]}
{"id": "C101", "title": "The labels of Elkan's algorithm are in range", "statement": "Every label Elkan's algorithm returns is in 0 .. n_clusters - 1 and there is one for every sample, also for data with NaN and infinities and with split clusters.", "quantifier": "all data, all arithmetic, all schedules", "why_tests_cant": "NaN makes every comparison fail in some order", "anchors": ["source/core/clustering/kmeans/kmeans_elkan.hpp", "source/core/clustering/kmeans/kmeans.cpp: handle_empty_clusters"]}
{"id": "C102", "title": "MacQueen's algorithm returns nearest labels", "statement": "In exact arithmetic MacQueen's algorithm returns labels of nearest returned centres, converges if enough iterations are allowed, and the sum of squares is not larger than for the first clusters.", "quantifier": "all data, initial centres, iteration limits, tolerances, modes for empty clusters", "why_tests_cant": "an invariant over runs of every length, on cached norms", "anchors": ["source/core/clustering/kmeans/kmeans_macqueen.hpp: init_macqueen, macqueen_iteration", "source/core/clustering/kmeans/kmeans.cpp: perform_kmeans, handle_empty_clusters"]}
{"id": "C103", "title": "MacQueen's algorithm starts from the nearest initial centres", "statement": "The clusters from which MacQueen's algorithm computes its first centres are those of the nearest initial centres.", "quantifier": "all data, initial centres and block sizes", "why_tests_cant": "the results converge from other clusters as well, so tests of the result pass", "anchors": ["source/core/clustering/kmeans/kmeans_macqueen.hpp: init_macqueen_block"]}
{"id": "C104", "title": "The labels of MacQueen's algorithm are in range", "statement": "Every label MacQueen's algorithm returns is in 0 .. n_clusters - 1 and there is one for every sample, also for data with NaN and infinities and with split clusters.", "quantifier": "all data, all arithmetic", "why_tests_cant": "NaN makes every comparison fail in some order", "anchors": ["source/core/clustering/kmeans/kmeans_macqueen.hpp", "source/core/clustering/kmeans/kmeans.cpp: handle_empty_clusters"]}
{"id": "C105", "title": "The centres of MacQueen's algorithm are means", "statement": "In exact arithmetic the centres, updated after every sample, are means of a clustering of the samples, and of the returned one if the run ended because no label changed.", "quantifier": "all data, initial centres, iteration limits, modes for empty clusters", "why_tests_cant": "an invariant of every step of every run", "anchors": ["source/core/clustering/kmeans/kmeans_macqueen.hpp: macqueen_iteration, init_macqueen", "source/core/clustering/kmeans/kmeans.cpp: perform_kmeans"]}
{"id": "C106", "title": "The best k-means run is returned", "statement": "If da_kmeans_compute succeeds the centres, labels, inertia and number of iterations are all those of one of the runs made, none of which has a smaller inertia; the status is da_status_maxit exactly if that run has not converged.", "quantifier": "all numbers of runs, outcomes with NaN and infinite inertia, runs with empty clusters, handles used before", "why_tests_cant": "needs runs whose inertia overflows", "anchors": ["source/core/clustering/kmeans/kmeans.cpp: compute (lines 715-783), get_result"]}
{"id": "C107", "title": "k-means calls in any order read no memory outside the arrays", "statement": "Whatever order options are set, data and initial centres are given, computations succeed or fail and results are asked for, no call on a k-means handle reads outside the arrays of the user or of the handle.", "quantifier": "all sequences of calls", "why_tests_cant": "sequences are unbounded; reads outside an array often go unnoticed", "anchors": ["source/core/clustering/kmeans/kmeans.cpp: set_data, set_init_centres, compute, get_result, predict", "source/core/utilities/options_public.cpp"]}
{"id": "C108", "title": "The information on a k-means run stays with its results", "statement": "As long as the handle returns the centres and labels of a computation, da_rinfo returns the inertia and the number of iterations of that computation.", "quantifier": "all handles that have been trained", "why_tests_cant": "tests set the options first", "anchors": ["source/core/clustering/kmeans/kmeans.cpp: refresh, get_result", "source/core/utilities/options_public.cpp", "source/core/utilities/da_handle.cpp: get_current_opts"]}
{"id": "C109", "title": "A coordinate-descent step minimises the elastic net in its coordinate", "statement": "In exact arithmetic the value the step function returns for a coordinate minimises the elastic-net cost over that coefficient, the others being kept, for every scaling, with both penalties and an intercept (on centred data for scaling none and centering).", "quantifier": "all data, penalties, coefficients, coordinates", "why_tests_cant": "a minimum over a continuum", "anchors": ["source/core/linear_model/linmod_nln_optim.cpp: stepfun_linreg_glmnet, stepfun_linreg_sklearn"]}
{"id": "C110", "title": "Coefficients no step changes minimise the elastic net", "statement": "In exact arithmetic coefficients that every step returns unchanged have the smallest cost of all coefficients.", "quantifier": "all data, penalties, scalings, coefficients", "why_tests_cant": "a minimum over a continuum of many dimensions", "anchors": ["source/core/linear_model/linmod_nln_optim.cpp: stepfun_linreg_glmnet, stepfun_linreg_sklearn"]}
{"id": "C111", "title": "Coordinate descent never ends above its start", "statement": "In exact arithmetic the coefficients returned have at most the cost of the starting coefficients, however the run ends (convergence, iteration limit, slow progress), whatever coordinates are skipped and whenever the residual is recomputed.", "quantifier": "all data, penalties, scalings, options, starting points, run lengths", "why_tests_cant": "runs of any length with skipping and restarts", "anchors": ["source/core/optimization/coord.hpp: coord, coord_rcomm", "source/core/linear_model/linmod_nln_optim.cpp: stepfun_linreg_glmnet, stepfun_linreg_sklearn"]}
{"id": "C112", "title": "Convergence of coordinate descent means a minimum within the tolerance", "statement": "If coordinate descent reports convergence, the cost of the coefficients returned is at most \"optim coord optimality tol\" above that of any coefficients.", "quantifier": "all data, penalties, scalings, options, starting points", "why_tests_cant": "the optimality measure is only computed, never compared with the true distance", "anchors": ["source/core/optimization/coord.hpp: coord, coord_rcomm", "source/core/linear_model/linmod_nln_optim.cpp: stepchk_linreg_dualgap"]}
{"id": "C113", "title": "Objective and optimality reported by coordinate descent belong to the coefficients returned", "statement": "The objective and the optimality measure in da_rinfo are those of the coefficients returned.", "quantifier": "all data, penalties, scalings, options, ways to end", "why_tests_cant": "needs a run that ends on each of the ways, compared with recomputed values", "anchors": ["source/core/optimization/coord.hpp: coord", "source/core/linear_model/linmod_nln_optim.cpp: stepchk_linreg_dualgap, stepfun_linreg_glmnet", "source/core/linear_model/linear_model.cpp: fit_linreg_coord"]}
{"id": "C114", "title": "A run at the minimum is recognised as converged", "statement": "At a minimiser the optimality measure of coordinate descent is (up to rounding) zero, so the run ends by converging.", "quantifier": "all data, penalties, scalings", "why_tests_cant": "tests look at the coefficients, which are right", "anchors": ["source/core/linear_model/linmod_nln_optim.cpp: stepchk_linreg_dualgap", "source/core/optimization/coord.hpp: coord"]}
{"id": "C115", "title": "Success of a coordinate-descent fit means a minimiser", "statement": "If da_linmod_fit returns da_status_success with the coordinate-descent solver, the coefficients minimise the cost up to the tolerances.", "quantifier": "all data, penalties, scalings, intercepts, iteration limits", "why_tests_cant": "warnings are cleared, so callers cannot tell", "anchors": ["source/core/linear_model/linear_model.cpp: fit_linreg_coord, validate_options", "source/core/linear_model/linmod_nln_optim.cpp: stepfun_linreg_sklearn"]}
{"id": "C116", "title": "Statistics read every entry of their slice once", "statement": "Each value returned by da_mean, da_variance, da_moment etc. is built from every entry of its row, column or matrix exactly once, and from no memory outside the n_rows x n_cols matrix, whatever the storage order, leading dimension and number of threads.", "quantifier": "all orders, axes, sizes, leading dimensions, team sizes, orders of arrival of the threads", "why_tests_cant": "block shapes change only beyond 1024/2048/32768 elements and with the number of threads", "anchors": ["source/core/basic_statistics/moment_statistics.cpp: recursive_sum, recursive_sum_vector, full_sum, sum_axis_aligned, sum_axis_misaligned, da_sum"]}
{"id": "C117", "title": "Mean, variance and central moments are the documented ones", "statement": "In exact arithmetic da_mean, da_variance (with the documented meaning of dof) and da_moment return the textbook values, so they depend neither on the storage order nor on the number of threads.", "quantifier": "all data, sizes, dof, moments", "why_tests_cant": "tests compare a few matrices", "anchors": ["source/core/basic_statistics/moment_statistics.cpp: mean, variance, moment, power"]}
{"id": "C118", "title": "Skewness and kurtosis are the documented ones", "statement": "In exact arithmetic da_skewness and da_kurtosis return mean, variance and the documented ratio of moments, and 0 and -3 for constant data.", "quantifier": "all data and sizes", "why_tests_cant": "tests compare a few matrices", "anchors": ["source/core/basic_statistics/moment_statistics.cpp: skewness, kurtosis"]}
{"id": "C119", "title": "Geometric and harmonic means are means", "statement": "da_geometric_mean of positive data is the n-th root of their product; da_harmonic_mean is n over the sum of inverses, and lies between the smallest and the largest datum for nonnegative data.", "quantifier": "all data without negative entries", "why_tests_cant": "zeros are a corner case of their own", "anchors": ["source/core/basic_statistics/moment_statistics.cpp: geometric_mean, harmonic_mean, inverse_sum"]}
{"id": "C120", "title": "Standardized data have mean 0 and variance 1", "statement": "After da_standardize with computed statistics every column (row, matrix) has mean 0 and variance 1, or 0 if it was constant, in exact arithmetic, and the arrays hold its mean and standard deviation.", "quantifier": "all data, orders, axes, dof", "why_tests_cant": "infinitely many matrices", "anchors": ["source/core/basic_statistics/statistical_utilities.cpp: standardize", "source/core/basic_statistics/row_to_col_major.cpp"]}
{"id": "C121", "title": "Standard deviations about supplied means", "statement": "If da_standardize is given means and a scale array of zeros it computes the standard deviations about those means with the documented degrees of freedom.", "quantifier": "all data, means, axes, dof", "why_tests_cant": "a path of its own, for one combination of arrays and dof", "anchors": ["source/core/basic_statistics/statistical_utilities.cpp: standardize"]}
{"id": "C122", "title": "Standardization can be undone", "statement": "da_standardize with mode 1 and the shift and scale arrays returned by mode 0 restores the data (exact arithmetic).", "quantifier": "all data, including constant columns", "why_tests_cant": "constant data make every scale zero", "anchors": ["source/core/basic_statistics/statistical_utilities.cpp: standardize"]}
{"id": "C123", "title": "Logistic regression minimises the penalised negative log-likelihood", "statement": "The objective handed to the solver equals the negative log-likelihood of the documented class probabilities plus the l1 and l2 penalties on the coefficients of all classes (intercepts excluded), for both constraints.", "quantifier": "all data, labels in range, numbers of classes, coefficients, penalties", "why_tests_cant": "an objective of real coefficients; tests compare fitted values with reference values produced by the same code", "anchors": ["source/core/linear_model/linmod_nln_optim.cpp: objfun_logistic_two_class, objfun_logistic_rsc, objfun_logistic_ssc, regfun"]}
{"id": "C124", "title": "A vanishing gradient means an optimal logistic model", "statement": "The gradient handed to the solver is the slope of that cost at every point, whether or not the solver announces a new point; where it vanishes no other coefficients have a smaller cost.", "quantifier": "all data, points, both values of xnew", "why_tests_cant": "a statement about all points and all directions; the library's own solver exercises one value of xnew", "anchors": ["source/core/linear_model/linmod_nln_optim.cpp: objgrd_logistic_two_class, objgrd_logistic_rsc, objgrd_logistic_ssc, reggrd"]}
{"id": "C125", "title": "The symmetric side constraint is kept", "statement": "With \"logistic constraint\" = ssc and no l1 penalty, coefficients whose sum over the classes is 0 for every feature and the intercept keep that sum along every step in the direction of the gradient.", "quantifier": "all data, starting points with zero sums, step lengths", "why_tests_cant": "relates every iterate of every run", "anchors": ["source/core/linear_model/linmod_nln_optim.cpp: objgrd_logistic_ssc", "source/core/linear_model/linmod_options.hpp: logistic constraint"]}
{"id": "C126", "title": "da_linmod_evaluate_model predicts the most likely class", "statement": "The class predicted by a logistic model is the class of largest documented probability for that sample (the first of several).", "quantifier": "all coefficients and samples, both constraints, two or more classes", "why_tests_cant": "depends on the sign and the size of the scores", "anchors": ["source/core/linear_model/linear_model.cpp: evaluate_model"]}
{"id": "C127", "title": "Logistic coefficients have the layout reported", "statement": "The array returned for da_linmod_coef is the matrix of nrow_coef x ncol_coef coefficients, one row per class with the intercept last, in the storage order of the handle; a starting point is read in the same layout, so feeding the result back restarts from it.", "quantifier": "all numbers of classes and features, both constraints and storage orders", "why_tests_cant": "tests compare whole arrays with stored arrays in one layout", "anchors": ["source/core/linear_model/linear_model.cpp: get_coef, fit_impl", "source/core/utilities/basic_handle.cpp: copy_2D_results_array"]}
{"id": "C128", "title": "Scaled regression data is what the documentation says", "statement": "For every \"scaling\" the data handed to a linear regression solver is the user's data shifted and divided as in the table of scaling types, and fitting data with a constant feature or a constant response gives finite coefficients.", "quantifier": "all data, solvers, scalings, with and without intercept", "why_tests_cant": "the scaled data is internal, and the tests compare coefficients for a few data sets", "anchors": ["source/core/linear_model/linear_model.cpp: preprocess_data, revert_scaling", "doc/Algorithms/linear_models/linear_models.rst: Linear model data scaling types"]}
{"id": "C129", "title": "Scaling does not change which problem is solved", "statement": "The coefficients returned by a linear regression fit, in the user's units, minimise the documented cost (the mean squared error with lambda times the elastic net penalty), whichever solver and scaling is chosen.", "quantifier": "all data, alpha, lambda, solvers and scalings that are accepted", "why_tests_cant": "minimality over all coefficients cannot be tested; stored results only cover chosen data", "anchors": ["source/core/linear_model/linear_model.cpp: fit_impl, preprocess_data, revert_scaling", "doc/Algorithms/linear_models/linear_models.rst: cost function"]}
{"id": "C130", "title": "The direct regression solvers solve the regression problem", "statement": "An exact solution of the system the Cholesky, conjugate gradient, SVD or QR solver sets up gives coefficients with the least penalised sum of squares, with fewer or more samples than features.", "quantifier": "all data, lambda, with and without intercept", "why_tests_cant": "minimality over all coefficients", "anchors": ["source/core/linear_model/linear_model.cpp: setup_xtx_xty, fit_linreg_cholesky, fit_linreg_cg, fit_linreg_svd, fit_linreg_qr"]}
{"id": "C131", "title": "Scaled coefficients and starting points keep their meaning", "statement": "The coefficients returned by a fit predict, for every sample, what the scaled model predicts for the scaled sample; coefficients passed to da_linmod_fit_start describe the same model to the solver as to the user.", "quantifier": "all data, coefficients, samples and scalings", "why_tests_cant": "an iterative solver converges from any starting point, so a wrong start is not noticed in results", "anchors": ["source/core/linear_model/linear_model.cpp: revert_scaling, scale_warmstart, fit_impl"]}
{"id": "C132", "title": "The objective and the gradient for L-BFGS-B regression belong together", "statement": "The objective L-BFGS-B minimises for a linear regression is the penalised mean squared error, the gradient is its slope, and where the gradient vanishes the coefficients returned are optimal.", "quantifier": "all data, coefficients and penalties", "why_tests_cant": "a gradient test samples points", "anchors": ["source/core/linear_model/linmod_nln_optim.cpp: objfun_mse, objgrd_mse, regfun, reggrd"]}
{"id": "C133", "title": "A fit of a linear model does what its options say", "statement": "On a new handle, da_linmod_fit uses the solver and scaling set (or the documented automatic choice), fails for exactly the combinations documented as incompatible, passes alpha, lambda and the intercept on unchanged, and after a numerically failed Cholesky factorisation retries with SVD on the same problem.", "quantifier": "all data shapes, storage orders, models and option values, all outcomes of the solvers", "why_tests_cant": "a product of all solvers, scalings, shapes and failures; the solver call is internal", "anchors": ["source/core/linear_model/linear_model.cpp: fit, validate_options, choose_method, get_required_scaling, do_preprocessing, fallback_oracle"]}
{"id": "C134", "title": "The outcome of a linear model fit does not depend on earlier fits of the handle", "statement": "After any sequence of option changes, da_linmod_define_features, da_linmod_select_model and da_linmod_fit, a fit gives what a new handle with the same options, data and model would give.", "quantifier": "all call sequences and solver outcomes", "why_tests_cant": "relates two histories of unbounded length", "anchors": ["source/core/linear_model/linear_model.cpp: read_options, refresh, reset_data, define_features, select_model, fit"]}
{"id": "C135", "title": "A linear model is fitted to the user's data", "statement": "Every solver call is made on the data defined last, scaled once as chosen, with the alpha, lambda and intercept set last, also in a retry and after earlier fits.", "quantifier": "all call sequences and solver outcomes", "why_tests_cant": "the data seen by the solver is internal, and a second scaling shows only for particular sequences", "anchors": ["source/core/linear_model/linear_model.cpp: fit, fit_impl, do_preprocessing, prep_matrix_x, preprocess_data, select_model"]}
{"id": "C136", "title": "The loss reported for a linear model belongs to the options", "statement": "The penalty in the loss returned by da_linmod_evaluate_model is weighted by the options alpha and lambda, whichever solver and scaling produced the model.", "quantifier": "all solvers, scalings and penalties", "why_tests_cant": "tests check the loss for unregularised models or against stored values", "anchors": ["source/core/linear_model/linear_model.cpp: evaluate_model, fit_impl"]}
{"id": "C137", "title": "The working set of SVM training is full and holds the most violating pair", "statement": "In every round of da_svm_compute the working set consists of distinct dual variables, is as large as asked for, and contains the variable with the smallest gradient among those that may rise and the one with the largest among those that may fall.", "quantifier": "all kernels, responses, C, tolerances, working set sizes and rounds; any sort order of equal gradients", "why_tests_cant": "the working set is internal, and a wrong choice only slows or stalls training on particular data", "anchors": ["source/core/svm/c_svm.cpp: outer_wss", "source/core/svm/base_svm.cpp: compute, compute_ws_size"]}
{"id": "C138", "title": "SVM coefficients are always feasible", "statement": "Whenever da_svm_compute stops, each dual coefficient is between 0 and C and the coefficients weighted with the responses add up to 0.", "quantifier": "all kernels (also indefinite ones), responses, options and numbers of iterations", "why_tests_cant": "every path of the two nested loops", "anchors": ["source/core/svm/c_svm.cpp: local_smo", "source/core/svm/base_svm.cpp: compute"]}
{"id": "C139", "title": "SVM training keeps the exact gradient and never gets worse", "statement": "After every round the gradient kept by the solver is the gradient of the dual objective at the current coefficients, and the objective is not larger than before the round.", "quantifier": "all symmetric kernels, also indefinite ones; all responses and options", "why_tests_cant": "internal state; slow loss of accuracy only shows in the final model", "anchors": ["source/core/svm/c_svm.cpp: local_smo, update_gradient", "source/core/svm/svm_kernels.cpp: wssi_kernel, wssj_kernel"]}
{"id": "C140", "title": "SVM training that ends by its tolerance has found an optimum", "statement": "When da_svm_compute ends because the tolerance is met, no pair of dual variables violates the optimality conditions by the tolerance or more, and the dual objective is within size * C * tolerance of its minimum.", "quantifier": "all positive semidefinite kernels, data and options", "why_tests_cant": "optimality quantifies over all other coefficients", "anchors": ["source/core/svm/base_svm.cpp: compute, compute_ws_size", "source/core/svm/c_svm.cpp: outer_wss, local_smo, set_bias"]}
{"id": "C141", "title": "An SVM respects margins at the training samples", "statement": "After training by tolerance, a classified sample with coefficient below C has a margin of at least 1 - tol, one with a positive coefficient of at most 1 + tol, and a regression prediction is within epsilon + tol of the target on each side whose coefficient is below C.", "quantifier": "all kernels, data and options", "why_tests_cant": "tests compare predictions with stored values on a few data sets", "anchors": ["source/core/svm/c_svm.cpp: set_bias, set_sv, initialisation", "source/core/svm/base_svm.cpp: decision_function"]}
{"id": "C142", "title": "A multi-class SVM predicts a class that wins most comparisons", "statement": "For more than two classes da_svm_predict returns a class that wins the largest number of one-against-one comparisons, and of several such classes the one with the smallest label.", "quantifier": "all numbers of classes and all decision values", "why_tests_cant": "needs ties and all orders of classes", "anchors": ["source/core/svm/svm.cpp: set_data, predict"]}
{"id": "C143", "title": "One-versus-rest decision values agree with the predicted class", "statement": "The class with the largest one-versus-rest value returned by da_svm_decision_function is the class da_svm_predict returns.", "quantifier": "all numbers of classes and all decision values", "why_tests_cant": "fails only for ties of votes, which test data avoid", "anchors": ["source/core/svm/svm.cpp: decision_function, predict"]}
{"id": "C144", "title": "SVM class probabilities are a distribution that fits the pairwise probabilities", "statement": "da_svm_predict_proba returns positive numbers adding up to 1 for every sample, and when its iteration ends by its test no other distribution fits the pairwise probabilities better by more than 0.02 divided by the number of classes.", "quantifier": "all numbers of classes and all pairwise probabilities", "why_tests_cant": "an iteration over real vectors; optimality quantifies over all distributions", "anchors": ["source/core/svm/svm.cpp: predict_proba"]}
{"id": "C145", "title": "The results of a multi-class SVM are laid out by class", "statement": "After the first da_svm_compute on a handle, the support vectors of class 0 come first, then those of class 1 and so on, each class in increasing order of the sample; their numbers are the reported ones; in the column of a support vector of class c the coefficient of the classifier against class o stands in row o if o < c and o - 1 otherwise; and nothing is written outside the result arrays.", "quantifier": "all numbers of samples and classes, all labels and all coefficients", "why_tests_cant": "indexing depends on the order of classifiers, on which samples support which classifier and on the numbers for all classes", "anchors": ["source/core/svm/svm.cpp: compute", "source/core/svm/c_svm.cpp: set_sv"]}
{"id": "C146", "title": "da_svm_compute may be repeated on a handle", "statement": "Calling da_svm_compute again on a handle, with the same data and options, leaves the same results and writes only inside its arrays.", "quantifier": "all data and options", "why_tests_cant": "needs a second call with data that make the stale entries matter; the overflow is small", "anchors": ["source/core/svm/svm.cpp: compute", "source/core/svm/c_svm.cpp: set_sv", "source/core/svm/base_svm.cpp: compute"]}
{"id": "C147", "title": "The reported support vectors are samples of the user's data", "statement": "da_svm_support_vectors returns, for each support vector, exactly the row of the user's matrix with the reported index.", "quantifier": "all storage orders and leading dimensions", "why_tests_cant": "leading dimensions larger than the number of rows are untested", "anchors": ["source/core/svm/svm.cpp: compute, set_data"]}
{"id": "C148", "title": "The search for cells finds the cell of every point", "statement": "da_interpolation_search_cells returns for every point the only cell that contains it, the first one for points left of all sites and the last one for points right of them, for uniform and other sites.", "quantifier": "all numbers and positions of sites, all points", "why_tests_cant": "an index combined with bisection; wrong cells show up only for special spacings of the sites", "anchors": ["source/core/interpolation/interpolation_generic.hpp: set_sites_1d, set_sites_uniform_1d, search_cells"]}
{"id": "C149", "title": "A cubic spline is the interpolating spline with the boundary conditions asked for", "statement": "The natural, clamped and custom splines pass through all values, have continuous first and second derivatives and the derivatives asked for at both ends, and are the only piecewise cubics that do; the Hermite spline has the values and slopes passed.", "quantifier": "all numbers of sites, sites, values and boundary conditions", "why_tests_cant": "quantifies over all data and over all other splines", "anchors": ["source/core/interpolation/cubic_spline/cubic_spline.cpp: initialize_system, compute_*_spline, coeffs_from_second_derivatives"]}
{"id": "C150", "title": "A cubic polynomial is reproduced", "statement": "If the values are those of a cubic polynomial and its first or second derivatives are the custom boundary conditions, evaluation at any point gives the value of the polynomial.", "quantifier": "all cubic polynomials, sites, orders of the boundary conditions and points", "why_tests_cant": "all polynomials and points", "anchors": ["source/core/interpolation/cubic_spline/cubic_spline.cpp: compute_custom_bc_spline, evaluate"]}
{"id": "C151", "title": "The orders of da_interpolation_evaluate", "statement": "The values returned for order 1, 2 and 3 are the derivatives of the spline, and block k of y_eval holds the derivative of order orders[k].", "quantifier": "all lists of orders", "why_tests_cant": "tests use increasing orders without repetition", "anchors": ["source/core/interpolation/cubic_spline/cubic_spline.cpp: evaluate, spline_eval, bitset_to_sequence"]}
{"id": "C152", "title": "Calls on an interpolation handle agree on their data", "statement": "Whatever accepted calls precede it, da_interpolation_interpolate uses the sites, values, derivatives and boundary conditions passed, with their leading dimensions, and reads nothing outside these arrays.", "quantifier": "all sequences of calls", "why_tests_cant": "needs sequences of calls with different dimensions, leading dimensions, or after a refused call", "anchors": ["source/core/interpolation/interpolation_generic.hpp: set_sites_1d, set_sites_uniform_1d, set_values_1d", "source/core/interpolation/cubic_spline/cubic_spline.cpp: set_boundary_conditions, interpolate"]}
{"id": "C153", "title": "An approximate-neighbours index holds the rows added, under their numbers", "statement": "After training, the lists of the index hold every row added exactly once, in the list of a nearest centroid, and the indices returned by a search number the rows in the order in which they were added.", "quantifier": "all sequences of calls that set data, train, add and search", "why_tests_cant": "tests train a handle once", "anchors": ["source/core/approximate_neighbors/approximate_neighbors.cpp: set_training_data, train, train_ivfflat, add, add_ivfflat, train_and_add"]}
{"id": "C154", "title": "A search of the index returns the nearest rows of the lists probed", "statement": "da_approx_nn_kneighbors returns the k rows nearest to the query among the lists of the n_probe nearest centroids, in order of distance; with n_probe = n_list these are the exact k nearest neighbours.", "quantifier": "all indices, queries, k, n_probe and block sizes", "why_tests_cant": "all data, blockings and ties", "anchors": ["source/core/approximate_neighbors/approximate_neighbors.cpp: kneighbors, ivfflat_search_query_parallel, update_heaps_from_list_blk, ivf_search"]}
{"id": "C155", "title": "Calls on an approximate-neighbours handle stay in bounds", "statement": "No sequence of calls of da_approx_nn_set_training_data, train, add, kneighbors and changes of options accesses a list of the index that was not allocated.", "quantifier": "all sequences of calls", "why_tests_cant": "needs a refused training between accepted calls", "anchors": ["source/core/approximate_neighbors/approximate_neighbors.cpp: read_training_options, train, check_options_update, add_ivfflat, kneighbors"]}
{"id": "C156", "title": "Training uses the share of the rows asked for", "statement": "Whenever the index is trained, k-means is given the share of the training rows set by \"train fraction\", at least n_list of them.", "quantifier": "all sequences of trainings and options", "why_tests_cant": "tests train a handle once", "anchors": ["source/core/approximate_neighbors/approximate_neighbors.cpp: train_ivfflat, subsample_training_data"]}
{"id": "C157", "title": "Covariance matrices hold the covariances", "statement": "Entry (i, j) of the result of da_covariance_matrix is the sum over the rows of the products of the deviations of columns i and j from their means (of the values themselves if the data is declared centred), divided by n, n-1 or dof as documented. The matrix is symmetric and positive semidefinite, its diagonal is the variance da_variance reports, elements of the array outside the p by p matrix are untouched, and refused arguments leave the array as it was.", "quantifier": "all matrices, shapes, leading dimensions, storage orders, dof and numbers of threads (exact arithmetic)", "why_tests_cant": "tests compare a few small matrices with stored results", "anchors": ["source/core/basic_statistics/correlation_and_covariance.cpp: cov_corr_matrix, covariance_matrix"]}
{"id": "C158", "title": "Correlation matrices hold the correlations", "statement": "The result of da_correlation_matrix has ones on its diagonal, is symmetric, has every entry between -1 and 1, and entry (i, j) is the covariance of columns i and j over the product of their standard deviations, or 0 if one of the columns is constant; elements of the array outside the p by p matrix are untouched.", "quantifier": "all matrices, shapes, leading dimensions, storage orders and numbers of threads (exact arithmetic)", "why_tests_cant": "tests compare a few small matrices with stored results", "anchors": ["source/core/basic_statistics/correlation_and_covariance.cpp: cov_corr_matrix, correlation_matrix"]}
