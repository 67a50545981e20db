# Design

A Rocq (Coq 8.16.1) model of the discrete parts of AOCL Data Analytics, with proofs of the
properties in `properties.jsonl`.

## Layout

`rocq/theories/` holds, per modelled area `X`:

* `XModel.v`    definitions only, each citing the file and lines of `/repo` it transcribes;
* `XSpec.v`     (when needed) a small independent specification;
* `XProofs.v`   lemmas;
* `XTheorems.v` property theorems, each closed by `exact <lemma>`, followed by `Print Assumptions`
  and by an `Example` meeting its hypotheses.

`MANIFEST.json` maps properties to theorem names, `seeded/LOG.jsonl` logs the mutation tests.

## Conventions

* Undefined behaviour (out of bounds access, end-iterator dereference, signed overflow,
  non-termination) is a distinct outcome of the model, never a normal value.
* `da_int` and `size_t` are unbounded integers unless the property is about overflow.
* Allocation is assumed to succeed (`std::bad_alloc` paths are not modelled) except where stated.
* External routines (BLAS/LAPACK, `std::nth_element`, random engines, libm) are parameters of the
  theorems, constrained only by their documented contract.
* A property found to be false of the code is recorded by a theorem ending in `_refuted`, which
  exhibits a concrete witness, together with the strongest positive statement we could prove.

## Plan per property

Status is in `MANIFEST.json`. "refuted" means that the code does not have the property and a theorem
exhibits a witness.

| Property | Modelled code | How proved |
|---|---|---|
| C01, C04, C05 | `OptionRegistry::set/get/register_opt/lock`, `OptionNumeric::set`, `OptionString::set` over a finite map | registry refines an abstract map name -> value; induction over histories |
| C02 | `OptionBase::validate`, `OptionNumeric::set` on numbers extended with NaN | invariant by induction |
| C03 | `prep_str` on character lists | idempotence; equality with an inductive "same spelling" relation |
| C06, C07 | `da_error_t` vector, `rec`, `clear`, getters | invariant over histories; getter on empty trace refuted |
| C08, C09 | serialisation of a universe of types (scalars, nested containers) to byte lists | structural induction, round trip, size; decoder as checked reads |
| C10 | registry save/load on top of the two above | round trip; bounds after load of foreign bytes refuted |
| C11, C12, C49, C50 | LRU cache: list of (key, slot), map key -> node, slot store; its use by the SVM solver | refinement to a recency list; duplicate insertion refuted; all interleavings of the locked parts |
| C13, C14, C51, C52 | `da_vector` with explicit buffer and capacity | refinement to lists; moved-from, failed growth and own element refuted |
| C15, C53 | `split_*` loops as sequences of writes to a memory function; size checks on 32/64-bit integers | pointwise characterisation; any interleaving of the parallel writes; overflow refuted |
| C16, C54, C55 | Fisher-Yates with an arbitrary stream; stratified split in Flocq double arithmetic | permutation by induction; rounding error bounds; counting of outcomes |
| C17, C18 | `interval_set` as a sorted list of intervals (std::map) | representation invariant and membership; erase: positive lemma and refutation |
| C19-C22 | `data_store` blocks, column map, row chains, selections | refinement to a matrix with named selections; refutations for the defects found |
| C23 | label maps | exact characterisation over all histories; refutations |
| C24, C25, C58, C60 | `char_to_num` over character lists with bounded arithmetic as a checked operation, doubles from Flocq | equivalence with a grammar + value; no overflow outcome; exactness of the digit loop; relative error bounds composed over the loop and the scaling (C60) |
| C26-C28, C59 | tokenizer state machine with the capacities of its arrays, `parse_file`, `populate_data_array` | the machine computes a fold over the characters with unbounded memory; capacity budget per character; round trip by induction over the written text; refutations |
| C29 | `detect_columns`, `convert_csv_columns_to_blocks`, text conversion | per-column induction over rows against the kind of all fields; permutation of rows; composed with the reader; refutations |
| C30, C31, C57 | blocked loops as lists of copies, `store_2D_array`, `copy_2D_results_array` | bijection of loop nests on index pairs, any interleaving |
| C56 | blocking and indices of `da_qr` | arithmetic of the block sizes; tall blocks refuted above 1024 columns |
| C32 | `check_data` on Flocq binary formats | IEEE reasoning |
| C33 | `quantile` with `nth_element` as an oracle | partial sort invariant |
| C34 | `idx_sorting.cpp`: introspective, heap and bucket sort, counting of repeated indices | loop invariants over positions; counting by value; the order of doubles from Flocq |
| C35-C38, C61-C64 | partition loops, growing, split search on raw data and histograms, tree descent | contract of the search (permutation, sides, minimum) proved for the code and used in the invariant of the growing; exact scan of sorted values; IEEE lemma on midpoints; refutations |
| C39, C65-C67 | loops over blocks and trees as threads of buffer writes, reads and atomic additions | every division of the iterations and every interleaving; the count of votes by commutation |
| C68 | thresholds, bins and their search over an abstract arithmetic | error bounds of the accumulated quantiles; disjoint stores; refuted for floats by computation |
| C69, C70 | brute force: candidates per block and thread, merge, sort, over an abstract arithmetic | "k smallest" is kept by every insertion and merge; refutation for indices |
| C71-C75 | k-d tree: building, boxes, radius and k searches, heap; choice of the algorithm in DBSCAN | tree invariant; order properties of the arithmetic, proved for integers and IEEE doubles with Flocq; refutations by computation |
| C76 | handle of nearest neighbours between calls: options, data, trees, flags | invariant over all histories; refutations by computation |
| C77-C80 | votes, weights, probabilities, labels in double precision; queries without neighbours | exact counts, monotone rounding; rows of the array; refutations by computation |
| C81-C83 | results of radius searches, brute force in a radius, flags of the results | lists and permutations; refutations by computation |
| C84-C88 | packed loops of pairwise distances over partial memories, kernels, post-operations | writes on disjoint blocks composed through the five loops; real numbers; IEEE doubles with Flocq (fused multiply-add); refutations from the general theorem |
| C89 | distances by products of matrices, entry by entry | algebra; refutation by computation for any BLAS |
| C90, C91 | label kernels of k-means, scalar and with any number of lanes, padding included | lane invariants, order of doubles by Flocq; refutations by computation |
| C92-C95 | Lloyd's iteration (blocks, threads, four accumulators), loop, convergence test, splitting of empty clusters, inertia | exact arithmetic: sums by cluster, decreasing sum of squares, finitely many labellings; one refutation for every iteration limit |
| C96 | the same loop over any arithmetic | invariant of the loop; refutation by computation with doubles |
| C97 | handling of empty clusters | pigeonhole for splitting; refutations by computation |
| C98, C100 | Elkan's algorithm: bounds, half distances, the loop with empty clusters | triangle inequality, invariant on the bounds, descent of the sum of squares; refutations in double precision by computation |
| C99 | calls made for the blocks of samples by the threads of a team | blocks partition the samples; induction on a thread's blocks |
| C101 | Elkan's algorithm over an abstract arithmetic | induction on the run |
| C102, C103, C105 | MacQueen's algorithm: first labels, one step per sample with cached norms, the loop with empty clusters | invariant: centres are the means of the labels, counts are exact; descent of the sum of squares at every step; refutations in double precision by computation |
| C104 | MacQueen's algorithm over an abstract arithmetic | induction on the run |
| C106 | choice of the best of the runs in `compute`, runs as outcomes | induction on the runs; transitivity of < on doubles; refutation with runs of the model of Lloyd's algorithm in double precision |
| C107, C108 | calls of one handle as a state machine | invariant: sizes of the result vectors; refutations by computation |
| C109, C110 | step functions of coordinate descent (`CdModel`), arithmetic as a parameter | exact arithmetic: the step value satisfies the optimality conditions of one coordinate; all of them together give a minimiser (subgradient inequality) |
| C111 | solver loop with skip ledger, restarts and all ends | invariant over the turns: residual kept in step with the coefficients, cost at most that of the start |
| C112-C115 | dual gap, reported values, `fit_linreg_coord` | exact arithmetic: weak duality; refutations by runs in double precision |
| C116-C119 | `da_sum` and its blocks, threads and tree reduction; `mean`, `variance`, `moment`, `skewness`, `kurtosis`, `geometric_mean`, `harmonic_mean` | sums over an arbitrary commutative monoid, with the natural numbers to count reads; textbook statistics over the reals; the harmonic mean of data with a zero is refuted by a run |
| C120-C122 | `standardize`, `row_to_col_major` | exact arithmetic: affine maps of means and variances; refutations by runs in double precision |
| C123-C125 | objectives and gradients of the logistic models (`LogModel.v`) | exact arithmetic with the real exp and log: log-sum-exp and its tangent; counterexamples for the reference category and for `xnew` |
| C126 | class predictions of `evaluate_model` | exact arithmetic; counterexamples in double precision with any exp that overflows at 710 |
| C127 | `get_coef`, starting coefficients, `copy_2D_results_array` | index arithmetic |
| C128 | `preprocess_data` (`LinModel.v`) | exact arithmetic: sums over indices; counterexamples in double precision |
| C129 | `fit_impl`: scaling of lambda, `revert_scaling` | exact arithmetic: the solver's cost is a multiple of a cost in the user's units; centred data have intercept 0 |
| C130 | `setup_xtx_xty`, `fit_linreg_cholesky`, `_cg`, `_svd`, `_qr`, with LAPACK as hypotheses | exact arithmetic: the residual is orthogonal to the features up to the penalty, convexity |
| C131 | `revert_scaling`, `scale_warmstart`, starting coefficients | exact arithmetic, counterexample |
| C132 | `objfun_mse`, `objgrd_mse` | exact arithmetic: tangents of a convex function |
| C133 | `fit`, `validate_options`, `choose_method`, `get_required_scaling`, `do_preprocessing`, `prep_matrix_x` | case analysis against an independent description; the solver is an oracle |
| C134, C135 | the handle over any sequence of calls | invariant over histories; refutations by short histories |
| C136 | `evaluate_model` weights, rescaling of lambda | refutation; cases where lambda is kept |
| C137 | `outer_wss`, `compute_ws_size`, indices kept between rounds | the two scans of the sorted order pass every variable; extremes are taken first when two places are free |
| C138, C139 | `local_smo`, scatter, `update_gradient`, the training loop over the rationals | invariant over rounds; a pair step lowers the quadratic model |
| C140 | the stopping test | gap at the return implies near optimality (convexity); refutation by three samples |
| C141 | `set_bias`, `set_sv`, decision values | average of free gradients, middle of the extremes |
| C142, C143 | votes, `predict`, one-versus-rest values | counting of pairs; the confidence term is below 1/3; refutation by a cycle of three classes |
| C144 | `predict_proba`: pairwise matrix, iteration | invariant (positive, sum 1, kept products exact); convexity |
| C145 | `svm::compute` after training: counting, columns, rows | all writes characterised; pairs before (i, j) counted; columns of classes disjoint |
| C146 | the same with what a handle keeps between calls | witnesses: growing counts, stale entries taken for support vectors, norms added up; first call proved |
| C147 | copy of the support vectors | direct; witness with a larger leading dimension |
| C148 | index of the sites, bisection, uniform cells | invariant of the bisection; index entries bracket their targets |
| C149, C150 | tridiagonal system, boundary rows, coefficients of the pieces, Hermite pieces | equations from the rows; any spline meets the same equations; diagonal dominance gives uniqueness |
| C151 | `spline_eval`, set of orders | Taylor identity; sorted lists; witnesses |
| C152 | what a handle keeps between calls: steps, dimensions, layout of the values | invariant for calls that agree; witnesses |
| C153 | the lists of the inverted file index and what train and add do to them | invariant: list j is the rows whose nearest centroid is j; witness for a second training |
| C154 | search of one query with the heaps of the nearest neighbours | heaps keep the smallest entries offered; with all lists probed these are all rows |
| C155 | the calls on a handle, with accesses to lists that do not exist as an outcome | invariant while no training fails; witness |
| C156 | the number of rows given to k-means | arithmetic; witnesses for a second training |
| C157 | covariance matrices over the reals, on the model of standardize | entries of each stage; Gram matrices |
| C158 | correlation matrices, likewise | Cauchy and Schwarz |
| C40, C41 | DBSCAN serial and parallel | graph invariants; interleaving semantics; refutation |
| C42 | block enumeration of the triangle | bijection |
| C43, C44, C45, C46, C47, C48 | public entry points on handles, model files | case analysis over all handle states and histories |

## Code modelled

Every definition cites file and lines. In short, with the simplifications made:

* Options (`OptionsModel.v`): `options.hpp`, `options.cpp`. Strings are lists of byte values; the hash map
  is an association list. Numbers are an abstract ordered type with NaN.
* Errors (`ErrorModel.v`): `da_error.hpp`. Message formatting is abstract.
* Model files (`PersistModel.v`, `RegistryModel.v`): `serialization`, `da_handle`
  save and load. Scalars are byte blocks of their size; per-algorithm field lists are abstract except
  where named.
* Handles (`HandleModel.v`): `da_handle*.cpp`, guards of the public calls. Algorithms are abstract
  records of the operations the guards use.
* Cache (`CacheModel.v`): `cache` of the SVM solver. Columns are abstract values; the OpenMP lock makes
  the two critical parts of `put` atomic.
* `da_vector` (`VecModel.v`): buffer, size and capacity explicit; allocation failure modelled where the
  property is about it.
* Split and shuffle (`SplitModel.v`, `ShuffleModel.v`): `train_test_split`, `get_shuffled_indices`. The random
  engine is an arbitrary stream within its range.
* Intervals and data store (`IntervalModel.v`, `StoreModel.v`): `interval_set`, `data_store.hpp` except the
  CSV entry points. `std::shared_ptr` chains are node numbers in a heap, so that aliasing and cycles are
  visible. Blocks own their data (`copy_data` and user-owned arrays behave alike). Invalidated iterators
  after a rehash of `std::unordered_map` are not modelled. Column map lookups use the `interval_map` of
  the code as a list in key order.
* Array utilities (`UtilModel.v`, `QrModel.v`): `da_utils.cpp` (transposition, blocking schemes, `check_data`,
  `check_1D_array`, `check_2D_array`), `basic_handle.cpp` (`store_2D_array`, `copy_2D_results_array`),
  the blocking and index arithmetic of `da_qr.hpp`. Arrays are functions from positions; elements of the
  data check are Flocq doubles. LAPACK is external.
* Numbers in CSV text (`CsvNumModel.v`): `char_to_num.hpp` for `int64_t`, `int32_t` and `double`. The `float`
  version (same text with another table) is not modelled.
* CSV files (`CsvTokModel.v`): `tokenizer.c`, `read_csv.hpp`. The token stream is the list of its words plus the
  number of bytes used; capacities are explicit. `quoting`, `usecols`, `expected_fields`, `header_end` and the line
  limit have the values the library always uses. The list of skipped lines (warnings) and the headings are not
  modelled; the file is the list of chunks that `read_bytes` delivers.
* Column types (`CsvDetectModel.v`): `auto_detect_csv.hpp`, the conversions to `uint8_t` and text of
  `char_to_num.hpp`, `convert_csv_columns_to_blocks`. A column of text holds words, not pointers.
* Quantiles (`QuantModel.v`): `order_statistics.cpp`. Positions are IEEE doubles; the data are any type with a
  comparison, the mean and the interpolation of two elements are given functions, `nth_element` and `sort` are any
  functions meeting their contracts. The adjustment of positions for float data (`denoise_cast`) is left out.
* DBSCAN (`DbscanModel.v`): the clustering step of `dbscan.cpp`, from given neighbour lists. The parallel loop is any
  interleaving of its atomic accesses; the unsynchronised stores to `duplicate_labels` are taken as atomic.
* Radius search (`RadiusModel.v`): `radius_neighbors_brute` of `radius_neighbors.cpp`. The block numbers go through IEEE
  doubles as in the code; distances are given exact functions; each block goes to some thread, in any order.
* Sorting of samples (`SortModel.v`): `idx_sorting.cpp`. The indices and values are one array of pairs (the code swaps
  both at once); every access is checked. `std::sort` is any function meeting its contract.
* Decision trees (`TreeModel.v`, `TreeSearchModel.v`, `TreeTrainModel.v`): `decision_tree_training_*.hpp` with one thread
  for the splits, `predict` and `predict_proba` of one sample. The vector of nodes is a list; values are doubles without
  fused operations; the scoring function is any function of the counts; each random draw is any number in its range;
  bins and thresholds are given. The depth limit of the sort is any number.
* Decision forests (`ForestModel.v`): `decision_forest_inference.hpp` (predict, score, predict_proba and the division of the
  buffer between threads) and `compute_thread_distribution`; the trees are functions from samples to classes or probabilities.
  Not modelled: bootstrap draws and seeds, `predict_log_proba`, overflow of 32-bit sizes.
* Histograms (`HistModel.v`): `compute_thresholds` over an arbitrary arithmetic (instances for both precisions), `compute_histograms`
  with the stores of the features interleaved, the search for bins. The sort is an arbitrary sorted arrangement; the scratch
  array of each thread is taken as private; floating contraction is not modelled. `compute_thresholds_continuous` is used only by tests.
* `NnModel.v`: `nearest_neighbors.cpp` brute force, `nearest_neighbors_kernels.cpp` (scalar loop and the vector loop as a filter of blocks
  of lanes), `binary_tree.cpp/.hpp`: `build_tree`, bounding boxes, `radius_neighbors`, `k_neighbors`, `MaxHeap`; the choice of the algorithm
  in `dbscan.cpp`. Not modelled: the ball tree, BLAS (distances of brute force are given), the copy into the output arrays,
  `std::pow` (a contract).
* NnSessionModel.v: nearest_neighbors.cpp lines 293-512 and 932-960, 1913: which data, metric and square root an answer is computed
  with.  Data are numbers of calls, trees are pointers to data; the neighbours themselves are not computed here.
* NnPredictModel.v: classification by k neighbours and by radius (lines 1021-1594), get_result for radius searches (lines 209-285,
  2274-2325), radius search by brute force (lines 2096-2237) in double precision.  cblas_iamax returns the first largest absolute value.
  The regression targets and the transposition of row-major results are not modelled.
* PairModel.v: `partitioning_infrastructure.hpp` (packing, five loops, dispatch), the kernels of `metrics_kernels.hpp` lane by lane,
  the checks and the dispatch of `pairwise_distances.cpp`, CosinePostOp and the norms of `cosine_distance.cpp`, `euclidean_gemm_distance.cpp`
  entry by entry. Blocks of rows of LoopThree run in any order but one at a time (they write different rows); a buffer holds unknown
  values when a block or slice starts. `cblas_nrm2`, `std::pow`, BLAS products are parameters. Prefetches, alignment and
  failed allocations are left out; C++ integers do not overflow.
* KmModel.v: k-means with the Euclidean distance: the label kernels of `kmeans_kernels.cpp` lane by lane; `lloyd_iteration`,
  `lloyd_iteration_update_centres`, `scale_current_cluster_centres`, `perform_kmeans`, `convergence_test`, `handle_empty_clusters`,
  `compute_current_inertia` over any arithmetic.  A distribution of blocks over threads and the order in which threads pass the lock
  are inputs.  External: gemm, lange, isfinite.  Left out: spherical k-means, mixed precision, column-major addition order of the inertia.
* KmElkanModel.v: Elkan's algorithm, `kmeans_elkan.hpp`: `compute_centre_half_distances`, `init_elkan`, `elkan_iteration_assign_block`,
  `elkan_iteration`; the reduction and bound kernels of `kmeans_kernels.cpp`; the loop of `perform_kmeans`; the sharing of blocks among
  threads, also of `lloyd_iteration` and `predict`.  A value (`None`) stands for infinity in the distances to the next centre.
  External: euclidean_gemm_distance, fused multiply-add, horizontal sums, lange, isfinite.  Left out: spherical k-means; the
  lanes of elkan_iteration_kt.
* KmMacModel.v: MacQueen's algorithm, `kmeans_macqueen.hpp`: `init_macqueen`, `init_macqueen_block`, `macqueen_iteration`, and its loop in
  `perform_kmeans`. Left out: the spherical variant, the storage orders, the order of the additions inside cblas_gemm.
* KmSessionModel.v: `kmeans.cpp`: `refresh`, `set_data`, `set_init_centres`, `compute` (choice of the best run, checks, sizes of the result
  vectors), `get_result`, the reads of `predict`. A run is its outcome. Left out: the work arrays, mixed precision, the options that do not change sizes.
* Coordinate descent (`CdModel`): `coord`, `coord_rcomm` (coord.hpp), both step functions, the objective and the dual gap
  (linmod_nln_optim.cpp), the choice between them and the status in `fit_linreg_coord`. Left out: bounds, time limit, monitor, printing,
  the wider type used for `_Float16`, storage order, errors of the callback; sums are taken from the first element on.

* Moment statistics (`MomModel.v`): moment_statistics.cpp except _Float16 (the `wider_t` buffers), null pointers, allocation
  failure and overflow of `da_int`; the simd reduction of a run of elements is taken left to right and the theorems use only
  additions that may be reordered.  In one round of the tree reduction all additions are done at once (their cells are disjoint).
  `standardize` of statistical_utilities.cpp.

* Logistic regression (`LogModel.v`): linmod_nln_optim.cpp lines 138-539, evaluate_model and the copies of the coefficients in
  linear_model.cpp.  Not modelled: the L-BFGS-B solver (any solver that finds a zero of the gradient is covered by C124), the
  rounding of the responses to labels, labels out of range (documented as a precondition), non-finite data.

* Linear regression (`LinModel.v`): `preprocess_data` for every scaling, `revert_scaling`, `scale_warmstart`, the lambda and the
  starting coefficients of `fit_impl`, `setup_xtx_xty`, the parts of the direct solvers around LAPACK, `objfun_mse`, `objgrd_mse`.
  Not modelled: copies, storage orders and the transposition for QR (`prep_matrix_x`), mixed precision, LAPACK, the conjugate
  gradient iteration, L-BFGS-B; the dual starting point of conjugate gradients; rounding, except in the counterexamples.
* `LinSess*`: linear_model.cpp `read_options`, `refresh`, `reset_data`, `define_features`, `select_model`, `fit`, `fallback_oracle`,
  `validate_options`, `choose_method`, `get_required_scaling`, `requires_*`, `do_preprocessing`; of `prep_matrix_x`, `preprocess_data`
  and `fit_impl` which copy, scaling and layout X and y have (not their entries), and the rescaling of lambda. The numerical
  solvers are one oracle. Not modelled: mixed precision, the hidden setting that forces a retry, loading a model, allocation failures.
* `SvmModel.v`: `csvm::outer_wss`, `local_smo`, `update_gradient`, `set_bias`, `svc/svr::initialisation`, `base_svm::compute` and `compute_ws_size`, working set selection kernels (scalar versions), decision values; over exact rationals. The kernel matrix is a parameter, sorting is any correct sort, `tau` any positive number. Not modelled: nu-SVM, vectorised kernels, warm starts of the gradient, mixed precision, multiclass handling.
* `SvmClassModel.v`: order of the one-against-one classifiers, votes, `svm::predict` and `decision_function` for several classes, and the coupling iteration of `predict_proba`; over exact rationals. The decision values and the sigmoid are parameters. Not modelled: the cross-validation and Newton iteration that fit the sigmoid (`compute_probabilities`).

* `SvmResultModel.v`: `set_sv` as far as the sets of support vectors go, the counting loops of `svm::compute`, the writes to `support_coefficients`, `support_indexes` and `support_vectors`, the squared norms, all with the state kept between two calls. Coefficients are a parameter; not modelled: regression results, mixed precision.

* `SplineModel.v`: all of `interpolation_generic.hpp` and `cubic_spline.cpp` except options, error messages and result queries: sites and their index, `search_cells`, the tridiagonal systems, coefficients of the pieces, Hermite pieces, evaluation of all orders, dimensions kept by the handle. `gtsv` is an assumption; rounding (also of the index targets in `set_sites_1d`) is not modelled.
* IvfModel: approximate_neighbors.cpp (the inverted file index): `set_training_data`, `read_training_options`, `train`,
  `train_ivfflat`, `check_options_update`, `add`, `add_ivfflat`, `kneighbors`, `ivfflat_search_query_parallel`,
  `update_heaps_from_list_blk`.  Rows are opaque and distances a function of two rows; k-means is a parameter that returns
  n_list centroids.  One query at a time; lists in blocks as in the code.  Not modelled: storage orders, normalisation for
  cosines, the transposition, roots and signs of the answers, block sizes chosen from the cache, results, serialization.
* CovModel.v: source/core/basic_statistics/correlation_and_covariance.cpp, all of it (`cov_corr_matrix` and its two
  callers), on MomModel's `standardize`. `da_syrk` is a definition of what it documents (a triangle of alpha X^T X, the
  sum taken from the first row on); null pointers and failed allocation are not modelled. The copy of the data is a
  function of all addresses of which only the n by p entries are used. CovSpec.v states means, covariances and
  correlations on the entries (row, column) of the data.

## Defects found

Each is a theorem ending in `_refuted` unless marked (reading only).

* C07: asking for the last error message of an empty trace reads outside the vector.
* C10: option values loaded from a file are not validated.
* C12: updating a cached key leaves a duplicate node; its eviction removes the mapping of the update.
* C14, C51, C52: `da_vector` growth after a move, after a failed allocation, and when pushing its own element.
* C18: `erase` of a range strictly enclosing the whole set does nothing.
* C19: a row block shared by several column blocks corrupts the chains (wrong element, endless loop);
  partial row blocks of different heights are accepted; elements of an incomplete row can be addressed.
* C20: row-major extraction of several column intervals writes outside its temporary array or returns
  unwritten elements; leading dimensions too small for the whole selection are accepted.
* C21: no complete row left means all rows are extracted; `valid_rows` is read one past its end when the
  last row is incomplete; on an empty store a missing selection is dereferenced.
* C22: a block refused in the middle of a row reduces the row count.
* C23: a label given twice keeps its first column; after `horizontal_concat` the label table is too short.
* C25: text after a number is ignored (`12abc` is 12); the exponent overflows an `int` (`1e2147483648`).
* C60: leading zeros count among the 17 digits kept: `0.00000000000000001` is read as 0; `0e309` is refused.
* C26: text fields lose their trailing blanks, even quoted ones.
* C29: a text that starts with a number (`12abc`) makes a floating column, one that starts with `true` and a blank a
  boolean column; a file without fields reads the first of no columns.
* C27: a byte order mark at the start of a later chunk of the first line is dropped; with empty lines skipped, blanks
  before a chunk boundary are lost.
* C28: a failure of the tokenizer is dropped by `parse_file`: an unterminated quoted field loses its line, padding of
  short lines makes the parser run out of space and lose lines, a CR-separated file can be re-read from its start;
  short lines are padded with empty fields; the field before the first delimiter after a CR-ended comment is lost.
* C59: padding uses up the token stream; a word at its end has no terminating 0 and is read past the allocation.
* C33: a NaN among the requested quantiles passes the range check and its position is converted to an integer.
* C31: `tall_skinny_blocking_scheme` returns more blocks than its documented maximum.
* C32: `check_data` reports infinities and some finite numbers from 2^53 on as NaN (`x == x + 1`).
* C56: with more than 1024 columns the QR row blocks can be wider than tall: `tau` is written past its end and
  the saved triangle mixes rows of two blocks (3071 x 1500, 64 threads).
* C41: the parallel method keeps one link per sample: later links overwrite earlier ones, so one cluster is split
  (samples 0, 2, 1, radius 1, min_samples 2), and links through samples that are not core samples merge clusters.
* C42: the Minkowski metric with power 2 compares squared distances with the radius itself (samples 0 and 2, radius 2:
  no neighbours); if the OpenMP team is smaller than requested, the lists of missing threads are read.
* C35: if all samples of a node are on the left side of its split the last one is split off, and this happens when the
  threshold between adjacent doubles rounds up; with histograms the bins of padded data (ldx > n_samples) are read at wrong
  places or outside the array.
* C36: training uses `<=` and prediction `<`: a sample equal to its threshold is predicted by the other side; one-vs-all
  splits of bins compare the value with the number of the bin.
* C37: samples tied at the start are counted twice when the minimum is 3 or more; one-vs-all splits mix weighted and
  unweighted counts.
* C38: `predict_proba` and `predict_log_proba` ignore one-vs-all splits.
* C63: a feature found constant in a node is taken for constant in its sibling.
* C64: the depth is not reset when training again; a tree that is only a root has 0 leaves.
* C39: the vote buffer has min(threads, iterations) parts but the loop runs with all threads and no schedule clause; an
  OpenMP implementation may give an iteration to a thread without a part.
* C65: the probabilities are added atomically in any order: two calls may return different values.
* C66: the score of a `float` forest is counted in a `float` and stops at 2^24.
* C68: for `float` data the quantiles 1/max_bin are added up with rounding errors: more thresholds than reserved can be made, the
  last one is stored in the part of the next feature or behind the array (1000 bins, 100000 samples).
* (reading only) values closer than 1e-5 always share a bin, whatever the scale of the data; the status of `compute_histograms` is ignored.
* (reading only) `predict_log_proba` of a forest ignores the status of `predict_proba` (an untrained forest returns success
  and the logarithms of what the output held); a refused call of set_training_data has already freed the data; `abs` of
  a random integer used as seed can be negative; parallel training of a tree picks among features of equal score by thread.
* (reading only) labels are not checked against a given number of classes; with bootstrap a second training draws only as
  many samples as there were distinct ones in the first; categories are not checked against the number given.
* C70: of equally distant samples, which ones are returned by brute force depends on the schedule.
* C73: the heap is filled with the largest finite number and index 0: samples whose distance overflows are reported as index 0.
* C74: for `euclidean_gemm` the trees take the root of a negative rounded square: NaN for close neighbours far from the origin.
* C75: DBSCAN with the automatic algorithm hands squared Euclidean and cosine distances to the k-d tree, which compares them with the
  wrong bound: neighbours beyond the radius are reported.
* (reading only) `binary_tree.cpp` reads `A_norms[i]` for the number of the query before testing that queries are samples: out of
  bounds with more queries than samples; `kneighbors_compute_kd_tree` ignores the status of `k_neighbors`; a team of
  fewer threads than asked for leaves empty vectors that are read.
* C76: `is_euclidean`-like flags are never reset, so after a Euclidean metric the distances of other metrics have roots taken; refused
  data free the row-major copy that is read afterwards; options set after the data are ignored without an error.
* C77: predict does not compare the number of neighbours with the number of samples: empty places vote for sample 0; labels set a
  second time are voted on by the old classes.
* C78: with weights by distance a neighbour at distance 0 counts 1 and one at distance 0.1 counts 10.
* C80: radius classification with a manual label writes at the label instead of its place among the classes.
* C81: radius counts are read beyond their array if the caller's array is larger than needed; `nn_classes` likewise.
* C82: radius search with `euclidean_gemm` does not clamp negative squares: NaN distances.
* C83: a refused radius search changes the flags of the results kept: roots taken twice or not at all.
* C85, C86, C87: cosine distances to more than 1024 rows use the norms of other rows: the operation behind a block of 1024 columns gets
  the block but the norms from the beginning. For a matrix and itself the diagonal is not zero and entries off it are.
* C88: Euclidean distances differ between AVX2 and AVX-512 (sizes of slices); rounding only.
* C89: `euclidean_gemm` distances are not clamped: NaN for nearly equal rows such as 0.3 and 0.300000001.
* C91: equally near centres: scalar code takes the first, vector code the first of the first lane (`j mod lanes`): labels depend on the processor.
* C91: padding of `workcs1` is resized but not cleared when a handle is used again; NaN or minus infinity there makes the vector kernel
  lose the smallest distance of a lane (`min` returns the second operand), so finite data get labels of centres that are not nearest.
* C95, C97: option "split": two equal samples and two clusters are split and merged for ever, and a cluster of the result is empty.
* C97: option "error": the labels computed after the last change of the centres are not checked; success with an empty cluster.
* C96: with several threads the sums are formed in different orders in different iterations; at convergence by unchanged labels the
  labels returned need not be those of the returned centres (515 samples, 2 threads).
* C98: after empty clusters are split Elkan's algorithm goes on with the half distances of the centres before the split
  (`kmeans.cpp` lines 1316-1323 reset the other bounds only): converged, with a sample at distance 3 of its centre and 1 of another.
* C99: `kmeans_elkan.hpp` (lines 293-308, 391-404) and `predict` do not set `block_size` back after the short last block; a thread given
  another block afterwards, which schedule(dynamic) permits, leaves samples untreated.
* C100: a sample with two nearest centres keeps its label with Elkan's algorithm and can get another one from predict.
* C102: `init_macqueen` leaves in `workc1` the squared norms of the initial centres and `macqueen_iteration` uses them with the new centres
  (`kmeans_macqueen.hpp` lines 65-80, 204-215): a run converges with labels that are not those of nearest centres.
* C103: `init_macqueen_block` line 137 reads `workcs1[i - block_index]` instead of `workcs1[(i - block_index) * ldworkcs1]`: the value compared
  for cluster 0 belongs to another sample and cluster.
* C106: `compute` line 743 keeps a run only if its inertia is smaller than infinity (or nothing is stored): with `n_init` > 1, the default,
  finite data whose squares overflow give zero centres and labels with success; with `n_init` = 1 the results of an earlier computation.
* C107: `compute` reads the initial centres with the present number of clusters and features (lines 666-673), and stores `n_clusters` before
  the checks (line 372; `set_init_centres` too), so that results of an earlier computation are read with the wrong size.
* C108: `refresh`, called whenever an option is set, zeroes `best_inertia` and `best_n_iter` but leaves the model trained.
* C112, C113: with scaling "standardize" and "scale only" `stepfun_linreg_glmnet` updates the residual at the beginning of the next step,
  so objective and dual gap (which take the residual as it is) are those of the coefficients before the last change. A run can report
  convergence with a negative gap for coefficients that miss the tolerance, and after the iteration limit objective and gap are stale.
* C112: `coord_rcomm` drops a change of at most 2 epsilon from the coefficient, but `stepfun_linreg_sklearn` has already taken it out of the
  residual: a feature of magnitude 2^60 gets coefficient 0, and convergence, objective 0 and gap 0 are reported (true cost 1/2).
* C113, C115: a run stopped for slow progress never evaluates the objective: da_rinfo shows infinity. `fit_linreg_coord` clears the warnings,
  so slow progress and the iteration limit are reported as success.
* C114: without a penalty `stepchk_linreg_dualgap` multiplies the dual variable by 0/|X'r|: the gap is the objective itself unless X'r is exactly
  0, so least squares by coordinate descent ends by "slow progress".  With "scale only" the penalty is multiplied by n_samples though the data
  are already divided by its root: at the minimiser the gap stays (n-1)/n l1 |coef|.
* C115: with scaling "none" and an intercept `stepfun_linreg_sklearn` divides the intercept step by 1 instead of n_samples and applies the
  soft threshold to it: y = 2 - x is fitted with intercept 4.
* Not a property of its own: "coord restart" 0 is a division by zero in `coord_rcomm` (not reachable from the linear model).
* C119: `harmonic_mean` leaves zeros out of the sum of inverses but counts them in the numerator: the mean of 0 and 1 is 2
  (moment_statistics.cpp line 73).
* C121: `standardize` with supplied means and a zero scale array multiplies the second moment by the number of results, and
  takes the degrees of freedom from it, instead of the number of observations (statistical_utilities.cpp lines 78-97, 196-203):
  wrong for dof >= 0, and infinite for one column or axis_all with dof = 0, after which all data are 0.
* C122: `standardize` of constant data returns zero scales; undoing it with mode 1 takes the zeros as a request to compute
  the deviations (by the formula of C121) and yields NaN.
* C123: `objfun_logistic_rsc` and `objgrd_logistic_rsc` pass `nfeat` to `regfun` and `reggrd`: with a reference category and three
  or more classes only the coefficients of the first class are penalised, and the objective may have no minimum although lambda > 0.
* C124: `objgrd_logistic_ssc` with `xnew` starts `sumexp` from exp(-maxexp) (a term of the reference category); the gradient is
  wrong there.  The bundled solver passes 0.
* C126: predictions under the symmetric side constraint start the search from value 0: if all scores are negative class 0 is
  predicted.  A fit from zeros keeps the sums at 0 (C125); a fit from a user's starting point does not.  With a reference category
  the exponentials are not shifted: scores above 709 give quotients that are not numbers and class 0.
* C127: with a reference category the solver stores the coefficients class by class, and `get_coef` and the starting point treat the
  array as column-major with one row per class: entry (1, 0) of the matrix handed out is coefficient 1 of class 0.
* C128: with scaling "standardize" the standard deviation 0 of a constant feature is kept as its scale; `standardize` does not divide by
  it, but `revert_scaling` does: the coefficient and the intercept are NaN and the status is success.
* C128: with scaling "scale only" a constant response is divided by 0; the solver works on NaN.
* C128: the table of the documentation has the factor 1/sqrt(N) for "standardize"; the code does not.
* C129: ridge regression (alpha = 0) without scaling or with centering minimises the cost with lambda/(2 N) instead of the documented
  lambda/2 (the internal documentation mentions a discontinuity at alpha = 0). With "scale only" it is lambda/(2 N) at alpha = 0 and
  lambda/(2 s_Y) in the limit, though comment and internal documentation say that they agree.
* C130: `fit_linreg_svd` compares singular values with 1e2 eps max(S[0], 1): without a penalty, data around 1e-16 and smaller get
  coefficients 0.
* C131: with "scale only" and an intercept `scale_warmstart` and `revert_scaling` leave out sqrt(n_samples) at the intercept: the
  solver starts from another model than the one passed.
* C134: `fit` writes the automatically chosen solver and scaling into the options "optim method" and "scaling", where later fits
  take them for the user's. After one automatic fit, setting alpha and lambda for a lasso fails with "incompatible options"
  (`method_sticks_refuted`); after fitting tall data with an intercept, wide data is refused (`scaling_sticks_refuted`). A retry
  with SVD is written back too: new data is then refused although solver and scaling were set by the user (`retry_sticks_refuted`).
* C135: `select_model` does not reset the prepared data. After a linear regression with scaling and L-BFGS, selecting the logistic
  model fits the scaled X and takes the scaled response for class labels (`model_switch_refuted`).
* C136: `evaluate_model` weighs the penalty with the member lambda as rescaled for the solver (`reported_loss_refuted`).
* C140: with three dual variables (three samples, default options) the working set has two places, of which one is kept and the
  other is always filled from the variables that may rise. Training of x = (-3, -2, 1) with labels (+, -, -), linear kernel, C = 1
  ends "by tolerance" with a violation of 3/2 and misclassifies x = -2, although the classes are separable
  (`trained_optimal_refuted`). The same happens for any data with "max_ws_size" 2; 0 and 1 are accepted too and never move a
  coefficient (`small_working_set_untrained`), with status success.
* C143: when several classes have the most votes, `predict` returns the smallest label but the one-versus-rest values are ordered
  by the summed decision values, so the largest of them can belong to another class (`ovr_agrees_refuted`).
* C146: `da_svm_compute` called twice on a handle. `n_support_per_class` of a classifier is only ever increased
  (c_svm.cpp:320-323, base_svm.cpp:288), so the reported numbers double for two classes. For several classes
  `support_indexes_pos` and `support_indexes_neg` grow, their new entries are 0, and sample 0 of the pair is counted
  as a support vector of the wrong class: with labels (2, 0, 1, 2) and support vectors 1, 2, 3 the second call writes
  column 4 of arrays with 4 columns (heap overflow). `x_norm_aux` (base_svm.cpp:236) is added to and not reset, so the
  second call trains with doubled squared norms in the RBF kernel.
* C147: `support_vectors` is read with stride `nrow` instead of the leading dimension (svm.cpp:749): wrong values for
  column-major data with gaps.
* C151: `da_interpolation_evaluate` collects the orders in a set of bits (cubic_spline.cpp:532-541): for orders (1, 0)
  the values come first and the derivatives second, and for (2, 2) the second block of `y_eval` is never written.
* C152: `set_sites_uniform_1d` resizes `dx` (interpolation_generic.hpp:220), which keeps entries left by a refused call
  of `set_sites_1d`; the spline is then built with wrong steps. The leading dimension of the values is checked and then
  ignored (lines 295-313). `set_values_1d` with order 1 changes the number of dimensions without a look at the values
  (lines 277-281), and boundary conditions are not checked against values passed later: `interpolate` reads past the end
  of `dy`, `y` or `left_bc`.
* C153: `train` of the approximate nearest neighbours empties the lists but resets neither `n_index` nor `data_is_added`
  (only `set_training_data` does, approximate_neighbors.cpp:195-196): after a second `da_approx_nn_train_and_add` rows are
  numbered from the old count on, so the indices returned belong to no row, and more neighbours may be asked for than
  there are rows (`index_numbering_refuted`).
* C155: `read_training_options` stores n_list before it checks it (lines 240 and 260), and a refused training leaves
  `model_trained` set: the next `add` or `kneighbors` finds the options unchanged and indexes lists that were never
  allocated (`failed_training_refuted`).
* C156: `n_samples_train` is multiplied by the train fraction at every training (line 381) and set only by
  `set_training_data`: a second training uses a fraction of a fraction, and after the fraction is set back to 1 k-means,
  whose own checks are switched off, can be asked for more clusters than rows (`training_rows_refuted`,
  `clusters_within_rows_refuted`).
* C44, C47: handles whose type names no algorithm dereference a null pointer when loaded or saved.
* C46: a row-major one-column matrix with ldx > 1 is saved as if contiguous.
* C48: a refused option change has already discarded the trained model.
* C53: train_size + test_size overflows in the check that should reject it.
* (reading only) quantiles of type 3 resolve ties to the even position counted from 0, other libraries from 1.
* (reading only) `skipped_lines` is not cleared by `parser_reset`; `parse_headings` uses the caller's column count when
  the data were refused; the byte order mark test reads three bytes of shorter chunks.
* (reading only) with 32-bit `da_int` the radius search overflows `8 * k + 1` and `n_blocks * n_blocks` on large data;
  neighbour lists left by a failed DBSCAN computation are appended to by the next one.
* (reading only) `preallocate_buffer` drops the status of `add_size`; a failing cache `put` loses slots; an
  `order` value other than the two enumerators makes the split return success without writing;
  `store_2D_array` prints the row count in the message about the column count; moved blocks keep the error pointer of the destroyed store after `horizontal_concat`.

## Trusted base

The Coq kernel; the transcription of the C++ into Gallina (each definition cites its source);
and, per theorem, what `Print Assumptions` lists (printed beneath each theorem).
The axioms below come from the standard library (through Flocq's real numbers); none is our own.

<!-- assumptions -->
Closed under the global context (no axiom): all claimed theorems except those listed next.

Using the standard library axioms `ClassicalDedekindReals.sig_forall_dec`:

`index_numbering_refuted`

Using the standard library axioms `ClassicalDedekindReals.sig_forall_dec`, `FunctionalExtensionality.functional_extensionality_dep`:

`brute_force_finds_the_nearest`, `brute_force_finds_the_largest`, `brute_force_distances_reproducible`, `kd_tree_holds_every_sample`, `kd_tree_radius_search`, `kd_tree_radius_search_exact`, `kd_tree_finds_the_nearest_partial`, `km_label_same_on_all_cpus_partial`, `rsc_coefficients_refuted`, `scale_only_path_refuted`, `index_holds_rows_partial`, `search_finds_the_nearest_probed`, `exhaustive_search_exact`

Using the standard library axioms `ClassicalDedekindReals.sig_forall_dec`, `ClassicalDedekindReals.sig_not_dec`, `FunctionalExtensionality.functional_extensionality_dep`:

`pairwise_exact`, `pairwise_cosine_exact_partial`, `euclidean_gemm_exact`

Using the standard library axioms `ClassicalDedekindReals.sig_forall_dec`, `ClassicalDedekindReals.sig_not_dec`, `Classical_Prop.classic`, `FunctionalExtensionality.functional_extensionality_dep`:

`saved_model_reads_back`, `reading_any_options_is_safe`, `options_survive_save_and_load`, `loaded_options_in_domain_refuted`, `shuffled_indices_are_a_permutation`, `stratified_indices_partial`, `stratified_shuffle_in_bounds_partial`, `float_arithmetic_partial`, `float_text_consumed_refuted`, `float_arithmetic_refuted`, `written_file_detected`, `number_prefix_refuted`, `boolean_prefix_refuted`, `empty_line_refuted`, `check_data_finds_nan`, `check_data_arguments`, `check_data_exact_partial`, `check_2D_array_exact_partial`, `check_data_only_nan_refuted`, `quantiles_are_order_statistics_partial`, `five_point_summary_correct`, `quantile_input_checked`, `quantile_nan_refuted`, `intro_sort_correct`, `heap_sort_correct`, `partition_correct_partial`, `partition_all_left_refuted`, `training_splits_off_a_sample_refuted`, `histogram_leading_dimension_refuted`, `training_sample_reaches_its_leaf_partial`, `training_sample_predicted_as_its_leaf_partial`, `whole_numbers_separated`, `training_sample_predicted_elsewhere_refuted`, `one_vs_all_bins_predicted_elsewhere_refuted`, `minimum_size_partial`, `minimum_size_refuted`, `weighted_categories_refuted`, `predicted_class_most_probable_partial`, `predicted_class_not_most_probable_refuted`, `radius_blocks_complete`, `radius_search_partial`, `dbscan_brute_serial_partial`, `minkowski_two_refuted`, `radius_small_team_refuted`, `loading_any_bytes_partial`, `loading_without_algorithm_refuted`, `stored_input_is_the_matrix`, `stored_input_copied_back`, `short_numbers_correctly_rounded`, `numbers_read_up_to_dropped_digits`, `numbers_read_accurately_partial`, `leading_zeros_refuted`, `trained_tree_is_well_grown`, `best_split_of_feature_partial`, `constant_in_sibling_refuted`, `trained_depth_partial`, `depth_and_leaves_refuted`, `forest_probabilities_partial`, `forest_probabilities_repeatable_refuted`, `pure_forest_probabilities`, `pure_forest_vote_most_probable`, `forest_vote_not_most_probable_refuted`, `forest_score_double`, `forest_score_single_refuted`, `histograms_double`, `histogram_bins_of_equal_size`, `histogram_tree_predicts_its_samples`, `histogram_single_refuted`, `kd_tree_radius_search_doubles`, `kd_tree_overflow_refuted`, `algorithms_agree_partial`, `tree_gemm_distance_refuted`, `dbscan_automatic_refuted`, `knn_label_is_majority`, `knn_classifier_partial`, `knn_more_neighbours_than_samples_refuted`, `knn_new_labels_refuted`, `nearer_weighs_more_partial`, `weights_positive`, `nearer_weighs_more_refuted`, `knn_probabilities`, `knn_uniform_probabilities`, `radius_predict_none`, `radius_predict_most_frequent`, `radius_predict_manual_partial`, `radius_predict_manual_refuted`, `radius_brute_gemm_refuted`, `radius_distances_partial`, `radius_distances_refuted`, `cosine_of_many_rows_refuted`, `pairwise_nonneg`, `pairwise_symmetric`, `cosine_of_many_rows_to_themselves_refuted`, `pairwise_euclidean_same_on_all_cpus_refuted`, `euclidean_gemm_nan_refuted`, `km_label_in_range`, `km_label_smallest`, `km_label_smallest_scalar`, `km_label_same_on_all_cpus_refuted`, `km_label_after_nan_refuted`, `km_labels_nearest`, `km_centres_are_means`, `km_fit_result`, `km_inertia_decreases`, `km_more_iterations`, `km_split_fills`, `km_fit_converges_partial`, `km_split_refuted`, `km_fit_labels_are_predicted_refuted`, `km_error_on_empty_refuted`, `km_elkan_result_partial`, `km_elkan_converges_partial`, `km_elkan_inertia_partial`, `km_elkan_reduction`, `km_elkan_split_refuted`, `km_elkan_labels_are_predicted_partial`, `km_elkan_labels_are_predicted_refuted`, `km_macqueen_result_partial`, `km_macqueen_converges_partial`, `km_macqueen_nearest_refuted`, `km_macqueen_first_labels_refuted`, `km_macqueen_centres_are_means`, `km_best_run_partial`, `km_results_returned_partial`, `km_best_run_refuted`, `km_stale_results_refuted`, `km_calls_in_any_order_partial`, `km_results_after_failure_refuted`, `step_minimises_the_coordinate`, `fixed_point_minimises`, `descent_never_worse`, `report_is_true_partial`, `standardize_convergence_refuted`, `small_step_convergence_refuted`, `standardize_report_refuted`, `least_squares_convergence_refuted`, `unpenalised_gap_is_the_objective`, `scale_only_convergence_refuted`, `intercept_without_scaling_refuted`, `moments_exact`, `statistics_layout_independent`, `skewness_exact`, `kurtosis_exact`, `geometric_mean_exact`, `harmonic_mean_partial`, `harmonic_mean_refuted`, `standardized_data`, `deviation_about_supplied_means_partial`, `deviation_about_supplied_means_refuted`, `deviation_about_supplied_mean_infinite_refuted`, `reversal_restores_partial`, `reversal_of_constant_data_refuted`, `logistic_objective_is_the_cost`, `rsc_objective_partial`, `rsc_penalty_refuted`, `logistic_gradient_is_the_slope`, `rsc_gradient_is_the_slope_partial`, `logistic_stationary_point_is_optimal`, `ssc_gradient_at_a_new_point_refuted`, `symmetric_side_is_kept`, `most_likely_class_predicted`, `ssc_most_likely_class_predicted_partial`, `ssc_negative_scores_refuted`, `rsc_overflow_refuted`, `scaled_data_is_the_table`, `scaled_data_is_centred`, `coordinate_factors`, `constant_feature_refuted`, `constant_response_refuted`, `scaled_minimiser_reverts`, `unpenalised_fit`, `documented_cost_partial`, `documented_ridge_refuted`, `direct_solutions_minimise`, `direct_fit`, `coordinate_fit`, `svd_small_data_refuted`, `reverted_predictions_partial`, `warm_start_round_trip`, `warm_start_model_partial`, `warm_start_refuted`, `linreg_objective`, `linreg_gradient`, `linreg_stationary`, `covariance_exact`, `covariance_semidefinite`, `correlation_exact`, `correlation_bounded`

<!-- end assumptions -->
