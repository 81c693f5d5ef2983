{
 "claims": [
  {
   "property": "C01",
   "status": "proved",
   "theorems": [
    "C01_simple_partition_tiles",
    "C01_simple_partition_no_overflow"
   ],
   "note": "All n and thread counts; no int overflow when 2n+threads <= INT_MAX."
  },
  {
   "property": "C02",
   "status": "proved",
   "theorems": [
    "C02_load_balanced_partition_tiles"
   ],
   "note": "All non-decreasing prefix arrays."
  },
  {
   "property": "C03",
   "status": "proved",
   "theorems": [
    "C03_parMemcpy",
    "C03_parMemset",
    "C03_ranges_tile",
    "C03_large_sizes_refuted"
   ],
   "note": "Proved for sizes below 2^31 under every interleaving of byte accesses; the size_t claim is refuted by C03_large_sizes_refuted."
  },
  {
   "property": "C04",
   "status": "proved",
   "theorems": [
    "C04_prefixSum",
    "C04_prefixSumMultiple",
    "C04_back_to_back_calls_refuted"
   ],
   "note": "Every interleaving of one call. Back-to-back calls with one workspace race (refuted)."
  },
  {
   "property": "C05",
   "status": "proved",
   "theorems": [
    "C05_getInversePerm",
    "C05_isInversePerm",
    "C05_reorder_roundtrip",
    "C05_reorder_inverse_roundtrip",
    "C05_reorder_agrees_with_inverse"
   ],
   "note": "All permutations, all iteration orders."
  },
  {
   "property": "C06",
   "status": "proved",
   "theorems": [
    "C06_isPerm_complete",
    "C06_isPerm_in_range",
    "C06_isPerm_decides_distinct",
    "C06_isPerm_sound_refuted"
   ],
   "note": "isPerm decides distinctness; the permutation claim holds for in-range arrays and is refuted in general."
  },
  {
   "property": "C07",
   "status": "proved",
   "theorems": [
    "C07_make0",
    "C07_make1",
    "C07_idempotent",
    "C07_make1_make0",
    "C07_make0_make1",
    "C07_extptr_refuted"
   ],
   "note": "All matrices without extptr (the arrays listed); with extptr refuted by a witness."
  },
  {
   "property": "C08",
   "status": "proved",
   "theorems": [
    "C08_coo2csr",
    "C08_dcoo2csr"
   ],
   "note": "coo2csr with both bases, sorted or not, any order of the parallel loops; dcoo2csr with diagptr/idiag/diag"
  },
  {
   "property": "C09",
   "status": "proved",
   "theorems": [
    "C09_qsort"
   ],
   "note": "quicksort of COO.cpp: termination, permutation of pairs, sortedness, frame"
  },
  {
   "property": "C10",
   "status": "proved",
   "theorems": [
    "C10_transpose",
    "C10_entries",
    "C10_sorted",
    "C10_involution",
    "C10_twice",
    "C10_no_columns_refuted"
   ],
   "note": "All shapes with at least one column, both bases, all thread counts and interleavings; a matrix without columns is refuted by a witness."
  },
  {
   "property": "C11",
   "status": "proved",
   "theorems": [
    "C11_isSymmetric",
    "C11_base1_refuted"
   ],
   "note": "Both variants of the function, all thread counts and interleavings of the shared flag, with or without extptr; value check for duplicate-free rows. For base 1 the theorem shows that exactly the last column is left out, and a witness refutes the claim."
  },
  {
   "property": "C12",
   "status": "proved",
   "theorems": [
    "C12_hasZeroDiag",
    "C12_base1_refuted"
   ],
   "note": "Base 0, all thread counts and interleavings; base 1 refuted by a witness."
  },
  {
   "property": "C13",
   "status": "proved",
   "theorems": [
    "C13_permute",
    "C13_local",
    "C13_deterministic",
    "C13_round_trip",
    "C13_sort_pattern_refuted",
    "C13_null_assert_refuted",
    "C13_hollow_assert_refuted"
   ],
   "note": "permute with and without sorting, extptr, idiag, diagptr, NULL permutations, both bases, any thread count, both assert modes"
  },
  {
   "property": "C14",
   "status": "proved",
   "theorems": [
    "C14_permuteRows",
    "C14_base1_refuted"
   ],
   "note": "base 0 proved; base 1 refuted for every matrix"
  },
  {
   "property": "C15",
   "status": "proved",
   "theorems": [
    "C15_multiply",
    "C15_multiply_ring",
    "C15_multiply1_ring"
   ],
   "note": "Any arithmetic (exact evaluation order) and any ring; y may be w; pattern matrices; any thread count and order of the rows"
  },
  {
   "property": "C16",
   "status": "proved",
   "theorems": [
    "C16_in_place",
    "C16_wide_refuted"
   ],
   "note": "Proved when every column is below the number of rows; otherwise refuted for every matrix"
  },
  {
   "property": "C17",
   "status": "proved",
   "theorems": [
    "C17_dense",
    "C17_dense_ring",
    "C17_dense1_ring",
    "C17_base1_refuted"
   ],
   "note": "Base 0 with any strides and base 1 with unit row strides proved; base 1 row-major refuted for every matrix"
  },
  {
   "property": "C18",
   "status": "proved",
   "theorems": [
    "C18_splitLU",
    "C18_parts",
    "C18_ext1_refuted"
   ],
   "note": "Both bases, with or without extptr, any thread count and schedule; 1-based with extptr only when every row has a remote entry, otherwise refuted (last row without remote entries: out-of-bounds read)"
  },
  {
   "property": "C19",
   "status": "proved",
   "theorems": [
    "C19_symmetrised",
    "C19_determined",
    "C19_base1_refuted"
   ],
   "note": "For 0-based matrices with sorted duplicate-free rows, all interleavings; base 1 refuted (write out of bounds). A fetch-and-add and the store into the slot it reserves are one step."
  },
  {
   "property": "C20",
   "status": "proved",
   "theorems": [
    "C20_round_trip",
    "C20_injective",
    "C20_wrong_id_accepted",
    "C20_bad_file_refuted"
   ],
   "note": "File = list of bytes, doubles = any 8-byte encoding that decodes back. Round trip for both bases, all loop orders and memory contents. Also: the file ID is not checked, and an inconsistent file is read out of bounds."
  },
  {
   "property": "C21",
   "status": "proved",
   "theorems": [
    "C21_fail_base0",
    "C21_fail_base1_refuted"
   ],
   "note": "Proved for 0-based matrices, refuted for every 1-based matrix (left 0-based)."
  },
  {
   "property": "C22",
   "status": "proved",
   "theorems": [
    "C22_general",
    "C22_symmetric",
    "C22_rejects",
    "C22_too_many_refuted",
    "C22_range_refuted",
    "C22_zero_based_padded_refuted",
    "C22_zero_based_symmetric_refuted",
    "C22_unsafe_refuted",
    "C22_hang_refuted"
   ],
   "note": "Faithful loading proved for general files (from 1 or from 0, transposed, padded) and square symmetric or forced-symmetric files from 1; too few entries or a coordinate beyond the size: rejected. Refuted: too many entries (every such file), negative or edge coordinates, padding or symmetry with files from 0, reloading, empty symmetric file with padding, non-square forced symmetry, long banner words, malformed size lines. Text as byte lists; %lg is a parameter."
  },
  {
   "property": "C23",
   "status": "proved",
   "theorems": [
    "C23_round_trip",
    "C23_printable",
    "C23_any_case",
    "C23_known_words"
   ],
   "note": "All type codes, all spellings and spacings of a banner line shorter than 1024 characters."
  },
  {
   "property": "C24",
   "status": "proved",
   "theorems": [
    "C24_pool_disjoint",
    "C24_release_exact",
    "C24_blocks_aligned",
    "C24_huge_request_refuted",
    "C24_front_too_big_refuted",
    "C24_ndebug_refuted"
   ],
   "note": "for requests not exceeding the pool; larger requests and NDEBUG overflows refuted by witnesses"
  },
  {
   "property": "C25",
   "status": "proved",
   "theorems": [
    "C25_laplacian",
    "C25_unique",
    "C25_symmetric",
    "C25_flat_refuted",
    "C25_only_if"
   ],
   "note": "All sizes that agree on being 1, both bases, all loop orders; these are shown to be the only sizes with a right result, and nz = 1 with a larger nx or ny is out of bounds in every execution. Overflow of nx*ny*nz is not modelled."
  },
  {
   "property": "C26",
   "status": "proved",
   "theorems": [
    "C26_barrier_safe",
    "C26_mcrt_rounds_refuted"
   ],
   "note": "All cores, threads per core, interleavings and numbers of uses (sequential consistency). The USE_MCRT round count is refuted."
  },
  {
   "property": "C27",
   "status": "proved",
   "theorems": [
    "C27_barrier_completes",
    "C27_barrier_no_deadlock"
   ],
   "note": "All reachable states; bounded completion of every run of threads inside wait."
  },
  {
   "property": "C28",
   "status": "proved",
   "theorems": [
    "C28_first_use",
    "C28_separated",
    "C28_progress",
    "C28_single_core_refuted",
    "C28_second_use_refuted"
   ],
   "note": "First call, and every call if calls are separated (a thread starts a call only when everybody has returned from the previous one): any number of cores >= 2, threads per core, all interleavings; nobody gets stuck. Single core and overlapping second use refuted."
  },
  {
   "property": "C29",
   "status": "proved",
   "theorems": [
    "C29_listing",
    "C29_one_thread_exact",
    "C29_union_terminates",
    "C29_compress_terminates",
    "C29_union_safe",
    "C29_lost_link_refuted",
    "C29_lost_component_refuted",
    "C29_fresh_exact",
    "C29_hidden_link_refuted",
    "C29_bit_vector",
    "C29_debug",
    "C29_debug_one_thread_refuted",
    "C29_empty_matrix_refuted",
    "C29_can_finish",
    "C29_fair",
    "C29_one_thread_ends",
    "C29_exact_exists"
   ],
   "note": "Soundness of the labels and the listing for all thread counts and interleavings; exactness with one thread, and with any number of threads when every plain store uses current values; termination under fair schedules, and for every matrix an execution that finds the components; over all interleavings the converse is refuted by witness executions (one without any failed compare-and-swap), and the empty matrix by a witness. The same for the search with a bit vector; the checks of debug builds pass with two or more threads and are refuted with one."
  },
  {
   "property": "C30",
   "status": "proved",
   "theorems": [
    "C30_serial",
    "C30_parallel",
    "C30_permutation",
    "C30_whole",
    "C30_one_node_refuted",
    "C30_exists",
    "C30_one_thread_ends"
   ],
   "note": "Serial search, parallel search (any number of threads, any interleaving, all modes) and getBFSPermutation. For the permutation the component search is included (C30_whole), with one thread or when its plain stores use current values; C30_permutation assumes only its result. With one row and one thread a scratch array is overrun (refuted)."
  },
  {
   "property": "C31",
   "status": "proved",
   "theorems": [
    "C31_rcm",
    "C31_one_thread",
    "C31_fresh",
    "C31_order_reach",
    "C31_order_bfs",
    "C31_long_path_refuted"
   ],
   "note": "Result is the textbook Cuthill-McKee order per component, reversed. Components below the threshold; the components found are exact with one thread and when the plain stores of the union use current values (C31_fresh), assumed exact otherwise (C29). A path just below the threshold overruns the scratch array (refuted)."
  },
  {
   "property": "C32",
   "status": "proved",
   "theorems": [
    "C32_levels",
    "C32_defined",
    "C32_deterministic"
   ],
   "note": "Any thread count and interleaving, both bases, with or without extptr; the run is defined for at most two threads or while levels fit the queue share (overflow: C40)"
  },
  {
   "property": "C33",
   "status": "proved",
   "theorems": [
    "C33_tasks",
    "C33_defined",
    "C33_deterministic",
    "C33_zero_cost_refuted"
   ],
   "note": "Positive costs, barrier and point-to-point mode, with and without aggregation; zero costs refuted"
  },
  {
   "property": "C34",
   "status": "proved",
   "theorems": [
    "C34_covered",
    "C34_barrier",
    "C34_defined",
    "C34_deterministic",
    "C34_halo_refuted",
    "C34_barrier_reduction_refuted"
   ],
   "note": "Positive costs, both modes of transitive reduction and aggregation, with or without extptr, any thread count and interleaving of the construction. Refuted: halo columns without extptr (out-of-bounds read); barriers with transitive reduction (write outside of the reserved space)."
  },
  {
   "property": "C35",
   "status": "proved",
   "theorems": [
    "C35_reduction"
   ],
   "note": "For the constructed schedules: reduced lists are sublists and the happens-before relation is the same in both directions."
  },
  {
   "property": "C36",
   "status": "proved",
   "theorems": [
    "C36_progress"
   ],
   "note": "Any kernel with row-local writes that reads only adjacent rows; sequentially consistent interleavings; fairness for termination since waiting is busy waiting."
  },
  {
   "property": "C37",
   "status": "proved",
   "theorems": [
    "C37_p2p",
    "C37_barrier",
    "C37_backward",
    "C37_backward_exact",
    "C37_backward_refuted"
   ],
   "note": "Forward exactly the reference, point-to-point and barrier. Backward exactly the sequential sweep in the descending order of the code; equal to gsBackwardRef when the order of subtractions does not matter and refuted otherwise."
  },
  {
   "property": "C38",
   "status": "proved",
   "theorems": [
    "C38_solve_p2p",
    "C38_solve_barrier",
    "C38_solve_desc",
    "C38_ilu",
    "C38_ilu_ref_refuted"
   ],
   "note": "Solves with any part of the scheduled pattern, both directions, with and without inverse diagonal; ILU(0) equals the sequential factorisation; ilu0_ref itself refuted for base 1."
  },
  {
   "property": "C39",
   "status": "proved",
   "theorems": [
    "C39_fused_refuted",
    "C39_copy_fits",
    "C39_lists"
   ],
   "note": "The lists are proved sufficient and without needless members for every matrix and schedule. That each task finds its list is refuted with a constructed schedule (the lists overlap in the buffer); the copy is proved right when every list fits the distance to the next one."
  },
  {
   "property": "C40",
   "status": "proved",
   "theorems": [
    "C40_queue_refuted",
    "C40_two_threads"
   ],
   "note": "Refuted by a 144-row matrix with 4 threads; proved for at most two threads and for levels below the share"
  },
  {
   "property": "C41",
   "status": "proved",
   "theorems": [
    "C41_equals",
    "C41_equivalence"
   ],
   "note": "Matrices with values."
  },
  {
   "property": "C42",
   "status": "proved",
   "theorems": [
    "C42_bandwidth",
    "C42_degree"
   ],
   "note": "All thread counts and reduction orders."
  },
  {
   "property": "C43",
   "status": "proved",
   "theorems": [
    "C43_refuted",
    "C43_largest_refuted",
    "C43_printed",
    "C43_value",
    "C43_nearest",
    "C43_csr",
    "C43_coo",
    "C43_lines"
   ],
   "note": "The claim is refuted (two doubles print alike; the largest double overflows on reading). Proved instead: numbers of at most 16 digits are restored and all doubles up to 1e308 are restored to one unit of the 16th digit, for a value, a COO list and a CSR matrix rebuilt from its file. Sign of zero, infinities and NaNs are not modelled."
  },
  {
   "property": "C44",
   "status": "proved",
   "theorems": [
    "C44_refuted"
   ],
   "note": "The claim is refuted: the writers always return an error code."
  },
  {
   "property": "C45",
   "status": "proved",
   "theorems": [
    "C45_column",
    "C45_file_order",
    "C45_refuted",
    "C45_no_column_refuted"
   ],
   "note": "One column proved, file order proved for any number of columns; the claimed position is refuted for two columns, memory safety for no column."
  },
  {
   "property": "C46",
   "status": "proved",
   "theorems": [
    "C46_testAndSet",
    "C46_plain_set_races"
   ],
   "note": "Any number of threads and calls, any interleaving; sequentially consistent memory. A separate test and set is shown to let two threads win."
  },
  {
   "property": "C47",
   "status": "proved",
   "theorems": [
    "C47_bipartite",
    "C47_full_row_refuted"
   ],
   "note": "Proved for every matrix with more rows than columns or without a full row, with the order of the components; refuted for a full row (the scratch array rowptrs is one element too short)."
  },
  {
   "property": "C48",
   "status": "proved",
   "theorems": [
    "C48_copy",
    "C48_extptr_refuted"
   ],
   "note": "All arrays but extptr; extptr refuted. Storage sharing is outside the model."
  },
  {
   "property": "C49",
   "status": "proved",
   "theorems": [
    "C49_diagptr",
    "C49_inverse"
   ],
   "note": "Sorted rows with full diagonal, both bases, all thread counts."
  },
  {
   "property": "C50",
   "status": "proved",
   "theorems": [
    "C50_permuteCols",
    "C50_base1_assert_refuted"
   ],
   "note": "both bases; 1-based with assertions enabled refuted"
  },
  {
   "property": "C51",
   "status": "proved",
   "theorems": [
    "C51_p2p",
    "C51_barrier",
    "C51_parts"
   ],
   "note": "permute composed with the constructed schedule and the executors, point-to-point and barrier; triangular parts for any moved matrix."
  },
  {
   "property": "C52",
   "status": "proved",
   "theorems": [
    "C52_pipeline",
    "C52_fair",
    "C52_long_path_refuted"
   ],
   "note": "Safety and result for every interleaving, termination for every fair one, under sequential consistency, when the search counts at most m levels; refuted for paths (write_offset is one element too short)."
  },
  {
   "property": "C53",
   "status": "proved",
   "theorems": [
    "C53_source",
    "C53_min_degree",
    "C53_path",
    "C53_candidates_refuted"
   ],
   "note": "For every interleaving, when the candidates fit their array; refuted without that condition (three threads each queue the whole last level)."
  },
  {
   "property": "C54",
   "status": "proved",
   "theorems": [
    "C54_result",
    "C54_terminates",
    "C54_one_thread",
    "C54_fresh",
    "C54_prefix",
    "C54_ring",
    "C54_path_refuted",
    "C54_exists"
   ],
   "note": "For every interleaving of every phase, given that the components found are right (proved with one thread, and with several when the plain stores of the union use current values) and that the scratch arrays have room; refuted for paths of PAR_THR nodes or more."
  },
  {
   "property": "C55",
   "status": "proved",
   "theorems": [
    "C55_solve",
    "C55_solve_par",
    "C55_unique",
    "C55_gs",
    "C55_gs_par"
   ],
   "note": "Over any commutative ring; sequential reference and every execution of the point-to-point and barrier forms."
  },
  {
   "property": "C56",
   "status": "proved",
   "theorems": [
    "C56_ilu",
    "C56_unsorted_refuted"
   ],
   "note": "Over any field, with uniqueness of the factors; ilu0_ref for 0-based matrices (see C38). Refuted for rows not sorted by column."
  },
  {
   "property": "C57",
   "status": "proved",
   "theorems": [
    "C57_symgs_safe",
    "C57_symgs_opt_safe",
    "C57_ilu0_safe",
    "C57_ilu0_opt_safe",
    "C57_symgs",
    "C57_symgs_opt",
    "C57_ilu0",
    "C57_ilu0_opt",
    "C57_report",
    "C57_symgs_base1_refuted",
    "C57_exact_start_refuted"
   ],
   "note": "Safety in any arithmetic; values over a commutative ring (SymGS) or field (ILU). sqrt, comparison and division are arbitrary functions, the method is compared step by step. Refuted for base 1 (SymGS) and for a start at the solution."
  },
  {
   "property": "C58",
   "status": "proved",
   "theorems": [
    "C58_barrier",
    "C58_threads_refuted",
    "C58_reduce",
    "C58_counts",
    "C58_cores_refuted"
   ],
   "note": "For every interleaving, within the limits of the int8_t numbers; refuted for 129 threads on a core and for the reducing barrier with 240 cores."
  },
  {
   "property": "C59",
   "status": "proved",
   "theorems": [
    "C59_safe",
    "C59_balanced",
    "C59_no_leak",
    "C59_leak_refuted",
    "C59_extptr_refuted"
   ],
   "note": "Safety for every sequence of calls; balance for the sequences named in frugal. Refuted for permute, transpose, splitLU and the Laplacian into matrices made by CSR(), the inverse diagonal in the pool, and a second alloc."
  },
  {
   "property": "C60",
   "status": "proved",
   "theorems": [
    "C60_malloc",
    "C60_pool",
    "C60_pool_refuted"
   ],
   "note": "The blocks lost are counted for every sequence of constructions without the pool; with the pool one construction with transitive reduction is proved, anything else refuted."
  },
  {
   "property": "C61",
   "status": "proved",
   "theorems": [
    "C61_kernel",
    "C61_pair",
    "C61_base1_refuted",
    "C61_base1_value_refuted"
   ],
   "note": "For 0-based matrices; refuted for indices from 1, since x is not moved by ADJUST_FOR_BASE."
  },
  {
   "property": "C62",
   "status": "proved",
   "theorems": [
    "C62_read",
    "C62_short",
    "C62_no_junk",
    "C62_round_trip",
    "C62_unsymmetric",
    "C62_integer_refuted",
    "C62_cut_refuted",
    "C62_symmetric_refuted"
   ],
   "note": "For real, complex and pattern files; refuted for integer files, and for mm_read_unsymmetric_sparse with a cut file or a symmetric one."
  },
  {
   "property": "C63",
   "status": "proved",
   "theorems": [
    "C63_size",
    "C63_binary",
    "C63_convert",
    "C63_symmetric",
    "C63_array",
    "C63_unopened_refuted",
    "C63_columns_refuted",
    "C63_cut_refuted",
    "C63_names_refuted"
   ],
   "note": "Refuted: arrays with more than one column, array files cut short, the result when the output cannot be opened, names that are numbers or do not end in .bin, missing input."
  },
  {
   "property": "C64",
   "status": "proved",
   "theorems": [
    "C64_average",
    "C64_unsorted_refuted"
   ],
   "note": "Refuted for rows out of order with the sorted flag."
  },
  {
   "property": "C65",
   "status": "proved",
   "theorems": [
    "C65_print"
   ],
   "note": "The text of a value is a parameter."
  },
  {
   "property": "C66",
   "status": "proved",
   "theorems": [
    "C66_counts",
    "C66_tasks",
    "C66_short"
   ],
   "note": "The model counts in unbounded integers; the bound is sufficient, and nothing is proved about larger task graphs."
  },
  {
   "property": "C67",
   "status": "proved",
   "theorems": [
    "C67_file",
    "C67_diagonal",
    "C67_size",
    "C67_schedule",
    "C67_gauss_seidel",
    "C67_bfs",
    "C67_rcm",
    "C67_general_refuted"
   ],
   "note": "Orderings: an execution that ends exists (C29 shows that others can lose links). More than two threads need the queue bound of C40. Refuted for general storage without force."
  },
  {
   "property": "C68",
   "status": "proved",
   "theorems": [
    "C68_check",
    "C68_equal",
    "C68_test",
    "C68_nan_refuted",
    "C68_overflow_refuted",
    "C68_gs_test_refuted"
   ],
   "note": "Doubles are SpecFloat of the standard library (binary64, round to nearest even, one NaN). Refuted: accepted implies close; gs_test accepts correct results."
  },
  {
   "property": "C69",
   "status": "proved",
   "theorems": [
    "C69_one_perm",
    "C69_gs_plain",
    "C69_gs_reordered",
    "C69_gs_fused"
   ],
   "note": "Timing, messages and the MKL parts of main are left out; loops are one pass. The fused pair needs exact arithmetic (C61)."
  },
  {
   "property": "C70",
   "status": "proved",
   "theorems": [
    "C70_pattern",
    "C70_trsv"
   ],
   "note": "Indices from 0; timing, messages and MKL left out. More than two threads: the schedules are assumed to be defined (queue bound of C40)."
  },
  {
   "property": "C71",
   "status": "proved",
   "theorems": [
    "C71_permuted",
    "C71_permuted_exact",
    "C71_adjoint",
    "C71_bipartite_test",
    "C71_reordering_test",
    "C71_reordering_bfs",
    "C71_reordering_rcm",
    "C71_loopless_graph_refuted"
   ],
   "note": "Timing, messages, MKL and cache flushing are left out; the programs' vectors are uninitialised and not reordered, the theorems speak of any vectors. Exact arithmetic is a ring. BFSBipartite_test needs the hypothesis of C47 on full rows. Refuted for rows without diagonal entry when assertions are enabled."
  },
  {
   "property": "C72",
   "status": "proved",
   "theorems": [
    "C72_get",
    "C72_initialize",
    "C72_there",
    "C72_life",
    "C72_small_team_refuted",
    "C72_large_team_refuted"
   ],
   "note": "An OpenMP barrier is a count of arrivals and releases; accesses are sequentially consistent; allocations do not fail. Refuted for initializeInstance with another size than the team's."
  },
  {
   "property": "C73",
   "status": "proved",
   "theorems": [
    "C73_phases",
    "C73_reference",
    "C73_orders",
    "C73_reordered",
    "C73_unequal",
    "C73_other_schedule_refuted"
   ],
   "note": "Accesses are sequentially consistent; the boundaries of the tasks are read before the sweep, which does not write them; getInstance inside the loop is C72_there. Refuted for schedules made without useBarrier."
  },
  {
   "property": "C74",
   "status": "proved",
   "theorems": [
    "C74_blocks",
    "C74_workspace",
    "C74_counters",
    "C74_rcm",
    "C74_levels",
    "C74_levels_shares",
    "C74_padded",
    "C74_laplacian_rows",
    "C74_laplacian",
    "C74_laplacian_cube",
    "C74_threads_refuted",
    "C74_cube_refuted"
   ],
   "note": "The expressions are evaluated in checked int beside the models with unbounded integers; the stores of the Laplacian (after rowptr) and values of counters are not evaluated in int. Refuted that every matrix that can be stored can be handled."
  },
  {
   "property": "C75",
   "status": "proved",
   "theorems": [
    "C75_file",
    "C75_size",
    "C75_two_threads",
    "C75_name",
    "C75_other_rhs_refuted",
    "C75_no_end_refuted",
    "C75_long_name",
    "C75_short_rhs_refuted"
   ],
   "note": "For every arithmetic and in exact arithmetic; schedules are assumed to be made for more than two threads. Messages and timing are not modelled. Refuted for memory behind the stem without a 0 in the right place, long names and short right-hand sides."
  },
  {
   "property": "C76",
   "status": "proved",
   "theorems": [
    "C76_life",
    "C76_defined",
    "C76_size",
    "C76_wrap_refuted",
    "C76_no_memory",
    "C76_twice_refuted",
    "C76_after_final_refuted"
   ],
   "note": "Without HBW_ALLOC; munmap of a part of a mapping is counted as undefined; posix_memalign leaves its argument as it was when it fails (as glibc does). Refuted for initialising twice, requests after finalize, sizes near 2^64 and failing allocations."
  },
  {
   "property": "C77",
   "status": "proved",
   "theorems": [
    "C77_measured",
    "C77_arrays",
    "C77_progress",
    "C77_race_refuted",
    "C77_defined",
    "C77_uses_refuted",
    "C77_reset",
    "C77_print",
    "C77_imbalance",
    "C77_imbalance_refuted",
    "C77_destroy",
    "C77_leak_refuted"
   ],
   "note": "Two or more cores; the clocks of all processors show the same time; the details print(true) prints and the conversion to double are not modelled. Refuted for overlapping calls, a second use after getInstance, threads that arrive together, and the memory of the structures."
  }
 ]
}