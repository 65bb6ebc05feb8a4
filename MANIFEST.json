{
 "claims": [
  {
   "property": "C01",
   "status": "proved",
   "theorems": [
    "C01_msa_numeric_row"
   ],
   "note": "Both plain-mask MSA kernels, any semiring operations."
  },
  {
   "property": "C02",
   "status": "proved",
   "theorems": [
    "C02_msa_numeric_row_complemented"
   ],
   "note": "Both complemented MSA kernels, sorted and unsorted."
  },
  {
   "property": "C05",
   "status": "proved",
   "theorems": [
    "C05_mca_numeric_row"
   ],
   "note": "MCA numeric kernel on strictly sorted B and mask rows, non-empty mask row (the drivers never call it otherwise)."
  },
  {
   "property": "C03",
   "status": "proved",
   "theorems": [
    "C03_hash_numeric_row"
   ],
   "note": "Any index width and collision pattern; termination included."
  },
  {
   "property": "C04",
   "status": "proved",
   "theorems": [
    "C04_hash_numeric_row_complemented"
   ],
   "note": "Both Sorted settings; one- and two-phase flops argument."
  },
  {
   "property": "C20",
   "status": "proved",
   "theorems": [
    "C20_hash_refines_finite_map"
   ],
   "note": ""
  },
  {
   "property": "C21",
   "status": "proved",
   "theorems": [
    "C21_adjustSize",
    "C21_adjustSize_large_diverges"
   ],
   "note": "Second theorem: finding, adjustSize loops forever from 2^(w-1) < 4(n+1) on."
  },
  {
   "property": "C30",
   "status": "partial",
   "theorems": [
    "C30_repeated_mask_columns_refuted",
    "C30_findIdxForce_absent_diverges"
   ],
   "note": "The claim is false of the code (finding): plain hash loops forever, MSA asserts, complemented hash miscounts."
  },
  {
   "property": "C08",
   "status": "proved",
   "theorems": [
    "C08_inner_numeric_row"
   ],
   "note": "B by columns, strictly sorted rows/columns."
  },
  {
   "property": "C06",
   "status": "proved",
   "theorems": [
    "C06_heap_numeric_row",
    "C06_heap_numeric_row_AC",
    "C06_heap_order_refuted",
    "C06_inspect_wrap_refuted"
   ],
   "note": "Every Inspect value for which maskIdx+Inspect does not wrap; the refuted theorems show the order clause and the wrap bound are needed (findings)."
  },
  {
   "property": "C07",
   "status": "proved",
   "theorems": [
    "C07_heap_numeric_row_complemented",
    "C07_heap_numeric_row_complemented_AC",
    "C07_heap_empty_mask_refuted"
   ],
   "note": "Non-empty mask rows, as the property states; C07_heap_empty_mask_refuted is a finding."
  },
  {
   "property": "C22",
   "status": "proved",
   "theorems": [
    "C22_heap_is_priority_queue"
   ],
   "note": "libstdc++ heap algorithms modelled; any operation sequence."
  },
  {
   "property": "C12",
   "status": "proved",
   "theorems": [
    "C12_msa_symbolic_row",
    "C12_msa_symbolic_row_complemented",
    "C12_mca_symbolic_row",
    "C12_hash_symbolic_row",
    "C12_hash_symbolic_row_complemented",
    "C12_inner_symbolic_row",
    "C12_heap_symbolic_row",
    "C12_heap_symbolic_row_complemented"
   ],
   "note": "Each symbolic kernel returns the length of the row its numeric counterpart is proved to emit."
  },
  {
   "property": "C17",
   "status": "proved",
   "theorems": [
    "C17_distribution_partitions_rows",
    "C17_lower_bound_correct"
   ],
   "note": "Any accumulated-work array, even one spoilt by integer wrap-around."
  },
  {
   "property": "C18",
   "status": "proved",
   "theorems": [
    "C18_exclusive_scan",
    "C18_inclusive_scan",
    "C18_empty_array_refuted"
   ],
   "note": "At least one element, as stated; C18_empty_array_refuted is a finding (size 0 stores out of bounds)."
  },
  {
   "property": "C19",
   "status": "proved",
   "theorems": [
    "C19_calculateFlops",
    "C19_calculateFlops_masked",
    "C19_calculateWork",
    "C19_wraparound_refuted"
   ],
   "note": "Without integer overflow, as stated; C19_wraparound_refuted is a finding."
  },
  {
   "property": "C28",
   "status": "partial",
   "theorems": [
    "C28_exclusive_scan_race_free",
    "C28_inclusive_scan_race_free",
    "C28_exclusive_scan_race_refuted",
    "C28_driver_races",
    "C28_driver_race_refuted",
    "C28_inner_races"
   ],
   "note": "False of the code (findings): several threads store to dst[0] in the scan when there are fewer elements than threads; in the drivers a thread without rows reads C.rowptr[rowBegin] while its owner writes it. Exact condition for race freedom of the driver regions proved."
  },
  {
   "property": "C15",
   "status": "proved",
   "theorems": [
    "C15_splitMemory",
    "C15_msa1A_handover",
    "C15_msa2A_handover",
    "C15_mca_handover",
    "C15_hash_handover",
    "C15_heap_handover"
   ],
   "note": "Byte-level model with 64-bit wrap-around."
  },
  {
   "property": "C16",
   "status": "proved",
   "theorems": [
    "C16_mallocAligned",
    "C16_malloc_free",
    "C16_header_alignment_refuted"
   ],
   "note": "Address claims for every alignment; additionally a finding: the size_t header itself is misaligned for alignment 12 (heap entries with 32-bit indices)."
  },
  {
   "property": "C41",
   "status": "partial",
   "theorems": [
    "C41_hash_release_refuted",
    "C41_hash_release_partial",
    "C41_msa_release",
    "C41_heap_release"
   ],
   "note": "False of the code for the hash table when handed an unaligned dirty size (finding); proved for the others and for aligned dirty sizes. The drivers never hit it."
  },
  {
   "property": "C09",
   "status": "proved",
   "theorems": [
    "C09_C10_any_row_algorithm",
    "C09_C10_msa",
    "C09_C10_msa_complemented",
    "C09_C10_mca",
    "C09_C10_hash",
    "C09_C10_hash_complemented",
    "C09_C10_heap",
    "C09_C10_heap_complemented",
    "C09_C10_outcome_unique",
    "C09_C10_inner",
    "C09_C10_inner_outcome_unique"
   ],
   "note": "Every thread count, interleaving and malloc result; at least one row (see C27)."
  },
  {
   "property": "C10",
   "status": "proved",
   "theorems": [
    "C09_C10_any_row_algorithm",
    "C09_C10_msa",
    "C09_C10_msa_complemented",
    "C09_C10_mca",
    "C09_C10_hash",
    "C09_C10_hash_complemented",
    "C09_C10_heap",
    "C09_C10_heap_complemented",
    "C09_C10_outcome_unique",
    "C09_C10_inner",
    "C09_C10_inner_outcome_unique"
   ],
   "note": "As C09; one and the same matrix as the 1-phase driver."
  },
  {
   "property": "C11",
   "status": "proved",
   "theorems": [
    "C11_all_algorithms_agree",
    "C11_algorithms_agree"
   ],
   "note": "All five algorithms, both drivers, any thread counts; heap with associative-commutative addop."
  },
  {
   "property": "C13",
   "status": "proved",
   "theorems": [
    "C13_buffer_plain",
    "C13_buffer_complemented"
   ],
   "note": ""
  },
  {
   "property": "C14",
   "status": "proved",
   "theorems": [
    "C14_msa",
    "C14_msa_complemented",
    "C14_mca",
    "C14_hash",
    "C14_hash_complemented",
    "C14_heap",
    "C14_heap_complemented"
   ],
   "note": "Any sequence of rows, repetitions allowed."
  },
  {
   "property": "C23",
   "status": "partial",
   "theorems": [
    "C23_output_may_be_an_input",
    "C23_inner_one_phase",
    "C23_inner_two_phase_refuted"
   ],
   "note": "Proved for both generic drivers and the 1-phase inner-product driver; false of the 2-phase inner-product driver (finding: it reads the freed arrays of the aliased input whenever any dot product is needed)."
  },
  {
   "property": "C24",
   "status": "proved",
   "theorems": [
    "C24_inputs_unchanged",
    "C24_inner_inputs_unchanged"
   ],
   "note": ""
  },
  {
   "property": "C25",
   "status": "proved",
   "theorems": [
    "C25_pattern_independent_of_values",
    "C25_pattern_mca",
    "C25_pattern_hash",
    "C25_pattern_hash_complemented",
    "C25_pattern_heap_complemented",
    "C25_pattern_inner"
   ],
   "note": "Two value types, two semirings."
  },
  {
   "property": "C26",
   "status": "proved",
   "theorems": [
    "C26_plain_and_complement_partition",
    "C26_hash_partition"
   ],
   "note": "MSA and hash: the kernels whose summation order is fixed."
  },
  {
   "property": "C27",
   "status": "partial",
   "theorems": [
    "C27_zero_rows_refuted",
    "C27_no_entries",
    "C27_no_entries_hash",
    "C27_no_entries_mca_heap",
    "C27_no_entries_complemented",
    "C27_inner_zero_rows_refuted",
    "C27_inner_no_entries"
   ],
   "note": "False of the code for matrices without rows (finding: the scan stores to dst[0] of an empty array); proved for matrices with rows but no entries."
  },
  {
   "property": "C29",
   "status": "partial",
   "theorems": [
    "C29_poly_refuted",
    "C29_poly_no_work_partial",
    "C29_poly_shared_bytes"
   ],
   "note": "False of the code (finding): whenever some row has work, a run reads a never-written rowNvals cell; the result is only defined when the product is empty. Also: both accumulators share bytes of the same buffer."
  },
  {
   "property": "C31",
   "status": "proved",
   "theorems": [
    "C31_conversion",
    "C31_conversion_flag"
   ],
   "note": ""
  },
  {
   "property": "C33",
   "status": "proved",
   "theorems": [
    "C33_sort_rows",
    "C33_sorted_flag"
   ],
   "note": "std::sort by contract (sort_contract); every schedule; race free."
  },
  {
   "property": "C42",
   "status": "proved",
   "theorems": [
    "C42_from_triples",
    "C42_from_arrays"
   ],
   "note": "std::sort by contract. Finding: the tuple constructor never calls its addition operator, duplicates stay."
  },
  {
   "property": "C32",
   "status": "partial",
   "theorems": [
    "C32_round_trip",
    "C32_sumall",
    "C32_sumall_fractional_refuted",
    "C32_default_matrix_refuted"
   ],
   "note": "Round trip, idempotence and exact sums proved. False of the code (findings): sumall truncates fractional partial sums and depends on the schedule; converting a default-constructed matrix writes through an unset pointer."
  },
  {
   "property": "C34",
   "status": "partial",
   "theorems": [
    "C34_copy_is_deep",
    "C34_assign_is_deep_partial",
    "C34_release",
    "C34_assign_no_columns_refuted",
    "C34_assign_no_rows_refuted"
   ],
   "note": "Copy construction proved; assignment proved unless exactly one of rows/columns is zero, where it is false (finding: operator= tests rhs.cols instead of rhs.rows)."
  },
  {
   "property": "C38",
   "status": "partial",
   "theorems": [
    "C38_legacy_scan_partial",
    "C38_region_race_free",
    "C38_reads_last_refuted",
    "C38_tnum_race_refuted"
   ],
   "note": "False of the code from 2^17 elements on (finding: it also reads in[N-1]); proved when in has N cells or N < 2^17. Second finding: racy store to tnum."
  },
  {
   "property": "C35",
   "status": "partial",
   "theorems": [
    "C35_intersect_partial",
    "C35_race_free",
    "C35_large_refuted",
    "C35_shape_mismatch",
    "C35_csc_intersect"
   ],
   "note": "CSC version and CSR version below 2^17 rows proved, all schedules; false of the CSR code from 2^17-1 rows on (finding: its scan reads row_nz[rows])."
  },
  {
   "property": "C37",
   "status": "partial",
   "theorems": [
    "C37_stable_sort_partial",
    "C37_large_refuted",
    "C37_empty_refuted"
   ],
   "note": "Proved for 1 <= N with 2N <= W+2, W the number of values of the index type. False of the code otherwise (findings): start+end wraps and the recursion never ends; N = 0 reads out of bounds."
  },
  {
   "property": "C36",
   "status": "partial",
   "theorems": [
    "C36_transpose_refuted",
    "C36_reserve_slots",
    "C36_transpose_partial"
   ],
   "note": "False of the code (finding): for every matrix the pointer loop reads atomicColPtr[n], one past the end. Proved: with one more counter and pointer cell, every interleaving of the atomic reservations and of the fill loop gives exactly the transposed triples, race free."
  },
  {
   "property": "C39",
   "status": "partial",
   "theorems": [
    "C39_ktruss_partial",
    "C39_k2",
    "C39_ktruss_refuted"
   ],
   "note": "k >= 3 proved for all five algorithms and both drivers (GraphBLAS select by contract). False of the code for k = 2 (finding): edges in no triangle are dropped, the result is the 3-truss."
  },
  {
   "property": "C40",
   "status": "proved",
   "theorems": [
    "C40_triangles"
   ],
   "note": "GraphBLAS reduce and tril by contract; sum in Z"
  },
  {
   "property": "C43",
   "status": "partial",
   "theorems": [
    "C43_bins_partial",
    "C43_race_free",
    "C43_large_refuted",
    "C43_bin_loop_refuted"
   ],
   "note": "Proved below 2^17-1 rows with counts in the range of the index type. False of the code otherwise (findings): the scan reads row_nz[rows] from 2^17-1 rows on; set_bin_id loops for ever on a row with more than half the index range of products and columns."
  },
  {
   "property": "C44",
   "status": "partial",
   "theorems": [
    "C44_spa_partial",
    "C44_race_free",
    "C44_large_refuted",
    "C44_zero_rows_refuted"
   ],
   "note": "Proved below 2^17-1 rows with counts in range; false of the code from 2^17-1 rows on and for no rows (findings). Note: addop gets the new product as first operand."
  },
  {
   "property": "C45",
   "status": "partial",
   "theorems": [
    "C45_wobin_partial",
    "C45_bin_partial",
    "C45_race_free",
    "C45_large_refuted",
    "C45_zero_rows_refuted",
    "C45_huge_row_refuted",
    "C45_numThreads_race_refuted"
   ],
   "note": "Proved below 2^17-1 rows with mask rows up to half the index range. False of the code otherwise (findings): the scan reads row_nz[rows]; BIN asserts rows != 0; the table size loop never ends; the thread count is stored racily."
  },
  {
   "property": "C46",
   "status": "partial",
   "theorems": [
    "C46_hash_partial",
    "C46_race_free",
    "C46_large_refuted",
    "C46_zero_rows_refuted"
   ],
   "note": "Proved below 2^17-1 rows with counts in range; false of the code from 2^17-1 rows on and for no rows (findings, as C43/C44). addop gets the new product as first operand. std::sort by contract."
  },
  {
   "property": "C47",
   "status": "partial",
   "theorems": [
    "C47_nohash_partial",
    "C47_race_free",
    "C47_tall_refuted",
    "C47_zero_refuted",
    "C47_old_nnz_refuted",
    "C47_large_refuted",
    "C47_zero_rows_refuted",
    "C47_numThreads_race_refuted"
   ],
   "note": "Proved below 2^17-1 rows, with every column of A < columns of B, counts in range, an empty C_final; the value is the sum started at 0, the masked product if 0 is neutral for addop. False of the code otherwise (findings): B.colptr is indexed by columns of A; the sum starts at 0 whatever addop is; C_final.nnz is added to, not set; scan from 2^17-1 rows on; BIN asserts rows != 0; racy store of the thread count."
  },
  {
   "property": "C48",
   "status": "partial",
   "theorems": [
    "C48_masked_heap_partial",
    "C48_unmasked_heap_partial",
    "C48_mca_partial",
    "C48_mca_square",
    "C48_races",
    "C48_race_refuted",
    "C48_mca_keys_refuted",
    "C48_mca_wrong_column_refuted",
    "C48_mca_empty_mask_refuted",
    "C48_mca_overflow_refuted",
    "C48_zero_rows_refuted",
    "C48_alias_refuted",
    "C48_estimate_refuted",
    "C48_estimate_wrap_refuted"
   ],
   "note": "MaskedHeap proved for C an object of its own and at least one row; BasicHeap/HeapLinear below 2^31 products; MCA when first keys, room and mask rows allow it (for A*A by A when used rows have entries). False of the code otherwise (findings): MCA_v1/v2 read A.colids instead of B.colids; MCA writes past its local arrays; MCA_v1/v3 read the mask column of an empty mask row; the product count is an int; no rows; C aliasing an input; data race with more than rows + 1 threads."
  },
  {
   "property": "C49",
   "status": "partial",
   "theorems": [
    "C49_heap_csc_partial",
    "C49_same_product_partial",
    "C49_race_free_partial",
    "C49_zero_columns_refuted",
    "C49_many_columns_refuted",
    "C49_leak_refuted",
    "C49_alias_A_refuted",
    "C49_alias_B_refuted"
   ],
   "note": "Proved from 1 to 2^17-2 columns with counts in the range of the index type, also when C is A or B, provided that has entries. False of the code otherwise (findings): colStart[0] with no columns; scan from 2^17-1 columns on; the arrays of a C with entries are never released (inverted test); C that is an empty A ends up without rows, C that is an empty B is read out of bounds."
  },
  {
   "property": "C50",
   "status": "proved",
   "theorems": [
    "C50_radix_sort",
    "C50_in_place",
    "C50_buffer_needed"
   ],
   "note": "Keys of type char, wchar_t, char16_t, char32_t and linear_sort are not modelled; at most 2^64 elements. C50_buffer_needed: the buffer size is needed."
  },
  {
   "property": "C51",
   "status": "partial",
   "theorems": [
    "C51_outer_partial",
    "C51_same_product_partial",
    "C51_big_block_refuted",
    "C51_many_rows_refuted",
    "C51_many_rows_per_block_refuted",
    "C51_alias_refuted",
    "C51_no_blocks_refuted",
    "C51_no_width_refuted",
    "C51_leak_refuted"
   ],
   "note": "Proved for every interleaving (races are outcomes, so race freedom is included), below 2^17-1 rows, with blocks of at most 4096 rows and fewer than 2^27 products, at most 2^20 columns, 1 <= blocks, width < 2^16. False of the code otherwise (findings): the sort key has 12 bits for the row and 20 for the column, cells that collide get mixed up; the byte count of a block overflows int; the scan reads nnz_by_row[rows] from 2^17-1 rows on; C that is an empty B loses its columns; a number of blocks that is 0 as a uint16_t divides by zero, such a width overruns the local buffer; four arrays are never released."
  },
  {
   "property": "C52",
   "status": "partial",
   "theorems": [
    "C52_centrality_partial",
    "C52_counts_exist",
    "C52_heap_refuted"
   ],
   "note": "Proved for the MSA and hash pairs (one and two phases), any thread count and schedule, values as exact rationals, GraphBLAS operations by contract. False of the code for the heap pairs (finding): the complemented heap kernel stops at its assertion in the first round for every vertex that is not a source and has an edge from one."
  },
  {
   "property": "C53",
   "status": "partial",
   "theorems": [
    "C53_read_partial",
    "C53_remove_diags_partial",
    "C53_rand_partial",
    "C53_read_csc_partial",
    "C53_ends",
    "C53_binary",
    "C53_binary_short",
    "C53_skew_refuted",
    "C53_comment_refuted",
    "C53_fraction_refuted",
    "C53_long_comment_refuted",
    "C53_spaces_refuted",
    "C53_tabs_refuted",
    "C53_no_file_refuted",
    "C53_binary_header_refuted"
   ],
   "note": "Proved for general and symmetric files with integer values or none, lines of at most 255 characters, one space between the numbers, comments without the word symmetric; binary files fully; termination on any bytes. False of the code otherwise (findings): skew-symmetric files are read as symmetric; so is any file with the word in a comment; fractions are cut off; a long comment, a missing file and a short binary header leave the sizes uninitialised; two spaces make the column the value; a line without a space is read through a null pointer."
  },
  {
   "property": "C54",
   "status": "partial",
   "theorems": [
    "C54_preprocess_partial",
    "C54_triangles_partial",
    "C54_diagonal_refuted",
    "C54_diagonal_count",
    "C54_empty_refuted",
    "C54_wide_refuted",
    "C54_degree_refuted",
    "C54_hash_intersect_partial",
    "C54_hash_count",
    "C54_hash_k4_refuted"
   ],
   "note": "Proved for square matrices with an entry off the diagonal (counts also for those with diagonal entries only), for every call of main but HashIntersect, in the sizes for which C05-C16 and C44-C47 describe the routines. False of the code otherwise (findings): without entries the constructor reads the first of no triples; with diagonal entries only the result holds a zero at (0,0); a matrix with an entry in a column past the rows makes it read past rowcnts; the renumbering is the inverse of the ranking by degree; HashIntersect returns the mask's values, so main prints the number of edges that close a triangle, 3 for the complete graph on 4 vertices."
  },
  {
   "property": "C55",
   "status": "partial",
   "theorems": [
    "C55_remove_duplicates_partial",
    "C55_generate_partial",
    "C55_er_matrix_partial",
    "C55_degrees_partial",
    "C55_heat_partial",
    "C55_visits_partial",
    "C55_remove_none_refuted",
    "C55_generate_none_refuted",
    "C55_independent_refuted",
    "C55_degrees_refuted",
    "C55_same_refuted"
   ],
   "note": "Proved for at least one value, degrees from 1 to below 2^31 and rows times degree below 2^32, ER matrices. False of the code otherwise (findings): of no values one is returned; degree 0 or a maximum of 2^32-1 loops for ever; every call draws the same numbers, so A and M of one degree are the same matrix and smaller degrees give parts of the larger; sameAB reads past the B if there are fewer of them."
  },
  {
   "property": "C56",
   "status": "partial",
   "theorems": [
    "C56_checksum",
    "C56_collisions",
    "C56_detects",
    "C56_matrix",
    "C56_order_refuted"
   ],
   "note": "Proved: the checksum, when two sequences collide, single changes are detected, what the matrix checksum depends on. False of the code (finding): the order of the column ids and of the values and the last row pointer do not enter the checksum of a matrix."
  },
  {
   "property": "C57",
   "status": "partial",
   "theorems": [
    "C57_driver_name",
    "C57_distinct",
    "C57_plain_name",
    "C57_labels",
    "C57_file_name",
    "C57_file_name_c_partial",
    "C57_bracket_refuted",
    "C57_file_name_c_refuted"
   ],
   "note": "Proved for the driver names, the labels of main, and getFileName of std::string; for getFileName of char* if the path has a slash. False of the code otherwise (findings): a template name that is not a driver loses its closing bracket; without a slash path[-1] is read."
  },
  {
   "property": "C58",
   "status": "partial",
   "theorems": [
    "C58_flop_csr",
    "C58_flop_csc",
    "C58_flop_outer_partial",
    "C58_flop_outer_refuted"
   ],
   "note": "Proved for CSR*CSR and CSC*CSC (counts without integer overflow in long long), and for CSC*CSR if every product of a column count and a row count fits the index type. False of the code otherwise (finding): that product is taken in the index type."
  },
  {
   "property": "C59",
   "status": "partial",
   "theorems": [
    "C59_csr_of_graph",
    "C59_csc_of_graph",
    "C59_sum",
    "C59_empty_refuted",
    "C59_ungrouped_refuted"
   ],
   "note": "Proved for every graph with an edge whose edges come in the order of their starts. False of the code otherwise (findings): of no edges the first is read; parallel edges that are not grouped by start stay separate entries."
  },
  {
   "property": "C60",
   "status": "partial",
   "theorems": [
    "C60_counting_sort",
    "C60_graph",
    "C60_terminates",
    "C60_matrix",
    "C60_two_inputs",
    "C60_sort_refuted",
    "C60_one_vertex_refuted",
    "C60_degree0_refuted",
    "C60_boundary_refuted",
    "C60_drift_refuted"
   ],
   "note": "Proved for every run that ends, scale 1 to 32 and degree at least 1; a run ends if attempts that are no self loops do not run out. False of the code otherwise (findings): with one vertex it never ends; with degree 0 the matrix constructor reads the first of no edges; only 32 bits of the start are sorted; a draw equal to a + b or a + b + c goes to the first quadrant; the second parameter only grows; the parameters left by the first graph are those of the second, whose draws are the same."
  },
  {
   "property": "C61",
   "status": "partial",
   "theorems": [
    "C61_shuffle",
    "C61_shuffle_csc",
    "C61_every_order",
    "C61_signed_refuted",
    "C61_fair_refuted"
   ],
   "note": "Proved for unsigned index types, and for signed ones if no row (column) is empty. False of the code otherwise (findings): with a signed index type (two sample programs) an empty row asks for a distribution from 0 to -1; from three entries on the orders of a row are not equally likely."
  },
  {
   "property": "C62",
   "status": "partial",
   "theorems": [
    "C62_csc",
    "C62_csr",
    "C62_exact",
    "C62_double",
    "C62_symmetric",
    "C62_int",
    "C62_default_refuted",
    "C62_int_overflow_refuted",
    "C62_transitive_refuted",
    "C62_nan_refuted",
    "C62_order_refuted"
   ],
   "note": "Proved: what the operators compare, for every pair of well-formed matrices and either base; doubles as exact rationals or NaN. False of the code otherwise (findings): default matrices are read through pointers that were never set; the difference of two ints overflows; the relation is not transitive, a NaN is not equal to itself; the order inside a row matters."
  },
  {
   "property": "C63",
   "status": "partial",
   "theorems": [
    "C63_set",
    "C63_next",
    "C63_copy",
    "C63_large_refuted",
    "C63_new_refuted"
   ],
   "note": "Proved, get_next_bit for positions below 2^32. False of the code otherwise (findings): from 2^32 on a next bit in a later word is reported too low by a multiple of 2^32; a new map holds uninitialised words until reset."
  },
  {
   "property": "C64",
   "status": "partial",
   "theorems": [
    "C64_spref",
    "C64_prefix",
    "C64_spref1_partial",
    "C64_spref2_partial",
    "C64_spref2_first",
    "C64_empty_refuted",
    "C64_renumber_refuted",
    "C64_bounds_refuted",
    "C64_bitmap_refuted",
    "C64_spref2_refuted"
   ],
   "note": "Proved: SpRef selects the right entries for every sorted list of rows when an entry is chosen, and is the submatrix if the rows are the first m; SpRef1 if the rows fit the bit map; SpRef2 exactly when every chosen column ends inside the chosen count, for instance for the first n columns. False of the code otherwise (findings): with no entry chosen the constructor's assertion fails; the row ids are not renumbered, so the result is not well-formed; a column id equal to the number of columns passes the test and reads past colptr; SpRef1 sizes its bit map by the number of chosen rows and indexes it by row id; SpRef2 sizes its arrays for the chosen columns and writes at the offsets of the original ones."
  },
  {
   "property": "C65",
   "status": "partial",
   "theorems": [
    "C65_csr_pack",
    "C65_csr_roundtrip_partial",
    "C65_csc_pack_partial",
    "C65_csc_roundtrip_partial",
    "C65_dup_partial",
    "C65_import_partial",
    "C65_build",
    "C65_csc_wide_refuted",
    "C65_csc_size_refuted",
    "C65_iso_refuted",
    "C65_jumbled_refuted",
    "C65_dup_iso_refuted",
    "C65_dangling_refuted",
    "C65_import_refuted",
    "C65_build_one_based_refuted",
    "C65_unsorted_pack_refuted",
    "C65_unsorted_refuted"
   ],
   "note": "Proved: packing of sorted CSR objects; CSR and square CSC round trips; the copying constructor; import of values of 8 bytes; the numbers for GrB_Matrix_build of zero-based matrices. False of the code otherwise (findings): get_grb_mat of CSC gives rows + 1 as the length of colptr, so a wide matrix stops on the assertion and a tall one is told too many bytes; matrices with one value for all entries or out of order stop the CSR constructor; the copying constructor ignores the one-value flag, so the values are read past their array; without copying the caller's matrix is left released; get_grb_mat_ptr gives the size of the values for the column ids, so smaller values fail silently; the build of a one-based matrix reads past the column ids; the result of the masked hash multiplication is unsorted, yet it is handed over as sorted."
  },
  {
   "property": "C66",
   "status": "partial",
   "theorems": [
    "C66_read_directed",
    "C66_read_undirected",
    "C66_sort",
    "C66_lowtri",
    "C66_convert",
    "C66_avoid_iso",
    "C66_triangles",
    "C66_ktruss",
    "C66_bc",
    "C66_sort_wide_refuted",
    "C66_sort_tall_refuted",
    "C66_index_refuted",
    "C66_rectangular_refuted"
   ],
   "note": "Proved for every square file: the answers are those for the graph in the file (k >= 3 for the truss; with C39, C40, C52 and their conditions on the calls). False of the code otherwise (findings): a single index outside the sizes makes GrB_Matrix_build fail and the graph is silently taken to have no edges; a matrix that is not square is not symmetrized, sort_by_degree reads its mapping past the end or loses all entries, and the lower triangle is empty."
  },
  {
   "property": "C67",
   "status": "partial",
   "theorems": [
    "C67_outer2_partial",
    "C67_same_product_partial",
    "C67_not_square_refuted",
    "C67_no_rows_refuted",
    "C67_many_products_refuted",
    "C67_big_row_refuted",
    "C67_many_rows_refuted",
    "C67_wide_columns_refuted",
    "C67_alias_refuted",
    "C67_no_blocks_refuted",
    "C67_no_width_refuted",
    "C67_leak_refuted"
   ],
   "note": "Proved for every interleaving (races are outcomes, so race freedom is included) for a square A with at least one row, fewer than 2^31 products, fewer than 2^27 in an average block and one row more, products in rows and columns below 2^16, and fewer than 2^17-1 rows. False of the code otherwise (findings): every call with an A that is not square faults; so do an A without rows, 2^31 products, a row of 2^27 products, 2^17-1 rows; columns from 2^16 on are mixed up between rows by the sorting key; no blocks, no width, C an empty B; memory is lost."
  },
  {
   "property": "C68",
   "status": "partial",
   "theorems": [
    "C68_blocks_partial",
    "C68_triangles_partial",
    "C68_masked_nnz_refuted",
    "C68_uneven_refuted",
    "C68_empty_part_refuted",
    "C68_grid_refuted"
   ],
   "note": "Proved from the texts of the files to the totals: operations and triangles (modulo 2^64) are those of the whole matrix, and the numbers of nonzeros are exactly characterised, for parts with 1 to 2^17-2 rows in which every column with an entry exists in the other parts (always so for parts of equal size). False of the code otherwise (findings): the nonzeros of a position are counted once per part of the middle index; parts of different sizes and empty parts make innerSpGEMM_nohash fail; a grid that is not square stops the program."
  },
  {
   "property": "C69",
   "status": "partial",
   "theorems": [
    "C69_read_partial",
    "C69_sorted_partial",
    "C69_fuel",
    "C69_missing",
    "C69_skew_refuted",
    "C69_comment_refuted",
    "C69_more_refuted",
    "C69_fewer_refuted",
    "C69_blank_refuted",
    "C69_comments_only_refuted",
    "C69_wide_refuted",
    "C69_long_comment_refuted",
    "C69_spaces_refuted",
    "C69_unsorted_refuted"
   ],
   "note": "Proved for 32-bit indices and general or symmetric files with lines of at most 254 characters, single spaces, the declared number of entries and, if symmetric, no comment with the word general; sorted rows for column-wise files. False of the code otherwise (findings): skew-symmetric files, comments, wrong counts, empty lines, long comments, comments only (never ends), wider index types."
  },
  {
   "property": "C70",
   "status": "partial",
   "theorems": [
    "C70_columns_partial",
    "C70_rows_partial",
    "C70_halves_partial",
    "C70_product_partial",
    "C70_few_rows_refuted",
    "C70_tall_refuted",
    "C70_wide_refuted",
    "C70_narrow_refuted"
   ],
   "note": "By columns proved for at least as many rows as pieces; by rows, the halves and their products for rows = n * (cols / n). False of the code otherwise (findings): the piece size by rows is computed from the number of columns, rows behind the last full piece fall on other rows, small matrices end in a division by zero."
  },
  {
   "property": "C71",
   "status": "partial",
   "theorems": [
    "C71_report",
    "C71_lost",
    "C71_release_partial",
    "C71_triangles_partial",
    "C71_overwritten_refuted",
    "C71_heap_refuted",
    "C71_empty_refuted",
    "C71_no_call_refuted",
    "C71_many_refuted",
    "C71_old_nnz_refuted",
    "C71_assigned_empty_refuted"
   ],
   "note": "The report proved for at least one call; the release for results with entries of the drivers of spgemm-blocks and of HashIntersect, and of the older products but HeapSpGEMM with at most one warm-up call; the number of blocks left behind proved in every case. False of the code otherwise (findings)."
  },
  {
   "property": "C72",
   "status": "partial",
   "theorems": [
    "C72_report_partial",
    "C72_shape_refuted",
    "C72_no_call_refuted"
   ],
   "note": "Proved for well-formed files that are not skew-symmetric, have integral values, at least one row and no position twice, at least one thread and at least one call. For files that are not square or have no rows, and for no call at all, false of the code (findings)."
  },
  {
   "property": "C73",
   "status": "partial",
   "theorems": [
    "C73_report_partial",
    "C73_no_triangle_refuted",
    "C73_all1p_refuted"
   ],
   "note": "Proved for well-formed files that are not skew-symmetric, have integral values and two joined vertices, with at least one measured call or exactly one warm-up, for the modes with hash tables or dense rows below 2^17 - 1 rows, for intersect and all if there is a triangle, and not for all1p. The line of HashIntersect shows the number of closing edges as sum (C54). In mode all1p, and in intersect and all without a triangle, false of the code (findings)."
  },
  {
   "property": "C74",
   "status": "partial",
   "theorems": [
    "C74_report_partial",
    "C74_ordered_products_agree",
    "C74_no_thread_count_refuted",
    "C74_no_slash_refuted",
    "C74_mca_refuted"
   ],
   "note": "Proved for well-formed files without repeated entries that are not skew-symmetric and have integral values, with rows + 1 < 2^17 and multiplications + threads at most 2^31, for a path with a slash and a given number of threads; from the second product on the columns of the entries of A must be columns of B (innerSpGEMM_nohash), and for the three MCA products both first files must hold the same matrix and the mask must fit (findings of C48). Every HeapSpGEMM call loses one array. Without a thread count, without a slash, and in general for MCA false of the code (findings)."
  },
  {
   "property": "C75",
   "status": "proved",
   "theorems": [
    "C75_from_pairs"
   ],
   "note": "Indices are unbounded naturals; the conversion of the 64-bit numbers of the edges to the index type is left out."
  },
  {
   "property": "C76",
   "status": "partial",
   "theorems": [
    "C76_merge_partial",
    "C76_merge_refuted",
    "C76_too_few_vectors",
    "C76_no_columns"
   ],
   "note": "False of the code (findings): the vectors of rows and values have no elements, so no execution on a matrix with a column ends well. Proved in full if both vectors are given one element for every column; for a matrix without columns the function as written ends and changes nothing."
  },
  {
   "property": "C77",
   "status": "partial",
   "theorems": [
    "C77_text_partial",
    "C77_generated",
    "C77_read_back",
    "C77_usage",
    "C77_tall_refuted",
    "C77_wide_refuted",
    "C77_name_refuted",
    "C77_fourth_refuted",
    "C77_silent_refuted"
   ],
   "note": "False of the code (findings): a left matrix with more rows than columns is read out of bounds, one with fewer rows loses entries; a name without an extension, or a missing fourth argument, has undefined behaviour; files that cannot be opened are not noticed. Proved for square left matrices from text files with integer values and for generated ones. Reading binary files is left open."
  },
  {
   "property": "C78",
   "status": "partial",
   "theorems": [
    "C78_report_partial",
    "C78_usage",
    "C78_wide_refuted",
    "C78_lost_refuted"
   ],
   "note": "False of the code (findings): a matrix with an entry in a column that is not also a row is read out of bounds; if no position has a product each call loses two arrays where malloc(0) does not give NULL. Proved for square matrices with at least one row and rows + 1 < 2^17 (findings of C44, C45, C47), within the range of the index type; printing an int64_t with %d is taken to print its lower half."
  },
  {
   "property": "C79",
   "status": "partial",
   "theorems": [
    "C79_report_partial",
    "C79_usage",
    "C79_tall_refuted"
   ],
   "note": "False of the code (findings): if the first matrix has an entry in a column that the second does not have, the call reads out of bounds (C47); if no position has a product each call loses arrays where malloc(0) does not give NULL. Proved for matrices with at least one row and rows + 1 < 2^17, columns below 2^24, within the range of the index type."
  },
  {
   "property": "C80",
   "status": "partial",
   "theorems": [
    "C80_report_partial",
    "C80_usage",
    "C80_few_refuted"
   ],
   "note": "False of the code (findings): the first ten values of the product are read whatever their number, out of bounds if the product has fewer than ten entries; if no position of the mask has a product each result loses two arrays where malloc(0) does not give NULL. Proved for products with at least ten positions, matrices with at least one row and rows + 1 < 2^17, columns below 2^24, within the range of the index type."
  },
  {
   "property": "C81",
   "status": "partial",
   "theorems": [
    "C81_report_partial",
    "C81_usage",
    "C81_empty_row_refuted",
    "C81_name_refuted",
    "C81_few_refuted"
   ],
   "note": "False of the code (findings): a row without an entry in either file violates a precondition of uniform_int_distribution in shuffleIds (the index type is int); a first file name without a usable point is split out of bounds; the first ten values of A*A are read whatever their number; if no position of A has a product each result loses two arrays where malloc(0) does not give NULL. Proved for the mode text, full rows, at least ten positions of A*A and rows + 1 < 2^17, within the range of the index type; the modes gen and binary are in the model (setInputs, as in C77) but not in the theorem."
  },
  {
   "property": "C82",
   "status": "partial",
   "theorems": [
    "C82_report_partial",
    "C82_usage",
    "C82_empty_row_refuted",
    "C82_name_refuted",
    "C82_few_refuted"
   ],
   "note": "False of the code (findings): a row without an entry in either file violates a precondition of uniform_int_distribution in shuffleIds (the index type is int); a first file name without a usable point is split out of bounds; the first ten values of A*B are read whatever their number. Proved for the mode text, full rows, at least ten positions of A*B, rows + 1 < 2^17 and columns up to 2^30, within the range of the index type; the modes gen and binary are in the model (setInputs, as in C77) but not in the theorem."
  },
  {
   "property": "C83",
   "status": "partial",
   "theorems": [
    "C83_report_partial",
    "C83_usage",
    "C83_name_refuted",
    "C83_columns_refuted"
   ],
   "note": "False of the code (findings): a first file name without a usable point is split out of bounds; a second matrix of no columns, or of 2^17 - 1 or more, gives no result (accesses out of bounds in HeapSpGEMM). Proved for the mode text and 1 to 2^17 - 2 columns, with numbers of any size instead of int; the modes gen and binary are in the model (setInputs, as in C77) but not in the theorem."
  },
  {
   "property": "C84",
   "status": "partial",
   "theorems": [
    "C84_report_partial",
    "C84_usage",
    "C84_leak_refuted",
    "C84_missing_refuted",
    "C84_empty_refuted",
    "C84_name_refuted"
   ],
   "note": "False of the code (findings): a column of A or row of B without an entry makes shuffleIds draw from 0 to -1 (as in C61); a first file name without a usable point is split out of bounds; every run that gets to a result loses memory in each of its 16 calls of OuterSpGEMM; with three to six arguments, more than the check of argc asks for, argv[6] or argv[7] is read although it does not exist. Proved for the mode text, an entry in every column of A and row of B (the shuffles assert that, C61), rows below 2^17 - 1 and at most 4096 per block, at most 2^20 columns, 1 to 2^16 - 1 blocks and tuples per block and products below 2^27; the modes gen and binary are in the model (setInputs, as in C77) but not in the theorem."
  }
 ]
}