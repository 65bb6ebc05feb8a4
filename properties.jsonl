{"id": "C01", "title": "Plain-mask MSA row result is the masked product", "statement": "For a row i, one call of the MSA row kernel (one-array and two-array variants, plain mask) writes to the output cursor exactly the entries (j, v), in mask-row order, for the mask columns j for which at least one A[i,k]*B[k,j] product exists, with v equal to the left-to-right fold of addop over multop(A[i,k],B[k,j]) in the storage order of A's row and B's rows; it touches nothing else and trips no assertion or out-of-range access.", "quantifier": "every well-formed A, B, M with conforming shapes whose mask row has no repeated column, every row, every multop/addop, every output position with enough room", "why_tests_cant": "A test samples finitely many sparsity patterns, sizes and operators; the claim ranges over all of them, including arbitrary (non-associative, floating-point-like) operators.", "anchors": ["spgemm-blocks/msa/MSAAlgorithm.h: MSA1A<false,false>::numericRow, MSA2A<false,false>::numericRow", "spgemm-blocks/msa/MaskedSparseAccumulator1A.h", "spgemm-blocks/msa/MaskedSparseAccumulator2A.h", "spgemm-blocks/msa/MSAAlgorithm_old.h"]}
{"id": "C02", "title": "Complemented-mask MSA row result is the product outside the mask", "statement": "For a complemented mask the MSA kernels output exactly the columns j NOT in the mask row that receive at least one product, each once, with the left-to-right fold value; in first-touch order when Sorted=false and in increasing column order when Sorted=true.", "quantifier": "every well-formed A, B, M (distinct mask columns per row), every row, both Sorted settings, every multop/addop", "why_tests_cant": "A test samples finitely many sparsity patterns, sizes and operators; the claim ranges over all of them, including arbitrary (non-associative, floating-point-like) operators.", "anchors": ["spgemm-blocks/msa/MSAAlgorithm.h: MSA1A<true,*>::numericRow, MSA2A<true,*>::numericRow, gather"]}
{"id": "C03", "title": "Hash row result is the masked product", "statement": "The hash row kernel (plain mask) terminates and outputs exactly the same entries, in mask-row order and with the same left-to-right fold values, as stated for MSA, for any collision pattern of the hash function.", "quantifier": "every well-formed A, B, M with distinct mask columns per row, every row, every multop/addop, every table capacity the constructor can choose", "why_tests_cant": "A test samples finitely many sparsity patterns, sizes and operators; the claim ranges over all of them, including arbitrary (non-associative, floating-point-like) operators. Collision chains that wrap around the table are hit only by adversarial keys.", "anchors": ["spgemm-blocks/hash/MaskedHashAlgorithm.h: internal::MaskedHash::numericRow", "spgemm-blocks/hash/HashAccumulator.h"]}
{"id": "C04", "title": "Complemented hash row result is the product outside the mask", "statement": "The complemented hash row kernel terminates and outputs exactly the non-mask columns receiving products, each once, with left-to-right fold values, in first-touch order (Sorted=false) or increasing order (Sorted=true); afterwards the table holds no key.", "quantifier": "every well-formed A, B, M with distinct mask columns, every row, both Sorted settings, every multop/addop, with the flops argument being either the 1-phase flop count or the 2-phase exact row count", "why_tests_cant": "A test samples finitely many sparsity patterns, sizes and operators; the claim ranges over all of them, including arbitrary (non-associative, floating-point-like) operators.", "anchors": ["spgemm-blocks/hash/MaskedHashAlgorithm.h: internal::MaskedHashComplemented::numericRow", "spgemm-blocks/hash/HashAccumulator.h: gatherList, erase"]}
{"id": "C05", "title": "MCA row result is the masked product", "statement": "The mask-compressed-accumulator kernel outputs, in mask order, exactly the mask columns with at least one product and their left-to-right fold values.", "quantifier": "every well-formed A, B, M with strictly increasing columns in the rows of B and M and a non-empty mask row, every multop/addop", "why_tests_cant": "A test samples finitely many sparsity patterns, sizes and operators; the claim ranges over all of them, including arbitrary (non-associative, floating-point-like) operators.", "anchors": ["spgemm-blocks/mca/MCAAlgorithm.h: MCA::Impl::numericRow", "spgemm-blocks/mca/MaskCompressedAccumulator.h"]}
{"id": "C06", "title": "Heap row result is the masked product for commutative monoid-like addition", "statement": "The heap kernel outputs the mask columns with at least one product in strictly increasing column order; each value is addop folded over the products of that column in some order, hence equal to the left-to-right fold whenever addop is associative and commutative. This holds for every Inspect setting (0, 1, n, unbounded).", "quantifier": "every well-formed A, B, M with strictly increasing rows, non-empty mask row, every Inspect value, every multop and addop", "why_tests_cant": "A test samples finitely many sparsity patterns, sizes and operators; the claim ranges over all of them, including arbitrary (non-associative, floating-point-like) operators. The Inspect look-ahead interacts with every relative position of mask and B columns.", "anchors": ["spgemm-blocks/heap/MaskedHeapAlgorithmInspect.h: internal::MaskedHeap", "spgemm-blocks/heap/Heap.h", "spgemm-blocks/heap/MaskedHeapAlgorithm.h"]}
{"id": "C07", "title": "Complemented heap row result is the product outside the mask", "statement": "The complemented heap kernel outputs exactly the non-mask columns receiving products in strictly increasing order, values folded over all their products in some order.", "quantifier": "every well-formed A, B, M with strictly increasing rows, every row with non-empty mask, every multop and addop", "why_tests_cant": "A test samples finitely many sparsity patterns, sizes and operators; the claim ranges over all of them, including arbitrary (non-associative, floating-point-like) operators.", "anchors": ["spgemm-blocks/heap/MaskedHeapAlgorithmInspect.h: internal::MaskedHeapComplemented"]}
{"id": "C08", "title": "Inner-product row result is the masked product", "statement": "The inner-product (dot) kernel with B given by columns outputs, in mask order, exactly the mask columns j with a common index k in A's row and B's column j, with values the left-to-right fold over increasing k.", "quantifier": "every well-formed A (CSR), B (CSC), M with strictly increasing indices, every multop/addop", "why_tests_cant": "A test samples finitely many sparsity patterns, sizes and operators; the claim ranges over all of them, including arbitrary (non-associative, floating-point-like) operators.", "anchors": ["spgemm-blocks/inner/InnerAlgorithm.h: MaskedInner::numericRow", "spgemm-blocks/inner/MaskedInnerSpGEMM.h"]}
{"id": "C09", "title": "One-phase driver computes the masked product for any thread count and schedule", "statement": "MaskedSpGEMM1p leaves in C a well-formed CSR matrix with A.rows rows and B.cols columns whose every row equals the row specification of the chosen algorithm, with nnz equal to the number of entries, without any out-of-range access, for any number of threads and any interleaving of the threads.", "quantifier": "every well-formed conforming input with at least one row, every row algorithm meeting the kernel contract, every numThreads >= 1, every interleaving of the parallel region's shared reads and writes", "why_tests_cant": "The number of interleavings and work distributions is unbounded; a run exercises one.", "anchors": ["spgemm-blocks/masked-spgemm.h: MaskedSpGEMM1p", "spgemm-blocks/common.h"]}
{"id": "C10", "title": "Two-phase driver computes the masked product for any thread count and schedule", "statement": "MaskedSpGEMM2p leaves in C a well-formed CSR matrix whose every row equals the row specification of the chosen algorithm; each thread writes exactly the slice of the output reserved for it by the symbolic phase.", "quantifier": "every well-formed conforming input with at least one row, every row algorithm meeting the kernel contract, every numThreads >= 1, every interleaving", "why_tests_cant": "As for the one-phase driver; in addition symbolic and numeric phases must agree on every row.", "anchors": ["spgemm-blocks/masked-spgemm.h: MaskedSpGEMM2p", "spgemm-blocks/common.h"]}
{"id": "C11", "title": "All algorithms and both phases agree", "statement": "MSA1A, MSA2A, hash, MCA and inner-product, 1-phase and 2-phase, produce the same matrix (identical row entry lists) on the same sorted input; heap produces the same matrix when addop is associative and commutative.", "quantifier": "every conforming input with strictly increasing rows, every multop/addop (associative-commutative for heap), any two thread counts and schedules", "why_tests_cant": "Pairwise agreement on all inputs is a universally quantified equivalence; differential tests only sample it.", "anchors": ["spgemm-blocks/masked-spgemm.h", "spgemm-blocks/masked-spgemm-inner.h", "benchmarks"]}
{"id": "C12", "title": "Symbolic count equals numeric count", "statement": "For every row, the number of nonzeros predicted by the symbolic kernel equals the number of entries the numeric kernel emits.", "quantifier": "every row algorithm (MSA, hash, MCA, heap, inner; plain and complemented), every well-formed input row", "why_tests_cant": "A single miscounted row corrupts neighbouring threads' output; tests cannot enumerate patterns.", "anchors": ["spgemm-blocks/msa/MSAAlgorithm.h: symbolicRow", "spgemm-blocks/hash/MaskedHashAlgorithm.h: symbolicRow", "spgemm-blocks/mca/MCAAlgorithm.h: symbolicRow", "spgemm-blocks/heap/MaskedHeapAlgorithmInspect.h: symbolicRow", "spgemm-blocks/inner/InnerAlgorithm.h: symbolicRow"]}
{"id": "C13", "title": "Temporary output buffers are never overrun", "statement": "The per-thread temporary size computed before the one-phase numeric loop (sum of min(flops,|mask row|), or of flops when complemented) is an upper bound on the entries the thread emits, so no write goes past the end of the buffers.", "quantifier": "every well-formed input, every thread's row range, every kernel", "why_tests_cant": "Overruns appear only for particular patterns and are silent without sanitizers.", "anchors": ["spgemm-blocks/common.h: scanInputs, estimateResultSize", "spgemm-blocks/masked-spgemm.h: MaskedSpGEMM1p"]}
{"id": "C14", "title": "Accumulators are left clean after every row", "statement": "After each symbolic or numeric row call the accumulator is back in the state it had before the call (every slot in its default state, no pending indices/keys), so a thread may process any sequence of rows with one accumulator and each row's result is independent of the rows processed before.", "quantifier": "every sequence of rows, every kernel", "why_tests_cant": "State leakage depends on the history of rows; histories are unbounded.", "anchors": ["spgemm-blocks/msa/MaskedSparseAccumulator1A.h: clear, resetStates, gather", "spgemm-blocks/hash/HashAccumulator.h: resetStates, resetStatesList, gather", "spgemm-blocks/mca/MaskCompressedAccumulator.h: clearAll"]}
{"id": "C15", "title": "Shared scratch buffer hand-over keeps the clean-memory promise", "statement": "If every byte of the scratch buffer at or above the declared dirty size is 0xFF, then acquiring memory for clean and dirty objects returns non-overlapping, in-range, aligned regions, the clean one filled with 0xFF, asserts hold, and the updated dirty size again satisfies the promise; so the numeric accumulator that reuses the symbolic accumulator's buffer always starts clean.", "quantifier": "every buffer size, element sizes, object counts, dirty sizes fitting the requirement; every algorithm's symbolic-then-numeric accumulator pair", "why_tests_cant": "Arithmetic on sizes (rounding, unsigned wrap-around) has corner cases at every alignment residue.", "anchors": ["spgemm-blocks/util.h: splitMemory, getCleanMemory, roundUp, roundDown", "spgemm-blocks/hash/HashAccumulator.h: setBuffer, releaseBuffer", "spgemm-blocks/msa/MaskedSparseAccumulator2A.h: setBuffer"]}
{"id": "C16", "title": "Aligned allocation is aligned, in range and freed exactly", "statement": "mallocAligned returns an address that is a multiple of the requested alignment, with the requested bytes inside the underlying block, whose header does not overlap the user bytes, and freeAligned passes to free exactly the pointer malloc returned.", "quantifier": "every address malloc may return, every size and positive alignment", "why_tests_cant": "Depends on the addresses the allocator happens to return.", "anchors": ["spgemm-blocks/util.h: mallocAligned, freeAligned, isAligned"]}
{"id": "C17", "title": "Work distribution partitions the rows", "statement": "The row ranges the threads get are contiguous, disjoint, in order, and cover each row exactly once, for every thread count.", "quantifier": "every per-row work array, every numThreads >= 1", "why_tests_cant": "Off-by-one gaps or overlaps occur only for special work distributions (zeros, plateaus, fewer rows than threads).", "anchors": ["spgemm-blocks/common.h: distributeWork"]}
{"id": "C18", "title": "Parallel prefix sums equal sequential prefix sums", "statement": "exclusiveScan and inclusiveScan write the exclusive / inclusive prefix sums of src for any number of threads and any interleaving of the threads between barriers.", "quantifier": "every array with at least one element, every numThreads >= 1, every interleaving", "why_tests_cant": "Interleavings and size/thread-count combinations are unbounded.", "anchors": ["spgemm-blocks/scan.h: inclusiveScan, exclusiveScan"]}
{"id": "C19", "title": "Flop counts are exact and schedule independent", "statement": "calculateFlops stores in each row's cell the number of products of that row (0 for a row with an empty mask in the plain-mask version) and returns their total, whatever way the loop iterations are assigned to threads and in whatever order partial sums are combined; likewise calculateWork.", "quantifier": "every well-formed input, every assignment of iterations to threads, every reduction order (no integer overflow)", "why_tests_cant": "The OpenMP runtime may choose any schedule.", "anchors": ["spgemm-blocks/common.h: calculateFlops, calculateMultOps, calculateWork"]}
{"id": "C20", "title": "Hash accumulator behaves as a finite map under any operation sequence", "statement": "Starting from an empty table, after any sequence of insert, find, erase, update and reset operations that never holds more keys than the requested size, lookups return exactly what a finite map would return, and every operation terminates.", "quantifier": "every key, every operation sequence, every table size from adjustSize", "why_tests_cant": "Backward-shift deletion interacts with wrap-around clusters; sequences are unbounded.", "anchors": ["spgemm-blocks/hash/HashAccumulator.h: find, findIdx, insert, erase, resetStates, resetStatesList"]}
{"id": "C21", "title": "Hash table sizing leaves room", "statement": "For a requested number of keys n the chosen table size is a power of two, at least 16 and at least 4*(n+1), and larger requests never get smaller tables, so every row's table fits the capacity allocated for the thread's largest row.", "quantifier": "every n below the overflow limit of the index type", "why_tests_cant": "Needs all n, including the loop bound near the type's limit.", "anchors": ["spgemm-blocks/hash/HashAccumulator.h: adjustSize, resize"]}
{"id": "C22", "title": "Binary heap primitive is a correct priority queue", "statement": "After make, the top is a minimum-key entry; pop removes exactly the top entry; replacing the root's key and calling sinkRoot restores the heap order and keeps the multiset of entries.", "quantifier": "every heap content and size", "why_tests_cant": "All shapes/sizes of heap; also relies on calling the library pop on a range whose root was modified.", "anchors": ["spgemm-blocks/heap/Heap.h: make, pop, sinkRoot"]}
{"id": "C23", "title": "Output argument may alias an input", "statement": "MaskedSpGEMM1p and MaskedSpGEMM2p give the same result when C is the same object as A, B or M (as used by the betweenness-centrality benchmark), because no input is read after C's storage is replaced.", "quantifier": "every aliasing pattern between C and the inputs, every input", "why_tests_cant": "Use-after-free may go unnoticed in a run.", "anchors": ["spgemm-blocks/masked-spgemm.h", "spgemm-blocks/common.h: initC", "benchmarks/BCAllGrb.cpp", "spgemm-blocks/masked-spgemm-inner.h: MaskedSpGEMM2p"]}
{"id": "C24", "title": "Inputs are read only", "statement": "When C is a different object, A, B and M are unchanged by the multiplication.", "quantifier": "every input", "why_tests_cant": "Needs all code paths.", "anchors": ["spgemm-blocks/masked-spgemm.h"]}
{"id": "C25", "title": "Output pattern does not depend on the numerical values", "statement": "Which positions are stored in C depends only on the patterns of A, B and M: a stored zero or a cancellation to zero still yields a stored entry.", "quantifier": "every two value assignments on the same patterns, every multop/addop", "why_tests_cant": "Universally quantified over pairs of inputs (hyperproperty).", "anchors": ["spgemm-blocks/msa/MSAAlgorithm.h", "spgemm-blocks/hash/MaskedHashAlgorithm.h", "spgemm-blocks/mca/MCAAlgorithm.h"]}
{"id": "C26", "title": "Plain and complemented results partition the unmasked product", "statement": "For the same A, B, M the plain-mask result and the complemented-mask result have disjoint patterns and together contain every entry of the unmasked product A*B with the same values.", "quantifier": "every well-formed A, B, M, every multop/addop", "why_tests_cant": "Relational statement over all inputs.", "anchors": ["spgemm-blocks/msa/MSAAlgorithm.h", "spgemm-blocks/hash/MaskedHashAlgorithm.h"]}
{"id": "C27", "title": "Empty matrices", "statement": "A matrix with zero rows (or empty rows) is handled without touching memory outside the allocated arrays.", "quantifier": "every input including A.rows == 0", "why_tests_cant": "Boundary that sample inputs never include.", "anchors": ["spgemm-blocks/scan.h: exclusiveScan (dst[0] = 0)", "spgemm-blocks/masked-spgemm.h"]}
{"id": "C28", "title": "No conflicting unsynchronised accesses in the parallel region", "statement": "No two threads access the same shared location between two barriers with at least one writing; in particular each C.rowptr cell is accessed by one thread only.", "quantifier": "every thread count, every work distribution", "why_tests_cant": "A race manifests only under particular timings; benign ones never fail a test.", "anchors": ["spgemm-blocks/common.h: setRowOffsets, copyValuesToC", "spgemm-blocks/masked-spgemm.h: MaskedSpGEMM1p, MaskedSpGEMM2p", "spgemm-blocks/scan.h"]}
{"id": "C29", "title": "Poly driver produces well-formed output", "statement": "The adaptive (poly) one-phase driver produces a well-formed CSR whose rows equal the masked product.", "quantifier": "every well-formed input", "why_tests_cant": "Requires all inputs; uninitialised row counts may happen to be zero in a run.", "anchors": ["spgemm-blocks/masked-spgemm-poly.h: MaskedSpGEMM1p"]}
{"id": "C30", "title": "Repeated mask columns", "statement": "The kernels terminate and give the set-semantics result even if a mask row repeats a column.", "quantifier": "every mask row including ones with duplicates", "why_tests_cant": "Inputs with duplicates are rarely tested.", "anchors": ["spgemm-blocks/hash/HashAccumulator.h: gather, findIdxForce", "spgemm-blocks/hash/MaskedHashAlgorithm.h: MaskedHashComplemented::symbolicRow", "spgemm-blocks/msa/MaskedSparseAccumulator1A.h: setAllowed"]}
{"id": "C31", "title": "CSC to CSR conversion preserves the matrix", "statement": "Constructing a CSR from a CSC keeps every (row, column, value) triple, produces a well-formed row pointer array and rows sorted by column when columns are visited in order.", "quantifier": "every well-formed CSC matrix", "why_tests_cant": "All shapes and patterns.", "anchors": ["CSR.h: CSR(const CSC&)", "CSC.h"]}
{"id": "C32", "title": "Index-base conversion round trip", "statement": "ConvertOneBased followed by ConvertZeroBased restores the matrix, both are idempotent, and sumall is unaffected.", "quantifier": "every CSR matrix", "why_tests_cant": "All matrices.", "anchors": ["CSR.h: ConvertOneBased, ConvertZeroBased"]}
{"id": "C33", "title": "Row sorting keeps the matrix", "statement": "sortIds leaves row pointers unchanged and makes each row sorted by column while keeping the multiset of (column, value) pairs of the row.", "quantifier": "every CSR matrix", "why_tests_cant": "All rows.", "anchors": ["CSR.h: sortIds, Sorted"]}
{"id": "C34", "title": "Copy and assignment are deep", "statement": "Copy construction and assignment produce an equal matrix; later modification of either does not affect the other.", "quantifier": "every matrix", "why_tests_cant": "All sizes including degenerate shapes.", "anchors": ["CSR.h: copy constructor, operator="]}
{"id": "C35", "title": "Intersection keeps exactly common positions", "statement": "Intersect returns the matrix of positions present in both inputs with the combined values, for sorted rows.", "quantifier": "every pair of well-formed sorted CSR matrices with the same shape", "why_tests_cant": "All patterns.", "anchors": ["CSR.h: Intersect", "CSC.h: intersect"]}
{"id": "C36", "title": "Transpose keeps the triples under any schedule", "statement": "The parallel transpose stores for every input triple (i,j,v) the triple (j,i,v), each exactly once, whatever the order in which threads reserve slots.", "quantifier": "every well-formed CSR and every interleaving", "why_tests_cant": "Slot order is timing dependent.", "anchors": ["util/transpose.h: csr2csc_atomic_nosort"]}
{"id": "C37", "title": "Key-value merge sort is a stable sort", "statement": "The recursive key/value sort permutes the pairs and orders them by key, for every array length >= 1.", "quantifier": "every array", "why_tests_cant": "All arrays.", "anchors": ["utility.h: mergesort, cpu_sorting_key_value"]}
{"id": "C38", "title": "Legacy prefix sum", "statement": "scan(in,out,N) writes out[i] = in[0]+...+in[i-1] for every i < N and reads only in[0..N-2].", "quantifier": "every N >= 1, every thread count", "why_tests_cant": "Threshold at 2^17 separates sequential and parallel code.", "anchors": ["utility.h: scan, seq_scan"]}
{"id": "C39", "title": "k-truss loop computes the k-truss", "statement": "The benchmark's k-truss loop terminates and its final graph is the largest subgraph in which every edge has at least k-2 supporting triangles inside the subgraph.", "quantifier": "every symmetric adjacency pattern and k", "why_tests_cant": "Fixpoint over all graphs.", "anchors": ["benchmarks/KTrussAllGrb.cpp: msp_ktruss"]}
{"id": "C40", "title": "Triangle counting", "statement": "Summing the plus-pair masked product L .* (L*L) of the strictly lower triangular part counts each triangle exactly once.", "quantifier": "every simple undirected graph", "why_tests_cant": "All graphs.", "anchors": ["benchmarks/TriCntAllGrb.cpp"]}
{"id": "C41", "title": "Buffer release from any starting state", "statement": "Whatever dirty size an accumulator was handed, after any rows the dirty size its releaseBuffer reports is such that every byte at or above it is 0xFF, so accumulators can follow one another in any order.", "quantifier": "every dirty size handed in, every accumulator", "why_tests_cant": "Depends on the residue of the dirty size modulo the entry size; the drivers only ever exercise one residue.", "anchors": ["spgemm-blocks/hash/HashAccumulator.h: releaseBuffer", "spgemm-blocks/msa/MaskedSparseAccumulator1A.h: releaseBuffer", "spgemm-blocks/msa/MaskedSparseAccumulator2A.h: releaseBuffer"]}
{"id": "C42", "title": "Construction from triples keeps the triples", "statement": "Building a CSC matrix from an array of triples, a vector of tuples or three parallel arrays with indices in range yields a well-formed matrix that stores exactly the given triples, duplicates included, with every column ordered by row id; the parallel per-column sort has no data race and one outcome.", "quantifier": "every list of triples with in-range indices, every schedule, every std::sort", "why_tests_cant": "Order within columns depends on std::sort and on thread timing; all inputs.", "anchors": ["CSC.h: CSC(Triple*, nnz, m, n), CSC(vector<tuple>&, m, n, addop), CSC(ri, ci, val, nnz, m, n)"]}
{"id": "C43", "title": "Row binning splits the work and sizes the tables", "statement": "BIN::set_max_bin counts the products of every row, splits the rows into consecutive ranges covering all rows, one per thread, none with more than the average work plus the largest row; it puts a row into bin 0 exactly if it has no products, else into the least bin whose table size holds min(products, columns); a thread's local hash table is large enough for every row of its range.", "quantifier": "every pair of well-formed matrices, every thread count and interleaving", "why_tests_cant": "Work distributions and wrap-around limits; sizes past 2^17.", "anchors": ["BIN.h: set_intprod_num, set_rows_offset, set_bin_id, set_max_bin, create_local_hash_table"]}
{"id": "C44", "title": "SPA product equals the masked product", "statement": "MaskedSPASpGEMM always ends without a fault, for every number of threads and interleaving, with the masked product: each mask column with a product once per row (also if the mask repeats it), in the order of the first product, its products summed in storage order.", "quantifier": "every compatible A, B, M, every semiring", "why_tests_cant": "All patterns, schedules, and repeated mask columns.", "anchors": ["spa_mult.h: MaskedSPASpGEMM", "SPA.h: SPA, SPAStructure"]}
{"id": "C45", "title": "Hash-table masked products equal the masked product", "statement": "mxm_hash_mask and mxm_hash_mask_wobin always end without a fault, for every number of threads and interleaving, with the masked product: each mask column with a product exactly once per row, also if the mask repeats it, its products summed in storage order; no probe of the table runs for ever or leaves it.", "quantifier": "every compatible A, B, M, every semiring, every hash width, every schedule", "why_tests_cant": "Hash collisions, full tables, repeated mask columns and schedules: all inputs.", "anchors": ["mask_hash_mult.h: mxm_hash_mask, mxm_hash_mask_wobin", "mask_hash.h: map_lp"]}
{"id": "C46", "title": "HashSpGEMM equals the product", "statement": "HashSpGEMM always ends without a fault, for every number of threads, interleaving and left-over table content, with the product A*B: each column with a product exactly once per row, its products summed in storage order, and in increasing column order if sorted output is asked for; the tables may fill up completely.", "quantifier": "every A, B with matching inner dimension, every semiring, every std::sort", "why_tests_cant": "Full tables, collisions and schedules: all inputs.", "anchors": ["hash_mult_hw.h: HashSpGEMM, hash_symbolic, hash_numeric"]}
{"id": "C47", "title": "Older inner-product driver equals the masked product", "statement": "innerSpGEMM_nohash always ends without a fault, for every number of threads and interleaving, with the masked product: in every row the mask columns with a product, in the mask's order, each the sum of its products in storage order; the threads' pieces are stitched together into one well-formed matrix.", "quantifier": "every compatible A, B, M with ordered rows of A and columns of B, every semiring, every thread count", "why_tests_cant": "Shapes, semirings, thread counts and schedules: all inputs.", "anchors": ["inner_mult.h: innerSpGEMM_nohash"]}
{"id": "C48", "title": "Heap and MCA products of heap_mult_generic.h", "statement": "HeapSpGEMM always ends without a fault, for every number of threads and interleaving: with MaskedHeap_v0/v1/v2 and MCA_v1/v2/v3 with the masked product A*B by M (MCA: summed in storage order; heap: in some order, hence exactly for a commutative and associative addop), with BasicHeap and HeapLinear (any threshold) with the product A*B, every row in increasing column order; it changes no other matrix and has no data race.", "quantifier": "every compatible A, B, M with ordered rows, every semiring, every thread count and schedule, every linear threshold", "why_tests_cant": "Shapes, empty rows, aliasing of the output, thread counts and product counts past 2^31: all inputs.", "anchors": ["heap_mult_generic.h: HeapSpGEMMImpl, BasicHeap, HeapLinear, MaskedHeap_v0/v1/v2, MCA_v1/v2/v3"]}
{"id": "C49", "title": "Column heap product equals the product", "statement": "HeapSpGEMM on compressed columns always ends without a fault, for every number of threads and interleaving, with the product A*B: in every column the rows with a product, in increasing order, each value the sum of its products in some order (hence the product for a commutative and associative addop); no array is lost, no data race, no other matrix changed; C may be one of the inputs.", "quantifier": "every A with ordered columns and B with matching inner dimension, every semiring, every thread count and schedule", "why_tests_cant": "Shapes, heap orders, thread counts, aliasing and sizes past 2^17: all inputs.", "anchors": ["heap_mult.h: get_flop, HeapSpGEMM"]}
{"id": "C50", "title": "Radix sort is a stable sort", "statement": "radix_sort always ends without a fault, given a buffer of as many cells as elements: the elements are permuted into ascending key order, elements with equal keys keep their order, nothing behind the elements is touched, and for keys of 2, 4 or 8 bytes the result is in the array itself, although the digit counters are only as wide as the number of elements asks for and may wrap around.", "quantifier": "every key type built from integers, floating point numbers, bool, pairs, tuples and arrays; every element type, list and buffer", "why_tests_cant": "All keys and lengths, in particular lengths at the limits of the counter types.", "anchors": ["radix_sort/radix_sort.hpp: radix_sort, RadixSorter, SizedRadixSorter, counting_sort_impl, to_unsigned"]}
{"id": "C51", "title": "Outer-product multiplication equals the product", "statement": "OuterSpGEMM always ends without a fault, for every number of threads and interleaving of the threads that share the blocks of products, with the product A*B: in every row the columns with a product, in increasing order, each value the sum of its products in some order (hence the product for a commutative and associative addop); no data race, no other matrix changed, nothing lost; C may be B.", "quantifier": "every A by columns and B by rows with matching inner dimension, every semiring, every number of blocks and their width, every thread count and schedule", "why_tests_cant": "Atomic reservations, partial flushes, block boundaries, sort keys and sizes past 2^17 and 2^27: all inputs and schedules.", "anchors": ["outer_mult.h: OuterSpGEMM_stage, OuterSpGEMM, doRadixSort, doMerge, getFlop"]}
{"id": "C52", "title": "Betweenness centrality by masked products", "statement": "The benchmark's betweenness centrality (forward frontiers by complemented masked products, dependencies backward by plain masked products) ends for every directed graph and list of sources, after at most as many rounds as there are vertices, and gives each vertex v the sum, over the sources s and all targets t, of the fraction of the shortest paths from s to t on which v lies strictly in between.", "quantifier": "every directed graph, every non-empty list of sources, every driver pair, thread count and schedule", "why_tests_cant": "Equality with a count of all shortest paths, for all graphs.", "anchors": ["benchmarks/BCAllGrb.cpp: msp_bc_internal"]}
{"id": "C53", "title": "Reading a matrix file gives exactly the entries of the file", "statement": "Reading a Matrix Market coordinate file returns its sizes and exactly the entries it stands for (for a symmetric file also the mirror image of each entry off the diagonal, for a skew-symmetric one the negated mirror image; without the diagonal if so asked), whatever the comments say, with or without a last newline and whatever follows the last entry; the matrix built from it is well-formed. Reading a binary file gives the matrix that was written, and a file that ends too early gives no matrix. Reading comes to an end on any bytes.", "quantifier": "every file of the format, every value type, every sort with the contract of std::sort; for the end of reading: every byte sequence", "why_tests_cant": "Infinitely many texts; the failures hide in symmetry words, spaces, fractions and line lengths.", "anchors": ["IO.h: ReadASCII, ReadASCII_Triples, ReadBinary"]}
{"id": "C54", "title": "Triangle counting of TriCntAll counts the triangles", "statement": "On any square matrix preprocessInput ends with a strictly lower triangular matrix of ones, in order, whose graph is the input's undirected graph without loops, vertices renumbered by degree; and every product main then runs ends, for every number of threads and interleaving, with a matrix whose sum is the number of triangles of that graph modulo 2^64.", "quantifier": "every square input matrix (loops, parallel and one-sided entries), every std::sort, every algorithm of main, thread count and schedule", "why_tests_cant": "Equality with a count of all triangles, for all graphs, algorithms and schedules.", "anchors": ["benchmarks/TriCntAll.cpp: preprocessInput, HashIntersect, main"]}
{"id": "C55", "title": "Random inputs of the heat map", "statement": "removeDuplicates returns the number of different positions and leaves one triple for each, in ascending order, at the front of the array; generateRandomTriples gives 1 at exactly the drawn positions; createMatrices ends for any degree range with one matrix per degree degMin, 2 degMin, ... up to degMax, of the shapes asked for, in order, equal in both formats, the matrices A, B and M being drawn independently; and main multiplies every combination once, or with sameAB those with A and B of the same degree.", "quantifier": "every number of values, every drawn sequence, every dimension and degree range, every std::sort", "why_tests_cant": "All sequences of random numbers and all sizes, in particular 0 and those at the limits of the index type.", "anchors": ["util/triple-util.h: removeDuplicates, generateRandomTriples", "benchmarks/HeatMap.cpp: createMatrices, main"]}
{"id": "C56", "title": "Checksums tell different results apart", "statement": "calculateChecksum returns the 16-bit sum with end-around carry, complemented, of the little-endian 16-bit words of the bytes (zero-padded to an even number), for every number of bytes; changing one word changes the checksum, unless it is from 0 to 65535 or back; checksum(A) combines those of the three arrays of the matrix, so that matrices with different arrays get different texts as far as 16-bit sums can tell, in particular when entries trade places.", "quantifier": "every byte sequence, every matrix", "why_tests_cant": "All byte sequences; collisions are a matter of sums modulo 2^16-1.", "anchors": ["benchmarks/benchmarks-util.h: calculateChecksum, checksum"]}
{"id": "C57", "title": "Labels of the reports", "statement": "processAlgorithmName turns the text of the macro argument naming a driver into the name of its kernel with its template arguments, no two of main's algorithms share a label, and any other text keeps what it says except the brackets that enclose it; getFileName returns the part of a path behind its last slash, or all of it, without reading outside the path.", "quantifier": "every kernel name, every text, every path", "why_tests_cant": "All strings, in particular those without a slash or a bracket.", "anchors": ["benchmarks/benchmarks-util.h: processAlgorithmName, getFileName", "benchmarks/MaskedAllSpGEMM.cpp: getFileName"]}
{"id": "C58", "title": "Numbers of operations of a product", "statement": "Each of the functions get_flop (two matrices by rows, two by columns, one by columns and one by rows) returns twice the number of multiplications of the product, that is of the pairs of an entry of the left and an entry of the right matrix with the column of the first equal to the row of the second; it does so without reading outside the arrays and for every distribution of the iterations over threads.", "quantifier": "every pair of well-formed matrices with matching inner dimension, every schedule, every width of the index type", "why_tests_cant": "All matrices and schedules, in particular products of counts past the index type.", "anchors": ["multiply.h: get_flop(CSR, CSR), get_flop(CSC, CSR)", "heap_mult.h: get_flop", "inner_mult.h: get_flop"]}
{"id": "C59", "title": "Matrices from graphs", "statement": "The constructors of a CSR or CSC matrix from a GTgraph graph give, for every graph, a well-formed matrix with strictly increasing rows (columns) that has exactly one entry for each pair of vertices joined by an edge, its value the sum of the weights of the parallel edges, and read nothing outside the edge arrays.", "quantifier": "every graph (any number of vertices and edges, parallel edges, loops), every value type and addition, every sort with the contract of std::sort", "why_tests_cant": "All edge lists, in particular empty ones and those with parallel edges in any order.", "anchors": ["CSR.h: CSR(graph&)", "CSC.h: CSC(graph&)"]}
{"id": "C60", "title": "The R-MAT generator", "statement": "For every scale, degree and sequence of random numbers graphGen ends with a graph on 2^scale vertices with 2^scale*degree edges, none a self loop: each edge is reached by descending level by level into the quadrant its random number falls into (with probabilities a, b, c, d varied by at most 5 per cent), with a weight of its own, and the edges are sorted by start; the matrix built from it has an entry exactly where an edge is. Both inputs of the sample programs are drawn with the requested parameters.", "quantifier": "every scale and degree, every arithmetic of the floating point type (rounded or exact), every sequence of draws of the four streams, every initial contents of the allocated arrays", "why_tests_cant": "All sequences of random numbers, key sizes up to and past the radix bits, and termination.", "anchors": ["GTgraph/R-MAT/graph.c: graphGen, choosePartition, varyParams", "GTgraph/R-MAT/utils.c: countsort_aux, countingSort", "benchmarks/HeatMap.cpp: createRMATMatrix", "sample/sample_common.hpp: SetInputMatricesAsCSC"]}
{"id": "C61", "title": "Shuffling keeps the matrix", "statement": "shuffleIds reorders the entries inside each row (column for CSC) and nothing else: ids and values move together, pointers and sizes stay, the result is well-formed, whatever the random numbers are; every order of every row can come out, and all orders of a row are equally likely.", "quantifier": "every well-formed matrix, every value type, signed or unsigned index type, every sequence of draws in range", "why_tests_cant": "All sequences of random numbers; likelihoods need counting all of them.", "anchors": ["CSR.h: shuffleIds", "CSC.h: shuffleIds"]}
{"id": "C62", "title": "Equality of matrices", "statement": "operator== returns true exactly when both matrices have the same sizes and, row by row (column by column), the same entries, values compared by ErrorTolerantEqual; it does not matter whether either is zero- or one-based; it reads nothing outside the arrays, is an equivalence relation, and does not depend on the order of the entries of a row. ErrorTolerantEqual is exact for integers and for doubles means equal up to 0.001 absolutely or relatively.", "quantifier": "every pair of well-formed matrices, every index width, every value", "why_tests_cant": "All pairs of matrices and all values, among them extreme integers and NaN.", "anchors": ["CSR.h: operator==", "CSC.h: operator==", "utility.h: ErrorTolerantEqual"]}
{"id": "C63", "title": "The bit map is a set of positions", "statement": "After reset and any calls of set_bit, get_bit answers membership and get_next_bit returns the next position in the set behind the given one, or -1; a copy has the same bits; no call leaves the array.", "quantifier": "every size up to 2^64, every set of positions in range", "why_tests_cant": "All sizes and sets, in particular word boundaries and positions past 2^32.", "anchors": ["BitMap.h: BitMap, reset, set_bit, get_bit, get_next_bit, copy_from"]}
{"id": "C64", "title": "Submatrices", "statement": "SpRef, SpRef1 and SpRef2 return the submatrix of the chosen rows and columns: column i of the result holds, in the order of the original column, the entries of column ci[i] whose row is chosen (SpRef and SpRef2 once for every time the row is chosen), with the new row numbers, as a well-formed matrix of |ri| rows and |ci| columns; ids out of range stop it with the message; nothing outside the arrays is read or written.", "quantifier": "every well-formed CSC with sorted columns, every list of row ids (sorted for SpRef and SpRef2) and of column ids", "why_tests_cant": "All matrices and selections, among them empty ones and ids at the boundary.", "anchors": ["CSC.h: SpRef, SpRef1, SpRef2, intersect"]}
{"id": "C65", "title": "Matrices move between GraphBLAS and the classes unchanged", "statement": "CSR(GrB_Matrix), CSC(GrB_Matrix) and CSR(GrB_Matrix*, true) yield an object with exactly the entries of the GraphBLAS matrix, in order; get_grb_mat and get_grb_mat_ptr put exactly the entries of the object back, tell GraphBLAS the true sizes and order of the arrays, and leave an object whose destructor releases nothing; no array is lost, shared or released twice; the row and column numbers given to GrB_Matrix_build are those of the entries.", "quantifier": "every GraphBLAS matrix (by rows or by columns, with one value for all entries or one each, in order or not), every object, every heap around them, every size of value", "why_tests_cant": "Storage variants that GraphBLAS chooses by itself, all sizes and all heaps.", "anchors": ["CSR.h: CSR(GrB_Matrix), CSR(GrB_Matrix*, bool), get_grb_mat, get_grb_mat_ptr", "CSC.h: CSC(GrB_Matrix), get_grb_mat"]}
{"id": "C66", "title": "The graph programs answer for the graph in the file", "statement": "From the text of a square Matrix Market file, read_grb_mtx, sort_by_degree, get_lowtri and the algorithm give the answer about the graph in the file: TriCntAllGrb the number of its triangles (edges taken without direction, loops and repeated entries ignored), KTrussAllGrb its k-truss, BCAllGrb the centralities in the directed graph. sort_by_degree renumbers the vertices by falling degree and keeps every entry; get_lowtri keeps the entries below the diagonal; convert_to_csc copies; avoid_iso sets one entry. A file that cannot be used is reported.", "quantifier": "every text of a file, every order in which GraphBLAS returns the tuples, every library call, every thread count and schedule", "why_tests_cant": "The theorem covers every graph and every renumbering that ties in the degrees allow, and the whole way from the characters of the file to the answer.", "anchors": ["grb_util.h: read_grb_mtx, sort_by_degree, get_lowtri, convert_to_csc, avoid_iso", "benchmarks/TriCntAllGrb.cpp, KTrussAllGrb.cpp, BCAllGrb.cpp: main"]}
{"id": "C67", "title": "The outer-product SpGEMM with blocks cut by work is the product", "statement": "OuterSpGEMM of outer_mult2.h, which cuts the rows of A into blocks and its columns into ranges of threads by counting products (do_symbolic), ends with C = A*B: exactly the cells that have a product, sorted in every row, every value the sum of its products in some order; no cell outside an array is read or written, no two threads race, and every other object is as before. With a commutative, associative addition all interleavings give the same C.", "quantifier": "every CSC matrix A and CSR matrix B with matching inner dimension, every number of blocks, width and thread count, every interleaving of the threads", "why_tests_cant": "The blocks and ranges depend on the numbers of products row by row; the theorem covers every pattern, every cut and every interleaving.", "anchors": ["outer_mult2.h: do_symbolic, ExtractKey2, doRadixSort, doMerge, OuterSpGEMM_stage, OuterSpGEMM"]}
{"id": "C68", "title": "Counting triangles block by block gives the counts of the whole matrix", "statement": "blocked_parallel_tc reads the blocks of a square matrix A from the files of a directory, multiplies block by block and prints totals: twice the number of products of A*A; as triangles the sum of the entries of A.*(A*A), which for the lower half of a graph with all values 1 is the number of its triangles; as nonzeros those of A*A and of A.*(A*A). Both masked algorithms agree on the number of nonzeros. The run always ends.", "quantifier": "every square matrix, every way to split its rows and columns into parts, every Matrix Market text of the blocks, every interleaving inside the library calls", "why_tests_cant": "A total is right only if the blocks partition all paths i-k-j; a test sees some matrices and some grids.", "anchors": ["sample/blocked_parallel_tc.cpp: main, 45-203"]}
{"id": "C69", "title": "The constructor from a file name builds the matrix the file stands for", "statement": "CSR(filename) reads a Matrix Market file and builds a well-formed matrix with the sizes of the file, as many entries as the file stands for (an off-diagonal entry of a symmetric file stands for two, one of a skew-symmetric file for two of opposite sign), and in each row the entries of the file; column-wise files give sorted rows. Reading ends for every file.", "quantifier": "every text of a file, every index and value type, every function that reads a number", "why_tests_cant": "Headers, comments, line lengths and counts vary without bound; the theorem covers every file of the format, the findings every file of their kind.", "anchors": ["CSR.h: CSR(const string filename), 538-645"]}
{"id": "C70", "title": "A matrix split into pieces of rows is the matrix, and the products of its halves are the halves of the product", "statement": "SplitTuples puts every entry into the piece that owns its row: the pieces hold each entry once, and piece o has the rows from o * perpiece on. The two matrices NUMA-aware.cpp builds from two pieces are the upper and the lower half of A, and the two outer products are the upper and the lower half of A * B, whatever the interleavings.", "quantifier": "every well-formed matrix, every number of pieces, every sort function with the contract of std::sort, every distribution and interleaving of the product", "why_tests_cant": "Which rows a piece gets depends on remainders of the sizes; the tests use square matrices with an even number of rows.", "anchors": ["SplitTuples.h: SplitTuples(CSC&, int), SplitTuples(CSR&, int)", "sample/NUMA-aware.cpp 82-111"]}
{"id": "C71", "title": "A benchmark reports the product it ran and releases it", "statement": "For each number of threads run prints one line, whose nnz, sum and checksum are those of a result of the product with that number of threads, whatever was computed before on the same output object. It ends without touching released or unset memory, and afterwards the arrays in use are those that were in use before.", "quantifier": "every product, every way a product hands over its result, all numbers of warm-up and measured calls, all lists of numbers of threads, every allocator", "why_tests_cant": "A leak or a stale count does not change what a single call computes, and the tests do not look at the memory in use after a benchmark.", "anchors": ["benchmarks-util.h: run", "CSR.h: make_empty, ~CSR", "spgemm-blocks/common.h: initC", "spa_mult.h, mask_hash_mult.h, inner_mult.h, heap_mult_generic.h: the stores to the output object"]}
{"id": "C72", "title": "ComplementMaskedSpGEMM prints the complemented square of the matrix in the file", "statement": "From a Matrix Market file of a square matrix, for every product of the mode the program prints one line per outer iteration, with the number of positions of the product of the matrix with itself outside its own entries, and the sum of all products at these positions modulo 2^64. All products agree on the checksum of the row pointers; those that order the columns, and those that do not, agree on all checksums. Nothing is left in memory.", "quantifier": "every file, all settings, every number of threads, schedule and interleaving, every std::sort, every allocator", "why_tests_cant": "The scripts compare the lines of different algorithms by eye and on a few files; nothing checks that they are right.", "anchors": ["benchmarks/ComplementMaskedSpGEMM.cpp: main", "benchmarks-util.h: run, processAlgorithmName, checksum", "IO.h: ReadASCII", "masked-spgemm.h: MaskedSpGEMM1p, MaskedSpGEMM2p"]}
{"id": "C73", "title": "TriCntAll prints the number of triangles of the graph in the file", "statement": "From a Matrix Market file of a square matrix, for every algorithm of the mode the program prints one line per outer iteration, in the order of the source, with the number of threads and, as sum, the number of triangles of the graph (entries taken without direction, loops and repeated entries ignored) modulo 2^64. The nnz of every line is the number of edges that close a triangle whose third vertex lies between them in the order of the degrees. Nothing is left in memory.", "quantifier": "every file, all settings, every number of threads, schedule and interleaving, every std::sort, every allocator", "why_tests_cant": "Thirty-seven algorithms over one file, with memory handed from call to call; the repository has no reference counts to compare with.", "anchors": ["benchmarks/TriCntAll.cpp: main, preprocessInput, HashIntersect", "benchmarks-util.h: run, processAlgorithmName", "IO.h: ReadASCII"]}
{"id": "C74", "title": "MaskedAllSpGEMM prints the masked product of three files", "statement": "From three Matrix Market files with matching sizes the program prints, in every outer iteration, one line for each of its ten products in the order of the source, with the name of the first file, the number of threads, twice the number of multiplications of A * B as flop, the number of positions of the mask with a product as nnz, and the checksums of the values and the column indices of a matrix that holds the masked product. If addition is associative and commutative the products with ordered rows show the same checksums. Nothing is left in memory.", "quantifier": "every three files, all settings, every number of threads, schedule and interleaving, every std::sort, every allocator", "why_tests_cant": "Ten algorithms over any three files, with memory handed from call to call; the checksums are only compared by eye.", "anchors": ["benchmarks/MaskedAllSpGEMM.cpp: main, run, checksum, getFileName", "IO.h: ReadASCII"]}
{"id": "C75", "title": "Column matrix from a list of edges", "statement": "The constructor of CSC from a vector of pairs (row, column), called with a number of edges not above the length of the vector and edges in range, always ends, without a race, in one and the same well-formed matrix that stores the value 1 for every edge, equal edges as often as they occur, with ordered columns.", "quantifier": "every list of edges, every number of edges used, every schedule and interleaving, every std::sort", "why_tests_cant": "Two parallel loops over any list of edges; nothing in the repository calls the constructor.", "anchors": ["CSC.h: CSC(std::vector<std::pair<int64_t, int64_t>>, IT, IT, IT)", "utility.h: CumulativeSum"]}
{"id": "C76", "title": "MergeDuplicates adds up equal positions", "statement": "MergeDuplicates, called on a well-formed column matrix with ordered columns, always ends, without a race, in one and the same well-formed matrix whose columns are strictly ordered, have the same rows as before, and hold for every row the stored values added up in the order of storage.", "quantifier": "every matrix, every addition, every schedule and interleaving", "why_tests_cant": "Two parallel loops over any matrix; nothing in the repository calls the function.", "anchors": ["CSC.h: MergeDuplicates", "utility.h: CumulativeSum"]}
{"id": "C77", "title": "GenMatrices writes its two matrices to files", "statement": "The program GenMatrices, given two matrices in text files or the parameters of the generator, ends in one way only: it returns 0, writes two Matrix Market files without values that stand for exactly the positions of the left and of the right matrix, changes no other file and prints the two numbers of entries; reading a written file back with ReadASCII gives the positions with the value 1. With fewer than three arguments it returns -1 and writes nothing.", "quantifier": "every argument list, every pair of input files of any shape, every draw of the generator, every std::sort", "why_tests_cant": "The inputs are all matrices and all names; the two scripts run it on generated square matrices of a few scales only.", "anchors": ["sample/GenMatrices.cpp: main", "sample/sample_common.hpp: SetInputMatricesAsCSC", "CSR.h: CSR(const CSC&)", "IO.h: ReadASCII"]}
{"id": "C78", "title": "all_parallel_tc reports the masked square of its matrix", "statement": "The program all_parallel_tc, given a text file of a matrix and a number of threads, ends with result 0: it prints twice the number of multiplications of the square of the matrix and, for MaskedSPASpGEMM, innerSpGEMM_nohash and mxm_hash_mask, the number of positions of the matrix at which its square has a product, the same for all three, and the number of threads; five calls of each product on one output object leave no memory behind. With fewer than two arguments it returns -1.", "quantifier": "every file in Matrix Market format with integral values, every number of threads, every std::sort and allocator", "why_tests_cant": "The inputs are all matrices; every product is called with every distribution of rows that the weights give, and lost memory is not observed by looking at the output.", "anchors": ["sample/all_parallel_tc.cpp: main", "spa_mult.h: MaskedSPASpGEMM", "inner_mult.h: innerSpGEMM_nohash", "mask_hash_mult.h: mxm_hash_mask", "multiply.h: get_flop"]}
{"id": "C79", "title": "InnerSpGEMM reports the masked product of its files", "statement": "The program InnerSpGEMM, given the text files of two matrices and a mask that fit, and perhaps a number of threads, ends with result 0: it prints twice the number of multiplications of the product and, for the number of threads given or else for 4, 8, 16, 32 and 64, the number of positions of the mask at which the product has a term; the two calls of innerSpGEMM_nohash for each number of threads leave no memory behind. With fewer than three arguments it returns -1.", "quantifier": "every three files in Matrix Market format with integral values whose sizes fit, every number of threads, every std::sort and allocator", "why_tests_cant": "The inputs are all matrices; every number of threads gives another distribution of the rows, and lost memory is not observed by looking at the output.", "anchors": ["sample/InnerSpGEMM.cpp: main", "inner_mult.h: innerSpGEMM_nohash", "multiply.h: get_flop", "IO.h: ReadASCII"]}
{"id": "C80", "title": "MaskedSPASpGEMM (the program) reports the product and the masked product of its files", "statement": "The program MaskedSPASpGEMM, given the text files of two matrices and a mask that fit, and perhaps a number of threads, ends with result 0. It prints twice the number of multiplications of the product. For the number of threads given, or else for 4, 8, 16, 32 and 64, it prints ten values of the product A*B computed by HashSpGEMM at ten different positions, the number of its positions and, after sortIds and Intersect, the number of those in the mask; then again for each number of threads the number of positions of the mask at which the product has a term, computed by the function MaskedSPASpGEMM. No memory is left behind. With fewer than three arguments it returns -1.", "quantifier": "every three files in Matrix Market format with integral values whose sizes fit, every number of threads, every std::sort and allocator", "why_tests_cant": "The inputs are all matrices; small products read values that do not exist, which a test on larger files does not show, and lost memory is not observed by looking at the output.", "anchors": ["sample/MaskedSPASpGEMM.cpp: main", "hash_mult_hw.h: HashSpGEMM", "CSR.h: sortIds", "CSR.h: Intersect", "spa_mult.h: MaskedSPASpGEMM", "multiply.h: get_flop", "IO.h: ReadASCII"]}
{"id": "C81", "title": "MaskedHashSpGEMM (the program) reports the square of its matrix and the masked square", "statement": "The program MaskedHashSpGEMM, given the text files of two matrices, the first one square, and perhaps a number of threads, ends with result 0, whatever order shuffleIds gives to the entries of the rows. With A the first matrix it prints twice the number of multiplications of A*A. For the number of threads given, or else for 4, 8, 16, 32 and 64, it prints ten values of A*A computed by HashSpGEMM at ten different positions; then for each number of threads the number of positions of A at which A*A has a term, computed by mxm_hash_mask_wobin, and the same computed by mxm_hash_mask. The second file does not matter. No memory of the results is left behind. With fewer than three arguments it returns -1.", "quantifier": "every two files in Matrix Market format with integral values, every file name, every number of threads, every sequence of draws, every std::sort and allocator", "why_tests_cant": "The inputs are all matrices and file names; an empty row only shows in a library built with assertions, a name without a point and small products read what does not exist, and the order after the shuffle is one of very many.", "anchors": ["sample/MaskedHashSpGEMM.cpp: main", "sample/sample_common.hpp: SetInputMatricesAsCSR", "sample/sample_common.hpp: SetInputMatricesAsCSC", "CSR.h: shuffleIds", "hash_mult_hw.h: HashSpGEMM", "mask_hash_mult.h: mxm_hash_mask_wobin", "mask_hash_mult.h: mxm_hash_mask", "multiply.h: get_flop", "IO.h: ReadASCII"]}
{"id": "C82", "title": "HashSpGEMM (the program) reports the product of its files", "statement": "The program HashSpGEMM, given the text files of two matrices that fit and perhaps a number of threads, ends with result 0, whatever order shuffleIds gives to the entries of the rows. It prints twice the number of multiplications of A*B. For the number of threads given, or else for 32 and 64, it prints the values of A*B at its first ten positions in the order of rows and columns, and the number of its positions. No memory of the results is left behind. With fewer than three arguments it returns -1.", "quantifier": "every two files in Matrix Market format with integral values, every file name, every number of threads, every sequence of draws, every std::sort and allocator", "why_tests_cant": "The inputs are all matrices and file names; an empty row only shows in a library built with assertions, a name without a point and small products read what does not exist, and the order after the shuffle is one of very many.", "anchors": ["sample/HashSpGEMM.cpp: main", "sample/sample_common.hpp: SetInputMatricesAsCSR", "CSR.h: shuffleIds", "hash_mult_hw.h: HashSpGEMM", "multiply.h: get_flop", "IO.h: ReadASCII"]}
{"id": "C83", "title": "HeapSpGEMM (the program) reports the size of the product of its files", "statement": "The program HeapSpGEMM, given the text files of two matrices that fit and perhaps a number of threads, has one outcome whatever the threads do: it ends with result 0, reports both matrices as sorted, prints twice the number of multiplications of A*B and, for the number of threads given or else for 32 and 64, the number of positions of A*B. No cell of the arrays of the results is left without an owner. With fewer than three arguments it returns -1.", "quantifier": "every two files in Matrix Market format with integral values, every file name, every number of threads, every interleaving, every std::sort", "why_tests_cant": "The inputs are all matrices and file names and the interleavings of eleven parallel calls for each number of threads; the memory lost in a call shows in no output.", "anchors": ["sample/HeapSpGEMM.cpp: main", "sample/sample_common.hpp: SetInputMatricesAsCSC", "heap_mult.h: HeapSpGEMM", "heap_mult.h: get_flop", "CSC.h: Sorted", "CSC.h: make_empty", "IO.h: ReadASCII"]}
{"id": "C84", "title": "OuterSpGEMM (the program) reports the size of the product of its files", "statement": "The program OuterSpGEMM, given the text files of two matrices that fit, with or without the numbers of threads, blocks and tuples, ends with result 0 whatever the shuffles draw and the threads do: it reports the four matrices as sorted, prints twice the number of multiplications of A*B and, for the number of threads given or else 1, the number of positions of A*B. No cell of the arrays of the calls is left without an owner. With fewer than three arguments it returns -1.", "quantifier": "every two files in Matrix Market format with integral values, every file name, every number of threads, blocks and tuples, every interleaving, every draw of the shuffles", "why_tests_cant": "The inputs are all matrices, shuffles and file names and the interleavings of sixteen parallel calls; the memory lost in a call shows in no output.", "anchors": ["sample/OuterSpGEMM.cpp: main", "sample/sample_common.hpp: SetInputMatricesAsCSC", "outer_mult.h: OuterSpGEMM", "multiply.h: get_flop", "CSC.h: shuffleIds", "CSR.h: shuffleIds", "CSR.h: make_empty", "CSC.h: Sorted", "CSR.h: Sorted"]}
