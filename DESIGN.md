# Formal model of MaskedSpGEMM — design

Source under study: `/repo` (C++ headers, read as text; never built or run).
Proof assistant: Coq 8.16.1, development in `/verif/rocq/theories` (logical root `Verif`), libraries used: Coq stdlib and std++ (lists, finite maps).

## 1. What is modelled, and how

* **Outcomes.** Every modelled function returns `res A := Ok a | Err fault` where `fault` distinguishes out-of-bounds access,
  reading an uninitialised cell, a failed `assert`, misaligned access, division by zero, use after free, a data race (OuterModel) and loop-fuel exhaustion (non-termination).
  Undefined behaviour is therefore a visible outcome; a correctness theorem always says `= Ok ...`.
* **Arrays** are lists with checked get/set; arrays obtained from `my_malloc(..., false)` are lists of `option` (None = never written).
* **Values.** The numerical type `NT`, `multop` and `addop` are arbitrary (section variables, generalised in every theorem), so results hold for
  floating point as well: no algebraic law is assumed unless the theorem says so.
* **Indices** (`IT`) are unbounded naturals, except where a property is about wrap-around (hash arithmetic, `adjustSize`, `splitMemory`, flop counting), where `mod 2^w` is written into the model.
* **Loops** are `for_` (structural in the trip count) or fuelled recursion with `Err OutOfFuel`.
* **Threads.** Parallel regions are modelled as programs over a shared memory with one step per shared read or write, any interleaving, and barriers (`Conc*.v`).
* **Library code** (`std::lower_bound`, `std::make_heap/pop_heap/push_heap` of libstdc++) is modelled by its libstdc++ algorithm; `std::sort` on integers by an insertion sort (the sorted permutation of integers is unique).

Files: `*Model.v` hold only definitions (each citing file and lines), `Spec.v` the independent specification, `*Proofs.v` lemmas,
`Prop*.v` the property theorems (`exact lemma`, `Print Assumptions`, a non-vacuity `Example` beside each).

## 2. Plan per property

| id | modelled how | proof idea |
|----|--------------|-----------|
| C01 | `msa` kernels over state/value arrays, index loops, checked access, asserts | loop invariant: after a prefix of products, slot j holds the fold of the products of column j so far; refinement of index loops to folds over row entry lists |
| C02 | same with complemented states and the dirty-index list | same invariant, plus dirty list = distinct touched columns in first-touch order |
| C03 | hash table as array with linear probing, `key*107 land mask` mod 2^w | probe-chain invariant (no empty slot between home and slot), table refines a finite map |
| C04 | same, with key list, findIdxForce and backward-shift erase | same, plus two-phase removal (allowed keys, then mask keys) |
| C05 | merge loop of B row and mask row as fuelled two-pointer loop | two sorted lists: the loop visits exactly the intersection |
| C06 | binary heap array (libstdc++ algorithm), Inspect look-ahead | heap top is minimum; invariant over "products not yet consumed" |
| C07 | same | same |
| C08 | dot-product loop | sorted-intersection lemma |
| C09 | driver as phases of thread programs over shared arrays | interleaving theorem for disjoint writers; per-thread refinement; concatenation of thread slices |
| C10 | same with symbolic phase | same, using C12 |
| C11 | corollary | both equal the same specification |
| C12 | kernels' symbolicRow | counting invariant |
| C13 | scanInputs, output cursor with bound | entries emitted <= min(flops, mask) |
| C14 | accumulator state before/after | part of kernel contract |
| C15 | byte-level splitMemory with 64-bit wrap | arithmetic (div/mod) |
| C16 | addresses as integers | arithmetic |
| C17 | distributeWork with libstdc++ lower_bound | monotone prefix sums |
| C18 | scan threads over shared memory | interleaving theorem (same-value writes allowed) |
| C19 | parallel-for with arbitrary iteration assignment | sums over permutations |
| C20 | operation sequence on the table | refinement to a finite map |
| C21 | adjustSize with wrap and fuel | power-of-two invariant; refutation for sizes over the limit |
| C22 | Heap.h over arrays | sift-down/up invariants |
| C23 | store of matrix objects, C may name the same object as an input | no input read after replacement; refutation for inner 2p |
| C24 | same store | frame property |
| C25 | corollary | pattern of the specification does not mention values |
| C26 | corollary | list reasoning on the specification |
| C27 | drivers on zero rows | refutation by computation |
| C28 | footprint of the phases | refutation (a thread with an empty range reads a cell another thread writes), and the exact condition under which the region is race free |
| C29 | poly driver | refutation by computation |
| C30 | kernels on duplicate masks | refutation by computation (non-termination / miscount), positive result where true |
| C31 | `csrOfCsc` (CSR.h conversion constructors) as counting, prefix sum, fill loops | fill loop invariant; per-row lists equal the columns read in order |
| C32 | ConvertOneBased/ZeroBased as parallel for over every cell, `Sumall` as threads with a private partial sum and a critical section | each cell owned by one iteration; sums over permutations |
| C33 | `sortIds`, `Sorted` with `std::sort` by contract | rows are disjoint slices; permutation reasoning |
| C34 | heap of blocks with allocate/free/copy; constructors, `operator=`, destructor | fresh blocks are disjoint; no double free |
| C35 | `Intersect` (parallel rows, legacy scan, fill) | sorted intersection; C38 |
| C36 | atomic fetch-and-add programs (`TransModel`) | ghost list of reservations; every interleaving permutes slots inside a column |
| C37 | recursive merge sort with index wrap | induction on length; stability as order of equal keys |
| C38 | legacy `scan` (utility.h) as region of threads | interleaving theorem |
| C39 | loop of rounds (product by any library call, then select) | number of entries decreases; greatest fixed point |
| C40 | strictly lower part, one product, sum | bijection between products and ordered triangles |
| C41 | byte-level release | arithmetic |
| C42 | constructors from triples and from arrays | bucket lemma |
| C43 | BIN.h as parallel loops over shared arrays, index wrap-around where sizes are shifted | disjoint writers; lower_bound on the prefix sums; least exponent |
| C44 | `SpaModel` rows, `TwoPassModel` (count, scan, fill over shared arrays) | flag/present invariant per row; generic two-pass theorem (`two_pass`) for any row kernel |
| C45 | `LpModel` (linear probing, hash reduced to the index width), `MaskHashModel` (tables per thread and per row) | table contents = first touches of the inserted keys (`tabOk`), slots do not move; two-pass theorem |
| C46 | `HashHwModel` (rows cleared and filled in the first 2^k cells of a thread's table, whatever the rest holds) | as C45, for tables that may become full (pigeonhole on columns) |
| C47 | `NohashModel` (two-pointer dot products; every thread fills a piece of arrays as large as the mask; the pieces are copied together) | loop invariant of the dot product; ownership of cells by threads; invariant of the copying loop |
| C48 | `HeapImplModel` (driver of heap_mult_generic.h over an abstract row algorithm; BasicHeap, HeapLinear, MaskedHeap_v0/1/2, MCA_v1/2/3) | contract of a row algorithm (room, result, local output as a list); driver proved once for every contract; heap rows by simulation with the heap kernels of C12-C14; MCA by an invariant of flags and values; failing runs by `noret` (a thread that returns on no path) |
| C49 | `HeapCscModel` (heap_mult.h, whole file) | views of the two matrices by columns, so that the heap lemmas of C12-C14 and C48 apply; local arrays by an invariant on the cells of finished columns; every parallel loop with an owner per cell; the copy as in C44; equality with the row-wise product by swapping the two loops of a dot product |
| C50 | `RadixModel` (radix_sort/radix_sort.hpp, except linear_sort and the character types) | a counting pass puts the elements into their buckets (invariant with counters modulo 2^w); buckets are a stable sort by digit; stable sorts by a less and then a more significant key compose; the same composition lemma serves the digits and the pairs; signed and floating keys by monotonicity of to_unsigned |
| C51 | `OuterModel` (outer_mult.h: OuterSpGEMM_stage as OuterSpGEMM calls it, do_static_symbolic, doRadixSort, doMerge) | threads as programs with atomic reservations on the shared blocks (`foutcome`, a data race is an outcome); invariant: each thread's local part plus its cells in the blocks are its products so far, reserved ranges are disjoint; hence a block ends as a permutation of its products; radix sort by C50, key injective within the sizes; merge and assembly by blocks; equality with the product for commutative associative addop |
| C52 | `BcModel` (benchmarks/BCAllGrb.cpp msp_bc_internal): both loops as relations over the product calls of the drivers and GraphBLAS operations by contract; exact rationals | `BcSpec`: walks, shortest paths, counts by enumeration; `BcWalks`: walk counts by matrix powers, distances below n, level recursion for the number of shortest paths, Brandes' recursion for the dependencies; invariants: after m rounds F is level m and N all levels up to m; BCu is 1 + dependency on the levels done |
| C53 | `IoModel` (IO.h, all three functions): file as bytes, stream state with eofbit/failbit, getline with its 255 characters, atoi, strchr, strstr, operator>>, fread | `IoSpec`: text of a Matrix Market file, numerals as printed by Coq's library, and the entries it stands for; numerals are read back (Horner); loops by induction on the lines; termination by a measure on the bytes left; composed with C42 |
| C54 | `TriAllModel` (benchmarks/TriCntAll.cpp preprocessInput, HashIntersect); the calls of main are `triCall` over the drivers of C05-C16 and C44-C47 | `TriAllSpec`: std::sort by contract for any comparison, undirected graph of a matrix, list of its triangles; renumbering is a permutation, triangles map one to one to triangles of the lower triangle (`TriAllCount`), whose masked product sums to their number |
| C55 | `TriAllModel` (util/triple-util.h), `HeatModel` (benchmarks/HeatMap.cpp createMatrices of type ER and the loops of main); the numbers drawn are any function of the dimensions with values in range | invariant of the compaction loop; C42 for the matrices; the loop over the degrees by induction; shapes and order give the hypotheses of C05-C16 |
| C56 | `ReportModel`: byte arrays as lists of N below 256, the two loops of calculateChecksum, checksum of a matrix as the text's three numbers | words and their sum defined on the byte list; one's-complement sum is the sum modulo 2^16-1 (induction); collisions and detection by arithmetic |
| C57 | `ReportModel`: strings as lists of characters, find/rfind/erase as list functions, the char* version with an index that may leave the string | lists of characters; uniqueness of the labels by injectivity |
| C58 | `ReportModel`: the four get_flop functions; the parallel ones through the loop models of C25/C49 (any distribution of the iterations, any order of the reduction); the counts are unbounded except the product taken in IT | number of matching pairs of entries in the list product of the two entry lists; double counting by induction |
| C59 | `GtModel`: the loop over the edges with the current group, merging of sorted groups with back(), counting and placing | functional version of the merge; positions strictly increase lexicographically, each is an edge and conversely, its value is a fold over a permutation of its weights; placing by buckets as in C21/C22 |
| C60 | `RmatModel`: floating point numbers as any type with any operations, the streams as functions of the number of draws, the level loop, the retry loop with fuel, the three radix passes on arrays with arbitrary contents, the two input makers | closed form of attempt k (draws k*L to k*L+L-1, sum of n/2^(l+1)); accepted attempts in order; stable radix passes by buckets and induction on the digits; termination from infinitely many accepted attempts; composed with C59 |
| C61 | `ShufModel`: the draws as any function in range, the swaps of ids and values in array order | the loop over a row is a composition of swaps (permutation); every permutation reached by choosing the draws back to front; unfairness by counting n^n draws against n! orders (n-1 divides n! but not n^n) |
| C62 | `EqModel`: std::equal on arrays of N with faults, one-based copies, ErrorTolerantEqual for double (rationals with NaN) and int (overflow is an error) | std::equal by induction; equality of the arrays is equality row by row; rational arithmetic |
| C63 | `BitModel`: words as N with uninitialised ones, the mask 0xffffffc0, 64-bit result | bitwise specification by N.testbit; the scan for the next bit by induction on words and bits |
| C64 | `RefModel`: the count, the pointers and the fill of the three functions, the back-to-front test of the ids, the merge `intersect`, the constructor's assertion | the merge of sorted lists is a filter with multiplicities; count and fill agree column by column; SpRef2's writes at original offsets characterised exactly |
| C65 | `GrbModel`: the constructors and get_grb_mat functions over a heap of arrays; `GrbSpec`: what GraphBLAS does (its documented contract, trusted) | ownership of disjoint parts of the heap: the arrays leave one owner and arrive at the other; what is released is the old content; sizes compared with the lengths |
| C66 | `GutModel`: matrices as maps of entries; the reader of C53, build, A + A^T, the degree sort with its uninitialised mapping, the lower triangle; `GutSpec`: the graph of a file, its triangles | the map built from tuples is characterised entry by entry; the mapping is shown to be the inverse of the sorted order; triangles are counted under renumbering by a bijection of sorted triples; then C39, C40, C52 |
| C67 | `Outer2Model` (outer_mult2.h: do_symbolic with its counting of products and its cutting of blocks and ranges, OuterSpGEMM; the parts that outer_mult.h has word for word are those of `OuterModel`, which take the block of a row and the sorting key as arguments) | invariant of the cutting loop: the blocks rise with the rows, each holds at most an average block and one row more, and block and thread numbers stay in bounds because every finished part exceeds the average; the ranges of the threads join to all rows; then as C51. Not square: a thread with a column that A lacks cannot end (`stuck`) |
| C68 | `BlockModel` (sample/blocked_parallel_tc.cpp from the names of the files to the totals; the reader is `IoModel`, the conversion `MatModel`, the five library calls of an iteration the models of C33, C35, C44-C47 and C58) | a row of A is the blocks of its row one after the other (sorted lists with the same elements), so the list of products of a cell is the blocks' lists joined; sums over a commutative monoid exchanged; each iteration by the theorems of its calls, existence and uniqueness; triangles as C40 |
| C69 | `CsrFileModel` (CSR.h 538-645: fgets, sscanf and the string functions character by character, the counting of rows and the filling of the arrays; atof is an arbitrary function) | the strings fgets returns, one by one (`feed`); loop invariants over them; the filling is a counting sort (as C31) into arrays that are longer than needed; rows as lists of the entries the file stands for; sortedness by induction over the entries in column order |
| C70 | `SplitModel` (SplitTuples.h 33-73, sample/NUMA-aware.cpp 82-84), `OuterModel` for the two products (the two sections write different objects and are modelled one by one) | the loops over rows as loops over the list of entries (`loop_triples`), the pieces as filters of that list; the constructor by C42, the products by C51 |
| C71 | `RunModel` (benchmarks-util.h 102-148 and, per product, what it does with the output object; the products themselves are an arbitrary relation), `ObjModel` for the objects, `ReportModel` for sum and checksum | an invariant over all calls: the blocks in use are those before, those of the output object and an exactly counted number of lost ones (`Inv`) |
| C72 | `MainModel` (ComplementMaskedSpGEMM.cpp 32-101), on top of `IoModel`, `MatModel`, the drivers of `DriverModel` with the row algorithms of `AlgModel`, `RunModel` and `ReportModel` | C53, C31, C58, the theorems on the drivers with complemented masks and C71 put together; the sum over a result is turned into the sum over pairs of entries of the file (`comp_sum`) |
| C73 | `TriMainModel` (TriCntAll.cpp 253-380), on top of `MainModel`, `TriAllModel` and the models of the 52 calls | `TriMainSpec` states triangles, degrees and closing edges over the list of entries of the file; C53, C54, C58, the theorems of every product and C71 put together; the order of the degrees is unique (`rank_unique`), so the count of closing edges is a number of the file; `TriMainLoops`: the loop over any list of products |
| C74 | `AllMainModel` (run and main of MaskedAllSpGEMM.cpp 58-219), on top of `IoModel`, `RunModel`, `ReportModel` and the models of the ten products | `AllMainSpec` states products, counts and checksums over the lists of entries of the three files; the theorems of the products (C44, C45, C47, C48) are brought to this form one by one in `AllMainCalls`; `AllMainLoops`: the loop over numbers of threads, products and passes with the memory of C71 |
| C75 | `PairsModel` (CSC.h 281-320) | placing row ids is simulated by the placing of C42 (`PairsProofs`); each of the two parallel loops by `parfor_owned`; uniqueness of the final memory |
| C76 | `PairsModel` (MergeDuplicates, CSC.h 374-413), with the number of elements of the two vectors as a parameter (0 in the code) | below the number of columns the last loop never returns (`noret`, `MergeProofs`); with one element per column: the two nested loops over a column against a merging recursion, then `parfor_owned` for both loops (`MergeLoops`) |
| C77 | `GenModel` (GenMatrices.cpp 28-72, sample_common.hpp 95-198): the files before and after as functions from names to texts; numbers as numerals of Coq's library; the generator is `RmatModel.createInputs`, the reader `IoModel.readASCII` | the two loops append one line per stored entry, so the text is the one `IoSpec.render` gives for the positions; the sizes of numerals bound the lines, so C53 reads the file back; C31 for the row matrix; C60 for the generated matrices |
| C78 | `ParTcModel` (all_parallel_tc.cpp 28-232) over `AllMainModel` and `RunModel`: the matrix is both factors and mask; the output object and its memory as in C64; keys of mxm_hash_mask have 64 bits | the invariant of C64 over the five calls of a loop; the products by C44, C45, C47 as in C74; the number of operations by C58; the count is that of a list of positions without repetition, hence the same for the three |
| C79 | `SampleModel` (InnerSpGEMM.cpp 26-120) over `AllMainModel` and `RunModel`, with any number of iterations in the measuring loop | induction over the iterations with the invariant of C64; the product by C47 as in C74; the number of operations by C58 |
| C80 | `SpaMainModel` (MaskedSPASpGEMM.cpp 26-164) over `SampleModel`, `HashHwModel`, `MatModel`, `IsectModel` and `SpaModel` | the loops by C79's induction; HashSpGEMM by C46, sortIds by C33, Intersect by C35, MaskedSPASpGEMM by C44; positions and sums carried over to the entries of the files as in C74 |
| C81 | `HashMainModel` (MaskedHashSpGEMM.cpp 27-214) over `GenModel`, `ShufModel`, `SpaMainModel`, `HashHwModel` and `MaskHashModel` | shuffleIds by C61 (a permutation of each row, so the entries of the file stay the entries of the matrix), HashSpGEMM by C46, the masked products by C45, which ask for no order of the rows; the loops by C79's induction |
| C82 | `HashProdModel` (HashSpGEMM.cpp 31-115) over `GenModel`, `ShufModel`, `SpaMainModel` and `HashHwModel` | shuffleIds by C61, HashSpGEMM with sorted output by C46; sorted rows one after the other are the positions in order, so the first ten values are those of the first ten positions; the loop by C79's induction |
| C83 | `HeapProgModel` (HeapSpGEMM.cpp 27-100) over `GenModel`, `HeapCscModel`, `MatModel` and `ReportModel`; memory as the number of cells of C_csc without an owner | each call by C49, get_flop by C58, Sorted by C33, the files by C53; the entries of C are the positions of A*B by columns; the loops by induction |
| C84 | `OuterProgModel` (OuterSpGEMM.cpp 49-157) over `GenModel`, `OuterModel`, `ShufModel`, `MatModel` and `ReportModel`; memory as the number of cells of the arrays of OuterSpGEMM and of C_csr without an owner | each call by the theorems about OuterSpGEMM, get_flop by C58, the shuffles by C61, Sorted by C33, the files by C53; the entries of C are the positions of A*B by rows; the loops by induction |

Status per property, theorem names and what is missing: `MANIFEST.json`.

## 3. Trusted base

* **Coq's kernel** (8.16.1). `Print Assumptions` stands under every property theorem; the answer is "Closed under the global context"
  for all of them. `vcheck`/`coqchk` additionally list seven constants of `Coq.ssr.ssrunder.Under_rel` (standard library, a module
  type loaded by std++); no theorem depends on them. No axioms of our own, no `Admitted`, no kernel check switched off.
* **The reading of the C++ source into Gallina.** Each definition cites file and lines; simplifications are noted there.
* **By contract, not by code:** `std::sort` with a comparison (C33, C42: returns a permutation sorted by the comparison), GraphBLAS select,
  tril, reduce and nvals (C39, C40), build, dup, transpose, eWiseAdd, eWiseMult, apply, assign, reduce by rows (C52), unpack, pack, import, export, dup of a matrix's arrays (C65, `GrbSpec.v`), build with MIN and from indices out of range, extractTuples, eWiseAdd with the transpose, setElement, select on matrices of different sizes (C66, `GutModel.v`) (with C65 C39/C40/C52's reading "moving the arrays does not change the matrix" is proved where it holds and refuted where not), `malloc` (a fresh block at any address, any content; failure is not modelled).
  `std::lower_bound`, `make_heap`, `push_heap`, `pop_heap` are modelled by the libstdc++ algorithm.
* **OpenMP:** a region runs all its threads, barriers synchronise, shared accesses interleave arbitrarily one at a time (sequential
  consistency); `schedule(...)` is any assignment of iterations to threads and any order. Race-freedom theorems justify the
  interleaving model where they hold; where the code has a race (C28, C38) the result theorem holds for the interleaving model only,
  all conflicting writes being of equal values.
* **Not modelled:** I/O other than IO.h (C53), timing, printing, NUMA placement, TBB allocator internals, allocation failure, C++ object lifetimes other than
  the arrays of CSR/CSC (C34).

## 4. Which code is modelled

| code | model |
|------|-------|
| spgemm-blocks/common.h, util.h, scan.h | Base, MemModel, WorkModel, ScanModel |
| spgemm-blocks/masked-spgemm.h | DriverModel, AlgModel |
| spgemm-blocks/masked-spgemm-poly.h | PolyModel |
| spgemm-blocks/masked-spgemm-inner.h, inner/* | InnerModel, InnerDriverModel |
| spgemm-blocks/msa (MSA1A, MSA2A, both Impl families), hash/*, mca/*, heap/* | MsaModel, HashModel, McaModel, HeapModel |
| utility.h (my_malloc family, scan, mergesort) | LegacyScanModel, KvSortModel |
| CSR.h, CSC.h constructors, conversion, sort, intersect, index base, copy/assign | MatModel, IndexModel, ObjModel, IsectModel |
| util/transpose.h | TransModel |
| BIN.h (all but create_global_hash_table, set_min_bin, which no modelled function calls) | BinModel |
| spa_mult.h, SPA.h | SpaModel, TwoPassModel |
| mask_hash.h (tuple and pair versions of map_lp; the key-only version and find(k, loc) not), mask_hash_mult.h (mxm_hash_mask, mxm_hash_mask_wobin) | LpModel, MaskHashModel |
| hash_mult_hw.h | HashHwModel |
| inner_mult.h: innerSpGEMM_nohash | NohashModel |
| heap_mult_generic.h | HeapImplModel |
| heap_mult.h | HeapCscModel |
| radix_sort/radix_sort.hpp (all but linear_sort and character keys) | RadixModel |
| outer_mult.h (OuterSpGEMM and what it calls; not getFlop, do_symbolic, getReqMemory, compareTuple, initializeBlockerBoundary, which it does not call) | OuterModel |
| outer_mult2.h 45-398 (do_symbolic, ExtractKey2, doRadixSort, doMerge, OuterSpGEMM) | Outer2Model |
| sample/blocked_parallel_tc.cpp 45-203 (main up to the totals; not the timed repetitions and the log file) | BlockModel |
| CSR.h 538-645 (CSR(const string filename)) | CsrFileModel |
| SplitTuples.h, sample/NUMA-aware.cpp 82-119 (not the timing) | SplitModel |
| benchmarks-util.h 102-148 (run; not the times), the stores to the output object in common.h 152-185, masked-spgemm.h 157-193, spa_mult.h, mask_hash_mult.h, inner_mult.h, heap_mult_generic.h 730-811 | RunModel |
| benchmarks/ComplementMaskedSpGEMM.cpp 32-101 (not getenv, stoul, atoi, the times and what is printed besides the LOG lines) | MainModel |
| benchmarks/TriCntAll.cpp 253-380 (main; not getenv, stoul, atoi, the times and what is printed besides the LOG lines) | TriMainModel |
| benchmarks/MaskedAllSpGEMM.cpp 58-219 (checksum, run, main; not getenv, stoul, atoi, the times, the transposed copies and the make_empty calls at the end) | AllMainModel |
| CSC.h 281-320 (constructor from pairs), 374-413 (MergeDuplicates); not the printing | PairsModel |
| sample/GenMatrices.cpp 28-72; sample/sample_common.hpp 95-198 (not GenRMAT_Par, not SetInputMatricesAsCSR); not the messages but the last | GenModel |
| sample/all_parallel_tc.cpp 28-232 (not the times, the compression ratio and the release of the input, 228-229) | ParTcModel |
| sample/InnerSpGEMM.cpp 26-120 (not the times, the compression ratio and the release of the input, 114-117) | SampleModel |
| sample/MaskedSPASpGEMM.cpp 26-164 (not the times, the compression ratios and the release of the input, 158-160) | SpaMainModel |
| sample/MaskedHashSpGEMM.cpp 27-214 (not the times, the compression ratios and the release of the input, 210-211), sample/sample_common.hpp 200-212 (not the matrices made by new, which stay) | HashMainModel |
| sample/HashSpGEMM.cpp 31-115 (not the times, the compression ratio and the release of the input, 111-112) | HashProdModel |
| sample/HeapSpGEMM.cpp 27-100 (not the times, the compression ratio and the release of the input, 96-97) | HeapProgModel |
| sample/OuterSpGEMM.cpp 49-157 (not the times, the compression ratio and the release of the input, 152-154) | OuterProgModel |
| benchmarks/KTrussAllGrb.cpp, TriCntAllGrb.cpp (the msp_ functions) | GraphModel |
| benchmarks/BCAllGrb.cpp (msp_bc_internal) | BcModel |
| IO.h | IoModel |
| benchmarks/TriCntAll.cpp (preprocessInput 199-242, HashIntersect 244-251, the calls of main 297-373; setRowData, printRowData, profile 37-197 are not called) | TriAllModel |
| util/triple-util.h, benchmarks/HeatMap.cpp (createMatrices of type ER, loops of main) | TriAllModel, HeatModel |
| benchmarks/benchmarks-util.h (calculateChecksum, checksum, processAlgorithmName, getFileName 7-98), benchmarks/MaskedAllSpGEMM.cpp 71-75, multiply.h get_flop 116-150, heap_mult.h/inner_mult.h get_flop | ReportModel |
| CSR.h 243-323, CSC.h 151-233 (constructors from a graph), GTgraph/R-MAT/defs.h | GtModel |
| GTgraph/R-MAT/graph.c (graphGen with the flags of getParams, choosePartition, varyParams), utils.c 62-172, init.c 111-143, benchmarks/HeatMap.cpp createRMATMatrix, sample/sample_common.hpp 134-166; not: heapSort, the branch that writes edges to a file, the config file reader, SPRNG itself | RmatModel |
| CSR.h 647-663, CSC.h 525-541 (shuffleIds); the random engine is a function | ShufModel |
| CSR.h 468-536, CSC.h 543-581 (operator==), utility.h 18-38; not: the printing | EqModel |
| BitMap.h 39-158; not: data, print_ones, operator= (as the copy constructor); set_bit_atomic is set_bit, it is not atomic and has no callers | BitModel |
| CSC.h 584-610, 655-836 (intersect, SpRef, SpRef1, SpRef2); SpRef2 for NT = IT, for which alone it compiles | RefModel |
| CSR.h 377-450, 746-859; CSC.h 49-60, 322-371, 612-653 (constructors from GrB_Matrix, get_grb_mat, get_grb_mat_ptr, make_empty of CSC) | GrbModel |
| grb_util.h 398-529 (GrbMatrixBuild), 744-904 (read_grb_mtx, sort_by_degree, get_lowtri, convert_to_csc, avoid_iso); memory that is never released (the old *A of sort_by_degree and convert_to_csc, descriptors, scalars) is left out | GutModel |

Kernel theorems are about one row; `SeqStatements` and `AlgModel` lift them to any sequence of rows of one thread, `DriverModel` to the
parallel drivers. `ra_ok` (AlgModel) is the contract between the two.

## 5. Findings (claims that are false of the faithful model)

| property | theorem | what happens |
|----------|---------|--------------|
| C06 | C06_heap_order_refuted | the heap adds products in heap order, not in storage order: for non-commutative addop the value differs |
| C06 | C06_inspect_wrap_refuted | `maskIdx + Inspect` wraps for Inspect close to the index type's maximum: the search runs off the mask row |
| C07 | C07_heap_empty_mask_refuted | the complemented heap kernels stop at their assertion on an empty mask row, for which the complement keeps every product |
| C16 | C16_header_alignment_refuted | `mallocAligned` stores its size_t header misaligned for alignment 12 (heap entries with 32-bit indices) |
| C18, C27 | C18_empty_array_refuted, C27_zero_rows_refuted, C27_inner_zero_rows_refuted | scan of an empty array stores to dst[0]: every driver call on a matrix without rows |
| C19 | C19_wraparound_refuted | flop counts wrap in the index type |
| C21, C30 | C21_adjustSize_large_diverges, C30_findIdxForce_absent_diverges | adjustSize and findIdxForce can loop forever |
| C23 | C23_inner_two_phase_refuted | 2-phase inner driver reads freed arrays when the output is an input |
| C28 | C28_exclusive_scan_race_refuted, C28_driver_race_refuted | unsynchronised conflicting accesses |
| C29 | C29_poly_refuted | the poly driver never writes rowNvals and reads it |
| C30 | C30_repeated_mask_columns_refuted | repeated mask columns: plain hash loops, MSA asserts, complemented hash miscounts |
| C32 | C32_sumall_fractional_refuted, C32_default_matrix_refuted | Sumall truncates partial sums; base conversion of a default matrix writes through an unset pointer |
| C34 | C34_assign_no_columns_refuted, C34_assign_no_rows_refuted | operator= tests rhs.cols instead of rhs.rows |
| C35 | C35_large_refuted | Intersect's scan reads row_nz[rows] from 2^17-1 rows on |
| C36 | C36_transpose_refuted | the pointer loop reads one past the counters, for every matrix |
| C37 | C37_large_refuted, C37_empty_refuted | `start+end` wraps: endless recursion; N = 0 reads out of bounds |
| C38 | C38_reads_last_refuted, C38_tnum_race_refuted | large scans read in[N-1]; racy store to tnum |
| C39 | C39_ktruss_refuted | k = 2 returns the 3-truss |
| C41 | C41_hash_release_refuted | hash release with an unaligned dirty size |
| C42 | (note) | the tuple constructor never applies its addition operator |
| C43, C44 | C43_large_refuted, C44_large_refuted | BIN's scan reads row_nz[rows] from 2^17-1 rows on: undefined behaviour in every call |
| C43 | C43_bin_loop_refuted | set_bin_id never ends for a row with min(products, columns) over half the index range |
| C44 | C44_zero_rows_refuted | BIN's constructor asserts rows != 0 |
| C43 | (note) | create_global_hash_table (never called) scans past hash_table_size and writes through hash_table_ptr, which nothing allocates |
| C45 | C45_large_refuted, C45_zero_rows_refuted, C45_huge_row_refuted | as C43/C44; the table size loop never ends for a mask row of more than half the index range |
| C45 | C45_numThreads_race_refuted | every thread stores the number of threads to one variable, unsynchronised |
| C45 | (note) | the hash `key * 107` is computed in the index type: for int and keys from 20,070,445 on it overflows (undefined); the model wraps to the width |
| C46 | C46_large_refuted, C46_zero_rows_refuted | as C43/C44 |
| C47 | C47_tall_refuted | inner_mult.h 77 hands `B.colptr` to BIN.h, which indexes it with columns of A: reads past its end as soon as A has an entry in a column >= B.cols |
| C47 | C47_zero_refuted | inner_mult.h 114 starts every sum at the number 0: wrong for every addop for which 0 is not neutral (e.g. min) |
| C47 | C47_old_nnz_refuted | inner_mult.h 147 adds to C_final.nnz without setting it: with a non-empty C_final the result is not a matrix |
| C47 | C47_large_refuted, C47_zero_rows_refuted, C47_numThreads_race_refuted | as C43/C44/C45 |
| C48 | C48_mca_keys_refuted, C48_mca_wrong_column_refuted | heap_mult_generic.h 525, 597: MCA_v1 and MCA_v2 take the first column of a row of B from `A.colids`: out-of-bounds read, or a product in a wrong column, unless A and B are the same matrix |
| C48 | C48_mca_overflow_refuted | heap_mult_generic.h 479-486 with 539-548: MCA reserves min(products, mask row) cells but stores at the position in the mask row: writes past the end, e.g. when counting triangles in a graph with five vertices (all three versions, every thread count) |
| C48 | C48_mca_empty_mask_refuted | MCA_v1, MCA_v3 read the first mask column of an empty mask row: out of bounds behind the last entry of the mask |
| C48 | C48_race_refuted | data race (rowptr) with more than rows + 1 threads |
| C48 | C48_zero_rows_refuted, C48_alias_refuted | `rowStart[0] = 0` with no rows (743); C is emptied before A, B, M are read (730) |
| C48 | C48_estimate_refuted, C48_estimate_wrap_refuted | heap_mult_generic.h 68: `std::accumulate(..., 0)` counts products in an int: BasicHeap and HeapLinear fail from 2^31 products per thread on |
| C49 | C49_leak_refuted | heap_mult.h 177: `if (C.isEmpty()) C.make_empty()`, the test inverted: the arrays of a C with entries are overwritten without being released |
| C49 | C49_alias_A_refuted, C49_alias_B_refuted | the same lines when C is an input without entries: make_empty zeroes its dimensions before they are read (182, 183); C has no rows, or C.colptr is read out of bounds |
| C49 | C49_zero_columns_refuted, C49_many_columns_refuted | colStart[0] of no cells (65); scan reads col_nz[cols] from 2^17 - 1 columns on (193) |
| C51 | C51_many_rows_per_block_refuted | outer_mult.h 137: sort key `row % rows_per_block << 20 \| column` of 32 bits: blocks of more than 4096 rows (or more than 2^20 columns) make different cells share a key; entries of different rows are mixed (rows 0 and 4096 of one block: row 0 of C has column 0 twice and lacks column 1) |
| C51 | C51_big_block_refuted | 239: `SIZE * flops` is an int product: a block with 2^27 or more products overflows |
| C51 | C51_many_rows_refuted | the scan reads nnz_by_row[rows] from 2^17 - 1 rows on (as C38) |
| C51 | C51_no_blocks_refuted, C51_no_width_refuted | 219, 220: number of blocks and width are cut to 16 bits; a multiple of 65536 blocks divides by zero (222), such a width overruns the local buffer |
| C51 | C51_alias_refuted | make_empty zeroes the dimensions of a C that is an empty B before they are read: the result has no columns |
| C51 | C51_leak_refuted | flops_by_rows (226), global_blocker_counters (229), sorting_buffer (233) and its buffers (256) are never released |
| C52 | C52_heap_refuted | betweenness centrality with the heap pairs (modes heap, all, benchmark of BCAllGrb.cpp) stops at the assertion of the complemented heap kernel (C07) in the first round, at every vertex that is not a source and has an edge from one |
| C52 | (not a theorem) | N, Ninv, W and all but the last delta are never freed (BCAllGrb.cpp 444-452, 490-502); the inverse of double values is taken in single precision (385, GrB_MINV_FP32) |
| C53 | C53_skew_refuted | IO.h 70, 156: strstr(line, "symmetric") also matches "skew-symmetric"; the mirror images are not negated |
| C53 | C53_comment_refuted | the same test is made on every comment line, so a general file whose comments mention "symmetric" (also "unsymmetric") gets mirror images |
| C53 | C53_fraction_refuted | values are read with atoi (103, 196): fractions, and exponents, are cut off |
| C53 | C53_long_comment_refuted | a comment longer than 255 characters sets failbit; nothing more is read and m, n, nnz are used uninitialised; C53_no_file_refuted: likewise without a file |
| C53 | C53_spaces_refuted, C53_tabs_refuted | the fields are found with strchr(ch, ' '): after two spaces the column is taken for the value; a line without a space (tabs, blank line) is read through a null pointer |
| C53 | C53_binary_header_refuted | ReadBinary does not look at the result of the first fread calls: the sizes of an empty file are used uninitialised |
| C53 | (not a theorem) | the matrix made by new in `csc = *(new CSC...)` (IO.h 52, 136) is never deleted; the arrays of ReadBinary leak when it returns -1 (42-45) |
| C54 | C54_empty_refuted | TriCntAll.cpp 230: dst starts at 1 also when there are no triples; for a matrix without entries CSC(triples, 1, ...) reads triples[0] of an empty array |
| C54 | C54_diagonal_refuted | for a matrix with diagonal entries only the same 1 keeps a Triple() that was never filled: the result has an entry 0 at (0, 0); the counts are right all the same (C54_diagonal_count) |
| C54 | C54_wide_refuted | rowcnts has a cell per row but is indexed by columns (214): read out of bounds for an entry in a column past the rows |
| C54 | C54_degree_refuted | vertices are sorted by degree, but vertex i is renamed to rowcnts[i].second, the vertex of rank i, instead of its own rank: the new numbers are not in the order of the degrees (star with hub 2: degrees 1, 3, 1, 1) |
| C54 | C54_hash_count, C54_hash_k4_refuted | HashIntersect (249) keeps the value of the mask, 1, not the number of paths: main prints the number of edges that close a triangle, not of triangles |
| C55 | C55_remove_none_refuted, C55_generate_none_refuted | triple-util.h 15: dst starts at 1; of no values one is returned, with an array of no cells |
| C55 | C55_independent_refuted | triple-util.h 27: a generator with the default seed per call; in HeatMap the mask M equals A whenever their degrees are equal, and matrices of smaller degree are contained in those of larger |
| C55 | C55_degrees_refuted | HeatMap.cpp 75, 80: deg *= 2 from 0, or up to 2^32 - 1, never exceeds degMax |
| C55 | C55_same_refuted | HeatMap.cpp 209: idxB = idxA is not compared to the number of B |
| C56 | C56_order_refuted | benchmarks-util.h 34-47: checksum adds words, so column ids or values in another order give the same text; the row pointer's last element is left out |
| C57 | C57_bracket_refuted | benchmarks-util.h 73-93: the trailing ">" is removed also when no leading "<" was, e.g. innerSpGEMM_nohash<false,false |
| C57 | C57_file_name_c_refuted | MaskedAllSpGEMM.cpp 71-75: the loop stops at index 0 only after testing path[-1] when there is no slash |
| C58 | C58_flop_outer_refuted | multiply.h 145-147: the product of the two counts is taken in IT before it is added to a long long; a column and a row of 65536 entries count 0 with 32-bit unsigned indices |
| C59 | C59_empty_refuted | CSR.h 260, CSC.h 171: start[0], end[0], w[0] are read before the number of edges is looked at; a graph without edges (average degree 0) is read out of bounds |
| C59 | C59_ungrouped_refuted | CSR.h 262-280, CSC.h 173-191: only edges with the same start that stand next to each other are merged; for a graph that is not sorted by start a position is stored more than once |
| C60 | C60_one_vertex_refuted | graph.c 98-101: with one vertex (scale 0) every attempt is a self loop and is retried for ever |
| C60 | C60_degree0_refuted | HeatMap.cpp 17-32, sample_common.hpp 134-166: with degree 0 the constructor reads the first of no edges |
| C60 | C60_sort_refuted | utils.c 131-139: three passes over 11, 11 and 10 bits; starts that differ only from bit 32 on are not sorted |
| C60 | C60_boundary_refuted | graph.c 164-180: all comparisons are strict, so a draw equal to a + b or a + b + c goes to the first quadrant (0.5 and 0.75 in the uniform setting) |
| C60 | C60_drift_refuted | graph.c 84-94, 196-199: the globals a, b, c, d keep the varied values of the last attempt, and the next graph starts from them (sample_common.hpp 149, 158); b is increased in both branches; the streams restart, so otherwise both inputs would be the same (C60_two_inputs) |
| C61 | C61_signed_refuted | CSR.h 652, CSC.h 530: with a signed index type (int32_t in sample/OuterSpGEMM.cpp, int in sample/HashSpGEMM.cpp) an empty row or column makes uniform_int_distribution(0, -1), outside its precondition |
| C61 | C61_fair_refuted | CSR.h 653-661: each entry is swapped with any entry of the row instead of one not yet placed; from three entries on the orders are not equally likely (4, 5, 5, 5, 4, 4 of 27 for three) |
| C62 | C62_default_refuted | CSR.h 468-536, CSC.h 543-581: a default matrix compared with itself reads rowptr[0] (colptr[0]) of a pointer that was never set |
| C62 | C62_int_overflow_refuted | utility.h 18-38: b - a and abs(INT_MIN) overflow |
| C62 | C62_transitive_refuted, C62_nan_refuted, C62_order_refuted | the relation is not transitive; a matrix with NaN differs from itself; the order of the entries inside a row matters, so shuffleIds changes the answer |
| C63 | C63_large_refuted | BitMap.h 120: the mask 0xffffffc0 clears the bits from 2^32 on, so get_next_bit reports a position too low by a multiple of 2^32 |
| C63 | C63_new_refuted | BitMap.h 44-49: the words of a new map are uninitialised |
| C64 | C64_empty_refuted | CSC.h 723-782, 34-43: if no entry is chosen, the constructor's assertion that nnz is not 0 fails |
| C64 | C64_renumber_refuted | CSC.h 723-836: the rows keep the numbers of the original, so a chosen row id at or past the number of chosen rows makes the result ill-formed |
| C64 | C64_bounds_refuted | CSC.h: the test is `> cols`, so the column id cols passes and colptr[cols + 1] is read |
| C64 | C64_bitmap_refuted | CSC.h 792-836: the bit map has as many bits as rows are chosen but is indexed by row id: writes past its words |
| C64 | C64_spref2_refuted | CSC.h 655-713: the arrays are as long as the chosen columns but are written at the offsets of the original: out of bounds unless the chosen columns end early enough |
| C65 | C65_csc_wide_refuted, C65_csc_size_refuted | CSC.h 630: the length of colptr is given as rows + 1 instead of cols + 1: with more columns than rows GraphBLAS refuses and the assertion at 647 fails; with fewer it is told more bytes than there are |
| C65 | C65_iso_refuted, C65_jumbled_refuted | CSR.h 377-417: a matrix GraphBLAS keeps with one value for all entries, or unsorted by rows, stops the constructor |
| C65 | C65_dup_iso_refuted | CSR.h 441-446: is_uniform is not looked at: values has one element, nnz says more, the last read is out of bounds |
| C65 | C65_dangling_refuted | CSR.h 430-445: with dup_mat = false the export releases the matrix, but *A still points to it |
| C65 | C65_import_refuted | CSR.h 854: the size of the column ids is sizeof(NT) * nnz; for NT of fewer than 8 bytes GraphBLAS refuses, and the result is not checked |
| C65 | C65_build_one_based_refuted | CSR.h 758-765: with zerobased = false the loop starts at rowptr[0] = 1 and reads colids[nnz] |
| C65 | C65_unsorted_refuted, C65_unsorted_pack_refuted | KTrussAllGrb.cpp 230, 508; TriCntAllGrb.cpp 180, 373; CSR.h 808: the rows of mxm_hash_mask_wobin come in slot order (already for the complete graph of four vertices), but is_jumbled = false is declared to GraphBLAS |
| C66 | C66_index_refuted | grb_util.h 398-529, 744-782: the code GrB_Matrix_build returns is dropped; one index 0 or past the size in the file and the matrix has no entries, so the programs answer for the empty graph |
| C66 | C66_rectangular_refuted | grb_util.h 768-776, 835-855: for a matrix that is not square the symmetrizing fails unnoticed, and the lower triangle has no entries |
| C66 | C66_sort_wide_refuted, C66_sort_tall_refuted | grb_util.h 784-833: the mapping has one element per row and is indexed by columns too: read past its end with more columns than rows; with fewer, a column may get a number outside, the build fails and all entries are lost |
| C67 | C67_not_square_refuted | outer_mult2.h 57, 83-103: counts per column are kept in an array of A.rows cells, and the ranges of the threads cover the numbers of the rows, yet are used as columns: every call with an A that is not square reads or writes outside an array |
| C67 | C67_no_rows_refuted | 78: rows_to_blockers[0] is written although A has no rows |
| C67 | C67_many_products_refuted, C67_big_row_refuted | 71-73, 238: 2^31 products overflow total_flops; a row with 2^27 products, which no number of blocks divides, overflows the size of its block in bytes |
| C67 | C67_wide_columns_refuted | 132: sort key `row << 16 \| column`: a column from 2^16 on runs into the row; with A the identity and columns 65537 and 0 in rows 0 and 1 of B, row 0 of C gets the column of row 1 |
| C67 | C67_many_rows_refuted, C67_alias_refuted, C67_no_blocks_refuted, C67_no_width_refuted, C67_leak_refuted | as C51; here the division by the number of blocks is that of 75, and flops_by_iters (57), blocker_row_count (82) and thread_rows_offset (225) are lost as well |
| C68 | C68_masked_nnz_refuted | blocked_parallel_tc.cpp 137, 156, 191-193: the nonzeros of the blocks' products are added over all k, so a position with paths through two parts of the middle index counts twice; the complete graph on four vertices in parts of two gives 4 masked nonzeros instead of 3 |
| C68 | C68_uneven_refuted, C68_empty_part_refuted | 150: innerSpGEMM_nohash looks up the columns of the left block as columns of the right block (C47), so parts of different sizes with an entry in a column that another part lacks make it read beyond colptr; a part without rows stops it, too |
| C68 | C68_grid_refuted | 47: the program asks for two grid sizes, but stops unless they agree |
| C69 | C69_skew_refuted, C69_comment_refuted | CSR.h 561-563, 604, 633: every file without the word "general" in its comments is symmetric, so the mirror images of a skew-symmetric file are not negated; and the word in any comment of a symmetric file drops its mirror images |
| C69 | C69_more_refuted, C69_fewer_refuted | 575-594, 610: the loop runs to the end of the file, not to tmp_nz: with more lines than declared the arrays are overrun; with fewer nnz counts entries that are not there |
| C69 | C69_blank_refuted, C69_spaces_refuted | 579-580: an empty line at the end: strchr returns NULL, which is advanced and read; 583-588: with two spaces between row and column the column becomes the value |
| C69 | C69_comments_only_refuted, C69_long_comment_refuted | 559-564: the result of fgets is not looked at: at the end of a file of comments the loop goes on for ever; of a comment with 255 characters or more the rest is taken for the size line |
| C69 | C69_wide_refuted | 567: "%d" stores 32 bits: with a 64-bit index type half of rows, cols and tmp_nz stays uninitialised |
| C69 | C69_unsorted_refuted | 629-637: rows keep the order of the file, which need not be sorted |
| C70 | C70_few_rows_refuted, C70_narrow_refuted | SplitTuples.h 42, 48, 63, 66: with fewer rows (by columns) or columns (by rows) than pieces perpiece is 0 and the program divides by it |
| C70 | C70_tall_refuted | 63, 66, 70: perpiece is computed from the columns, and a row in the last piece is numbered i % perpiece: with more than n * perpiece rows, as for every square matrix with an odd number of rows, the rows behind fall on rows that are there already |
| C70 | C70_wide_refuted | 63, NUMA-aware.cpp 83: with at most cols / 2 rows all entries go into the left half, whose number of rows is too small for them |
| C71 | C71_overwritten_refuted | spa_mult.h 15-18, 59-62, mask_hash_mult.h 44-47, 107-109, inner_mult.h 149-155: the pointers of the output object are overwritten, so each warm-up call after the first loses the three arrays of the call before |
| C71 | C71_heap_refuted | heap_mult_generic.h 746: threadsNvals is never released, one array lost in every call |
| C71 | C71_empty_refuted | CSR.h 52-66: make_empty releases colids and values only if nnz > 0: where malloc(0) is not NULL an empty product loses two arrays in every call |
| C71 | C71_no_call_refuted, C71_many_refuted | benchmarks-util.h 118, 121, 135-144: with no warm-up and no measured call the report reads pointers that were never set; the counters are int, the limits size_t |
| C71 | C71_old_nnz_refuted | inner_mult.h 146-147: nnz is added to what the output object had: w warm-up calls without a measured one report w times the number of entries |
| C71 | C71_assigned_empty_refuted | CSR.h 134-163, TriCntAll.cpp 244-250: HashIntersect assigns its result; the assignment operator sets the pointers only if there are entries, so a result without entries leaves those of the new output object unset, and the report reads them |
| C72 | C72_shape_refuted | ComplementMaskedSpGEMM.cpp 51-53: a file that is not square or has no rows is not refused; the products are called on it and no execution ends well |
| C72 | C72_no_call_refuted | ComplementMaskedSpGEMM.cpp 57-58: with INNER_ITERS = 0 and WARMUP_ITERS = 0 the report reads pointers that were never set |
| C73 | C73_all1p_refuted | TriCntAll.cpp 362: mode all1p also calls MaskedSpGEMM1p of masked-spgemm-poly.h (C29); as soon as two edges follow each other downwards, so for every graph with a triangle, no execution ends well |
| C73 | C73_no_triangle_refuted | TriCntAll.cpp 244-250, 351: without a triangle the result of HashIntersect has no entries, and every execution of the modes intersect and all reads a pointer that was never set |
| C74 | C74_no_thread_count_refuted | MaskedAllSpGEMM.cpp 77, 120, 137-147: without the fourth argument fileName stays NULL and is printed in the first LOG line; true of every run with good files |
| C74 | C74_no_slash_refuted | MaskedAllSpGEMM.cpp 71-75, 150: a file in the working directory given without a slash is undefined behaviour (C57) |
| C74 | C74_mca_refuted | MaskedAllSpGEMM.cpp 202: MCA_v1 is called on two different matrices; if the rows of B above row k hold at least as many entries as A, and A has an entry in column k, no execution ends well (C48) |
| C74 | (the definition of `allBenches`) | MaskedAllSpGEMM.cpp 199-201: the lines named MaskedBasicHeap_v1, _v2, _v3 measure MaskedHeap_v0, _v1, _v2 |
| C76 | C76_merge_refuted, C76_too_few_vectors | CSC.h 380-381, 387-390, 410-411: v_rowids and v_values are never given a size but are indexed by column, in the last loop for every column; on a matrix with a column no execution ends well |
| C77 | C77_tall_refuted, C77_wide_refuted | GenMatrices.cpp 52: the loop over the columns of the left matrix runs to `A_csc.rows`: with more rows than columns colptr is read out of bounds, with fewer the entries of the last columns are missing although line 51 announces them |
| C77 | C77_name_refuted | sample_common.hpp 190, 195: `v1[v1.size() - 2]` and `v2[v2.size() - 1]` are out of bounds for a name without a point, or with one only at its beginning (./dir/matrix); the result is not used |
| C77 | C77_fourth_refuted | GenMatrices.cpp 33, 49: three arguments pass the test but argv[4] is made a string |
| C77 | C77_silent_refuted | GenMatrices.cpp 49, 58: whether the files could be opened is not looked at (with text input the name of the output contains the directories of the input) |
| C78 | C78_wide_refuted | all_parallel_tc.cpp 64: that the matrix is square is not checked; get_flop reads rowptr out of bounds |
| C78 | C78_lost_refuted | all_parallel_tc.cpp 126, 147; CSR.h make_empty: the arrays of a result without entries are not released (as in C64) |
| C78 | - | all_parallel_tc.cpp 144, 176, 221: an int64_t is printed with %d, which is undefined in C; the model prints the lower 32 bits |
| C79 | C79_tall_refuted | InnerSpGEMM.cpp 92; inner_mult.h 77: the finding of C47: with an entry of A in a column that B does not have there is no result, although the matrices fit |
| C79 | C79_report_partial (last part) | InnerSpGEMM.cpp 93, 112: the arrays of a result without entries are not released (as in C64) |
| C80 | C80_few_refuted | MaskedSPASpGEMM.cpp 91-92: the values 0 to 9 of the product are printed without a look at nnz; with fewer than ten entries they are read out of bounds |
| C80 | C80_report_partial (last part) | MaskedSPASpGEMM.cpp 115, 119, 134, 155: the arrays of a result without entries are not released (as in C64); two for Tr_csr and four for C_csr per number of threads |
| C81 | C81_empty_row_refuted | MaskedHashSpGEMM.cpp 64-65, CSR.h 652: INDEXTYPE is int, and a row without an entry asks for uniform_int_distribution(0, -1); one such row in either file, even in the second, which is then thrown away (67) |
| C81 | C81_name_refuted | sample_common.hpp 183-195: the first file name is split at points for a name that is not used; "matrix", "./matrix" or "../data/matrix" are read out of bounds |
| C81 | C81_few_refuted | MaskedHashSpGEMM.cpp 84-85: the values 0 to 9 of A * A are printed without a look at nnz |
| C81 | C81_report_partial (last part) | MaskedHashSpGEMM.cpp 130-153, 175-198: the arrays of results without entries are not released (as in C64); 44 for each number of threads |
| C82 | C82_empty_row_refuted | HashSpGEMM.cpp 68-69, CSR.h 652: as in C81, one row without an entry in either file |
| C82 | C82_name_refuted | sample_common.hpp 183-195: as in C81 |
| C82 | C82_few_refuted | HashSpGEMM.cpp 86-87: the values 0 to 9 of A * B are printed without a look at nnz |
| C83 | C83_name_refuted | sample_common.hpp 183-195: as in C81 |
| C83 | C83_columns_refuted | HeapSpGEMM.cpp 71, heap_mult.h 65-66 and 193: a second file of no columns, or of 2^17 - 1 or more, gives no result (C49) |
| C84 | C84_leak_refuted | OuterSpGEMM.cpp 103, 108: each of the 16 calls of OuterSpGEMM leaves at least rows + blocks + threads cells without an owner |
| C84 | C84_missing_refuted | OuterSpGEMM.cpp 50-68, 103: three arguments pass the check, but argv[6] and argv[7] are read unchecked (argv[argc] is a null pointer, which atoi may not read; the model counts it as out of bounds as well) |
| C84 | C84_empty_refuted | OuterSpGEMM.cpp 80-81, CSC.h 530, CSR.h 652: a column of the first file or a row of the second without an entry makes shuffleIds call uniform_int_distribution(0, -1) (C61) |
| C84 | C84_name_refuted | sample_common.hpp 183-195: as in C81 |
