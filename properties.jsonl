{"id": "C01", "title": "Static thread ranges tile the index range", "statement": "When every thread of a parallel region asks for its share of [0,n), the returned half-open ranges are consecutive, stay inside [0,n), start at 0, end at n and therefore hit every index exactly once.", "quantifier": "for all n >= 0, all thread counts >= 1, all thread ids", "why_tests_cant": "The claim is over every (n, thread count) pair, including n < threads, where tests typically use one machine's thread count.", "anchors": ["Utils.cpp:getSimpleThreadPartition", "Utils.hpp:getSimpleThreadPartition"]}
{"id": "C02", "title": "Work-balanced row ranges tile the rows", "statement": "When every thread asks for its share of n rows with a non-decreasing work prefix array, the ranges returned are consecutive, inside [0,n), start at 0 and end at n: no row is processed twice or skipped, even with empty rows or more threads than rows, and no element outside the prefix array is read.", "quantifier": "for all non-decreasing prefix arrays with n+1 entries, any first entry, all thread counts", "why_tests_cant": "Row-length distributions are unbounded; a skipped or doubly assigned row appears only for particular combinations of empty rows and thread counts.", "anchors": ["Utils.cpp:getLoadBalancedPartition"]}
{"id": "C03", "title": "Parallel memset/memcpy reach every byte", "statement": "parMemset(dst,c,n) leaves all n bytes equal to c and changes nothing else; parMemcpy(dst,src,n) leaves dst equal to src. (Checked against 32-bit int arithmetic: true below 2^31 bytes; the general size_t statement is refuted.)", "quantifier": "for all sizes n (size_t), all thread counts, all thread interleavings", "why_tests_cant": "Sizes of 2 GiB and above are not exercised by unit tests, and the split over threads depends on the thread count.", "anchors": ["Utils.cpp:parMemset", "Utils.cpp:parMemcpy"]}
{"id": "C04", "title": "Parallel prefix sums are exact", "statement": "Every thread calling prefixSum gets the sum of the contributions of all lower-numbered threads and the total equals the sum of all contributions; prefixSumMultiple does this independently for each lane.", "quantifier": "for all thread counts, all contributions, all lane counts, all interleavings between the barriers", "why_tests_cant": "Race-freedom between the per-thread writes, the master scan and the later reads is a statement about every interleaving.", "anchors": ["PrefixSum.cpp:prefixSum", "PrefixSum.cpp:prefixSumMultiple"]}
{"id": "C05", "title": "Inverse permutations and vector reorderings cancel", "statement": "getInversePerm returns the two-sided inverse of a permutation; reordering a vector with a permutation and then reordering with the same array read as an inverse permutation gives the original vector back, in place and out of place; the reordered vector holds src[i] at position perm[i].", "quantifier": "for all permutations of any length, all vectors, all thread counts", "why_tests_cant": "Universal over permutations; tests check a handful.", "anchors": ["Utils.cpp:getInversePerm", "Utils.cpp:reorderVectorOutOfPlace", "Utils.cpp:reorderVectorOutOfPlaceWithInversePerm", "Utils.cpp:reorderVector", "Utils.cpp:reorderVectorWithInversePerm", "Utils.cpp:isInversePerm"]}
{"id": "C06", "title": "isPerm accepts exactly permutations", "statement": "isPerm(a,n) answers true if and only if a holds each of 0..n-1 exactly once. (The 'only if' direction is refuted: any array of distinct numbers is accepted.)", "quantifier": "for all integer arrays of any length", "why_tests_cant": "Tests feed true permutations and arrays with duplicates; the failing arrays are those distinct but out of range.", "anchors": ["Utils.cpp:isPerm"]}
{"id": "C07", "title": "Changing the index base is lossless", "statement": "make1BasedIndexing followed by make0BasedIndexing (and the other way round) restores every array of the matrix, each is idempotent, and the set of (row, column, value) entries of the matrix is the same before and after. (Refuted for matrices that carry extptr.)", "quantifier": "for all well-formed CSR matrices of either base, with or without values, diagptr and extptr", "why_tests_cant": "Universal over matrices and optional arrays; the optional extptr array is never set in the unit tests.", "anchors": ["CSR.cpp:CSR::make0BasedIndexing", "CSR.cpp:CSR::make1BasedIndexing", "CSR.hpp:CSR::getBase"]}
{"id": "C08", "title": "COO to CSR conversion keeps every entry", "statement": "Converting a coordinate list to CSR yields a well-formed CSR matrix in the requested base that contains exactly the same multiset of (row, column, value) entries; row r holds exactly the entries of row r; with sorting requested, columns in each row are in non-decreasing order.", "quantifier": "for all coordinate lists with coordinates in range, both output bases, sorted or not", "why_tests_cant": "Multiset preservation with duplicates and empty rows over all inputs is not enumerable.", "anchors": ["COO.cpp:coo2csr", "COO.cpp:dcoo2csr", "COO.cpp:qsort"]}
{"id": "C09", "title": "Row sort orders columns and keeps pairs together", "statement": "The in-place quicksort used for CSR rows terminates, never touches anything outside the row, leaves keys in non-decreasing order, and the (key, value) pairs afterwards are a permutation of those before.", "quantifier": "for all arrays, all sub-ranges", "why_tests_cant": "Correctness for all key patterns (equal keys, reversed, already sorted) is an inductive fact.", "anchors": ["COO.cpp:qsort", "COO.cpp:swap"]}
{"id": "C10", "title": "Transpose is exact, sorted and thread-count independent", "statement": "transpose returns a matrix with exactly the swapped entries, whose rows are sorted by column with equal columns in storage order; the result is a function of the matrix alone (same for every thread count); transposing twice a matrix with sorted rows gives the same arrays back. (Refuted for matrices with no columns: the result has no row pointer array.)", "quantifier": "for all well-formed CSR matrices (any shape, both bases, with or without values), all thread counts", "why_tests_cant": "The parallel counting sort uses per-thread buckets; every thread count gives a different memory layout.", "anchors": ["CSR.cpp:CSR::transpose", "CSR.cpp:transpose_idx"]}
{"id": "C11", "title": "isSymmetric decides structural/numerical symmetry", "statement": "isSymmetric returns true exactly when for every stored (i,j) with j a local column there is a stored (j,i) (with equal value when values are checked). (True for 0-based matrices; refuted for 1-based ones, where the last column is not examined.)", "quantifier": "for all well-formed square CSR matrices of either base, all thread counts", "why_tests_cant": "Absence of false negatives/positives is universal over matrices.", "anchors": ["CSR.cpp:CSR::isSymmetric"]}
{"id": "C12", "title": "hasZeroDiag decides zero diagonals in bounds", "statement": "hasZeroDiag returns true iff some row has no stored non-zero diagonal entry, reading only inside the arrays. (True for base 0; refuted for base 1: reads past the arrays.)", "quantifier": "for all well-formed CSR matrices with values, both bases, all thread counts", "why_tests_cant": "Out-of-bounds reads usually do not fail a unit test.", "anchors": ["CSR.cpp:CSR::hasZeroDiag"]}
{"id": "C13", "title": "Matrix permutation computes the permuted matrix", "statement": "permute(columnPerm, rowInversePerm) returns a well-formed matrix whose row i is row rowInversePerm[i] of the input with each column c renamed to columnPerm[c] and values unchanged; with sorting, each row is sorted; the result does not depend on the thread count; permuting back with the inverse permutations gives back the same entries.", "quantifier": "for all well-formed CSR matrices, all row/column permutations, both bases, all thread counts", "why_tests_cant": "Universal over matrices and permutations.", "anchors": ["Permute.cpp:CSR::permute", "Permute.cpp:permuteMain_", "Permute.cpp:CSR::permuteRowptr"]}
{"id": "C14", "title": "Row-only permutation", "statement": "permuteRows(inv) returns the matrix whose row i is row inv[i] of the input, in storage order. (True for base 0; refuted for base 1: out-of-bounds accesses.)", "quantifier": "for all well-formed CSR matrices, all permutations, both bases, all thread counts", "why_tests_cant": "1-based inputs and out-of-bounds accesses are not caught by result-comparing tests.", "anchors": ["Permute.cpp:CSR::permuteRows", "Permute.cpp:permuteRowsMain_"]}
{"id": "C15", "title": "Sparse matrix-vector product", "statement": "multiplyWithVector(w,alpha,x,beta,y,gamma) sets w[i] = alpha*(sum over row i of value*x[col]) + beta*y[i] + gamma for every row, touching nothing else, for pattern-only matrices counting each stored entry as 1; the three specialised code paths agree with the general formula; the result does not depend on the thread count.", "quantifier": "for all well-formed CSR matrices, vectors, scalars (any commutative ring for the algebraic form; exact evaluation order for arbitrary arithmetic), both bases, all thread counts", "why_tests_cant": "Universal over matrices and scalars; specialised paths trigger only for particular scalar values.", "anchors": ["SpMV.cpp:SpMV_", "SpMV.cpp:CSR::multiplyWithVector"]}
{"id": "C16", "title": "In-place sparse matrix-vector product", "statement": "multiplyWithVector with w the same array as x still gives the product with the old x. (True when the matrix has no more columns than rows; refuted otherwise: reads past the temporary copy.)", "quantifier": "for all well-formed CSR matrices, all vectors", "why_tests_cant": "The failing shapes read a few elements past a heap block, which tests do not notice.", "anchors": ["SpMV.cpp:CSR::multiplyWithVector"]}
{"id": "C17", "title": "Sparse times dense matrix", "statement": "multiplyWithDenseMatrix with given row/column strides computes alpha*A*X+beta*Y+gamma elementwise. (True for base 0 and for unit row strides; refuted for 1-based matrices with row stride different from 1.)", "quantifier": "for all well-formed CSR matrices, k >= 0, strides", "why_tests_cant": "Stride/base combinations are unbounded.", "anchors": ["SpMV.cpp:SpMDM_", "SpMV.cpp:CSR::multiplyWithDenseMatrix"]}
{"id": "C18", "title": "splitLU decomposes the matrix", "statement": "splitLU(A,L,U) returns strictly lower L and strictly upper U such that the entries of A are exactly those of L, those of U and the diagonal ones; row order inside rows is preserved; A is unchanged afterwards.", "quantifier": "for all well-formed square CSR matrices with idiag, both bases, all thread counts", "why_tests_cant": "Universal over matrices and thread counts.", "anchors": ["SymGS.cpp:splitLU"]}
{"id": "C19", "title": "Symmetrised pattern under every interleaving", "statement": "getSymmetricNnzPattern returns the sorted pattern of A union A-transpose; every interleaving of the concurrent atomic insertions produces the same arrays.", "quantifier": "for all well-formed 0-based CSR matrices with sorted duplicate-free rows, all thread counts, all schedules", "why_tests_cant": "The insertion order is schedule dependent; tests see one schedule.", "anchors": ["SymGS.cpp:getSymmetricNnzPattern"]}
{"id": "C20", "title": "Binary file round trip", "statement": "Loading the file written by storeBin into a fresh matrix gives a matrix equal to the stored one (entries, shape, 0-based arrays, row structure), for any storage base of the original, and storing leaves the original as it was.", "quantifier": "for all well-formed CSR matrices with values, both bases, int-representable sizes", "why_tests_cant": "Universal over matrices; includes empty rows and empty matrices.", "anchors": ["CSR.cpp:CSR::storeBin", "CSR.cpp:CSR::loadBin"]}
{"id": "C21", "title": "Failed store leaves the matrix alone", "statement": "If storeBin cannot open its file the matrix is unchanged. (Refuted: a 1-based matrix silently becomes 0-based.)", "quantifier": "for all matrices, at the fopen failure point", "why_tests_cant": "Needs fault injection at the open call.", "anchors": ["CSR.cpp:CSR::storeBin"]}
{"id": "C22", "title": "Matrix Market loading is memory safe and faithful", "statement": "Loading a coordinate file gives exactly the entries listed (1-based coordinates converted to the internal base), symmetric files additionally give the mirrored entry of each off-diagonal one unless it is itself listed, and a file whose entry count differs from its header is rejected without writing outside the arrays. (Several parts refuted; see the theorems.)", "quantifier": "for all file contents", "why_tests_cant": "Malformed files are an unbounded space, and overflow does not show in tests.", "anchors": ["COO.cpp:loadMatrixMarket_"]}
{"id": "C23", "title": "Matrix Market banner round trip", "statement": "Printing a valid matrix type code and parsing the printed banner gives the same type code back; the parser accepts words case-insensitively and rejects unknown ones.", "quantifier": "for all valid type codes, all letter cases", "why_tests_cant": "The property ranges over all codes and banners.", "anchors": ["mm_io.cpp:mm_typecode_to_str", "mm_io.cpp:mm_read_banner", "mm_io.cpp:mm_is_valid"]}
{"id": "C24", "title": "Memory pool never hands out overlapping memory", "statement": "As long as no assertion fails, blocks handed out by allocate/allocateFront and not yet released by setHead/setTail lie inside the pool and are pairwise disjoint, and contains() answers true for every address of a live block.", "quantifier": "for all pool sizes, all histories of allocate, allocateFront, setHead, setTail, deallocateAll", "why_tests_cant": "The claim ranges over every history; wrap-around states arise after long histories.", "anchors": ["MemoryPool.cpp:MemoryPool"]}
{"id": "C25", "title": "27-point Laplacian generator", "statement": "generate3D27PtLaplacian on an nx*ny*nz grid gives a well-formed sorted matrix with 26 on the diagonal and -1 for each grid neighbour, structurally symmetric, in bounds. (True for cubes and for all sizes >= 2; refuted for mixed sizes such as nz=1, ny>1.)", "quantifier": "for all grid sizes", "why_tests_cant": "Universal over grid sizes.", "anchors": ["Laplacian.cpp:generate3D27PtLaplacian"]}
{"id": "C26", "title": "Barrier safety", "statement": "No thread returns from its k-th Barrier::wait before every thread has called its k-th wait.", "quantifier": "for all numbers of cores and threads per core, all k, all interleavings (sequentially consistent memory)", "why_tests_cant": "Every interleaving and an unbounded number of uses.", "anchors": ["synk/barrier.cpp:Barrier::wait", "synk/synk.cpp:Synk::Synk"]}
{"id": "C27", "title": "Barrier progress", "statement": "When all threads have called wait the k-th time, the barrier cannot get stuck: from every reachable state some thread inside wait can take a step, and every sequence of such steps is finite, ending with all threads out.", "quantifier": "for all numbers of cores and threads per core, all k, all interleavings", "why_tests_cant": "Deadlock freedom quantifies over all reachable states.", "anchors": ["synk/barrier.cpp:Barrier::wait"]}
{"id": "C28", "title": "Reduction barrier returns the reduction", "statement": "Every thread's k-th ReduceBarrier wait returns the reduction of all threads' k-th contributions, for at least two cores, if a thread starts a call only when every thread has returned from the previous one; in particular for the first call. While a thread is inside, some thread can move. (Without the two conditions refuted: one core doubles a sum; and with two cores a fast core overwrites the exchanged value before the slow core reads it.)", "quantifier": "for all numbers of cores >= 2 and of threads per core, all k, all interleavings, all associative and commutative operations with a neutral element", "why_tests_cant": "The race needs a specific interleaving of two consecutive uses.", "anchors": ["synk/reduce.hpp:ReduceBarrier::wait"]}
{"id": "C29", "title": "Connected components", "statement": "findConnectedComponents assigns two nodes to the same component exactly when they are connected in the (symmetric) matrix graph; each component's root is its smallest node; components are contiguous in the sorted node list. (With one thread proved, and with any number of threads for every execution in which no thread's plain store uses outdated values; over all interleavings only 'same label implies connected' holds and the converse is refuted by a lost update, which can happen even if every compare-and-swap succeeds.) findConnectedComponentsWithBitVector does the same for the nodes whose bit is clear, when no edge joins a clear and a set node. If every thread comes again and again, the search ends.", "quantifier": "for all symmetric graphs, all interleavings of the concurrent union phase", "why_tests_cant": "The lost update needs a particular interleaving of four threads.", "anchors": ["reordering/ConnectedComponents.cpp:findConnectedComponents"]}
{"id": "C30", "title": "BFS reordering is a permutation in level order", "statement": "Breadth-first traversal visits every node reachable from the source exactly once, in order of non-decreasing distance, with the reported level equal to the distance plus one start offset; the BFS permutation and its inverse are mutually inverse permutations.", "quantifier": "for all symmetric graphs, all sources, all schedules of the parallel traversal", "why_tests_cant": "Universal over graphs and schedules.", "anchors": ["reordering/RCM.cpp:bfs_serial_", "reordering/RCM.cpp:bfs_", "reordering/RCM.cpp:CSR::getBFSPermutation"]}
{"id": "C31", "title": "RCM reordering is a permutation", "statement": "getRCMPermutation returns arrays perm and inversePerm that are mutually inverse permutations of 0..m-1, for graphs with several components, isolated nodes and pairs.", "quantifier": "for all symmetric graphs whose components are below the parallel threshold", "why_tests_cant": "Universal over graphs.", "anchors": ["reordering/RCM.cpp:CSR::getRCMPermutation"]}
{"id": "C32", "title": "Level construction is a correct topological levelling", "statement": "The level schedule puts each row in exactly one level, strictly after the levels of all rows it depends on, rows of one level never depend on each other, and rows in a level are in increasing order; the outcome is the same under every interleaving of the concurrent counter decrements.", "quantifier": "for all structurally symmetric matrices with full diagonal, all thread counts, all schedules", "why_tests_cant": "Counter races and arbitrary graphs.", "anchors": ["LevelSchedule.cpp:LevelSchedule::findLevels_"]}
{"id": "C33", "title": "Schedule permutations and task boundaries partition the rows", "statement": "threadContToOrigPerm and origToThreadContPerm are mutually inverse permutations; the task ranges are consecutive and cover all rows exactly once; each thread's tasks are in increasing level order. (Refuted for cost functions returning 0: rows are lost.)", "quantifier": "for all matrices as above, all thread counts, all positive cost functions, barrier and point-to-point mode, with and without aggregation", "why_tests_cant": "Universal over level sizes, costs and thread counts.", "anchors": ["LevelSchedule.cpp:LevelSchedule::findLevels_", "LevelSchedule.hpp:LevelSchedule"]}
{"id": "C34", "title": "Point-to-point synchronisation covers every dependency", "statement": "For every pair of adjacent rows, the tasks holding them are ordered by the forward wait lists together with each thread's program order (and oppositely by the backward wait lists), with or without transitive reduction.", "quantifier": "for all structurally symmetric matrices, all thread counts, both modes", "why_tests_cant": "Missing one edge only shows as a rare wrong numerical result.", "anchors": ["LevelSchedule.cpp:LevelSchedule::constructTaskGraph_"]}
{"id": "C35", "title": "Transitive reduction preserves the ordering", "statement": "Dropping redundant wait edges leaves exactly the same happens-before relation between tasks.", "quantifier": "for all acyclic task graphs", "why_tests_cant": "A graph-theoretic fact over all graphs.", "anchors": ["LevelSchedule.cpp:LevelSchedule::constructTaskGraph_"]}
{"id": "C36", "title": "Point-to-point execution never deadlocks", "statement": "Running the tasks with the wait/notify protocol always finishes: in every reachable state with unfinished work some thread can move, and no fair execution is infinite.", "quantifier": "for all schedules produced, all interleavings, forward and backward", "why_tests_cant": "Deadlock freedom is about every interleaving.", "anchors": ["LevelSchedule.hpp:SPMP_LEVEL_SCHEDULE_WAIT", "LevelSchedule.hpp:SPMP_LEVEL_SCHEDULE_NOTIFY", "LevelSchedule.cpp"]}
{"id": "C37", "title": "Parallel Gauss-Seidel equals the sequential sweep", "statement": "Forward Gauss-Seidel run with a point-to-point (or barrier) schedule produces bit for bit the vector of the sequential row-by-row sweep, for every interleaving; likewise backward.", "quantifier": "for all structurally symmetric matrices with full diagonal, all vectors, any arithmetic, all thread counts, all interleavings", "why_tests_cant": "Tests observe few interleavings and compare with a tolerance.", "anchors": ["test/gs_test.cpp:forwardGS", "test/gs_test.cpp:backwardGS", "test/gs_test.cpp:forwardGSWithBarrier", "LevelSchedule.cpp"]}
{"id": "C38", "title": "Parallel triangular solve and ILU(0) equal the sequential ones", "statement": "Triangular solves and ILU(0) factorisation executed over the same schedule give bit for bit the sequential result under every interleaving.", "quantifier": "for all structurally symmetric matrices with full diagonal, all vectors/values, any arithmetic, all interleavings", "why_tests_cant": "Same as above.", "anchors": ["test/trsv_test.cpp:forwardSolve", "test/trsv_test.cpp:backwardSolve", "test/pcg.cpp:ilu0"]}
{"id": "C39", "title": "Fused schedule wait lists are those computed", "statement": "For each SpMV task of a fused schedule the wait lists computed suffice (when the listed tasks have finished their backward sweep, so has every task whose results the SpMV task reads) and list nothing that is not read or already waited for by another listed task; and each task finds its own list in the common buffer. (The last part is refuted: lists overlap in the buffer and are overwritten.)", "quantifier": "for all matrices, all thread counts", "why_tests_cant": "Needs inspecting internal wait lists; numeric results are usually right by luck of timing.", "anchors": ["LevelSchedule.cpp:LevelSchedule::constructTaskGraph_", "gs_spmv_fused.cpp:FusedGSAndSpMVSchedule"]}
{"id": "C40", "title": "Level construction stays inside its work queues", "statement": "During level construction no thread stores more rows in its private queue than its share of the buffer. (Refuted: a row with many successors overflows the share when there are more than two threads.)", "quantifier": "for all matrices, all thread counts, all interleavings", "why_tests_cant": "Overflow silently corrupts the neighbouring thread's queue.", "anchors": ["LevelSchedule.cpp:LevelSchedule::findLevels_"]}
{"id": "C41", "title": "Matrix equality test", "statement": "equals answers true exactly when the matrices have the same shape, base, row structure, columns and equal values; it is an equivalence relation on well-formed matrices whose values compare equal to themselves.", "quantifier": "for all pairs of well-formed matrices", "why_tests_cant": "Universal over pairs.", "anchors": ["CSR.cpp:CSR::equals"]}
{"id": "C42", "title": "Bandwidth and degree statistics", "statement": "getBandwidth returns the largest |column-row| over all stored entries and getMaxDegree the largest row length, for every thread count and reduction order.", "quantifier": "for all well-formed matrices with an entry, both bases, all reduction orders", "why_tests_cant": "Reduction orders differ per run.", "anchors": ["CSR.cpp:CSR::getBandwidth", "CSR.cpp:CSR::getMaxDegree"]}
{"id": "C43", "title": "Text output keeps values", "statement": "Values written by storeMatrixMarket read back unchanged. (Refuted: 16 significant digits do not identify a double.)", "quantifier": "for all finite values", "why_tests_cant": "Random test values mostly survive.", "anchors": ["mm_io.cpp:mm_write_mtx_crd", "COO.cpp:COO::storeMatrixMarket", "CSR.cpp:CSR::storeMatrixMarket"]}
{"id": "C44", "title": "Matrix Market writers report success", "statement": "Writing the banner or the size line to a writable file reports success. (Refuted: they compare printf's character count with an item count and always report failure.)", "quantifier": "for all type codes and sizes", "why_tests_cant": "Callers ignore the return code.", "anchors": ["mm_io.cpp:mm_write_banner", "mm_io.cpp:mm_write_mtx_crd_size", "mm_io.cpp:mm_write_mtx_array_size"]}
{"id": "C45", "title": "Dense vector files", "statement": "loadVectorMatrixMarket returns element (i,j) of the array file at the position the format prescribes. (Refuted for more than one column; true for one column.)", "quantifier": "for all array files", "why_tests_cant": "Only single-column files are used in tests.", "anchors": ["Vector.cpp:loadVectorMatrixMarket"]}
{"id": "C46", "title": "Bit vector test-and-set elects one winner", "statement": "When any number of threads call testAndSet on the same position exactly one of them is told it was first, and other positions are unaffected.", "quantifier": "for all thread counts, positions and interleavings", "why_tests_cant": "Races.", "anchors": ["reordering/BitVector.hpp:BitVector::testAndSet"]}
{"id": "C47", "title": "Bipartite BFS permutations", "statement": "bfsBipartite returns row and column permutations with their inverses, for every rectangular matrix and its transpose.", "quantifier": "for all well-formed matrices", "why_tests_cant": "Universal over matrices.", "anchors": ["reordering/BFSBipartite.cpp:bfsBipartite"]}
{"id": "C48", "title": "Copying a matrix", "statement": "A copied matrix has the same entries in the same order, and the same optional arrays. (Refuted for extptr, which is dropped.)", "quantifier": "for all well-formed matrices", "why_tests_cant": "Optional arrays are rarely set.", "anchors": ["CSR.cpp:CSR::CSR(const CSR&)"]}
{"id": "C49", "title": "Diagonal pointers and inverse diagonal", "statement": "constructDiagPtr points at the diagonal entry of each sorted row that has one, and computeInverseDiag stores the reciprocal of exactly these entries.", "quantifier": "for all well-formed matrices with sorted rows and full diagonal, both bases, all thread counts", "why_tests_cant": "Universal over matrices.", "anchors": ["LevelSchedule.cpp:constructDiagPtr_", "CSR.cpp:CSR::computeInverseDiag", "COO.cpp:dcoo2csr"]}
{"id": "C50", "title": "In-place column permutation", "statement": "Permuting columns in place renames each column of each row through the permutation, keeps values attached, sorts the parts left and right of the diagonal, and keeps diagptr at the diagonal entry.", "quantifier": "for all well-formed matrices with values and permutations, 0-based", "why_tests_cant": "Universal over matrices.", "anchors": ["Permute.cpp:permuteColsInPlace_", "Permute.cpp:CSR::permuteColsInPlace"]}
{"id": "C51", "title": "Sweeps over the reordered matrix give the reordered result", "statement": "Permuting the matrix with the permutations of its schedule and running the executors that take row positions directly yields, in every interleaving, the result of the sequential sweep over the original matrix moved by the same permutation.", "quantifier": "for all structurally symmetric matrices with full diagonal, all vectors, any arithmetic (sorted permutation: order of subtractions irrelevant), all thread counts, all interleavings", "why_tests_cant": "Interleavings and matrices are unbounded; tests compare one run within a tolerance.", "anchors": ["test/gs_test.cpp:forwardGSWithReorderedMatrix", "test/pcg.cpp:forwardSolveWithReorderedMatrix", "Permute.cpp:CSR::permute"]}
{"id": "C52", "title": "Pipelined placement of a component", "statement": "The threads placing a large component level by level, each waiting only for the write offsets of earlier levels, write the component in Cuthill-McKee order at consecutive positions and change nothing else; if every thread keeps being scheduled, all of them finish.", "quantifier": "for all matrices without repeated columns, all sources, thread counts, interleavings of single accesses (sequential consistency) and previous array contents", "why_tests_cant": "The number of interleavings is astronomical and a wrong order appears only under rare timings.", "anchors": ["reordering/RCM.cpp:getRCMPermutation (884-936)"]}
{"id": "C53", "title": "Source of a large component", "statement": "The selection of a source ends and returns a node of the component that is pseudo-peripheral: some node as far from it as possible has the same eccentricity. On a path it is one of the ends. It starts from a node of smallest degree and touches no bit outside of the component.", "quantifier": "for all structurally symmetric matrices, components, thread counts and interleavings, when the last level of each search, once per thread, fits the array of candidates", "why_tests_cant": "Depends on the interleaving of every search; termination of the outer loop cannot be tested.", "anchors": ["reordering/RCM.cpp:selectSourcesWithPseudoDiameter", "reordering/RCM.cpp:getMinDegreeNode", "reordering/RCM.cpp:initializeBitVector"]}
{"id": "C54", "title": "The whole of RCM", "statement": "getRCMPermutation leaves the matrix as it was and returns two inverse permutations; the order is, read backwards, one Cuthill-McKee order per component, components by smallest node, each from its smallest node or, for a large component if asked for, from a pseudo-peripheral node. It ends if no thread is put off for ever.", "quantifier": "for all structurally symmetric matrices in both bases, thread counts, interleavings of every phase and previous array contents, when the components found are right and the scratch arrays have room", "why_tests_cant": "Components above the threshold need 65536 nodes, and each phase has its own interleavings.", "anchors": ["reordering/RCM.cpp:getRCMPermutation", "reordering/RCM.cpp:prefixSumOfLevels"]}
{"id": "C55", "title": "Triangular solves and Gauss-Seidel solve their systems", "statement": "In exact arithmetic forwardSolve and backwardSolve leave the solution of the triangular system (D + N) x = b, the only one, whatever the vector held before; a Gauss-Seidel sweep leaves the vector for which equation r holds with new values up to r and old values after it, and leaves a solution of A x = b as it was.", "quantifier": "for all matrices with values in a commutative ring and invertible diagonal, right-hand sides, initial vectors, thread counts, schedules and interleavings", "why_tests_cant": "A test compares residuals for a few matrices within a tolerance.", "anchors": ["test/trsv_test.cpp:forwardSolveRef", "test/trsv_test.cpp:backwardSolveRef", "test/gs_test.cpp:forwardGSRef", "test/pcg.cpp:forwardSolveWithReorderedMatrix"]}
{"id": "C56", "title": "ILU(0) factors the matrix on its pattern", "statement": "In exact arithmetic, if no pivot is zero, the factors left by ilu0 and ilu0_ref multiply to a matrix equal to A wherever A has an entry; no other factors with the pattern of A do.", "quantifier": "for all structurally symmetric matrices with sorted rows and values in a field, all thread counts, schedules and interleavings", "why_tests_cant": "Needs every matrix and interleaving; a test can only check that a solver using the factors converges.", "anchors": ["test/pcg.cpp:ilu0", "test/pcg.cpp:ilu0_ref"]}
{"id": "C57", "title": "Preconditioned conjugate gradients", "statement": "The four solvers pcg_symgs, pcg_symgs_opt, pcg_ilu0 and pcg_ilu0_opt return after at most maxiter iterations without touching anything outside their arrays. In exact arithmetic each returns the vector, iteration count and relative residual of the textbook method with the preconditioner (L + D) D^-1 (D + U) or the ILU(0) product; reordering and scheduling change nothing, and the residual printed is that of the vector returned.", "quantifier": "for all 0-based matrices (ILU with a schedule: both bases), right-hand sides, starts, tolerances, iteration limits, thread counts, schedules, interleavings, orders of the reductions and uninitialised memory", "why_tests_cant": "A test sees one matrix and one interleaving and compares within a tolerance.", "anchors": ["test/pcg.cpp:pcg_symgs", "test/pcg.cpp:pcg_symgs_opt", "test/pcg.cpp:pcg_ilu0", "test/pcg.cpp:pcg_ilu0_opt", "test/pcg.cpp:dot", "test/pcg.cpp:waxpby"]}
{"id": "C58", "title": "Barriers are set up before they are used", "statement": "Barrier::init and ReduceBarrier::init, called by every thread of the team, return in every thread without touching memory that does not exist; no thread returns before the table of cores, the flags, senses and partner links of every core and the entries of every thread are complete and have the values the barrier starts from.", "quantifier": "for all numbers of cores and threads per core (at most 128; the reducing barrier: at most 128 cores or a power of two), all interleavings and uninitialised memory", "why_tests_cant": "A link made too early is wrong only in rare interleavings; the int8_t numbers overflow only on machines larger than the test machine.", "anchors": ["synk/barrier.cpp:Barrier::init", "synk/reduce.hpp:ReduceBarrier::init", "synk/synk.cpp:Synk::Synk"]}
{"id": "C59", "title": "Matrices release their arrays exactly once", "statement": "Whatever calls are made on any number of CSR matrices (constructors, alloc, dealloc, delete, loadBin, Laplacian, diagonal functions, permute, transpose, splitLU), no array is released twice, nothing of the caller or of the memory pool is released, no released array is used and no two matrices hold the same array. When all matrices are deleted, everything is given back, provided the calls that drop arrays (named in the theorems) are avoided.", "quantifier": "for all sequences of calls in which the named matrices exist and the ones read have data", "why_tests_cant": "Leaks and double releases depend on the sequence of calls; the tests make one sequence each and do not watch the allocator.", "anchors": ["CSR.cpp:CSR::dealloc", "CSR.cpp:CSR::alloc", "CSR.cpp:CSR::CSR", "CSR.cpp:CSR::loadBin", "CSR.cpp:CSR::transpose", "Permute.cpp:CSR::permuteRowptr", "SymGS.cpp:splitLU", "Laplacian.cpp:generate3D27PtLaplacian"]}
{"id": "C60", "title": "Schedules release their arrays exactly once", "statement": "A LevelSchedule that is constructed and destroyed releases every array it allocated exactly once and nothing else. This holds for one construction with transitive reduction and memory of its own; for every other use the number of blocks lost, or the release of memory of the pool, is determined.", "quantifier": "for all sequences of constructions with all flags, with or without memory pool, in every heap", "why_tests_cant": "The tests construct each schedule once and never look at the allocator.", "anchors": ["LevelSchedule.cpp:LevelSchedule::~LevelSchedule", "LevelSchedule.cpp:constructTaskGraph_", "LevelSchedule.cpp:findLevels_", "LevelSchedule.hpp:LevelSchedule::allocate", "gs_spmv_fused.cpp:FusedGSAndSpMVSchedule::~FusedGSAndSpMVSchedule"]}
{"id": "C61", "title": "The fused symmetric Gauss-Seidel pair", "statement": "Splitting a matrix, reordering both parts by the schedule, multiplying with the upper part, the fused forward solve and the backward solve leave the same vectors as the forward and the backward reference sweep, reordered. One call of forwardSolveWithReorderedMatrixFused solves with the lower part and leaves in the right-hand side the solution less the product of the matrix with x, in any arithmetic; with indices from 1 it reads a wrong element of x or one behind its end.", "quantifier": "for all structurally symmetric matrices with 0-based indices and an invertible diagonal with values in a ring, all vectors, thread counts, schedules, interleavings and uninitialised memory", "why_tests_cant": "The test checks a 0-based matrix within a tolerance in the interleavings that happen; a race between the two updated vectors shows in rare interleavings only.", "anchors": ["test/gs_test.cpp:forwardSolveWithReorderedMatrixFused", "test/gs_test.cpp:backwardSolveWithReorderedMatrix", "test/gs_test.cpp:main", "test/test.hpp:ADJUST_FOR_BASE", "SymGS.cpp:splitLU"]}
{"id": "C62", "title": "Reading whole coordinate files", "statement": "mm_read_mtx_crd returns the type, the sizes and the entries of a coordinate file, real, complex (both parts) or pattern; a file with too few entries gives MM_PREMATURE_EOF; after success nothing in the arrays is left from the memory they were made of. What mm_write_mtx_crd writes is read back with the same positions and the values %20.16g leaves. mm_read_unsymmetric_sparse returns the entries numbered from 0. Integer files are not read though success is returned; mm_read_unsymmetric_sparse does not notice a file cut short, and returns half of a symmetric one.", "quantifier": "for all files with a banner, comments, sizes and entries in any spacing, all kinds of values and storage, all contents of uninitialised memory; the freedom from old contents for all byte sequences", "why_tests_cant": "Uninitialised values are often zero or happen to be right; tests do not read damaged files, and the library tests never read complex or integer ones.", "anchors": ["mm_io.cpp:mm_read_mtx_crd", "mm_io.cpp:mm_read_mtx_crd_data", "mm_io.cpp:mm_read_unsymmetric_sparse", "mm_io.cpp:mm_write_mtx_crd"]}
{"id": "C63", "title": "Matrices by name and the converter to binary files", "statement": "A CSR matrix constructed from a name is the Laplacian of the m by m by m grid when the name is the notation of m, the matrix of the binary file when the name ends in .bin, and otherwise the matrix of the Matrix Market file. mtx2bin writes a binary file that, read by name, gives the rows the text gives, and changes no other file; for an array it writes the number of rows and the first column. Further columns are lost, an array file cut short is converted with uninitialised numbers, result 0 does not mean that a coordinate file was converted, and a missing input is undefined behaviour.", "quantifier": "for all names, files, sizes and entries, both bases, all schedules and contents of uninitialised memory", "why_tests_cant": "The converter has no test; a test sees one file with well-behaved names.", "anchors": ["CSR.cpp:CSR::CSR", "CSR.cpp:CSR::loadBin", "CSR.cpp:CSR::storeBin", "test/mtx2bin.cpp:main", "Laplacian.cpp:generate3D27PtLaplacian"]}
{"id": "C64", "title": "The average width of the rows", "statement": "getAverageWidth returns the sum, over the rows that are not empty, of the distance between the smallest and the largest column, divided by the number of rows; with rows in order the sorted flag changes nothing. With rows out of order and the flag set the unsigned sum can wrap around.", "quantifier": "for all matrices with int sizes, both bases, all thread counts, distributions of the rows over the threads and orders of the additions", "why_tests_cant": "Needs every distribution of rows over threads; no test calls it with unsorted rows and the flag.", "anchors": ["CSR.cpp:CSR::getAverageWidth"]}
{"id": "C65", "title": "The printed matrix", "statement": "print writes exactly one line for each entry, row by row in stored order, with row and column numbered in the base of the matrix.", "quantifier": "for all matrices with values, both bases, any format of values", "why_tests_cant": "Tests do not look at the printed text.", "anchors": ["CSR.cpp:CSR::print"]}
{"id": "C66", "title": "The wait counters fit a short", "statement": "In the task graph no task waits for itself or twice for the same task, there are at most as many tasks as rows, and every counter of waits is below the number of tasks. With at most 32768 rows, or at most 32768 tasks, no 16-bit counter overflows.", "quantifier": "for all structurally symmetric matrices with a full diagonal, both bases, all positive costs, thread counts, both modes of aggregation and transitive reduction, all interleavings of the construction", "why_tests_cant": "Counts depend on sparsity, thread count and balancing; an overflow needs a matrix far larger than those tested.", "anchors": ["LevelSchedule.cpp:constructTaskGraph_", "LevelSchedule.hpp:LevelSchedule"]}
{"id": "C67", "title": "From the name of a matrix to its orderings and schedules", "statement": "A square coordinate file numbered from 1 that lists no position twice, with symmetric storage or read with force_symmetric, becomes a matrix with sorted rows, a symmetric pattern and no position twice, whose entries are those of the file, their missing mirror images and the unit diagonal of the padding; a matrix named by its grid size is such a matrix too. With a full diagonal its own diagptr and idiag can be used for scheduling: the schedule is defined for up to two threads, and sweeps over it compute what the sequential sweep computes. getBFSPermutation and getRCMPermutation have executions that end with an order of its components. A general file read without force, as gs_test does without assertions, can lose rows and leave the permutations uninitialised.", "quantifier": "for all such files and names, entries, paddings, both bases, arithmetic operations, costs, thread counts, schedules of all parallel loops and contents of uninitialised memory", "why_tests_cant": "Tests run the chain for one or two files and compare the result with itself; they cannot show that every accepted file meets what the later stages assume.", "anchors": ["CSR.cpp:CSR::CSR", "COO.cpp:loadMatrixMarket_", "COO.cpp:dcoo2csr", "LevelSchedule.cpp:constructTaskGraph", "reordering/RCM.cpp:getBFSPermutation", "reordering/RCM.cpp:getRCMPermutation", "test/reordering_test.cpp:main", "test/gs_test.cpp:main"]}
{"id": "C68", "title": "The comparison of results", "statement": "correctnessCheck returns true exactly if every pair of elements is accepted: both smaller than the threshold, or expected and actual zero, or the relative difference below the tolerance, or the expected number not finite, or the actual one NaN; otherwise it returns false, and without NDEBUG its assertion fails. Equal vectors are always accepted. In the test programs the first vector is kept and all later ones are compared with it. A vector of NaNs is accepted whatever is expected, and any vector is accepted where infinities or NaNs are expected. There is a matrix of doubles on which gs_test rejects the correct backward sweep for every number of threads and every schedule.", "quantifier": "for all vectors of doubles including zeros, infinities and NaN, all positive tolerances and thresholds, all sequences of calls; the rejected sweep for all thread counts and schedules", "why_tests_cant": "It is the oracle of the tests: they cannot show which wrong results it lets through, or which correct ones it rejects.", "anchors": ["Utils.hpp:correctnessCheck", "test/test.hpp:correctnessCheck", "test/gs_test.cpp:main"]}
{"id": "C69", "title": "One permutation for all schedules; gs_test as a whole", "statement": "All schedules built for one matrix, with barriers or without, with or without transitive reduction, carry the same two permutations, whatever the threads did while building them. Hence what gs_test does is sound: sweeps over the original matrix under all three schedules, which find their rows by the permutation of one of them, compute the reference sweeps, forward and backward; on the matrix permuted once and vectors reordered by getReorderVector and reorderVector all three schedules compute results that, brought back by the inverse permutation, are the reference; so does the fused pair, in exact arithmetic with indices from 0.", "quantifier": "for all structurally symmetric matrices with a full diagonal, both bases, vectors, costs, thread counts, both modes of aggregation, all interleavings of construction and sweeps, all contents of uninitialised memory; backward and reordered results for subtractions that may be exchanged", "why_tests_cant": "The program runs each schedule a few times on one matrix and compares with itself; that permutations agree depends on the order in which threads fill levels.", "anchors": ["test/gs_test.cpp:main", "LevelSchedule.cpp:constructTaskGraph", "Utils.cpp:getReorderVector", "Utils.cpp:reorderVector", "CSR.cpp:CSR::permute"]}
{"id": "C70", "title": "trsv_test as a whole, with matrices that are not symmetric", "statement": "For a matrix with sorted rows and a full diagonal, symmetric or not, the graph trsv_test hands to its schedules is that of a structurally symmetric matrix containing every entry of the given one. All three schedules have the same permutations, are defined for up to two threads, and the forward and backward solves with the triangular parts, on the original matrices and on permuted ones with reordered vectors, compute what the sequential solves compute.", "quantifier": "for all such matrices numbered from 0, vectors, arithmetic operations, costs, thread counts, all interleavings, all contents of uninitialised memory; backward and reordered results for subtractions that may be exchanged", "why_tests_cant": "A missing dependency of a nonsymmetric matrix shows only in rare interleavings; the program uses one matrix.", "anchors": ["test/trsv_test.cpp:main", "SymGS.cpp:getSymmetricNnzPattern", "SymGS.cpp:splitLU", "LevelSchedule.cpp:constructTaskGraph", "test/trsv_test.cpp:forwardSolve", "test/trsv_test.cpp:backwardSolve"]}
{"id": "C71", "title": "Products with transposed and permuted matrices; two test programs as wholes", "statement": "The product with a permuted matrix and a vector reordered by the column permutation is the product with the original matrix, reordered by the row permutation, number by number in any arithmetic when permute does not sort, and in exact arithmetic when it does. For the transpose y.(Ax) = x.(A'y). In BFSBipartite_test (transpose, bfsBipartite, permute, transpose again) all four products are related in this way. In reordering_test the matrix permuted by the breadth-first or reverse Cuthill-McKee order has as bandwidth the largest distance between the new numbers of a row and a column with an entry, and its products are the reordered products. With assertions enabled, permute refuses every order of a matrix read from a file if a row has no diagonal entry, for example of any graph without loops.", "quantifier": "for all matrices, both bases, all permutations, vectors, arithmetic operations, thread counts, interleavings and contents of uninitialised memory", "why_tests_cant": "The programs print bandwidths and times and compare nothing after permuting.", "anchors": ["test/BFSBipartite_test.cpp:main", "test/reordering_test.cpp:main", "Permute.cpp:CSR::permute", "CSR.cpp:CSR::transpose", "SpMV.cpp:CSR::multiplyWithVector", "reordering/BFSBipartite.cpp:bfsBipartite", "CSR.cpp:CSR::getBandwidth"]}
{"id": "C72", "title": "The barrier shared by a program", "statement": "When every thread of a team calls Barrier::getInstance (or initializeInstance with the size of the team), each as often as it likes, and there is no instance, exactly one object is made, every call returns it, and no call returns before it is in the state from which the barrier works; if there is one, every call returns it and makes nothing. Over any sequence of regions, calls outside of regions and deletions every object is deleted at most once, only the instance is left, and its destructor gives back each of its blocks exactly once. initializeInstance for a larger team never returns; for a smaller one it writes behind its table.", "quantifier": "for all team sizes, cores, threads per core up to 128, numbers of calls per thread, all interleavings, all sequences of uses, all contents of allocated memory", "why_tests_cant": "Whether two objects can be made, or one seen before it is complete, depends on the interleaving of the test of the pointer, the OpenMP barriers and the two rounds of init.", "anchors": ["synk/barrier.cpp:Barrier::getInstance", "synk/barrier.cpp:Barrier::initializeInstance", "synk/barrier.cpp:Barrier::deleteInstance", "synk/barrier.cpp:Barrier::~Barrier", "synk/barrier.cpp:Barrier::init"]}
{"id": "C73", "title": "Sweeps that meet at the barrier", "statement": "When the threads of a team run the tasks of a schedule made for barriers and call Barrier::wait after each task, then under every interleaving of their steps, inside wait and outside, nothing undefined happens, somebody can always go on until all are behind their loops, every fair execution gets there, the vector is then the one of the sequential loop over the rows, and the barrier is free for the next sweep. More generally any tasks separated by wait compute only what phases separated by ideal barriers can compute. If two threads have different numbers of tasks, as with schedules made without useBarrier, no execution ends.", "quantifier": "for all matrices, kernels, directions, arithmetic operations, vectors, numbers of cores and of threads per core, all earlier uses of the barrier, all interleavings of single accesses", "why_tests_cant": "A thread that is let through one step early reads an element one sweep too old in an interleaving that hardly ever occurs.", "anchors": ["test/gs_test.cpp:forwardGSWithBarrier", "test/gs_test.cpp:backwardGSWithBarrier", "test/trsv_test.cpp:forwardSolveWithBarrier", "test/trsv_test.cpp:backwardSolveWithBarrier", "synk/barrier.cpp:Barrier::wait"]}
{"id": "C74", "title": "Sizes of work arrays in int", "statement": "The sizes of the work arrays that hold one block per thread, the counters of transpose and findConnectedComponents, the arrays of getRCMPermutation, the buffer of findLevels_, the padded number of rows and the row pointers of the generated Laplacian are computed in int. Each of these computations is defined exactly up to a stated bound on rows, columns and threads; up to it every position computed from a thread number is defined, inside the array and different for different threads, and the results are those of exact integers. The bounds are far below what the matrix itself allows: more threads or denser rows make a call undefined for matrices that can be stored.", "quantifier": "for all numbers of rows, columns, levels, components and threads, all degrees, all sizes of the grid", "why_tests_cant": "Tests use a handful of threads and small matrices, which never come near the products that overflow.", "anchors": ["reordering/ConnectedComponents.cpp:findConnectedComponents_", "reordering/RCM.cpp:bfsAuxData::bfsAuxData", "reordering/RCM.cpp:prefixSumOfLevels", "reordering/RCM.cpp:CSR::getRCMPermutation", "reordering/BFSBipartite.cpp:bfsAuxData::bfsAuxData", "CSR.cpp:CSR::transpose", "CSR.cpp:transpose_idx", "PrefixSum.cpp:prefixSumMultiple", "LevelSchedule.cpp:findLevels_", "COO.cpp:loadMatrixMarket_", "Laplacian.cpp:generate3D27PtLaplacian"]}
{"id": "C75", "title": "The conjugate gradient program solves the system its argument names", "statement": "test/pcg.cpp, given the name of a symmetric coordinate file stem.mtx that lists the diagonal, solves with that matrix and with the column of numbers in stem_b.mtx, or with all ones if there is no such file; given a number m, or nothing (64), it solves with the Laplacian of size m and all ones. All four solvers return after at most 20000 iterations each; in exact arithmetic the two Gauss-Seidel solvers return the same, namely what the preconditioned method computes from 0, and so do the two ILU(0) solvers if no pivot is 0. The name of the right-hand side is only this if the memory behind the copied stem holds a 0 (strncpy writes none); other memory makes another file be looked for or is read behind the buffer, and a stem as long as the buffer, or a right-hand side shorter than the matrix, is undefined.", "quantifier": "for all files, names, sizes, contents of uninitialised memory, thread counts and interleavings for which schedules are made (always for up to two threads), and tolerances", "why_tests_cant": "Whether the byte behind the stem is 0 depends on the stack; a test sees one content. That four runs agree in exact arithmetic cannot be observed in doubles.", "anchors": ["test/pcg.cpp:main", "test/pcg.cpp:pcg_symgs", "test/pcg.cpp:pcg_symgs_opt", "test/pcg.cpp:pcg_ilu0", "test/pcg.cpp:pcg_ilu0_opt", "Vector.cpp:loadVectorMatrixMarket"]}
{"id": "C76", "title": "A memory pool holds its memory from initialize to finalize and gives it back once", "statement": "In every history of initialize (of a pool that is not initialised), requests and releases, stores of the program into blocks of the pool and into other memory, and finalize: every block lies inside memory that the operating system gave to the pool alone and misses the word in which malloc_huge_pages notes how it was obtained; blocks do not overlap; finalize (any number of times) and the destructor give back exactly this memory, by munmap if it was mapped and by free otherwise, and nothing is undefined but requests refused by the pool's own assertions. malloc_huge_pages asks for enough memory exactly for sizes up to 2^64 - 4 MiB. Not so: a second initialize loses the first buffer; requests after finalize are answered with addresses from NULL upwards; if neither mmap nor posix_memalign has memory, it is not NULL that is returned but MAP_FAILED that is written to.", "quantifier": "for all histories, sizes up to 2^62, answers of mmap and posix_memalign, and other memory of the program", "why_tests_cant": "Tests run where huge pages are either configured or not and never out of memory; lost buffers and writes next to the noted size show only later.", "anchors": ["MemoryPool.cpp:initialize", "MemoryPool.cpp:finalize", "MemoryPool.cpp:MemoryPool", "MemoryPool.cpp:~MemoryPool", "Utils.hpp:malloc_huge_pages", "Utils.hpp:free_huge_pages"]}
{"id": "C77", "title": "The measuring barrier reports how long each thread waited for the last one", "statement": "When the threads of a team call LoadImba::wait, each starting a call only after everybody has returned from the previous one, then in its k-th call a thread gets as clast the latest of the times at which the threads began their k-th call; it is not before its own start and not after its own end; while a thread is in a call, some thread can move. After any calls the arrays of a thread hold, for every barNum, the least, the largest and the sum (modulo 2^64) of its waiting times, the number of calls and the sum of the times from the last arrival to its own departure; reset forgets all of it, and print shows the least and largest values and the averages over all threads. A call is inside the arrays exactly for barNum below numUses. Not so: if threads may start the next call at once, the value may be later than every arrival; getInstance makes room for one use only; printLoadImbalance subtracts the time to leave, which is not part of the sum, so threads that arrive together are reported with nearly 2^64; the destructor frees the arrays once but never the structures.", "quantifier": "for all numbers of cores from 2, threads per core, interleavings of single accesses, times, contents of allocated memory, calls and uses", "why_tests_cant": "The values are times of one run: a test cannot know the right ones, and the overlapping of two calls shows only in rare interleavings.", "anchors": ["synk/loadimba.cpp:LoadImba::wait", "synk/loadimba.cpp:LoadImba::init", "synk/loadimba.cpp:LoadImba::reset", "synk/loadimba.cpp:LoadImba::print", "synk/loadimba.cpp:LoadImba::printLoadImbalance", "synk/loadimba.cpp:LoadImba::~LoadImba", "synk/reduce.hpp:ReduceBarrier::wait"]}
