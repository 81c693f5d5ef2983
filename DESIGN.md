# Formal model of SpMP: design

The model is in `rocq/theories`. Files `Props*.v` hold only the property theorems
(`Cnn_...`), their worked cases and `Print Assumptions`. All other files hold the
model of the code, small specifications, and the lemmas.

## 1. Trusted base

* The Coq 8.16.1 kernel, including `vm_compute`.
* `Print Assumptions` beneath **every** property theorem prints
  `Closed under the global context`. No axiom is used, neither our own nor one of
  the standard library. A listing of all axioms in loaded modules (`coqchk -o`)
  names `Coq.ssr.ssrunder.Under_rel.*`, and other standard modules, only because
  standard library files that are loaded declare them. No theorem depends on them.
* The reading of the C++ text into Gallina. Every model definition cites file
  and lines; simplifications are named there and in section 3.

No kernel check is switched off. There are no functors, module types, axioms,
section-less variables or admitted proofs.

## 2. Conventions of the model

* Arrays are lists, indices are `Z`. Every load and store is checked. An access
  outside of an array, through a NULL pointer, or a failing `assert` gives `None`.
  So `None` means "undefined behaviour or abort", and a theorem `f x = Some y`
  includes memory safety of `f` on `x`.
* Freshly allocated memory has arbitrary contents: functions that allocate take
  a `junk` argument, and theorems hold for every `junk`.
* Integers are unbounded unless a property is about overflow (C01, C03), where
  the 32-bit wrap is written in the model.
* Floating point numbers are an arbitrary type with arbitrary operations. Only C68
  fixes them: there a double is `spec_float` of `Coq.Floats.SpecFloat`, every
  operation rounds to nearest even, and nothing is fused or kept in a wider register.
  "Bit for bit" theorems hold for every choice of operations. Only where an
  algebraic identity is claimed are ring or field laws a hypothesis. C43 is about
  the decimal printing of doubles and uses dyadic numbers.
* The number of OpenMP threads is universally quantified.
* Parallel loops. `par sched f ts s` runs the actions of the threads `ts` in the
  interleaving chosen by `sched`, which is universally quantified. An iteration
  of a row loop is one action where distinct iterations write disjoint memory
  and read nothing another iteration writes (also the iterations of RCM over
  components). Where the threads do communicate (barriers, union-find, bit
  vector, level counters, point-to-point flags, shared early-exit flags, the
  symmetric pattern), every shared load and store is its own action, except:
  a fetch-and-add and the store into the slot it reserves are one action; in the
  parallel search the winner's writes to its own data go with the bit-setting
  action; the plain `bv_[i] |= 1` is one action.
* Memory is sequentially consistent. Weak memory effects are not modelled.
* `nd : bool` is NDEBUG where the assertion mode changes the behaviour.
* Where the code has a defect, the general statement is refuted by a witness
  (`..._refuted`) and the largest guarded statement found is proved.

## 3. What is modelled, file by file

| source | model | not modelled / simplified |
|---|---|---|
| Utils.cpp, Utils.hpp | Partition, PermUtils, CsrOps (transposed index), Check (correctnessCheck, also of test/test.hpp), PoolLife (huge pages) | get_cpu_freq, printing. `std::sort`/`unique` in isPerm: sorted list without repetition |
| PrefixSum.cpp | PrefixSum | |
| MemoryPool.cpp | MemoryPool, PoolLife | HBW_ALLOC; page permissions and alignment of the mapping |
| COO.cpp, mm_io.cpp, Vector.cpp | Sort, Coo, Mm* | text files are lists of byte codes; C locale; `%d` out of range is undefined; malloc of a negative size fails; `%lg` is a parameter `scan_g` (its concrete instance knows no inf/nan/hex); `m+pad-1` in int only in IntSize; overflow of `m*n`; unused tails of loaded arrays are dropped |
| CSR.cpp | Csr, CsrOps, Transpose, CountSort, BinIO, MmStore, Convert (the constructor from a name), Width; Ownership (which arrays exist, and who releases them) | The quotient in getAverageWidth and the text of %g are parameters. Binary files are byte lists, doubles any 8-byte encoding that decodes back |
| Permute.cpp | Permute, PermuteMain, PermuteCols | |
| SpMV.cpp | SpMV | MKL variant |
| SymGS.cpp | SplitLU, SymPattern | |
| Laplacian.cpp | Laplacian, IntSize (numbers of rows and row pointers in int) | |
| LevelSchedule.cpp/.hpp | Levels*, Tasks, TaskGraph*, P2P*, Sched*, Fused* | `short` parent counts are unbounded (C66: they fit up to 32768 rows; beyond, transitive reduction removes only paths of two steps, and nothing in the code guards against more than 32767 waits); printing and timing; of the fused schedule only the construction of the SpMV wait lists (1136-1277). The redundancy removal at 1222-1230 reads children of p where its comment speaks of parents; no executor uses its result |
| synk/barrier.cpp, reduce.hpp, synk.cpp, loadimba.cpp | Barrier, Reduce, ReduceProof, InitSkel, BarrierInit, ReduceInit, Instance, WaitExec, LoadImba, LoadImbaRun | pause instructions; failure of allocations; of loadimba.cpp the singleton functions (as in barrier.cpp, C72), the waiting in init, the details per thread that print(true) adds and the conversion to double |
| reordering/BitVector.hpp | BitVector | |
| reordering/ConnectedComponents.cpp | UnionFind, Components, UnionFresh, UnionSome, ReorderSome, ComponentsBv, ComponentsDebug | whole, with and without bit vector and the checks of debug builds; integers unbounded (the sizes in int: IntSize) |
| reordering/RCM.cpp | Bfs, Rcm, ParBfs, BfsPerm, BfsPermWhole, RcmSource, RcmPipe, RcmLarge, RcmWhole | getRCMPermutation is whole.  Rcm: components below the threshold; RcmSource: the source of a large one; RcmPipe: its placement (one step per access to levels, perm or write_offset, sequential consistency; the array children is private); RcmLarge: parallel prefixSumOfLevels and the function.  Between two barriers of a large component the phases are interleaved. The maximum of the degrees is computed in order.  `std::sort` by degree: any function returning its input ordered by degree. The `omp for` at 1023 is outside of a parallel region, hence sequential. PAR_THR is 65536 as in the source |
| reordering/BFSBipartite.cpp | BiBfs | the isPerm assertions; bfs_serial there. The queue and rowptrs part of a thread is a list; adding to a full one is an error |
| test/mtx2bin.cpp | Convert | messages; what a failed %lg takes from the file |
| test/BFSBipartite_test.cpp, reordering_test.cpp | Products, ReorderTest | timing, messages, MKL, cache flushing; storing the permuted matrix |
| test/gs_test.cpp, trsv_test.cpp, pcg.cpp | Exec, Kernels, Ilu, SchedPerm, Phased, Solve, IluExact, Pcg*, Sgs*, OnePerm, TestProg, WaitExec | the executors and reference kernels; the four PCG solvers and main of pcg.cpp; the chain of calls in gs_test and trsv_test without timing, messages, MKL |

## 4. Per property

"Proved" means for all inputs, thread counts and interleavings, within the
hypotheses named.

| id | modelled functions | how it is proved, and what is refuted |
|----|--------------------|---------------------------------------|
| C01 | getSimpleThreadPartition | arithmetic; no overflow when 2n+threads <= INT_MAX |
| C02 | getLoadBalancedPartition, std::lower_bound | specification of lower_bound, monotonicity |
| C03 | parMemset, parMemcpy | ranges tile, then the interleaving rule; **refuted** from 2^31 bytes on (int arithmetic) |
| C04 | prefixSum, prefixSumMultiple | phase by phase, induction over threads; two calls in a row with one workspace **race** |
| C05 | getInversePerm, isInversePerm, reorder* | permutation algebra, order-independent writes |
| C06 | isPerm | decides distinctness; "only permutations" **refuted** ([5;7] is accepted) |
| C07 | make0/1BasedIndexing | loops; extptr is not shifted: **refuted** |
| C08 | coo2csr, dcoo2csr | counting sort invariant, then C09 |
| C09 | qsort, swap | induction over the length |
| C10 | transpose | counting sort with per-thread buckets: every position is determined by (column, storage order); m x 0 matrix **refuted** |
| C11 | isSymmetric | shared flag under all interleavings; base 1 skips the last column: **refuted** |
| C12 | hasZeroDiag | same; base 1 reads out of bounds: **refuted** |
| C13 | permute, permuteRowptr | loop invariants; sorting a pattern matrix, and with assertions NULL permutations and rows without a diagonal entry, **refuted** |
| C14 | permuteRows | base 1 **refuted** for every matrix |
| C15 | multiplyWithVector | fold equality for arbitrary arithmetic; ring form |
| C16 | multiplyWithVector, w = x | wide matrices **refuted** (copy too short) |
| C17 | multiplyWithDenseMatrix | base 1 with row stride other than 1 **refuted** |
| C18 | splitLU | rows are filters; base 1 with extptr **refuted** |
| C19 | getSymmetricNnzPattern | any order of the insertions, then the sort makes it unique; base 1 **refuted** |
| C20, C21 | storeBin, loadBin | round trip over byte lists; failed open of a 1-based matrix **refuted** (base changed) |
| C22 | loadMatrixMarket_ | parser lemmas, then entries; nine refuted variants (see PropsMm.v) |
| C23, C44 | mm_typecode_to_str, mm_read_banner, writers | finite case analysis over codes, all spellings; writers always report failure: **refuted** |
| C24 | MemoryPool | invariant over histories with ghost live blocks; huge requests **refuted** |
| C25 | generate3D27PtLaplacian | closed form; sizes that do not agree on being 1 **refuted** (and only those) |
| C26, C27 | Barrier::wait | inductive invariant over all states, well-founded measure |
| C28 | ReduceBarrier::wait | invariant of the k-th use (participants of the rounds, then threads); holds for the first use and for separated uses, any number of threads per core; single core and overlapping second use **refuted** |
| C29 | findConnectedComponents | forest invariant over compare-and-swap steps; exact for one thread; several threads can lose a link: **refuted**; exact for any number of threads if the plain stores (line 173) use current values (rank invariant: a thread's pending pair still joins the two trees); that no compare-and-swap fails is not enough: **refuted**.  With a bit vector: simulation of the run on the initialised array, restricted to the clear nodes, which are closed under edges.  Checks of debug builds: pass with two or more threads, with one **refuted**.  Under fair schedules both phases end (a potential falls with every step of an unfinished thread, a finished thread changes nothing); threads working one after the other give a run in which all stores use current values, so the exact cases occur for every matrix (UnionSome, ReorderSome) |
| C30 | bfs_serial, bfs, getBFSPermutation | queue invariant; level = distance; the component search it calls is that of C29 on the marks of the first search (`C30_whole`; such runs exist for every matrix, `C30_exists`); one node and one thread overruns a scratch array: **refuted** |
| C31 | getRCMPermutation | refinement to the textbook order per component; long path just below the threshold **refuted** |
| C32, C40 | findLevels_ | counters invariant; queue overflow **refuted** by a 144-row matrix and 4 threads |
| C33 | constructTasks | zero costs **refuted** (rows lost) |
| C34, C35 | constructTaskGraph_ | wait lists and program order generate the dependence order; barriers with reduction and halo columns **refuted** |
| C36 | WAIT/NOTIFY executors | progress measure under fairness |
| C37, C38 | Gauss-Seidel, triangular solves, ILU(0) | simulation by the sequential sweep. The backward sweep subtracts in another order than gsBackwardRef: **refuted** bit for bit, proved otherwise |
| C39 | fused schedule; the parents of an SpMV task are followed from the neighbours of its rows through the removal to the lists, with the order of the backward sweep as specification | lists sufficient and needed: proved; lists overlap in the buffer: **refuted** |
| C41, C42, C48, C49 | CSR helpers | loops, reductions in any order; copying extptr **refuted** |
| C43 | "%20.16g" and strtod | exact decimal arithmetic; doubles need 17 digits: **refuted**, 16-digit accuracy proved; C43_lines: the whole text of mm_write_mtx_crd for pattern, real and complex values (MmCrd) |
| C45 | loadVectorMatrixMarket | several columns **refuted** (row-major) |
| C46 | BitVector | one winner under all interleavings |
| C47 | bfsBipartite | level invariant; a full row overruns `rowptrs`: **refuted** |
| C50 | permuteColsInPlace_ | loop invariants |
| C51 | permute + schedule + executors | composition of C13, C33, C34, C37 |
| C52 | placement in getRCMPermutation (884-936) | small-step machine, invariant: per level the written part is a prefix of the textbook order; fair termination by a decreasing measure; paths **refuted** |
| C53 | selectSourcesWithPseudoDiameter | loop invariant on the depth of the search; the depth grows at every restart; several threads overrun candidates: **refuted** |
| C54 | getRCMPermutation, prefixSumOfLevels | invariant over the components: those done are placed, the bits of the others are clear; each phase by its own theorem (C30, C52, C53); a ring meets the hypotheses; runs with the right components exist for every matrix (`C54_exists`); long path **refuted** |
| C55 | sweeps of C37, C38 over a commutative ring | the value of each unknown after the sweep by induction over the order; then the system; uniqueness by induction; every execution by C37/C38 |
| C56 | ilu0, ilu0_ref over a field | invariant of the two-pointer loop: position q of row r holds a_rc minus the partial sum of L U; uniqueness by induction over rows and positions; unsorted rows **refuted** |
| C57 | pcg.cpp: splitting and scaling of the preconditioner, waxpby, dot as any tree of partial sums, the loop, the reordering of matrices and vectors | simulation: the arrays of the program are those of the textbook method moved by the permutation (identity for the unscheduled solvers); solves by C51, C55, factors by C56; base 1 and a start at the solution **refuted** |
| C58 | Barrier::init, ReduceBarrier::init: set-up of the cores, two rounds of counting down threadsWaiting and waiting for initState, the tables and links, each stored entry one step | InitSkel: inductive invariant over the counts of threads at each program point (at most one thread resets the counter, nobody passes early), decreasing measure, progress; BarrierInit, ReduceInit: the set-up and links preserve what the round before has stored; `b_shows`/`r_shows` say that the memory is the state `init`/`minit` of C26-C28. C58_counts: the loop of the constructor. Refuted where int8_t overflows |
| C59 | Allocation, release and use of the seven arrays of a matrix in all constructors, alloc, dealloc, loadBin, the Laplacian, the diagonal functions, permuteRowptr, transpose and splitLU; a heap of live blocks; the numbers in the arrays and the size of the blocks are left out, allocations do not fail, a Matrix Market file is read without error | Counting: for every block, live count = count over the pointers of all matrices + count of blocks nobody points to; kept by every call (Ownership.step_steps), so every FREE finds its block; the last count stays 0 in frugal programs. Refuted for the calls that drop arrays |
| C60 | Allocation and release in findLevels_, constructTaskGraph_ and the destructors of LevelSchedule and the fused schedule, line by line; C++ vectors left out, pool memory has no identity | The same counting along the straight-line code; the number of lost blocks by induction over the constructions |
| C61 | The fused forward solve step by step on y followed by b, inside the executor of C37; main of gs_test.cpp only as the sequence of calls of the fused option | Frame and locality of a row in the joint memory, then the general executor theorem; a sweep of Gauss-Seidel equals a triangular solve with right-hand side b less the other part times y (induction along the sweep), rows of the permuted parts are permutations of renamed rows |
| C62 | mm_read_mtx_crd, mm_read_mtx_crd_data and mm_read_unsymmetric_sparse on the bytes of a file, with what fscanf stored before it failed; a file name is the file it stands for (or none); the sizes after an error and the handles and arrays lost on error paths are left out; what %lg leaves behind when it finds no number is a parameter | Induction over the entries with the filled part of each array as invariant; for any bytes, two runs from different memory agree on the part already filled; the written text is parsed as entries, %20.16g as in C43 |
| C63 | The constructor from a name (atoi, the comparison with the printed number, the suffix .bin, the three sources) over files given as a function from names to bytes; main of mtx2bin: banner, array sizes, the loop over the first column, storeBin. What a failed %lg takes from the file, the messages and the binary file that cannot be opened are left out (the latter is undefined here, as the sizes are never set) | The theorems on the sources (C20, C22, C25) composed through the dispatch; decomposition of a name into blanks, number and rest; induction over the numbers of an array with the filled part as invariant; the failing cases are computed |
| C64 | getAverageWidth with both branches; the sum is taken modulo 2^64; the omp for gives each row to any thread, the sums are added in any order; the quotient of the two numbers is a parameter | Each row adds the difference of its extreme columns (computed by minimum and maximum, or first and last of a sorted row); sums modulo 2^64 are invariant under the distribution and equal the sum, as it is below 2^62; wrap-around by computation |
| C65 | print; the text of a value is a parameter | Induction over rows and entries |
| C66 | nparentsForward, nparentsBackward, numOfChildren, nparentsTemp of the task graph of C34 | The wait lists have no duplicates, stay below the number of tasks and exclude the task itself by the rank of C34; tasks are not empty and partition the rows |
| C67 | The constructor by name (C63) followed by constructTaskGraph, the sweeps and the orderings | `distinct` positions of the file and the mirror images give a symmetric pattern without duplicates; sorted rows put the diagonal entry between lower and upper part, so `diag_described` is the diagptr a schedule needs; then the theorems of C34, C37, C30 and C54 apply. Refuted: lower triangular general file without force |
| C68 | correctnessCheck of Utils.hpp and of test/test.hpp with its static vector, on IEEE doubles (`Coq.Floats.SpecFloat`, executable, no axioms) | `accepted` says by cases which pairs pass; comparison is antisymmetric, subtraction and division of finite numbers are never NaN, so the condition of the code is its negation; induction over the loop and over the sequence of calls. Refuted: accepted implies close (NaN, infinities); a 3 by 3 matrix with entries 1, 2^60, -2^61 for which gs_test rejects the backward sweep of every schedule (via C37_backward). |
| C69 | constructTaskGraph called three times, permute, getReorderVector, reorderVector, the plain, reordered and fused sweeps of gs_test | the permutations depend only on the levels and the tasks within a level, and these do not depend on useBarrier (empty tasks apart), on the reduction or on the interleaving (C33, C34); so a sweep under one schedule may use the permutation of another, and the theorems of C37, C51 and C61 apply to each |
| C70 | trsv_test: splitLU, getSymmetricNnzPattern, the choice of the pattern, three constructTaskGraph calls, the solves | the symmetrised arrays represent a sorted symmetric matrix whose diagptr has the form a schedule needs (C19); the triangular parts are sub-patterns of it; a sweep waits for all it reads if its entries are among those of the scheduled pattern. The example shows a matrix whose own pattern gives a schedule that waits for nothing |
| C71 | multiplyWithVector after permute and after transpose; the calls of BFSBipartite_test and reordering_test | row p[i] of the permuted matrix is row i with renamed columns, so the summands of a row are the same list (sorted: a permutation of it); for the transpose the double sum over all entries is exchanged; getBandwidth of the result is a maximum over the renamed entries (C10). Permuting a matrix with diagptr and a row without diagonal entry is **refuted** under assertions; without them it is covered |
| C72 | getInstance, initializeInstance, deleteInstance, ~Barrier; machine in which testing the pointer, arriving at and leaving the two OpenMP barriers, making the object, every access of init (C58) and returning are single steps of the threads | invariant in three phases (before the first release, between the releases, after both); counting threads at the OpenMP barriers gives progress and the bound; the object's own run is one of C58. Sequences of uses by induction. The destructor works on a set of live blocks: reading or freeing one that is not live is undefined. The refuted sizes: with a team smaller than the object is made for the counter of init stays positive (for every such team); a team larger by one is a run that writes outside `cores` |
| C73 | the sweeps with barriers, the steps of a row (C37) and of Barrier::wait (C26) in one machine: after the last step of a task the thread enters wait, a thread behind wait goes on with its next task, a spinning thread does nothing | refinement: by the safety of wait all threads outside wait are in the same phase, so the steps taken so far are complete phases and a prefix of an interleaving of the next; a prefix of a defined interleaving is defined. A phase is closed when the first thread leaves its wait. Progress from C27, measure over tasks, steps and program counters for fair executions. Then C37, C38 and C51 apply. Unequal numbers of tasks: calls and returns are counted, C26 bounds them; **refuted** for a schedule made without useBarrier (one row, two threads) |
| C74 | the size and position expressions of ConnectedComponents, RCM, BFSBipartite, transpose, prefixSumMultiple, findLevels_, loadMatrixMarket and the whole row pointer loop of the Laplacian, in int with undefined overflow | arithmetic, each as an equivalence with a bound; the Laplacian by comparing the two loops step by step (the count never falls, so the last value decides) and summing the entries to (3nx-2)(3ny-2)(3nz-2). **Refuted**: 2^23 rows with 256 threads; the cube of 431 |
| C75 | main of pcg.cpp: the name, strncpy into an uninitialised buffer, string(buf2), the file of the right-hand side or ones, the four solvers one after the other on the same x; complete runs as a relation (the two scheduled solvers are nondeterministic) | composition of C63/C67 (matrix), C45 (right-hand side) and C57 (solvers); the name that is looked for as an equivalence with the content of the buffer; the factors computed by the scheduled and the plain ilu0 are the same rows (`ilu_rows_one`). Refuted: another right-hand side or undefined because strncpy writes no 0; undefined for a short right-hand side; theorem: undefined for stems as long as the buffer |
| C76 | malloc_huge_pages, free_huge_pages, initialize, finalize and the destructor over a system of regions with addresses, answers of mmap and posix_memalign as parameters, stored words that other stores may overwrite | invariant: one region more than at the start, the word at its beginning says how it was obtained, and C24 for the pool inside; the sizes modulo 2^64 as an equivalence. Refuted: initialize twice, requests after finalize, sizes near 2^64; theorem: without memory MAP_FAILED is written to |
| C77 | LoadImba: the arrays of a thread, wait behind the reduction, reset, the summary of print, printLoadImbalance and the destructor in uint64_t (LoadImba); the run as the machine of C28 with the maximum between two readings of a clock that all processors share (LoadImbaRun) | the reduction gets its arguments from the clock, so a run is a run of C28 for every choice of later arguments; choosing them large shows that everybody has started call k when a thread returns from it, and clast is the latest start; progress from that of C28. The arrays: refinement to the list of calls so far (least, largest, sum, number per use). print and printLoadImbalance: loop invariants over threads and uses. One core (C28_single_core_refuted) is left out. Refuted: overlapping calls, second use after getInstance, imbalance of threads that arrive together, freeing of the structures |

## 5. Findings in the code

All are theorems named `..._refuted`; line numbers are in the model files.

1. parMemset/parMemcpy compute with `int`: wrong from 2^31 bytes on.
2. prefixSum has no barrier at its end, so two calls can race.
3. isPerm accepts any array of distinct numbers.
4. make0/1BasedIndexing and the copy constructor forget extptr.
5. isSymmetric, hasZeroDiag, permuteRows, getSymmetricNnzPattern, strided
   multiplyWithDenseMatrix and splitLU with extptr are wrong for base 1.
6. multiplyWithVector in place copies m instead of n elements.
7. transpose of a matrix without columns reads out of bounds.
8. storeBin leaves the matrix 0-based when the file cannot be opened; loadBin
   checks nothing of the file.
9. loadMatrixMarket: too many entries, negative coordinates, symmetry or padding
   with 0-based files and several malformed headers write out of bounds.
10. The Matrix Market writers compare the return value of printf with an item
    count and always fail; "%20.16g" loses the 17th digit.
11. loadVectorMatrixMarket stores several columns row by row.
12. MemoryPool: requests above the pool size wrap the unsigned comparison.
13. generate3D27PtLaplacian is wrong when some but not all sizes are 1.
14. ReduceBarrier: one core doubles a sum; a second use may overwrite a value
    not yet read. Barrier with USE_MCRT: too few rounds.
15. findConnectedComponents can lose a link between two threads.  The plain store at line 173 overwrites a parent that another thread has changed since it was read.  `C29_fresh_exact` shows that this is the only way; `C29_hidden_link_refuted` that it can happen although every compare-and-swap succeeds.  The checks at 297-320 read `compSizePrefixSum[nComp]`, which is uninitialised with one thread (line 315; `C29_debug_one_thread_refuted`); `p` is never freed.
16. The scratch arrays of getRCMPermutation (long path, both small and large; candidates of the source), bfs (one node) and
    bfsBipartite (a full row) are too short.
17. findLevels_ can overflow the queue share of a thread.
18. Zero costs lose rows in the task partition; wait lists of fused schedules
    overlap; barriers with transitive reduction write outside of their space.
19. ilu0_ref is wrong for base 1; so is the scaling of U in pcg_symgs(_opt).
20. The PCG solvers divide 0 by 0 when the start is the solution and overwrite it.
    (Not in the model: pcg_ilu0(_opt) leak lu.)
21. `coreTids` and `PseudoCore::coreId` are int8_t. With more than 128 threads on a core the stored number is negative (C58_threads_refuted); with more than 128 cores that are not a power of two ReduceBarrier::init reads `cores[-15]` or the like (C58_cores_refuted).
22. permute, permuteRows and transpose make their result with CSR(), so `ownData_` is false and deleting it does not release rowptr, colidx, values and extptr; the same holds for splitLU and generate3D27PtLaplacian into a matrix made by CSR(). constructDiagPtr and computeInverseDiag use MALLOC for a matrix in the pool too, and dealloc then forgets the arrays. alloc forgets the arrays the matrix has (C59_leak_refuted). dealloc of a matrix that does not own its data keeps extptr, which then belongs to the old matrix (C59_extptr_refuted).
23. constructTaskGraph without transitive reduction never releases the two task graphs; a second construction forgets seven arrays and the fused schedule (C60_malloc counts them). With the memory pool the same two uses call FREE on memory of the pool, and a fused schedule is never released (C60_pool_refuted, C60_pool).
24. ADJUST_FOR_BASE (test/test.hpp:90-97) moves y and b but not the third vector of forwardSolveWithReorderedMatrixFused. With indices from 1 `x[colidx[j]]` (gs_test.cpp:531) is the element after the one meant, and for reordered matrices one behind the end (C61_base1_refuted, C61_base1_value_refuted). gs_test itself reads matrices 0-based.
25. mm_read_mtx_crd (mm_io.cpp:277-300) has no branch for integer values: it returns 0 with row and column numbers that were never written and a null array of values (C62_integer_refuted). mm_read_unsymmetric_sparse (mm_io.cpp:545) ignores the result of fscanf, so a file cut short gives success with uninitialised memory less 1 as indices (C62_cut_refuted), and it accepts symmetric files and returns the stored half (C62_symmetric_refuted). Neither closes the file or releases the arrays on an error. loadMatrixMarket, which the library uses, calls neither.
26. test/mtx2bin.cpp:20-26: the input is not checked after fopen, only the first column of an array is converted, and the result of fscanf is ignored, so that uninitialised numbers are written for a file cut short (C63_columns_refuted, C63_cut_refuted, C63_names_refuted). When the output of a coordinate file cannot be opened, the program still returns 0 (C63_unopened_refuted). CSR.cpp:104-110: a file whose name is a number cannot be read (C63_names_refuted).
27. getAverageWidth (CSR.cpp:671) with the sorted flag on rows out of order adds negative widths to an unsigned sum, which wraps around (C64_unsorted_refuted).
28. gs_test (`new CSR(argv[1])`, gs_test.cpp:563) reads general files without force_symmetric and hands them to constructTaskGraph, which only asserts symmetry (LevelSchedule.cpp:167). With NDEBUG, for a lower triangular file a row belongs to no level, the permutations keep uninitialised elements and are used as indices (C67_general_refuted). trsv_test makes the pattern symmetric first and is not affected (C70).
29. correctnessCheck (Utils.hpp:47) compares with `>=`, which is false for NaN: a vector of NaNs passes against any expected vector, and anything passes where the reference overflowed (C68_nan_refuted, C68_overflow_refuted). The other way round, gs_test compares a backward sweep that takes the entries of a row in descending order with a reference in ascending order: with cancellation in a row the assertion fails although both are right (C68_gs_test_refuted).
30. permute asserts that every row has a diagonal entry whenever diagptr exists (Permute.cpp:315), and dcoo2csr makes diagptr for every matrix. So reordering_test aborts in debug builds for every graph without loops, web-Google of its own documentation probably among them (C13_hollow_assert_refuted, C71_loopless_graph_refuted). With NDEBUG the product is right and the elements of diagptr of such rows stay uninitialised. BFSBipartite_test avoids this by releasing diagptr first (BFSBipartite_test.cpp:89).
31. synk/loadimba.cpp (with -DLOADIMBA only): line 115 defines Barrier::deleteInstance a second time instead of LoadImba::deleteInstance, which is declared and never defined; the last wait of LoadImba::init ends at once because Barrier::init left initState at 2 (both read, not modelled). getInstance calls init with numUses = 1, so wait(tid, 1) writes behind the arrays (C77_uses_refuted). printLoadImbalance (246-265) computes tot - bar in uint64_t although bar is not part of tot: with threads that arrive together it prints about 2^64 (C77_imbalance_refuted). The destructor frees the five arrays of a thread but not its ThreadLoadImba (C77_leak_refuted). Two calls of wait that overlap inherit the race of ReduceBarrier: clast may be a start of the next call (C77_race_refuted).
32. synk/barrier.cpp:47-68: initializeInstance does not look at the size of the team. With numCores*numThreadsPerCore larger than the team every caller spins in init for ever, with a smaller one init writes behind `cores` and `threadCores` (C72_small_team_refuted, C72_large_team_refuted). getInstance chooses the size itself and has this problem only later, when a region of another size uses the same instance (C26).
33. Work arrays of rows times threads are sized in int (ConnectedComponents.cpp:82, RCM.cpp:179-187, BFSBipartite.cpp:445-453, CSR.cpp:499): with 256 threads, as on the processors the library was written for, 2^23 rows overflow (C74_threads_refuted). `(m + 1)*16` at RCM.cpp:693 overflows at 2^27 rows. The row pointers of the generated Laplacian overflow from a cube of 431 on (C74_cube_refuted).
34. test/pcg.cpp:693-696: strncpy copies strlen - 4 characters and no 0 into a buffer that is not initialised, so that the name of the right-hand side continues with what the stack held: another file, or a read behind the buffer (C75_name, C75_other_rhs_refuted, C75_no_end_refuted). A name of 1028 characters or more is undefined for every content (C75_long_name). The numbers of rows of the matrix and of the right-hand side are not compared (pcg.cpp:695-696): a shorter file is read behind its end (C75_short_rhs_refuted).
35. Utils.hpp:165-169: if mmap and posix_memalign fail, ptr is still MAP_FAILED, which is not NULL: the next statement writes to it and `assert(buffer_)` is never reached (C76_no_memory). `size + HUGE_PAGE_SIZE` wraps around near 2^64 (C76_size, C76_wrap_refuted).
36. MemoryPool.cpp:54-70: initialize does not look at buffer_, so a second call loses the first buffer (C76_twice_refuted). finalize does not reset size_ (72-89): later requests pass the assertions and return NULL plus an offset (C76_after_final_refuted).

## 6. Wrong programs

`seeded/LOG.jsonl` lists edits of model definitions that imitate realistic bugs,
with the lemmas and property theorems that no longer hold. Each was made in a
copy; failing proofs were admitted there to find all affected theorems.
