(** * C74: sizes of work arrays in int *)
From Verif Require Import Base PrefixSum CountSort Laplacian IntSize.
Open Scope Z_scope.

(** One block of [w] elements per thread: the size is defined exactly up to INT_MAX
    elements, and then every position of every thread is defined, inside the array
    and not that of another. *)
Theorem C74_blocks w M : 0 <= w -> 0 <= M ->
  (forall s, block_size w M = Some s -> s = w * M /\
    (forall tid i, 0 <= tid < M -> 0 <= i < w -> exists k, block_index w tid i = Some k /\ 0 <= k < s) /\
    (forall tid i tid' i' k, 0 <= tid < M -> 0 <= i < w -> 0 <= tid' < M -> 0 <= i' < w ->
       block_index w tid i = Some k -> block_index w tid' i' = Some k -> tid = tid' /\ i = i')) /\
  (block_size w M = None <-> 2147483647 < w * M).
Proof. exact (blocks_ok w M). Qed.
Print Assumptions C74_blocks.
Example C74_blocks_ex : block_size 8388608 255 = Some 2139095040 /\ block_index 8388608 254 8388607 = Some 2139095039.
Proof. exact ex_block. Qed.

Theorem C74_workspace n T : 0 <= n -> 0 <= T < 2147483647 ->
  (forall s, workspace_size n T = Some s -> s = n * (T + 1) /\
     forall t i, -1 <= t < T -> 0 <= i < n -> exists k, workspace_index n t i = Some k /\ k = (t + 1) * n + i /\ 0 <= k < s) /\
  (workspace_size n T = None <-> 2147483647 < n * (T + 1)).
Proof. exact (workspace_ok n T). Qed.
Print Assumptions C74_workspace.

(** The counters of transpose and findConnectedComponents: if the size is defined, so
    are the bounds of the loops and the transposed positions for every team that is
    not larger, also with 1 added for matrices with base 1, and no two of the positions
    are equal. *)
Theorem C74_counters K M : 0 <= K < 2147483647 -> 1 <= M ->
  (forall s, counters_size K M = Some s -> s = (K + 1) * M /\ forall T, 1 <= T <= M ->
    (forall tid, 0 <= tid < T -> iscan_bounds K tid = Some (tid * K + 1, (tid + 1) * K)) /\
    (forall i, 0 <= i < K * T -> exists k, itranspose_idx i T K = Some k /\ k = transpose_idx i T K /\ 0 <= k /\ iadd k 1 = Some (k + 1) /\ k < s) /\
    (forall i i' k, 0 <= i < K * T -> 0 <= i' < K * T -> itranspose_idx i T K = Some k -> itranspose_idx i' T K = Some k -> i = i')) /\
  (counters_size K M = None <-> 2147483647 < (K + 1) * M).
Proof. exact (counters_ok K M). Qed.
Print Assumptions C74_counters.
Example C74_counters_ex : counters_size 3 4 = Some 16 /\
  map (fun i => itranspose_idx i 4 3) (zrange 0 12) = map Some [0; 3; 6; 9; 1; 4; 7; 10; 2; 5; 8; 11].
Proof. exact ex_counters. Qed.

(** The arrays of getRCMPermutation *)
Theorem C74_rcm m maxDegree M l : 0 <= m -> 0 <= maxDegree -> 1 <= M ->
  rcm_sizes m maxDegree M = Some l <->
  (M * 65536 <= 2147483647 /\ M * maxDegree <= 2147483647 /\ m * M <= 2147483647 /\ (m + 1) * 16 <= 2147483647) /\
  l = [M * Z.max 65536 maxDegree; m * M; m * M; m * M; (m + 1) * 16; Z.max (M * 65536) m + 1].
Proof. exact (rcm_sizes_iff m maxDegree M l). Qed.
Print Assumptions C74_rcm.
Example C74_rcm_ex : rcm_sizes 1000000 500 272 = Some [17825792; 272000000; 272000000; 272000000; 16000016; 17825793].
Proof. exact ex_rcm. Qed.

(** The buffer of findLevels_ *)
Theorem C74_levels n T : 0 <= n -> 1 <= T ->
  (exists r, levels_sizes n T = Some r) <-> 5 * Z.max T (n + T - 1) + 45056 <= 2147483647.
Proof. exact (levels_sizes_iff n T). Qed.
Print Assumptions C74_levels.
Theorem C74_levels_shares n T al sz t : 0 <= n -> 1 <= T -> levels_sizes n T = Some (al, sz, t) ->
  n <= al - 128 /\ t + n + 45056 <= sz /\
  (forall tid, 0 <= tid < T -> exists q r, levels_offsets n T tid = Some (q, r) /\
     0 <= q /\ q + 2 * (Z.max T (n + T - 1) ÷ T) <= r /\ 2 * Z.max T (n + T - 1) <= r /\ r + 2 * (Z.max T (n + T - 1) ÷ T) <= t) /\
  (forall tid tid' q r q' r', 0 <= tid < tid' -> tid' < T -> levels_offsets n T tid = Some (q, r) -> levels_offsets n T tid' = Some (q', r') ->
     q + 2 * (Z.max T (n + T - 1) ÷ T) <= q' /\ r + 2 * (Z.max T (n + T - 1) ÷ T) <= r').
Proof. exact (levels_offsets_ok n T al sz t). Qed.
Print Assumptions C74_levels_shares.
Example C74_levels_ex : levels_sizes 1000 4 = Some (1136, 50071, 4012) /\ levels_offsets 1000 4 3 = Some (1500, 3506).
Proof. exact ex_levels. Qed.

(** The padded number of rows of loadMatrixMarket is the next multiple. *)
Theorem C74_padded m pad : 0 <= m <= 2147483647 -> 1 <= pad <= 2147483647 ->
  (forall r, padded m pad = Some r <-> m + pad <= 2147483647 /\ m <= r < m + pad /\ (pad | r)) /\
  (padded m pad = None <-> 2147483647 < m + pad).
Proof. exact (padded_ok m pad). Qed.
Print Assumptions C74_padded.
Example C74_padded_ex : padded 1001 16 = Some 1008 /\ padded 2147483640 16 = None.
Proof. exact ex_padded. Qed.

(** The 27-point Laplacian: the number of rows, and the pointers to the rows, which are
    those of the model with unbounded integers exactly when all entries can be
    counted. *)
Theorem C74_laplacian_rows nx ny nz : 1 <= nx -> 1 <= ny -> 1 <= nz ->
  (lap_sizes nx ny nz = Some (nx * ny * nz, nx * ny * nz + 1) <-> nx * ny * nz + 1 <= 2147483647) /\
  (lap_sizes nx ny nz = None <-> 2147483647 < nx * ny * nz + 1).
Proof. exact (lap_sizes_iff nx ny nz). Qed.
Print Assumptions C74_laplacian_rows.
Theorem C74_laplacian nx ny nz : 1 <= nx -> 1 <= ny -> 1 <= nz -> forall junk, 2 <= nx -> 2 <= ny -> 2 <= nz ->
  nx * ny * nz + 1 <= 2147483647 -> Zlen junk = nx * ny * nz + 1 ->
  (lap_rowptr_int nx ny nz junk = lap_rowptr nx ny nz junk <-> (3 * nx - 2) * (3 * ny - 2) * (3 * nz - 2) <= 2147483647) /\
  (lap_rowptr_int nx ny nz junk = None <-> 2147483647 < (3 * nx - 2) * (3 * ny - 2) * (3 * nz - 2)).
Proof. exact (lap_int_total nx ny nz). Qed.
Print Assumptions C74_laplacian.
Theorem C74_laplacian_cube n junk : 2 <= n <= 1290 -> Zlen junk = n * n * n + 1 ->
  (n <= 430 -> lap_rowptr_int n n n junk = lap_rowptr n n n junk) /\
  (431 <= n -> lap_rowptr_int n n n junk = None /\ lap_sizes n n n = Some (n * n * n, n * n * n + 1)).
Proof. exact (lap_cube n junk). Qed.
Print Assumptions C74_laplacian_cube.
Example C74_laplacian_ex : lap_rowptr_int 2 3 2 (repeat 77 13) = lap_rowptr 2 3 2 (repeat 77 13) /\
  exists rp, lap_rowptr_int 2 3 2 (repeat 77 13) = Some (112, rp).
Proof. exact ex_lap. Qed.

(** C74, refuted: a matrix whose rows, columns and entries all fit in int can be
    handled with 255 threads and not with 256. *)
Theorem C74_threads_refuted : block_size 8388608 255 <> None /\ block_size 8388608 256 = None /\
  rcm_sizes 8388608 100 255 <> None /\ rcm_sizes 8388608 100 256 = None.
Proof. exact threads_refuted. Qed.
Print Assumptions C74_threads_refuted.
(** C74, refuted: the rows of a cube of 431 can be numbered, its entries not. *)
Theorem C74_cube_refuted junk : Zlen junk = 431 * 431 * 431 + 1 ->
  lap_rowptr_int 431 431 431 junk = None /\ lap_sizes 431 431 431 = Some (80062991, 80062992).
Proof. exact (lap_cube_refuted junk). Qed.
Print Assumptions C74_cube_refuted.
