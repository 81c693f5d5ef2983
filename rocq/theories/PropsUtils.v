(** Properties C01-C06: work distribution, prefix sums, permutations. *)
From Verif Require Import Base Spec Interleave Partition PrefixSum PermUtils.

(** C01 *)
Theorem C01_simple_partition_tiles : forall n T,
  0 <= n -> 1 <= T -> tiles n T (fun t => Some (simple_partition n T t)).
Proof. exact simple_partition_tiles. Qed.
Print Assumptions C01_simple_partition_tiles.
Example C01_case : map (simple_partition 10 4) [0;1;2;3] = [(0,3);(3,6);(6,9);(9,10)].
Proof. reflexivity. Qed.
Example C01_case_more_threads : map (simple_partition 2 4) [0;1;2;3] = [(0,1);(1,2);(2,2);(2,2)].
Proof. reflexivity. Qed.

(** C01, in 32-bit arithmetic: no intermediate result overflows. *)
Theorem C01_simple_partition_no_overflow : forall n T t,
  0 <= n -> 1 <= T -> 0 <= t < T -> 2 * n + T <= 2147483647 ->
  simple_partition_int n T t = Some (simple_partition n T t).
Proof. exact simple_partition_int_ok. Qed.
Print Assumptions C01_simple_partition_no_overflow.
Example C01_overflow_case : simple_partition_int 2147483647 4 0 = None.
Proof. reflexivity. Qed.

(** C02 *)
Theorem C02_load_balanced_partition_tiles : forall p n T,
  0 <= n -> 1 <= T -> n < Zlen p -> monotone p ->
  tiles n T (load_balanced_partition p n T).
Proof. exact load_balanced_partition_tiles. Qed.
Print Assumptions C02_load_balanced_partition_tiles.
Example C02_case :
  map (load_balanced_partition [1;1;5;5;6;9] 5 3) [0;1;2]
  = [Some (0,2); Some (2,5); Some (5,5)].
Proof. reflexivity. Qed.

(** C03 *)
Theorem C03_parMemcpy : forall n T src dst tr ts,
  0 <= n <= 2147483647 -> 1 <= T <= 1073741824 ->
  n <= Zlen src -> n <= Zlen dst ->
  par_mem_threads n T = Some ts -> interleave ts tr ->
  exists dst', foldM (memcpy_byte src) tr dst = Some dst' /\ Zlen dst' = Zlen dst /\
    (forall i, 0 <= i < n -> get dst' i = get src i) /\
    (forall i, n <= i -> get dst' i = get dst i).
Proof. exact parMemcpy_correct. Qed.
Print Assumptions C03_parMemcpy.

Theorem C03_parMemset : forall n T c dst tr ts,
  0 <= n <= 2147483647 -> 1 <= T <= 1073741824 -> n <= Zlen dst ->
  par_mem_threads n T = Some ts -> interleave ts tr ->
  exists dst', foldM (memset_byte c) tr dst = Some dst' /\ Zlen dst' = Zlen dst /\
    (forall i, 0 <= i < n -> get dst' i = Some c) /\
    (forall i, n <= i -> get dst' i = get dst i).
Proof. exact parMemset_correct. Qed.
Print Assumptions C03_parMemset.

(** The thread ranges exist and tile the buffer, so the two theorems above are
    not vacuous. *)
Theorem C03_ranges_tile : forall n T,
  0 <= n <= 2147483647 -> 1 <= T <= 1073741824 -> tiles n T (par_mem_range n T).
Proof. exact par_mem_range_tiles. Qed.
Print Assumptions C03_ranges_tile.
Example C03_case : map (par_mem_range 200 2) [0;1] = [Some (0,128); Some (128,200)].
Proof. reflexivity. Qed.
Example C03_case_threads : exists ts, par_mem_threads 130 3 = Some ts /\ interleave ts (concat ts).
Proof. eexists; split; [reflexivity|apply interleave_concat]. Qed.

(** For arbitrary size_t lengths the statement is false: with 4 GiB and one
    thread no byte is copied. *)
Theorem C03_large_sizes_refuted :
  ~ (forall n T, 0 <= n -> 1 <= T -> tiles n T (par_mem_range n T)).
Proof. exact par_mem_refuted_lem. Qed.
Print Assumptions C03_large_sizes_refuted.

(** C04 *)
Theorem C04_prefixSum : forall T io ws tr1 tr2,
  1 <= T -> Zlen io = T -> T + 1 <= Zlen ws ->
  interleave (singletons T) tr1 -> interleave (singletons T) tr2 ->
  exists io', prefixSum_run T io ws tr1 tr2 = Some (io', zsum io) /\
    Zlen io' = T /\
    (forall t, 0 <= t < T -> get io' t = Some (zsum (slice io 0 t))).
Proof. exact prefixSum_ok. Qed.
Print Assumptions C04_prefixSum.
Example C04_case : prefixSum_run 3 [5;7;9] [1;1;1;1] [2;0;1] [1;2;0] = Some ([0;5;12], 21).
Proof. reflexivity. Qed.

Theorem C04_prefixSumMultiple : forall n T (x : Z -> Z -> Z) io ws sum tr1 tr2,
  0 <= n -> 1 <= T -> Zlen io = T * n -> (T + 1) * n <= Zlen ws -> n <= Zlen sum ->
  (forall t i, 0 <= t < T -> 0 <= i < n -> get io (t * n + i) = Some (x t i)) ->
  interleave (psm_threads n T) tr1 -> interleave (psm_threads n T) tr2 ->
  exists io' sum', prefixSumMultiple_run n T io ws sum tr1 tr2 = Some (io', sum') /\
    Zlen io' = Zlen io /\ Zlen sum' = Zlen sum /\
    (forall t i, 0 <= t < T -> 0 <= i < n ->
       get io' (t * n + i) = Some (zsum (map (fun t' => x t' i) (zrange 0 t)))) /\
    (forall i, 0 <= i < n -> get sum' i = Some (zsum (map (fun t' => x t' i) (zrange 0 T)))) /\
    (forall i, n <= i -> get sum' i = get sum i).
Proof. exact prefixSumMultiple_ok. Qed.
Print Assumptions C04_prefixSumMultiple.
Example C04_multiple_case :
  prefixSumMultiple_run 2 2 [1;2;3;4] [9;9;9;9;9;9] [0;0]
    [(1,0);(0,0);(0,1);(1,1)] [(0,0);(1,0);(1,1);(0,1)]
  = Some ([0;0;1;2],[4;6]).
Proof. reflexivity. Qed.

(** Calling prefixSum twice in a row with the same workspace is not safe: a
    thread can receive a contribution of the second call from the first. *)
Theorem C04_back_to_back_calls_refuted :
  exists tr ws io,
    interleave [[GapRead 0; GapWrite 0 5]; [GapRead 1; GapWrite 1 5]] tr /\
    ps_master 2 [0; 1; 1] = Some (ws, 2) /\
    foldM gap_step tr (ws, [1; 1]) = Some ([0; 5; 5], io) /\
    get io 1 = Some 5 /\ zsum (slice [1; 1] 0 1) = 1.
Proof. exact prefixSum_back_to_back_race. Qed.
Print Assumptions C04_back_to_back_calls_refuted.

(** C05 *)
Theorem C05_getInversePerm : forall n perm inv tr,
  0 <= n -> is_perm n perm -> Zlen inv = n -> Permutation tr (zrange 0 n) ->
  exists inv', getInversePerm perm inv tr = Some inv' /\ inverse_perms n perm inv'.
Proof. exact getInversePerm_ok. Qed.
Print Assumptions C05_getInversePerm.
Example C05_case : is_perm 3 [2;0;1] /\ getInversePerm [2;0;1] [7;7;7] [1;2;0] = Some [1;2;0].
Proof. split; [|reflexivity]. apply is_perm_intro; [reflexivity| |].
  - repeat constructor; cbn; intuition discriminate.
  - cbn. intuition lia.
Qed.

Theorem C05_isInversePerm : forall n perm inv,
  Zlen perm = n -> Zlen inv = n -> (forall x, In x perm -> 0 <= x < n) ->
  exists b, isInversePerm perm inv = Some b /\ (b = true <-> inverse_perms n perm inv).
Proof. exact isInversePerm_spec. Qed.
Print Assumptions C05_isInversePerm.

Theorem C05_reorder_roundtrip : forall (V : Type) n (v tmp tmp' : list V) perm tr1 tr2 tr3 tr4,
  0 <= n -> is_perm n perm -> Zlen v = n -> Zlen tmp = n -> Zlen tmp' = n ->
  Permutation tr1 (zrange 0 n) -> Permutation tr2 (zrange 0 n) ->
  Permutation tr3 (zrange 0 n) -> Permutation tr4 (zrange 0 n) ->
  exists w, reorderVector v tmp (Some perm) n tr1 tr2 = Some w /\
    (forall i p, 0 <= i < n -> get perm i = Some p -> get w p = get v i) /\
    reorderVectorWithInversePerm w tmp' (Some perm) n tr3 tr4 = Some v.
Proof. exact @reorder_roundtrip. Qed.
Print Assumptions C05_reorder_roundtrip.

Theorem C05_reorder_inverse_roundtrip : forall (V : Type) n (v tmp tmp' : list V) perm tr1 tr2 tr3 tr4,
  0 <= n -> is_perm n perm -> Zlen v = n -> Zlen tmp = n -> Zlen tmp' = n ->
  Permutation tr1 (zrange 0 n) -> Permutation tr2 (zrange 0 n) ->
  Permutation tr3 (zrange 0 n) -> Permutation tr4 (zrange 0 n) ->
  exists w, reorderVectorWithInversePerm v tmp (Some perm) n tr1 tr2 = Some w /\
    (forall i p, 0 <= i < n -> get perm i = Some p -> get w i = get v p) /\
    reorderVector w tmp' (Some perm) n tr3 tr4 = Some v.
Proof. exact @reorder_inv_roundtrip. Qed.
Print Assumptions C05_reorder_inverse_roundtrip.

Theorem C05_reorder_agrees_with_inverse : forall (V : Type) n (v t1 t2 : list V) p q tr1 tr2,
  0 <= n -> inverse_perms n p q -> Zlen v = n -> Zlen t1 = n -> Zlen t2 = n ->
  Permutation tr1 (zrange 0 n) -> Permutation tr2 (zrange 0 n) ->
  reorderVectorOutOfPlace t1 v (Some p) n tr1 =
  reorderVectorOutOfPlaceWithInversePerm t2 v (Some q) n tr2.
Proof. exact @reorder_with_inverse_agree. Qed.
Print Assumptions C05_reorder_agrees_with_inverse.
Example C05_reorder_case :
  reorderVector [10;20;30] [0;0;0] (Some [2;0;1]) 3 [0;1;2] [2;1;0] = Some [20;30;10] /\
  reorderVectorWithInversePerm [20;30;10] [0;0;0] (Some [2;0;1]) 3 [1;0;2] [0;1;2]
  = Some [10;20;30].
Proof. split; reflexivity. Qed.

(** C06 *)
Theorem C06_isPerm_complete : forall n p, is_perm n p -> isPerm p = true.
Proof. exact isPerm_complete. Qed.
Print Assumptions C06_isPerm_complete.

Theorem C06_isPerm_in_range : forall n p,
  Zlen p = n -> (forall x, In x p -> 0 <= x < n) -> (isPerm p = true <-> is_perm n p).
Proof. exact isPerm_in_range. Qed.
Print Assumptions C06_isPerm_in_range.
Example C06_case : isPerm [2;0;1] = true /\ isPerm [2;0;2] = false.
Proof. split; reflexivity. Qed.

(** What isPerm really decides. *)
Theorem C06_isPerm_decides_distinct : forall p, isPerm p = true <-> NoDup p.
Proof. exact isPerm_iff_NoDup. Qed.
Print Assumptions C06_isPerm_decides_distinct.

Theorem C06_isPerm_sound_refuted :
  ~ (forall n p, 0 <= n -> Zlen p = n -> isPerm p = true -> is_perm n p).
Proof. exact isPerm_refuted_lem. Qed.
Print Assumptions C06_isPerm_sound_refuted.
