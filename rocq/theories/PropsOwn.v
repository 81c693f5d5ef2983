(** Properties C59 and C60: arrays are released exactly once. *)
From Verif Require Import Base Ownership OwnSched.

(** ** C59 *)
(** Any calls in any order on any number of matrices, within the caller's
    contract: no double release, no release of memory of the caller or of the
    pool, no use of a released array; no two matrices hold the same array and
    every array held is allocated. *)
Theorem C59_safe : forall xs, usable_run st0 xs ->
  exists s, run xs st0 = Some s /\ NoDup (held s) /\ incl (held s) (live (hp s)).
Proof. exact ownership_safe. Qed.
Print Assumptions C59_safe.
Example C59_safe_case : usable_run st0 prog_ok_end /\ usable_run st0 prog_permute.
Proof. exact (conj prog_ok_usable (proj1 (proj1 ownership_leaks))). Qed.

(** In programs that avoid the calls listed in [frugal] the allocated blocks are at any
    time those held by the matrices. *)
Theorem C59_balanced : forall xs s, usable_run st0 xs -> frugal_run st0 xs ->
  run xs st0 = Some s -> Permutation (live (hp s)) (held s).
Proof. exact ownership_frugal. Qed.
Print Assumptions C59_balanced.
Example C59_balanced_case :
  option_map (fun s => length (live (hp s))) (run prog_ok st0) = Some 17%nat
  /\ option_map (fun s => live (hp s)) (run prog_ok_end st0) = Some [].
Proof. exact prog_ok_live. Qed.

(** When all matrices are deleted nothing is left. *)
Theorem C59_no_leak : forall xs s, usable_run st0 xs -> frugal_run st0 xs ->
  run xs st0 = Some s -> (forall a, obj s a = None) -> live (hp s) = [].
Proof. exact ownership_no_leak. Qed.
Print Assumptions C59_no_leak.
Example C59_no_leak_case : usable_run st0 prog_ok_end /\ frugal_run st0 prog_ok_end.
Proof. exact (conj prog_ok_usable prog_ok_frugal). Qed.

(** Without those restrictions the property fails: the results of permute and
    transpose, the factors of splitLU and the Laplacian in matrices made by
    CSR(), the inverse diagonal of a matrix in the pool, and a second alloc. *)
Theorem C59_leak_refuted :
  leaks prog_permute /\ leaks prog_transpose /\ leaks prog_splitLU /\
  leaks prog_laplacian /\ leaks prog_pool /\ leaks prog_alloc.
Proof. exact ownership_leaks. Qed.
Print Assumptions C59_leak_refuted.

(** A matrix that does not own its data keeps extptr when it is filled anew. *)
Theorem C59_extptr_refuted : usable_run st0 prog_stale /\
  exists s o, run prog_stale st0 = Some s /\ obj s 2 = Some o /\ ep o <> PNull /\ rp o <> PNull.
Proof. exact ownership_stale_extptr. Qed.
Print Assumptions C59_extptr_refuted.

(** ** C60 *)
(** A schedule with its own memory, constructed any number of times with any
    flags and then destroyed: no undefined behaviour; nothing is lost by one
    construction with transitive reduction, and in general exactly the blocks
    counted here. *)
Theorem C60_malloc : forall xs h, heap_ok h ->
  exists h', life false xs h = Some h' /\ heap_ok h' /\
    more (4 * without_tr xs + 7 * Z.max 0 (Zlen xs - 1) + 4 * Z.max 0 (with_fuse xs - 1)) h h'.
Proof. exact life_malloc. Qed.
Print Assumptions C60_malloc.
Example C60_malloc_case :
  option_map live (life false [(true, true, true)] (Heap [2; 0] 3)) = Some [2; 0].
Proof. exact life_malloc_case. Qed.
Example C60_malloc_case2 :
  option_map (fun h => Zlen (live h))
    (life false [(true, true, true); (false, false, true); (false, true, false)] (Heap [2; 0] 3))
  = Some (2 + 4 * 1 + 7 * 2 + 4 * 1).
Proof. exact life_lost_case. Qed.

(** A schedule in the memory pool, constructed once with transitive reduction:
    only the fused schedule is lost. *)
Theorem C60_pool : forall d fuse h, heap_ok h ->
  exists h', life true [(d, true, fuse)] h = Some h' /\ heap_ok h' /\
    more (if fuse then 4 else 0) h h'.
Proof. exact life_pool_once. Qed.
Print Assumptions C60_pool.

(** In the memory pool, a second construction or one without transitive
    reduction releases memory of the pool with FREE. *)
Theorem C60_pool_refuted : forall xs h, heap_ok h ->
  2 <= Zlen xs \/ 1 <= without_tr xs -> life true xs h = None.
Proof. exact life_pool_undefined. Qed.
Print Assumptions C60_pool_refuted.
Example C60_pool_case :
  option_map live (life true [(true, true, false)] (Heap [2; 0] 3)) = Some [2; 0] /\
  life true [(true, false, false)] (Heap [2; 0] 3) = None /\
  life true [(true, true, false); (true, true, false)] (Heap [2; 0] 3) = None.
Proof. exact life_pool_case. Qed.
