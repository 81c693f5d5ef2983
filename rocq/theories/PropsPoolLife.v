(** * C76: the life of a memory pool *)
From Verif Require Import Base MemoryPool PoolLife.
Local Open Scope Z_scope.

(** C76.  In every history in which the pool is used as intended: every block lies in
    memory of the system that nobody else has and misses the word with its size, no two
    blocks overlap, an uninitialised or finalised pool holds no memory, and the
    destructor gives back exactly what the pool holds. *)
Theorem C76_life s0 st : reach s0 st ->
  (forall b, In b (lf_blocks st) -> exists r, In r (os_live (lf_os st)) /\ grantable s0 (rg_at r) (rg_len r) /\ forall x, in_block b (x - lf_buf st) -> rg_at r + 8 <= x < rg_at r + rg_len r) /\
  ForallOrdPairs disjoint (lf_blocks st) /\ (lf_buf st = 0 -> lf_blocks st = [] /\ os_live (lf_os st) = os_live s0) /\
  exists st', finalize true st = Some st' /\ os_live (lf_os st') = os_live s0.
Proof. exact (life_safe s0 st). Qed.
Print Assumptions C76_life.
(** Nothing in it is undefined; only the assertions of the pool on requests may fail. *)
Theorem C76_defined s0 st o : reach s0 st -> used_well (os_live s0) st o -> life_step true o st = None -> exists po, o = LPool po /\ pool_step true po (lf_pool st, lf_blocks st) = None.
Proof. exact (life_defined s0 st o). Qed.
Print Assumptions C76_defined.
Example C76_life_ex : use_all (os_live os0) two_lives (new_pool os0) /\
  exists st, life_run true two_lives os0 = Some st /\ reach os0 st /\ lf_blocks st = [(4999872, 100)] /\ map rg_mapped (os_live (lf_os st)) = [false; false] /\ map rg_len (os_live (lf_os st)) = [4 * HP; 100].
Proof. exact two_lives_case. Qed.

(** malloc_huge_pages asks for enough exactly up to this size. *)
Theorem C76_size size : 0 <= size < 2 ^ 64 -> size + HP <= real_size size <-> size <= 2 ^ 64 - 2 * HP.
Proof. exact (real_size_exact size). Qed.
Print Assumptions C76_size.
Theorem C76_wrap_refuted : exists sz st, 0 <= sz < 2 ^ 64 /\ granted os0 (real_size sz) (by_mmap (4 * HP)) /\ life_run true [LInit sz (by_mmap (4 * HP)); LPool (OAlloc 300 64)] os0 = Some st /\ lf_blocks st = [(0, 300)] /\
  forall r x, In r (os_live (lf_os st)) -> in_block (0, 300) (x - lf_buf st) -> ~ byte_of r x.
Proof. exact wrap_refuted. Qed.
Print Assumptions C76_wrap_refuted.
(** Without memory malloc_huge_pages does not return NULL but writes to MAP_FAILED. *)
Theorem C76_no_memory size s : (forall r x, In r (os_live s) -> byte_of r x -> x < 2 ^ 64) -> malloc_huge_pages size (mkAnswer None None) s = None.
Proof. exact (no_memory size s). Qed.
Print Assumptions C76_no_memory.
(** initialize twice loses the first buffer. *)
Theorem C76_twice_refuted : exists ops st st', ops = [LInit 1000 (by_mmap (4 * HP)); LInit 1000 (by_mmap (6 * HP))] /\ life_run true ops os0 = Some st /\ finalize true st = Some st' /\
  granted os0 (real_size 1000) (by_mmap (4 * HP)) /\ (forall st1, life_step true (LInit 1000 (by_mmap (4 * HP))) (new_pool os0) = Some st1 -> granted (lf_os st1) (real_size 1000) (by_mmap (6 * HP))) /\
  os_live (lf_os st') = mkRegion true (4 * HP) (2 * HP) :: os_live os0.
Proof. exact twice_refuted. Qed.
Print Assumptions C76_twice_refuted.
(** Requests after finalize are answered with addresses where there is no memory. *)
Theorem C76_after_final_refuted : exists st, life_run true [LInit 1000 (by_mmap (4 * HP)); LFinal; LPool (OAlloc 300 64); LPool (OAlloc 300 64)] os0 = Some st /\ lf_buf st = 0 /\ lf_blocks st = [(320, 300); (0, 300)] /\
  forall r x, In r (os_live (lf_os st)) -> in_block (320, 300) (x - lf_buf st) -> ~ byte_of r x.
Proof. exact after_final_refuted. Qed.
Print Assumptions C76_after_final_refuted.
