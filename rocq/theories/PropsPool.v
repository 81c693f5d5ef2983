(** Property C24: the memory pool. *)
From Verif Require Import Base MemoryPool.

Theorem C24_pool_disjoint : forall size ops p live,
  0 <= size <= 2 ^ 62 -> Forall (op_ok size) ops ->
  pool_run true size ops = Some (p, live) ->
  (forall b, In b live -> block_inside size b) /\
  ForallOrdPairs disjoint live /\
  (forall b a, In b live -> in_block b a -> contains p a = true).
Proof. exact pool_correct. Qed.
Print Assumptions C24_pool_disjoint.
(** A history that wraps around: three blocks, the first one released, a fourth
    allocated at the start of the buffer, one from the front. *)
Example C24_case :
  pool_run true 1024 [OAlloc 300 64; OAlloc 300 64; OAlloc 200 64; OSetHead 640;
                      OAlloc 200 64; OFront 100 64]
  = Some (mkPool 1024 512 256, [(512, 100); (0, 200); (640, 200)]).
Proof. vm_compute. reflexivity. Qed.
Example C24_case_full : pool_run true 1024 [OAlloc 900 64; OAlloc 200 64] = None.
Proof. vm_compute. reflexivity. Qed.

(** Moving the head keeps exactly the blocks it did not pass over. *)
Theorem C24_release_exact : forall size ops p live off p' live' b,
  0 <= size <= 2 ^ 62 -> Forall (op_ok size) ops ->
  pool_run true size ops = Some (p, live) ->
  pool_step true (OSetHead off) (p, live) = Some (p', live') ->
  In b live -> 0 < snd b ->
  (In b live' <-> forall a, in_block b a -> contains p' a = true).
Proof. exact pool_release_only. Qed.
Print Assumptions C24_release_exact.

(** Alignment: one alignment throughout gives aligned blocks. *)
Theorem C24_blocks_aligned : forall size al ops p live,
  0 <= size <= 2 ^ 62 -> (al | size) ->
  Forall (op_ok size) ops -> Forall (op_aligned al) ops ->
  pool_run true size ops = Some (p, live) ->
  forall b, In b live -> (al | fst b).
Proof. exact pool_aligned. Qed.
Print Assumptions C24_blocks_aligned.

(** Requests larger than the pool are not always caught by the assertions. *)
Theorem C24_huge_request_refuted : exists p live,
  pool_run true 1024 [OAlloc 512 64; OAlloc (2 ^ 64 - 256) 64; OAlloc 64 64] = Some (p, live) /\
  In (0, 512) live /\ In (256, 64) live.
Proof. exact pool_huge_request. Qed.
Print Assumptions C24_huge_request_refuted.

Theorem C24_front_too_big_refuted : exists p b,
  pool_run true 1024 [OFront 2048 64] = Some (p, [b]) /\ ~ block_inside 1024 b.
Proof. exact pool_front_too_big. Qed.
Print Assumptions C24_front_too_big_refuted.

(** Without assertions an exhausted pool hands out overlapping blocks. *)
Theorem C24_ndebug_refuted : exists p live,
  pool_run false 1024 [OAlloc 512 64; OAlloc 600 64] = Some (p, live) /\
  In (0, 512) live /\ In (0, 600) live.
Proof. exact pool_ndebug. Qed.
Print Assumptions C24_ndebug_refuted.
