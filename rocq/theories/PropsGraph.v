(** * Properties C34, C35, C36: the task graph and point-to-point execution. *)
From Coq Require Import Permutation.
From Verif Require Import Base Interleave Spec Flat Csr CsrOps P2P P2PProg Exec Kernels Levels LevelsCsr Tasks TaskGraph TaskGraphCsr Sched SchedPerm SchedCases.

(** C34.  The rows of every stored entry are ordered, forward and backward, with or
    without transitive reduction ([tr]) and with or without task aggregation
    ([agg]); nothing happens before itself. *)
Theorem C34_covered : forall {V} hasv base n (rows lrows : rows_t V) A dp, sched_matrix hasv base n rows lrows A dp ->
  forall T agg cost w, sched_args (Zlen rows) T cost w ->
  forall tr S o2t t2o, constructTaskGraph (graph_of A base dp) T false agg tr cost w = Some (S, o2t, t2o) ->
  inverse_perms (Zlen rows) o2t t2o /\
  (forall r r' i i', 0 <= r < r' -> r' < Zlen rows -> entry rows r r' \/ entry rows r' r -> get o2t r = Some i -> get o2t r' = Some i' ->
     pos_before true S i i' /\ pos_before false S i' i) /\
  forall fwd i, ~ pos_before fwd S i i.
Proof. intros V. exact sched_ordered. Qed.
Print Assumptions C34_covered.
Example C34_covered_ex : sched_matrix true 1 6 tri_rows tri_rows (tri_A 1) (tri_dp 1) /\ sched_args 6 2 (fun _ => 1) tri_world /\
  constructTaskGraph (graph_of (tri_A 1) 1 (tri_dp 1)) 2 false false false (fun _ => 1) tri_world =
  Some (mkSched 6 [0; 1; 2; 3; 4; 5; 6] [0; 3; 6] [0; 1; 2; 0; 1; 2] [2; 1; 0; 2; 1; 0] [[]; [3]; [3; 4]; []; [0]; [0; 1]] [[4; 5]; [5]; []; [1; 2]; [2]; []], [0; 3; 1; 4; 2; 5], [0; 2; 4; 1; 3; 5]).
Proof. exact (conj (tri_sched 1) (conj tri_args tri_run)). Qed.
Example C34_halo_ex : sched_matrix true 0 3 halo_rows halo_lrows halo_A [0; 4].
Proof. exact halo_sched. Qed.

(** The same with a barrier after every level: the rows of an entry are in
    different phases or in order within one task. *)
Theorem C34_barrier : forall {V} hasv base n (rows lrows : rows_t V) A dp, sched_matrix hasv base n rows lrows A dp ->
  forall T agg cost w thb tb o2t t2o S fwd, sched_args (Zlen rows) T cost w ->
  world_tasks (graph_of A base dp) T true agg cost w = Some (thb, tb, o2t, t2o) -> has_tasks S T thb tb -> barrier_schedule rows T S (get t2o) fwd.
Proof. intros V. exact sched_barrier. Qed.
Print Assumptions C34_barrier.
Example C34_barrier_ex : exists thb tb o2t t2o, world_tasks (graph_of (tri_A 1) 1 (tri_dp 1)) 2 true false (fun _ => 1) tri_world = Some (thb, tb, o2t, t2o) /\ Zlen tb = 7.
Proof. exact tri_barrier_run. Qed.

(** The construction is defined for at most two threads, and for more threads
    while the levels fit the queues (C40). *)
Theorem C34_defined : forall {V} hasv base n (rows lrows : rows_t V) A dp, sched_matrix hasv base n rows lrows A dp ->
  forall T agg cost w lev tr, sched_args (Zlen rows) T cost w -> is_depth (Zlen rows) (lower_of lrows) lev ->
  T <= 2 \/ (forall l, 0 < l -> level_size (Zlen rows) lev l < share (Zlen rows) T) ->
  exists S o2t t2o, constructTaskGraph (graph_of A base dp) T false agg tr cost w = Some (S, o2t, t2o).
Proof. intros V. exact sched_defined. Qed.
Print Assumptions C34_defined.

(** The schedule does not depend on the interleaving of the construction or on the
    previous memory contents, up to the order of the tasks within a wait list. *)
Theorem C34_deterministic : forall {V} hasv base n (rows lrows : rows_t V) A dp, sched_matrix hasv base n rows lrows A dp ->
  forall T agg cost w1 w2 tr S1 S2 o1 t1 o2 t2, sched_args (Zlen rows) T cost w1 -> sched_args (Zlen rows) T cost w2 ->
  constructTaskGraph (graph_of A base dp) T false agg tr cost w1 = Some (S1, o1, t1) -> constructTaskGraph (graph_of A base dp) T false agg tr cost w2 = Some (S2, o2, t2) ->
  ntasks S1 = ntasks S2 /\ taskBoundaries S1 = taskBoundaries S2 /\ threadBoundaries S1 = threadBoundaries S2 /\ o1 = o2 /\ t1 = t2 /\
  forall fwd q, 0 <= q < ntasks S1 -> exists k c1 c2, get (nparents fwd S1) q = Some k /\ get (nparents fwd S2) q = Some k /\ get (parents fwd S1) q = Some c1 /\ get (parents fwd S2) q = Some c2 /\ Permutation c1 c2 /\ Zlen c1 = k.
Proof. intros V. exact sched_det. Qed.
Print Assumptions C34_deterministic.

(** A column beyond the square part without extptr: out-of-bounds read. *)
Theorem C34_halo_refuted : exists (rows : rows_t Z) A dp T cost w, rep true 0 2 rows A /\ local_rows 0 rows A rows /\ sym_pattern rows /\ diag_first 0 rows dp /\ rows_ok 2 rows /\ sched_args (Zlen rows) T cost w /\
  forall agg tr, constructTaskGraph (graph_of A 0 dp) T false agg tr cost w = None.
Proof. exact wide_refuted. Qed.
Print Assumptions C34_halo_refuted.
(** Barriers together with transitive reduction: the wait lists are written outside
    of the space reserved for them (the executors with barriers do not read them). *)
Theorem C34_barrier_reduction_refuted : exists (rows : rows_t Z) A dp T cost w, sched_matrix true 0 (Zlen rows) rows rows A dp /\ sched_args (Zlen rows) T cost w /\
  constructTaskGraph (graph_of A 0 dp) T true false true cost w = None /\ exists r, constructTaskGraph (graph_of A 0 dp) T true false false cost w = Some r.
Proof. exact barrier_refuted. Qed.
Print Assumptions C34_barrier_reduction_refuted.

(** C35.  Reduced lists are parts of the complete ones and order the same tasks. *)
Theorem C35_reduction : forall {V} hasv base n (rows lrows : rows_t V) A dp, sched_matrix hasv base n rows lrows A dp ->
  forall T agg cost w1 w2 S1 S2 o1 t1 o2 t2, sched_args (Zlen rows) T cost w1 -> sched_args (Zlen rows) T cost w2 ->
  constructTaskGraph (graph_of A base dp) T false agg true cost w1 = Some (S1, o1, t1) -> constructTaskGraph (graph_of A base dp) T false agg false cost w2 = Some (S2, o2, t2) ->
  ntasks S1 = ntasks S2 /\ taskBoundaries S1 = taskBoundaries S2 /\ threadBoundaries S1 = threadBoundaries S2 /\ o1 = o2 /\ t1 = t2 /\
  forall fwd, (forall q q', waits_for fwd S1 q q' -> waits_for fwd S2 q q') /\ (forall q q', task_before fwd S1 q q' <-> task_before fwd S2 q q').
Proof. intros V. exact sched_reduction. Qed.
Print Assumptions C35_reduction.
(** The same matrix as in [C34_covered_ex]: four of six waits remain in each direction. *)
Example C35_reduction_ex : constructTaskGraph (graph_of (tri_A 1) 1 (tri_dp 1)) 2 false false true (fun _ => 1) tri_world =
  Some (mkSched 6 [0; 1; 2; 3; 4; 5; 6] [0; 3; 6] [0; 1; 1; 0; 1; 1] [1; 1; 0; 1; 1; 0] [[]; [3]; [4]; []; [0]; [1]] [[4]; [5]; []; [1]; [2]; []], [0; 3; 1; 4; 2; 5], [0; 2; 4; 1; 3; 5]).
Proof. exact tri_run_reduced. Qed.

(** C36.  Any kernel whose row operations write only their row and read only the
    rows of stored entries (and memory nobody writes): every interleaving is
    defined, never stuck, fair executions end, and the end is the sequential one. *)
Theorem C36_progress : forall {V} hasv base n (rows lrows : rows_t V) A dp, sched_matrix hasv base n rows lrows A dp ->
  forall T agg cost X L O (exec : O -> L -> list X -> option (L * list X)) l0 ops own y fin w tr S o2t t2o fwd,
  sched_args (Zlen rows) T cost w -> constructTaskGraph (graph_of A base dp) T false agg tr cost w = Some (S, o2t, t2o) ->
  (forall r o l s l' s', 0 <= r < Zlen rows -> In o (ops r) -> exec o l s = Some (l', s') -> Zlen s' = Zlen s /\ forall p, own p <> r -> get s' p = get s p) ->
  (forall r o l s1 s2 l' s1', 0 <= r < Zlen rows -> In o (ops r) -> Zlen s1 = Zlen s2 ->
     (forall p, own p = r \/ entry rows r (own p) \/ ~ (0 <= own p < Zlen rows) -> get s1 p = get s2 p) -> exec o l s1 = Some (l', s1') ->
     exists s2', exec o l s2 = Some (l', s2') /\ forall p, own p = r -> get s2' p = get s1' p) ->
  foldM (row_run exec l0 ops) (dirZ fwd 0 (Zlen rows)) y = Some fin ->
  p2p_computes exec l0 ops fwd S (get t2o) T y fin.
Proof. intros V hasv base n rows lrows A dp HM T agg cost X L O. exact (sched_kernel_p2p hasv base n rows lrows A dp HM T agg cost). Qed.
Print Assumptions C36_progress.
