(** * C66: the counters of the task graph, kept in shorts *)
From Verif Require Import Base Interleave Spec Flat Csr CsrOps P2P P2PProg Exec Kernels Levels LevelsCsr Tasks TaskGraph TaskGraphCsr Sched SchedCases SchedShort.
Open Scope Z_scope.

(** No task waits for itself or twice for the same task, so it waits for fewer tasks than
    there are; and there are at most as many tasks as rows. *)
Theorem C66_counts {V} hasv base n (rows lrows : rows_t V) A dp : sched_matrix hasv base n rows lrows A dp ->
  forall T agg cost w, sched_args (Zlen rows) T cost w ->
  forall tr S o2t t2o, constructTaskGraph (graph_of A base dp) T false agg tr cost w = Some (S, o2t, t2o) ->
  forall fwd q, 0 <= q < ntasks S -> exists k c, get (nparents fwd S) q = Some k /\ get (parents fwd S) q = Some c /\ Zlen c = k /\ NoDup c /\ ~ In q c /\ 0 <= k < ntasks S.
Proof. exact (sched_counts hasv base n rows lrows A dp). Qed.
Print Assumptions C66_counts.

Theorem C66_tasks {V} hasv base n (rows lrows : rows_t V) A dp : sched_matrix hasv base n rows lrows A dp ->
  forall T agg cost w, sched_args (Zlen rows) T cost w ->
  forall tr S o2t t2o, constructTaskGraph (graph_of A base dp) T false agg tr cost w = Some (S, o2t, t2o) -> 0 <= ntasks S <= Zlen rows.
Proof. exact (sched_tasks hasv base n rows lrows A dp). Qed.
Print Assumptions C66_tasks.

(** With at most 32768 rows, or at most 32768 tasks, every counter fits a short. *)
Theorem C66_short {V} hasv base n (rows lrows : rows_t V) A dp : sched_matrix hasv base n rows lrows A dp ->
  forall T agg cost w, sched_args (Zlen rows) T cost w ->
  forall tr S o2t t2o, constructTaskGraph (graph_of A base dp) T false agg tr cost w = Some (S, o2t, t2o) -> Zlen rows <= 32768 \/ ntasks S <= 32768 ->
  forall fwd q, 0 <= q < ntasks S -> exists k, get (nparents fwd S) q = Some k /\ 0 <= k <= 32767.
Proof. exact (sched_short hasv base n rows lrows A dp). Qed.
Print Assumptions C66_short.
(** Six rows, six tasks, two threads. *)
Example C66_ex : sched_matrix true 1 6 tri_rows tri_rows (tri_A 1) (tri_dp 1) /\ sched_args 6 2 (fun _ => 1) tri_world /\
  exists S o2t t2o, constructTaskGraph (graph_of (tri_A 1) 1 (tri_dp 1)) 2 false false false (fun _ => 1) tri_world = Some (S, o2t, t2o) /\ ntasks S = 6 /\ nparents true S = [0; 1; 2; 0; 1; 2].
Proof. exact short_case. Qed.
