(** * Property C39: the wait lists of the fused schedule. *)
From Verif Require Import Base Spec Csr LevelsCsr TaskGraphCsr Sched SchedCases Exec Fused FusedWaits.

(** C39.  Refuted for constructed schedules, with and without transitive reduction:
    some task does not find the list [tp] computed for it. *)
Theorem C39_fused_refuted : forall tr, exists (rows : rows_t Z) A dp T cost w junk tp ps ns buf, sched_matrix true 0 (Zlen rows) rows rows A dp /\ sched_args (Zlen rows) T cost w /\ (forall n, 0 <= n -> Zlen (junk n) = n) /\
  constructFused (graph_of A 0 dp) T false false tr cost w junk = Some (tp, (ps, ns, buf)) /\
  exists q l, get tp q = Some l /\ ~ reads_back ps ns buf q l.
Proof. exact fused_refuted. Qed.
Print Assumptions C39_fused_refuted.

(** The copy is right when no list is longer than the inverse adjacency list by
    whose length the position advances. *)
Theorem C39_copy_fits : forall (invs : list (list Z)) tp buf, Zlen invs = Zlen tp -> zsum (map (fun l => Zlen l) invs) <= Zlen buf ->
  (forall q l inv, get tp q = Some l -> get invs q = Some inv -> Zlen l <= Zlen inv) ->
  exists ps ns buf', copy_parents invs tp buf = Some (ps, ns, buf') /\ Zlen ps = Zlen tp /\ Zlen ns = Zlen tp /\ forall q l, get tp q = Some l -> reads_back ps ns buf' q l.
Proof. exact copy_fits. Qed.
Print Assumptions C39_copy_fits.
Example C39_copy_ex : copy_parents [[0; 1]; [0]; []] [[0]; [1]; []] [9; 9; 9; 9] = Some ([0; 2; 3], [1; 1; 0], [0; 9; 1; 9]).
Proof. exact fits_case. Qed.

(** The lists themselves are right.  The construction is defined whenever that of
    the schedule is.  [reads R u q]: a row of task [u] has an entry in a column of
    task [q], with [R row column].  Let [F] be a set of tasks closed under the order
    of the backward sweep.  When it has the tasks on the list of [u], it has every
    task whose result the SpMV task [u] reads.  Nothing is listed without cause: a
    listed task is [u] or one whose columns [u] reads below the diagonal, and none is
    listed that another listed task has already waited for. *)
Theorem C39_lists : forall V hasv base n (rows lrows : rows_t V) A dp T agg tr cost w S o2t t2o junk, sched_matrix hasv base n rows lrows A dp -> sched_args (Zlen rows) T cost w ->
  constructTaskGraph (graph_of A base dp) T false agg tr cost w = Some (S, o2t, t2o) -> (forall n, 0 <= n -> Zlen (junk n) = n) ->
  exists tp r, constructFused (graph_of A base dp) T false agg tr cost w junk = Some (tp, r) /\ Zlen tp = ntasks S /\
    forall u l, get tp u = Some l ->
      (forall F, finished_set S F -> (forall v, In v l -> F v) -> forall q, reads S t2o rows (fun _ _ => True) u q -> F q) /\
      (forall v, In v l -> v = u \/ reads S t2o rows (fun r c => c < r) u v) /\
      (forall v p q, In v l -> In p l -> reads S t2o rows Z.lt p q -> ~ same_thread S p q -> same_thread S q v -> v < q).
Proof. exact @fused_waits. Qed.
Print Assumptions C39_lists.
Example C39_lists_ex : sched_matrix true 0 4 cross_rows cross_rows (csr_of 0 4 cross_rows) (dp_of 0 cross_rows) /\ sched_args 4 2 (fun _ => 1) cross_world /\ (forall n, 0 <= n -> Zlen (cross_junk n) = n) /\
  option_map (fun r => snd r) (constructTaskGraph (graph_of (csr_of 0 4 cross_rows) 0 (dp_of 0 cross_rows)) 2 false false true (fun _ => 1) cross_world) = Some [0; 2; 1; 3] /\
  option_map fst (constructFused (graph_of (csr_of 0 4 cross_rows) 0 (dp_of 0 cross_rows)) 2 false false true (fun _ => 1) cross_world cross_junk) = Some [[0]; [0; 2]; [2]; [0; 2]].
Proof. exact cross_case. Qed.
