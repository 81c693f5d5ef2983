(** * Properties C32, C33, C40: levels and tasks of a level schedule. *)
From Coq Require Import Permutation.
From Verif Require Import Base Interleave Spec Flat Csr CsrOps Levels LevelsFacts LevelsMain Tasks LevelsCsr.

(** C32.  [lev] is the length of the longest dependency chain, so it grows strictly
    along every dependency; the sorted levels are the rows of each depth in
    increasing order, and every row is in exactly one of them. *)
Theorem C32_levels : forall {V} hasv base n (rows lrows : rows_t V) A dp,
  rep hasv base n rows A -> local_rows base rows A lrows -> sym_pattern lrows -> diag_first base rows dp ->
  forall T chunks sch0 sch np rv rv' lv, 1 <= T -> static_chunks (Zlen rows) T chunks -> Zlen np = Zlen rows -> Zlen rv = Zlen rows ->
  findLevels (graph_of A base dp) T chunks sch0 sch np rv = Some (rv', lv) ->
  exists lev nl, is_depth (Zlen rows) (lower_of lrows) lev /\ 0 <= nl /\
    (forall i, 0 <= i < Zlen rows -> 0 <= lev i < nl) /\ (forall l, 0 <= l < nl -> exists i, 0 <= i < Zlen rows /\ lev i = l) /\
    Permutation rv' (zrange 0 (Zlen rows)) /\ lv = map (off (lvl (Zlen rows) lev)) (zrange 0 (nl + 1)) /\
    sort_levels rv' lv = Some (map (lvl (Zlen rows) lev) (zrange 0 nl)).
Proof. intros V. exact csr_levels. Qed.
Print Assumptions C32_levels.
Example C32_levels_ex : sym_pattern ex_rows /\
  findLevels (graph_of (csr_of 0 4 ex_rows) 0 (dp_of 0 ex_rows)) 2 [[0; 1]; [2; 3]] [1; 1; 0; 0]%nat (fun _ _ => []) [9; 9; 9; 9] [9; 9; 9; 9] = Some ([0; 1; 2; 3], [0; 2; 3; 4]).
Proof. exact (conj ex_rows_ok ex_levels_run). Qed.

(** The construction is defined for at most two threads, and for more threads
    while every level but the first stays below the share of a work queue. *)
Theorem C32_defined : forall {V} hasv base n (rows lrows : rows_t V) A dp,
  rep hasv base n rows A -> local_rows base rows A lrows -> sym_pattern lrows -> diag_first base rows dp ->
  forall lev T chunks sch0 sch np rv, 1 <= T -> static_chunks (Zlen rows) T chunks -> Zlen np = Zlen rows -> Zlen rv = Zlen rows ->
  is_depth (Zlen rows) (lower_of lrows) lev -> T <= 2 \/ (forall l, 0 < l -> level_size (Zlen rows) lev l < share (Zlen rows) T) ->
  exists r, findLevels (graph_of A base dp) T chunks sch0 sch np rv = Some r.
Proof. intros V. exact csr_levels_defined. Qed.
Print Assumptions C32_defined.

(** The outcome depends neither on the interleaving nor on the number of threads. *)
Theorem C32_deterministic : forall {V} hasv base n (rows lrows : rows_t V) A dp,
  rep hasv base n rows A -> local_rows base rows A lrows -> sym_pattern lrows -> diag_first base rows dp ->
  forall T1 chunks1 sch1 sch1' np1 rv1 T2 chunks2 sch2 sch2' np2 rv2 r1 lv1 r2 lv2,
  1 <= T1 -> static_chunks (Zlen rows) T1 chunks1 -> Zlen np1 = Zlen rows -> Zlen rv1 = Zlen rows ->
  1 <= T2 -> static_chunks (Zlen rows) T2 chunks2 -> Zlen np2 = Zlen rows -> Zlen rv2 = Zlen rows ->
  findLevels (graph_of A base dp) T1 chunks1 sch1 sch1' np1 rv1 = Some (r1, lv1) ->
  findLevels (graph_of A base dp) T2 chunks2 sch2 sch2' np2 rv2 = Some (r2, lv2) ->
  lv1 = lv2 /\ sort_levels r1 lv1 = sort_levels r2 lv2.
Proof. intros V. exact csr_levels_det. Qed.
Print Assumptions C32_deterministic.

(** C33. *)
Theorem C33_tasks : forall {V} hasv base n (rows lrows : rows_t V) A dp,
  rep hasv base n rows A -> local_rows base rows A lrows -> sym_pattern lrows -> diag_first base rows dp ->
  forall T bar agg cost chunks sch0 sch sch1 np rv tbj o2t t2o thb tb o2t' t2o',
  1 <= T -> static_chunks (Zlen rows) T chunks -> Zlen np = Zlen rows -> Zlen rv = Zlen rows ->
  (forall i, 0 <= i < Zlen rows -> 0 < cost i) -> Zlen o2t = Zlen rows -> Zlen t2o = Zlen rows ->
  buildTasks (graph_of A base dp) T bar agg cost chunks sch0 sch sch1 np rv tbj o2t t2o = Some (thb, tb, o2t', t2o') ->
  exists lev nl tasks, is_depth (Zlen rows) (lower_of lrows) lev /\ tasks_ok (Zlen rows) T tasks thb tb o2t' t2o' /\ levels_increase lev tasks /\
    (bar = true -> tasks_by_level lev nl tasks) /\ (bar = false -> tasks_nonempty tasks).
Proof. intros V. exact csr_tasks. Qed.
Print Assumptions C33_tasks.
Example C33_tasks_ex : sym_pattern ex_rows /\
  buildTasks (graph_of (csr_of 0 4 ex_rows) 0 (dp_of 0 ex_rows)) 2 false false (fun _ => 1) [[0; 1]; [2; 3]] [] (fun _ _ => []) [] [9; 9; 9; 9] [9; 9; 9; 9] (fun _ => 7) [9; 9; 9; 9] [9; 9; 9; 9] =
  Some ([0; 3; 4], [0; 1; 2; 3; 4], [0; 3; 1; 2], [0; 2; 3; 1]).
Proof. exact (conj ex_rows_ok ex_tasks_run). Qed.

Theorem C33_defined : forall {V} hasv base n (rows lrows : rows_t V) A dp,
  rep hasv base n rows A -> local_rows base rows A lrows -> sym_pattern lrows -> diag_first base rows dp ->
  forall lev T bar agg cost chunks sch0 sch sch1 np rv tbj o2t t2o,
  1 <= T -> static_chunks (Zlen rows) T chunks -> Zlen np = Zlen rows -> Zlen rv = Zlen rows ->
  (forall i, 0 <= i < Zlen rows -> 0 < cost i) -> Zlen o2t = Zlen rows -> Zlen t2o = Zlen rows ->
  is_depth (Zlen rows) (lower_of lrows) lev -> T <= 2 \/ (forall l, 0 < l -> level_size (Zlen rows) lev l < share (Zlen rows) T) ->
  exists thb tb o2t' t2o', buildTasks (graph_of A base dp) T bar agg cost chunks sch0 sch sch1 np rv tbj o2t t2o = Some (thb, tb, o2t', t2o').
Proof. intros V. exact csr_tasks_defined. Qed.
Print Assumptions C33_defined.

Theorem C33_deterministic : forall {V} hasv base n (rows lrows : rows_t V) A dp,
  rep hasv base n rows A -> local_rows base rows A lrows -> sym_pattern lrows -> diag_first base rows dp ->
  forall T bar agg cost chunks1 sch1 sch1' sch1'' np1 rv1 tbj1 o2t1 t2o1 chunks2 sch2 sch2' sch2'' np2 rv2 tbj2 o2t2 t2o2 r1 r2,
  1 <= T -> static_chunks (Zlen rows) T chunks1 -> Zlen np1 = Zlen rows -> Zlen rv1 = Zlen rows ->
  static_chunks (Zlen rows) T chunks2 -> Zlen np2 = Zlen rows -> Zlen rv2 = Zlen rows -> (forall i, 0 <= i < Zlen rows -> 0 < cost i) ->
  Zlen o2t1 = Zlen rows -> Zlen t2o1 = Zlen rows -> Zlen o2t2 = Zlen rows -> Zlen t2o2 = Zlen rows ->
  buildTasks (graph_of A base dp) T bar agg cost chunks1 sch1 sch1' sch1'' np1 rv1 tbj1 o2t1 t2o1 = Some r1 ->
  buildTasks (graph_of A base dp) T bar agg cost chunks2 sch2 sch2' sch2'' np2 rv2 tbj2 o2t2 t2o2 = Some r2 -> r1 = r2.
Proof. intros V. exact csr_tasks_det. Qed.
Print Assumptions C33_deterministic.

(** Without positive costs rows are lost: three independent rows of cost 0 on two
    threads; only row 0 is in a task. *)
Theorem C33_zero_cost_refuted :
  makeTasks 2 false false (fun _ => 0) [] [0; 1; 2] [0; 3] (fun _ => 7) [9; 9; 9] [9; 9; 9] = Some ([0; 0; 1], [0; 3], [0; 9; 9], [0; 9; 9]).
Proof. exact zero_cost_run. Qed.
Print Assumptions C33_zero_cost_refuted.

(** C40: with four threads a queue overflows. *)
Theorem C40_queue_refuted : exists (rows : rows_t Z) dp T chunks sch0 sch np rv,
  sym_pattern rows /\ diag_first 0 rows dp /\ 1 <= T /\ static_chunks (Zlen rows) T chunks /\ Zlen np = Zlen rows /\ Zlen rv = Zlen rows /\
  findLevels (graph_of (csr_of 0 (Zlen rows) rows) 0 dp) T chunks sch0 sch np rv = None.
Proof. exact queue_overflow. Qed.
Print Assumptions C40_queue_refuted.

(** C40, the part that holds: see also [C32_defined]. *)
Theorem C40_two_threads : forall {V} hasv base n (rows lrows : rows_t V) A dp,
  rep hasv base n rows A -> local_rows base rows A lrows -> sym_pattern lrows -> diag_first base rows dp ->
  forall lev T chunks sch0 sch np rv, 1 <= T -> static_chunks (Zlen rows) T chunks -> Zlen np = Zlen rows -> Zlen rv = Zlen rows ->
  is_depth (Zlen rows) (lower_of lrows) lev -> T <= 2 \/ (forall l, 0 < l -> level_size (Zlen rows) lev l < share (Zlen rows) T) ->
  exists r, findLevels (graph_of A base dp) T chunks sch0 sch np rv = Some r.
Proof. intros V. exact csr_levels_defined. Qed.
Print Assumptions C40_two_threads.
