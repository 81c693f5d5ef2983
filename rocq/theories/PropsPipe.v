(** * Pipelined placement of one large component in RCM: the theorems (C52). *)
From Verif Require Import Base Interleave Spec PermUtils Flat Csr CsrOps LevelsCsr Bfs Rcm RcmPipe.

(** C52.  The threads that place a large component level by level, each waiting only
    for the write offsets of the level before its own, write the component in
    Cuthill-McKee order: the nodes are put at offset, offset+1, … in the order in
    which a serial queue would meet them, neighbours by increasing degree, and nothing
    else in perm and inversePerm changes.  For any number of threads, any interleaving
    of their single accesses and any previous contents of the arrays.  Needed: the
    search counted at most m levels, the empty last one included. *)
Theorem C52_pipeline : forall (V : Type) (A : csr V) hasv (rows : rows_t V), rep hasv 0 (Zlen rows) rows A -> rows_ok (Zlen rows) rows -> (forall u, NoDup (cols_of rows u)) ->
  forall srt, sorts_by (degree rows) srt -> forall s n T offset maxDegree g ps levels perm inv wo,
  0 <= s < Zlen rows -> (forall v, In v g <-> reach (cols_of rows) s v) -> NoDup g -> 1 <= T -> 0 <= offset /\ offset + Zlen g <= Zlen rows -> (forall u, Zlen (cols_of rows u) <= maxDegree) ->
  bfs_depth (cols_of rows) s (n - 1) -> (forall v k, dist (cols_of rows) s v k -> get levels v = Some k) -> Zlen ps = n + 1 -> counts rows s ps ->
  Zlen levels = Zlen rows -> Zlen perm = Zlen rows -> Zlen inv = Zlen rows -> Zlen wo = Zlen rows + 1 ->
  forall sch sched, n <= Zlen rows -> (forall t, In t sched -> 0 <= t < T) ->
  exists x pcs, pl_place A T srt n offset maxDegree ps s sch sched levels perm inv wo = Some (x, pcs) /\
    (pl_all_done pcs -> Zlen (pl_levels x) = Zlen rows /\ exists o, cm_order (cols_of rows) (degree rows) s o /\ placed rows offset perm inv o (pl_perm x, pl_inv x)).
Proof. exact @pl_place_ok. Qed.
Print Assumptions C52_pipeline.

(** No deadlock: if every thread is scheduled again and again, all of them finish. *)
Theorem C52_fair : forall (V : Type) (A : csr V) hasv (rows : rows_t V), rep hasv 0 (Zlen rows) rows A -> rows_ok (Zlen rows) rows -> (forall u, NoDup (cols_of rows u)) ->
  forall srt, sorts_by (degree rows) srt -> forall s n T offset maxDegree g ps levels perm inv wo,
  0 <= s < Zlen rows -> (forall v, In v g <-> reach (cols_of rows) s v) -> NoDup g -> 1 <= T -> 0 <= offset /\ offset + Zlen g <= Zlen rows -> (forall u, Zlen (cols_of rows u) <= maxDegree) ->
  bfs_depth (cols_of rows) s (n - 1) -> (forall v k, dist (cols_of rows) s v k -> get levels v = Some k) -> Zlen ps = n + 1 -> counts rows s ps ->
  Zlen levels = Zlen rows -> Zlen perm = Zlen rows -> Zlen inv = Zlen rows -> Zlen wo = Zlen rows + 1 ->
  forall sch (f : nat -> Z), n <= Zlen rows -> (forall k, 0 <= f k < T) -> (forall t k, 0 <= t < T -> exists j, (k <= j)%nat /\ f j = t) ->
  exists k x pcs, pl_place A T srt n offset maxDegree ps s sch (map f (seq 0 k)) levels perm inv wo = Some (x, pcs) /\ pl_all_done pcs.
Proof. exact @pl_place_fair. Qed.
Print Assumptions C52_fair.

Example C52_hyps : rep true 0 (Zlen pl_case) pl_case (csr_of 0 8 pl_case) /\ rows_ok (Zlen pl_case) pl_case /\ (forall u, NoDup (cols_of pl_case u)) /\ sorts_by (degree pl_case) (dsort (degree pl_case)) /\
  NoDup [0; 1; 2; 3; 4; 6] /\ (forall v, In v [0; 1; 2; 3; 4; 6] <-> reach (cols_of pl_case) 0 v) /\ (forall u, Zlen (cols_of pl_case u) <= 3) /\
  bfs_depth (cols_of pl_case) 0 (4 - 1) /\ (forall v k, dist (cols_of pl_case) 0 v k -> get [0; 1; 1; 1; 2; 9; 2; 9] v = Some k) /\ counts pl_case 0 [0; 1; 4; 6; 6].
Proof. exact pl_case_hyps. Qed.
Example C52_run : pl_case_run pl_case_sched = Some (mkPL [0; -1; -1; -1; -1; 9; -1; 9] [6; 4; 3; 5; 2; 7; 1; 7] [7; 6; 4; 2; 1; 3; 0; 7] [2; 5; 7; 7; 7; 7; 7; 7; 7], [PDone; PDone]).
Proof. exact pl_case_result. Qed.

(** Without the condition the claim is false: on every path (a tridiagonal matrix) the
    search from its end counts m + 1 levels and write_offset is written behind its end. *)
Theorem C52_long_path_refuted : forall m (A : csr Z) T srt offset ps sch sched perm inv wo, 3 <= m -> 1 <= T -> rep true 0 m (path_rows m) A -> Zlen ps = m + 2 -> Zlen wo = m + 1 ->
  bfs_depth (cols_of (path_rows m)) 0 m /\ pl_place A T srt (m + 1) offset 2 ps 0 sch sched (zrange 0 m) perm inv wo = None.
Proof. exact pl_path_refuted. Qed.
Print Assumptions C52_long_path_refuted.
