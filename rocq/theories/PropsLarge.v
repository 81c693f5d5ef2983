(** * The whole of getRCMPermutation: the theorems (C54). *)
From Verif Require Import Base Interleave Spec Csr CsrOps UnionFind Components LevelsCsr BitVector Bfs Rcm UnionFresh RcmPipe RcmSource RcmLarge RcmWhole.

(** C54.  getRCMPermutation on a structurally symmetric matrix, with large and small
    components: whatever the threads do, it leaves the matrix as it was and its two
    arrays are inverse permutations; the second one, read backwards, is made of one
    Cuthill-McKee order for each component, the components in the order of their
    smallest nodes.  A component with fewer than PAR_THR nodes is ordered from its
    smallest node, a larger one from a pseudo-peripheral node if asked for.
    [Waiting] is an execution that stops before the last thread is done.  Needed:
    the components found are right (C29), and the scratch arrays have room. *)
Theorem C54_result : forall (V : Type) (A : csr V) hasv base (rows : rows_t V), rep hasv base (Zlen rows) rows A -> base = 0 \/ base = 1 -> diagptr_len A -> rows_ok (Zlen rows) rows ->
  symmetric_adj (cols_of rows) -> (forall u, NoDup (cols_of rows u)) ->
  forall T srt pd, 1 <= T -> T * Zlen rows < INT_MAX -> sorts_by (degree rows) srt -> rcm_room (cols_of rows) (Zlen rows) T pd ->
  forall who bj levels perm inv ps wo, (forall c, 0 <= who c < T) -> Zlen bj = Zlen rows -> Zlen levels = Zlen rows -> Zlen perm = Zlen rows -> Zlen inv = Zlen rows ->
  Zlen ps = Z.max (T * PAR_THR) (Zlen rows) + 1 -> Zlen wo = Zlen rows + 1 ->
  forall s1 s2 us cs csch j bsch sch A0 u c cc, make0Based A s1 = Some A0 -> cc_run A0 T us cs csch j = Some (u, c, cc) -> component_listing (Zlen rows) (connected (edges_of rows)) cc ->
  forall ex, (forall c, lx_ok T (ex c)) ->
  exists r, getRCM A T srt pd s1 s2 us cs csch j bsch bj who sch ex levels perm inv ps wo = Some r /\
    forall A' perm' inv', r = Finished (A', perm', inv') -> A' = A /\ rcm_result_from rows pd perm' inv'.
Proof. exact @getRCM_listed. Qed.
Print Assumptions C54_result.

(** It ends if no thread is put off for ever in the placement of a large component:
    [f c k] is the thread that takes step [k] in component [c]. *)
Theorem C54_terminates : forall (V : Type) (A : csr V) hasv base (rows : rows_t V), rep hasv base (Zlen rows) rows A -> base = 0 \/ base = 1 -> diagptr_len A -> rows_ok (Zlen rows) rows ->
  symmetric_adj (cols_of rows) -> (forall u, NoDup (cols_of rows u)) ->
  forall T srt pd, 1 <= T -> T * Zlen rows < INT_MAX -> sorts_by (degree rows) srt -> rcm_room (cols_of rows) (Zlen rows) T pd ->
  forall who bj levels perm inv ps wo, (forall c, 0 <= who c < T) -> Zlen bj = Zlen rows -> Zlen levels = Zlen rows -> Zlen perm = Zlen rows -> Zlen inv = Zlen rows ->
  Zlen ps = Z.max (T * PAR_THR) (Zlen rows) + 1 -> Zlen wo = Zlen rows + 1 ->
  forall s1 s2 us cs csch j bsch sch A0 u c cc, make0Based A s1 = Some A0 -> cc_run A0 T us cs csch j = Some (u, c, cc) -> component_listing (Zlen rows) (connected (edges_of rows)) cc ->
  forall ex f, (forall c, lx_ok T (ex c)) -> (forall c k, 0 <= f c k < T) -> (forall c t k, 0 <= t < T -> exists j, (k <= j)%nat /\ f c j = t) ->
  exists ks perm' inv', getRCM A T srt pd s1 s2 us cs csch j bsch bj who sch (fun c : Z => with_sched (ex c) (map (f c) (seq 0 (ks c)))) levels perm inv ps wo = Some (Finished (A, perm', inv')) /\
    rcm_result_from rows pd perm' inv'.
Proof. exact @getRCM_fair. Qed.
Print Assumptions C54_terminates.

(** With one thread nothing is assumed about the components. *)
Theorem C54_one_thread : forall (V : Type) (A : csr V) hasv base (rows : rows_t V) srt pd bj levels perm inv ps wo s1 s2 us cs csch j bsch sch A0 work u c ex,
  rep hasv base (Zlen rows) rows A -> base = 0 \/ base = 1 -> diagptr_len A -> rows_ok (Zlen rows) rows -> 1 <= Zlen rows < INT_MAX ->
  symmetric_adj (cols_of rows) -> (forall u, NoDup (cols_of rows u)) -> sorts_by (degree rows) srt -> rcm_room (cols_of rows) (Zlen rows) 1 pd ->
  Zlen bj = Zlen rows -> Zlen levels = Zlen rows -> Zlen perm = Zlen rows -> Zlen inv = Zlen rows -> Zlen ps = Z.max PAR_THR (Zlen rows) + 1 -> Zlen wo = Zlen rows + 1 -> junk_ok (Zlen rows) 1 j ->
  make0Based A s1 = Some A0 -> mapM (cc_work A0 0 1) (zrange 0 1) = Some work -> union_run (Zlen rows) work us = Some u -> all_done u -> compress_run (Zlen rows) 1 (fst u) cs = Some c -> call_done c ->
  (forall c, lx_ok 1 (ex c)) ->
  exists ks perm' inv', getRCM A 1 srt pd s1 s2 us cs csch j bsch bj (fun _ => 0) sch (fun c : Z => with_sched (ex c) (map (fun _ : nat => 0) (seq 0 (ks c)))) levels perm inv ps wo = Some (Finished (A, perm', inv')) /\
    rcm_result_from rows pd perm' inv'.
Proof. exact @getRCM_one_thread. Qed.
Print Assumptions C54_one_thread.

(** Nor with several, if the plain stores of the union use current values. *)
Theorem C54_fresh : forall (V : Type) (A : csr V) hasv base (rows : rows_t V) T srt pd who bj levels perm inv ps wo s1 s2 us cs csch j bsch sch A0 work u c ex f,
  rep hasv base (Zlen rows) rows A -> base = 0 \/ base = 1 -> diagptr_len A -> rows_ok (Zlen rows) rows -> 1 <= Zlen rows ->
  symmetric_adj (cols_of rows) -> (forall u, NoDup (cols_of rows u)) -> 1 <= T -> T * Zlen rows < INT_MAX -> sorts_by (degree rows) srt -> rcm_room (cols_of rows) (Zlen rows) T pd ->
  (forall c, 0 <= who c < T) -> Zlen bj = Zlen rows -> Zlen levels = Zlen rows -> Zlen perm = Zlen rows -> Zlen inv = Zlen rows -> Zlen ps = Z.max (T * PAR_THR) (Zlen rows) + 1 -> Zlen wo = Zlen rows + 1 -> junk_ok (Zlen rows) T j ->
  make0Based A s1 = Some A0 -> mapM (cc_work A0 0 T) (zrange 0 T) = Some work -> union_run (Zlen rows) work us = Some u -> all_done u -> fresh_run us (uinit (Zlen rows) work) ->
  compress_run (Zlen rows) T (fst u) cs = Some c -> call_done c ->
  (forall c, lx_ok T (ex c)) -> (forall c k, 0 <= f c k < T) -> (forall c t k, 0 <= t < T -> exists j, (k <= j)%nat /\ f c j = t) ->
  exists ks perm' inv', getRCM A T srt pd s1 s2 us cs csch j bsch bj who sch (fun c : Z => with_sched (ex c) (map (f c) (seq 0 (ks c)))) levels perm inv ps wo = Some (Finished (A, perm', inv')) /\
    rcm_result_from rows pd perm' inv'.
Proof. exact @getRCM_fresh. Qed.
Print Assumptions C54_fresh.

(** The parallel prefix sums: entry [l] is the number of nodes of the component in
    the levels before [l], for any sharing out of the nodes among the threads. *)
Theorem C54_prefix : forall m T n g levels lev who, 1 <= T -> 0 <= n -> (forall v, In v g -> 0 <= v < m /\ get levels v = Some (lev v) /\ 0 <= lev v < n) -> (forall i, 0 <= who i < T) ->
  forall s1 s2 psa, n + 1 <= Zlen psa ->
  exists psa', pf_levels m T who s1 s2 levels g n psa = Some psa' /\ Zlen psa' = Zlen psa /\ forall l, 0 <= l <= n -> get psa' l = Some (Zlen (filter (fun v => lev v <? l) g)).
Proof. exact pf_levels_ok. Qed.
Print Assumptions C54_prefix.

(** A ring with any number of nodes from PAR_THR on meets the hypotheses. *)
Theorem C54_ring : forall m T pd, PAR_THR <= m -> 1 <= T -> 2 * T <= m ->
  rep true 0 (Zlen (ring_rows m)) (ring_rows m) (csr_of 0 m (ring_rows m)) /\ diagptr_len (csr_of 0 m (ring_rows m)) /\ rows_ok (Zlen (ring_rows m)) (ring_rows m) /\
  symmetric_adj (cols_of (ring_rows m)) /\ (forall u, NoDup (cols_of (ring_rows m) u)) /\
  sorts_by (degree (ring_rows m)) (dsort (degree (ring_rows m))) /\ rcm_room (cols_of (ring_rows m)) (Zlen (ring_rows m)) T pd.
Proof. exact ring_witness. Qed.
Print Assumptions C54_ring.

(** The handling of one component, executed with two threads on six nodes. *)
Example C54_run : lg_case_run = Some (Finished (mkLM [-1; -1; -1; -1; -1; 0] [2; 0; 3; 1; 4; 5] [1; 3; 0; 2; 4; 5] (repeat 1 6) [0; 1; 2; 3; 5; 6; 6; 77; 77] [1; 2; 3; 5; 6; 6; 6])).
Proof. exact lg_case_result. Qed.

(** Without the room the claim is false: on a path of PAR_THR nodes or more the
    placement writes behind the end of write_offset. *)
Theorem C54_path_refuted : forall m (A : csr Z) T srt s1 s2 us cs csch j bsch bj who sch ex levels perm inv ps wo A0 u c,
  PAR_THR <= m -> 1 <= T -> T * m < INT_MAX -> m + 1 <= T * PAR_THR -> rep true 0 m (path_rows m) A -> diagptr_len A -> (forall c, lx_ok T (ex c)) ->
  Zlen bj = m -> Zlen levels = m -> Zlen perm = m -> Zlen inv = m -> Zlen ps = Z.max (T * PAR_THR) m + 1 -> Zlen wo = m + 1 ->
  make0Based A s1 = Some A0 -> cc_run A0 T us cs csch j = Some (u, c, path_cc m) ->
  getRCM A T srt false s1 s2 us cs csch j bsch bj who sch ex levels perm inv ps wo = None.
Proof. exact path_whole_overrun. Qed.
Print Assumptions C54_path_refuted.
