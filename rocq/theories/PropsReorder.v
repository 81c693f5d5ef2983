(** * Bit vector, breadth-first search and reverse Cuthill-McKee: the theorems (C30, C31, C46). *)
From Coq Require Import Permutation.
From Verif Require Import Base Interleave Spec PermUtils Flat Csr CsrOps LevelsCsr UnionFind Components BitVector Bfs ParBfs Rcm BfsPerm UnionFresh ComponentsBv BfsPermWhole RcmWhole.

(** C30, the serial search.  From any source whose reachable nodes are marked
    unvisited: [levels] are the distances, [visited] lists the reachable nodes, each
    once, by increasing distance; the number returned is the largest distance plus
    two. *)
Theorem C30_serial : forall (V : Type) (A : csr V) hasv base (rows : rows_t V), rep hasv base (Zlen rows) rows A -> rows_ok (Zlen rows) rows ->
  forall s levels0, 0 <= s < Zlen rows -> Zlen levels0 = Zlen rows -> (forall v, reach (cols_of rows) s v -> get levels0 v = Some (-1)) ->
  exists n levels vis, bfs_serial A base s levels0 = Some (n + 1, levels, vis) /\
    bfs_depth (cols_of rows) s n /\ bfs_levels (cols_of rows) s levels0 levels /\ bfs_order (cols_of rows) s vis.
Proof. exact @bfs_serial_ok. Qed.
Print Assumptions C30_serial.
Example C30_serial_ex : bfs_serial rcm_case_A 1 6 (repeat (-1) 8) = Some (5, [2; -1; -1; 1; -1; 3; 0; -1], [6; 3; 0; 5]).
Proof. exact bfs_case. Qed.

(** C30, the parallel search, for any number of threads and any interleaving of the
    threads' reads and test-and-sets.  [setl]: the levels are written, [outv]: the
    visited nodes are listed, [sc]: the width at which the search gives up.  From any
    source whose reachable nodes are unmarked the search ends without an access out
    of bounds, marks exactly the reachable nodes, the levels are the distances, the
    list is a breadth-first order, the queues left behind hold the last level. *)
Theorem C30_parallel : forall (V : Type) (A : csr V) hasv base (rows : rows_t V), rep hasv base (Zlen rows) rows A -> rows_ok (Zlen rows) rows ->
  forall T setl outv, 1 <= T -> forall s, 0 <= s < Zlen rows ->
  forall sc bv levels vis, Zlen rows <= Zlen bv -> (forall v, reach (cols_of rows) s v -> bit bv v = Some false) -> (setl = true -> Zlen levels = Zlen rows) ->
  (outv = true -> forall l, NoDup l -> (forall v, In v l -> reach (cols_of rows) s v) -> Zlen l <= Zlen vis) ->
  forall sch width junk, 2 <= T * Zlen rows -> Zlen junk = T - 1 ->
  exists r, bfs_par A base T setl outv sc sch s levels bv vis width junk = Some r /\ bfs_par_spec rows T setl outv s sc bv levels vis r.
Proof. exact @bfs_par_ok. Qed.
Print Assumptions C30_parallel.
Example C30_parallel_hyps : forall v, reach (cols_of rcm_case) 6 v -> bit (repeat 0 8) v = Some false.
Proof. exact pb_case_hyps. Qed.
Example C30_parallel_ex : pb_case true true None = Some (mkPB 5 [1; 0; 0; 1; 0; 1; 1; 0] [2; -1; -1; 1; -1; 3; 0; -1] [6; 3; 0; 5; 77; 77; 77; 77] 4 1 [[]; []; [5]]).
Proof. exact pb_case_result. Qed.
Example C30_parallel_short : pb_case false false (Some 0) = Some (mkPB (-1) [0; 0; 0; 0; 0; 0; 1; 0] (repeat (-1) 8) (repeat 77 8) 0 1 [[]; []; []]).
Proof. exact pb_case_short. Qed.

(** C30, the permutation.  For a symmetric pattern and any threshold between the
    serial and the parallel search: perm and inversePerm are inverse permutations
    and the order is breadth-first from the smallest node of each component.  Any
    number of threads, schedules and memory contents, either base; given that the
    component search, called with the marks of the first search, lists the
    components other than that of node 0. *)
Theorem C30_permutation : forall (V : Type) (A : csr V) hasv base (rows : rows_t V), rep hasv base (Zlen rows) rows A -> rows_ok (Zlen rows) rows ->
  symmetric_adj (cols_of rows) -> (forall u, NoDup (cols_of rows u)) ->
  forall T thr bsch bjunk sch isch junk comps levels perm inv, 1 <= T -> 1 <= Zlen rows -> 2 <= T * Zlen rows ->
  Zlen bjunk = Zlen rows -> (forall c, Zlen (junk c) = T - 1) -> Zlen levels = Zlen rows -> Zlen perm = Zlen rows -> Zlen inv = Zlen rows ->
  (forall r, first_search A T bsch bjunk sch junk inv = Some r ->
    (forall v, 0 <= v < Zlen rows -> reach (cols_of rows) 0 v) \/
    exists cc, comps (pb_bv r) = Some cc /\ rest_listing (Zlen rows) (fun v => ~ reach (cols_of rows) 0 v) (connected (edges_of rows)) cc) ->
  exists perm' inv', getBFSPermutation A T thr bsch bjunk sch isch junk comps levels perm inv = Some (perm', inv') /\ bfs_result rows perm' inv'.
Proof. exact @bfs_perm_ok. Qed.
Print Assumptions C30_permutation.
Example C30_permutation_hyps : rest_listing 8 (fun v => ~ reach (cols_of rcm_case) 0 v) (connected (edges_of rcm_case)) bp_case_cc.
Proof. exact bp_case_listing. Qed.
Example C30_permutation_ex : bp_case 2 = Some ([0; 4; 5; 1; 7; 2; 3; 6], [0; 3; 5; 6; 1; 2; 7; 4]).
Proof. exact bp_case_result. Qed.
(** The same with the component search of the program: whenever its union and
    compression run to their end, and with several threads the plain stores of the
    union use current values.  [us], [cs]: their schedules. *)
Theorem C30_whole : forall (V : Type) (A : csr V) hasv base (rows : rows_t V), rep hasv base (Zlen rows) rows A -> rows_ok (Zlen rows) rows ->
  symmetric_adj (cols_of rows) -> (forall u, NoDup (cols_of rows u)) ->
  forall T thr bsch bjunk sch isch junk us cs csch g j levels perm inv, 1 <= T -> 1 <= Zlen rows -> 2 <= T * Zlen rows ->
  Zlen bjunk = Zlen rows -> (forall c, Zlen (junk c) = T - 1) -> Zlen levels = Zlen rows -> Zlen perm = Zlen rows -> Zlen inv = Zlen rows ->
  bv_junk_ok (Zlen rows) T g -> junk_ok (Zlen rows) T j ->
  (forall r, first_search A T bsch bjunk sch junk inv = Some r -> pb_nvis r <> Zlen rows -> runs_through A T us cs csch g (pb_bv r)) ->
  exists perm' inv', getBFSPermutation A T thr bsch bjunk sch isch junk (bv_comps A T us cs csch g j) levels perm inv = Some (perm', inv') /\ bfs_result rows perm' inv'.
Proof. exact @bfs_perm_whole. Qed.
Print Assumptions C30_whole.
Example C30_whole_hyps : bv_junk_ok 8 3 bpw_junk /\ junk_ok 8 3 (junk77 3 8) /\
  forall r, first_search rcm_case_A 3 [] (repeat 5 8) (fun _ => bp_case_sch) (fun _ => [[]; []]) (repeat 77 8) = Some r ->
    pb_nvis r = 4 /\ runs_through rcm_case_A 3 (bpw_turns 30) (bpw_turns 20) (fun _ => [1; 2]%nat) bpw_junk (pb_bv r).
Proof. exact bpw_case_hyps. Qed.
Example C30_whole_ex : bpw_case = Some ([0; 4; 5; 1; 7; 2; 3; 6], [0; 3; 5; 6; 1; 2; 7; 4]).
Proof. exact bpw_case_result. Qed.
(** A matrix with one row and one thread: memory beyond a scratch array is written. *)
Theorem C30_one_node_refuted : rep true 0 (Zlen one_node) one_node (csr_of 0 1 one_node) /\ rows_ok (Zlen one_node) one_node /\ symmetric_adj (cols_of one_node) /\ (forall u, NoDup (cols_of one_node u)) /\
  forall thr bsch bjunk sch isch junk cc levels perm inv, junk (-1) = [] -> getBFSPermutation (csr_of 0 1 one_node) 1 thr bsch bjunk sch isch junk cc levels perm inv = None.
Proof. exact one_node_witness. Qed.
Print Assumptions C30_one_node_refuted.

(** C46.  Any number of threads, each calling testAndSet on any sequence of
    positions, interleaved in any way: a position that was clear and is called has
    exactly one call that returns true, one that was set has none; the called
    positions end up set and the others unchanged. *)
Theorem C46_testAndSet : forall calls bv0 regs sch, (forall t v, In v (nthl calls t) -> 0 <= v < Zlen bv0) -> Zlen regs = Zlen calls ->
  exists bv regs' res, par sch (ts_step true record) (ts_threads calls) (bv0, regs, repeat [] (length calls)) = Some (bv, regs', res) /\ Zlen bv = Zlen bv0 /\
    (forall t, 0 <= t < Zlen calls -> map fst (nthl res t) = nthl calls t) /\
    forall v, ((forall t, 0 <= t < Zlen calls -> ~ In v (nthl calls t)) -> get bv v = get bv0 v) /\
      forall t, 0 <= t < Zlen calls -> In v (nthl calls t) -> bit bv v = Some true /\ (bit bv0 v = Some false -> one_winner (Zlen calls) res v) /\ (bit bv0 v = Some true -> no_winner (Zlen calls) res v).
Proof. exact testAndSet_ok. Qed.
Print Assumptions C46_testAndSet.
Example C46_ex : par [1; 0; 1; 0]%nat (ts_step true record) (ts_threads ts_case_calls) ([0; 1; 6], [false; true; false; true], repeat [] (length ts_case_calls)) =
  Some ([1; 1; 7], [true; false; false; false], [[(2, false); (0, true)]; [(2, true); (1, false); (2, false)]; []; [(0, false)]]).
Proof. exact ts_case. Qed.
(** With a test and a separate set instead, two threads can both be first. *)
Theorem C46_plain_set_races : exists sch bv regs res, par sch (ts_step false record) (ts_threads race_calls) ([0], [true; true], [[]; []]) = Some (bv, regs, res) /\ won res 0 0 0 /\ won res 0 1 0.
Proof. exact set_race. Qed.
Print Assumptions C46_plain_set_races.

(** C31.  For a symmetric pattern with components below the parallel threshold:
    perm and inversePerm are inverse permutations, and the order is, reversed, the
    Cuthill-McKee order of each component from its smallest node.  Any number of
    threads, any assignment of components to threads and order, any sort by degree,
    any previous memory contents, both bases; given that the component search found
    the components (C29). *)
Theorem C31_rcm : forall (V : Type) (A : csr V) hasv base (rows : rows_t V), rep hasv base (Zlen rows) rows A -> base = 0 \/ base = 1 -> diagptr_len A -> rows_ok (Zlen rows) rows ->
  symmetric_adj (cols_of rows) -> (forall u, NoDup (cols_of rows u)) ->
  forall T srt, sorts_by (degree rows) srt -> small_components (cols_of rows) (Zlen rows) T ->
  forall who levels perm inv, (forall c, 0 <= who c < T) -> Zlen levels = Zlen rows -> Zlen perm = Zlen rows -> Zlen inv = Zlen rows ->
  forall s1 s2 us cs csch j sch A0 u c cc, make0Based A s1 = Some A0 -> cc_run A0 T us cs csch j = Some (u, c, cc) -> component_listing (Zlen rows) (connected (edges_of rows)) cc ->
  exists perm' inv', getRCMPermutation A T srt s1 s2 us cs csch j who sch levels perm inv = Some (A, perm', inv') /\ rcm_result rows perm' inv'.
Proof. exact @rcm_listed. Qed.
Print Assumptions C31_rcm.
(** With one thread nothing has to be assumed about the component search. *)
Theorem C31_one_thread : forall (V : Type) (A : csr V) hasv base (rows : rows_t V) srt levels perm inv s1 s2 us cs csch j sch A0 work u c,
  rep hasv base (Zlen rows) rows A -> base = 0 \/ base = 1 -> diagptr_len A -> rows_ok (Zlen rows) rows -> 1 <= Zlen rows ->
  symmetric_adj (cols_of rows) -> (forall u, NoDup (cols_of rows u)) -> sorts_by (degree rows) srt -> small_components (cols_of rows) (Zlen rows) 1 ->
  Zlen levels = Zlen rows -> Zlen perm = Zlen rows -> Zlen inv = Zlen rows -> junk_ok (Zlen rows) 1 j ->
  make0Based A s1 = Some A0 -> mapM (cc_work A0 0 1) (zrange 0 1) = Some work -> union_run (Zlen rows) work us = Some u -> all_done u -> compress_run (Zlen rows) 1 (fst u) cs = Some c -> call_done c ->
  exists perm' inv', getRCMPermutation A 1 srt s1 s2 us cs csch j (fun _ => 0) sch levels perm inv = Some (A, perm', inv') /\ rcm_result rows perm' inv'.
Proof. exact @rcm_one_thread. Qed.
Print Assumptions C31_one_thread.
(** Nor with several, if the plain stores of the union use current values. *)
Theorem C31_fresh : forall (V : Type) (A : csr V) hasv base (rows : rows_t V) T srt who levels perm inv s1 s2 us cs csch j sch A0 work u c,
  rep hasv base (Zlen rows) rows A -> base = 0 \/ base = 1 -> diagptr_len A -> rows_ok (Zlen rows) rows -> 1 <= Zlen rows ->
  symmetric_adj (cols_of rows) -> (forall u, NoDup (cols_of rows u)) -> 1 <= T -> sorts_by (degree rows) srt -> small_components (cols_of rows) (Zlen rows) T ->
  (forall c, 0 <= who c < T) -> Zlen levels = Zlen rows -> Zlen perm = Zlen rows -> Zlen inv = Zlen rows -> junk_ok (Zlen rows) T j ->
  make0Based A s1 = Some A0 -> mapM (cc_work A0 0 T) (zrange 0 T) = Some work -> union_run (Zlen rows) work us = Some u -> all_done u -> fresh_run us (uinit (Zlen rows) work) ->
  compress_run (Zlen rows) T (fst u) cs = Some c -> call_done c ->
  exists perm' inv', getRCMPermutation A T srt s1 s2 us cs csch j who sch levels perm inv = Some (A, perm', inv') /\ rcm_result rows perm' inv'.
Proof. exact @rcm_fresh. Qed.
Print Assumptions C31_fresh.
Example C31_fresh_run : getRCMPermutation rcm_case_A 3 (dsort (degree rcm_case)) (fun _ => []) (fun _ => []) (bpw_turns 60) (bpw_turns 40) (fun _ => []) (junk77 3 8) (fun c => c mod 3) [3%nat; 2%nat] (repeat 55 8) (repeat 66 8) (repeat 77 8)
  = Some (rcm_case_A, [7; 3; 2; 5; 0; 6; 4; 1], [4; 7; 2; 1; 6; 3; 5; 0]).
Proof. exact rcm_turns_result. Qed.
Example C31_fresh_hyps : exists A0 work u c, make0Based rcm_case_A (fun _ => []) = Some A0 /\ mapM (cc_work A0 0 3) (zrange 0 3) = Some work /\ union_run 8 work (bpw_turns 60) = Some u /\ all_done u /\
  fresh_run (bpw_turns 60) (uinit 8 work) /\ compress_run 8 3 (fst u) (bpw_turns 40) = Some c /\ call_done c /\ small_components (cols_of rcm_case) (Zlen rcm_case) 3.
Proof. exact rcm_turns_hyps. Qed.
Example C31_case : rep true 1 (Zlen rcm_case) rcm_case rcm_case_A /\ diagptr_len rcm_case_A /\ rows_ok (Zlen rcm_case) rcm_case /\ symmetric_adj (cols_of rcm_case) /\ (forall u, NoDup (cols_of rcm_case u)) /\
  sorts_by (degree rcm_case) (dsort (degree rcm_case)) /\ small_components (cols_of rcm_case) (Zlen rcm_case) 1.
Proof. exact rcm_case_hyps. Qed.
Example C31_run : getRCMPermutation rcm_case_A 1 (dsort (degree rcm_case)) (fun _ => []) (fun _ => []) (repeat 0 300) (repeat 0 200) (fun _ => []) (junk77 1 8) (fun _ => 0) [3%nat; 2%nat] (repeat 55 8) (repeat 66 8) (repeat 77 8)
  = Some (rcm_case_A, [7; 3; 2; 5; 0; 6; 4; 1], [4; 7; 2; 1; 6; 3; 5; 0]).
Proof. exact rcm_case_result. Qed.
(** What the specification says: such an order lists what is reachable, once. *)
Theorem C31_order_reach : forall adj deg s o, cm_order adj deg s o -> NoDup o /\ get o 0 = Some s /\ forall v, In v o <-> reach adj s v.
Proof. exact cm_order_reach. Qed.
Print Assumptions C31_order_reach.

(** A Cuthill-McKee order is a breadth-first order. *)
Theorem C31_order_bfs : forall adj deg s o, cm_order adj deg s o -> bfs_order adj s o.
Proof. exact cm_order_bfs. Qed.
Print Assumptions C31_order_bfs.

(** A component just below the threshold: the path of 65535 nodes, with the second
    of two threads, is written beyond the end of the scratch array. *)
Theorem C31_long_path_refuted : exists m T (A : csr Z), rep true 0 m (path_rows m) A /\ rows_ok m (path_rows m) /\ symmetric_adj (cols_of (path_rows m)) /\ (forall u, NoDup (cols_of (path_rows m) u)) /\ m < PAR_THR /\
  component_listing m (connected (edges_of (path_rows m))) (path_cc m) /\
  forall srt levels perm inv sch, Zlen levels = m -> rcm_small A T srt (path_cc m) (fun _ => T - 1) sch (levels, perm, inv) = None.
Proof. exact path_overrun_witness. Qed.
Print Assumptions C31_long_path_refuted.
