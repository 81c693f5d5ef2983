(** Property C29: connected components. *)
From Coq Require Import Relations.
From Verif Require Import Base Spec Interleave Flat Csr BitVector UnionFind Components UnionFresh ComponentsBv ComponentsDebug.

(** All matrices, thread counts, schedules and uninitialised memory: nothing is
    accessed out of bounds, equal labels mean connected, and the result arrays
    list the label classes. *)
Theorem C29_listing : forall V hasv base (rows : rows_t V) (A : csr V) T us cs sch j work u c,
  rep hasv base (Zlen rows) rows A -> rows_ok (Zlen rows) rows -> 1 <= Zlen rows -> 1 <= T ->
  junk_ok (Zlen rows) T j ->
  mapM (cc_work A base T) (zrange 0 T) = Some work ->
  union_run (cm A) work us = Some u -> all_done u ->
  compress_run (cm A) T (fst u) cs = Some c -> call_done c ->
  exists res, cc_run A T us cs sch j = Some (u, c, res) /\
    (forall x y, 0 <= x < Zlen rows -> 0 <= y < Zlen rows ->
       get (fst c) x = get (fst c) y -> connected (edges_of rows) x y) /\
    (forall x y, 0 <= x < Zlen rows -> 0 <= y < Zlen rows ->
       (get (fst c) x = get (fst c) y <-> exists r, root_of (fst u) x r /\ root_of (fst u) y r)) /\
    component_listing (Zlen rows) (fun x y => get (fst c) x = get (fst c) y) res.
Proof. exact @cc_listing. Qed.
Print Assumptions C29_listing.

(** With one thread: exactly the connected components. *)
Theorem C29_one_thread_exact : forall V hasv base (rows : rows_t V) (A : csr V) us cs sch j work u c,
  rep hasv base (Zlen rows) rows A -> rows_ok (Zlen rows) rows -> 1 <= Zlen rows ->
  junk_ok (Zlen rows) 1 j ->
  mapM (cc_work A base 1) (zrange 0 1) = Some work ->
  union_run (cm A) work us = Some u -> all_done u ->
  compress_run (cm A) 1 (fst u) cs = Some c -> call_done c ->
  exists res, cc_run A 1 us cs sch j = Some (u, c, res) /\
    component_listing (Zlen rows) (connected (edges_of rows)) res.
Proof. exact @cc_one_thread. Qed.
Print Assumptions C29_one_thread_exact.

(** A 1-based matrix with the components {0,2} and {1,3,4}, two threads taking
    turns, uninitialised memory 77: sizes, starts and nodes as expected. *)
Definition cc_case_matrix : csr Z :=
  mkCSR 5 5 [1; 2; 4; 5; 6; 7] [3; 2; 4; 1; 2; 4] None None None None None.
Definition alternate (n : nat) : list Z := concat (repeat [0; 1] n).
Example C29_case :
  rep false 1 5 [[(2, 0)]; [(1, 0); (3, 0)]; [(0, 0)]; [(1, 0)]; [(3, 0)]] cc_case_matrix /\
  option_map (fun r => (snd (fst (fst r)), snd (snd (fst r)), snd r))
    (cc_run cc_case_matrix 2 (alternate 60) (alternate 40) (fun _ => []) (junk77 2 5))
  = Some ([(Next, []); (Next, [])], [(CNext, [], 2); (CNext, [], 0)],
          mkCC 2 [0; 1] [2; 3] [0; 2; 2; 3; 77; 77] [0; 2; 1; 3; 4]).
Proof. split; [repeat split|vm_compute; reflexivity]. Qed.

(** Both concurrent phases end, in any execution. *)
Theorem C29_union_terminates : forall m work sched s,
  0 <= m ->
  (forall w e, In w work -> In e w -> 0 <= fst e < m /\ 0 <= snd e < m) ->
  busy_run sched (uinit m work) s ->
  Zlen sched <= (16 * m + 20) * Zlen (concat work).
Proof. exact union_terminates. Qed.
Print Assumptions C29_union_terminates.
Theorem C29_compress_terminates : forall m p, 0 <= m -> Zlen p = m ->
  (forall x, 0 <= x < m -> exists y, get p x = Some y /\ 0 <= y <= x) ->
  forall T, 1 <= T -> forall sched s,
  cbusy_run sched (cinit m T p) s -> Zlen sched <= (2 * m + 2) * m.
Proof. exact compress_terminates. Qed.
Print Assumptions C29_compress_terminates.
(** No step of either phase accesses memory out of bounds. *)
Theorem C29_union_safe : forall m work sched,
  0 <= m ->
  (forall w e, In w work -> In e w -> 0 <= fst e < m /\ 0 <= snd e < m) ->
  (forall t, In t sched -> 0 <= t < Zlen work) ->
  exists s, union_run m work sched = Some s.
Proof. exact union_no_ub. Qed.
Print Assumptions C29_union_safe.

(** With four threads the converse fails: an execution of the union phase after
    which the connected nodes 0 and 1 have different roots.  The work lists are
    those of the 5-node matrix below. *)
Theorem C29_lost_link_refuted : exists s,
  union_run 5 lost_work lost_sched = Some s /\ all_done s /\
  connected (concat lost_work) 0 1 /\
  root_of (fst s) 0 0 /\ root_of (fst s) 1 1.
Proof. exact union_lost_link. Qed.
Print Assumptions C29_lost_link_refuted.

(** The same through the whole function: it reports two components although all
    five nodes are connected. *)
Theorem C29_lost_component_refuted :
  rep false 0 5 lost_rows lost_matrix /\ rows_ok 5 lost_rows /\ junk_ok 5 4 (junk77 4 5) /\
  (forall x y, 0 <= x < 5 -> 0 <= y < 5 -> connected (edges_of lost_rows) x y) /\
  exists u c r,
    cc_run lost_matrix 4 lost_sched (concat (repeat [0; 1; 2; 3] 20)) (fun _ => []) (junk77 4 5) = Some (u, c, r) /\
    all_done u /\ call_done c /\ cc_n r = 2.
Proof. exact lost_matrix_refuted. Qed.
Print Assumptions C29_lost_component_refuted.

(** Only stores with outdated values lose links.  [fresh_run]: whenever a thread is
    about to execute line 173, the two values it has read are still in [p].  Any
    number of threads: such an execution finds exactly the connected components. *)
Theorem C29_fresh_exact : forall V hasv base (rows : rows_t V) (A : csr V) T us cs sch j work u c,
  rep hasv base (Zlen rows) rows A -> rows_ok (Zlen rows) rows -> 1 <= Zlen rows -> 1 <= T -> junk_ok (Zlen rows) T j ->
  mapM (cc_work A base T) (zrange 0 T) = Some work -> union_run (cm A) work us = Some u -> all_done u -> fresh_run us (uinit (cm A) work) ->
  compress_run (cm A) T (fst u) cs = Some c -> call_done c ->
  exists res, cc_run A T us cs sch j = Some (u, c, res) /\ component_listing (Zlen rows) (connected (edges_of rows)) res.
Proof. exact @cc_fresh. Qed.
Print Assumptions C29_fresh_exact.
Example C29_fresh_ex : rep false 1 5 turns_rows turns_matrix /\ rows_ok 5 turns_rows /\ mapM (cc_work turns_matrix 1 2) (zrange 0 2) = Some turns_work /\
  union_run 5 turns_work (turns_sched 40) = Some ([0; 0; 0; 1; 0], [(Next, []); (Next, [])]) /\ fresh_run (turns_sched 40) (uinit 5 turns_work).
Proof. exact turns_case. Qed.
(** It does not suffice that no compare-and-swap fails. *)
Theorem C29_hidden_link_refuted : exists s, union_run 6 hidden_work hidden_sched = Some s /\ all_done s /\ steps_ok cas_wins hidden_sched (uinit 6 hidden_work) /\
  connected (concat hidden_work) 0 1 /\ root_of (fst s) 0 0 /\ root_of (fst s) 1 1.
Proof. exact hidden_link. Qed.
Print Assumptions C29_hidden_link_refuted.

(** findConnectedComponentsWithBitVector, when the set of clear nodes is closed under
    the edges and not empty.  Memory at the other nodes is arbitrary.  Nothing is
    accessed out of bounds and no assertion fails, whatever the schedules; equal
    labels mean connected; the arrays list the label classes of the clear nodes,
    and these are their components if there is one thread or the plain stores use
    current values. *)
Theorem C29_bit_vector : forall (V : Type) hasv base (rows : rows_t V) (A : csr V) T bv, rep hasv base (Zlen rows) rows A -> rows_ok (Zlen rows) rows -> 1 <= T -> Zlen rows <= Zlen bv ->
  (forall u v, In (u, v) (edges_of rows) -> (is_clear bv u <-> is_clear bv v)) ->
  forall sch g, bv_junk_ok (Zlen rows) T g -> (exists v, 0 <= v < Zlen rows /\ is_clear bv v) ->
  exists chs s0, bv_start A T bv sch g = Some (chs, s0) /\
  (forall us, (forall t, In t us -> 0 <= t < T) -> exists u, foldM ustep us s0 = Some u) /\
  forall us u, foldM ustep us s0 = Some u ->
    (forall cs, (forall t, In t cs -> 0 <= t < T) -> exists c, foldM (bv_cstep bv) cs (cinit_on (nthl chs) T (fst u)) = Some c) /\
    forall cs c j, foldM (bv_cstep bv) cs (cinit_on (nthl chs) T (fst u)) = Some c -> call_done c -> junk_ok (Zlen rows) T j ->
      exists res, bv_cc A T bv us cs sch g j = Some (u, c, res) /\
        (forall x y, 0 <= x < Zlen rows -> 0 <= y < Zlen rows -> is_clear bv x -> is_clear bv y -> get (fst c) x = get (fst c) y -> connected (edges_of rows) x y) /\
        rest_listing (Zlen rows) (is_clear bv) (fun x y => get (fst c) x = get (fst c) y) res /\
        (all_done u -> (T = 1 \/ fresh_run us s0) -> rest_listing (Zlen rows) (is_clear bv) (connected (edges_of rows)) res).
Proof. exact @bv_cc_listing. Qed.
Print Assumptions C29_bit_vector.
Example C29_bit_vector_ex : rep false 1 6 bvc_rows bvc_matrix /\ rows_ok 6 bvc_rows /\ bv_junk_ok 6 3 bvc_junk /\
  (forall u v, In (u, v) (edges_of bvc_rows) -> (is_clear bvc_bits u <-> is_clear bvc_bits v)) /\
  exists chs s0 u c, bv_start bvc_matrix 3 bvc_bits (fun _ => [2%nat; 1%nat]) bvc_junk = Some (chs, s0) /\ chs = [[1; 3]; [4; 5]; []] /\
    foldM ustep (bvc_turns 20) s0 = Some u /\ all_done u /\ fresh_run (bvc_turns 20) s0 /\
    foldM (bv_cstep bvc_bits) (bvc_turns 20) (cinit_on (nthl chs) 3 (fst u)) = Some c /\ call_done c /\
    bv_cc bvc_matrix 3 bvc_bits (bvc_turns 20) (bvc_turns 20) (fun _ => [2%nat; 1%nat]) bvc_junk (junk77 3 6) =
      Some (u, c, mkCC 2 [1; 5] [3; 1] [0; 3; 2; 3; 3; 4; 77; 77; 77] [1; 3; 4; 5; 77; 77]).
Proof. exact bvc_case. Qed.

(** The checks of debug builds (297-320) pass with two or more threads. *)
Theorem C29_debug : forall V hasv base (rows : rows_t V) (A : csr V) T us cs sch j work u c,
  rep hasv base (Zlen rows) rows A -> rows_ok (Zlen rows) rows -> 1 <= Zlen rows -> 2 <= T ->
  junk_ok (Zlen rows) T j ->
  mapM (cc_work A base T) (zrange 0 T) = Some work ->
  union_run (cm A) work us = Some u -> all_done u ->
  compress_run (cm A) T (fst u) cs = Some c -> call_done c ->
  exists res, cc_run A T us cs sch j = Some (u, c, res) /\ cc_check (Zlen rows) (fst c) res = Some tt.
Proof. exact @cc_check_ok. Qed.
Print Assumptions C29_debug.
Example C29_debug_ex : dbg_run 2 (concat (repeat [0; 1] 60)) (concat (repeat [1; 0] 40)) = Some tt.
Proof. exact dbg_two_threads. Qed.
(** With one thread they compare with an entry that was never written, and may read
    beyond the nodes. *)
Theorem C29_debug_one_thread_refuted : rep false 1 5 dbg_rows dbg_matrix /\ rows_ok 5 dbg_rows /\ junk_ok 5 1 (junk77 1 5) /\
  exists u c r, cc_run dbg_matrix 1 (repeat 0 200) (repeat 0 100) (fun _ => []) (junk77 1 5) = Some (u, c, r) /\ all_done u /\ call_done c /\
    get (cc_starts r) (cc_n r) = get (j_prefix (junk77 1 5) (cc_n r)) (cc_n r) /\ cc_check 5 (fst c) r = None.
Proof. exact dbg_one_thread. Qed.
Print Assumptions C29_debug_one_thread_refuted.

(** For a matrix without rows the function writes out of bounds. *)
Theorem C29_empty_matrix_refuted :
  cc_run empty_matrix 2 [] [] (fun _ => []) (junk77 2 0) = None.
Proof. exact empty_matrix_run. Qed.
Print Assumptions C29_empty_matrix_refuted.
