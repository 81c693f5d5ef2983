(** * C29, C30, C54: every matrix has executions that reach the end, and fair ones do *)
From Coq Require Import Permutation Relations.
From Verif Require Import Base Interleave Spec PermUtils Partition Flat Csr CsrOps Levels LevelsMain SplitLU Transpose RowPar UnionFind Components BinIO LevelsCsr BitVector Bfs ParBfs Rcm BfsPerm UnionFresh ComponentsBv BfsPermWhole RcmPipe RcmSource RcmLarge RcmWhole UnionSome ReorderSome.

(** C29.  Whatever the threads have done, the union can still be brought to its end. *)
Theorem C29_can_finish : forall m work sched s, 0 <= m -> (forall w e, In w work -> In e w -> 0 <= fst e < m /\ 0 <= snd e < m) ->
  union_run m work sched = Some s -> exists l s', union_run m work (sched ++ l) = Some s' /\ all_done s'.
Proof. exact union_can_finish. Qed.
Print Assumptions C29_can_finish.

(** If every thread comes again and again, both concurrent phases end after finitely many
    steps and the search returns its listing.  [f], [g]: the thread that makes a step. *)
Theorem C29_fair : forall {V} hasv base (rows : rows_t V) (A : csr V) T, rep hasv base (Zlen rows) rows A -> rows_ok (Zlen rows) rows -> 1 <= Zlen rows -> 1 <= T ->
  forall f g sch j, fair T f -> fair T g -> junk_ok (Zlen rows) T j ->
  exists k l u c res, cc_run A T (turns f k) (turns g l) sch j = Some (u, c, res) /\ all_done u /\ call_done c /\
    (forall x y, 0 <= x < Zlen rows -> 0 <= y < Zlen rows -> get (fst c) x = get (fst c) y -> connected (edges_of rows) x y) /\
    component_listing (Zlen rows) (fun x y => get (fst c) x = get (fst c) y) res.
Proof. exact @cc_fair. Qed.
Print Assumptions C29_fair.

(** One thread needs no luck; with several, some execution finds the components. *)
Theorem C29_one_thread_ends : forall {V} hasv base (rows : rows_t V) (A : csr V) T, rep hasv base (Zlen rows) rows A -> rows_ok (Zlen rows) rows -> 1 <= Zlen rows -> 1 <= T ->
  forall sch j, T = 1 -> junk_ok (Zlen rows) T j ->
  exists k l u c res, cc_run A T (repeat 0 k) (repeat 0 l) sch j = Some (u, c, res) /\ component_listing (Zlen rows) (connected (edges_of rows)) res.
Proof. exact @cc_one_ends. Qed.
Print Assumptions C29_one_thread_ends.
Theorem C29_exact_exists : forall {V} hasv base (rows : rows_t V) (A : csr V) T, rep hasv base (Zlen rows) rows A -> rows_ok (Zlen rows) rows -> 1 <= Zlen rows -> 1 <= T ->
  forall j, junk_ok (Zlen rows) T j ->
  exists us cs, forall sch, exists u c res, cc_run A T us cs sch j = Some (u, c, res) /\ component_listing (Zlen rows) (connected (edges_of rows)) res.
Proof. exact @cc_exact_exists. Qed.
Print Assumptions C29_exact_exists.
(** Three threads in turns on eight nodes with four components. *)
Example C29_fair_ex : fair 3 (fun k => Z.of_nat k mod 3) /\ rep true 1 8 rcm_case rcm_case_A /\ rows_ok 8 rcm_case /\ junk_ok 8 3 (junk77 3 8) /\
  exists u c, cc_run rcm_case_A 3 (turns (fun k => Z.of_nat k mod 3) 180) (turns (fun k => Z.of_nat k mod 3) 120) (fun _ => []) (junk77 3 8) = Some (u, c, mkCC 4 [0; 1; 2; 4] [4; 1; 2; 1] [0; 4; 5; 7; 1; 5; 6; 7; 3; 5; 6; 8; 77; 77; 77] [0; 3; 5; 6; 1; 2; 7; 4]).
Proof. exact some_case. Qed.

(** C30.  For every symmetric matrix some execution of getBFSPermutation ends with the
    orders of its components; with one thread all that go on. *)
Theorem C30_exists : forall {V} (A : csr V) hasv base (rows : rows_t V), rep hasv base (Zlen rows) rows A -> rows_ok (Zlen rows) rows ->
  symmetric_adj (cols_of rows) -> (forall u, NoDup (cols_of rows u)) ->
  forall T thr bsch bjunk sch isch junk csch g j levels perm inv, 1 <= T -> 1 <= Zlen rows -> 2 <= T * Zlen rows ->
  Zlen bjunk = Zlen rows -> (forall c, Zlen (junk c) = T - 1) -> Zlen levels = Zlen rows -> Zlen perm = Zlen rows -> Zlen inv = Zlen rows ->
  bv_junk_ok (Zlen rows) T g -> junk_ok (Zlen rows) T j ->
  exists us cs perm' inv', getBFSPermutation A T thr bsch bjunk sch isch junk (bv_comps A T us cs csch g j) levels perm inv = Some (perm', inv') /\ bfs_result rows perm' inv'.
Proof. exact @bfs_exists. Qed.
Print Assumptions C30_exists.
Theorem C30_one_thread_ends : forall {V} (A : csr V) hasv base (rows : rows_t V), rep hasv base (Zlen rows) rows A -> rows_ok (Zlen rows) rows ->
  symmetric_adj (cols_of rows) -> (forall u, NoDup (cols_of rows u)) ->
  forall T thr bsch bjunk sch isch junk csch g j levels perm inv, 1 <= T -> 1 <= Zlen rows -> 2 <= T * Zlen rows ->
  Zlen bjunk = Zlen rows -> (forall c, Zlen (junk c) = T - 1) -> Zlen levels = Zlen rows -> Zlen perm = Zlen rows -> Zlen inv = Zlen rows ->
  bv_junk_ok (Zlen rows) T g -> junk_ok (Zlen rows) T j -> T = 1 ->
  exists k l perm' inv', getBFSPermutation A T thr bsch bjunk sch isch junk (bv_comps A T (repeat 0 k) (repeat 0 l) csch g j) levels perm inv = Some (perm', inv') /\ bfs_result rows perm' inv'.
Proof. exact @bfs_one_ends. Qed.
Print Assumptions C30_one_thread_ends.

(** C54.  The same of the whole of getRCMPermutation. *)
Theorem C54_exists : forall {V} (A : csr V) hasv base (rows : rows_t V) T srt pd who bj levels perm inv ps wo s1 s2 csch j bsch sch ex f,
  rep hasv base (Zlen rows) rows A -> base = 0 \/ base = 1 -> diagptr_len A -> rows_ok (Zlen rows) rows -> 1 <= Zlen rows ->
  symmetric_adj (cols_of rows) -> (forall u, NoDup (cols_of rows u)) -> 1 <= T -> T * Zlen rows < INT_MAX -> sorts_by (degree rows) srt -> rcm_room (cols_of rows) (Zlen rows) T pd ->
  (forall c, 0 <= who c < T) -> Zlen bj = Zlen rows -> Zlen levels = Zlen rows -> Zlen perm = Zlen rows -> Zlen inv = Zlen rows -> Zlen ps = Z.max (T * PAR_THR) (Zlen rows) + 1 -> Zlen wo = Zlen rows + 1 -> junk_ok (Zlen rows) T j ->
  (forall c, lx_ok T (ex c)) -> (forall c, fair T (f c)) ->
  exists us cs ks perm' inv', getRCM A T srt pd s1 s2 us cs csch j bsch bj who sch (fun c : Z => with_sched (ex c) (turns (f c) (ks c))) levels perm inv ps wo = Some (Finished (A, perm', inv')) /\ rcm_result_from rows pd perm' inv'.
Proof. exact @rcm_exists. Qed.
Print Assumptions C54_exists.
