(** * C67: from the name of a matrix to its orderings and schedules *)
From Coq Require Import Permutation Sorted String.
From Verif Require Import Base Interleave Spec PermUtils Flat Csr CsrTools CsrOps Coo Transpose BinIO Laplacian MmText MmIo MmLoad MmStore MmSym MmVec MmCases Convert.
From Verif Require Import SpMV P2P P2PProg Exec Kernels Ilu Levels LevelsFacts LevelsMain Tasks LevelsCsr TaskGraph TaskGraphCsr Sched SchedCases.
From Verif Require Import SplitLU RowPar UnionFind Components BitVector Bfs ParBfs Rcm BfsPerm UnionFresh ComponentsBv BfsPermWhole RcmPipe RcmSource RcmLarge RcmWhole UnionSome ReorderSome.
From Verif Require Import FromFile FromFileCases.
Open Scope Z_scope.

(** C67.  A square coordinate file numbered from 1 that lists no position twice, with
    symmetric storage or read with force_symmetric: the matrix has sorted rows, a
    symmetric pattern, no position twice, and exactly the entries the file stands for. *)
Theorem C67_file {V} (scan_g : list Z -> option (V * list Z)) (of_ll : Z -> V) (one : V) (recip : V -> V) (decd : list Z -> V) (d di o : V)
  R fs name file b c m0 es base force pad M :
  runtime_ok R -> text_name name -> fs name = Some file -> coordinate_file scan_g of_ll one b c [m0; m0; Zlen es] es file -> kind_ok b c ->
  force = true \/ c = Symmetric -> 0 <= m0 -> 1 <= pad -> padded pad m0 M -> (m0 < M -> es <> []) ->
  (forall x y v, In (x, (y, v)) es -> 1 <= x <= m0 /\ 1 <= y <= m0) -> distinct es ->
  exists rows A, csr_named scan_g of_ll one recip decd d di o R fs name base force pad = Some A /\ symmetric_matrix recip base M rows A /\
    forall r c v, In (r, (c, v)) (entries rows) <-> symmetric_entries one m0 M es r c v.
Proof. exact (file_symmetric_matrix scan_g of_ll one recip decd d di o R fs name file b c m0 es base force pad M). Qed.
Print Assumptions C67_file.
(** If the file lists the diagonal, no diagonal entry is missing. *)
Theorem C67_diagonal {V} (one : V) m0 M es (rows : rows_t V) : Zlen rows = M -> (forall r c v, In (r, (c, v)) (entries rows) <-> symmetric_entries one m0 M es r c v) ->
  (forall i, 1 <= i <= m0 -> exists v, In (i, (i, v)) es) -> full_diag rows.
Proof. exact (file_full_diag one m0 M es rows). Qed.
Print Assumptions C67_diagonal.
(** The name "m": so is the Laplacian, and no diagonal entry is missing. *)
Theorem C67_size {V} (scan_g : list Z -> option (V * list Z)) (of_ll : Z -> V) (one : V) (recip : V -> V) (decd : list Z -> V) (d di o : V) m : 1 <= m -> int32 m ->
  exists rows, laplacian_rows d o m m m rows /\ full_diag rows /\
  forall R fs base force pad, runtime_ok R -> base = 0 \/ base = 1 ->
  exists A, csr_named scan_g of_ll one recip decd d di o R fs (pr_int m) base force pad = Some A /\ symmetric_matrix (fun _ => di) base (m * m * m) rows A.
Proof. exact (size_symmetric_matrix scan_g of_ll one recip decd d di o m). Qed.
Print Assumptions C67_size.

(** Such a matrix without missing diagonal entries can be scheduled with its own
    diagptr, and idiag holds the inverse diagonal: C34 to C39, C51 and C66 apply. *)
Theorem C67_schedule {V} (inv : V -> V) base n (rows : rows_t V) (A : csr V) : symmetric_matrix inv base n rows A -> full_diag rows ->
  exists dp idg, diagptr A = Some dp /\ idiag A = Some idg /\ Zlen idg = n /\
    (forall i v, In (i, (i, v)) (entries rows) -> get idg i = Some (inv v)) /\ sched_matrix true base n rows rows A dp.
Proof. exact (ym_sched inv base n rows A). Qed.
Print Assumptions C67_schedule.
(** The schedule is defined for one and two threads, and whenever it is defined the
    sweep over it computes what the sequential sweep computes. *)
Theorem C67_gauss_seidel {V} (inv : V -> V) base n (rows : rows_t V) (A : csr V) : symmetric_matrix inv base n rows A -> full_diag rows ->
  exists dp idg, diagptr A = Some dp /\ idiag A = Some idg /\ (forall i v, In (i, (i, v)) (entries rows) -> get idg i = Some (inv v)) /\
  forall T agg tr cost w, sched_args n T cost w ->
  (T <= 2 -> exists S o2t t2o, constructTaskGraph (graph_of A base dp) T false agg tr cost w = Some (S, o2t, t2o)) /\
  forall S o2t t2o, constructTaskGraph (graph_of A base dp) T false agg tr cost w = Some (S, o2t, t2o) ->
  forall (add sub mul : V -> V -> V) b y fwd, Zlen b = n -> Zlen y = n ->
  exists fin, ref_sweep add sub mul AddScaled fwd A base (values_of rows) idg b y = Some fin /\
    p2p_computes (rexec add sub mul AddScaled A base (values_of rows) idg b) None (rops true A) fwd S (get t2o) T y fin.
Proof. exact (ym_gauss_seidel inv base n rows A). Qed.
Print Assumptions C67_gauss_seidel.

(** Every such matrix has executions of getBFSPermutation and getRCMPermutation that
    end with an order of its components. *)
Theorem C67_bfs {V} (inv : V -> V) base n (rows : rows_t V) (A : csr V) : symmetric_matrix inv base n rows A ->
  forall T thr bsch bjunk sch isch junk csch g j levels perm pinv, 1 <= T -> 1 <= n -> 2 <= T * n ->
  Zlen bjunk = n -> (forall c, Zlen (junk c) = T - 1) -> Zlen levels = n -> Zlen perm = n -> Zlen pinv = n -> bv_junk_ok n T g -> junk_ok n T j ->
  exists us cs perm' inv', getBFSPermutation A T thr bsch bjunk sch isch junk (bv_comps A T us cs csch g j) levels perm pinv = Some (perm', inv') /\ bfs_result rows perm' inv'.
Proof. exact (ym_bfs inv base n rows A). Qed.
Print Assumptions C67_bfs.
Theorem C67_rcm {V} (inv : V -> V) base n (rows : rows_t V) (A : csr V) : symmetric_matrix inv base n rows A ->
  forall T srt pd who bj levels perm pinv ps wo s1 s2 csch j bsch sch ex f, base = 0 \/ base = 1 -> 1 <= n ->
  1 <= T -> T * n < INT_MAX -> sorts_by (degree rows) srt -> rcm_room (cols_of rows) n T pd ->
  (forall c, 0 <= who c < T) -> Zlen bj = n -> Zlen levels = n -> Zlen perm = n -> Zlen pinv = n -> Zlen ps = Z.max (T * PAR_THR) n + 1 -> Zlen wo = n + 1 -> junk_ok n T j ->
  (forall c, lx_ok T (ex c)) -> (forall c, fair T (f c)) ->
  exists us cs ks perm' inv', getRCM A T srt pd s1 s2 us cs csch j bsch bj who sch (fun c : Z => with_sched (ex c) (turns (f c) (ks c))) levels perm pinv ps wo = Some (Finished (A, perm', inv')) /\ rcm_result_from rows pd perm' inv'.
Proof. exact (ym_rcm inv base n rows A). Qed.
Print Assumptions C67_rcm.

(** The lower half of a path of three rows. *)
Example C67_file_ex : coordinate_file scan_num (fun x => x) 1 Integer Symmetric [3; 3; 5] path_entries f_path /\ runtime_ok zrun /\ text_name (str "a.mtx") /\
  distinct path_entries /\ (forall x y v, In (x, (y, v)) path_entries -> 1 <= x <= 3 /\ 1 <= y <= 3) /\ (forall i, 1 <= i <= 3 -> exists v, In (i, (i, v)) path_entries).
Proof. exact (conj file_path (conj zrun_ok (conj name_text path_distinct))). Qed.
Example C67_file_run : exists A, znamed path_files (str "a.mtx") 1 false 1 = Some A /\ rowptr A = [1; 3; 6; 8] /\ colidx A = [1; 2; 1; 2; 3; 2; 3] /\ values A = Some [4; 7; 7; 5; 9; 9; 6] /\
  diagptr A = Some [1; 4; 7] /\ idiag A = Some [4; 5; 6].
Proof. exact path_loaded. Qed.

(** C67, refuted for general storage without force, as gs_test reads it (with NDEBUG;
    trsv_test makes the pattern symmetric first, C70):
    for a lower triangular file the construction loses a row and leaves the
    permutations unfinished (77 is what was in the memory), then reads with them. *)
Theorem C67_general_refuted : coordinate_file scan_num (fun x => x) 1 Integer General [2; 2; 3] [(1, (1, 1)); (2, (1, 1)); (2, (2, 1))] f_lower /\
  znamed (one_file (str "a.mtx") f_lower) (str "a.mtx") 0 false 1 = Some lower_A /\ sched_args 2 2 (fun _ => 1) lower_world /\
  world_tasks (graph_of lower_A 0 [0; 2]) 2 false false (fun _ => 1) lower_world = Some ([0; 1; 1], [0; 2], [0; 77], [0; 77]) /\
  (forall tr, constructTaskGraph (graph_of lower_A 0 [0; 2]) 2 false false tr (fun _ => 1) lower_world = None).
Proof. exact (conj file_lower lower_lost). Qed.
Print Assumptions C67_general_refuted.
Example C67_forced : exists A, znamed (one_file (str "a.mtx") f_lower) (str "a.mtx") 0 true 1 = Some A /\
  world_tasks (graph_of A 0 [0; 3]) 2 false false (fun _ => 1) lower_world = Some ([0; 2; 2], [0; 1; 2], [0; 1], [0; 1]) /\
  exists S, constructTaskGraph (graph_of A 0 [0; 3]) 2 false false true (fun _ => 1) lower_world = Some (S, [0; 1], [0; 1]).
Proof. exact lower_forced. Qed.
