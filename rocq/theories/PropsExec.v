(** * Properties C37, C38, C51: Gauss-Seidel, triangular solves, ILU(0). *)
From Coq Require Import Permutation.
From Verif Require Import Base Interleave Spec Flat Csr CsrOps Fill Permute PermuteMain P2P P2PProg Exec Kernels Ilu Levels LevelsCsr Tasks TaskGraph TaskGraphCsr Sched SchedPerm SchedCases.

(** C37.  Sweep with the entries of each row in ascending order (gs_test.cpp forward
    functions): exactly the vector of the sequential loop, in any arithmetic. *)
Theorem C37_p2p : forall {V} base n (rows lrows : rows_t V) A dp, sched_matrix true base n rows lrows A dp -> rows_ok n rows -> Zlen rows <= n ->
  forall T agg cost (add sub mul : V -> V -> V) idiag b y w tr S o2t t2o fwd,
  n <= Zlen y -> Zlen rows <= Zlen b -> Zlen rows <= Zlen idiag ->
  sched_args (Zlen rows) T cost w -> constructTaskGraph (graph_of A base dp) T false agg tr cost w = Some (S, o2t, t2o) ->
  exists fin, ref_sweep add sub mul AddScaled fwd A base (values_of rows) idiag b y = Some fin /\
    p2p_computes (rexec add sub mul AddScaled A base (values_of rows) idiag b) None (rops true A) fwd S (get t2o) T y fin.
Proof. intros V. exact gs_p2p. Qed.
Print Assumptions C37_p2p.
Theorem C37_barrier : forall {V} base n (rows lrows : rows_t V) A dp, sched_matrix true base n rows lrows A dp -> rows_ok n rows -> Zlen rows <= n ->
  forall T agg cost (add sub mul : V -> V -> V) idiag b y w thb tb S o2t t2o fwd,
  n <= Zlen y -> Zlen rows <= Zlen b -> Zlen rows <= Zlen idiag ->
  sched_args (Zlen rows) T cost w -> world_tasks (graph_of A base dp) T true agg cost w = Some (thb, tb, o2t, t2o) -> has_tasks S T thb tb ->
  exists fin, ref_sweep add sub mul AddScaled fwd A base (values_of rows) idiag b y = Some fin /\
    barrier_computes (rexec add sub mul AddScaled A base (values_of rows) idiag b) None (rops true A) fwd S (get t2o) T y fin.
Proof. intros V. exact gs_barrier. Qed.
Print Assumptions C37_barrier.
Example C37_ex : sched_matrix true 1 6 tri_rows tri_rows (tri_A 1) (tri_dp 1) /\ rows_ok 6 tri_rows /\ sched_args 6 2 (fun _ => 1) tri_world /\
  (exists S o2t t2o, constructTaskGraph (graph_of (tri_A 1) 1 (tri_dp 1)) 2 false false true (fun _ => 1) tri_world = Some (S, o2t, t2o)) /\
  tri_sweep true true = ref_sweep Z.add bsub Z.mul AddScaled true (tri_A 1) 1 (values_of tri_rows) bvec bvec bvec /\ tri_sweep true true <> None /\ tri_sweep false false <> None /\ tri_sweep true true <> tri_sweep false false.
Proof. exact (conj (tri_sched 1) (conj tri_ok (conj tri_args (conj (ex_intro _ _ (ex_intro _ _ (ex_intro _ _ tri_run_reduced))) tri_sweep_run)))). Qed.

(** The backward functions take the entries of a row in descending order: the
    result is that of the sequential loop over the rows with this order... *)
Theorem C37_backward : forall {V} base n (rows lrows : rows_t V) A dp, sched_matrix true base n rows lrows A dp -> rows_ok n rows -> Zlen rows <= n ->
  forall T agg cost (add sub mul : V -> V -> V) idiag b y w tr S o2t t2o,
  n <= Zlen y -> Zlen rows <= Zlen b -> Zlen rows <= Zlen idiag ->
  sched_args (Zlen rows) T cost w -> constructTaskGraph (graph_of A base dp) T false agg tr cost w = Some (S, o2t, t2o) ->
  exists fin, updates add sub mul AddScaled false rows idiag b (rev (zrange 0 (Zlen rows))) y = Some fin /\
    p2p_computes (rexec add sub mul AddScaled A base (values_of rows) idiag b) None (rops false A) false S (get t2o) T y fin.
Proof. intros V. exact gs_backward. Qed.
Print Assumptions C37_backward.
(** ... which is gsBackwardRef if the order of subtractions does not matter, ... *)
Theorem C37_backward_exact : forall {V} base n (rows lrows : rows_t V) A dp, sched_matrix true base n rows lrows A dp -> rows_ok n rows -> Zlen rows <= n ->
  forall T agg cost (add sub mul : V -> V -> V) idiag b y w tr S o2t t2o, (forall s x z, sub (sub s x) z = sub (sub s z) x) ->
  n <= Zlen y -> Zlen rows <= Zlen b -> Zlen rows <= Zlen idiag ->
  sched_args (Zlen rows) T cost w -> constructTaskGraph (graph_of A base dp) T false agg tr cost w = Some (S, o2t, t2o) ->
  exists fin, ref_sweep add sub mul AddScaled false A base (values_of rows) idiag b y = Some fin /\
    p2p_computes (rexec add sub mul AddScaled A base (values_of rows) idiag b) None (rops false A) false S (get t2o) T y fin.
Proof. intros V. exact gs_backward_exact. Qed.
Print Assumptions C37_backward_exact.
(** ... and can differ from it otherwise, as in floating point. *)
Theorem C37_backward_refuted : exists (rows : rows_t Z) A dp T cost w S o2t t2o add sub mul idiag b y ref fin,
  sched_matrix true 1 (Zlen rows) rows rows A dp /\ sched_args (Zlen rows) T cost w /\ constructTaskGraph (graph_of A 1 dp) T false false true cost w = Some (S, o2t, t2o) /\
  Zlen y = Zlen rows /\ Zlen b = Zlen rows /\ Zlen idiag = Zlen rows /\
  ref_sweep add sub mul AddScaled false A 1 (values_of rows) idiag b y = Some ref /\
  p2p_computes (rexec add sub mul AddScaled A 1 (values_of rows) idiag b) None (rops false A) false S (get t2o) T y fin /\ ref <> fin.
Proof. exact backward_refuted. Qed.
Print Assumptions C37_backward_refuted.

(** C38.  Any of the row kernels (Gauss-Seidel, solve with or without inverse
    diagonal) over a matrix with part of the entries of the scheduled matrix, such
    as its strictly lower or upper part, in either direction and order. *)
Theorem C38_solve_p2p : forall {V} hasv base n (rows lrows : rows_t V) A dp, sched_matrix hasv base n rows lrows A dp ->
  forall T agg cost X base' n' (rows' : rows_t X) A', rep true base' n' rows' A' -> rows_ok n' rows' -> sub_pattern rows' rows -> Zlen rows <= n' ->
  forall add sub mul k idiag b y, n' <= Zlen y -> Zlen rows <= Zlen b -> (needs_idiag k = true -> Zlen rows <= Zlen idiag) ->
  forall w tr S o2t t2o fwd, sched_args (Zlen rows) T cost w -> constructTaskGraph (graph_of A base dp) T false agg tr cost w = Some (S, o2t, t2o) ->
  exists fin, ref_sweep add sub mul k fwd A' base' (values_of rows') idiag b y = Some fin /\
    p2p_computes (rexec add sub mul k A' base' (values_of rows') idiag b) None (rops true A') fwd S (get t2o) T y fin.
Proof. intros V hasv base n rows lrows A dp HM T agg cost X. exact (sched_ref_p2p hasv base n rows lrows A dp HM T agg cost). Qed.
Print Assumptions C38_solve_p2p.
Theorem C38_solve_barrier : forall {V} hasv base n (rows lrows : rows_t V) A dp, sched_matrix hasv base n rows lrows A dp ->
  forall T agg cost X base' n' (rows' : rows_t X) A', rep true base' n' rows' A' -> rows_ok n' rows' -> sub_pattern rows' rows -> Zlen rows <= n' ->
  forall add sub mul k idiag b y, n' <= Zlen y -> Zlen rows <= Zlen b -> (needs_idiag k = true -> Zlen rows <= Zlen idiag) ->
  forall w thb tb S o2t t2o fwd, sched_args (Zlen rows) T cost w -> world_tasks (graph_of A base dp) T true agg cost w = Some (thb, tb, o2t, t2o) -> has_tasks S T thb tb ->
  exists fin, ref_sweep add sub mul k fwd A' base' (values_of rows') idiag b y = Some fin /\
    barrier_computes (rexec add sub mul k A' base' (values_of rows') idiag b) None (rops true A') fwd S (get t2o) T y fin.
Proof. intros V hasv base n rows lrows A dp HM T agg cost X. exact (sched_ref_barrier hasv base n rows lrows A dp HM T agg cost). Qed.
Print Assumptions C38_solve_barrier.
Theorem C38_solve_desc : forall {V} hasv base n (rows lrows : rows_t V) A dp, sched_matrix hasv base n rows lrows A dp ->
  forall T agg cost X base' n' (rows' : rows_t X) A', rep true base' n' rows' A' -> rows_ok n' rows' -> sub_pattern rows' rows -> Zlen rows <= n' ->
  forall add sub mul k idiag b y, n' <= Zlen y -> Zlen rows <= Zlen b -> (needs_idiag k = true -> Zlen rows <= Zlen idiag) ->
  forall w tr S o2t t2o fwd asc, sched_args (Zlen rows) T cost w -> constructTaskGraph (graph_of A base dp) T false agg tr cost w = Some (S, o2t, t2o) ->
  exists fin, updates add sub mul k asc rows' idiag b (dirZ fwd 0 (Zlen rows)) y = Some fin /\
    p2p_computes (rexec add sub mul k A' base' (values_of rows') idiag b) None (rops asc A') fwd S (get t2o) T y fin.
Proof. intros V hasv base n rows lrows A dp HM T agg cost X. exact (sched_sweep_p2p hasv base n rows lrows A dp HM T agg cost). Qed.
Print Assumptions C38_solve_desc.
Example C38_solve_ex : sub_pattern (tri_part true) tri_rows /\ rows_ok 6 (tri_part true) /\ rep true 0 6 (tri_part true) (csr_of 0 6 (tri_part true)).
Proof. exact (tri_part_sub true). Qed.
Example C38_solve_run_ex : updates Z.add Z.sub Z.mul Scaled true (tri_part true) bvec bvec (dirZ true 0 6) [0; 0; 0; 0; 0; 0] = Some [1; 4; -48; -80; 4760; 6456].
Proof. exact tri_solve_run. Qed.

(** ILU(0) (pcg.cpp:172-235): the sequential factorisation row by row, and for
    0-based matrices ilu0_ref. *)
Theorem C38_ilu : forall {V} base n (rows lrows : rows_t V) A dp, sched_matrix true base n rows lrows A dp -> rows_ok n rows ->
  forall (sub mul div : V -> V -> V) T agg cost w tr S o2t t2o sch lu, sched_args (Zlen rows) T cost w ->
  constructTaskGraph (graph_of A base dp) T false agg tr cost w = Some (S, o2t, t2o) -> Zlen lu = off (nthl rows) (Zlen rows) ->
  exists fin, foldM (ilu_row sub mul div A base dp) (zrange 0 (Zlen rows)) (values_of rows) = Some fin /\ ilu_copy A sch lu = Some (values_of rows) /\
    (base = 0 -> forall lu', Zlen lu' = off (nthl rows) (Zlen rows) -> ilu0_ref sub mul div A dp lu' = Some fin) /\
    p2p_computes (lexec sub mul div) None (ilu_ops A base dp) true S (get t2o) T (values_of rows) fin.
Proof. intros V. exact sched_ilu. Qed.
Print Assumptions C38_ilu.
Theorem C38_ilu_ref_refuted : exists (rows : rows_t Z) A dp lu, sched_matrix true 1 (Zlen rows) rows rows A dp /\ rows_ok (Zlen rows) rows /\ Zlen lu = off (nthl rows) (Zlen rows) /\ forall sub mul div, ilu0_ref sub mul div A dp lu = None.
Proof. exact ilu_ref_refuted. Qed.
Print Assumptions C38_ilu_ref_refuted.

(** C51.  The matrix is permuted with the permutations of the schedule; the
    executors for reordered matrices then give the reordered result. *)
Theorem C51_p2p : forall {V} base n (rows lrows : rows_t V) A dp, sched_matrix true base n rows lrows A dp -> rows_ok n rows ->
  Zlen rows <= n -> 0 <= base -> (forall d, idiag A = Some d -> Zlen d = Zlen rows) ->
  forall nd sort T agg tr cost w S o2t t2o T' sch j, sched_args (Zlen rows) T cost w -> constructTaskGraph (graph_of A base dp) T false agg tr cost w = Some (S, o2t, t2o) ->
  1 <= T' -> junk_ok A T' j -> exists A' vs', permute nd sort A o2t (Some t2o) T' sch j = Some A' /\ values A' = Some vs' /\
  forall add sub mul k fwd asc idiag b y idiag' b' y', (sort = true -> forall s a b, sub (sub s a) b = sub (sub s b) a) ->
  n <= Zlen y -> Zlen rows <= Zlen b -> (needs_idiag k = true -> Zlen rows <= Zlen idiag) ->
  moved (Zlen rows) t2o b b' -> moved (Zlen rows) t2o idiag idiag' -> moved (Zlen rows) t2o y y' ->
  exists fin fin', updates add sub mul k asc rows idiag b (dirZ fwd 0 (Zlen rows)) y = Some fin /\ moved (Zlen rows) t2o fin fin' /\
    p2p_computes (rexec add sub mul k A' base vs' idiag' b') None (rops asc A') fwd S (fun i => Some i) T y' fin'.
Proof. intros V. exact reordered_p2p. Qed.
Print Assumptions C51_p2p.
Theorem C51_barrier : forall {V} base n (rows lrows : rows_t V) A dp, sched_matrix true base n rows lrows A dp -> rows_ok n rows ->
  Zlen rows <= n -> 0 <= base -> (forall d, idiag A = Some d -> Zlen d = Zlen rows) ->
  forall nd sort T agg cost w thb tb S o2t t2o T' sch j, sched_args (Zlen rows) T cost w -> world_tasks (graph_of A base dp) T true agg cost w = Some (thb, tb, o2t, t2o) -> has_tasks S T thb tb ->
  1 <= T' -> junk_ok A T' j -> exists A' vs', permute nd sort A o2t (Some t2o) T' sch j = Some A' /\ values A' = Some vs' /\
  forall add sub mul k fwd asc idiag b y idiag' b' y', (sort = true -> forall s a b, sub (sub s a) b = sub (sub s b) a) ->
  n <= Zlen y -> Zlen rows <= Zlen b -> (needs_idiag k = true -> Zlen rows <= Zlen idiag) ->
  moved (Zlen rows) t2o b b' -> moved (Zlen rows) t2o idiag idiag' -> moved (Zlen rows) t2o y y' ->
  exists fin fin', updates add sub mul k asc rows idiag b (dirZ fwd 0 (Zlen rows)) y = Some fin /\ moved (Zlen rows) t2o fin fin' /\
    barrier_computes (rexec add sub mul k A' base vs' idiag' b') None (rops asc A') fwd S (fun i => Some i) T y' fin'.
Proof. intros V. exact reordered_barrier. Qed.
Print Assumptions C51_barrier.
(** Also for the triangular parts: any matrix whose rows and columns are moved. *)
Theorem C51_parts : forall {V} hasv base n (rows lrows : rows_t V) A dp, sched_matrix hasv base n rows lrows A dp ->
  forall T agg cost w, sched_args (Zlen rows) T cost w ->
  forall X base' n' (krows krows' : rows_t X) A', rep true base' n' krows' A' -> rows_ok n' krows -> sub_pattern krows rows -> Zlen rows <= n' ->
  forall add sub mul k idiag b y idiag' b' y', n' <= Zlen y -> Zlen rows <= Zlen b -> (needs_idiag k = true -> Zlen rows <= Zlen idiag) ->
  forall tr S o2t t2o fwd asc, constructTaskGraph (graph_of A base dp) T false agg tr cost w = Some (S, o2t, t2o) ->
  moved_rows sub o2t t2o krows krows' -> moved (Zlen rows) t2o b b' -> moved (Zlen rows) t2o idiag idiag' -> moved (Zlen rows) t2o y y' ->
  exists fin fin', updates add sub mul k asc krows idiag b (dirZ fwd 0 (Zlen rows)) y = Some fin /\ moved (Zlen rows) t2o fin fin' /\
    p2p_computes (rexec add sub mul k A' base' (values_of krows') idiag' b') None (rops asc A') fwd S (fun i => Some i) T y' fin'.
Proof. intros V hasv base n rows lrows A dp HM T agg cost w HA X. exact (moved_sweep_p2p hasv base n rows lrows A dp HM T agg cost w HA). Qed.
Print Assumptions C51_parts.
Example C51_ex : moved_rows bsub tri_o2t tri_t2o tri_rows (perm_rows false tri_o2t tri_t2o tri_rows tri_rows) /\ moved 6 tri_t2o bvec [1; 3; 5; 2; 4; 6] /\
  perm_rows false tri_o2t tri_t2o tri_rows tri_rows <> tri_rows.
Proof. exact tri_moved. Qed.
