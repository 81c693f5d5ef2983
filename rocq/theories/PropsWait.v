(** * Property C73: sweeps whose threads meet at the barrier itself. *)
From Verif Require Import Base Interleave PermuteMain Spec Flat Csr CsrOps P2P P2PProg Phased Exec Kernels Levels LevelsCsr Tasks TaskGraph TaskGraphCsr Sched SchedPerm SchedCases UnionSome WaitExec WaitCases.
From Verif Require Barrier.

(** C73.  Threads that call wait after each task, under any interleaving of all
    their steps inside and outside of wait: the execution is defined, does not get
    stuck, and ends with a memory that the phases one after the other can give.
    The barrier is then free again, so any number of sweeps can follow. *)
Theorem C73_phases : forall {A S} (f : A -> S -> option S) (n tpc : nat) (prog : list (list (list A))), (1 <= n)%nat -> (1 <= tpc)%nat -> Zlen prog = Z.of_nat (n * tpc) ->
  forall K e s0, (forall t, 0 <= t < Zlen prog -> Zlen (nthl prog t) = K) ->
  (forall sch, foldM (fun k s => par (sch k) f (map (fun tasks => nthl tasks k) prog) s) (zrange 0 K) s0 <> None) ->
  forall b, quiet n tpc b e ->
  (forall sched, (forall t, In t sched -> 0 <= t < Zlen prog) -> exists s, xrun f n tpc prog sched (xstart prog b s0) = Some s /\
     (xfinished tpc prog s -> (exists sch, foldM (fun k s => par (sch k) f (map (fun tasks => nthl tasks k) prog) s) (zrange 0 K) s0 = Some (x_mem s)) /\ quiet n tpc (x_bar s) (e + Z.to_nat K)) /\
     (xfinished tpc prog s \/ exists t s', 0 <= t < Zlen prog /\ xstep f n tpc prog t s = Some s' /\ s' <> s)) /\
  (forall g, fair (Zlen prog) g -> exists N s, xrun f n tpc prog (map g (seq 0 N)) (xstart prog b s0) = Some s /\ xfinished tpc prog s).
Proof. exact @wait_refines. Qed.
Print Assumptions C73_phases.

(** Gauss-Seidel and the triangular solves with a schedule made for barriers: the
    vector of the sequential loop. *)
Theorem C73_reference : forall {V} hasv base n (rows lrows : rows_t V) A dp, sched_matrix hasv base n rows lrows A dp ->
  forall nc tpc agg cost X base' n' (rows' : rows_t X) A', (1 <= nc)%nat -> (1 <= tpc)%nat -> rep true base' n' rows' A' -> rows_ok n' rows' -> sub_pattern rows' rows -> Zlen rows <= n' ->
  forall add sub mul k idiag b y, n' <= Zlen y -> Zlen rows <= Zlen b -> (needs_idiag k = true -> Zlen rows <= Zlen idiag) ->
  forall w thb tb S o2t t2o fwd, let T := Z.of_nat (nc * tpc) in sched_args (Zlen rows) T cost w -> world_tasks (graph_of A base dp) T true agg cost w = Some (thb, tb, o2t, t2o) -> has_tasks S T thb tb ->
  exists fin, ref_sweep add sub mul k fwd A' base' (values_of rows') idiag b y = Some fin /\
    wait_computes (rexec add sub mul k A' base' (values_of rows') idiag b) None (rops true A') fwd S (get t2o) nc tpc y fin.
Proof. exact @sched_ref_wait. Qed.
Print Assumptions C73_reference.
(** The entries of a row in either order. *)
Theorem C73_orders : forall {V} hasv base n (rows lrows : rows_t V) A dp, sched_matrix hasv base n rows lrows A dp ->
  forall nc tpc agg cost X base' n' (rows' : rows_t X) A', (1 <= nc)%nat -> (1 <= tpc)%nat -> rep true base' n' rows' A' -> rows_ok n' rows' -> sub_pattern rows' rows -> Zlen rows <= n' ->
  forall add sub mul k idiag b y, n' <= Zlen y -> Zlen rows <= Zlen b -> (needs_idiag k = true -> Zlen rows <= Zlen idiag) ->
  forall w thb tb S o2t t2o fwd asc, let T := Z.of_nat (nc * tpc) in sched_args (Zlen rows) T cost w -> world_tasks (graph_of A base dp) T true agg cost w = Some (thb, tb, o2t, t2o) -> has_tasks S T thb tb ->
  exists fin, updates add sub mul k asc rows' idiag b (dirZ fwd 0 (Zlen rows)) y = Some fin /\
    wait_computes (rexec add sub mul k A' base' (values_of rows') idiag b) None (rops asc A') fwd S (get t2o) nc tpc y fin.
Proof. exact @sched_sweep_wait. Qed.
Print Assumptions C73_orders.
(** The matrix permuted with the permutations of the schedule. *)
Theorem C73_reordered : forall {V} base n (rows lrows : rows_t V) A dp, sched_matrix true base n rows lrows A dp -> rows_ok n rows ->
  Zlen rows <= n -> 0 <= base -> (forall d, idiag A = Some d -> Zlen d = Zlen rows) ->
  forall nd sort nc tpc agg cost w thb tb S o2t t2o T' sch j, let T := Z.of_nat (nc * tpc) in (1 <= nc)%nat -> (1 <= tpc)%nat ->
  sched_args (Zlen rows) T cost w -> world_tasks (graph_of A base dp) T true agg cost w = Some (thb, tb, o2t, t2o) -> has_tasks S T thb tb ->
  1 <= T' -> junk_ok A T' j -> exists A' vs', permute nd sort A o2t (Some t2o) T' sch j = Some A' /\ values A' = Some vs' /\
  forall add sub mul k fwd asc idiag b y idiag' b' y', (sort = true -> forall s a b, sub (sub s a) b = sub (sub s b) a) ->
  n <= Zlen y -> Zlen rows <= Zlen b -> (needs_idiag k = true -> Zlen rows <= Zlen idiag) ->
  moved (Zlen rows) t2o b b' -> moved (Zlen rows) t2o idiag idiag' -> moved (Zlen rows) t2o y y' ->
  exists fin fin', updates add sub mul k asc rows idiag b (dirZ fwd 0 (Zlen rows)) y = Some fin /\ moved (Zlen rows) t2o fin fin' /\
    wait_computes (rexec add sub mul k A' base vs' idiag' b') None (rops asc A') fwd S (fun i => Some i) nc tpc y' fin'.
Proof. exact @reordered_wait. Qed.
Print Assumptions C73_reordered.

(** Two threads in one core or in two; the barrier after its initialisation. *)
Example C73_quiet_ex : quiet 1 2 Barrier.init 0 /\ quiet 2 1 Barrier.init 0.
Proof. exact (conj (init_quiet 1 2) (init_quiet 2 1)). Qed.
Example C73_hyps_ex : sched_matrix true 1 6 tri_rows tri_rows (tri_A 1) (tri_dp 1) /\ sched_args 6 2 (fun _ => 1) tri_world /\
  exists thb tb o2t, world_tasks (graph_of (tri_A 1) 1 (tri_dp 1)) 2 true false (fun _ => 1) tri_world = Some (thb, tb, o2t, wt_perm) /\ has_tasks wt_sched 2 thb tb /\ (thb, tb) = ([0; 3; 6], [0; 1; 2; 3; 4; 5; 6]).
Proof. exact (conj (tri_sched 1) (conj tri_args wt_hyps)). Qed.
Example C73_ex : forall fwd, exists fin, ref_sweep Z.add bsub Z.mul AddScaled fwd (tri_A 1) 1 (values_of tri_rows) bvec bvec bvec = Some fin /\
  wt_run 1 2 fwd (wt_turns 5 1) = Some ([3; 3], [Barrier.Out; Barrier.Out], fin) /\ wt_run 2 1 fwd (wt_turns 1 3) = Some ([3; 3], [Barrier.Out; Barrier.Out], fin).
Proof. exact wt_case. Qed.
Example C73_waits_ex : option_map (fun '(k, pcs, _) => (k, pcs)) (wt_run 1 2 true (repeat 1 60%nat)) = Some ([0; 1], [Barrier.Out; Barrier.WCore]).
Proof. exact wt_waits. Qed.

(** Threads with different numbers of tasks: no execution ends, ... *)
Theorem C73_unequal : forall {A S} (f : A -> S -> option S) (n tpc : nat) (prog : list (list (list A))), (1 <= n)%nat -> (1 <= tpc)%nat -> Zlen prog = Z.of_nat (n * tpc) ->
  forall b e s0 sched s, quiet n tpc b e -> (forall t, In t sched -> 0 <= t < Zlen prog) -> xrun f n tpc prog sched (xstart prog b s0) = Some s -> xfinished tpc prog s ->
  forall t t', 0 <= t < Zlen prog -> 0 <= t' < Zlen prog -> Zlen (nthl prog t) = Zlen (nthl prog t').
Proof. exact @unequal_never. Qed.
Print Assumptions C73_unequal.
(** ... which is the case for schedules made without useBarrier. *)
Theorem C73_other_schedule_refuted : exists (rows : rows_t Z) A dp cost w S o2t t2o,
  sched_matrix true 0 (Zlen rows) rows rows A dp /\ sched_args (Zlen rows) 2 cost w /\ constructTaskGraph (graph_of A 0 dp) 2 false false true cost w = Some (S, o2t, t2o) /\
  forall O X L (exec : O -> L -> list X -> option (L * list X)) l0 ops fwd b e locs y, quiet 2 1 b e ->
  exists prog, wait_prog ops fwd S (get t2o) 2 = Some prog /\
  forall sched s, (forall t, In t sched -> 0 <= t < 2) -> xrun (pstep exec l0 ops) 2 1 prog sched (xstart prog b (locs, y)) = Some s -> ~ xfinished 1 prog s.
Proof. exact unequal_schedule. Qed.
Print Assumptions C73_other_schedule_refuted.
