(** * Sweeps of constructed schedules with the barrier itself, and worked cases. *)
From Coq Require Import Permutation.
From Verif Require Import Base Interleave PermuteMain Spec PermUtils Flat Csr CsrTools CsrOps SpMV P2P P2PProg Phased Exec Kernels Levels LevelsCsr Tasks TaskGraph TaskGraphCsr Sched SchedPerm SchedCases UnionSome WaitExec.
From Verif Require Barrier.

(** After the initialisation (C58, C72) nobody uses the barrier. *)
Lemma init_quiet n tpc : quiet n tpc Barrier.init 0.
Proof. split; [constructor|]. intros c t _ _. split; reflexivity. Qed.

(** Any row kernel over a schedule with barriers. *)
Theorem sched_sweep_wait {V} hasv base n (rows lrows : rows_t V) A dp : sched_matrix hasv base n rows lrows A dp ->
  forall nc tpc agg cost X base' n' (rows' : rows_t X) A', (1 <= nc)%nat -> (1 <= tpc)%nat -> rep true base' n' rows' A' -> rows_ok n' rows' -> sub_pattern rows' rows -> Zlen rows <= n' ->
  forall add sub mul k idiag b y, n' <= Zlen y -> Zlen rows <= Zlen b -> (needs_idiag k = true -> Zlen rows <= Zlen idiag) ->
  forall w thb tb S o2t t2o fwd asc, let T := Z.of_nat (nc * tpc) in sched_args (Zlen rows) T cost w -> world_tasks (graph_of A base dp) T true agg cost w = Some (thb, tb, o2t, t2o) -> has_tasks S T thb tb ->
  exists fin, updates add sub mul k asc rows' idiag b (dirZ fwd 0 (Zlen rows)) y = Some fin /\
    wait_computes (rexec add sub mul k A' base' (values_of rows') idiag b) None (rops asc A') fwd S (get t2o) nc tpc y fin.
Proof.
  intros HM nc tpc agg cost X base' n' rows' A' Hc Ht HR Hok Hsub Hn add sub mul k idiag b y Hy Hb Hd w thb tb S o2t t2o fwd asc T HA HW HS.
  destruct (sched_sweep_barrier hasv base n rows lrows A dp HM T agg cost base' n' rows' A' HR Hok Hsub Hn add sub mul k idiag b y Hy Hb Hd w thb tb S o2t t2o fwd asc HA HW HS) as (fin & F1 & F2).
  exists fin. split; auto. apply wait_ok; auto.
Qed.
Theorem sched_ref_wait {V} hasv base n (rows lrows : rows_t V) A dp : sched_matrix hasv base n rows lrows A dp ->
  forall nc tpc agg cost X base' n' (rows' : rows_t X) A', (1 <= nc)%nat -> (1 <= tpc)%nat -> rep true base' n' rows' A' -> rows_ok n' rows' -> sub_pattern rows' rows -> Zlen rows <= n' ->
  forall add sub mul k idiag b y, n' <= Zlen y -> Zlen rows <= Zlen b -> (needs_idiag k = true -> Zlen rows <= Zlen idiag) ->
  forall w thb tb S o2t t2o fwd, let T := Z.of_nat (nc * tpc) in sched_args (Zlen rows) T cost w -> world_tasks (graph_of A base dp) T true agg cost w = Some (thb, tb, o2t, t2o) -> has_tasks S T thb tb ->
  exists fin, ref_sweep add sub mul k fwd A' base' (values_of rows') idiag b y = Some fin /\
    wait_computes (rexec add sub mul k A' base' (values_of rows') idiag b) None (rops true A') fwd S (get t2o) nc tpc y fin.
Proof.
  intros HM nc tpc agg cost X base' n' rows' A' Hc Ht HR Hok Hsub Hn add sub mul k idiag b y Hy Hb Hd w thb tb S o2t t2o fwd T HA HW HS.
  destruct (sched_ref_barrier hasv base n rows lrows A dp HM T agg cost base' n' rows' A' HR Hok Hsub Hn add sub mul k idiag b y Hy Hb Hd w thb tb S o2t t2o fwd HA HW HS) as (fin & F1 & F2).
  exists fin. split; auto. apply wait_ok; auto.
Qed.
(** The reordered matrix, rows in the order of the schedule (C51). *)
Theorem reordered_wait {V} base n (rows lrows : rows_t V) A dp : sched_matrix true base n rows lrows A dp -> rows_ok n rows ->
  Zlen rows <= n -> 0 <= base -> (forall d, idiag A = Some d -> Zlen d = Zlen rows) ->
  forall nd sort nc tpc agg cost w thb tb S o2t t2o T' sch j, let T := Z.of_nat (nc * tpc) in (1 <= nc)%nat -> (1 <= tpc)%nat ->
  sched_args (Zlen rows) T cost w -> world_tasks (graph_of A base dp) T true agg cost w = Some (thb, tb, o2t, t2o) -> has_tasks S T thb tb ->
  1 <= T' -> junk_ok A T' j -> exists A' vs', permute nd sort A o2t (Some t2o) T' sch j = Some A' /\ values A' = Some vs' /\
  forall add sub mul k fwd asc idiag b y idiag' b' y', (sort = true -> forall s a b, sub (sub s a) b = sub (sub s b) a) ->
  n <= Zlen y -> Zlen rows <= Zlen b -> (needs_idiag k = true -> Zlen rows <= Zlen idiag) ->
  moved (Zlen rows) t2o b b' -> moved (Zlen rows) t2o idiag idiag' -> moved (Zlen rows) t2o y y' ->
  exists fin fin', updates add sub mul k asc rows idiag b (dirZ fwd 0 (Zlen rows)) y = Some fin /\ moved (Zlen rows) t2o fin fin' /\
    wait_computes (rexec add sub mul k A' base vs' idiag' b') None (rops asc A') fwd S (fun i => Some i) nc tpc y' fin'.
Proof.
  intros HM Hok Hn Hb0 Hid nd sort nc tpc agg cost w thb tb S o2t t2o T' sch j T Hc Ht HA HW HS HT' HJ.
  destruct (reordered_barrier base n rows lrows A dp HM Hok Hn Hb0 Hid nd sort T agg cost w thb tb S o2t t2o T' sch j HA HW HS HT' HJ) as (A' & vs' & E1 & E2 & H).
  exists A', vs'. split; auto. split; auto. intros add sub mul k fwd asc idg b y idg' b' y' Hs Hy Hb Hd M1 M2 M3.
  destruct (H add sub mul k fwd asc idg b y idg' b' y' Hs Hy Hb Hd M1 M2 M3) as (fin & fin' & F1 & F2 & F3). exists fin, fin'. split; auto. split; auto. apply wait_ok; auto.
Qed.

(** ** Cases *)
(** Three levels of two rows, two threads in one core. *)
Definition wt_tasks := world_tasks (graph_of (tri_A 1) 1 (tri_dp 1)) 2 true false (fun _ => 1) tri_world.
Definition wt_sched : schedule := match wt_tasks with Some (thb, tb, _, _) => mkSched (match get thb 2 with Some x => x | None => 0 end) tb thb [] [] [] [] | None => mkSched 0 [] [] [] [] [] [] end.
Definition wt_perm : list Z := match wt_tasks with Some (_, _, _, t2o) => t2o | None => [] end.
Definition wt_exec := rexec Z.add bsub Z.mul AddScaled (tri_A 1) 1 (values_of tri_rows) bvec bvec.
Definition wt_run (n tpc : nat) (fwd : bool) (sched : list Z) :=
  prog <- wait_prog (rops true (tri_A 1)) fwd wt_sched (get wt_perm) 2 ;;
  s <- xrun (pstep wt_exec None (rops true (tri_A 1))) n tpc prog sched (xstart prog Barrier.init ([None; None], bvec)) ;; Some (x_task s, map (xpc tpc s) [0; 1], snd (x_mem s)).
Definition wt_turns (a b : nat) : list Z := concat (repeat (repeat 1 a ++ repeat 0 b) 60).
Lemma wt_hyps : exists thb tb o2t, wt_tasks = Some (thb, tb, o2t, wt_perm) /\ has_tasks wt_sched 2 thb tb /\ (thb, tb) = ([0; 3; 6], [0; 1; 2; 3; 4; 5; 6]).
Proof. eexists _, _, _. split; [vm_compute; reflexivity|]. split; [repeat split|]; vm_compute; reflexivity. Qed.
Lemma wt_case : forall fwd, exists fin, ref_sweep Z.add bsub Z.mul AddScaled fwd (tri_A 1) 1 (values_of tri_rows) bvec bvec bvec = Some fin /\
  wt_run 1 2 fwd (wt_turns 5 1) = Some ([3; 3], [Barrier.Out; Barrier.Out], fin) /\ wt_run 2 1 fwd (wt_turns 1 3) = Some ([3; 3], [Barrier.Out; Barrier.Out], fin).
Proof. intros [|]; eexists; (split; [vm_compute; reflexivity|]; split; vm_compute; reflexivity). Qed.
(** A thread alone gets no further than its first wait. *)
Lemma wt_waits : option_map (fun '(k, pcs, _) => (k, pcs)) (wt_run 1 2 true (repeat 1 60%nat)) = Some ([0; 1], [Barrier.Out; Barrier.WCore]).
Proof. vm_compute. reflexivity. Qed.

(** A schedule made without useBarrier leaves out empty tasks: one row, two threads. *)
Definition one_rows : rows_t Z := [[(0, 2)]].
Definition one_world : world := simple_world [[0]; []] 1 (fun _ => []).
Lemma one_args : sched_args 1 2 (fun _ => 1) one_world.
Proof. constructor; [lia|lia|]. apply simple_world_ok; [lia|]. split; [reflexivity|]. split; [reflexivity|]. intros t Ht. assert (t = 0 \/ t = 1) as [-> | ->] by lia; vm_compute; discriminate. Qed.
Lemma one_sched : sched_matrix true 0 1 one_rows one_rows (csr_of 0 1 one_rows) (dp_of 0 one_rows).
Proof. apply csr_of_sched; [reflexivity|]. intros r c v [<-|[]] [H|[]]. injection H as <- <-. split; [lia|reflexivity]. Qed.
Theorem unequal_schedule : exists (rows : rows_t Z) A dp cost w S o2t t2o,
  sched_matrix true 0 (Zlen rows) rows rows A dp /\ sched_args (Zlen rows) 2 cost w /\ constructTaskGraph (graph_of A 0 dp) 2 false false true cost w = Some (S, o2t, t2o) /\
  forall O X L (exec : O -> L -> list X -> option (L * list X)) l0 ops fwd b e locs y, quiet 2 1 b e ->
  exists prog, wait_prog ops fwd S (get t2o) 2 = Some prog /\
  forall sched s, (forall t, In t sched -> 0 <= t < 2) -> xrun (pstep exec l0 ops) 2 1 prog sched (xstart prog b (locs, y)) = Some s -> ~ xfinished 1 prog s.
Proof.
  exists one_rows, (csr_of 0 1 one_rows), (dp_of 0 one_rows), (fun _ => 1), one_world. eexists _, _, _. split; [exact one_sched|]. split; [exact one_args|]. split; [vm_compute; reflexivity|].
  intros O X L exec l0 ops fwd b e locs y HQ.
  assert (E : wait_prog ops fwd (mkSched 1 [0; 1] [0; 1; 1] [0] [0] [[]] [[]]) (get [0]) 2 = Some [[map (pair 0) (rowcode ops [0])]; []]) by (destruct fwd; reflexivity).
  eexists. split; [exact E|]. intros sched s Hs R F.
  pose proof (unequal_never (pstep exec l0 ops) 2 1 [[map (pair 0) (rowcode ops [0])]; []] ltac:(lia) ltac:(lia) ltac:(reflexivity) b e (locs, y) sched s HQ Hs R F 0 1 ltac:(split; [lia|reflexivity]) ltac:(split; [lia|reflexivity])) as Q.
  discriminate Q.
Qed.
