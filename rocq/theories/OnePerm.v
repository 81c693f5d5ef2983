(** * One permutation for all schedules of a matrix.

    test/gs_test.cpp:570-793 and test/trsv_test.cpp:459-720 build three schedules of
    one matrix: for barriers, for point-to-point waits, and for the reduced waits.
    They take perm and invPerm from the third and use them with all of them.  Here:
    the permutations are the same, so that every sweep of the programs over every
    one of the schedules gives the same vector, with the matrix as it is and with
    the permuted matrix. *)
From Coq Require Import Permutation.
From Verif Require Import Base Interleave Spec PermUtils Flat Csr CsrTools CsrOps RowPar P2P P2PProg Exec Kernels Levels LevelsFacts LevelsMain Tasks LevelsCsr TaskGraph TaskGraphFacts TaskGraphLists TaskGraphMain TaskGraphOrder TaskGraphCsr Permute PermuteFacts PermuteMain Sched SchedPerm Pcg SgsExact SchedCases.

(** ** Specification *)
(** The sweep over the three schedules of the test programs. *)
Definition all_compute {V L O} (ex : O -> L -> list V -> option (L * list V)) (l0 : L) (ops : Z -> list O) (fwd : bool) (SB S1 S2 : schedule) (rowof : Z -> option Z) (T : Z) (y fin : list V) : Prop :=
  barrier_computes ex l0 ops fwd SB rowof T y fin /\ p2p_computes ex l0 ops fwd S1 rowof T y fin /\ p2p_computes ex l0 ops fwd S2 rowof T y fin.

(** ** Proofs *)
Lemma tasks_any_bar m T nl lev bar1 bar2 agg cost : concat (concat (the_tasks m T nl lev bar1 agg cost)) = concat (concat (the_tasks m T nl lev bar2 agg cost)).
Proof.
  unfold the_tasks. induction (zrange 0 T) as [|t l IH]; auto. cbn [map concat]. rewrite !concat_app, IH. f_equal. now rewrite !tasks_concat.
Qed.

Section One.
Context {V : Type}.
Variables (hasv : bool) (base n : Z) (rows lrows : rows_t V) (A : csr V) (dp : list Z).
Hypothesis HM : sched_matrix hasv base n rows lrows A dp.
Let m := Zlen rows.
Let G := graph_of A base dp.
Variables (T : Z) (agg : bool) (cost : Z -> Z).

Lemma one_perm_tasks bar1 bar2 w1 w2 thb1 tb1 o1 t1 thb2 tb2 o2 t2 : sched_args m T cost w1 -> sched_args m T cost w2 ->
  world_tasks G T bar1 agg cost w1 = Some (thb1, tb1, o1, t1) -> world_tasks G T bar2 agg cost w2 = Some (thb2, tb2, o2, t2) -> o1 = o2 /\ t1 = t2.
Proof.
  intros [HT HC [C1 Ln1 Lr1 Lo1 Lt1 _ _ _]] [_ _ [C2 Ln2 Lr2 Lo2 Lt2 _ _ _]] E1 E2. destruct HM as [H1 H2 H3 H4 H5].
  destruct (csr_depth hasv base n rows lrows A dp H1 H2 H3 H4) as (lev & Hd). pose proof (csr_pattern _ _ _ _ _ _ _ H1 H2 H3 H4) as P. fold G in P.
  assert (Gm : g_m G = m) by apply H1.
  destruct (buildTasks_ok G _ _ lev T P ltac:(now rewrite Gm) HT (w_chunks w1) (w_s0 w1) (w_s1 w1) (w_np w1) (w_rv w1) ltac:(now rewrite Gm) ltac:(now rewrite Gm) ltac:(now rewrite Gm) bar1 agg cost (w_s2 w1) (w_tb w1) (w_o2t w1) (w_t2o w1)) as (Q1 & _); rewrite ?Gm; auto.
  destruct (buildTasks_ok G _ _ lev T P ltac:(now rewrite Gm) HT (w_chunks w2) (w_s0 w2) (w_s1 w2) (w_np w2) (w_rv w2) ltac:(now rewrite Gm) ltac:(now rewrite Gm) ltac:(now rewrite Gm) bar2 agg cost (w_s2 w2) (w_tb w2) (w_o2t w2) (w_t2o w2)) as (Q2 & _); rewrite ?Gm; auto.
  specialize (Q1 _ _ _ _ E1). specialize (Q2 _ _ _ _ E2). rewrite Gm in Q1, Q2.
  destruct Q1 as [_ _ _ A3 A4 (A5 & A6)], Q2 as [_ _ _ B3 B4 (B5 & B6)].
  assert (Et : t1 = t2). { rewrite A3, B3. unfold tasks_of. apply tasks_any_bar. }
  split; auto. apply list_ext; [lia|]. intros i Hi. assert (In i t1) as Hd1. { eapply Permutation_in; [symmetry; exact A4|]. apply In_zrange. lia. }
  apply In_get in Hd1 as (p & _ & Gp). rewrite (A6 p i Gp). symmetry. apply B6. congruence.
Qed.
Lemma graph_tasks bar tr w S o2t t2o : constructTaskGraph G T bar agg tr cost w = Some (S, o2t, t2o) -> exists thb tb, world_tasks G T bar agg cost w = Some (thb, tb, o2t, t2o).
Proof.
  unfold constructTaskGraph. destruct (world_tasks G T bar agg cost w) as [(((thb & tb) & o) & t)|]; [|discriminate].
  intros E. repeat match type of E with (match ?o with _ => _ end) = _ => destruct o; [|discriminate E] end. injection E as _ <- <-. eauto.
Qed.
Theorem one_perm bar1 bar2 tr1 tr2 w1 w2 S1 o1 t1 S2 o2 t2 : sched_args m T cost w1 -> sched_args m T cost w2 ->
  constructTaskGraph G T bar1 agg tr1 cost w1 = Some (S1, o1, t1) -> constructTaskGraph G T bar2 agg tr2 cost w2 = Some (S2, o2, t2) -> o1 = o2 /\ t1 = t2.
Proof.
  intros HA1 HA2 E1 E2. destruct (graph_tasks _ _ _ _ _ _ E1) as (a1 & b1 & F1). destruct (graph_tasks _ _ _ _ _ _ E2) as (a2 & b2 & F2). exact (one_perm_tasks _ _ _ _ _ _ _ _ _ _ _ _ HA1 HA2 F1 F2).
Qed.
(** The schedule for barriers as the executors need it. *)
Lemma barrier_tasks w S o2t t2o : sched_args m T cost w -> constructTaskGraph G T true agg false cost w = Some (S, o2t, t2o) ->
  exists thb tb, world_tasks G T true agg cost w = Some (thb, tb, o2t, t2o) /\ has_tasks S T thb tb.
Proof.
  intros [HT HC HW] E. destruct HM as [H1 H2 H3 H4 H5].
  destruct (csr_graph hasv base n rows lrows A dp H1 H2 H3 H4 H5 T agg cost w HT HC HW true false S o2t t2o (or_intror eq_refl) E) as (lev & tasks & thb & tb & D & TO & LI & GO & WT).
  exists thb, tb. split; auto. pose proof GO as GO'. assert (Gm : g_m G = m) by apply H1. fold m in TO. rewrite <- Gm in TO.
  pose proof (thb_get G T tasks thb tb o2t t2o TO T ltac:(lia)) as GT. assert (EnT : off (nthl tasks) T = nt tasks). { unfold nt, ts. apply (Zlen_concat_off tasks T (to_T _ _ _ _ _ _ _ TO)). }
  rewrite EnT in GT. destruct GO. split; [|split]; auto. congruence.
Qed.

Variables (w1 w2 w3 : world) (SB S1 S2 : schedule) (ob tb o1 t1 o2t t2o : list Z).
Hypothesis HA1 : sched_args m T cost w1.
Hypothesis HA2 : sched_args m T cost w2.
Hypothesis HA3 : sched_args m T cost w3.
Hypothesis E1 : constructTaskGraph G T true agg false cost w1 = Some (SB, ob, tb).
Hypothesis E2 : constructTaskGraph G T false agg false cost w2 = Some (S1, o1, t1).
Hypothesis E3 : constructTaskGraph G T false agg true cost w3 = Some (S2, o2t, t2o).

Section Kernel.
Context {X : Type}.
Variables (base' n' : Z) (krows : rows_t X) (B : csr X).
Hypothesis HR' : rep true base' n' krows B.
Hypothesis Hok : rows_ok n' krows.
Hypothesis Hsub : sub_pattern krows rows.
Hypothesis Hn : m <= n'.
Variables (add sub mul : X -> X -> X) (k : ending) (idg b y : list X).
Hypothesis Hy : n' <= Zlen y.
Hypothesis Hb : m <= Zlen b.
Hypothesis Hd : needs_idiag k = true -> m <= Zlen idg.
(** The executors that look up the rows in invPerm. *)
Theorem all_sweeps fwd asc : exists fin, updates add sub mul k asc krows idg b (dirZ fwd 0 m) y = Some fin /\
  (asc = true \/ (forall s a b, sub (sub s a) b = sub (sub s b) a) -> ref_sweep add sub mul k fwd B base' (values_of krows) idg b y = Some fin) /\
  all_compute (rexec add sub mul k B base' (values_of krows) idg b) None (rops asc B) fwd SB S1 S2 (get t2o) T y fin.
Proof.
  destruct (one_perm _ _ _ _ _ _ _ _ _ _ _ _ HA1 HA3 E1 E3) as (-> & ->). destruct (one_perm _ _ _ _ _ _ _ _ _ _ _ _ HA2 HA3 E2 E3) as (-> & ->).
  destruct (barrier_tasks _ _ _ _ HA1 E1) as (thb & tb' & WT & HT).
  destruct (sched_sweep_barrier hasv base n rows lrows A dp HM T agg cost base' n' krows B HR' Hok Hsub Hn add sub mul k idg b y Hy Hb Hd w1 thb tb' SB _ _ fwd asc HA1 WT HT) as (f1 & U1 & C1).
  destruct (sched_sweep_p2p hasv base n rows lrows A dp HM T agg cost base' n' krows B HR' Hok Hsub Hn add sub mul k idg b y Hy Hb Hd w2 false S1 _ _ fwd asc HA2 E2) as (f2 & U2 & C2).
  destruct (sched_sweep_p2p hasv base n rows lrows A dp HM T agg cost base' n' krows B HR' Hok Hsub Hn add sub mul k idg b y Hy Hb Hd w3 true S2 _ _ fwd asc HA3 E3) as (f3 & U3 & C3).
  fold m in U1, U2, U3. assert (f2 = f1) by congruence. assert (f3 = f1) by congruence. subst f2 f3. exists f1. split; auto. split; [|split; auto].
  intros Ha. rewrite (ref_is_updates rows base' n' krows B HR' Hok Hsub add sub mul k idg b y fwd). fold m. destruct asc; auto. destruct Ha as [Ha|Ha]; [discriminate|]. rewrite <- updates_asc by auto. exact U1.
Qed.
(** The executors for the permuted matrix. *)
Variables (krows' : rows_t X) (B' : csr X) (idg' b' y' : list X).
Hypothesis HRp : rep true base' n' krows' B'.
Hypothesis MR : moved_rows sub o2t t2o krows krows'.
Hypothesis Mb : moved m t2o b b'.
Hypothesis Md : moved m t2o idg idg'.
Hypothesis My : moved m t2o y y'.
Theorem all_moved fwd asc : exists fin fin', updates add sub mul k asc krows idg b (dirZ fwd 0 m) y = Some fin /\ moved m t2o fin fin' /\
  all_compute (rexec add sub mul k B' base' (values_of krows') idg' b') None (rops asc B') fwd SB S1 S2 (fun i => Some i) T y' fin'.
Proof.
  destruct (one_perm _ _ _ _ _ _ _ _ _ _ _ _ HA1 HA3 E1 E3) as (-> & ->). destruct (one_perm _ _ _ _ _ _ _ _ _ _ _ _ HA2 HA3 E2 E3) as (-> & ->).
  destruct (barrier_tasks _ _ _ _ HA1 E1) as (thb & tb' & WT & HT).
  destruct (moved_sweep_barrier hasv base n rows lrows A dp HM T agg cost w1 HA1 base' n' krows krows' B' HRp Hok Hsub Hn add sub mul k idg b y idg' b' y' Hy Hb Hd thb tb' SB _ _ fwd asc WT HT MR Mb Md My) as (f1 & g1 & U1 & M1 & C1).
  destruct (moved_sweep_p2p hasv base n rows lrows A dp HM T agg cost w2 HA2 base' n' krows krows' B' HRp Hok Hsub Hn add sub mul k idg b y idg' b' y' Hy Hb Hd false S1 _ _ fwd asc E2 MR Mb Md My) as (f2 & g2 & U2 & M2 & C2).
  destruct (moved_sweep_p2p hasv base n rows lrows A dp HM T agg cost w3 HA3 base' n' krows krows' B' HRp Hok Hsub Hn add sub mul k idg b y idg' b' y' Hy Hb Hd true S2 _ _ fwd asc E3 MR Mb Md My) as (f3 & g3 & U3 & M3 & C3).
  fold m in U1, U2, U3, M1, M2, M3. assert (f2 = f1) by congruence. assert (f3 = f1) by congruence. subst f2 f3.
  destruct (sched_perms hasv base n rows lrows A dp HM T agg cost w3 HA3 true S2 o2t t2o E3) as (P1 & P2 & P3). fold m in P1, P2.
  assert (MF : forall g g', moved m t2o f1 g -> moved m t2o f1 g' -> g = g').
  { intros g g' (La & Ha & Ta) (Lb & Hb' & Tb). apply list_ext; [lia|]. intros i Hi. destruct (Z_lt_ge_dec i m) as [H|H]; [|rewrite Ta, Tb by lia; auto].
    destruct (get_in_range t2o i) as (r & Er); [rewrite (Zlen_perm _ _ P1), Zlen_zrange; lia|]. rewrite (Ha _ _ Er), (Hb' _ _ Er). reflexivity. }
  rewrite (MF _ _ M2 M1) in C2. rewrite (MF _ _ M3 M1) in C3. exists f1, g1. split; auto. split; auto. split; auto.
Qed.
End Kernel.
End One.
