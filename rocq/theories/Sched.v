(** * Sweeps, solves and factorisations over constructed schedules. *)
From Coq Require Import Permutation Relations.
From Verif Require Import Base Interleave Spec PermUtils Flat Csr CsrTools CsrOps SpMV P2P P2PProg Exec Kernels Ilu Levels LevelsFacts LevelsMain Tasks LevelsCsr TaskGraph TaskGraphFacts TaskGraphLists TaskGraphMain TaskGraphOrder TaskGraphCsr.

(** ** Specification *)
(** The matrices a schedule can be constructed for. *)
Record sched_matrix {V} (hasv : bool) (base n : Z) (rows lrows : rows_t V) (A : csr V) (dp : list Z) : Prop := {
  sm_rep : rep hasv base n rows A;
  sm_local : local_rows base rows A lrows;
  sm_sym : sym_pattern lrows;
  sm_diag : diag_first base rows dp;
  sm_halo : halo_last rows lrows }.
(** The arguments of the construction. *)
Record sched_args (m T : Z) (cost : Z -> Z) (w : world) : Prop := {
  sa_T : 1 <= T; sa_cost : forall i, 0 <= i < m -> 0 < cost i; sa_world : world_ok m T w }.
(** Another matrix with a part of the entries. *)
Definition sub_pattern {V W} (rows' : rows_t W) (rows : rows_t V) : Prop := Zlen rows' = Zlen rows /\ forall r c, entry rows' r c -> entry rows r c.

(** ** Proofs *)
Lemma dirZ_perm fwd a b : Permutation (dirZ fwd a b) (zrange a b).
Proof. destruct fwd; cbn [dirZ]; [reflexivity|]. apply Permutation_sym, Permutation_rev. Qed.
Lemma covers_sub {V W} fwd S rowof (rows : rows_t V) (rows' : rows_t W) order : sub_pattern rows' rows -> covers fwd S rowof rows order -> covers fwd S rowof rows' order.
Proof. intros (L & H) C i i' r r' Hi Hi' E E' D. rewrite L in *. apply C; auto. destruct D; auto. Qed.
Lemma covers_barrier_sub {V W} fwd S rowof (rows : rows_t V) (rows' : rows_t W) order : sub_pattern rows' rows -> covers_barrier fwd S rowof rows order -> covers_barrier fwd S rowof rows' order.
Proof. intros (L & H) C i i' r r' Hi Hi' E E' D. rewrite L in *. apply C; auto. destruct D; auto. Qed.
Lemma sub_refl {V} (rows : rows_t V) : sub_pattern rows rows.
Proof. split; auto. Qed.

Lemma unflat_unique {X} (l1 l2 : list (list X)) : Zlen l1 = Zlen l2 -> concat l1 = concat l2 -> (forall t, 0 <= t <= Zlen l1 -> off (nthl l1) t = off (nthl l2) t) -> l1 = l2.
Proof.
  intros L C O. apply list_ext; auto. intros i Hi. rewrite (get_nthl l1 i Hi), (get_nthl l2 i) by lia. f_equal.
  rewrite <- (slice_flat (nthl l1) (Zlen l1) i), <- (slice_flat (nthl l2) (Zlen l1) i) by lia. rewrite <- concat_flat. rewrite L at 1. rewrite <- concat_flat. now rewrite C, !O by lia.
Qed.
Lemma tasks_unique m T tk1 tk2 thb tb o2t t2o : tasks_ok m T tk1 thb tb o2t t2o -> tasks_ok m T tk2 thb tb o2t t2o -> tk1 = tk2.
Proof.
  intros [T1 A1 A2 A3 _ _] [T2 C1 C2 C3 _ _].
  assert (L : Zlen (concat tk1) = Zlen (concat tk2)). { apply (f_equal (fun l => Zlen l)) in C2. rewrite A2, !Zlen_map, !Zlen_zrange in C2. pose proof (Zlen_nonneg (concat tk1)). pose proof (Zlen_nonneg (concat tk2)). lia. }
  assert (Hm : forall (f g : Z -> Z) k t, map f (zrange 0 k) = map g (zrange 0 k) -> 0 <= t < k -> f t = g t). { intros f g k t E Ht. apply (f_equal (fun l => get l t)) in E. rewrite !get_map, !get_zrange in E by lia. cbn [option_map] in E. replace (0 + t) with t in E by lia. congruence. }
  pose proof (Zlen_nonneg tk1). apply unflat_unique; [congruence| |].
  - apply unflat_unique; auto; [congruence|]. intros t Ht. apply (Hm _ _ (Zlen (concat tk1) + 1)); [|lia]. rewrite <- A2. rewrite L. exact C2.
  - intros t Ht. apply (Hm _ _ (T + 1)); [congruence|lia].
Qed.

(** With a subtraction whose order does not matter the entries of a row may be
    visited in any order. *)
Lemma fold_left_perm {X B} (h : B -> X -> B) : (forall s a b, h (h s a) b = h (h s b) a) -> forall l1 l2 s, Permutation l1 l2 -> fold_left h l1 s = fold_left h l2 s.
Proof. intros H l1 l2 s P. revert s. induction P; intros s; cbn [fold_left]; auto. - now rewrite H. - now rewrite IHP1. Qed.
Lemma foldM_rev_comm {X Y B} (g : X -> option Y) (h : B -> X -> Y -> B) : (forall s a x b y, h (h s a x) b y = h (h s b y) a x) ->
  forall l s, foldM (fun e s => x <- g e ;; Some (h s e x)) (rev l) s = foldM (fun e s => x <- g e ;; Some (h s e x)) l s.
Proof.
  intros H. assert (F : forall l s, foldM (fun e s => x <- g e ;; Some (h s e x)) l s = (xs <- mapM (fun e => x <- g e ;; Some (e, x)) l ;; Some (fold_left (fun s ex => h s (fst ex) (snd ex)) xs s))).
  { induction l as [|e l IH]; intros s; cbn [foldM mapM fold_left]; auto. destruct (g e) as [x|]; auto. rewrite IH. destruct (mapM _ l); auto. }
  intros l s. rewrite !F. assert (R : mapM (fun e => x <- g e ;; Some (e, x)) (rev l) = (xs <- mapM (fun e => x <- g e ;; Some (e, x)) l ;; Some (rev xs))).
  { induction l as [|e l IH]; cbn [rev mapM]; auto. rewrite mapM_app, IH. cbn [mapM]. destruct (g e) as [x|]; destruct (mapM _ l) as [xs|]; auto. }
  rewrite R. destruct (mapM _ l) as [xs|]; auto. f_equal. apply fold_left_perm; [intros; apply H|]. apply Permutation_sym, Permutation_rev.
Qed.
Lemma updates_asc {V} (add sub mul : V -> V -> V) k rows idiag b order y : (forall s a b, sub (sub s a) b = sub (sub s b) a) ->
  updates add sub mul k false rows idiag b order y = updates add sub mul k true rows idiag b order y.
Proof.
  intros H. unfold updates. apply foldM_ext_in. intros r y' _. unfold update. destruct (get rows r) as [row|]; auto. destruct (get b r) as [b0|]; auto.
  rewrite (foldM_rev_comm (fun e => get y' (fst e)) (fun s e x => sub s (mul (snd e) x))); auto.
Qed.

Section S.
Context {V : Type}.
Variables (hasv : bool) (base n : Z) (rows lrows : rows_t V) (A : csr V) (dp : list Z).
Hypothesis HM : sched_matrix hasv base n rows lrows A dp.
Let m := Zlen rows.
Let G := graph_of A base dp.
Variables (T : Z) (agg : bool) (cost : Z -> Z).

Theorem sched_p2p w tr S o2t t2o fwd : sched_args m T cost w -> constructTaskGraph G T false agg tr cost w = Some (S, o2t, t2o) -> p2p_schedule rows T S (get t2o) fwd.
Proof. intros [HT HC HW] E. destruct HM as [H1 H2 H3 H4 H5]. exact (csr_p2p_schedule hasv base n rows lrows A dp H1 H2 H3 H4 H5 T agg cost w HT HC HW false tr S o2t t2o fwd (or_introl eq_refl) E). Qed.
Theorem sched_barrier w thb tb o2t t2o S fwd : sched_args m T cost w -> world_tasks G T true agg cost w = Some (thb, tb, o2t, t2o) -> has_tasks S T thb tb -> barrier_schedule rows T S (get t2o) fwd.
Proof. intros [HT HC HW] E HS. destruct HM as [H1 H2 H3 H4 H5]. exact (csr_barrier_schedule hasv base n rows lrows A dp H1 H2 H3 H4 H5 T agg cost w HT HC HW thb tb o2t t2o S fwd E HS). Qed.
Theorem sched_defined w lev tr : sched_args m T cost w -> is_depth m (lower_of lrows) lev -> T <= 2 \/ (forall l, 0 < l -> level_size m lev l < share m T) ->
  exists S o2t t2o, constructTaskGraph G T false agg tr cost w = Some (S, o2t, t2o).
Proof. intros [HT HC HW] D E. destruct HM as [H1 H2 H3 H4 H5]. exact (csr_graph_defined hasv base n rows lrows A dp H1 H2 H3 H4 H5 T agg cost w HT HC HW lev false tr (or_introl eq_refl) D E). Qed.

(** Reduced and complete wait lists. *)
Theorem sched_reduction w1 w2 S1 S2 o1 t1 o2 t2 : sched_args m T cost w1 -> sched_args m T cost w2 ->
  constructTaskGraph G T false agg true cost w1 = Some (S1, o1, t1) -> constructTaskGraph G T false agg false cost w2 = Some (S2, o2, t2) ->
  ntasks S1 = ntasks S2 /\ taskBoundaries S1 = taskBoundaries S2 /\ threadBoundaries S1 = threadBoundaries S2 /\ o1 = o2 /\ t1 = t2 /\
  forall fwd, (forall q q', waits_for fwd S1 q q' -> waits_for fwd S2 q q') /\ (forall q q', task_before fwd S1 q q' <-> task_before fwd S2 q q').
Proof.
  intros [HT HC HW] [_ _ HW'] E1 E2. destruct HM as [H1 H2 H3 H4 H5].
  destruct (csr_graph hasv base n rows lrows A dp H1 H2 H3 H4 H5 T agg cost w1 HT HC HW false true S1 o1 t1 (or_introl eq_refl) E1) as (lev1 & tk1 & thb1 & tb1 & D1 & TO1 & LI1 & GO1 & B1).
  destruct (csr_graph hasv base n rows lrows A dp H1 H2 H3 H4 H5 T agg cost w2 HT HC HW' false false S2 o2 t2 (or_introl eq_refl) E2) as (lev2 & tk2 & thb2 & tb2 & D2 & TO2 & LI2 & GO2 & B2).
  destruct HW as [X1 X2 X3 X4 X5 X6 X7 X8], HW' as [Y1 Y2 Y3 Y4 Y5 Y6 Y7 Y8].
  pose proof (csr_tasks_det hasv base n rows lrows A dp H1 H2 H3 H4 T false agg cost _ _ _ _ _ _ _ _ _ _ _ _ _ _ _ _ _ _ _ _ HT X1 X2 X3 Y1 Y2 Y3 HC X4 X5 Y4 Y5 B1 B2) as EQ. injection EQ as <- <- <- <-.
  assert (ET : tk2 = tk1) by (symmetry; eapply tasks_unique; eauto). subst tk2.
  pose proof (P hasv base n rows lrows A dp H1 H2 H3 H4) as PP. pose proof (Gm hasv base n rows A dp H1) as GM. fold m in TO1, D1, D2. fold G in PP, GM. fold m in GM. rewrite <- GM in TO1, D1, D2.
  split; [now rewrite (go_nt _ _ _ _ _ GO1), (go_nt _ _ _ _ _ GO2)|]. split; [now rewrite (go_tb _ _ _ _ _ GO1), (go_tb _ _ _ _ _ GO2)|]. split; [now rewrite (go_thb _ _ _ _ _ GO1), (go_thb _ _ _ _ _ GO2)|]. split; auto. split; auto.
  intros [|]; split; intros q q'.
  - rewrite (waits_true (upper_of lrows) T tk1 thb1 tb1 true S1 GO1), (waits_true (upper_of lrows) T tk1 thb1 tb1 false S2 GO2). intros (A1 & A2 & A3). split; auto. split; auto. apply Wb_Xb in A3. unfold Wb. now rewrite A3.
  - rewrite (before_true G _ _ lev1 T tk1 thb1 tb1 o1 t1 PP D1 HT TO1 LI1 true S1 GO1), (before_true G _ _ lev1 T tk1 thb1 tb1 o1 t1 PP D1 HT TO1 LI1 false S2 GO2). reflexivity.
  - rewrite (waits_false (upper_of lrows) T tk1 thb1 tb1 true S1 GO1), (waits_false (upper_of lrows) T tk1 thb1 tb1 false S2 GO2). intros (A1 & A2 & A3). split; auto. split; auto. apply Wb_Xb in A3. unfold Wb. now rewrite A3.
  - rewrite (before_false G _ _ lev1 T tk1 thb1 tb1 o1 t1 PP D1 HT TO1 LI1 true S1 GO1), (before_false G _ _ lev1 T tk1 thb1 tb1 o1 t1 PP D1 HT TO1 LI1 false S2 GO2). reflexivity.
Qed.

(** The outcome does not depend on the interleaving of the construction. *)
Theorem sched_det w1 w2 tr S1 S2 o1 t1 o2 t2 : sched_args m T cost w1 -> sched_args m T cost w2 ->
  constructTaskGraph G T false agg tr cost w1 = Some (S1, o1, t1) -> constructTaskGraph G T false agg tr cost w2 = Some (S2, o2, t2) ->
  ntasks S1 = ntasks S2 /\ taskBoundaries S1 = taskBoundaries S2 /\ threadBoundaries S1 = threadBoundaries S2 /\ o1 = o2 /\ t1 = t2 /\
  forall fwd q, 0 <= q < ntasks S1 -> exists k c1 c2, get (nparents fwd S1) q = Some k /\ get (nparents fwd S2) q = Some k /\ get (parents fwd S1) q = Some c1 /\ get (parents fwd S2) q = Some c2 /\ Permutation c1 c2 /\ Zlen c1 = k.
Proof.
  intros [HT HC HW] [_ _ HW'] E1 E2. destruct HM as [H1 H2 H3 H4 H5].
  destruct (csr_graph hasv base n rows lrows A dp H1 H2 H3 H4 H5 T agg cost w1 HT HC HW false tr S1 o1 t1 (or_introl eq_refl) E1) as (lev1 & tk1 & thb1 & tb1 & D1 & TO1 & LI1 & GO1 & B1).
  destruct (csr_graph hasv base n rows lrows A dp H1 H2 H3 H4 H5 T agg cost w2 HT HC HW' false tr S2 o2 t2 (or_introl eq_refl) E2) as (lev2 & tk2 & thb2 & tb2 & D2 & TO2 & LI2 & GO2 & B2).
  destruct HW as [X1 X2 X3 X4 X5 X6 X7 X8], HW' as [Y1 Y2 Y3 Y4 Y5 Y6 Y7 Y8].
  pose proof (csr_tasks_det hasv base n rows lrows A dp H1 H2 H3 H4 T false agg cost _ _ _ _ _ _ _ _ _ _ _ _ _ _ _ _ _ _ _ _ HT X1 X2 X3 Y1 Y2 Y3 HC X4 X5 Y4 Y5 B1 B2) as EQ. injection EQ as <- <- <- <-.
  assert (ET : tk2 = tk1) by (symmetry; eapply tasks_unique; eauto). subst tk2.
  split; [now rewrite (go_nt _ _ _ _ _ GO1), (go_nt _ _ _ _ _ GO2)|]. split; [now rewrite (go_tb _ _ _ _ _ GO1), (go_tb _ _ _ _ _ GO2)|]. split; [now rewrite (go_thb _ _ _ _ _ GO1), (go_thb _ _ _ _ _ GO2)|]. split; auto. split; auto.
  intros fwd q Hq. rewrite (go_nt _ _ _ _ _ GO1) in Hq. destruct fwd; cbn [nparents parents].
  - destruct (go_fwd _ _ _ _ _ GO1 q Hq) as (c1 & F1 & F2 & F3 & F4), (go_fwd _ _ _ _ _ GO2 q Hq) as (c2 & K1 & K2 & K3 & K4).
    assert (PM : Permutation c1 c2) by (apply NoDup_Permutation; auto; intros x; rewrite F4, K4; tauto). exists (Zlen c1), c1, c2. rewrite (Zlen_perm _ _ PM) at 2. auto 7.
  - destruct (go_bwd _ _ _ _ _ GO1 q Hq) as (c1 & F1 & F2 & F3 & F4), (go_bwd _ _ _ _ _ GO2 q Hq) as (c2 & K1 & K2 & K3 & K4).
    assert (PM : Permutation c1 c2) by (apply NoDup_Permutation; auto; intros x; rewrite F4, K4; tauto). exists (Zlen c1), c1, c2. rewrite (Zlen_perm _ _ PM) at 2. auto 7.
Qed.

(** Any kernel that stores only its own row's data and reads only that of adjacent rows. *)
Theorem sched_kernel_p2p {X L O} (exec : O -> L -> list X -> option (L * list X)) l0 ops own y fin w tr S o2t t2o fwd :
  sched_args m T cost w -> constructTaskGraph G T false agg tr cost w = Some (S, o2t, t2o) ->
  (forall r o l s l' s', 0 <= r < m -> In o (ops r) -> exec o l s = Some (l', s') -> Zlen s' = Zlen s /\ forall p, own p <> r -> get s' p = get s p) ->
  (forall r o l s1 s2 l' s1', 0 <= r < m -> In o (ops r) -> Zlen s1 = Zlen s2 ->
     (forall p, own p = r \/ entry rows r (own p) \/ ~ (0 <= own p < m) -> get s1 p = get s2 p) -> exec o l s1 = Some (l', s1') ->
     exists s2', exec o l s2 = Some (l', s2') /\ forall p, own p = r -> get s2' p = get s1' p) ->
  foldM (row_run exec l0 ops) (dirZ fwd 0 m) y = Some fin ->
  p2p_computes exec l0 ops fwd S (get t2o) T y fin.
Proof.
  intros HA E K1 K2 K3. destruct (sched_p2p w tr S o2t t2o fwd HA E) as [A1 A2 A3 A4].
  apply (general_p2p exec l0 ops fwd T V rows S (get t2o) (dirZ fwd 0 m) own y fin A1 (dirZ_perm _ _ _)); auto.
Qed.

Section Kernel.
(** The matrix of the kernel: the same or, in a triangular solve, a part of it. *)
Context {W : Type}.
Variables (base' n' : Z) (rows' : rows_t W) (A' : csr W).
Hypothesis HR' : rep true base' n' rows' A'.
Hypothesis Hok : rows_ok n' rows'.
Hypothesis Hsub : sub_pattern rows' rows.
Hypothesis Hn : m <= n'.
Variables (add sub mul : W -> W -> W) (k : ending) (idiag b y : list W).
Hypothesis Hy : n' <= Zlen y.
Hypothesis Hb : m <= Zlen b.
Hypothesis Hd : needs_idiag k = true -> m <= Zlen idiag.

Theorem sched_sweep_p2p w tr S o2t t2o fwd asc : sched_args m T cost w -> constructTaskGraph G T false agg tr cost w = Some (S, o2t, t2o) ->
  exists fin, updates add sub mul k asc rows' idiag b (dirZ fwd 0 m) y = Some fin /\
    p2p_computes (rexec add sub mul k A' base' (values_of rows') idiag b) None (rops asc A') fwd S (get t2o) T y fin.
Proof.
  intros HA E. destruct (sched_p2p w tr S o2t t2o fwd HA E) as [A1 A2 A3 A4]. pose proof (proj1 Hsub) as HL. fold m in A1, A4, HL.
  apply (sweep_p2p add sub mul k asc fwd T base' n' rows' A' idiag b y S (get t2o) (dirZ fwd 0 m)); rewrite ?HL; auto using dirZ_perm.
  eapply covers_sub; eauto.
Qed.
Theorem sched_sweep_barrier w thb tb S o2t t2o fwd asc : sched_args m T cost w -> world_tasks G T true agg cost w = Some (thb, tb, o2t, t2o) -> has_tasks S T thb tb ->
  exists fin, updates add sub mul k asc rows' idiag b (dirZ fwd 0 m) y = Some fin /\
    barrier_computes (rexec add sub mul k A' base' (values_of rows') idiag b) None (rops asc A') fwd S (get t2o) T y fin.
Proof.
  intros HA E HS. destruct (sched_barrier w thb tb o2t t2o S fwd HA E HS) as [A1 A2 A3]. pose proof (proj1 Hsub) as HL. fold m in A1, A3, HL.
  apply (sweep_barrier add sub mul k asc fwd T base' n' rows' A' idiag b y S (get t2o) (dirZ fwd 0 m)); rewrite ?HL; auto using dirZ_perm.
  eapply covers_barrier_sub; eauto.
Qed.
Lemma ref_is_updates fwd : ref_sweep add sub mul k fwd A' base' (values_of rows') idiag b y = updates add sub mul k true rows' idiag b (dirZ fwd 0 m) y.
Proof. rewrite (ref_sweep_updates add sub mul k fwd base' n' rows' A' idiag b y HR' Hok). now rewrite (proj1 Hsub). Qed.
(** Ascending order within the rows: exactly the reference. *)
Theorem sched_ref_p2p w tr S o2t t2o fwd : sched_args m T cost w -> constructTaskGraph G T false agg tr cost w = Some (S, o2t, t2o) ->
  exists fin, ref_sweep add sub mul k fwd A' base' (values_of rows') idiag b y = Some fin /\
    p2p_computes (rexec add sub mul k A' base' (values_of rows') idiag b) None (rops true A') fwd S (get t2o) T y fin.
Proof. intros HA E. rewrite ref_is_updates. now apply (sched_sweep_p2p w tr S o2t t2o fwd true). Qed.
Theorem sched_ref_barrier w thb tb S o2t t2o fwd : sched_args m T cost w -> world_tasks G T true agg cost w = Some (thb, tb, o2t, t2o) -> has_tasks S T thb tb ->
  exists fin, ref_sweep add sub mul k fwd A' base' (values_of rows') idiag b y = Some fin /\
    barrier_computes (rexec add sub mul k A' base' (values_of rows') idiag b) None (rops true A') fwd S (get t2o) T y fin.
Proof. intros HA E HS. rewrite ref_is_updates. now apply (sched_sweep_barrier w thb tb S o2t t2o fwd true). Qed.
(** Descending order: the reference if the order of subtractions does not matter. *)
Theorem sched_ref_p2p_desc w tr S o2t t2o fwd : (forall s x z, sub (sub s x) z = sub (sub s z) x) -> sched_args m T cost w -> constructTaskGraph G T false agg tr cost w = Some (S, o2t, t2o) ->
  exists fin, ref_sweep add sub mul k fwd A' base' (values_of rows') idiag b y = Some fin /\
    p2p_computes (rexec add sub mul k A' base' (values_of rows') idiag b) None (rops false A') fwd S (get t2o) T y fin.
Proof. intros Hs HA E. rewrite ref_is_updates, <- updates_asc by auto. now apply (sched_sweep_p2p w tr S o2t t2o fwd false). Qed.
Theorem sched_ref_barrier_desc w thb tb S o2t t2o fwd : (forall s x z, sub (sub s x) z = sub (sub s z) x) -> sched_args m T cost w -> world_tasks G T true agg cost w = Some (thb, tb, o2t, t2o) -> has_tasks S T thb tb ->
  exists fin, ref_sweep add sub mul k fwd A' base' (values_of rows') idiag b y = Some fin /\
    barrier_computes (rexec add sub mul k A' base' (values_of rows') idiag b) None (rops false A') fwd S (get t2o) T y fin.
Proof. intros Hs HA E HS. rewrite ref_is_updates, <- updates_asc by auto. now apply (sched_sweep_barrier w thb tb S o2t t2o fwd false). Qed.
End Kernel.
End S.

Section IluS.
Context {V : Type}.
Variables (base n : Z) (rows lrows : rows_t V) (A : csr V) (dp : list Z).
Hypothesis HM : sched_matrix true base n rows lrows A dp.
Hypothesis Hok : rows_ok n rows.
Let m := Zlen rows.
Variables (sub mul div : V -> V -> V) (T : Z) (agg : bool) (cost : Z -> Z).
Lemma diagptr_of : diagptr_ok base rows dp.
Proof.
  intros r Hr. destruct (proj2 (sm_diag _ _ _ _ _ _ _ HM) r Hr) as (l1 & v & l2 & E & H & Gd). exists (Zlen l1), v. split; [rewrite E, get_app_r, Z.sub_diag by lia; reflexivity|]. split; auto.
  intros q c x Hq Gq. rewrite E, get_app_l in Gq by lia. apply get_In in Gq. pose proof (H c x Gq) as Hc. assert (I : In (c, x) (nthl rows r)) by (rewrite E; apply in_or_app; auto). pose proof (Hok _ _ _ (nth_row_In rows r Hr) I). lia.
Qed.
Theorem sched_ilu w tr S o2t t2o sch lu : sched_args m T cost w -> constructTaskGraph (graph_of A base dp) T false agg tr cost w = Some (S, o2t, t2o) -> Zlen lu = off (nthl rows) m ->
  exists fin, foldM (ilu_row sub mul div A base dp) (zrange 0 m) (values_of rows) = Some fin /\ ilu_copy A sch lu = Some (values_of rows) /\
    (base = 0 -> forall lu', Zlen lu' = off (nthl rows) m -> ilu0_ref sub mul div A dp lu' = Some fin) /\
    p2p_computes (lexec sub mul div) None (ilu_ops A base dp) true S (get t2o) T (values_of rows) fin.
Proof.
  intros HA E HL. destruct (sched_p2p true base n rows lrows A dp HM T agg cost w tr S o2t t2o true HA E) as [A1 A2 A3 A4]. fold m in A1, A4. cbn [dirZ] in A4.
  destruct (ilu_p2p sub mul div base n rows A dp (sm_rep _ _ _ _ _ _ _ HM) diagptr_of T S (get t2o) (zrange 0 m) sch lu HL A1 A2 A3 (Permutation_refl _) A4) as (fin & F1 & F2 & F3).
  exists fin. split; auto. split; auto. split; auto. intros E0 lu' HL'. rewrite (ilu_ref_ok sub mul div base n rows A dp (sm_rep _ _ _ _ _ _ _ HM) lu' E0 HL'). exact F1.
Qed.
End IluS.

(** Gauss-Seidel with the scheduled matrix itself. *)
Section Gs.
Context {V : Type}.
Variables (base n : Z) (rows lrows : rows_t V) (A : csr V) (dp : list Z).
Hypothesis HM : sched_matrix true base n rows lrows A dp.
Hypothesis Hok : rows_ok n rows.
Let m := Zlen rows.
Hypothesis Hn : m <= n.
Variables (T : Z) (agg : bool) (cost : Z -> Z) (add sub mul : V -> V -> V) (idiag b y : list V).
Theorem gs_p2p w tr S o2t t2o fwd : n <= Zlen y -> m <= Zlen b -> m <= Zlen idiag -> sched_args m T cost w -> constructTaskGraph (graph_of A base dp) T false agg tr cost w = Some (S, o2t, t2o) ->
  exists fin, ref_sweep add sub mul AddScaled fwd A base (values_of rows) idiag b y = Some fin /\
    p2p_computes (rexec add sub mul AddScaled A base (values_of rows) idiag b) None (rops true A) fwd S (get t2o) T y fin.
Proof. intros Hy Hb Hd. apply (sched_ref_p2p true base n rows lrows A dp HM T agg cost base n rows A (sm_rep _ _ _ _ _ _ _ HM) Hok (sub_refl _) Hn); auto. Qed.
Theorem gs_barrier w thb tb S o2t t2o fwd : n <= Zlen y -> m <= Zlen b -> m <= Zlen idiag -> sched_args m T cost w -> world_tasks (graph_of A base dp) T true agg cost w = Some (thb, tb, o2t, t2o) -> has_tasks S T thb tb ->
  exists fin, ref_sweep add sub mul AddScaled fwd A base (values_of rows) idiag b y = Some fin /\
    barrier_computes (rexec add sub mul AddScaled A base (values_of rows) idiag b) None (rops true A) fwd S (get t2o) T y fin.
Proof. intros Hy Hb Hd. apply (sched_ref_barrier true base n rows lrows A dp HM T agg cost base n rows A (sm_rep _ _ _ _ _ _ _ HM) Hok (sub_refl _) Hn); auto. Qed.
Theorem gs_backward w tr S o2t t2o : n <= Zlen y -> m <= Zlen b -> m <= Zlen idiag -> sched_args m T cost w -> constructTaskGraph (graph_of A base dp) T false agg tr cost w = Some (S, o2t, t2o) ->
  exists fin, updates add sub mul AddScaled false rows idiag b (rev (zrange 0 m)) y = Some fin /\
    p2p_computes (rexec add sub mul AddScaled A base (values_of rows) idiag b) None (rops false A) false S (get t2o) T y fin.
Proof. intros Hy Hb Hd HA E. apply (sched_sweep_p2p true base n rows lrows A dp HM T agg cost base n rows A (sm_rep _ _ _ _ _ _ _ HM) Hok (sub_refl _) Hn add sub mul AddScaled idiag b y Hy Hb (fun _ => Hd) w tr S o2t t2o false false HA E). Qed.
Theorem gs_backward_exact w tr S o2t t2o : (forall s x z, sub (sub s x) z = sub (sub s z) x) -> n <= Zlen y -> m <= Zlen b -> m <= Zlen idiag -> sched_args m T cost w -> constructTaskGraph (graph_of A base dp) T false agg tr cost w = Some (S, o2t, t2o) ->
  exists fin, ref_sweep add sub mul AddScaled false A base (values_of rows) idiag b y = Some fin /\
    p2p_computes (rexec add sub mul AddScaled A base (values_of rows) idiag b) None (rops false A) false S (get t2o) T y fin.
Proof. intros Hs Hy Hb Hd HA E. apply (sched_ref_p2p_desc true base n rows lrows A dp HM T agg cost base n rows A (sm_rep _ _ _ _ _ _ _ HM) Hok (sub_refl _) Hn add sub mul AddScaled idiag b y Hy Hb (fun _ => Hd) w tr S o2t t2o false Hs HA E). Qed.
End Gs.
