(** * Level schedules of CSR matrices: construction and what it guarantees. *)
From Coq Require Import Permutation Relations.
From Verif Require Import Base Interleave Spec Search Partition PrefixSum Flat Csr CsrTools Transpose RowPar PermUtils CsrOps Exec Kernels Ilu Levels LevelsFacts LevelsMain Tasks LevelsCsr TaskGraph TaskGraphFacts TaskGraphLists TaskGraphMain TaskGraphOrder.

(** ** Model *)
(** What the outcome of the construction must not depend on: the distribution of
    rows to threads, the interleavings of the parallel phases, and the previous
    contents of the memory that is allocated. *)
Record world := mkWorld { w_chunks : list (list Z); w_s0 : list nat; w_s1 : nat -> nat -> list nat; w_s2 : list nat; w_s3 : nat -> list nat;
  w_np : list Z; w_rv : list Z; w_o2t : list Z; w_t2o : list Z; w_ids : list Z; w_tb : Z -> Z; w_adj : Z -> list (list Z); w_ch : Z -> list (list Z) }.
Record world_ok (m T : Z) (w : world) : Prop := {
  wo_chunks : static_chunks m T (w_chunks w);
  wo_np : Zlen (w_np w) = m; wo_rv : Zlen (w_rv w) = m; wo_o2t : Zlen (w_o2t w) = m; wo_t2o : Zlen (w_t2o w) = m; wo_ids : Zlen (w_ids w) = m;
  wo_adj : forall n, 0 <= n -> Zlen (w_adj w n) = n; wo_ch : forall n, 0 <= n -> Zlen (w_ch w n) = n }.
(** :498-798 *)
Definition world_tasks (G : gr) (T : Z) (bar agg : bool) (cost : Z -> Z) (w : world) :=
  buildTasks G T bar agg cost (w_chunks w) (w_s0 w) (w_s1 w) (w_s2 w) (w_np w) (w_rv w) (w_tb w) (w_o2t w) (w_t2o w).
(** LevelSchedule.cpp:800-1777 without fuseSpMV: the schedule,
    origToThreadContPerm and threadContToOrigPerm. *)
Definition constructTaskGraph (G : gr) (T : Z) (bar agg tr : bool) (cost : Z -> Z) (w : world) : option (schedule * list Z * list Z) :=
  r <- world_tasks G T bar agg cost w ;;
  let '(thb, tb, o2t, t2o) := r in
  e <- get (g_row G) (g_m G) ;; nt <- get thb T ;;
  S <- taskGraph G T (e - g_base G) tr (w_s3 w) thb tb t2o (w_ids w) (w_adj w nt) (w_ch w nt) ;;
  Some (S, o2t, t2o).

(** ** Specification *)
(** The columns from [m] on (halo) are exactly those behind [extptr]. *)
Definition halo_last {V} (rows lrows : rows_t V) : Prop :=
  forall i, 0 <= i < Zlen rows -> exists h, nthl rows i = nthl lrows i ++ h /\
    (forall c v, In (c, v) (nthl lrows i) -> c < Zlen rows) /\ (forall c v, In (c, v) h -> Zlen rows <= c).
(** What a point-to-point schedule of the sweep over all rows in the direction [fwd] must satisfy. *)
Record p2p_schedule {V} (rows : rows_t V) (T : Z) (S : schedule) (rowof : Z -> option Z) (fwd : bool) : Prop := {
  ps_sched : sched_ok T (Zlen rows) S rowof;
  ps_waits : waits_ok fwd S;
  ps_ranked : waits_ranked fwd S;
  ps_covers : covers fwd S rowof rows (dirZ fwd 0 (Zlen rows)) }.
Record barrier_schedule {V} (rows : rows_t V) (T : Z) (S : schedule) (rowof : Z -> option Z) (fwd : bool) : Prop := {
  bs_sched : sched_ok T (Zlen rows) S rowof;
  bs_counts : same_task_counts S;
  bs_covers : covers_barrier fwd S rowof rows (dirZ fwd 0 (Zlen rows)) }.
(** [S] has the tasks of the given boundaries; its wait lists are arbitrary. *)
Definition has_tasks (S : schedule) (T : Z) (thb tb : list Z) : Prop :=
  get thb T = Some (ntasks S) /\ threadBoundaries S = thb /\ taskBoundaries S = tb.

(** ** Proofs *)
Lemma halo_entry {V} (rows lrows : rows_t V) i c : halo_last rows lrows -> 0 <= i < Zlen rows -> (entry lrows i c -> c < Zlen rows) /\ (entry rows i c -> c < Zlen rows -> entry lrows i c).
Proof.
  intros H Hi. destruct (H i Hi) as (h & E & H1 & H2). split; [intros (v & Hv); eauto|]. intros (v & Hv) Hc. rewrite E in Hv. apply in_app_or in Hv as [Hv|Hv]; [now exists v|]. apply H2 in Hv. lia.
Qed.
Lemma precedes_dirZ fwd a b r r' : precedes (dirZ fwd a b) r r' -> if fwd then r < r' else r' < r.
Proof.
  intros (l1 & l2 & l3 & E). assert (H : forall a b r r' l1 l2 l3, zrange a b = l1 ++ r :: l2 ++ r' :: l3 -> r < r').
  { clear. intros a b r r' l1 l2 l3 E. assert (G1 : get (zrange a b) (Zlen l1) = Some r) by (rewrite E, get_app_r, Z.sub_diag by lia; reflexivity).
    assert (G2 : get (zrange a b) (Zlen l1 + 1 + Zlen l2) = Some r'). { pose proof (Zlen_nonneg l2). rewrite E, get_app_r by lia. rewrite get_cons_pos by lia. rewrite get_app_r by lia. replace (Zlen l1 + 1 + Zlen l2 - Zlen l1 - 1 - Zlen l2) with 0 by lia. reflexivity. }
    pose proof (get_Some_bounds _ _ _ G1) as B1. pose proof (get_Some_bounds _ _ _ G2) as B2. rewrite Zlen_zrange in B1, B2. rewrite get_zrange in G1, G2 by lia. injection G1 as <-. injection G2 as <-. pose proof (Zlen_nonneg l2). lia. }
  destruct fwd; cbn [dirZ] in E; [eauto|]. apply (f_equal (@rev Z)) in E. rewrite rev_involutive, rev_app_distr in E. cbn [rev] in E. rewrite rev_app_distr in E. cbn [rev] in E. rewrite <- !app_assoc in E. cbn [app] in E. eauto.
Qed.

Section Barrier.
Variables (G : gr) (lo up : Z -> list Z) (lev : Z -> Z) (T : Z) (tasks : list (list (list Z))) (thb tb o2t t2o : list Z) (nl : Z).
Notation m := (g_m G).
Hypothesis P : pattern_ok G lo up.
Hypothesis D : is_depth m lo lev.
Hypothesis HT : 1 <= T.
Hypothesis TO : tasks_ok m T tasks thb tb o2t t2o.
Hypothesis BL : tasks_by_level lev nl tasks.
Variable S : schedule.
Hypothesis S1 : threadBoundaries S = thb.
Hypothesis S2 : taskBoundaries S = tb.

Lemma thb_step t : 0 <= t < T -> off (nthl tasks) (t + 1) = off (nthl tasks) t + nl.
Proof.
  intros Ht. rewrite off_S by lia. f_equal. destruct (@get_in_range _ tasks t) as (ks & E). { rewrite (to_T _ _ _ _ _ _ _ TO). lia. } rewrite (nthl_get _ _ _ E). now apply (BL _ _ E).
Qed.
Lemma barrier_counts : same_task_counts S.
Proof.
  exists nl. split.
  - destruct (@get_in_range _ tasks 0) as (ks & E). { rewrite (to_T _ _ _ _ _ _ _ TO). lia. } destruct (BL _ _ E) as (<- & _). apply Zlen_nonneg.
  - rewrite S1. intros t b e G1 G2. pose proof (get_Some_bounds _ _ _ G1). pose proof (get_Some_bounds _ _ _ G2) as B2. rewrite (proj1 (thb_bounds G T tasks thb tb o2t t2o TO)) in B2.
    rewrite (thb_get G T tasks thb tb o2t t2o TO) in G1, G2 by lia. injection G1 as <-. injection G2 as <-. apply thb_step. lia.
Qed.
Lemma row_phase i r : get t2o i = Some r -> exists q, in_task S i q /\ task_phase true S q (lev r) /\ task_phase false S q (nl - 1 - lev r).
Proof.
  intros Gi. destruct (pos_task G T tasks thb tb o2t t2o TO S i r S2 Gi) as (Hr & T1). exists (tof tasks r). split; auto.
  destruct (tof_ok G T tasks thb tb o2t t2o TO r Hr) as (A & B). destruct (own_ok G T tasks thb tb o2t t2o HT TO _ A) as (O1 & O2). destruct (nthl_ts G T tasks thb tb o2t t2o HT TO _ A) as (N1 & N2).
  assert (L : lev r = tof tasks r - off (nthl tasks) (owner thb T (tof tasks r))). { destruct (BL _ _ N1) as (_ & H). eapply H; eauto. }
  pose proof (thb_step _ O1) as St. set (t := owner thb T (tof tasks r)) in *. split; exists t, (off (nthl tasks) t), (off (nthl tasks) (t + 1)); rewrite S1; (split; [apply (thb_get G T tasks thb tb o2t t2o TO); lia|]); (split; [apply (thb_get G T tasks thb tb o2t t2o TO); lia|]); (split; [exact O2|]); lia.
Qed.
Lemma barrier_phase_before i i' r r' : get t2o i = Some r -> get t2o i' = Some r' -> In r' (up r) -> pos_phase_before true S i i' /\ pos_phase_before false S i' i.
Proof.
  intros Gi Gi' Hu. destruct (pos_task G T tasks thb tb o2t t2o TO S i r S2 Gi) as (Hr & _). pose proof (up_lev G lo up lev P D r r' Hr Hu) as L.
  destruct (row_phase i r Gi) as (q & Q1 & Q2 & Q3). destruct (row_phase i' r' Gi') as (q' & Q1' & Q2' & Q3'). split.
  - exists q, q', (lev r), (lev r'). auto 6.
  - exists q', q, (nl - 1 - lev r'), (nl - 1 - lev r). repeat split; auto. lia.
Qed.
End Barrier.

Section Csr.
Context {V : Type}.
Variables (hasv : bool) (base n : Z) (rows lrows : rows_t V) (A : csr V) (dp : list Z).
Hypothesis HR : rep hasv base n rows A.
Hypothesis HL : local_rows base rows A lrows.
Hypothesis HP : sym_pattern lrows.
Hypothesis HD : diag_first base rows dp.
Hypothesis HH : halo_last rows lrows.
Let m := Zlen rows.
Let G := graph_of A base dp.
Lemma P : pattern_ok G (lower_of lrows) (upper_of lrows).
Proof. exact (csr_pattern hasv base n rows lrows A dp HR HL HP HD). Qed.
Lemma Gm : g_m G = m.
Proof. exact (G_m hasv base n rows A dp HR). Qed.

Lemma csr_inside i cs c : 0 <= i < m -> succs G i = Some cs -> In c cs -> c < m.
Proof.
  intros Hi E Hc. destruct (local_prefix base rows lrows A HL i Hi) as (h & Eh). assert (LL : Zlen lrows = m) by apply HL.
  destruct (po_low _ _ _ P i ltac:(rewrite Gm; lia)) as (r & d & e & cs' & R1 & R2 & R3 & L & S & _). rewrite E in S. injection S as <-.
  cbn [G graph_of g_row g_dia g_ext] in R1, R2, R3. rewrite (rep_rowptr _ _ _ _ _ i HR) in R1 by (fold m; lia). injection R1 as <-.
  assert (Re : e = base + off (nthl rows) i + Zlen (nthl lrows i)).
  { destruct HL as (_ & H). destruct (extptr A) as [x|]. { destruct H as (_ & H). destruct (H i Hi) as (h' & _ & G'). congruence. }
    pose proof (rep_rowptr_S _ _ _ _ _ i HR Hi) as G'. rewrite H. destruct (rowptr A) as [|x rp]; [rewrite get_out in G' by (unfold Zlen; cbn; lia); discriminate|]. rewrite get_cons_pos in G' by lia. cbn [tl] in R3. replace (i + 1 - 1) with i in G' by lia. rewrite G' in R3. injection R3 as <-. lia. }
  unfold succs in E. cbn [G graph_of g_row g_dia g_ext g_col g_base] in E. rewrite R2, R3 in E. apply In_get in Hc as (k & Hk & Gk). pose proof (mapM_length _ _ _ E) as Lc.
  assert (Bp : 0 <= k < Z.max 0 (e - (d + 1))). { rewrite <- Zlen_zrange. unfold Zlen in *. lia. }
  pose proof (mapM_get _ _ _ k (d + 1 + k) E ltac:(rewrite get_zrange by lia; reflexivity)) as Ep. cbv beta in Ep. rewrite Gk in Ep.
  pose proof (Zlen_nonneg (lower_of lrows i)).
  set (j := d + 1 + k - base - off (nthl rows) i) in *. assert (Hj : 0 <= j < Zlen (nthl lrows i)) by lia. destruct (get_in_range _ _ Hj) as ((c' & v) & Gj).
  replace (d + 1 + k - base) with (off (nthl rows) i + j) in Ep by lia. rewrite (rep_col _ _ _ _ _ i j c' v HR Hi) in Ep. 2: { rewrite Eh, get_app_l; auto. lia. }
  injection Ep as Ep; clear R2; assert (c' = c) by lia. subst c'. apply get_In in Gj. apply (halo_entry _ _ i c HH Hi). now exists v.
Qed.
Lemma csr_nnz : get (rowptr A) m = Some (base + off (nthl rows) m) /\ m <= off (nthl rows) m.
Proof.
  pose proof (Zlen_nonneg rows) as Hm. split. { apply (rep_rowptr _ _ _ _ _ m HR). fold m. lia. }
  enough (H : forall k, 0 <= k -> k <= m -> k <= off (nthl rows) k) by (apply H; fold m in Hm; lia).
  intros k Hk. pattern k. revert k Hk. apply Z_ind0.
  - intros _. rewrite off_0. lia.
  - intros k Hk IH Hkm. rewrite off_S by lia. specialize (IH ltac:(lia)). destruct HD as (_ & H). destruct (H k ltac:(fold m; lia)) as (l1 & v & l2 & E & _). rewrite E, Zlen_app, Zlen_cons. pose proof (Zlen_nonneg l1). pose proof (Zlen_nonneg l2). lia.
Qed.
Lemma entry_upper r r' : 0 <= r < m -> 0 <= r' < m -> r < r' -> entry rows r r' \/ entry rows r' r -> In r' (upper_of lrows r).
Proof.
  intros Hr Hr' Hlt He. assert (LL : Zlen lrows = m) by apply HL. assert (He' : entry lrows r r').
  { destruct He as [He|He]. - now apply (halo_entry _ _ r r' HH Hr). - apply (sp_sym _ HP); try lia. now apply (halo_entry _ _ r' r HH Hr'). }
  unfold upper_of. apply (filter_In (fun c => (r <? c) && (c <? Zlen lrows))). split; [|lia]. destruct He' as (v & Hv). apply in_map_iff. now exists (r', v).
Qed.

Variables (T : Z) (agg : bool) (cost : Z -> Z) (w : world).
Hypothesis HT : 1 <= T.
Hypothesis Hcost : forall i, 0 <= i < m -> 0 < cost i.
Hypothesis HW : world_ok m T w.

Lemma nonempty_nthl tasks : tasks_nonempty tasks -> forall v, 0 <= v < Zlen (concat tasks) -> nthl (concat tasks) v <> [].
Proof.
  intros H v Hv. destruct (get_in_range _ _ Hv) as (K & E). rewrite (nthl_get _ _ _ E). apply get_In, in_concat in E as (ks & Hks & HK). apply In_get in Hks as (t & _ & Et). eapply H; eauto.
Qed.
(** The wait lists and the rest of the schedule. *)
Theorem csr_graph bar tr S o2t t2o : bar = false \/ tr = false -> constructTaskGraph G T bar agg tr cost w = Some (S, o2t, t2o) ->
  exists lev tasks thb tb, is_depth m (lower_of lrows) lev /\ tasks_ok m T tasks thb tb o2t t2o /\ levels_increase lev tasks /\ graph_ok thb tb S (nt tasks) (Wb (upper_of lrows) T tasks thb tr) /\
    world_tasks G T bar agg cost w = Some (thb, tb, o2t, t2o).
Proof.
  unfold constructTaskGraph. intros Hb E. destruct (world_tasks G T bar agg cost w) as [(((thb & tb) & o2t') & t2o')|] eqn:E1; [|discriminate].
  destruct HW as [W1 W2 W3 W4 W5 W6 W7 W8].
  destruct (csr_tasks hasv base n rows lrows A dp HR HL HP HD T bar agg cost _ _ _ _ _ _ _ _ _ _ _ _ _ HT W1 W2 W3 Hcost W4 W5 E1) as (lev & nl & tasks & D & TO & LI & BL & NE).
  destruct csr_nnz as (Gn & Ln). rewrite Gm in E. cbn [G graph_of g_row g_base] in E. rewrite Gn in E.
  fold m in TO. rewrite <- Gm in TO. pose proof (thb_get G T tasks thb tb o2t' t2o' TO T ltac:(lia)) as GT. assert (EnT : off (nthl tasks) T = nt tasks). { unfold nt, ts. apply (Zlen_concat_off tasks T (to_T _ _ _ _ _ _ _ TO)). }
  rewrite GT, EnT in E. pose proof (nt_nonneg tasks) as Hnt.
  replace (base + off (nthl rows) m - base) with (off (nthl rows) m) in E by lia.
  destruct (taskGraph_ok G (lower_of lrows) (upper_of lrows) T tasks thb tb o2t' t2o' P HT TO) with (tr := tr) (nnz := off (nthl rows) m) (sch := w_s3 w) (jid := w_ids w) (jadj := w_adj w (nt tasks)) (jch := w_ch w (nt tasks)) as (S' & ES & GO).
  - intros i cs c Hi Hs Hc. rewrite Gm in Hi |- *. eapply csr_inside; eauto.
  - intros Et v Hv. apply nonempty_nthl; auto. apply NE. destruct Hb; auto. congruence.
  - rewrite Gm. lia.
  - rewrite Gm. auto.
  - auto.
  - auto.
  - fold G in E. rewrite ES in E. injection E as <- <- <-. rewrite Gm in TO. exists lev, tasks, thb, tb. auto 6.
Qed.
Theorem csr_p2p_schedule bar tr S o2t t2o fwd : bar = false \/ tr = false -> constructTaskGraph G T bar agg tr cost w = Some (S, o2t, t2o) -> p2p_schedule rows T S (get t2o) fwd.
Proof.
  intros Hb E. destruct (csr_graph bar tr S o2t t2o Hb E) as (lev & tasks & thb & tb & D & TO & LI & GO & _). fold m. rewrite <- Gm in D, TO.
  pose proof (graph_sched_ok G (lower_of lrows) (upper_of lrows) T tasks thb tb o2t t2o P HT TO tr S GO) as SO. rewrite Gm in SO.
  constructor; auto; fold m.
  - eapply graph_waits_ok; eauto using P.
  - eapply graph_ranked; eauto using P.
  - intros i i' r r' Hi Hi' Gi Gi' He Hp. apply precedes_dirZ in Hp.
    assert (Hr : 0 <= r < m). { destruct (so_rows _ _ _ _ SO i Hi) as (r0 & E0 & R0). congruence. } assert (Hr' : 0 <= r' < m). { destruct (so_rows _ _ _ _ SO i' Hi') as (r0 & E0 & R0). congruence. }
    destruct fwd.
    + apply (graph_pos_before G (lower_of lrows) (upper_of lrows) lev T tasks thb tb o2t t2o P D HT TO LI tr S GO i i' r r' Gi Gi'). now apply entry_upper.
    + apply (graph_pos_before G (lower_of lrows) (upper_of lrows) lev T tasks thb tb o2t t2o P D HT TO LI tr S GO i' i r' r Gi' Gi). apply entry_upper; tauto.
Qed.
Theorem csr_barrier_schedule thb tb o2t t2o S fwd : world_tasks G T true agg cost w = Some (thb, tb, o2t, t2o) -> has_tasks S T thb tb -> barrier_schedule rows T S (get t2o) fwd.
Proof.
  intros E1 (S0 & S1 & S2). destruct HW as [W1 W2 W3 W4 W5 W6 W7 W8].
  destruct (csr_tasks hasv base n rows lrows A dp HR HL HP HD T true agg cost _ _ _ _ _ _ _ _ _ _ _ _ _ HT W1 W2 W3 Hcost W4 W5 E1) as (lev & nl & tasks & D & TO & LI & BL & _). specialize (BL eq_refl).
  fold m in D, TO. rewrite <- Gm in D, TO. assert (EnT : off (nthl tasks) T = nt tasks). { unfold nt, ts. apply (Zlen_concat_off tasks T (to_T _ _ _ _ _ _ _ TO)). }
  pose proof (thb_get G T tasks thb tb o2t t2o TO T ltac:(lia)) as GT. rewrite EnT, S0 in GT. injection GT as S3.
  pose proof (tasks_sched_ok G (lower_of lrows) (upper_of lrows) T tasks thb tb o2t t2o P HT TO S S3 S2 S1) as SO. rewrite Gm in SO.
  constructor; auto; fold m.
  - eapply barrier_counts; eauto.
  - intros i i' r r' Hi Hi' Gi Gi' He Hp. apply precedes_dirZ in Hp.
    assert (Hr : 0 <= r < m). { destruct (so_rows _ _ _ _ SO i Hi) as (r0 & E0 & R0). congruence. } assert (Hr' : 0 <= r' < m). { destruct (so_rows _ _ _ _ SO i' Hi') as (r0 & E0 & R0). congruence. }
    destruct fwd.
    + apply (barrier_phase_before G (lower_of lrows) (upper_of lrows) lev T tasks thb tb o2t t2o nl P D HT TO BL S S1 S2 i i' r r' Gi Gi'). now apply entry_upper.
    + apply (barrier_phase_before G (lower_of lrows) (upper_of lrows) lev T tasks thb tb o2t t2o nl P D HT TO BL S S1 S2 i' i r' r Gi' Gi). apply entry_upper; tauto.
Qed.
Theorem csr_graph_defined lev bar tr : bar = false \/ tr = false -> is_depth m (lower_of lrows) lev -> T <= 2 \/ (forall l, 0 < l -> level_size m lev l < share m T) ->
  exists S o2t t2o, constructTaskGraph G T bar agg tr cost w = Some (S, o2t, t2o).
Proof.
  intros Hb Hd Hs. destruct HW as [W1 W2 W3 W4 W5 W6 W7 W8].
  destruct (csr_tasks_defined hasv base n rows lrows A dp HR HL HP HD lev T bar agg cost (w_chunks w) (w_s0 w) (w_s1 w) (w_s2 w) (w_np w) (w_rv w) (w_tb w) (w_o2t w) (w_t2o w) HT W1 W2 W3 Hcost W4 W5 Hd Hs) as (thb & tb & o2t & t2o & E1).
  destruct (csr_tasks hasv base n rows lrows A dp HR HL HP HD T bar agg cost _ _ _ _ _ _ _ _ _ _ _ _ _ HT W1 W2 W3 Hcost W4 W5 E1) as (lev' & nl & tasks & D & TO & LI & BL & NE).
  destruct csr_nnz as (Gn & Ln). fold m in TO. rewrite <- Gm in TO. pose proof (thb_get G T tasks thb tb o2t t2o TO T ltac:(lia)) as GT. assert (EnT : off (nthl tasks) T = nt tasks). { unfold nt, ts. apply (Zlen_concat_off tasks T (to_T _ _ _ _ _ _ _ TO)). }
  rewrite EnT in GT. pose proof (nt_nonneg tasks) as Hnt.
  destruct (taskGraph_ok G (lower_of lrows) (upper_of lrows) T tasks thb tb o2t t2o P HT TO) with (tr := tr) (nnz := off (nthl rows) m) (sch := w_s3 w) (jid := w_ids w) (jadj := w_adj w (nt tasks)) (jch := w_ch w (nt tasks)) as (S' & ES & GO).
  - intros i cs c Hi Hs' Hc. rewrite Gm in Hi |- *. eapply csr_inside; eauto.
  - intros Et v Hv. apply nonempty_nthl; auto. apply NE. destruct Hb; auto. congruence.
  - rewrite Gm. lia.
  - rewrite Gm. auto.
  - auto.
  - auto.
  - exists S', o2t, t2o. unfold constructTaskGraph, world_tasks. fold G in E1. rewrite E1, Gm. cbn [G graph_of g_row g_base]. rewrite Gn, GT. replace (base + off (nthl rows) m - base) with (off (nthl rows) m) by lia. fold G. now rewrite ES.
Qed.
End Csr.
