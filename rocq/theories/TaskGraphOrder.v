(** * The order of tasks enforced by the wait lists. *)
From Coq Require Import Permutation Relations.
From Verif Require Import Base Interleave Spec Search Partition PrefixSum Flat Csr Transpose RowPar PermUtils Exec Levels LevelsFacts LevelsMain Tasks LevelsCsr TaskGraph TaskGraphFacts TaskGraphLists TaskGraphMain.

Section Order.
Variables (G : gr) (lo up : Z -> list Z) (lev : Z -> Z) (T : Z) (tasks : list (list (list Z))) (thb tb o2t t2o : list Z).
Notation m := (g_m G).
Hypothesis P : pattern_ok G lo up.
Hypothesis D : is_depth m lo lev.
Hypothesis HT : 1 <= T.
Hypothesis TO : tasks_ok m T tasks thb tb o2t t2o.
Hypothesis LI : levels_increase lev tasks.
Variable tr : bool.
Notation nt := (nt tasks).
Notation ts := (ts tasks).
Notation tof := (tof tasks).
Notation own v := (owner thb T v).
Notation Eb := (Eb up tasks).
Notation Xb := (Xb up T tasks thb).
Notation Nb := (Nb T thb).
Notation Ib := (Ib up T tasks thb tr).
Notation Rb := (Rb up T tasks thb tr).
Notation Wb := (Wb up T tasks thb tr).

Definition R1 (v w : Z) : Prop := 0 <= v < nt /\ 0 <= w < nt /\ (Xb v w = true \/ (own v = own w /\ v < w)).
Definition R2 (v w : Z) : Prop := 0 <= v < nt /\ 0 <= w < nt /\ (Wb v w = true \/ (own v = own w /\ v < w)).

Lemma Wb_Xb v w : Wb v w = true -> Xb v w = true.
Proof. unfold TaskGraphMain.Wb. intros H. apply andb_true_iff in H. tauto. Qed.
Lemma Ib_cases v w : Ib v w = true -> Xb v w = true \/ (own v = own w /\ v < w).
Proof. unfold TaskGraphMain.Ib, TaskGraphMain.Nb. intros H. apply orb_true_iff in H as [H|H]; auto. right. apply andb_true_iff in H as (_ & H). lia. Qed.
Lemma R1_lev tl v w : (forall v i, 0 <= v < nt -> In i (nthl ts v) -> lev i = tl v) -> (forall v w, 0 <= v < w -> w < nt -> own v = own w -> tl v < tl w) -> R1 v w -> tl v < tl w.
Proof.
  intros H1 H2 (Hv & Hw & [X|(E & L)]).
  - unfold TaskGraphMain.Xb in X. apply andb_true_iff in X as (X & _). eapply (E_lev G lo up lev T tasks thb tb o2t t2o P D TO); eauto.
  - apply H2; auto; lia.
Qed.
(** Every edge dropped by the reduction is implied by the rest. *)
Lemma R1_R2 v w : R1 v w -> clos_trans Z R2 v w.
Proof.
  destruct (tlev_exists G lev T tasks thb tb o2t t2o HT TO LI) as (tl & H1 & H2).
  assert (H : forall n, 0 <= n -> forall v w, R1 v w -> tl w - tl v < n -> clos_trans Z R2 v w).
  { apply (Z_ind0 (fun n => forall v w, R1 v w -> tl w - tl v < n -> clos_trans Z R2 v w)).
    - intros a b Hr Hl. pose proof (R1_lev tl a b H1 H2 Hr). lia.
    - intros n Hn IH a b Hr Hl. pose proof Hr as (Ha & Hb & [X|S]); [|apply t_step; repeat split; auto; lia].
      destruct (Wb a b) eqn:EW; [apply t_step; repeat split; auto; lia|].
      unfold TaskGraphMain.Wb in EW. rewrite X in EW. cbn [andb] in EW. destruct (tr && Rb a b) eqn:ER; [|discriminate]. apply andb_true_iff in ER as (Et & ER).
      apply Rb_spec in ER as (k & Hk & I1 & I2). apply Ib_cases in I1, I2.
      assert (Ra : R1 a k) by (repeat split; auto; lia). assert (Rk : R1 k b) by (repeat split; auto; lia). pose proof (R1_lev tl _ _ H1 H2 Ra). pose proof (R1_lev tl _ _ H1 H2 Rk).
      eapply t_trans; apply IH; eauto; lia. }
  intros Hr. destruct (Z_lt_ge_dec (tl w - tl v) 0); [exfalso; pose proof (R1_lev tl _ _ H1 H2 Hr); lia|]. apply (H (tl w - tl v + 1)); auto; lia.
Qed.
Lemma clos_mono (A B : Z -> Z -> Prop) : (forall x y, A x y -> clos_trans Z B x y) -> forall x y, clos_trans Z A x y -> clos_trans Z B x y.
Proof. intros H x y C. induction C; eauto using t_trans. Qed.
Lemma R2_R1 v w : R2 v w -> R1 v w.
Proof. intros (A & B & [C|C]); repeat split; auto; try lia. left. now apply Wb_Xb. Qed.
Lemma clos_R v w : clos_trans Z R1 v w <-> clos_trans Z R2 v w.
Proof. split; apply clos_mono; [apply R1_R2|]. intros x y H. apply t_step. now apply R2_R1. Qed.

Theorem tasks_sched_ok S : ntasks S = nt -> taskBoundaries S = tb -> threadBoundaries S = thb -> sched_ok T m S (get t2o).
Proof.
  intros E1 E2 E3. pose proof (po_m _ _ _ P) as Hm. assert (L2 : Zlen t2o = m). { rewrite (Zlen_perm _ _ (to_perm _ _ _ _ _ _ _ TO)), Zlen_zrange. lia. }
  assert (N2 : NoDup t2o). { eapply Permutation_NoDup; [apply Permutation_sym, (to_perm _ _ _ _ _ _ _ TO)|apply NoDup_zrange]. }
  constructor; rewrite ?E1, ?E2, ?E3; auto.
  - apply (tb_bounds G lo up T tasks thb tb o2t t2o P TO).
  - apply (thb_bounds G T tasks thb tb o2t t2o TO).
  - intros i Hi. destruct (@get_in_range _ t2o i) as (r & Gr); [lia|]. exists r. split; auto. apply get_In in Gr. apply (Permutation_in _ (to_perm _ _ _ _ _ _ _ TO)) in Gr. now apply In_zrange in Gr.
  - intros i i' r _ _ A B. eapply NoDup_get_inj; eauto.
  - intros r Hr. assert (I : In r t2o). { apply (Permutation_in _ (Permutation_sym (to_perm _ _ _ _ _ _ _ TO))). now apply In_zrange. } apply In_get in I as (i & Hi & Gi). exists i. split; auto. lia.
Qed.
Lemma pos_task S i r : taskBoundaries S = tb -> get t2o i = Some r -> 0 <= r < m /\ in_task S i (tof r).
Proof.
  intros E0 Gi. assert (Hr : 0 <= r < m). { pose proof Gi as Gi'. apply get_In in Gi'. apply (Permutation_in _ (to_perm _ _ _ _ _ _ _ TO)) in Gi'. now apply In_zrange in Gi'. } split; auto.
  destruct (tof_ok G T tasks thb tb o2t t2o TO r Hr) as (A & B). apply In_get in B as (k & Hk & Gk). pose proof (t2o_get G T tasks thb tb o2t t2o TO _ _ _ A Gk) as G2.
  assert (E : i = off (nthl ts) (tof r) + k). { eapply NoDup_get_inj; eauto. eapply Permutation_NoDup; [apply Permutation_sym, (to_perm _ _ _ _ _ _ _ TO)|apply NoDup_zrange]. }
  exists (off (nthl ts) (tof r)), (off (nthl ts) (tof r + 1)). rewrite E0. rewrite !(tb_get G T tasks thb tb o2t t2o TO) by lia. rewrite off_S by lia. split; auto. split; auto. lia.
Qed.

Variable S : schedule.
Hypothesis GO : graph_ok thb tb S nt Wb.
Lemma waits_true w v : waits_for true S w v <-> 0 <= v < nt /\ 0 <= w < nt /\ Wb v w = true.
Proof.
  unfold waits_for. rewrite (go_nt _ _ _ _ _ GO). cbn [nparents parents]. split.
  - intros (Hw & n & c & k & A & B & C & E). destruct (go_fwd _ _ _ _ _ GO w Hw) as (pf & F1 & F2 & _ & F4). rewrite F1 in B. injection B as <-. apply get_In in E. apply F4 in E. tauto.
  - intros (Hv & Hw & H). split; auto. destruct (go_fwd _ _ _ _ _ GO w Hw) as (pf & F1 & F2 & _ & F4). assert (I : In v pf) by (apply F4; auto). apply In_get in I as (k & Hk & Gk). eauto 10.
Qed.
Lemma waits_false v w : waits_for false S v w <-> 0 <= v < nt /\ 0 <= w < nt /\ Wb v w = true.
Proof.
  unfold waits_for. rewrite (go_nt _ _ _ _ _ GO). cbn [nparents parents]. split.
  - intros (Hw & n & c & k & A & B & C & E). destruct (go_bwd _ _ _ _ _ GO v Hw) as (pf & F1 & F2 & _ & F4). rewrite F1 in B. injection B as <-. apply get_In in E. apply F4 in E. tauto.
  - intros (Hv & Hw & H). split; auto. destruct (go_bwd _ _ _ _ _ GO v Hv) as (pf & F1 & F2 & _ & F4). assert (I : In w pf) by (apply F4; auto). apply In_get in I as (k & Hk & Gk). eauto 10.
Qed.
Lemma same_thread_own v w : same_thread S v w <-> 0 <= v < nt /\ 0 <= w < nt /\ own v = own w.
Proof.
  pose proof (thb_bounds G T tasks thb tb o2t t2o TO) as B. destruct (bounds_zget _ _ _ B ltac:(lia)) as (Gz & W0 & WT & WM). unfold same_thread. rewrite (go_thb _ _ _ _ _ GO). split.
  - intros (t & b & e & G1 & G2 & Hv & Hw). pose proof (get_Some_bounds _ _ _ G1). pose proof (get_Some_bounds _ _ _ G2) as Ht. rewrite (proj1 B) in Ht. rewrite Gz in G1, G2 by lia. injection G1 as <-. injection G2 as <-.
    pose proof (WM 0 t ltac:(lia) ltac:(lia)). pose proof (WM (t + 1) T ltac:(lia) ltac:(lia)). split; [lia|]. split; [lia|]. now rewrite !(owner_unique T nt thb HT B _ t) by lia.
  - intros (Hv & Hw & E). destruct (owner_ok T nt thb HT B v Hv) as (A1 & A2). destruct (owner_ok T nt thb HT B w Hw) as (B1 & B2). rewrite <- E in B2. exists (own v), (zget thb (own v)), (zget thb (own v + 1)). rewrite !Gz by lia. auto.
Qed.
Lemma before1_true v w : task_before1 true S v w <-> R2 v w.
Proof. unfold task_before1, R2. rewrite waits_true, same_thread_own. cbn [lt_dir]. tauto. Qed.
Lemma before1_false v w : task_before1 false S w v <-> R2 v w.
Proof. unfold task_before1, R2. rewrite waits_false, same_thread_own. cbn [lt_dir]. intuition auto. Qed.
Theorem before_true v w : task_before true S v w <-> clos_trans Z R1 v w.
Proof. rewrite clos_R. unfold task_before. split; apply clos_mono; intros x y H; apply t_step; now apply before1_true. Qed.
Lemma clos_flip (A : Z -> Z -> Prop) x y : clos_trans Z (fun a b => A b a) x y <-> clos_trans Z A y x.
Proof. split; intros H; induction H; eauto using t_step, t_trans. Qed.
Theorem before_false v w : task_before false S w v <-> clos_trans Z R1 v w.
Proof.
  rewrite clos_R, <- (clos_flip R2). unfold task_before. split; apply clos_mono; intros x y H; apply t_step; now apply before1_false.
Qed.

Theorem graph_waits_ok fwd : waits_ok fwd S.
Proof.
  intros q. rewrite (go_nt _ _ _ _ _ GO). intros Hq. destruct fwd; cbn [nparents parents].
  - destruct (go_fwd _ _ _ _ _ GO q Hq) as (pf & F1 & F2 & _ & F4). exists (Zlen pf), pf. split; auto. split; auto. split; [pose proof (Zlen_nonneg pf); lia|]. intros k p _ E. apply get_In, F4 in E. tauto.
  - destruct (go_bwd _ _ _ _ _ GO q Hq) as (pf & F1 & F2 & _ & F4). exists (Zlen pf), pf. split; auto. split; auto. split; [pose proof (Zlen_nonneg pf); lia|]. intros k p _ E. apply get_In, F4 in E. tauto.
Qed.
Theorem graph_ranked fwd : waits_ranked fwd S.
Proof.
  destruct (tlev_exists G lev T tasks thb tb o2t t2o HT TO LI) as (tl & H1 & H2). unfold waits_ranked. rewrite (go_nt _ _ _ _ _ GO). destruct fwd.
  - exists (fun v => tl v + zmax_of (fun v => - tl v) nt). intros q q' Hq Hq' B. apply before1_true, R2_R1 in B. pose proof (R1_lev tl _ _ H1 H2 B). pose proof (zmax_of_ge (fun v => - tl v) nt q Hq). cbn beta in *. lia.
  - exists (fun v => zmax_of tl nt - tl v). intros q q' Hq Hq' B. apply before1_false, R2_R1 in B. pose proof (R1_lev tl _ _ H1 H2 B). pose proof (zmax_of_ge tl nt q Hq). cbn beta in *. lia.
Qed.

Theorem graph_sched_ok : sched_ok T m S (get t2o).
Proof. apply tasks_sched_ok; apply GO. Qed.
Lemma adjacent_R1 r r' : 0 <= r < m -> In r' (up r) -> R1 (tof r) (tof r').
Proof.
  intros Hr Hu. destruct (tlev_exists G lev T tasks thb tb o2t t2o HT TO LI) as (tl & H1 & H2). pose proof (po_up _ _ _ P r r' Hr Hu) as Hr'. destruct (tof_ok G T tasks thb tb o2t t2o TO r Hr) as (A & B), (tof_ok G T tasks thb tb o2t t2o TO r' Hr') as (A' & B').
  assert (E : Eb (tof r) (tof r') = true) by (apply E_spec; eauto). pose proof (E_lev G lo up lev T tasks thb tb o2t t2o P D TO tl _ _ H1 A E) as L.
  split; auto. split; auto. destruct (own (tof r) =? own (tof r')) eqn:Q.
  - right. split; [lia|]. destruct (Z.lt_trichotomy (tof r) (tof r')) as [X|[X|X]]; auto; exfalso; [rewrite X in L; lia|]. specialize (H2 (tof r') (tof r) ltac:(lia) ltac:(lia) ltac:(lia)). lia.
  - left. unfold TaskGraphMain.Xb. rewrite E. cbn [andb]. rewrite Z.eqb_sym, Q. reflexivity.
Qed.
Theorem graph_pos_before i i' r r' : get t2o i = Some r -> get t2o i' = Some r' -> In r' (up r) -> pos_before true S i i' /\ pos_before false S i' i.
Proof.
  intros Gi Gi' Hu. destruct (pos_task S i r (go_tb _ _ _ _ _ GO) Gi) as (Hr & T1). destruct (pos_task S i' r' (go_tb _ _ _ _ _ GO) Gi') as (_ & T2). pose proof (adjacent_R1 r r' Hr Hu) as H1. split.
  - exists (tof r), (tof r'). split; auto. split; auto. left. apply before_true. now apply t_step.
  - exists (tof r'), (tof r). split; auto. split; auto. left. apply before_false. now apply t_step.
Qed.
End Order.
