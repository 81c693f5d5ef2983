(** * Sweeps over the reordered matrix (gs_test.cpp:283-482, trsv_test.cpp, pcg.cpp:45-133).

    The matrix is permuted so that position [i] of the schedule is row [i]; the
    executors then use no permutation. *)
From Coq Require Import Permutation Relations.
From Verif Require Import Base Interleave Spec PermUtils Flat Csr Transpose CsrTools CsrOps Sort RowPar Fill Permute PermuteMain PermuteFacts SpMV P2P P2PProg Exec Kernels Ilu Levels LevelsFacts LevelsMain Tasks LevelsCsr TaskGraph TaskGraphFacts TaskGraphLists TaskGraphMain TaskGraphOrder TaskGraphCsr Sched.

(** ** Specification *)
(** [l'] is [l] in the order of the positions; the elements from [m] on stay. *)
Definition moved {X} (m : Z) (t2o : list Z) (l l' : list X) : Prop :=
  Zlen l' = Zlen l /\ (forall i r, get t2o i = Some r -> get l' i = get l r) /\ (forall p, m <= p -> get l' p = get l p).
(** [rows'] are [rows] in the order of the positions with renamed columns; the
    entries of a row may be permuted if the order of subtractions does not matter. *)
Definition moved_rows {X} (sub : X -> X -> X) (o2t t2o : list Z) (rows rows' : rows_t X) : Prop :=
  Zlen rows' = Zlen rows /\ forall i r, get t2o i = Some r ->
    nthl rows' i = rename o2t (nthl rows r) \/
    ((forall s a b, sub (sub s a) b = sub (sub s b) a) /\ Permutation (nthl rows' i) (rename o2t (nthl rows r))).

(** ** Proofs *)
Lemma foldM_perm_comm {X Y B} (g : X -> option Y) (h : B -> X -> Y -> B) : (forall s a x b y, h (h s a x) b y = h (h s b y) a x) ->
  forall l l' s, Permutation l l' -> foldM (fun e s => x <- g e ;; Some (h s e x)) l s = foldM (fun e s => x <- g e ;; Some (h s e x)) l' s.
Proof.
  intros H l l' s P. revert s. induction P; intros s; cbn [foldM]; auto.
  - destruct (g x); auto.
  - destruct (g x), (g y); auto. now rewrite H.
  - now rewrite IHP1.
Qed.

Section Move.
Context {X : Type}.
Variables (add sub mul : X -> X -> X) (k : ending) (asc : bool) (m n : Z) (o2t t2o : list Z) (rows rows' : rows_t X) (idiag b idiag' b' : list X).
Hypothesis Hlen : Zlen rows = m.
Hypothesis Hok : rows_ok n rows.
Hypothesis HP : Permutation t2o (zrange 0 m).
Hypothesis HO : Zlen o2t = m.
Hypothesis HI : forall p i, get t2o p = Some i -> get o2t i = Some p.
Hypothesis HR : moved_rows sub o2t t2o rows rows'.
Hypothesis Hb : moved m t2o b b'.
Hypothesis Hd : moved m t2o idiag idiag'.
Lemma m_nonneg : 0 <= m.
Proof. rewrite <- Hlen. apply Zlen_nonneg. Qed.
Lemma t2o_range i r : get t2o i = Some r -> 0 <= i < m /\ 0 <= r < m.
Proof.
  intros E. pose proof (get_Some_bounds _ _ _ E) as B. rewrite (Zlen_perm _ _ HP), Zlen_zrange in B. apply get_In in E. apply (Permutation_in _ HP) in E. apply In_zrange in E. split; lia.
Qed.
Lemma t2o_surj r : 0 <= r < m -> exists i, get t2o i = Some r /\ get o2t r = Some i.
Proof.
  intros Hr. assert (I : In r t2o) by (apply (Permutation_in _ (Permutation_sym HP)); now apply In_zrange). apply In_get in I as (i & _ & E). eauto.
Qed.
Lemma t2o_ok i : 0 <= i < m -> exists r, get t2o i = Some r.
Proof. intros Hi. apply get_in_range. rewrite (Zlen_perm _ _ HP), Zlen_zrange. lia. Qed.
Lemma col_cases c : 0 <= c -> (m <= c /\ perm_col o2t c = c) \/ (0 <= c < m /\ 0 <= perm_col o2t c < m /\ get t2o (perm_col o2t c) = Some c).
Proof.
  intros Hc. unfold perm_col. destruct (Z_lt_ge_dec c m) as [L|L].
  - right. destruct (t2o_surj c ltac:(lia)) as (i & E & E'). rewrite E'. destruct (t2o_range _ _ E). auto.
  - left. rewrite get_out by lia. split; auto. lia.
Qed.
Lemma moved_col (y y' : list X) c : moved m t2o y y' -> 0 <= c -> get y' (perm_col o2t c) = get y c.
Proof. intros (_ & H1 & H2) Hc. destruct (col_cases c Hc) as [(A & ->)|(_ & _ & E)]; auto. Qed.
Lemma row_cols r e : 0 <= r < m -> In e (nthl rows r) -> 0 <= fst e.
Proof. intros Hr He. destruct e as [c v]. cbn [fst]. apply (Hok _ _ _ (nth_row_In rows r ltac:(lia))) in He. lia. Qed.
Lemma moved_set (y y' : list X) i r w z : moved m t2o y y' -> get t2o i = Some r -> set y r w = Some z -> exists z', set y' i w = Some z' /\ moved m t2o z z'.
Proof.
  intros (L & H1 & H2) E ES. destruct (t2o_range _ _ E) as (Bi & Br). pose proof (H1 _ _ E) as G1. destruct (set_Some_inv _ _ _ _ ES) as (B & _).
  destruct (get_in_range y r B) as (x & Gx). rewrite Gx in G1. destruct (set_ok y' i w) as (z' & ES'). { now apply get_Some_bounds in G1. }
  exists z'. split; auto. split. { rewrite (set_len _ _ _ _ ES), (set_len _ _ _ _ ES'). auto. } split.
  - intros i2 r2 E2. destruct (Z.eq_dec i2 i) as [->|N].
    + assert (r2 = r) by congruence. subst r2. rewrite (get_set_same _ _ _ _ ES). eapply get_set_same; eauto.
    + rewrite (get_set_other _ _ _ _ _ ES') by auto. rewrite (get_set_other _ _ _ _ _ ES); auto. intros ->. apply HI in E, E2. congruence.
  - intros p Hp. rewrite (get_set_other _ _ _ _ _ ES') by lia. rewrite (get_set_other _ _ _ _ _ ES) by lia. auto.
Qed.
Lemma moved_sum (y y' : list X) i r s0 : moved m t2o y y' -> get t2o i = Some r ->
  foldM (fun e s => x <- get y' (fst e) ;; Some (sub s (mul (snd e) x))) (if asc then nthl rows' i else rev (nthl rows' i)) s0 =
  foldM (fun e s => x <- get y (fst e) ;; Some (sub s (mul (snd e) x))) (if asc then nthl rows r else rev (nthl rows r)) s0.
Proof.
  intros HM E. destruct (t2o_range _ _ E) as (Bi & Br).
  assert (H0 : foldM (fun e s => x <- get y' (fst e) ;; Some (sub s (mul (snd e) x))) (rename o2t (if asc then nthl rows r else rev (nthl rows r))) s0 =
    foldM (fun e s => x <- get y (fst e) ;; Some (sub s (mul (snd e) x))) (if asc then nthl rows r else rev (nthl rows r)) s0).
  { unfold rename. rewrite foldM_map. apply foldM_ext_in. intros e s He. cbn [fst snd]. rewrite (moved_col y y'); auto. apply (row_cols r); auto. destruct asc; auto. now apply in_rev. }
  rewrite <- H0. destruct (proj2 HR i r E) as [->|(Hc & Pm)]. { destruct asc; auto. unfold rename. now rewrite map_rev. }
  apply (foldM_perm_comm (fun e => get y' (fst e)) (fun s e x => sub s (mul (snd e) x))); auto.
  destruct asc; auto. unfold rename. rewrite map_rev. eapply Permutation_trans; [apply Permutation_sym, Permutation_rev|]. eapply Permutation_trans; [exact Pm|]. apply Permutation_rev.
Qed.
Lemma update_moved (y y' z : list X) i r : moved m t2o y y' -> get t2o i = Some r -> update add sub mul k asc rows idiag b r y = Some z ->
  exists z', update add sub mul k asc rows' idiag' b' i y' = Some z' /\ moved m t2o z z'.
Proof.
  intros HM E EU. destruct (t2o_range _ _ E) as (Bi & Br). unfold update in *. rewrite (get_nthl rows r) in EU by lia. rewrite (get_nthl rows' i) by (rewrite (proj1 HR); lia).
  rewrite (proj1 (proj2 Hb) i r E). destruct (get b r) as [b0|]; [|discriminate]. rewrite (moved_sum y y' i r b0 HM E).
  destruct (foldM _ (if asc then nthl rows r else rev (nthl rows r)) b0) as [s|]; [|discriminate]. rewrite (proj1 (proj2 HM) i r E). destruct (get y r) as [old|]; [|discriminate].
  assert (ST : store add mul k idiag' i old s = store add mul k idiag r old s). { unfold store. now rewrite (proj1 (proj2 Hd) i r E). }
  rewrite ST. destruct (store add mul k idiag r old s) as [w|]; [|discriminate]. eapply moved_set; eauto.
Qed.
Lemma updates_moved order (y y' z : list X) : (forall r, In r order -> 0 <= r < m) -> moved m t2o y y' -> updates add sub mul k asc rows idiag b order y = Some z ->
  exists z', updates add sub mul k asc rows' idiag' b' (map (perm_col o2t) order) y' = Some z' /\ moved m t2o z z'.
Proof.
  unfold updates. revert y y'. induction order as [|r order IH]; intros y y' Hin HM E; cbn [foldM map] in *. { injection E as <-. eauto. }
  destruct (update add sub mul k asc rows idiag b r y) as [y1|] eqn:EU; [|discriminate].
  destruct (col_cases r) as [(A & _)|(_ & _ & Gr)]. { pose proof (Hin r ltac:(cbn; auto)). lia. } { pose proof (Hin r ltac:(cbn; auto)). lia. }
  destruct (update_moved y y' y1 (perm_col o2t r) r HM Gr EU) as (y1' & -> & HM1). apply (IH y1 y1'); auto. intros; apply Hin; cbn; auto.
Qed.
Lemma moved_entry i i' r r' : get t2o i = Some r -> get t2o i' = Some r' -> entry rows' i i' -> entry rows r r'.
Proof.
  intros E E' (v & Hv). destruct (t2o_range _ _ E) as (Bi & Br). destruct (t2o_range _ _ E') as (Bi' & Br').
  assert (Hv' : In (i', v) (rename o2t (nthl rows r))). { destruct (proj2 HR i r E) as [<-|(_ & Pm)]; auto. eapply Permutation_in; eauto. }
  unfold rename in Hv'. apply in_map_iff in Hv' as ((c & v') & Ec & Hc). injection Ec as Ec _. cbn [fst] in Ec. pose proof (row_cols r _ Br Hc) as C0. cbn [fst] in C0.
  destruct (col_cases c C0) as [(A & B)|(_ & _ & Gc)]; [lia|]. rewrite Ec in Gc. assert (c = r') by congruence. subst c. now exists v'.
Qed.
Lemma order_perm order : Permutation order (zrange 0 m) -> Permutation (map (perm_col o2t) order) (zrange 0 m).
Proof.
  intros Po. eapply Permutation_trans; [apply Permutation_map, Po|]. eapply Permutation_trans; [apply Permutation_map, Permutation_sym, HP|].
  apply NoDup_Permutation; [|apply NoDup_zrange|].
  - apply NoDup_map_in. 2: { eapply Permutation_NoDup; [apply Permutation_sym, HP|apply NoDup_zrange]. }
    intros x y Hx Hy Exy. apply In_get in Hx as (p & _ & Gp). apply In_get in Hy as (q & _ & Gq). pose proof (HI _ _ Gp) as I1. pose proof (HI _ _ Gq) as I2. unfold perm_col in Exy. rewrite I1, I2 in Exy. congruence.
  - intros p. rewrite In_zrange, in_map_iff. split.
    + intros (r & <- & Hr). apply In_get in Hr as (q & _ & Gq). unfold perm_col. rewrite (HI _ _ Gq). now apply t2o_range in Gq.
    + intros Hp. destruct (t2o_ok p Hp) as (r & Gr). exists r. split; [|eapply get_In; eauto]. unfold perm_col. now rewrite (HI _ _ Gr).
Qed.
Lemma precedes_map order i i' r r' : Permutation order (zrange 0 m) -> get t2o i = Some r -> get t2o i' = Some r' -> precedes (map (perm_col o2t) order) i i' -> precedes order r r'.
Proof.
  intros Po E E' (l1 & l2 & l3 & Q). apply map_eq_app in Q as (k1 & k2 & -> & <- & Q). apply map_eq_cons in Q as (a & k3 & -> & Ea & Q). apply map_eq_app in Q as (k4 & k5 & -> & <- & Q). apply map_eq_cons in Q as (c & k6 & -> & Ec & <-).
  assert (Ha : 0 <= a < m). { apply In_zrange. eapply Permutation_in; [exact Po|]. apply in_or_app. cbn; auto. }
  assert (Hc : 0 <= c < m). { apply In_zrange. eapply Permutation_in; [exact Po|]. apply in_or_app. right. right. apply in_or_app. cbn; auto. }
  destruct (col_cases a ltac:(lia)) as [(A & _)|(_ & _ & Ga)]; [lia|]. destruct (col_cases c ltac:(lia)) as [(A & _)|(_ & _ & Gc)]; [lia|]. rewrite Ea, E in Ga. rewrite Ec, E' in Gc. injection Ga as <-. injection Gc as <-. now exists k1, k4, k6.
Qed.
Lemma moved_covers fwd S order : Permutation order (zrange 0 m) -> covers fwd S (get t2o) rows order -> covers fwd S (fun i => Some i) rows' (map (perm_col o2t) order).
Proof.
  intros Po C i i' r r' Hi Hi' Er Er' D Pr. rewrite (proj1 HR), Hlen in Hi, Hi'. injection Er as <-. injection Er' as <-. destruct (t2o_ok i Hi) as (r & E). destruct (t2o_ok i' Hi') as (r' & E').
  apply (C i i' r r'); try lia; auto. { destruct D as [D|D]; [left|right]; eapply moved_entry; eauto. } eapply precedes_map; eauto.
Qed.
Lemma moved_covers_barrier fwd S order : Permutation order (zrange 0 m) -> covers_barrier fwd S (get t2o) rows order -> covers_barrier fwd S (fun i => Some i) rows' (map (perm_col o2t) order).
Proof.
  intros Po C i i' r r' Hi Hi' Er Er' D Pr. rewrite (proj1 HR), Hlen in Hi, Hi'. injection Er as <-. injection Er' as <-. destruct (t2o_ok i Hi) as (r & E). destruct (t2o_ok i' Hi') as (r' & E').
  apply (C i i' r r'); try lia; auto. { destruct D as [D|D]; [left|right]; eapply moved_entry; eauto. } eapply precedes_map; eauto.
Qed.
End Move.
Lemma sched_ok_id T m S rowof : sched_ok T m S rowof -> sched_ok T m S (fun i => Some i).
Proof. intros [H1 H2 H3 _ _ _]. constructor; auto; try congruence; intros i Hi; exists i; auto. Qed.

Section Main.
Context {V : Type}.
Variables (hasv : bool) (base n : Z) (rows lrows : rows_t V) (A : csr V) (dp : list Z).
Hypothesis HM : sched_matrix hasv base n rows lrows A dp.
Let m := Zlen rows.
Let G := graph_of A base dp.
Variables (T : Z) (agg : bool) (cost : Z -> Z) (w : world).
Hypothesis HA : sched_args m T cost w.
Lemma sched_perms tr S o2t t2o : constructTaskGraph G T false agg tr cost w = Some (S, o2t, t2o) -> Permutation t2o (zrange 0 m) /\ Zlen o2t = m /\ forall p i, get t2o p = Some i -> get o2t i = Some p.
Proof.
  intros E. destruct HA as [HT HC HW]. destruct HM as [H1 H2 H3 H4 H5].
  destruct (csr_graph hasv base n rows lrows A dp H1 H2 H3 H4 H5 T agg cost w HT HC HW false tr S o2t t2o (or_introl eq_refl) E) as (lev1 & tk1 & thb1 & tb1 & D1 & [_ _ _ _ B1 B2] & _). auto.
Qed.
Lemma tasks_perms thb tb o2t t2o : world_tasks G T true agg cost w = Some (thb, tb, o2t, t2o) -> Permutation t2o (zrange 0 m) /\ Zlen o2t = m /\ forall p i, get t2o p = Some i -> get o2t i = Some p.
Proof.
  intros E. destruct HA as [HT HC [W1 W2 W3 W4 W5 W6 W7 W8]]. destruct HM as [H1 H2 H3 H4 H5].
  destruct (csr_tasks hasv base n rows lrows A dp H1 H2 H3 H4 T true agg cost _ _ _ _ _ _ _ _ _ _ _ _ _ HT W1 W2 W3 HC W4 W5 E) as (lev & nl & tasks & D & [_ _ _ _ B1 B2] & _). auto.
Qed.

Section Kernel.
Context {X : Type}.
Variables (base' n' : Z) (krows krows' : rows_t X) (A' : csr X).
Hypothesis HR' : rep true base' n' krows' A'.
Hypothesis Hok : rows_ok n' krows.
Hypothesis Hsub : sub_pattern krows rows.
Hypothesis Hn : m <= n'.
Variables (add sub mul : X -> X -> X) (k : ending) (idiag b y idiag' b' y' : list X).
Hypothesis Hy : n' <= Zlen y.
Hypothesis Hb : m <= Zlen b.
Hypothesis Hd : needs_idiag k = true -> m <= Zlen idiag.
Lemma moved_ok o2t t2o : Permutation t2o (zrange 0 m) -> Zlen o2t = m -> (forall p i, get t2o p = Some i -> get o2t i = Some p) -> moved_rows sub o2t t2o krows krows' -> rows_ok n' krows'.
Proof.
  intros P1 P2 P3 MR r c v Hr Hc. pose proof (proj1 Hsub) as HL. fold m in HL. apply In_get in Hr as (i & Bi & Ei). rewrite (proj1 MR), HL in Bi. destruct (t2o_ok m o2t t2o P1 P3 i Bi) as (r0 & E0).
  destruct (t2o_range m o2t t2o P1 P3 _ _ E0) as (_ & Br). assert (Hc' : In (c, v) (rename o2t (nthl krows r0))). { apply nthl_get in Ei. subst r. destruct (proj2 MR i r0 E0) as [<-|(_ & Pm)]; auto. eapply Permutation_in; eauto. }
  unfold rename in Hc'. apply in_map_iff in Hc' as ((c0 & v0) & Ec & Hc0). injection Ec as <- _. cbn [fst]. pose proof (Hok _ _ _ (nth_row_In krows r0 ltac:(lia)) Hc0) as B0.
  destruct (col_cases m o2t t2o P1 P2 P3 c0 ltac:(lia)) as [(_ & ->)|(_ & B & _)]; lia.
Qed.
Theorem moved_sweep_p2p tr S o2t t2o fwd asc : constructTaskGraph G T false agg tr cost w = Some (S, o2t, t2o) ->
  moved_rows sub o2t t2o krows krows' -> moved m t2o b b' -> moved m t2o idiag idiag' -> moved m t2o y y' ->
  exists fin fin', updates add sub mul k asc krows idiag b (dirZ fwd 0 m) y = Some fin /\ moved m t2o fin fin' /\
    p2p_computes (rexec add sub mul k A' base' (values_of krows') idiag' b') None (rops asc A') fwd S (fun i => Some i) T y' fin'.
Proof.
  intros E MR Mb Md My. destruct (sched_p2p hasv base n rows lrows A dp HM T agg cost w tr S o2t t2o fwd HA E) as [A1 A2 A3 A4]. fold m in A1, A4. destruct (sched_perms tr S o2t t2o E) as (P1 & P2 & P3). pose proof (proj1 Hsub) as HL. fold m in HL.
  assert (Hin : forall r, In r (dirZ fwd 0 m) -> 0 <= r < m) by (intros r Hr; now apply In_dirZ in Hr).
  destruct (updates_ok add sub mul k asc n' krows idiag b Hok (dirZ fwd 0 m) y) as (fin & F1 & _); rewrite ?HL; auto.
  destruct (updates_moved add sub mul k asc m n' o2t t2o krows krows' idiag b idiag' b' HL Hok P1 P2 P3 MR Mb Md (dirZ fwd 0 m) y y' fin Hin My F1) as (fin' & F2 & F3).
  exists fin, fin'. split; auto. split; auto.
  assert (L' : Zlen krows' = m) by (rewrite (proj1 MR); auto).
  destruct (sweep_p2p add sub mul k asc fwd T base' n' krows' A' idiag' b' y' S (fun i => Some i) (map (perm_col o2t) (dirZ fwd 0 m))) as (fin2 & Q1 & Q2); rewrite ?L'; auto.
  - eapply moved_ok; eauto.
  - rewrite (proj1 My). lia.
  - rewrite (proj1 Mb). lia.
  - rewrite (proj1 Md). auto.
  - eapply sched_ok_id; eauto.
  - eapply order_perm; eauto using dirZ_perm.
  - refine (moved_covers add sub mul m n' o2t t2o krows krows' HL Hok P1 P2 P3 MR fwd S (dirZ fwd 0 m) _ _); [apply dirZ_perm|eapply covers_sub; eauto].
  - assert (fin2 = fin') by congruence. subst. exact Q2.
Qed.
Theorem moved_sweep_barrier thb tb S o2t t2o fwd asc : world_tasks G T true agg cost w = Some (thb, tb, o2t, t2o) -> has_tasks S T thb tb ->
  moved_rows sub o2t t2o krows krows' -> moved m t2o b b' -> moved m t2o idiag idiag' -> moved m t2o y y' ->
  exists fin fin', updates add sub mul k asc krows idiag b (dirZ fwd 0 m) y = Some fin /\ moved m t2o fin fin' /\
    barrier_computes (rexec add sub mul k A' base' (values_of krows') idiag' b') None (rops asc A') fwd S (fun i => Some i) T y' fin'.
Proof.
  intros E HS MR Mb Md My. destruct (sched_barrier hasv base n rows lrows A dp HM T agg cost w thb tb o2t t2o S fwd HA E HS) as [A1 A2 A3]. fold m in A1, A3. destruct (tasks_perms thb tb o2t t2o E) as (P1 & P2 & P3). pose proof (proj1 Hsub) as HL. fold m in HL.
  assert (Hin : forall r, In r (dirZ fwd 0 m) -> 0 <= r < m) by (intros r Hr; now apply In_dirZ in Hr).
  destruct (updates_ok add sub mul k asc n' krows idiag b Hok (dirZ fwd 0 m) y) as (fin & F1 & _); rewrite ?HL; auto.
  destruct (updates_moved add sub mul k asc m n' o2t t2o krows krows' idiag b idiag' b' HL Hok P1 P2 P3 MR Mb Md (dirZ fwd 0 m) y y' fin Hin My F1) as (fin' & F2 & F3).
  exists fin, fin'. split; auto. split; auto.
  assert (L' : Zlen krows' = m) by (rewrite (proj1 MR); auto).
  destruct (sweep_barrier add sub mul k asc fwd T base' n' krows' A' idiag' b' y' S (fun i => Some i) (map (perm_col o2t) (dirZ fwd 0 m))) as (fin2 & Q1 & Q2); rewrite ?L'; auto.
  - eapply moved_ok; eauto.
  - rewrite (proj1 My). lia.
  - rewrite (proj1 Mb). lia.
  - rewrite (proj1 Md). auto.
  - eapply sched_ok_id; eauto.
  - eapply order_perm; eauto using dirZ_perm.
  - refine (moved_covers_barrier add sub mul m n' o2t t2o krows krows' HL Hok P1 P2 P3 MR fwd S (dirZ fwd 0 m) _ _); [apply dirZ_perm|eapply covers_barrier_sub; eauto].
  - assert (fin2 = fin') by congruence. subst. exact Q2.
Qed.
End Kernel.

(** The matrix made by permute is the reordered one. *)
Theorem permute_moved nd sort (sub : V -> V -> V) o2t t2o T' sch j A' : Permutation t2o (zrange 0 m) -> Zlen o2t = m ->
  (forall p i, get t2o p = Some i -> get o2t i = Some p) -> permute_pre nd sort base n hasv rows lrows A o2t (Some t2o) -> 1 <= T' -> junk_ok A T' j ->
  permute nd sort A o2t (Some t2o) T' sch j = Some A' -> (sort = true -> forall s a b, sub (sub s a) b = sub (sub s b) a) ->
  moved_rows sub o2t t2o rows (perm_rows sort o2t t2o lrows rows) /\ rep hasv base n (perm_rows sort o2t t2o lrows rows) A'.
Proof.
  intros P1 P2 P3 Pre HT Hj E Hs. destruct (permute_main nd sort base n hasv rows lrows A o2t (Some t2o) T' sch j Pre HT Hj) as (A2 & E2 & Post). rewrite E in E2. injection E2 as <-.
  split; [|apply Post]. assert (L2 : Zlen t2o = m). { rewrite (Zlen_perm _ _ P1), Zlen_zrange. pose proof (Zlen_nonneg rows). fold m in H. lia. }
  split. { unfold perm_rows. rewrite Zlen_map. exact L2. }
  intros i r Er. destruct (t2o_range m o2t t2o P1 P3 _ _ Er) as (Bi & Br). destruct (sm_halo _ _ _ _ _ _ _ HM r Br) as (h & Eh & H1 & H2).
  assert (EN : nthl (perm_rows sort o2t t2o lrows rows) i = perm_row sort o2t (nthl lrows r) (nthl rows r)). { unfold perm_rows, nthl at 1. rewrite get_map, Er. reflexivity. }
  rewrite EN. unfold perm_row. rewrite Eh. rewrite slice_app_r.
  assert (Rh : rename o2t h = h). { unfold rename. transitivity (map (fun e : Z * V => e) h); [|apply map_id]. apply map_ext_in. intros (c & v) Hc. cbn [fst snd]. f_equal. unfold perm_col. rewrite get_out; auto. apply H2 in Hc. fold m in Hc. lia. }
  assert (Rapp : rename o2t (nthl lrows r ++ h) = rename o2t (nthl lrows r) ++ h). { unfold rename. rewrite map_app. f_equal. exact Rh. }
  rewrite Rapp. destruct sort; cbn [perm_local]; auto. right. split; [auto|]. apply Permutation_app_tail. apply (perm_local_spec true o2t (nthl lrows r)).
Qed.
End Main.

(** Schedule of [A], permuted matrix, moved vectors: the moved result. *)
Section Reordered.
Context {V : Type}.
Variables (base n : Z) (rows lrows : rows_t V) (A : csr V) (dp : list Z).
Hypothesis HM : sched_matrix true base n rows lrows A dp.
Hypothesis Hok : rows_ok n rows.
Let m := Zlen rows.
Hypothesis Hn : m <= n.
Hypothesis Hbase : 0 <= base.
Hypothesis Hidiag : forall d, idiag A = Some d -> Zlen d = m.
Lemma perm_pre nd sort o2t t2o : Permutation t2o (zrange 0 m) -> Zlen o2t = m -> (forall p i, get t2o p = Some i -> get o2t i = Some p) ->
  permute_pre nd sort base n true rows lrows A o2t (Some t2o).
Proof.
  intros P1 P2 P3. destruct HM as [H1 H2 H3 H4 H5]. pose proof (proj1 H2) as LL.
  split; auto. split; auto. split; auto. split; [exact P1|]. split. { intros r c v Hr Hc. rewrite P2. apply In_get in Hr as (i & Bi & Ei). pose proof (nthl_get _ _ _ Ei) as EN. subst r. split.
    - destruct (sp_split _ H3 i Bi) as (l1 & v1 & l2 & E & A1 & A2 & _). rewrite E in Hc. apply in_app_or in Hc as [Hc|[Hc|Hc]]; [apply A1 in Hc; lia|injection Hc as <- _; lia|apply A2 in Hc; lia].
    - destruct (H5 i ltac:(lia)) as (h & _ & A1 & _). apply (A1 _ _ Hc). }
  split. { intros c Hc. apply In_get in Hc as (r & Br & Er). destruct (t2o_surj m o2t t2o P1 P3 r ltac:(lia)) as (i & Ei & Ei'). assert (c = i) by congruence. subst c. apply get_Some_bounds in Ei. lia. }
  split; auto. split; auto. split; auto. intros _ _ i Hi. destruct (sp_split _ H3 i) as (l1 & v1 & l2 & E & _); [lia|]. exists v1. rewrite E. apply in_or_app. right. now left.
Qed.
Theorem reordered_p2p nd sort T agg tr cost w S o2t t2o T' sch j : sched_args m T cost w -> constructTaskGraph (graph_of A base dp) T false agg tr cost w = Some (S, o2t, t2o) ->
  1 <= T' -> junk_ok A T' j -> exists A' vs', permute nd sort A o2t (Some t2o) T' sch j = Some A' /\ values A' = Some vs' /\
  forall add sub mul k fwd asc idiag b y idiag' b' y', (sort = true -> forall s a b, sub (sub s a) b = sub (sub s b) a) ->
  n <= Zlen y -> m <= Zlen b -> (needs_idiag k = true -> m <= Zlen idiag) -> moved m t2o b b' -> moved m t2o idiag idiag' -> moved m t2o y y' ->
  exists fin fin', updates add sub mul k asc rows idiag b (dirZ fwd 0 m) y = Some fin /\ moved m t2o fin fin' /\
    p2p_computes (rexec add sub mul k A' base vs' idiag' b') None (rops asc A') fwd S (fun i => Some i) T y' fin'.
Proof.
  intros HA E HT Hj. destruct (sched_perms true base n rows lrows A dp HM T agg cost w HA tr S o2t t2o E) as (P1 & P2 & P3). fold m in P1, P2.
  pose proof (perm_pre nd sort o2t t2o P1 P2 P3) as Pre. destruct (permute_main nd sort base n true rows lrows A o2t (Some t2o) T' sch j Pre HT Hj) as (A' & EA & Post).
  exists A', (values_of (perm_rows sort o2t t2o lrows rows)). split; auto. split; [apply Post|].
  intros add sub mul k fwd asc idiag b y idiag' b' y' Hc Hy Hb Hd Mb Md My.
  destruct (permute_moved true base n rows lrows A dp HM nd sort sub o2t t2o T' sch j A' P1 P2 P3 Pre HT Hj EA Hc) as (MR & R').
  apply (moved_sweep_p2p true base n rows lrows A dp HM T agg cost w HA base n rows (perm_rows sort o2t t2o lrows rows) A' R' Hok (sub_refl _) Hn add sub mul k idiag b y idiag' b' y' Hy Hb Hd tr S o2t t2o fwd asc E MR Mb Md My).
Qed.
Theorem reordered_barrier nd sort T agg cost w thb tb S o2t t2o T' sch j : sched_args m T cost w -> world_tasks (graph_of A base dp) T true agg cost w = Some (thb, tb, o2t, t2o) -> has_tasks S T thb tb ->
  1 <= T' -> junk_ok A T' j -> exists A' vs', permute nd sort A o2t (Some t2o) T' sch j = Some A' /\ values A' = Some vs' /\
  forall add sub mul k fwd asc idiag b y idiag' b' y', (sort = true -> forall s a b, sub (sub s a) b = sub (sub s b) a) ->
  n <= Zlen y -> m <= Zlen b -> (needs_idiag k = true -> m <= Zlen idiag) -> moved m t2o b b' -> moved m t2o idiag idiag' -> moved m t2o y y' ->
  exists fin fin', updates add sub mul k asc rows idiag b (dirZ fwd 0 m) y = Some fin /\ moved m t2o fin fin' /\
    barrier_computes (rexec add sub mul k A' base vs' idiag' b') None (rops asc A') fwd S (fun i => Some i) T y' fin'.
Proof.
  intros HA E HS HT Hj. destruct (tasks_perms true base n rows lrows A dp HM T agg cost w HA thb tb o2t t2o E) as (P1 & P2 & P3). fold m in P1, P2.
  pose proof (perm_pre nd sort o2t t2o P1 P2 P3) as Pre. destruct (permute_main nd sort base n true rows lrows A o2t (Some t2o) T' sch j Pre HT Hj) as (A' & EA & Post).
  exists A', (values_of (perm_rows sort o2t t2o lrows rows)). split; auto. split; [apply Post|].
  intros add sub mul k fwd asc idiag b y idiag' b' y' Hc Hy Hb Hd Mb Md My.
  destruct (permute_moved true base n rows lrows A dp HM nd sort sub o2t t2o T' sch j A' P1 P2 P3 Pre HT Hj EA Hc) as (MR & R').
  apply (moved_sweep_barrier true base n rows lrows A dp HM T agg cost w HA base n rows (perm_rows sort o2t t2o lrows rows) A' R' Hok (sub_refl _) Hn add sub mul k idiag b y idiag' b' y' Hy Hb Hd thb tb S o2t t2o fwd asc E HS MR Mb Md My).
Qed.
End Reordered.

(** Happens-before has no cycles. *)
Lemma task_range T m S rowof fwd : sched_ok T m S rowof -> waits_ok fwd S -> forall q q', task_before1 fwd S q q' -> 0 <= q < ntasks S /\ 0 <= q' < ntasks S.
Proof.
  intros SO WO q q' [(Hq & n & c & k & E1 & E2 & Hk & E3)|((t & b & e & E1 & E2 & Hq & Hq') & _)].
  - destruct (WO _ Hq) as (n' & c' & F1 & F2 & F3 & F4). rewrite E1 in F1. rewrite E2 in F2. injection F1 as <-. injection F2 as <-. split; eauto.
  - destruct (so_threads _ _ _ _ SO) as (L & B0 & Bn & Mo). pose proof (get_Some_bounds _ _ _ E1) as X1. pose proof (get_Some_bounds _ _ _ E2) as X2. rewrite L in X1, X2. pose proof (so_T _ _ _ _ SO) as HT.
    pose proof (bounds_range T _ _ t (so_threads _ _ _ _ SO) ltac:(lia) ltac:(lia)) as (Y1 & Y2). pose proof (bounds_range T _ _ (t + 1) (so_threads _ _ _ _ SO) ltac:(lia) ltac:(lia)) as (Z1 & Z2).
    assert (b = zget (threadBoundaries S) t) by congruence. assert (e = zget (threadBoundaries S) (t + 1)) by congruence. split; lia.
Qed.
Lemma before_rank T m S rowof fwd : sched_ok T m S rowof -> waits_ok fwd S -> waits_ranked fwd S -> forall q, ~ task_before fwd S q q.
Proof.
  intros SO WO (rank & HR) q H. assert (G : forall q q', task_before fwd S q q' -> rank q < rank q').
  { intros q1 q2 H1. induction H1 as [q1 q2 H1|q1 q2 q3 _ IH1 _ IH2]; [|lia]. destruct (task_range _ _ _ _ _ SO WO _ _ H1) as (A1 & A2). apply (HR _ _ A1 A2) in H1. lia. }
  apply G in H. lia.
Qed.
Lemma in_task_unique T m S rowof i q q' : sched_ok T m S rowof -> in_task S i q -> in_task S i q' -> q = q'.
Proof.
  intros SO (b & e & E1 & E2 & Hi) (b' & e' & E1' & E2' & Hi'). destruct (so_tasks _ _ _ _ SO) as (L & _).
  pose proof (get_Some_bounds _ _ _ E1). pose proof (get_Some_bounds _ _ _ E2). pose proof (get_Some_bounds _ _ _ E1'). pose proof (get_Some_bounds _ _ _ E2').
  apply (bounds_unique _ _ _ i q q' (so_tasks _ _ _ _ SO)); try lia; unfold zget; rewrite ?E1, ?E2, ?E1', ?E2'; lia.
Qed.
Lemma dir_precedes fwd m r r' : 0 <= r < m -> 0 <= r' < m -> lt_dir fwd r r' -> precedes (dirZ fwd 0 m) r r'.
Proof. intros H H' L. destruct (dirZ_split fwd 0 m r r' H H' L) as (l1 & l2 & l3 & E). now exists l1, l2, l3. Qed.

(** Adjacent rows are ordered by both wait lists, in terms of origToThreadContPerm. *)
Section Ordered.
Context {V : Type}.
Variables (hasv : bool) (base n : Z) (rows lrows : rows_t V) (A : csr V) (dp : list Z).
Hypothesis HM : sched_matrix hasv base n rows lrows A dp.
Let m := Zlen rows.
Variables (T : Z) (agg : bool) (cost : Z -> Z) (w : world).
Hypothesis HA : sched_args m T cost w.
Theorem sched_ordered tr S o2t t2o : constructTaskGraph (graph_of A base dp) T false agg tr cost w = Some (S, o2t, t2o) ->
  inverse_perms m o2t t2o /\
  (forall r r' i i', 0 <= r < r' -> r' < m -> entry rows r r' \/ entry rows r' r -> get o2t r = Some i -> get o2t r' = Some i' ->
     pos_before true S i i' /\ pos_before false S i' i) /\
  forall fwd i, ~ pos_before fwd S i i.
Proof.
  intros E. destruct (sched_perms hasv base n rows lrows A dp HM T agg cost w HA tr S o2t t2o E) as (P1 & P2 & P3). fold m in P1, P2.
  assert (Inv : forall i r, get o2t r = Some i -> get t2o i = Some r). { intros i r G. destruct (t2o_surj m o2t t2o P1 P3 r) as (i' & E1 & E2); [apply get_Some_bounds in G; lia|]. congruence. }
  assert (LT : Zlen t2o = m). { rewrite (Zlen_perm _ _ P1), Zlen_zrange. pose proof (Zlen_nonneg rows). fold m in H. lia. }
  split. { split; auto. split; auto. split; intros r Hr.
    - destruct (t2o_surj m o2t t2o P1 P3 r Hr) as (i & E1 & E2). eauto.
    - destruct (t2o_ok m o2t t2o P1 P3 r Hr) as (i & E1). eauto. }
  pose proof (fun fwd => sched_p2p hasv base n rows lrows A dp HM T agg cost w tr S o2t t2o fwd HA E) as PS. split.
  - intros r r' i i' Hr Hr' D G G'. pose proof (Inv _ _ G) as I1. pose proof (Inv _ _ G') as I2. destruct (t2o_range m o2t t2o P1 P3 _ _ I1), (t2o_range m o2t t2o P1 P3 _ _ I2).
    split; [apply (ps_covers _ _ _ _ _ (PS true) i i' r r')|apply (ps_covers _ _ _ _ _ (PS false) i' i r' r)]; auto; try tauto; apply dir_precedes; cbn [lt_dir]; fold m; try lia.
  - intros fwd i (q & q' & H1 & H2 & [H3|(-> & H3)]); [|destruct fwd; cbn [lt_dir] in H3; lia].
    destruct (PS fwd) as [A1 A2 A3 _]. assert (q = q') by (eapply in_task_unique; eauto). subst q'. eapply before_rank; eauto.
Qed.
End Ordered.
