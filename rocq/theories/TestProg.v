(** * The programs gs_test and trsv_test from the matrix to the compared vectors.

    test/gs_test.cpp:570-793, test/trsv_test.cpp:459-720.  One pass of the loops
    over the synchronisation options is modelled, for every option.  Timing, output,
    flushing of the caches and the sections for MKL are not modelled; the comparison
    of the vectors is that of Check.v. *)
From Coq Require Import Ring_theory Ring Permutation Sorted.
From Verif Require Import Base Interleave Spec PermUtils Flat Csr CsrTools CsrOps RowPar P2P P2PProg Exec Kernels Levels LevelsFacts LevelsMain Tasks LevelsCsr TaskGraph TaskGraphFacts TaskGraphLists TaskGraphMain TaskGraphOrder TaskGraphCsr Permute PermuteFacts PermuteMain Sched SchedPerm SplitLU SymPattern SpMV Solve Pcg PcgMain Sgs SgsExact SchedCases MmStore OnePerm.
Set Warnings "-ambiguous-paths".
Open Scope Z_scope.

(** ** Model *)
(** trsv_test.cpp:479-525 with LevelSchedule.cpp:164-169: what the schedules are built
    from.  symDiagPtr has one more element, which is not used. *)
Definition trsv_graph {V} (A : csr V) (T : Z) (sch : nat -> list nat) (j : sym_junk) dsch djunk : option gr :=
  ' (was, r) <- getSymmetricNnzPattern A T sch j ;;
  if was then B <- constructDiagPtr A dsch djunk ;; d <- diagptr B ;; base <- get (rowptr B) 0 ;; Some (graph_of B base d)
  else a <- r ;; base <- get (sy_rowptr a) 0 ;;
    Some (mkGr (cm A) base (sy_rowptr a) (slice (sy_diagptr a) 0 (cm A)) (match sy_extptr a with Some e => e | None => tl (sy_rowptr a) end) (sy_colidx a)).
(** Utils.cpp:196-203 getReorderVector: new memory [dst] *)
Definition getReorderVector {V} (dst v : list V) (perm : list Z) (len : Z) (tr : list Z) : option (list V) := reorderVectorOutOfPlace dst v (Some perm) len tr.

(** ** Proofs *)
(** Vectors there and back. *)
Section Vectors.
Variables (m : Z) (o2t t2o : list Z).
Hypothesis HP : Permutation t2o (zrange 0 m).
Hypothesis HO : Zlen o2t = m.
Hypothesis HI : forall p i, get t2o p = Some i -> get o2t i = Some p.
Lemma two_perms : inverse_perms m o2t t2o.
Proof.
  assert (LT : Zlen t2o = m) by (rewrite (Zlen_perm _ _ HP), Zlen_zrange; pose proof (Zlen_nonneg o2t); lia).
  split; auto. split; auto. split.
  - intros i Hi. destruct (t2o_surj m o2t t2o HP HI i Hi) as (k & E1 & E2). eauto.
  - intros k Hk. destruct (get_in_range t2o k) as (i & E); [lia|]. eauto.
Qed.
Lemma m_nonneg : 0 <= m.
Proof. rewrite <- HO. apply Zlen_nonneg. Qed.
Context {V : Type}.
Implicit Types v tmp : list V.
Lemma placed_there v tmp tr : Zlen v = m -> Zlen tmp = m -> Permutation tr (zrange 0 m) -> exists v', getReorderVector tmp v o2t m tr = Some v' /\ placed m t2o v v'.
Proof.
  intros Lv Lt P. destruct (inverse_perms_is_perm _ _ _ two_perms) as (Q & _). destruct (reorderVectorOutOfPlace_ok m v tmp o2t tr m_nonneg Q Lv Lt P) as (v' & E & L & F).
  exists v'. split; auto. split; auto. split; auto. intros i r Er. apply (F r i); auto. destruct (t2o_range m o2t t2o HP HI _ _ Er). auto.
Qed.
Lemma placed_in_place v tmp tr1 tr2 : Zlen v = m -> Zlen tmp = m -> Permutation tr1 (zrange 0 m) -> Permutation tr2 (zrange 0 m) ->
  exists v', reorderVector v tmp (Some o2t) m tr1 tr2 = Some v' /\ placed m t2o v v'.
Proof.
  intros Lv Lt P1 P2. destruct (placed_there v tmp tr1 Lv Lt P1) as (v' & E & P). pose proof P as (_ & L & _). exists v'. split; auto. unfold getReorderVector in E. cbn [reorderVector]. rewrite E. now rewrite (PermUtils.copy_ok v' v m).
Qed.
Lemma placed_back v v' tmp tr1 tr2 : placed m t2o v v' -> Zlen tmp = m -> Permutation tr1 (zrange 0 m) -> Permutation tr2 (zrange 0 m) ->
  reorderVector v' tmp (Some t2o) m tr1 tr2 = Some v.
Proof.
  intros (Lv & Lv' & H) Lt P1 P2. destruct (inverse_perms_is_perm _ _ _ two_perms) as (_ & Q). destruct (reorderVectorOutOfPlace_ok m v' tmp t2o tr1 m_nonneg Q Lv' Lt P1) as (u & E & L & F).
  assert (u = v). { apply list_ext; [lia|]. intros r Hr. destruct (t2o_surj m o2t t2o HP HI r ltac:(lia)) as (i & Ei & _). destruct (t2o_range m o2t t2o HP HI _ _ Ei). rewrite (F i r ltac:(lia) Ei). auto. }
  subst u. cbn [reorderVector]. rewrite E. now rewrite (PermUtils.copy_ok v v' m).
Qed.
End Vectors.

(** A forward and a backward sweep over the three schedules. *)
Section Pair.
Context {W V : Type}.
Variables (hasv : bool) (base n : Z) (rows lrows : rows_t W) (P : csr W) (dp : list Z).
Hypothesis HM : sched_matrix hasv base n rows lrows P dp.
Notation m := (Zlen rows).
Variables (T : Z) (agg : bool) (cost : Z -> Z) (w1 w2 w3 : world) (SB S1 S2 : schedule) (ob tb o1 t1 o2t t2o : list Z).
Hypothesis HA1 : sched_args m T cost w1.
Hypothesis HA2 : sched_args m T cost w2.
Hypothesis HA3 : sched_args m T cost w3.
Hypothesis E1 : constructTaskGraph (graph_of P base dp) T true agg false cost w1 = Some (SB, ob, tb).
Hypothesis E2 : constructTaskGraph (graph_of P base dp) T false agg false cost w2 = Some (S1, o1, t1).
Hypothesis E3 : constructTaskGraph (graph_of P base dp) T false agg true cost w3 = Some (S2, o2t, t2o).
Variables (kb : Z) (frows brows : rows_t V) (F B : csr V) (add sub mul : V -> V -> V) (kf kk : ending) (ids : list V).
Hypothesis RF : rep true kb m frows F.
Hypothesis RB : rep true kb m brows B.
Hypothesis OF : rows_ok m frows.
Hypothesis OB : rows_ok m brows.
Hypothesis SF : sub_pattern frows rows.
Hypothesis SBk : sub_pattern brows rows.
Hypothesis Ld : Zlen ids = m.

Lemma perms3 : Permutation t2o (zrange 0 m) /\ Zlen o2t = m /\ forall p i, get t2o p = Some i -> get o2t i = Some p.
Proof. exact (sched_perms hasv base n rows lrows P dp HM T agg cost w3 HA3 true S2 o2t t2o E3). Qed.
Lemma updates_len k asc (kr : rows_t V) b order y fin : updates add sub mul k asc kr ids b order y = Some fin -> Zlen fin = Zlen y.
Proof.
  unfold updates. revert y. induction order as [|r l IH]; intros y E; cbn [foldM] in E; [injection E as <-; auto|].
  destruct (update add sub mul k asc kr ids b r y) as [y1|] eqn:E0; [|discriminate]. rewrite (IH y1 E). unfold update in E0.
  repeat match type of E0 with (match ?o with _ => _ end) = _ => destruct o; [|discriminate E0] end. now rewrite (set_len _ _ _ _ E0).
Qed.
Theorem pair_plain b y x : Zlen b = m -> Zlen y = m -> Zlen x = m ->
  exists fy fx, ref_sweep add sub mul kf true F kb (values_of frows) ids b y = Some fy /\
    all_compute (rexec add sub mul kf F kb (values_of frows) ids b) None (rops true F) true SB S1 S2 (get t2o) T y fy /\
    updates add sub mul kk false brows ids fy (rev (zrange 0 m)) x = Some fx /\
    ((forall s a b, sub (sub s a) b = sub (sub s b) a) -> ref_sweep add sub mul kk false B kb (values_of brows) ids fy x = Some fx) /\
    all_compute (rexec add sub mul kk B kb (values_of brows) ids fy) None (rops false B) false SB S1 S2 (get t2o) T x fx.
Proof.
  intros Lb Ly Lx.
  destruct (all_sweeps hasv base n rows lrows P dp HM T agg cost w1 w2 w3 SB S1 S2 ob tb o1 t1 o2t t2o HA1 HA2 HA3 E1 E2 E3 kb m frows F RF OF SF (Z.le_refl _) add sub mul kf ids b y ltac:(lia) ltac:(lia) ltac:(lia) true true) as (fy & U1 & R1 & C1).
  pose proof (updates_len _ _ _ _ _ _ _ U1) as Lf.
  destruct (all_sweeps hasv base n rows lrows P dp HM T agg cost w1 w2 w3 SB S1 S2 ob tb o1 t1 o2t t2o HA1 HA2 HA3 E1 E2 E3 kb m brows B RB OB SBk (Z.le_refl _) add sub mul kk ids fy x ltac:(lia) ltac:(lia) ltac:(lia) false false) as (fx & U2 & R2 & C2).
  exists fy, fx. split; auto. split; auto.
Qed.
(** The same with permuted matrices. *)
Variables (frows' brows' : rows_t V) (F' B' : csr V) (ids' : list V).
Hypothesis RF' : rep true kb m frows' F'.
Hypothesis RB' : rep true kb m brows' B'.
Hypothesis MF : moved_rows sub o2t t2o frows frows'.
Hypothesis MB : moved_rows sub o2t t2o brows brows'.
Hypothesis MD : placed m t2o ids ids'.
Theorem pair_moved b y x tmp tr fy fx : Zlen b = m -> Zlen y = m -> Zlen x = m -> (forall k : nat, Zlen (tmp k : list V) = m) -> (forall k : nat, Permutation (tr k) (zrange 0 m)) ->
  updates add sub mul kf true frows ids b (zrange 0 m) y = Some fy -> updates add sub mul kk false brows ids fy (rev (zrange 0 m)) x = Some fx ->
  exists b' y' x' fy' fx', getReorderVector (tmp 0%nat) b o2t m (tr 0%nat) = Some b' /\ reorderVector x (tmp 1%nat) (Some o2t) m (tr 1%nat) (tr 2%nat) = Some x' /\ reorderVector y (tmp 2%nat) (Some o2t) m (tr 3%nat) (tr 4%nat) = Some y' /\
    all_compute (rexec add sub mul kf F' kb (values_of frows') ids' b') None (rops true F') true SB S1 S2 (fun i => Some i) T y' fy' /\
    all_compute (rexec add sub mul kk B' kb (values_of brows') ids' fy') None (rops false B') false SB S1 S2 (fun i => Some i) T x' fx' /\
    reorderVector fx' (tmp 3%nat) (Some t2o) m (tr 5%nat) (tr 6%nat) = Some fx.
Proof.
  intros Lb Ly Lx Lt Pt U1 U2. destruct perms3 as (P1 & P2 & P3).
  destruct (placed_there m o2t t2o P1 P2 P3 b (tmp 0%nat) (tr 0%nat)) as (b' & Eb & Mb); auto.
  destruct (placed_in_place m o2t t2o P1 P2 P3 x (tmp 1%nat) (tr 1%nat) (tr 2%nat)) as (x' & Ex & Mx); auto.
  destruct (placed_in_place m o2t t2o P1 P2 P3 y (tmp 2%nat) (tr 3%nat) (tr 4%nat)) as (y' & Ey & My); auto.
  assert (PM : forall l l' : list V, placed m t2o l l' -> moved m t2o l l') by (intros l l' (Q1 & Q2 & Q3); split; [lia|]; split; auto; intros p Hp; rewrite !get_out by lia; reflexivity).
  destruct (all_moved hasv base n rows lrows P dp HM T agg cost w1 w2 w3 SB S1 S2 ob tb o1 t1 o2t t2o HA1 HA2 HA3 E1 E2 E3 kb m frows OF SF (Z.le_refl _) add sub mul kf ids b y ltac:(lia) ltac:(lia) ltac:(lia) frows' F' ids' b' y' RF' MF (PM _ _ Mb) (PM _ _ MD) (PM _ _ My) true true) as (gy & fy' & V1 & N1 & C1).
  cbn [dirZ] in V1. assert (gy = fy) by congruence. subst gy. pose proof (updates_len _ _ _ _ _ _ _ U1) as Lf.
  destruct (all_moved hasv base n rows lrows P dp HM T agg cost w1 w2 w3 SB S1 S2 ob tb o1 t1 o2t t2o HA1 HA2 HA3 E1 E2 E3 kb m brows OB SBk (Z.le_refl _) add sub mul kk ids fy x ltac:(lia) ltac:(lia) ltac:(lia) brows' B' ids' fy' x' RB' MB N1 (PM _ _ MD) (PM _ _ Mx) false false) as (gx & fx' & V2 & N2 & C2).
  cbn [dirZ] in V2. assert (gx = fx) by congruence. subst gx. pose proof (updates_len _ _ _ _ _ _ _ U2) as Lg.
  exists b', y', x', fy', fx'. do 5 (split; [auto|]). apply (placed_back m o2t t2o P1 P2 P3 fx); auto. destruct N2 as (Q1 & Q2 & _). split; [lia|]. split; auto. lia.
Qed.
End Pair.

(** ** gs_test *)
Section Gs.
Context {V : Type}.
Variables (base : Z) (rows : rows_t V) (A : csr V) (dp : list Z) (ids : list V).
Notation m := (Zlen rows).
Hypothesis Hb : base = 0 \/ base = 1.
Hypothesis HM : sched_matrix true base m rows rows A dp.
Hypothesis Hok : rows_ok m rows.
Hypothesis Hid : idiag A = Some ids.
Hypothesis Lid : Zlen ids = m.
Lemma gs_permute (sub : V -> V -> V) nd o2t t2o T sch j : Permutation t2o (zrange 0 m) -> Zlen o2t = m -> (forall p i, get t2o p = Some i -> get o2t i = Some p) ->
  (forall s a b, sub (sub s a) b = sub (sub s b) a) -> 1 <= T -> junk_ok A T j ->
  exists A' rows' ids', permute nd true A o2t (Some t2o) T sch j = Some A' /\ rep true base m rows' A' /\ moved_rows sub o2t t2o rows rows' /\ idiag A' = Some ids' /\ placed m t2o ids ids'.
Proof.
  intros P1 P2 P3 Hs HT J. assert (Hm := Zlen_nonneg rows). assert (HI : forall d, idiag A = Some d -> Zlen d = m) by (intros d E; congruence).
  pose proof (perm_pre base m rows rows A dp HM ltac:(lia) HI nd true o2t t2o P1 P2 P3) as Pre.
  destruct (permute_main nd true base m true rows rows A o2t (Some t2o) T sch j Pre HT J) as (M' & E & R' & _ & _ & _ & Sh & _ & Id & _).
  cbn [sources] in *. rewrite Hid in Sh. destruct Sh as (d' & Ed' & Ld'). exists M', (perm_rows true o2t t2o rows rows), d'. split; auto. split; auto. split; [|split; auto; split; auto].
  destruct (permute_moved true base m rows rows A dp HM nd true sub o2t t2o T sch j M' P1 P2 P3 Pre HT J E) as (MR & _); auto.
Qed.
Variables (T : Z) (agg : bool) (cost : Z -> Z) (w1 w2 w3 : world) (SB S1 S2 : schedule) (ob tb o1 t1 o2t t2o : list Z).
Hypothesis HA1 : sched_args m T cost w1.
Hypothesis HA2 : sched_args m T cost w2.
Hypothesis HA3 : sched_args m T cost w3.
Hypothesis E1 : constructTaskGraph (graph_of A base dp) T true agg false cost w1 = Some (SB, ob, tb).
Hypothesis E2 : constructTaskGraph (graph_of A base dp) T false agg false cost w2 = Some (S1, o1, t1).
Hypothesis E3 : constructTaskGraph (graph_of A base dp) T false agg true cost w3 = Some (S2, o2t, t2o).
Variables (add sub mul : V -> V -> V).
(** gs_test.cpp:637-696 *)
Theorem gs_test_plain b y x : Zlen b = m -> Zlen y = m -> Zlen x = m ->
  exists fy fx, ref_sweep add sub mul AddScaled true A base (values_of rows) ids b y = Some fy /\
    all_compute (rexec add sub mul AddScaled A base (values_of rows) ids b) None (rops true A) true SB S1 S2 (get t2o) T y fy /\
    updates add sub mul AddScaled false rows ids fy (rev (zrange 0 m)) x = Some fx /\
    ((forall s a b, sub (sub s a) b = sub (sub s b) a) -> ref_sweep add sub mul AddScaled false A base (values_of rows) ids fy x = Some fx) /\
    all_compute (rexec add sub mul AddScaled A base (values_of rows) ids fy) None (rops false A) false SB S1 S2 (get t2o) T x fx.
Proof.
  apply (pair_plain true base m rows rows A dp HM T agg cost w1 w2 w3 SB S1 S2 ob tb o1 t1 o2t t2o HA1 HA2 HA3 E1 E2 E3 base rows rows A A add sub mul AddScaled AddScaled ids (sm_rep _ _ _ _ _ _ _ HM) (sm_rep _ _ _ _ _ _ _ HM) Hok Hok (sub_refl _) (sub_refl _) Lid).
Qed.
(** gs_test.cpp:607, 702-784 *)
Theorem gs_test_reordered nd psch j : (forall s a b, sub (sub s a) b = sub (sub s b) a) -> junk_ok A T j ->
  exists A' vs' ids', permute nd true A o2t (Some t2o) T psch j = Some A' /\ values A' = Some vs' /\ idiag A' = Some ids' /\
  forall b y x tmp tr, Zlen b = m -> Zlen y = m -> Zlen x = m -> (forall k : nat, Zlen (tmp k : list V) = m) -> (forall k : nat, Permutation (tr k) (zrange 0 m)) ->
  exists fy fx, ref_sweep add sub mul AddScaled true A base (values_of rows) ids b y = Some fy /\ ref_sweep add sub mul AddScaled false A base (values_of rows) ids fy x = Some fx /\
  exists b' y' x' fy' fx', getReorderVector (tmp 0%nat) b o2t m (tr 0%nat) = Some b' /\ reorderVector x (tmp 1%nat) (Some o2t) m (tr 1%nat) (tr 2%nat) = Some x' /\ reorderVector y (tmp 2%nat) (Some o2t) m (tr 3%nat) (tr 4%nat) = Some y' /\
    all_compute (rexec add sub mul AddScaled A' base vs' ids' b') None (rops true A') true SB S1 S2 (fun i => Some i) T y' fy' /\
    all_compute (rexec add sub mul AddScaled A' base vs' ids' fy') None (rops false A') false SB S1 S2 (fun i => Some i) T x' fx' /\
    reorderVector fx' (tmp 3%nat) (Some t2o) m (tr 5%nat) (tr 6%nat) = Some fx.
Proof.
  intros Hs J. destruct (perms3 true base m rows rows A dp HM T agg cost w3 S2 o2t t2o HA3 E3) as (P1 & P2 & P3). pose proof (sa_T _ _ _ _ HA3) as HT.
  destruct (gs_permute sub nd o2t t2o T psch j P1 P2 P3 Hs HT J) as (A' & rows' & ids' & EA & R' & MR & EI & MD). exists A', (values_of rows'), ids'. split; auto. split; [apply R'|]. split; auto.
  intros b y x tmp tr Lb Ly Lx Lt Pt. destruct (gs_test_plain b y x Lb Ly Lx) as (fy & fx & F1 & _ & F2 & F3 & _). specialize (F3 Hs). exists fy, fx. split; auto. split; auto.
  rewrite (ref_sweep_updates add sub mul AddScaled true base m rows A ids b y (sm_rep _ _ _ _ _ _ _ HM) Hok) in F1. cbn [dirZ] in F1.
  apply (pair_moved true base m rows rows A dp HM T agg cost w1 w2 w3 SB S1 S2 ob tb o1 t1 o2t t2o HA1 HA2 HA3 E1 E2 E3 base rows rows add sub mul AddScaled AddScaled ids Hok Hok (sub_refl _) (sub_refl _) Lid rows' rows' A' A' ids' R' R' MR MR MD b y x tmp tr fy fx); auto.
Qed.
End Gs.

(** ** trsv_test *)
Lemma split_sorted {V} (l : list (Z * V)) i v : ssortedZ (map fst l) -> In (i, v) l ->
  exists l1 l2, l = l1 ++ (i, v) :: l2 /\ (forall c w, In (c, w) l1 -> c < i) /\ (forall c w, In (c, w) l2 -> i < c) /\ NoDup (map fst l).
Proof.
  intros HS HI. pose proof (ssorted_NoDup' _ HS) as N. apply in_split in HI as (l1 & l2 & ->). exists l1, l2. split; auto. unfold ssortedZ in HS. rewrite map_app in HS. cbn [map fst] in HS. split; [|split; auto].
  - intros c w Hc. apply (in_map fst) in Hc. cbn [fst] in Hc. clear N. induction (map fst l1) as [|a l IH]; [easy|]. cbn [app] in HS. inversion HS as [|x y Hs Hf]; subst. destruct Hc as [->|Hc]; [|auto]. rewrite Forall_forall in Hf. apply Hf, in_app_iff. right. now left.
  - intros c w Hc. apply (in_map fst) in Hc. cbn [fst] in Hc. clear N. induction (map fst l1) as [|a l IH]; cbn [app] in HS; inversion HS as [|x y Hs Hf]; subst; [|auto]. rewrite Forall_forall in Hf. now apply Hf.
Qed.
Lemma sorted_pattern {V} (rows : rows_t V) : rows_ok (Zlen rows) rows -> (forall i, 0 <= i < Zlen rows -> ssortedZ (map fst (nthl rows i))) -> full_diag rows ->
  (forall i j, 0 <= i < Zlen rows -> 0 <= j < Zlen rows -> entry rows i j -> entry rows j i) -> sym_pattern rows.
Proof.
  intros Hok Hs Hf Hy. constructor; auto. intros i Hi. destruct (Hf i Hi) as (v & Hv). destruct (split_sorted _ _ _ (Hs i Hi) Hv) as (l1 & l2 & E & A1 & A2 & N). exists l1, v, l2. split; auto. split; auto.
  intros c w Hc. split; [|eauto]. apply (Hok _ c w (nth_row_In rows i Hi)). rewrite E. apply in_app_iff. auto.
Qed.
Lemma sorted_le {V} (rows : rows_t V) : (forall i, 0 <= i < Zlen rows -> ssortedZ (map fst (nthl rows i))) -> rows_sorted rows.
Proof.
  intros H r Hr. apply In_get in Hr as (i & Hi & E). specialize (H i Hi). rewrite (nthl_get _ _ _ E) in H. unfold row_sorted, sortedZ. unfold ssortedZ in H.
  induction H as [|a l HS IH HF]; constructor; auto. eapply Forall_impl; [|exact HF]. cbn. lia.
Qed.

Section Trsv.
Context {V : Type}.
Variables (rows : rows_t V) (A : csr V).
Notation m := (Zlen rows).
Hypothesis HR : rep true 0 m rows A.
Hypothesis Hok : rows_ok m rows.
Hypothesis Hs : forall i, 0 <= i < m -> ssortedZ (map fst (nthl rows i)).
Hypothesis Hf : full_diag rows.
Hypothesis HX : extptr A = None.
Hypothesis HD : forall d, diagptr A = Some d -> diag_first 0 rows d.
Variables (T : Z) (sch : nat -> list nat) (j : sym_junk).
Hypothesis HT : 1 <= T.
Hypothesis HJ : sym_junk_ok m j.
Theorem trsv_pattern dsch djunk : Zlen djunk = m -> exists G (W : Type) hasv (srows : rows_t W) P dp, trsv_graph A T sch j dsch djunk = Some G /\
  G = graph_of P 0 dp /\ sched_matrix hasv 0 m srows srows P dp /\ Zlen srows = m /\ sub_pattern rows srows.
Proof.
  intros Lj. pose proof (Zlen_nonneg rows) as Hm. assert (HL : local_rows 0 rows A rows). { split; auto. now rewrite HX. } assert (HH : halo_last rows rows) by now apply halo_none.
  destruct (symmetrise_ok true m rows rows A HR HL HH Hs) with (T := T) (sch := sch) (j := j) as (b & r & E & Eb & Er); auto.
  { intros i c v Hi Hc. apply (Hok _ c v (nth_row_In rows i Hi)) in Hc. lia. }
  unfold trsv_graph. rewrite E. destruct r as [a|].
  - destruct Er as (-> & ps & (Lp & HU) & full & Lf & HF & L1 & F1 & F2 & F3 & F4). rewrite HX in F3. destruct (sy_extptr a); [destruct F3; discriminate|].
    assert (full = ps). { apply (list_eq_get _ _ m); auto. intros i Hi. destruct (HF i Hi) as (h & Q1 & Q2). assert (h = []) by (apply (app_inv_head (nthl rows i)); now rewrite app_nil_r). subst h. cbn [map] in Q2. rewrite app_nil_r in Q2. rewrite !get_nthl by lia. now rewrite Q2. }
    subst full. set (srows := map (map (fun c => (c, tt))) ps : rows_t unit). set (P := mkCSR m m (sy_rowptr a) (sy_colidx a) (@None (list unit)) None None None None). set (dp := slice (sy_diagptr a) 0 m).
    assert (Ls : Zlen srows = m) by (unfold srows; now rewrite Zlen_map).
    assert (NR : forall i, 0 <= i < m -> nthl srows i = map (fun c => (c, tt)) (nthl ps i)) by (intros i Hi; unfold srows; apply nthl_get; rewrite get_map, get_nthl by lia; reflexivity).
    assert (OF : forall i, 0 <= i <= m -> off (nthl srows) i = off (nthl ps) i). { intros i Hi. apply before_ext. intros k Hk. rewrite NR by lia. apply Zlen_map. }
    assert (ENT : forall i c, 0 <= i < m -> entry srows i c <-> entry rows i c \/ entry rows c i). { intros i c Hi. rewrite <- (proj2 (HU i Hi)). unfold entry. rewrite NR by auto. split; [intros (v & Hv); apply in_map_iff in Hv as (c' & Q & Hc'); congruence|]. intros Hc. exists tt. apply in_map_iff. eauto. }
    assert (RNG : forall i c, entry rows i c -> 0 <= i < m /\ 0 <= c < m). { intros i c (v & Hv). assert (0 <= i < m). { destruct (Z_lt_ge_dec i 0) as [H|H]; [|destruct (Z_lt_ge_dec i m) as [H'|H']; [lia|]]; rewrite MmStore.nthl_out in Hv by lia; destruct Hv. } split; auto. apply (Hok _ c v (nth_row_In rows i ltac:(lia)) Hv). }
    assert (OK : rows_ok m srows). { intros r c v Hr Hc. apply In_get in Hr as (i & Hi & Q). rewrite Ls in Hi. pose proof (nthl_get _ _ _ Q) as Q'. assert (He : entry srows i c) by (exists v; now rewrite Q'). apply ENT in He as [He|He]; auto; apply RNG in He; lia. }
    assert (SS : forall i, 0 <= i < m -> ssortedZ (map fst (nthl srows i))). { intros i Hi. rewrite NR by auto. rewrite map_map. cbn [fst]. rewrite map_id. apply (HU i Hi). }
    assert (DG : forall i, 0 <= i < m -> exists l1 l2, nthl srows i = l1 ++ (i, tt) :: l2 /\ (forall c w, In (c, w) l1 -> c < i) /\ get dp i = Some (0 + off (nthl srows) i + Zlen l1)).
    { intros i Hi. destruct (Hf i Hi) as (v & Hv). assert (He : entry rows i i) by now exists v. destruct (F4 i Hi He) as (k & Gk & Gd). assert (Gs : get (nthl srows i) k = Some (i, tt)) by (rewrite NR by auto; rewrite get_map, Gk; reflexivity).
      pose proof (get_In _ _ _ Gs) as Is. destruct (split_sorted _ _ _ (SS i Hi) Is) as (l1 & l2 & Q & A1 & A2 & N). exists l1, l2. split; auto. split; auto.
      assert (k = Zlen l1). { assert (Gk' : get (nthl srows i) (Zlen l1) = Some (i, tt)) by (rewrite Q, get_app_r, Z.sub_diag by lia; reflexivity). apply (PermUtils.NoDup_get_inj (map fst (nthl srows i)) k (Zlen l1) i N); rewrite get_map; [rewrite Gs|rewrite Gk']; reflexivity. }
      unfold dp. rewrite get_slice by lia. replace (0 + i) with i by lia. rewrite Gd, OF by lia. f_equal. lia. }
    assert (Ld : Zlen dp = m). { unfold dp. rewrite Zlen_slice; [lia|lia|]. destruct (Z.eq_dec m 0) as [->|]; [apply Zlen_nonneg|]. destruct (Hf (m - 1) ltac:(lia)) as (v & Hv). destruct (F4 (m - 1) ltac:(lia)) as (k & _ & Gd); [now exists v|]. apply get_Some_bounds in Gd. lia. }
    assert (RP : rep false 0 m srows P).
    { split; [now rewrite Ls|]. split; auto. split; [|split; auto].
      - apply (list_eq_get _ _ (m + 1)); [exact L1|rewrite Zlen_rowptr_of; lia|]. intros i Hi. cbn [P rowptr]. rewrite F1, get_rowptr_of by lia. rewrite OF by lia. f_equal; lia.
      - cbn [P colidx]. rewrite F2. unfold colidx_of, srows. rewrite <- concat_map, map_map. cbn [fst]. rewrite (map_ext _ (fun c => c)) by (intros; lia). now rewrite map_id. }
    exists (graph_of P 0 dp), unit, false, srows, P, dp. assert (Hcm : cm A = m) by apply HR. rewrite (F1 0 ltac:(lia)), off_0, Hcm. split; auto. split; auto. split; [|split; auto].
    + constructor; auto.
      * split; [auto|reflexivity].
      * apply sorted_pattern; rewrite ?Ls; auto.
        -- intros i Hi. rewrite Ls in Hi. destruct (DG i Hi) as (l1 & l2 & Q & _). exists tt. rewrite Q. apply in_app_iff. right. now left.
        -- intros i c Hi Hc He. apply ENT in He; auto. apply ENT; tauto.
      * split; [lia|]. intros i Hi. rewrite Ls in Hi. destruct (DG i Hi) as (l1 & l2 & Q & A1 & Gd). eauto 6.
      * apply halo_none. now rewrite Ls.
    + split; [lia|]. intros i c He. pose proof (RNG _ _ He). apply ENT; auto. lia.
  - subst b. assert (SY : symmetric_pattern rows) by now apply Eb.
    assert (QB : exists B d, constructDiagPtr A dsch djunk = Some B /\ diagptr B = Some d /\ diag_first 0 rows d /\ rep true 0 m rows B /\ extptr B = None).
    { unfold constructDiagPtr. destruct (diagptr A) as [d|] eqn:Ed; [exists A, d; auto 7|]. rewrite (rep_base _ _ _ _ _ HR).
      destruct (constructDiagPtr_ok true 0 m rows A dsch djunk HR (or_introl eq_refl) (sorted_le _ Hs) Hf Lj) as (d & -> & Hd). eexists. exists d. split; [reflexivity|]. cbn. auto. }
    destruct QB as (B & d & -> & EdB & Hd & RB & XB). rewrite EdB, (rep_rowptr _ _ _ _ _ 0 RB) by lia. rewrite off_0. exists (graph_of B 0 d), V, true, rows, B, d. split; auto. split; auto. split; [|split; auto using sub_refl].
    constructor; auto; [split; auto; now rewrite XB|]. apply sorted_pattern; auto.
Qed.
Variables (ids : list V) (dsch : list nat) (djunk : list Z).
Hypothesis Hid : idiag A = Some ids.
Hypothesis Lid : Zlen ids = m.
Hypothesis Lj : Zlen djunk = m.
(** trsv_test.cpp:466-712.  L without the diagonal is solved forward with the inverse
    diagonal, U without the diagonal backward without it. *)
Theorem trsv_test_ok ssch sj s1 s2 s3 s4 : sl_junk_ok m T sj ->
  exists L U G, splitLU A T ssch sj s1 s2 s3 s4 = Some (A, L, U) /\ trsv_graph A T sch j dsch djunk = Some G /\
  forall agg cost,
  (T <= 2 -> forall bar tr w, bar = false \/ tr = false -> sched_args m T cost w -> exists S o2t t2o, constructTaskGraph G T bar agg tr cost w = Some (S, o2t, t2o)) /\
  forall w1 w2 w3 SB S1 S2 ob tb o1 t1 o2t t2o, sched_args m T cost w1 -> sched_args m T cost w2 -> sched_args m T cost w3 ->
  constructTaskGraph G T true agg false cost w1 = Some (SB, ob, tb) -> constructTaskGraph G T false agg false cost w2 = Some (S1, o1, t1) -> constructTaskGraph G T false agg true cost w3 = Some (S2, o2t, t2o) ->
  forall add sub mul,
  let lr := select lower rows in let ur := select upper rows in
  (forall b y x, Zlen b = m -> Zlen y = m -> Zlen x = m ->
   exists fy fx, ref_sweep add sub mul Scaled true L 0 (values_of lr) ids b y = Some fy /\
    all_compute (rexec add sub mul Scaled L 0 (values_of lr) ids b) None (rops true L) true SB S1 S2 (get t2o) T y fy /\
    updates add sub mul Plain false ur ids fy (rev (zrange 0 m)) x = Some fx /\
    ((forall s a b, sub (sub s a) b = sub (sub s b) a) -> ref_sweep add sub mul Plain false U 0 (values_of ur) ids fy x = Some fx) /\
    all_compute (rexec add sub mul Plain U 0 (values_of ur) ids fy) None (rops false U) false SB S1 S2 (get t2o) T x fx) /\
  ((forall s a b, sub (sub s a) b = sub (sub s b) a) ->
   forall nd psch psch' jl ju, junk_ok L T jl -> junk_ok U T ju ->
   exists L' U' vl vu ids', permute nd true L o2t (Some t2o) T psch jl = Some L' /\ permute nd true U o2t (Some t2o) T psch' ju = Some U' /\ values L' = Some vl /\ values U' = Some vu /\ idiag L' = Some ids' /\ idiag U' = Some ids' /\
   forall b y x tmp tr, Zlen b = m -> Zlen y = m -> Zlen x = m -> (forall k : nat, Zlen (tmp k : list V) = m) -> (forall k : nat, Permutation (tr k) (zrange 0 m)) ->
   exists fy fx, ref_sweep add sub mul Scaled true L 0 (values_of lr) ids b y = Some fy /\ ref_sweep add sub mul Plain false U 0 (values_of ur) ids fy x = Some fx /\
   exists b' y' x' fy' fx', getReorderVector (tmp 0%nat) b o2t m (tr 0%nat) = Some b' /\ reorderVector x (tmp 1%nat) (Some o2t) m (tr 1%nat) (tr 2%nat) = Some x' /\ reorderVector y (tmp 2%nat) (Some o2t) m (tr 3%nat) (tr 4%nat) = Some y' /\
    all_compute (rexec add sub mul Scaled L' 0 vl ids' b') None (rops true L') true SB S1 S2 (fun i => Some i) T y' fy' /\
    all_compute (rexec add sub mul Plain U' 0 vu ids' fy') None (rops false U') false SB S1 S2 (fun i => Some i) T x' fx' /\
    reorderVector fx' (tmp 3%nat) (Some t2o) m (tr 5%nat) (tr 6%nat) = Some fx).
Proof.
  intros HSJ. assert (HL : local_rows 0 rows A rows). { split; auto. now rewrite HX. }
  destruct (splitLU_ok 0 m rows rows A ids T ssch sj s1 s2 s3 s4 (or_introl eq_refl) HR HL) as (L & U & ES & RL & RU & XL & LU & XU & IL & IU & DL & DU); auto.
  { intros d Ed. rewrite (proj1 (HD d Ed)). symmetry. apply HR. } { intros i k c v Hi Hk Q. apply get_Some_bounds in Q. lia. } { congruence. }
  destruct (trsv_pattern dsch djunk Lj) as (G & W & hasv & srows & P & dp & EG & EP & HM & Ls & Sb). exists L, U, G. split; auto. split; auto. intros agg cost. subst G. split.
  { intros H2 bar tr w Hb HA. destruct HA as [_ HC HW]. pose proof HM as [M1 M2 M3 M4 M5]. destruct (csr_depth _ _ _ _ _ _ _ M1 M2 M3 M4) as (lev & D). rewrite <- Ls in HC, HW.
    destruct (csr_graph_defined hasv 0 m srows srows P dp M1 M2 M3 M4 M5 T agg cost w HT HC HW lev bar tr Hb D (or_introl H2)) as (S & o2t & t2o & E); eauto. }
  intros w1 w2 w3 SB S1 S2 ob tb o1 t1 o2t t2o HA1 HA2 HA3 E1 E2 E3 add sub mul lr ur.
  pose proof (Zlen_select lower rows) as LL. pose proof (Zlen_select upper rows) as LU'. fold lr in LL, RL. fold ur in LU', RU.
  assert (SL : sub_pattern lr srows). { destruct (sub_select lower rows) as (_ & Q). split; [lia|]. intros r c He. apply Sb. auto. }
  assert (SU : sub_pattern ur srows). { destruct (sub_select upper rows) as (_ & Q). split; [lia|]. intros r c He. apply Sb. auto. }
  assert (OL : rows_ok m lr) by now apply rows_ok_select. assert (OU : rows_ok m ur) by now apply rows_ok_select.
  rewrite <- Ls in HA1, HA2, HA3.
  assert (PL : forall b y x, Zlen b = m -> Zlen y = m -> Zlen x = m ->
   exists fy fx, ref_sweep add sub mul Scaled true L 0 (values_of lr) ids b y = Some fy /\
    all_compute (rexec add sub mul Scaled L 0 (values_of lr) ids b) None (rops true L) true SB S1 S2 (get t2o) T y fy /\
    updates add sub mul Plain false ur ids fy (rev (zrange 0 m)) x = Some fx /\
    ((forall s a b, sub (sub s a) b = sub (sub s b) a) -> ref_sweep add sub mul Plain false U 0 (values_of ur) ids fy x = Some fx) /\
    all_compute (rexec add sub mul Plain U 0 (values_of ur) ids fy) None (rops false U) false SB S1 S2 (get t2o) T x fx).
  { intros b y x. rewrite <- Ls in *. exact (pair_plain hasv 0 (Zlen srows) srows srows P dp HM T agg cost w1 w2 w3 SB S1 S2 ob tb o1 t1 o2t t2o HA1 HA2 HA3 E1 E2 E3 0 lr ur L U add sub mul Scaled Plain ids RL RU OL OU SL SU Lid b y x). }
  split; auto. intros Hsub nd psch psch' jl ju JL JU.
  destruct (perms3 hasv 0 m srows srows P dp HM T agg cost w3 S2 o2t t2o HA3 E3) as (P1 & P2 & P3). rewrite Ls in P1, P2.
  assert (QL : exists L' lr' d', permute nd true L o2t (Some t2o) T psch jl = Some L' /\ rep true 0 m lr' L' /\ moved_rows sub o2t t2o lr lr' /\ idiag L' = Some d' /\ placed m t2o ids d').
  { rewrite <- LL in *. apply sorted_permute; auto. }
  assert (QU : exists U' ur' d', permute nd true U o2t (Some t2o) T psch' ju = Some U' /\ rep true 0 m ur' U' /\ moved_rows sub o2t t2o ur ur' /\ idiag U' = Some d' /\ placed m t2o ids d').
  { rewrite <- LU' in *. apply sorted_permute; auto. now apply XU. }
  destruct QL as (L' & lr' & ids' & EL & RL' & ML & IL' & MD). destruct QU as (U' & ur' & ids2 & EU & RU' & MU & IU' & MD2).
  assert (ids2 = ids') by (eapply placed_fun; eauto). subst ids2.
  exists L', U', (values_of lr'), (values_of ur'), ids'. split; auto. split; auto. split; [apply RL'|]. split; [apply RU'|]. split; auto. split; auto.
  intros b y x tmp tr Lb Ly Lx Lt Pt. destruct (PL b y x Lb Ly Lx) as (fy & fx & F1 & _ & F2 & F3 & _). specialize (F3 Hsub). exists fy, fx. split; auto. split; auto.
  rewrite (ref_sweep_updates add sub mul Scaled true 0 m lr L ids b y RL OL) in F1. cbn [dirZ] in F1. rewrite LL in F1. rewrite <- Ls in *.
  exact (pair_moved hasv 0 (Zlen srows) srows srows P dp HM T agg cost w1 w2 w3 SB S1 S2 ob tb o1 t1 o2t t2o HA1 HA2 HA3 E1 E2 E3 0 lr ur add sub mul Scaled Plain ids OL OU SL SU Lid lr' ur' L' U' ids' RL' RU' ML MU MD b y x tmp tr fy fx Lb Ly Lx Lt Pt F1 F2).
Qed.
End Trsv.

(** gs_test with the option P2P_WITH_TRANSITIVE_REDUCTION and FUSE (gs_test.cpp:702-784
    with 731-737 and 758-761). *)
Section Fused.
Context {V : Type}.
Variables (zero one : V) (add mul sub : V -> V -> V) (opp : V -> V).
Variable RT : ring_theory zero one add mul sub opp (@eq V).
Theorem gs_test_fused is0 is1 ism1 (rows : rows_t V) A dp ids : (forall a, is0 a = true -> a = zero) -> (forall a, is1 a = true -> a = one) -> (forall a, ism1 a = true -> a = opp one) ->
  sched_matrix true 0 (Zlen rows) rows rows A dp -> rows_ok (Zlen rows) rows -> diagptr_len A -> extptr A = None ->
  idiag A = Some ids -> Zlen ids = Zlen rows -> (forall r d, 0 <= r < Zlen rows -> get ids r = Some d -> mul (coefat zero add (nthl rows r) r) d = one) ->
  forall T agg cost w S o2t t2o, sched_args (Zlen rows) T cost w -> constructTaskGraph (graph_of A 0 dp) T false agg true cost w = Some (S, o2t, t2o) ->
  forall ssch sj s1 s2 s3 s4, sl_junk_ok (Zlen rows) T sj ->
  exists L U, splitLU A T ssch sj s1 s2 s3 s4 = Some (A, L, U) /\
  forall nd psch psch' jl ju, junk_ok L T jl -> junk_ok U T ju ->
  exists L' U' vl vu ids', permute nd true L o2t (Some t2o) T psch jl = Some L' /\ permute nd true U o2t (Some t2o) T psch' ju = Some U' /\
    values L' = Some vl /\ values U' = Some vu /\ idiag L' = Some ids' /\ idiag U' = Some ids' /\
  forall b y x tmp tr sch junk, Zlen b = Zlen rows -> Zlen y = Zlen rows -> Zlen x = Zlen rows -> (forall k : nat, Zlen (tmp k : list V) = Zlen rows) -> (forall k : nat, Permutation (tr k) (zrange 0 (Zlen rows))) ->
  exists b' y' x' t' fy fy' t2' fx fx',
    getReorderVector (tmp 0%nat) b o2t (Zlen rows) (tr 0%nat) = Some b' /\ reorderVector x (tmp 1%nat) (Some o2t) (Zlen rows) (tr 1%nat) (tr 2%nat) = Some x' /\ reorderVector y (tmp 2%nat) (Some o2t) (Zlen rows) (tr 3%nat) (tr 4%nat) = Some y' /\
    SpMV.multiplyWithVector zero add sub mul is0 is1 ism1 U' (tmp 3%nat) (opp one) (Own y') one (Own b') zero T sch junk = Some t' /\
    p2p_computes (fexec zero add sub mul L' 0 vl ids' x' (Zlen y')) None (fops L') true S (fun i => Some i) T (y' ++ t') (fy' ++ t2') /\
    p2p_computes (rexec add sub mul Scaled U' 0 vu ids' t2') None (rops false U') false S (fun i => Some i) T x' fx' /\
    ref_sweep add sub mul AddScaled true A 0 (values_of rows) ids b y = Some fy /\ ref_sweep add sub mul AddScaled false A 0 (values_of rows) ids fy x = Some fx /\
    reorderVector fx' (tmp 4%nat) (Some t2o) (Zlen rows) (tr 5%nat) (tr 6%nat) = Some fx.
Proof.
  intros H0 H1 Hm1 HM Hok HDl HX Hid Lid Hd T agg cost w S o2t t2o HA HE ssch sj s1 s2 s3 s4 HJ.
  destruct (sched_perms true 0 _ rows rows A dp HM T agg cost w HA true S o2t t2o HE) as (P1 & P2 & P3).
  destruct (symgs_fused zero one add mul sub opp RT is0 is1 ism1 0 rows A dp ids H0 H1 Hm1 eq_refl HM Hok HDl HX Hid Lid Hd T agg cost w true S o2t t2o HA HE ssch sj s1 s2 s3 s4 HJ) as (L & U & ES & K).
  exists L, U. split; auto. intros nd psch psch' jl ju JL JU. destruct (K nd psch psch' jl ju JL JU) as (L' & U' & vl & vu & ids' & F1 & F2 & F3 & F4 & F5 & F6 & K').
  exists L', U', vl, vu, ids'. do 6 (split; [auto|]). intros b y x tmp tr sch junk Lb Ly Lx Lt Pt.
  destruct (placed_there _ o2t t2o P1 P2 P3 b (tmp 0%nat) (tr 0%nat)) as (b' & Eb & Mb); auto.
  destruct (placed_in_place _ o2t t2o P1 P2 P3 x (tmp 1%nat) (tr 1%nat) (tr 2%nat)) as (x' & Ex & Mx); auto.
  destruct (placed_in_place _ o2t t2o P1 P2 P3 y (tmp 2%nat) (tr 3%nat) (tr 4%nat)) as (y' & Ey & My); auto.
  destruct (K' b y x b' y' x' (tmp 3%nat) sch junk Mb My Mx (Lt 3%nat)) as (t' & fy & fy' & t2' & fx & fx' & G1 & G2 & G3 & G4 & G5 & G6 & G7 & _).
  exists b', y', x', t', fy, fy', t2', fx, fx'. do 8 (split; [auto|]). now apply (placed_back _ o2t t2o P1 P2 P3 fx).
Qed.
End Fused.
