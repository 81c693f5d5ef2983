(** * The four solvers of test/pcg.cpp. *)
From Coq Require Import Ring_theory Field_theory Ring Permutation.
From Verif Require Import Base Interleave Spec PermUtils Flat Csr Transpose CsrTools CsrOps RowPar Fill SpMV SplitLU Permute PermuteMain PermuteFacts P2P P2PProg Exec Kernels Ilu Levels LevelsFacts LevelsMain LevelsCsr Tasks TaskGraph TaskGraphFacts TaskGraphLists TaskGraphMain TaskGraphOrder TaskGraphCsr Sched SchedPerm Solve IluExact SolveCases Pcg PcgTri.

(** ** Model *)
Section Model.
Context {V : Type}.
Variables (zero one : V) (add sub mul div : V -> V -> V) (opp sqrt : V -> V) (ltb : V -> V -> bool).
Variables (is0 is1 ism1 : V -> bool).
Notation pcg_body := (pcg_body zero one add sub mul div opp sqrt ltb is0 is1 ism1).

(** Schedules and uninitialised memory of the set-up. *)
Record qworld := mkqworld {
  qw_split : nat -> list nat;       (* splitLU *)
  qw_junk : @sl_junk V;
  qw_base : nat -> nat -> list nat; (* make0Based, make1Based in splitLU *)
  qw_loop : list nat;               (* pcg.cpp:317-323, 395-401, 501-504, 585-588 *)
  qw_lu : list V;                   (* lu *)
  qw_diag : nat -> list nat;        (* computeInverseDiag *)
  qw_dptr : list Z; qw_idiag : list V }.
Definition qw_ok (m nnz T : Z) (q : qworld) : Prop :=
  sl_junk_ok m T (qw_junk q) /\ Zlen (qw_lu q) = nnz /\ Zlen (qw_dptr q) = m /\ Zlen (qw_idiag q) = m.

(** pcg.cpp:314-323 (393-401) *)
Definition symgs_parts (A : csr V) (T : Z) (q : qworld) : option (csr V * csr V * csr V) :=
  ' (A, L, U) <- splitLU A T (qw_split q) (qw_junk q) (qw_base q 0%nat) (qw_base q 1%nat) (qw_base q 2%nat) (qw_base q 3%nat) ;;
  U <- scaleU one mul U (qw_loop q) ;; Some (A, L, U).
(** pcg.cpp:496-504 (580-588); [fin]: the contents of lu *)
Definition ilu_parts (A : csr V) (fin : list V) (T : Z) (q : qworld) : option (csr V * csr V) :=
  LU <- computeInverseDiag (div one) (with_values A fin) (qw_diag q) (qw_dptr q) (qw_idiag q) ;;
  ' (_, L, U) <- splitLU LU T (qw_split q) (qw_junk q) (qw_base q 0%nat) (qw_base q 1%nat) (qw_base q 2%nat) (qw_base q 3%nat) ;;
  L <- unitL one L (qw_loop q) ;; Some (L, U).

(** pcg.cpp:309-385: x, k and rel_err at the end. *)
Definition pcg_symgs (A : csr V) (T : Z) (q : qworld) (w : pworld) (tol : V) (x b : list V) (maxiter : Z) (j : pjunk) : option (list V * Z * V) :=
  ' (A, L, U) <- symgs_parts A T q ;; pcg_body A T w tol (prec_ref add sub mul L U) x b maxiter j.
(** pcg.cpp:488-566 *)
Definition pcg_ilu0 (A : csr V) (T : Z) (q : qworld) (w : pworld) (tol : V) (x b : list V) (maxiter : Z) (j : pjunk) : option (list V * Z * V) :=
  dp <- diagptr A ;; fin <- ilu0_ref sub mul div A dp (qw_lu q) ;; ' (L, U) <- ilu_parts A fin T q ;;
  pcg_body A T w tol (prec_ref add sub mul L U) x b maxiter j.

(** Schedules and memory of the reordering. *)
Record rworld := mkrworld {
  rw_perm : nat -> nat -> list nat; rw_junk : csr V -> @junk V;   (* CSR::permute *)
  rw_b : list V; rw_x : list V;                                  (* bPerm, xPerm *)
  rw_ord : nat -> list Z }.                                      (* orders of the copying loops *)
Definition rw_ok (m T : Z) (q : rworld) : Prop :=
  (forall M N, get (rowptr M) (cm M) = Some N -> 0 <= N -> 0 <= cm M -> junk_ok M T (rw_junk q M)) /\
  Zlen (rw_b q) = m /\ Zlen (rw_x q) = m /\ forall k, Permutation (rw_ord q k) (zrange 0 m).
(** pcg.cpp:410-412 (593-595) *)
Definition reorder (nd : bool) (A L U : csr V) (o2t t2o : list Z) (T : Z) (q : rworld) : option (csr V * csr V * csr V) :=
  A' <- permute nd false A o2t (Some t2o) T (rw_perm q 0%nat) (rw_junk q A) ;;
  L' <- permute nd false L o2t (Some t2o) T (rw_perm q 1%nat) (rw_junk q L) ;;
  U' <- permute nd false U o2t (Some t2o) T (rw_perm q 2%nat) (rw_junk q U) ;; Some (A', L', U').
(** pcg.cpp:417-466 (600-649); [prec]: what the two solves return *)
Definition solve_reordered (A' : csr V) (o2t t2o : list Z) (T : Z) (q : rworld) (w : pworld) (tol : V) prec (x b : list V) (maxiter : Z) (j : pjunk) : option (list V * Z * V) :=
  b' <- reorderVectorOutOfPlaceWithInversePerm (rw_b q) b (Some t2o) (cm A') (rw_ord q 0%nat) ;;
  x' <- reorderVectorOutOfPlaceWithInversePerm (rw_x q) x (Some t2o) (cm A') (rw_ord q 1%nat) ;;
  ' (x', k, e) <- pcg_body A' T w tol prec x' b' maxiter j ;;
  x <- reorderVectorOutOfPlaceWithInversePerm x x' (Some o2t) (cm A') (rw_ord q 2%nat) ;; Some (x, k, e).
End Model.

(** ** Moving vectors *)
Lemma placed_moves {X} m t2o (l l' : list X) : placed m t2o l l' -> moved m t2o l l'.
Proof. intros (A & B & C). split; [lia|]. split; auto. intros p Hp. rewrite !get_out by lia. reflexivity. Qed.
Lemma moves_placed {X} m t2o (l l' : list X) : moved m t2o l l' -> Zlen l = m -> placed m t2o l l'.
Proof. intros (A & B & _) H. split; auto. split; [lia|]. auto. Qed.
Definition gather {X} (l : list X) (idx : list Z) : option (list X) := mapM (get l) idx.

Section Gather.
Variables (m : Z) (o2t t2o : list Z).
Hypothesis HP : Permutation t2o (zrange 0 m).
Hypothesis HL : Zlen o2t = m.
Hypothesis HI : forall p i, get t2o p = Some i -> get o2t i = Some p.
Lemma o2t_t2o i p : get o2t i = Some p -> get t2o p = Some i.
Proof. intros E. pose proof (get_Some_bounds _ _ _ E). destruct (t2o_surj m o2t t2o HP HI i ltac:(lia)) as (p' & E1 & E2). congruence. Qed.
Lemma t2o_len : Zlen t2o = m.
Proof. rewrite (Zlen_perm _ _ HP), Zlen_zrange. pose proof (Zlen_nonneg o2t). lia. Qed.
Lemma o2t_range i p : get o2t i = Some p -> 0 <= i < m /\ 0 <= p < m.
Proof. intros E. destruct (t2o_range m o2t t2o HP HI _ _ (o2t_t2o i p E)). auto. Qed.
Lemma gather_ok {X} (l : list X) idx : (forall c, In c idx -> 0 <= c < Zlen l) -> exists l', gather l idx = Some l' /\ Zlen l' = Zlen idx.
Proof.
  unfold gather. induction idx as [|c idx IH]; intros H; cbn [mapM]; [exists []; auto|]. destruct (get_in_range l c) as (v & ->); [apply H; cbn; auto|].
  destruct IH as (l' & -> & L); [intros; apply H; cbn; auto|]. exists (v :: l'). split; auto. rewrite !Zlen_cons. lia.
Qed.
Lemma gather_out {X} (l : list X) : Zlen l = m -> exists l', gather l t2o = Some l' /\ placed m t2o l l'.
Proof.
  intros H. destruct (gather_ok l t2o) as (l' & E & L). { intros c Hc. apply In_get in Hc as (i & _ & Ei). destruct (t2o_range m o2t t2o HP HI _ _ Ei). lia. }
  exists l'. split; auto. split; auto. split; [rewrite L; apply t2o_len|]. intros i r Ei. apply (mapM_get _ _ _ _ _ E Ei).
Qed.
Lemma gather_in {X} (l' : list X) : Zlen l' = m -> exists l, gather l' o2t = Some l /\ placed m t2o l l'.
Proof.
  intros H. destruct (gather_ok l' o2t) as (l & E & L). { intros c Hc. apply In_get in Hc as (i & _ & Ei). destruct (o2t_range _ _ Ei). lia. }
  exists l. split; auto. split; [lia|]. split; auto. intros i r Ei. symmetry. apply (mapM_get _ _ _ _ _ E). now apply HI.
Qed.
Lemma placed_fun {X} (l l1 l2 : list X) : placed m t2o l l1 -> placed m t2o l l2 -> l1 = l2.
Proof.
  intros (A & B & C) (D & E & F). apply list_ext; [lia|]. intros i Hi. destruct (t2o_ok m o2t t2o HP HI i ltac:(lia)) as (r & Er). now rewrite (C _ _ Er), (F _ _ Er).
Qed.
Lemma placed_inj {X} (l l2 l' : list X) : placed m t2o l l' -> placed m t2o l2 l' -> l = l2.
Proof.
  intros (A & B & C) (D & E & F). apply list_ext; [lia|]. intros r Hr. destruct (t2o_surj m o2t t2o HP HI r ltac:(lia)) as (i & Er & _). now rewrite <- (C _ _ Er), <- (F _ _ Er).
Qed.
Lemma is_perm_o2t : is_perm m o2t.
Proof.
  apply is_perm_intro; auto.
  - apply NoDup_from_get. intros i j p E1 E2. apply o2t_t2o in E1, E2. congruence.
  - intros p Hp. apply In_get in Hp as (i & _ & E). apply (o2t_range _ _ E).
Qed.
End Gather.

(** ** Permuted matrices without remote columns *)
Section Plain.
Context {V : Type}.
Variables (nd : bool) (base : Z) (rows : rows_t V) (M : csr V) (o2t t2o : list Z).
Notation m := (Zlen rows).
Hypothesis HR : rep true base m rows M.
Hypothesis Hb : base = 0 \/ base = 1.
Hypothesis Hok : rows_ok m rows.
Hypothesis HX : extptr M = None.
Hypothesis HD : diagptr M <> None -> full_diag rows.
Hypothesis HG : forall d, idiag M = Some d -> Zlen d = m.
Hypothesis HP : Permutation t2o (zrange 0 m).
Hypothesis HL : Zlen o2t = m.
Hypothesis HI : forall p i, get t2o p = Some i -> get o2t i = Some p.
Lemma plain_permute (sub : V -> V -> V) T sch jf : 1 <= T -> (forall M N, get (rowptr M) (cm M) = Some N -> 0 <= N -> 0 <= cm M -> junk_ok M T (jf M)) ->
  exists M' rows', permute nd false M o2t (Some t2o) T sch (jf M) = Some M' /\ rep true base m rows' M' /\ moved_rows sub o2t t2o rows rows' /\ rows_ok m rows' /\
    forall d, idiag M = Some d -> exists d', idiag M' = Some d' /\ placed m t2o d d'.
Proof.
  intros HT HJ. assert (Hm := Zlen_nonneg rows).
  assert (HLo : local_rows base rows M rows). { split; auto. now rewrite HX. }
  assert (Pre : permute_pre nd false base m true rows rows M o2t (Some t2o)).
  { split; auto. split; auto. split; [lia|]. split; [exact HP|]. split; [intros r c v Hr Hc; rewrite HL; apply (Hok r c v Hr Hc)|].
    split. { intros c Hc. apply In_get in Hc as (i & _ & E). destruct (o2t_range m o2t t2o HP HL HI _ _ E). lia. }
    repeat (split; auto). }
  assert (J : junk_ok M T (jf M)). { pose proof HR as (R1 & _ & R3 & _). apply (HJ M (base + off (nthl rows) m)); [rewrite R1, R3, get_rowptr_of by lia; reflexivity| |lia]. pose proof (off_mono (nthl rows) 0 m ltac:(lia)). rewrite off_0 in H. lia. }
  destruct (permute_main nd false base m true rows rows M o2t (Some t2o) T sch (jf M) Pre HT J) as (M' & E & R' & _ & _ & _ & Sh & _ & Id & _).
  exists M', (perm_rows false o2t (sources m (Some t2o)) rows rows). cbn [sources] in *. split; auto. split; auto.
  assert (MR : forall i r, get t2o i = Some r -> nthl (perm_rows false o2t t2o rows rows) i = rename o2t (nthl rows r)).
  { intros i r Er. unfold perm_rows, nthl at 1. rewrite get_map, Er. cbn [option_map]. unfold perm_row, perm_local. replace (slice (nthl rows r) (Zlen (nthl rows r)) (Zlen (nthl rows r))) with (@nil (Z * V)); [apply app_nil_r|].
    symmetry. apply slice_nil. lia. }
  assert (LR : Zlen (perm_rows false o2t t2o rows rows) = m). { unfold perm_rows. rewrite Zlen_map. eapply t2o_len; eauto. }
  split. { split; auto. }
  split. { intros r c v Hr Hc. apply In_get in Hr as (i & Bi & Ei). rewrite LR in Bi. destruct (t2o_ok m o2t t2o HP HI i Bi) as (r0 & E0). pose proof (nthl_get _ _ _ Ei) as EN. rewrite (MR _ _ E0) in EN. subst r.
    unfold rename in Hc. apply in_map_iff in Hc as ((c0 & v0) & Ec & Hc0). cbn [fst snd] in Ec. injection Ec as <- _. destruct (t2o_range m o2t t2o HP HI _ _ E0) as (_ & Br).
    destruct (col_cases m o2t t2o HP HL HI c0) as [(A & _)|(_ & A & _)]; [apply (Hok _ _ _ (nth_row_In rows r0 Br) Hc0)| |]; auto. pose proof (Hok _ _ _ (nth_row_In rows r0 Br) Hc0). lia. }
  intros d Ed. rewrite Ed in Sh. destruct Sh as (d' & Ed' & Ld'). exists d'. split; auto. split; [auto|]. split; auto.
Qed.
End Plain.

(** ** Solves with reordered matrices *)
Section Re.
Context {V : Type}.
Variables (add sub mul : V -> V -> V).
Variables (base : Z) (rows : rows_t V) (A : csr V) (dp : list Z).
Notation m := (Zlen rows).
Hypothesis HM : sched_matrix true base m rows rows A dp.
Variables (T : Z) (agg : bool) (cost : Z -> Z) (w : world) (tr : bool) (S : schedule) (o2t t2o : list Z).
Hypothesis HA : sched_args m T cost w.
Hypothesis HE : constructTaskGraph (graph_of A base dp) T false agg tr cost w = Some (S, o2t, t2o).
Notation upd := (updates add sub mul Scaled).
Lemma re_perms : Permutation t2o (zrange 0 m) /\ Zlen o2t = m /\ forall p i, get t2o p = Some i -> get o2t i = Some p.
Proof. exact (sched_perms true base m rows rows A dp HM T agg cost w HA tr S o2t t2o HE). Qed.
Lemma re_tasks : 0 <= ntasks S.
Proof.
  destruct HA as [HT HC HW]. destruct HM as [H1 H2 H3 H4 H5].
  destruct (csr_graph true base m rows rows A dp H1 H2 H3 H4 H5 T agg cost w HT HC HW false tr S o2t t2o (or_introl eq_refl) HE) as (lev1 & tk1 & thb1 & tb1 & D1 & _ & _ & GO1 & _). rewrite (go_nt _ _ _ _ _ GO1). apply Zlen_nonneg.
Qed.

Section One.
Variables (fwd : bool) (base' : Z) (kr kr' : rows_t V) (M' : csr V) (ids ids' : list V).
Hypothesis HR' : rep true base' m kr' M'.
Hypothesis Hok : rows_ok m kr.
Hypothesis HS : sub_pattern kr rows.
Hypothesis MR : moved_rows sub o2t t2o kr kr'.
Hypothesis Hi : idiag M' = Some ids'.
Hypothesis Mi : placed m t2o ids ids'.
Lemma re_solve b b' y y' : placed m t2o b b' -> placed m t2o y y' -> exists fin fin', upd fwd kr ids b (dirZ fwd 0 m) y = Some fin /\ placed m t2o fin fin' /\
  solveP2P add sub mul fwd M' S T b' y' (Some fin') /\ forall res, solveP2P add sub mul fwd M' S T b' y' res -> res = Some fin'.
Proof.
  intros Mb My. pose proof (proj1 Mb) as Lb. pose proof (proj1 My) as Ly. pose proof (proj1 Mi) as Li.
  destruct (moved_sweep_p2p true base m rows rows A dp HM T agg cost w HA base' m kr kr' M' HR' Hok HS (Z.le_refl _) add sub mul Scaled ids b y ids' b' y' ltac:(lia) ltac:(lia) ltac:(intros; lia) tr S o2t t2o fwd fwd HE MR
    (placed_moves _ _ _ _ Mb) (placed_moves _ _ _ _ Mi) (placed_moves _ _ _ _ My)) as (fin & fin' & F & MF & C).
  exists fin, fin'. split; auto.
  assert (Lf : Zlen fin = m). { destruct (updates_ok add sub mul Scaled fwd m kr ids b Hok (dirZ fwd 0 m) y) as (f2 & F2 & L2); rewrite ?(proj1 HS); try lia. { intros r Hr. now apply In_dirZ in Hr. } rewrite F in F2. injection F2 as <-. lia. }
  split; [apply moves_placed; auto|]. unfold solveP2P. rewrite (rep_base _ _ _ _ _ HR'), Hi. pose proof HR' as (_ & _ & _ & _ & ->). apply outcome_of; auto; [apply (sa_T _ _ _ _ HA)|apply re_tasks].
Qed.
End One.

Section Two.
Variables (bl bu : Z) (lr lr' ur ur' : rows_t V) (L' U' : csr V) (il il' iu iu' : list V).
Hypothesis HRl : rep true bl m lr' L'.
Hypothesis Hokl : rows_ok m lr.
Hypothesis HSl : sub_pattern lr rows.
Hypothesis MRl : moved_rows sub o2t t2o lr lr'.
Hypothesis Hil : idiag L' = Some il'.
Hypothesis Mil : placed m t2o il il'.
Hypothesis HRu : rep true bu m ur' U'.
Hypothesis Hoku : rows_ok m ur.
Hypothesis HSu : sub_pattern ur rows.
Hypothesis MRu : moved_rows sub o2t t2o ur ur'.
Hypothesis Hiu : idiag U' = Some iu'.
Hypothesis Miu : placed m t2o iu iu'.
(** What the two solves return, in the original order. *)
Definition both (y z r : list V) : option (list V * list V) := y <- upd true lr il r (dirZ true 0 m) y ;; z <- upd false ur iu y (dirZ false 0 m) z ;; Some (y, z).
Lemma cm_L' : cm L' = m.
Proof. pose proof (proj1 HRl) as E. rewrite E, (proj1 MRl). apply HSl. Qed.
Lemma re_prec prec it y' z' r r' : prec_p2p add sub mul L' U' S T prec -> Zlen y' = m -> Zlen z' = m -> placed m t2o r r' ->
  exists y z y1 z1 y1' z1', placed m t2o y y' /\ placed m t2o z z' /\ both y z r = Some (y1, z1) /\ prec it y' z' r' = Some (y1', z1') /\ placed m t2o y1 y1' /\ placed m t2o z1 z1'.
Proof.
  intros HPr Ly Lz Mr. destruct re_perms as (P1 & P2 & P3). destruct (gather_in m o2t t2o P1 P2 P3 y' Ly) as (y & _ & My). destruct (gather_in m o2t t2o P1 P2 P3 z' Lz) as (z & _ & Mz).
  destruct (re_solve true bl lr lr' L' il il' HRl Hokl HSl MRl Hil Mil r r' y y' Mr My) as (f & f' & F1 & F2 & F3 & F4).
  destruct (re_solve false bu ur ur' U' iu iu' HRu Hoku HSu MRu Hiu Miu f f' z z' F2 Mz) as (g & g' & G1 & G2 & G3 & G4).
  exists y, z, f, g, f', g'. split; auto. split; auto. split; [unfold both; now rewrite F1, G1|].
  destruct (HPr it y' z' r') as (y1 & Y1 & Y2); rewrite ?cm_L'; auto; [apply Mr|]. apply F4 in Y1. subst y1. destruct Y2 as (z1 & Z1 & Z2). apply G4 in Z1. subst z1. auto.
Qed.
Lemma re_prec_exists : exists prec, prec_p2p add sub mul L' U' S T prec.
Proof.
  exists (fun _ y' z' r' => y <- gather y' o2t ;; z <- gather z' o2t ;; r <- gather r' o2t ;; ' (y, z) <- both y z r ;; y' <- gather y t2o ;; z' <- gather z t2o ;; Some (y', z')).
  intros it y' z' r' Ly Lz Lr. rewrite cm_L' in *. destruct re_perms as (P1 & P2 & P3). destruct (gather_in m o2t t2o P1 P2 P3 y' Ly) as (y & -> & My). destruct (gather_in m o2t t2o P1 P2 P3 z' Lz) as (z & -> & Mz). destruct (gather_in m o2t t2o P1 P2 P3 r' Lr) as (r & -> & Mr).
  destruct (re_solve true bl lr lr' L' il il' HRl Hokl HSl MRl Hil Mil r r' y y' Mr My) as (f & f' & F1 & F2 & F3 & F4).
  destruct (re_solve false bu ur ur' U' iu iu' HRu Hoku HSu MRu Hiu Miu f f' z z' F2 Mz) as (g & g' & G1 & G2 & G3 & G4).
  exists (Some f'). split; auto. exists (Some g'). split; auto. unfold both. rewrite F1, G1.
  destruct (gather_out m o2t t2o P1 P2 P3 f (proj1 F2)) as (f2 & -> & Mf). destruct (gather_out m o2t t2o P1 P2 P3 g (proj1 G2)) as (g2 & -> & Mg).
  now rewrite (placed_fun m o2t t2o P1 P3 f f2 f' Mf F2), (placed_fun m o2t t2o P1 P3 g g2 g' Mg G2).
Qed.
End Two.
End Re.

(** ** The set-up, for any arithmetic *)
Lemma rows_ok_select {X} p (rows : rows_t X) n : rows_ok n rows -> rows_ok n (select p rows).
Proof.
  intros H r c v Hr Hc. unfold select in Hr. apply in_map_iff in Hr as (i & <- & Hi). apply In_zrange in Hi. apply filter_In in Hc as (Hc & _). apply (H _ _ _ (nth_row_In rows i ltac:(lia)) Hc).
Qed.
Lemma sub_select {X} p (rows : rows_t X) : sub_pattern (select p rows) rows.
Proof.
  split; [apply Zlen_select|]. intros r c (v & H). exists v. destruct (Z_lt_ge_dec r 0); [|destruct (Z_lt_ge_dec r (Zlen rows))].
  - exfalso. unfold nthl in H. rewrite get_out in H by lia. exact H.
  - rewrite nthl_select in H by lia. apply filter_In in H. apply H.
  - exfalso. unfold nthl in H. rewrite get_out in H by (rewrite Zlen_select; lia). exact H.
Qed.
Lemma strictly_lower {X} (rows : rows_t X) : rows_ok (Zlen rows) rows -> strictly true (select lower rows).
Proof.
  intros Hok r c v H. destruct (Z_lt_ge_dec r 0); [|destruct (Z_lt_ge_dec r (Zlen rows))].
  - exfalso. unfold nthl in H. rewrite get_out in H by lia. exact H.
  - rewrite nthl_select in H by lia. apply filter_In in H as (H & E). unfold lower in E. cbn [fst] in E. pose proof (Hok _ _ _ (nth_row_In rows r ltac:(lia)) H). unfold earlier. lia.
  - exfalso. unfold nthl in H. rewrite get_out in H by (rewrite Zlen_select; lia). exact H.
Qed.
Lemma strictly_upper {X} (rows : rows_t X) : rows_ok (Zlen rows) rows -> strictly false (select upper rows).
Proof.
  intros Hok r c v H. destruct (Z_lt_ge_dec r 0); [|destruct (Z_lt_ge_dec r (Zlen rows))].
  - exfalso. unfold nthl in H. rewrite get_out in H by lia. exact H.
  - rewrite nthl_select in H by lia. apply filter_In in H as (H & E). unfold upper in E. cbn [fst] in E. pose proof (Hok _ _ _ (nth_row_In rows r ltac:(lia)) H). unfold earlier. rewrite Zlen_select. lia.
  - exfalso. unfold nthl in H. rewrite get_out in H by (rewrite Zlen_select; lia). exact H.
Qed.
Section Parts.
Context {V : Type}.
Variables (mul : V -> V -> V).
Lemma scaled_cases id (rows : rows_t V) r c v : In (c, v) (nthl (scaled_rows mul id rows) r) -> 0 <= r < Zlen rows /\ exists v0, In (c, v0) (nthl rows r).
Proof.
  intros H. destruct (Z_lt_ge_dec r 0); [|destruct (Z_lt_ge_dec r (Zlen rows))].
  - exfalso. unfold nthl in H. rewrite get_out in H by lia. exact H.
  - rewrite nthl_scaled in H by lia. apply in_map_iff in H as ((c0 & v0) & E & H). cbn [fst snd] in E. injection E as -> _. split; [lia|eauto].
  - exfalso. unfold nthl in H. rewrite get_out in H by (rewrite Zlen_scaled; lia). exact H.
Qed.
Lemma rows_ok_scaled id n rows : rows_ok n rows -> rows_ok n (scaled_rows mul id rows).
Proof. intros H r c v Hr Hc. apply In_get in Hr as (i & _ & Ei). apply nthl_get in Ei. subst r. apply scaled_cases in Hc as (Hi & v0 & Hc). apply (H _ _ _ (nth_row_In rows i Hi) Hc). Qed.
Lemma sub_scaled id rows (rows0 : rows_t V) : sub_pattern rows rows0 -> sub_pattern (scaled_rows mul id rows) rows0.
Proof. intros (L & H). split; [now rewrite Zlen_scaled|]. intros r c (v & Hc). apply scaled_cases in Hc as (_ & v0 & Hc). apply H. now exists v0. Qed.
Lemma strictly_scaled fwd id rows : strictly fwd rows -> strictly fwd (scaled_rows mul id rows).
Proof. intros H r c v Hc. apply scaled_cases in Hc as (_ & v0 & Hc). rewrite Zlen_scaled. eauto. Qed.

End Parts.
Section Parts1.
Context {V : Type}.
Variables (base : Z) (rows : rows_t V) (A : csr V) (T : Z) (q : @qworld V).
Notation m := (Zlen rows).
Hypothesis HR : rep true base m rows A.
Hypothesis Hb : base = 0 \/ base = 1.
Hypothesis HX : extptr A = None.
Hypothesis HT : 1 <= T.
Hypothesis HJ : sl_junk_ok m T (qw_junk q).
Lemma split_ok dg : diagptr_len A -> idiag A = Some dg -> Zlen dg = m -> exists L U, splitLU A T (qw_split q) (qw_junk q) (qw_base q 0%nat) (qw_base q 1%nat) (qw_base q 2%nat) (qw_base q 3%nat) = Some (A, L, U) /\
  rep true base m (select lower rows) L /\ rep true base m (select upper rows) U /\ extptr L = None /\ extptr U = None /\ idiag L = Some dg /\ idiag U = Some dg /\ diagptr L = None /\ diagptr U = None.
Proof.
  intros HD Ed Ld. assert (HLo : local_rows base rows A rows). { split; auto. now rewrite HX. }
  destruct (splitLU_ok base m rows rows A dg T (qw_split q) (qw_junk q) (qw_base q 0%nat) (qw_base q 1%nat) (qw_base q 2%nat) (qw_base q 3%nat)) as (L & U & E & R1 & R2 & X1 & _ & X2 & I1 & I2 & D1 & D2); auto.
  - intros i k c v Hi Hk G. apply get_Some_bounds in G. lia.
  - intros _ C. congruence.
  - exists L, U. rewrite HX in X2. intuition.
Qed.
Lemma symgs_parts_ok one mul dg id : base = 0 -> diagptr_len A -> idiag A = Some dg -> Zlen dg = m -> holds dg m id -> exists L U ones, symgs_parts one mul A T q = Some (A, L, U) /\
  rep true base m (select lower rows) L /\ idiag L = Some dg /\ rep true base m (scaled_rows mul id (select upper rows)) U /\ idiag U = Some ones /\ Zlen ones = m /\ holds ones m (fun _ => one) /\
  extptr L = None /\ extptr U = None /\ diagptr L = None /\ diagptr U = None.
Proof.
  intros H0 HD Ed Ld Hd. destruct (split_ok dg HD Ed Ld) as (L & U & E & R1 & R2 & X1 & X2 & I1 & I2 & D1 & D2). unfold symgs_parts. rewrite E. subst base.
  destruct (scaleU_ok one mul m (select upper rows) U dg id (qw_loop q) R2 I2) as (U' & ones & E' & R' & I' & L' & G' & X' & D'); rewrite ?Zlen_select in *; auto. rewrite E'.
  exists L, U', ones. rewrite X', D'. intuition.
Qed.
End Parts1.
Section Parts2.
Context {V : Type}.
Variables (one : V) (div : V -> V -> V).
Variables (base : Z) (lu : rows_t V) (A : csr V) (fin : list V) (T : Z) (q : @qworld V).
Notation m := (Zlen lu).
Hypothesis HR : rep true base m lu (with_values A fin).
Hypothesis Hb : base = 0 \/ base = 1.
Hypothesis Hs : rows_sorted lu.
Hypothesis Hf : full_diag lu.
Hypothesis HT : 1 <= T.
Hypothesis HJ : sl_junk_ok m T (qw_junk q).
Hypothesis HJ1 : Zlen (qw_dptr q) = m.
Hypothesis HJ2 : Zlen (qw_idiag q) = m.
Lemma ilu_parts_ok : exists L U ones ids, ilu_parts one div A fin T q = Some (L, U) /\
  rep true base m (select lower lu) L /\ idiag L = Some ones /\ Zlen ones = m /\ holds ones m (fun _ => one) /\
  rep true base m (select upper lu) U /\ idiag U = Some ids /\ Zlen ids = m /\ (forall i, 0 <= i < m -> exists l1 v l2, nthl lu i = l1 ++ (i, v) :: l2 /\ (forall c w, In (c, w) l1 -> c < i) /\ get ids i = Some (div one v)) /\
  extptr L = None /\ extptr U = None /\ diagptr L = None /\ diagptr U = None.
Proof.
  destruct (computeInverseDiag_ok (div one) base m lu (with_values A fin) (qw_diag q) (qw_dptr q) (qw_idiag q) HR Hb Hs Hf HJ1 HJ2 eq_refl ltac:(discriminate)) as (LU & ids & E & R & I & (d & Ed & Dd) & Li & G).
  assert (X : extptr LU = None).
  { revert E. unfold computeInverseDiag. cbn [idiag with_values]. destruct (constructDiagPtr _ _ _) as [D|] eqn:ED; [|discriminate]. intros E.
    assert (XD : extptr D = None). { revert ED. unfold constructDiagPtr. cbn [diagptr with_values]. intros ED. repeat match type of ED with (match ?o with _ => _ end) = _ => destruct o; [|discriminate ED] end. injection ED as <-. reflexivity. }
    destruct (getBase D); [|discriminate E]. match type of E with (match ?o with _ => _ end) = _ => destruct o; [|discriminate E] end. injection E as <-. exact XD. }
  destruct (split_ok base lu LU T q R Hb X HT HJ ids) as (L & U & E2 & R1 & R2 & X1 & X2 & I1 & I2 & D1 & D2); auto.
  { intros d' Ed'. rewrite Ed in Ed'. injection Ed' as <-. rewrite (proj1 Dd). symmetry. apply R. }
  destruct (unitL_ok one (sch := qw_loop q) R1 I1) as (L' & ones & E3 & R3 & I3 & L3 & G3 & X3 & D3); [rewrite Zlen_select; auto|]. rewrite Zlen_select in *.
  exists L', U, ones, ids. unfold ilu_parts. rewrite E, E2, E3, X3, D3. intuition.
Qed.
End Parts2.

(** ** Exact arithmetic *)
Section Ring.
Context {V : Type}.
Variables (zero one : V) (add mul sub : V -> V -> V) (opp : V -> V).
Variable RT : ring_theory zero one add mul sub opp (@eq V).
Add Ring Vring5 : RT.
Notation at_ := (at_ zero).
Notation rt := (row_times zero one add mul true).
Notation coefat := (coefat zero add).
Notation upd := (updates add sub mul Scaled).
Notation solves := (solves zero one add mul).
Notation tri := (tri add mul sub).

Lemma tri_len {m fwd kr ids id d} : Zlen kr = m -> rows_ok m kr -> strictly fwd kr -> holds ids m id -> (forall r, 0 <= r < m -> mul (d r) (id r) = one) ->
  forall asc b y, Zlen b = m -> Zlen y = m -> upd asc kr ids b (dirZ fwd 0 m) y = Some (tri fwd kr ids b) /\ Zlen (tri fwd kr ids b) = m /\ solves kr d (at_ b) (at_ (tri fwd kr ids b)).
Proof. intros <-. apply (tri_any zero one add mul sub opp RT). Qed.
Lemma tri_uniq {m fwd kr ids id d} : Zlen kr = m -> rows_ok m kr -> strictly fwd kr -> holds ids m id -> (forall r, 0 <= r < m -> mul (d r) (id r) = one) ->
  forall b x, Zlen b = m -> Zlen x = m -> solves kr d (at_ b) (at_ x) -> x = tri fwd kr ids b.
Proof.
  intros <- Hok HS Hi Hd b x Lb Lx Hx. destruct (tri_any zero one add mul sub opp RT fwd kr ids id d Hok HS Hi Hd true b b Lb Lb) as (_ & L2 & S2).
  apply (tri_unique zero one add mul sub opp RT fwd kr id d HS Hd (at_ b)); auto.
Qed.

(** Two systems, one after the other. *)
Section Two.
Variables (m : Z) (lr ur : rows_t V) (il iu : list V) (idl dl idu du : Z -> V).
Hypothesis Nl : Zlen lr = m.
Hypothesis Okl : rows_ok m lr.
Hypothesis Sl : strictly true lr.
Hypothesis Hil : holds il m idl.
Hypothesis Dl : forall r, 0 <= r < m -> mul (dl r) (idl r) = one.
Hypothesis Nu : Zlen ur = m.
Hypothesis Oku : rows_ok m ur.
Hypothesis Su : strictly false ur.
Hypothesis Hiu : holds iu m idu.
Hypothesis Du : forall r, 0 <= r < m -> mul (du r) (idu r) = one.
Definition two (r : list V) : list V := tri false ur iu (tri true lr il r).
Lemma two_len r : Zlen r = m -> Zlen (two r) = m.
Proof. intros H. destruct (tri_len Nl Okl Sl Hil Dl true r r H H) as (_ & L & _). apply (tri_len Nu Oku Su Hiu Du true _ _ L L). Qed.
Lemma two_solves r : Zlen r = m -> exists y, Zlen y = m /\ solves lr dl (at_ r) (at_ y) /\ solves ur du (at_ y) (at_ (two r)).
Proof.
  intros H. destruct (tri_len Nl Okl Sl Hil Dl true r r H H) as (_ & L & S1). exists (tri true lr il r). split; auto. split; auto. apply (tri_len Nu Oku Su Hiu Du true _ _ L L).
Qed.
Lemma two_uniq r y z : Zlen r = m -> Zlen y = m -> Zlen z = m -> solves lr dl (at_ r) (at_ y) -> solves ur du (at_ y) (at_ z) -> z = two r.
Proof. intros Lr Ly Lz S1 S2. unfold two. rewrite <- (tri_uniq Nl Okl Sl Hil Dl r y Lr Ly S1). exact (tri_uniq Nu Oku Su Hiu Du y z Ly Lz S2). Qed.
Lemma two_both (rows : rows_t V) y z r : Zlen rows = m -> Zlen y = m -> Zlen z = m -> Zlen r = m -> both add sub mul rows lr ur il iu y z r = Some (tri true lr il r, two r).
Proof.
  intros E Ly Lz Lr. unfold both. rewrite E. destruct (tri_len Nl Okl Sl Hil Dl true r y Lr Ly) as (-> & L & _). destruct (tri_len Nu Oku Su Hiu Du false (tri true lr il r) z L Lz) as (-> & _). reflexivity.
Qed.
Lemma two_ref base L U it y z r : rep true base m lr L -> idiag L = Some il -> rep true base m ur U -> idiag U = Some iu -> Zlen y = m -> Zlen z = m -> Zlen r = m ->
  prec_ref add sub mul L U it y z r = Some (tri true lr il r, two r).
Proof.
  intros RL IL RU IU Ly Lz Lr. unfold prec_ref. destruct (tri_len Nl Okl Sl Hil Dl true r y Lr Ly) as (_ & L1 & _).
  assert (E1 : solveRef add sub mul true L r y = Some (tri true lr il r)). { revert RL Okl Hil Dl Lr Ly. rewrite <- Nl. intros RL Okl' Hil' Dl' Lr Ly. exact (solveRef_ok zero one add mul sub opp RT true lr il idl dl Okl' Sl Hil' Dl' base L r y RL IL Lr Ly). }
  rewrite E1. assert (E2 : solveRef add sub mul false U (tri true lr il r) z = Some (two r)). { revert RU Oku Hiu Du L1 Lz. rewrite <- Nu. intros RU Oku' Hiu' Du' L1 Lz. exact (solveRef_ok zero one add mul sub opp RT false ur iu idu du Oku' Su Hiu' Du' base U _ z RU IU L1 Lz). }
  now rewrite E2.
Qed.
End Two.

(** The SymGS matrix. *)
Section Symgs.
Variables (rows : rows_t V) (dg : list V) (id : Z -> V).
Notation m := (Zlen rows).
Hypothesis Hok : rows_ok m rows.
Hypothesis Hd : holds dg m id.
Hypothesis Hinv : forall r, 0 <= r < m -> mul (coefat (nthl rows r) r) (id r) = one.
Notation M := (symgs_matrix zero one add mul rows id).
Notation lr := (select lower rows).
Notation ur := (scaled_rows mul id (select upper rows)).
Notation d := (fun r => coefat (nthl rows r) r).
Lemma Zlen_M z : Zlen (M z) = m.
Proof. unfold symgs_matrix. apply Zlen_mapz. Qed.
Lemma rt_at row f n : (forall c v, In (c, v) row -> 0 <= c < n) -> rt row (at_ (map f (zrange 0 n))) = rt row f.
Proof. intros H. apply (rt_ext zero one add mul). intros c v Hc. apply at_mapz. eapply H; eauto. Qed.
Lemma row_cols i c v : 0 <= i < m -> In (c, v) (nthl rows i) -> 0 <= c < m.
Proof. intros Hi Hc. apply (Hok _ _ _ (nth_row_In rows i Hi) Hc). Qed.
Lemma symgs_solves z : Zlen z = m -> exists y, Zlen y = m /\ solves lr d (at_ (M z)) (at_ y) /\ solves ur (fun _ => one) (at_ y) (at_ z).
Proof.
  intros Lz. set (u := fun i => rt (filter (fun e => i <=? fst e) (nthl rows i)) (at_ z)). exists (map (fun i => mul (id i) (at_ (map u (zrange 0 m)) i)) (zrange 0 m)). split; [apply Zlen_mapz|]. split.
  - intros r Hr. rewrite Zlen_select in Hr. rewrite nthl_select by auto. unfold lower. rewrite <- (rt_split_le zero one add mul sub opp RT (nthl rows r) r). symmetry. unfold symgs_matrix. fold u. now rewrite at_mapz by auto.
  - intros r Hr. rewrite Zlen_scaled, Zlen_select in Hr. rewrite nthl_scaled by (rewrite Zlen_select; auto). rewrite (rt_scaled zero one add mul sub opp RT), nthl_select by auto. rewrite !at_mapz by auto. unfold u. rewrite (rt_split_ge zero one add mul sub opp RT).
    unfold upper. transitivity (add (mul (mul (d r) (id r)) (at_ z r)) (mul (id r) (rt (filter (fun e => r <? fst e) (nthl rows r)) (at_ z)))); [rewrite Hinv by auto; reflexivity|cbn beta; ring].
Qed.
Lemma symgs_value z y r : Zlen z = m -> Zlen y = m -> Zlen r = m -> solves lr d (at_ r) (at_ y) -> solves ur (fun _ => one) (at_ y) (at_ z) -> M z = r.
Proof.
  intros Lz Ly Lr S1 S2. apply list_ext; [rewrite Zlen_M; auto|]. intros i Hi. rewrite Zlen_M in Hi. rewrite !(get_at zero) by (rewrite ?Zlen_M; lia). f_equal.
  assert (Y : forall c, 0 <= c < m -> mul (id c) (rt (filter (fun e => c <=? fst e) (nthl rows c)) (at_ z)) = at_ y c).
  { intros c Hc. specialize (S2 c). rewrite Zlen_scaled, Zlen_select in S2. rewrite <- (S2 Hc). rewrite nthl_scaled by (rewrite Zlen_select; auto). rewrite (rt_scaled zero one add mul sub opp RT), nthl_select by auto. rewrite (rt_split_ge zero one add mul sub opp RT). unfold upper.
    transitivity (add (mul (mul (d c) (id c)) (at_ z c)) (mul (id c) (rt (filter (fun e => c <? fst e) (nthl rows c)) (at_ z)))); [cbn beta; ring|rewrite Hinv by auto; reflexivity]. }
  specialize (S1 i). rewrite Zlen_select in S1. rewrite <- (S1 Hi). rewrite nthl_select by auto. unfold lower. rewrite <- (rt_split_le zero one add mul sub opp RT (nthl rows i) i). unfold symgs_matrix. rewrite at_mapz by auto.
  apply (rt_ext zero one add mul). intros c v Hc. apply filter_In in Hc as (Hc & _). pose proof (row_cols i c v Hi Hc). rewrite !at_mapz by auto. auto.
Qed.
End Symgs.

(** The matrix L U. *)
Section Ilu.
Variables (lu : rows_t V) (ids : list V) (id : Z -> V).
Notation m := (Zlen lu).
Hypothesis Hok : rows_ok m lu.
Hypothesis Hinv : forall r, 0 <= r < m -> mul (coefat (nthl lu r) r) (id r) = one.
Notation M := (ilu_matrix zero one add mul lu).
Notation lr := (select lower lu).
Notation ur := (select upper lu).
Notation d := (fun r => coefat (nthl lu r) r).
Lemma Zlen_LU z : Zlen (M z) = m.
Proof. unfold ilu_matrix. apply Zlen_mapz. Qed.
Lemma ilu_solves z : Zlen z = m -> exists y, Zlen y = m /\ solves lr (fun _ => one) (at_ (M z)) (at_ y) /\ solves ur d (at_ y) (at_ z).
Proof.
  intros Lz. set (u := fun i => rt (filter (fun e => i <=? fst e) (nthl lu i)) (at_ z)). exists (map u (zrange 0 m)). split; [apply Zlen_mapz|]. split.
  - intros r Hr. rewrite Zlen_select in Hr. rewrite nthl_select by auto. unfold lower. unfold ilu_matrix. fold u. rewrite !at_mapz by auto. ring.
  - intros r Hr. rewrite Zlen_select in Hr. rewrite nthl_select by auto. rewrite at_mapz by auto. unfold u, upper. now rewrite (rt_split_ge zero one add mul sub opp RT).
Qed.
Lemma ilu_value z y r : Zlen z = m -> Zlen y = m -> Zlen r = m -> solves lr (fun _ => one) (at_ r) (at_ y) -> solves ur d (at_ y) (at_ z) -> M z = r.
Proof.
  intros Lz Ly Lr S1 S2. apply list_ext; [rewrite Zlen_LU; auto|]. intros i Hi. rewrite Zlen_LU in Hi. rewrite !(get_at zero) by (rewrite ?Zlen_LU; lia). f_equal.
  assert (Y : forall c, 0 <= c < m -> rt (filter (fun e => c <=? fst e) (nthl lu c)) (at_ z) = at_ y c).
  { intros c Hc. specialize (S2 c). rewrite Zlen_select in S2. rewrite <- (S2 Hc). rewrite nthl_select by auto. now rewrite (rt_split_ge zero one add mul sub opp RT). }
  specialize (S1 i). rewrite Zlen_select in S1. rewrite <- (S1 Hi). rewrite nthl_select by auto. unfold lower, ilu_matrix. rewrite !at_mapz by auto. rewrite Y by auto.
  transitivity (add (at_ y i) (rt (filter (fun e => fst e <? i) (nthl lu i)) (at_ y))); [|ring]. f_equal.
  apply (rt_ext zero one add mul). intros c v Hc. apply filter_In in Hc as (Hc & _). pose proof (row_cols lu Hok i c v Hi Hc). rewrite !at_mapz by auto. auto.
Qed.
End Ilu.
End Ring.
