(** * What the solvers of test/pcg.cpp compute. *)
From Coq Require Import Ring_theory Field_theory Ring Permutation.
From Verif Require Import Base Interleave Spec PermUtils Flat Csr Transpose CsrTools CsrOps RowPar Fill SpMV SplitLU Permute PermuteMain PermuteFacts P2P P2PProg Exec Kernels Ilu Levels LevelsFacts LevelsMain LevelsCsr Tasks TaskGraph TaskGraphFacts TaskGraphLists TaskGraphMain TaskGraphOrder TaskGraphCsr Sched SchedPerm Solve IluExact SolveCases Pcg PcgTri PcgMain.

(** The arguments of a solver for a matrix with m rows. *)
Record pcg_args {V} (m T : Z) (w : pworld) (x b : list V) (j : @pjunk V) : Prop := {
  pa_T : 1 <= T; pa_w : pw_ok m w; pa_x : Zlen x = m; pa_b : Zlen b = m; pa_j : pj_ok m j }.
(** pcg.cpp:172-235 (ilu0): the contents of lu after a complete run. *)
Definition ilu0_p2p {V} (sub mul div : V -> V -> V) (A : csr V) (dp : list Z) (S : schedule) (t2o : list Z) (T : Z) (sch : list nat) (lu : list V) (res : option (list V)) : Prop :=
  match getBase A, ilu_copy A sch lu with
  | Some base, Some v => outcome (lexec sub mul div) None (ilu_ops A base dp) true S (get t2o) T v res
  | _, _ => res = None
  end.

Lemma perm_col_id m c : 0 <= c < m -> perm_col (zrange 0 m) c = c.
Proof. intros H. unfold perm_col. rewrite get_zrange by lia. lia. Qed.
Lemma moved_id {V} (sub : V -> V -> V) (rows : rows_t V) : rows_ok (Zlen rows) rows -> moved_rows sub (zrange 0 (Zlen rows)) (zrange 0 (Zlen rows)) rows rows.
Proof.
  intros Hok. split; auto. intros i r E. left. pose proof (get_Some_bounds _ _ _ E) as B. pose proof (Zlen_nonneg rows). rewrite Zlen_zrange in B. rewrite get_zrange in E by lia. injection E as <-. rewrite ?Z.add_0_l.
  unfold rename. transitivity (map (fun e : Z * V => e) (nthl rows i)); [now rewrite map_id|]. apply map_ext_in. intros (c & v) Hc. cbn [fst snd]. rewrite perm_col_id; auto. apply (Hok _ _ _ (nth_row_In rows i ltac:(lia)) Hc).
Qed.
Lemma placed_id {X} m (l : list X) : Zlen l = m -> placed m (zrange 0 m) l l.
Proof. intros H. split; auto. split; auto. intros i r E. pose proof (get_Some_bounds _ _ _ E) as B. pose proof (Zlen_nonneg l). rewrite Zlen_zrange in B. rewrite get_zrange in E by lia. injection E as <-. now rewrite ?Z.add_0_l. Qed.
Lemma placed_id_inv {X} m (l l' : list X) : placed m (zrange 0 m) l l' -> l' = l.
Proof. intros (A & B & C). apply list_ext; [lia|]. intros i Hi. specialize (C i (0 + i)). rewrite get_zrange in C by lia. rewrite C by auto. now rewrite Z.add_0_l. Qed.
Lemma inv_id m p i : get (zrange 0 m) p = Some i -> get (zrange 0 m) i = Some p.
Proof. intros E. pose proof (get_Some_bounds _ _ _ E) as B. rewrite Zlen_zrange in B. destruct (Z_lt_ge_dec m 0); [lia|]. rewrite get_zrange in E by lia. injection E as <-. rewrite ?Z.add_0_l. rewrite get_zrange by lia. f_equal. Qed.

(** ** Any arithmetic: nothing undefined happens *)
Section Safe.
Context {V : Type}.
Variables (zero one : V) (add sub mul div : V -> V -> V) (opp sqrt : V -> V) (ltb : V -> V -> bool) (is0 is1 ism1 : V -> bool).
Definition returns (m maxiter : Z) (o : option (list V * Z * V)) : Prop := exists x' k e, o = Some (x', k, e) /\ Zlen x' = m /\ 1 <= k <= maxiter + 1.
Notation solve_re := (solve_reordered zero one add sub mul div opp sqrt ltb is0 is1 ism1).

Lemma upd_any (rows : rows_t V) fwd base M ids b y : rep true base (Zlen rows) rows M -> rows_ok (Zlen rows) rows -> idiag M = Some ids -> Zlen ids = Zlen rows -> Zlen b = Zlen rows -> Zlen y = Zlen rows ->
  exists fin, solveRef add sub mul fwd M b y = Some fin /\ Zlen fin = Zlen rows.
Proof.
  clear zero one div opp sqrt ltb is0 is1 ism1. intros HR Hok Ei Li Lb Ly. unfold solveRef. rewrite (rep_base _ _ _ _ _ HR), Ei. pose proof HR as (_ & _ & _ & _ & ->). rewrite (ref_sweep_updates add sub mul Scaled fwd base (Zlen rows) rows M ids b y HR Hok).
  destruct (updates_ok add sub mul Scaled true (Zlen rows) rows ids b Hok (dirZ fwd 0 (Zlen rows)) y) as (f & F & L); try lia. { intros r Hr. now apply In_dirZ in Hr. } exists f. split; auto. lia.
Qed.
Lemma prec_ref_any m (lr ur : rows_t V) bl bu L U il iu it y z r : Zlen lr = m -> Zlen ur = m -> rep true bl m lr L -> rep true bu m ur U -> rows_ok m lr -> rows_ok m ur ->
  idiag L = Some il -> idiag U = Some iu -> Zlen il = m -> Zlen iu = m -> Zlen y = m -> Zlen z = m -> Zlen r = m -> exists y' z', prec_ref add sub mul L U it y z r = Some (y', z') /\ Zlen y' = m /\ Zlen z' = m.
Proof.
  clear zero one div opp sqrt ltb is0 is1 ism1. intros Nl Nu RL RU Okl Oku Il Iu Ll Lu Ly Lz Lr. unfold prec_ref.
  assert (H1 : exists f, solveRef add sub mul true L r y = Some f /\ Zlen f = m) by (subst m; eapply upd_any; eauto). destruct H1 as (f & -> & Lf).
  assert (H2 : exists g, solveRef add sub mul false U f z = Some g /\ Zlen g = m) by (rewrite <- Nu in *; eapply upd_any; eauto). destruct H2 as (g & -> & Lg). eauto.
Qed.

Theorem symgs_safe rows A dg T q w tol x b maxiter j : rep true 0 (Zlen rows) rows A -> rows_ok (Zlen rows) rows -> extptr A = None -> diagptr_len A -> idiag A = Some dg -> Zlen dg = Zlen rows ->
  sl_junk_ok (Zlen rows) T (qw_junk q) -> pcg_args (Zlen rows) T w x b j -> 0 <= maxiter ->
  returns (Zlen rows) maxiter (pcg_symgs zero one add sub mul div opp sqrt ltb is0 is1 ism1 A T q w tol x b maxiter j).
Proof.
  intros HR Hok HX HD Ed Ld HJ [HT Hw Lx Lb Hj] Hm. destruct (symgs_parts_ok 0 rows A T q HR (or_introl eq_refl) HX HT HJ one mul dg (at_ zero dg) eq_refl HD Ed Ld) as (L & U & ones & E & RL & IL & RU & IU & LI & _); [apply holds_at; lia|].
  unfold pcg_symgs. rewrite E. apply (body_safe zero one add sub mul div opp sqrt ltb is0 is1 ism1 true 0 rows A T w tol); auto.
  intros it y z r Ly Lz Lr. eapply (prec_ref_any (Zlen rows) (select lower rows) (scaled_rows mul (at_ zero dg) (select upper rows))); eauto; rewrite ?Zlen_scaled, ?Zlen_select; eauto using rows_ok_select, rows_ok_scaled.
Qed.

(** Reordered matrices. *)
Section Re.
Variables (base : Z) (rows : rows_t V) (A : csr V) (dp : list Z).
Notation m := (Zlen rows).
Hypothesis HM : sched_matrix true base m rows rows A dp.
Hypothesis Hb : base = 0 \/ base = 1.
Hypothesis Hok : rows_ok m rows.
Hypothesis HX : extptr A = None.
Hypothesis HG : forall d, idiag A = Some d -> Zlen d = m.
Variables (T : Z) (agg : bool) (cost : Z -> Z) (w : world) (tr : bool) (S : schedule) (o2t t2o : list Z).
Hypothesis HA : sched_args m T cost w.
Hypothesis HE : constructTaskGraph (graph_of A base dp) T false agg tr cost w = Some (S, o2t, t2o).
Variables (nd : bool) (lr ur : rows_t V) (L U : csr V) (il iu : list V) (q : @rworld V).
Hypothesis RL : rep true base m lr L.
Hypothesis RU : rep true base m ur U.
Hypothesis Okl : rows_ok m lr.
Hypothesis Oku : rows_ok m ur.
Hypothesis HSl : sub_pattern lr rows.
Hypothesis HSu : sub_pattern ur rows.
Hypothesis Il : idiag L = Some il.
Hypothesis Iu : idiag U = Some iu.
Hypothesis Ll : Zlen il = m.
Hypothesis Lu : Zlen iu = m.
Hypothesis Xl : extptr L = None.
Hypothesis Xu : extptr U = None.
Hypothesis Pl : diagptr L = None.
Hypothesis Pu : diagptr U = None.
Hypothesis HQ : rw_ok m T q.
Lemma full_of_sym : full_diag rows.
Proof. intros i Hi. destruct (sp_split _ (sm_sym _ _ _ _ _ _ _ HM) i Hi) as (l1 & v & l2 & E & _). exists v. rewrite E. apply in_or_app. right. now left. Qed.
Lemma reorder_ok : exists A' L' U' rows' lr' ur' il' iu', reorder nd A L U o2t t2o T q = Some (A', L', U') /\ rep true base m rows' A' /\ moved_rows sub o2t t2o rows rows' /\ rows_ok m rows' /\
  rep true base m lr' L' /\ moved_rows sub o2t t2o lr lr' /\ idiag L' = Some il' /\ placed m t2o il il' /\ rep true base m ur' U' /\ moved_rows sub o2t t2o ur ur' /\ idiag U' = Some iu' /\ placed m t2o iu iu'.
Proof.
  destruct (re_perms base rows A dp HM T agg cost w tr S o2t t2o HA HE) as (P1 & P2 & P3). destruct HQ as (J & _). pose proof (sa_T _ _ _ _ HA) as HT. unfold reorder.
  destruct (plain_permute nd base rows A o2t t2o (sm_rep _ _ _ _ _ _ _ HM) Hb Hok HX (fun _ => full_of_sym) HG P1 P2 P3 sub T (rw_perm q 0%nat) (rw_junk q) HT J) as (A' & rows' & EA & RA & MA & OA & _).
  pose proof (proj1 HSl) as Nl. pose proof (proj1 HSu) as Nu.
  assert (QL : exists L' lr', permute nd false L o2t (Some t2o) T (rw_perm q 1%nat) (rw_junk q L) = Some L' /\ rep true base m lr' L' /\ moved_rows sub o2t t2o lr lr' /\ rows_ok m lr' /\ forall d, idiag L = Some d -> exists d', idiag L' = Some d' /\ placed m t2o d d').
  { rewrite <- Nl in *. apply plain_permute; auto; [congruence|]. intros d Ed. congruence. }
  assert (QU : exists U' ur', permute nd false U o2t (Some t2o) T (rw_perm q 2%nat) (rw_junk q U) = Some U' /\ rep true base m ur' U' /\ moved_rows sub o2t t2o ur ur' /\ rows_ok m ur' /\ forall d, idiag U = Some d -> exists d', idiag U' = Some d' /\ placed m t2o d d').
  { rewrite <- Nu in *. apply plain_permute; auto; [congruence|]. intros d Ed. congruence. }
  destruct QL as (L' & lr' & EL & RL' & ML & _ & IL). destruct QU as (U' & ur' & EU & RU' & MU & _ & IU).
  destruct (IL il Il) as (il' & El & Mil). destruct (IU iu Iu) as (iu' & Eu & Miu). exists A', L', U', rows', lr', ur', il', iu'. rewrite EA, EL, EU. repeat match goal with |- _ /\ _ => split end; auto.
Qed.
Theorem re_safe tol pw x b maxiter j : pcg_args m T pw x b j -> 0 <= maxiter ->
  exists A' L' U', reorder nd A L U o2t t2o T q = Some (A', L', U') /\ (exists prec, prec_p2p add sub mul L' U' S T prec) /\
    forall prec, prec_p2p add sub mul L' U' S T prec -> returns m maxiter (solve_re A' o2t t2o T q pw tol prec x b maxiter j).
Proof.
  intros [HT Hw Lx Lb Hj] Hmx. destruct reorder_ok as (A' & L' & U' & rows' & lr' & ur' & il' & iu' & E & RA & MA & OA & RL' & ML & El & Mil & RU' & MU & Eu & Miu). exists A', L', U'. split; auto.
  split. { exact (re_prec_exists add sub mul base rows A dp HM T agg cost w tr S o2t t2o HA HE base base lr lr' ur ur' L' U' il il' iu iu' RL' Okl HSl ML El Mil RU' Oku HSu MU Eu Miu). }
  intros prec HPr. destruct (re_perms base rows A dp HM T agg cost w tr S o2t t2o HA HE) as (P1 & P2 & P3). destruct HQ as (_ & Q1 & Q2 & Q3). unfold solve_reordered. pose proof (proj1 MA) as N'. pose proof (proj1 RA) as C'. rewrite C', N'. pose proof (Zlen_nonneg rows) as Hm.
  destruct (reorderVectorOutOfPlaceWithInversePerm_ok m b (rw_b q) t2o (rw_ord q 0%nat) Hm P1 Lb Q1 (Q3 0%nat)) as (b' & -> & Lb' & _).
  destruct (reorderVectorOutOfPlaceWithInversePerm_ok m x (rw_x q) t2o (rw_ord q 1%nat) Hm P1 Lx Q2 (Q3 1%nat)) as (x' & -> & Lx' & _).
  assert (B : returns m maxiter (pcg_body zero one add sub mul div opp sqrt ltb is0 is1 ism1 A' T pw tol prec x' b' maxiter j)).
  { revert RA OA Hw Hj Lb' Lx'. rewrite <- N'. intros RA OA Hw Hj Lb' Lx'. apply (body_safe zero one add sub mul div opp sqrt ltb is0 is1 ism1 true base rows' A' T pw tol prec); auto. rewrite N'. intros it y z r Ly Lz Lr. destruct (gather_in m o2t t2o P1 P2 P3 r Lr) as (r0 & _ & Mr).
    destruct (re_prec add sub mul base rows A dp HM T agg cost w tr S o2t t2o HA HE base base lr lr' ur ur' L' U' il il' iu iu' RL' Okl HSl ML El Mil RU' Oku HSu MU Eu Miu prec it y z r0 r HPr Ly Lz Mr) as (_ & _ & y1 & z1 & y1' & z1' & _ & _ & _ & K & M1 & M2).
    exists y1', z1'. split; auto. split; [apply M1|apply M2]. }
  destruct B as (xf & k & e & -> & Lf & Hk). destruct (reorderVectorOutOfPlaceWithInversePerm_ok m xf x o2t (rw_ord q 2%nat) Hm (is_perm_o2t m o2t t2o P1 P2 P3) Lf Lx (Q3 2%nat)) as (xo & -> & Lo & _). exists xo, k, e. auto.
Qed.
End Re.
End Safe.

(** ** A matrix with new values *)
Section Refill.
Context {V : Type}.
Variables (base n : Z) (rows : rows_t V) (A : csr V) (fin : list V).
Notation m := (Zlen rows).
Hypothesis HR : rep true base n rows A.
Hypothesis HF : Zlen fin = off (nthl rows) m.
Definition refill : rows_t V := map (fun i => combine (map fst (nthl rows i)) (slice fin (off (nthl rows) i) (off (nthl rows) (i + 1)))) (zrange 0 m).
Lemma refill_len : Zlen refill = m.
Proof. unfold refill. apply Zlen_mapz. Qed.
Lemma refill_row i : 0 <= i < m -> nthl refill i = combine (map fst (nthl rows i)) (slice fin (off (nthl rows) i) (off (nthl rows) (i + 1))).
Proof. intros Hi. apply nthl_get. unfold refill. rewrite get_map, get_zrange by lia. reflexivity. Qed.
Lemma refill_bounds i : 0 <= i < m -> 0 <= off (nthl rows) i /\ off (nthl rows) (i + 1) = off (nthl rows) i + Zlen (nthl rows i) /\ off (nthl rows) (i + 1) <= Zlen fin.
Proof. intros Hi. rewrite HF, off_S by lia. pose proof (off_mono (nthl rows) 0 i ltac:(lia)). rewrite off_0 in H. pose proof (off_mono (nthl rows) (i + 1) m ltac:(lia)) as H2. rewrite off_S in H2 by lia. lia. Qed.
Lemma refill_fst i : 0 <= i < m -> map fst (nthl refill i) = map fst (nthl rows i).
Proof.
  intros Hi. rewrite refill_row by auto. destruct (refill_bounds i Hi) as (B1 & B2 & B3). set (l := map fst (nthl rows i)). set (l' := slice _ _ _).
  assert (L : length l = length l'). { apply Nat2Z.inj. change (Zlen l = Zlen l'). unfold l, l'. pose proof (Zlen_nonneg (nthl rows i)). rewrite Zlen_map, Zlen_slice by lia. lia. }
  clearbody l l'. clear -L. revert l' L. induction l as [|a l IH]; intros [|b l'] L; cbn in *; try discriminate; auto. f_equal. auto.
Qed.
Lemma refill_get i k c v : 0 <= i < m -> get (nthl rows i) k = Some (c, v) -> exists u, get (nthl refill i) k = Some (c, u) /\ get fin (off (nthl rows) i + k) = Some u.
Proof.
  intros Hi G. destruct (refill_bounds i Hi) as (B1 & B2 & B3). pose proof (get_Some_bounds _ _ _ G) as Bk. destruct (get_in_range fin (off (nthl rows) i + k) ltac:(lia)) as (u & Gu). exists u. split; auto. rewrite refill_row by auto.
  apply get_combine; [rewrite get_map, G; reflexivity|]. rewrite get_slice by lia. exact Gu.
Qed.
Lemma refill_pattern : map (map fst) refill = map (map fst) rows.
Proof.
  apply list_ext; [rewrite !Zlen_map; apply refill_len|]. intros i Hi. rewrite Zlen_map, refill_len in Hi. rewrite !get_map. rewrite (get_nthl refill i) by (rewrite refill_len; auto). rewrite (get_nthl rows i) by auto. cbn [option_map]. now rewrite refill_fst.
Qed.
Lemma refill_off i : 0 <= i <= m -> off (nthl refill) i = off (nthl rows) i.
Proof. intros Hi. apply (RowPar.off_ext _ _ m); [|lia]. intros j Hj. rewrite <- (Zlen_map fst), refill_fst, Zlen_map by lia. reflexivity. Qed.
Lemma refill_rep : rep true base n refill (with_values A fin).
Proof.
  pose proof HR as (H1 & H2 & H3 & H4 & H5). pose proof (Zlen_nonneg rows) as Hm. split; [cbn; rewrite refill_len; auto|]. split; auto. split; [|split]; cbn [rowptr colidx values with_values].
  - rewrite H3. apply list_ext; [rewrite !Zlen_rowptr_of, refill_len; auto|]. intros i Hi. rewrite Zlen_rowptr_of in Hi. rewrite !get_rowptr_of by (rewrite ?refill_len; lia). now rewrite refill_off by lia.
  - rewrite H4. apply list_ext. { rewrite !Zlen_colidx_of, refill_len, refill_off by lia. reflexivity. }
    intros p Hp. rewrite Zlen_colidx_of in Hp. destruct (flat_locate (nthl rows) m p Hm Hp) as (i & k & Hi & Hk & ->). destruct (get_in_range (nthl rows i) k Hk) as ((c & v) & G).
    destruct (refill_get i k c v Hi G) as (u & G' & _). rewrite (get_colidx_of _ _ i k c v Hi G). rewrite <- (refill_off i) by lia. symmetry. apply (get_colidx_of _ _ i k c u); auto. now rewrite refill_len.
  - f_equal. apply list_ext. { rewrite Zlen_values_of, refill_len, refill_off by lia. auto. }
    intros p Hp. rewrite HF in Hp. destruct (flat_locate (nthl rows) m p Hm Hp) as (i & k & Hi & Hk & ->). destruct (get_in_range (nthl rows i) k Hk) as ((c & v) & G).
    destruct (refill_get i k c v Hi G) as (u & G' & Gu). rewrite Gu. rewrite <- (refill_off i) by lia. symmetry. apply (get_values_of _ i k c u); auto. now rewrite refill_len.
Qed.
End Refill.

(** Facts about the pattern are those of the matrix. *)
Section Pattern.
Context {V : Type}.
Variables (rows lu : rows_t V).
Hypothesis HPt : map (map fst) lu = map (map fst) rows.
Lemma pat_len : Zlen lu = Zlen rows.
Proof. apply (f_equal (fun l => Zlen l)) in HPt. now rewrite !Zlen_map in HPt. Qed.
Lemma pat_row i : map fst (nthl lu i) = map fst (nthl rows i).
Proof. pose proof (f_equal (fun l => get l i) HPt) as E. cbn beta in E. rewrite !get_map in E. unfold nthl. destruct (get lu i), (get rows i); cbn in *; congruence. Qed.
Lemma pat_entry i c v : In (c, v) (nthl lu i) -> exists v0, In (c, v0) (nthl rows i).
Proof. intros H. apply (in_map fst) in H. rewrite pat_row in H. apply in_map_iff in H as ((c0 & v0) & E & H). cbn in E. subst. eauto. Qed.
Lemma pat_entry' i c v : In (c, v) (nthl rows i) -> exists v0, In (c, v0) (nthl lu i).
Proof. intros H. apply (in_map fst) in H. rewrite <- pat_row in H. apply in_map_iff in H as ((c0 & v0) & E & H). cbn in E. subst. eauto. Qed.
Lemma pat_ok n : rows_ok n rows -> rows_ok n lu.
Proof. intros H r c v Hr Hc. apply In_get in Hr as (i & Bi & Ei). apply nthl_get in Ei. subst r. apply pat_entry in Hc as (v0 & Hc). apply (H _ _ _ (nth_row_In rows i ltac:(rewrite <- pat_len; lia)) Hc). Qed.
Lemma pat_full : full_diag rows -> full_diag lu.
Proof. intros H i Hi. rewrite pat_len in Hi. destruct (H i Hi) as (v & Hv). apply (pat_entry' i i v Hv). Qed.
Lemma pat_sub : sub_pattern lu rows.
Proof. split; [apply pat_len|]. intros r c (v & H). apply (pat_entry _ _ _ H). Qed.
Lemma pat_sorted : sorted_rows rows -> sorted_rows lu.
Proof. intros H r Hr. rewrite pat_row. apply H. now rewrite <- pat_len. Qed.
End Pattern.
Lemma sorted_weak {V} (rows : rows_t V) : sorted_rows rows -> rows_sorted rows.
Proof.
  intros H r Hr. apply In_get in Hr as (i & Bi & Ei). apply nthl_get in Ei. subst r. specialize (H i Bi). unfold row_sorted. induction H as [|c l H IH F]; constructor; auto.
  eapply Forall_impl; [|exact F]. cbn. lia.
Qed.
Lemma diagptr_full {V} base (rows : rows_t V) dp : diagptr_ok base rows dp -> full_diag rows.
Proof. intros H i Hi. destruct (H i Hi) as (q & v & G & _). exists v. apply get_In in G. exact G. Qed.

Lemma NoDup_fst_filter {X} (p : Z * X -> bool) l : NoDup (map fst l) -> NoDup (map fst (filter p l)).
Proof.
  induction l as [|e l IH]; cbn [map filter]; auto. intros H. inversion_clear H as [|? ? N D]. destruct (p e); auto. cbn [map]. constructor; auto. intros C. apply N. apply in_map_iff in C as (e' & <- & C). apply filter_In in C as (C & _). now apply in_map.
Qed.

(** ILU(0) in any arithmetic. *)
Section SafeIlu.
Context {V : Type}.
Variables (zero one : V) (add sub mul div : V -> V -> V) (opp sqrt : V -> V) (ltb : V -> V -> bool) (is0 is1 ism1 : V -> bool).
Notation solve_re := (solve_reordered zero one add sub mul div opp sqrt ltb is0 is1 ism1).
Variables (base : Z) (rows : rows_t V) (A : csr V) (dp : list Z).
Notation m := (Zlen rows).
Hypothesis HR : rep true base m rows A.
Hypothesis Hb : base = 0 \/ base = 1.
Hypothesis Hok : rows_ok m rows.
Hypothesis Hs : sorted_rows rows.
Hypothesis Hf : full_diag rows.
(** The parts made from a matrix with this structure. *)
Lemma parts_any fin T q : Zlen fin = off (nthl rows) m -> 1 <= T -> qw_ok m (off (nthl rows) m) T q ->
  exists lu L U ones ids, ilu_parts one div A fin T q = Some (L, U) /\ map (map fst) lu = map (map fst) rows /\ rep true base m (select lower lu) L /\ idiag L = Some ones /\ Zlen ones = m /\
    rep true base m (select upper lu) U /\ idiag U = Some ids /\ Zlen ids = m /\ rows_ok m (select lower lu) /\ rows_ok m (select upper lu) /\ sub_pattern (select lower lu) rows /\ sub_pattern (select upper lu) rows /\
    extptr L = None /\ extptr U = None /\ diagptr L = None /\ diagptr U = None.
Proof.
  clear zero add sub mul opp sqrt ltb is0 is1 ism1 dp. intros HF HT (J0 & J1 & J2 & J3). pose proof (refill_rep base m rows A fin HR HF) as RF. set (lu := refill rows fin) in *. pose proof (refill_pattern rows fin HF) as P. fold lu in P.
  pose proof (pat_len _ _ P) as L0. destruct (ilu_parts_ok one div base lu A fin T q) as (L & U & ones & ids & E & R1 & I1 & L1 & _ & R2 & I2 & L2 & _ & X1 & X2 & D1 & D2); rewrite ?L0; auto.
  { apply sorted_weak. apply (pat_sorted _ _ P Hs). } { apply (pat_full _ _ P Hf). }
  rewrite L0 in *. assert (Ok' : rows_ok m lu) by (eapply pat_ok; eauto). pose proof (pat_sub _ _ P) as Sb. assert (TR : forall p, sub_pattern (select p lu) rows). { intros p. destruct (sub_select p lu) as (S1 & S2). destruct Sb as (S3 & S4). split; [lia|]. eauto. }
  exists lu, L, U, ones, ids. repeat match goal with |- _ /\ _ => split end; auto using rows_ok_select; apply TR.
Qed.
Theorem ilu0_safe T q w tol x b maxiter j : base = 0 -> diagptr A = Some dp -> diagptr_ok base rows dp -> qw_ok m (off (nthl rows) m) T q -> pcg_args m T w x b j -> 0 <= maxiter ->
  returns m maxiter (pcg_ilu0 zero one add sub mul div opp sqrt ltb is0 is1 ism1 A T q w tol x b maxiter j).
Proof.
  intros E0 Ed Hd HQ [HT Hw Lx Lb Hj] Hmx. unfold pcg_ilu0. rewrite Ed. rewrite (ilu_ref_ok sub mul div base m rows A dp HR (qw_lu q) E0) by apply HQ.
  destruct (ilu_sweep_ok sub mul div base m rows A dp HR Hd (zrange 0 m) (values_of rows)) as (fin & -> & LF). { intros r Hr. now apply In_zrange in Hr. } { apply Zlen_values_of. }
  destruct (parts_any fin T q LF HT HQ) as (lu & L & U & ones & ids & E & P & R1 & I1 & L1 & R2 & I2 & L2 & O1 & O2 & S1 & S2 & _). rewrite E.
  apply (body_safe zero one add sub mul div opp sqrt ltb is0 is1 ism1 true base rows A T w tol); auto. intros it y z r Ly Lz Lr. pose proof (proj1 S1). pose proof (proj1 S2).
  eapply (prec_ref_any add sub mul m (select lower lu) (select upper lu)); eauto.
Qed.
Hypothesis HM : sched_matrix true base m rows rows A dp.
Hypothesis HX : extptr A = None.
Hypothesis HG : forall d, idiag A = Some d -> Zlen d = m.
Variables (T : Z) (agg : bool) (cost : Z -> Z) (w : world) (tr : bool) (S : schedule) (o2t t2o : list Z).
Hypothesis HA : sched_args m T cost w.
Hypothesis HE : constructTaskGraph (graph_of A base dp) T false agg tr cost w = Some (S, o2t, t2o).
Lemma p2p_fin sch lu : Zlen lu = off (nthl rows) m -> exists fin, foldM (ilu_row sub mul div A base dp) (zrange 0 m) (values_of rows) = Some fin /\ Zlen fin = off (nthl rows) m /\
  ilu0_p2p sub mul div A dp S t2o T sch lu (Some fin) /\ forall res, ilu0_p2p sub mul div A dp S t2o T sch lu res -> res = Some fin.
Proof.
  clear zero one add opp sqrt ltb is0 is1 ism1 HX HG. intros HL. destruct (sched_ilu base m rows rows A dp HM Hok sub mul div T agg cost w tr S o2t t2o sch lu HA HE HL) as (fin & E & EC & _ & C). exists fin. split; auto.
  split. { destruct (ilu_sweep_ok sub mul div base m rows A dp HR (diagptr_of base m rows rows A dp HM Hok sub mul div cost) (zrange 0 m) (values_of rows)) as (fin' & E' & LF). { intros r Hr. now apply In_zrange in Hr. } { apply Zlen_values_of. } rewrite E in E'. injection E' as ->. exact LF. }
  unfold ilu0_p2p. rewrite (rep_base _ _ _ _ _ HR), EC. destruct (outcome_of _ _ _ _ _ _ _ _ _ (sa_T _ _ _ _ HA) (re_tasks base rows A dp HM T agg cost w tr S o2t t2o HA HE) C) as (O1 & O2). auto.
Qed.
Theorem ilu0_opt_safe nd q rq sch pw tol x b maxiter j : qw_ok m (off (nthl rows) m) T q -> rw_ok m T rq -> pcg_args m T pw x b j -> 0 <= maxiter ->
  exists fin L U A' L' U', ilu0_p2p sub mul div A dp S t2o T sch (qw_lu q) (Some fin) /\ (forall res, ilu0_p2p sub mul div A dp S t2o T sch (qw_lu q) res -> res = Some fin) /\
    ilu_parts one div A fin T q = Some (L, U) /\ reorder nd A L U o2t t2o T rq = Some (A', L', U') /\ (exists prec, prec_p2p add sub mul L' U' S T prec) /\
    forall prec, prec_p2p add sub mul L' U' S T prec -> returns m maxiter (solve_re A' o2t t2o T rq pw tol prec x b maxiter j).
Proof.
  intros HQ HRq HP Hmx. destruct (p2p_fin sch (qw_lu q)) as (fin & _ & LF & O1 & O2); [apply HQ|].
  destruct (parts_any fin T q LF (pa_T _ _ _ _ _ _ HP) HQ) as (lu & L & U & ones & ids & E & P & R1 & I1 & L1 & R2 & I2 & L2 & K1 & K2 & S1 & S2 & X1 & X2 & D1 & D2).
  destruct (re_safe zero one add sub mul div opp sqrt ltb is0 is1 ism1 base rows A dp HM Hb Hok HX HG T agg cost w tr S o2t t2o HA HE nd (select lower lu) (select upper lu) L U ones ids rq) with (tol := tol) (pw := pw) (x := x) (b := b) (maxiter := maxiter) (j := j) as (A' & L' & U' & ER & EP & RT); auto.
  exists fin, L, U, A', L', U'. repeat match goal with |- _ /\ _ => split end; auto.
Qed.
End SafeIlu.

(** ** Exact arithmetic *)
Section Exact.
Context {V : Type}.
Variables (zero one : V) (add mul sub : V -> V -> V) (opp : V -> V).
Variable RT : ring_theory zero one add mul sub opp (@eq V).
Variables (div : V -> V -> V) (sqrt : V -> V) (ltb : V -> V -> bool) (is0 is1 ism1 : V -> bool).
Hypothesis H0 : forall a, is0 a = true -> a = zero.
Hypothesis H1 : forall a, is1 a = true -> a = one.
Hypothesis Hm1 : forall a, ism1 a = true -> a = opp one.
Notation body := (pcg_body zero one add sub mul div opp sqrt ltb is0 is1 ism1).
Notation spec := (pcg_spec zero one add mul div opp sqrt ltb true).
Notation solve_re := (solve_reordered zero one add sub mul div opp sqrt ltb is0 is1 ism1).
Notation coefat := (coefat zero add).
Notation two := (two add mul sub).

Lemma body_id base rows A T w tol minv prec x b maxiter j : rep true base (Zlen rows) rows A -> rows_ok (Zlen rows) rows -> pcg_args (Zlen rows) T w x b j ->
  (forall it y z r, Zlen y = Zlen rows -> Zlen z = Zlen rows -> Zlen r = Zlen rows -> exists y', prec it y z r = Some (y', minv r) /\ Zlen y' = Zlen rows /\ Zlen (minv r) = Zlen rows) ->
  body A T w tol prec x b maxiter j = Some (spec rows minv tol x b maxiter).
Proof.
  intros HR Hok [HT Hw Lx Lb Hj] HP. pose proof (Zlen_nonneg rows) as Hm.
  destruct (body_ok zero one add mul sub opp RT div sqrt ltb is0 is1 ism1 H0 H1 Hm1 (Zlen rows) (zrange 0 (Zlen rows)) (zrange 0 (Zlen rows)) (Permutation_refl _) ltac:(rewrite Zlen_zrange; lia) (inv_id (Zlen rows)) rows rows base A T eq_refl Hok (moved_id sub rows Hok) HR Hok HT w tol minv prec Hw)
    with (x := x) (x' := x) (b := b) (b' := b) (maxiter := maxiter) (j := j) as (xf & E & P); auto using placed_id.
  { intros it y z r r' Ly Lz M. apply placed_id_inv in M as E. subst r'. destruct (HP it y z r Ly Lz (proj1 M)) as (y' & E & Ly' & Lm). exists y', (minv r). auto using placed_id. }
  apply placed_id_inv in P. subst xf. rewrite E. destruct (spec rows minv tol x b maxiter) as ((? & ?) & ?). reflexivity.
Qed.

(** With reordered matrices. *)
Section Re.
Variables (base : Z) (rows : rows_t V) (A : csr V) (dp : list Z).
Notation m := (Zlen rows).
Hypothesis HM : sched_matrix true base m rows rows A dp.
Hypothesis Hb : base = 0 \/ base = 1.
Hypothesis Hok : rows_ok m rows.
Hypothesis HX : extptr A = None.
Hypothesis HG : forall d, idiag A = Some d -> Zlen d = m.
Variables (T : Z) (agg : bool) (cost : Z -> Z) (w : world) (tr : bool) (S : schedule) (o2t t2o : list Z).
Hypothesis HA : sched_args m T cost w.
Hypothesis HE : constructTaskGraph (graph_of A base dp) T false agg tr cost w = Some (S, o2t, t2o).
Variables (nd : bool) (lr ur : rows_t V) (L U : csr V) (il iu : list V) (q : @rworld V).
Hypothesis RL : rep true base m lr L.
Hypothesis RU : rep true base m ur U.
Hypothesis Okl : rows_ok m lr.
Hypothesis Oku : rows_ok m ur.
Hypothesis HSl : sub_pattern lr rows.
Hypothesis HSu : sub_pattern ur rows.
Hypothesis Il : idiag L = Some il.
Hypothesis Iu : idiag U = Some iu.
Hypothesis Ll : Zlen il = m.
Hypothesis Lu : Zlen iu = m.
Hypothesis Xl : extptr L = None.
Hypothesis Xu : extptr U = None.
Hypothesis Pl : diagptr L = None.
Hypothesis Pu : diagptr U = None.
Hypothesis HQ : rw_ok m T q.
Theorem re_exact minv : (forall y z r, Zlen y = m -> Zlen z = m -> Zlen r = m -> exists y1, both add sub mul rows lr ur il iu y z r = Some (y1, minv r)) ->
  exists A' L' U', reorder nd A L U o2t t2o T q = Some (A', L', U') /\ (exists prec, prec_p2p add sub mul L' U' S T prec) /\
    forall prec, prec_p2p add sub mul L' U' S T prec -> forall tol pw x b maxiter j, pcg_args m T pw x b j -> solve_re A' o2t t2o T q pw tol prec x b maxiter j = Some (spec rows minv tol x b maxiter).
Proof.
  intros HB. destruct (reorder_ok sub base rows A dp HM Hb Hok HX HG T agg cost w tr S o2t t2o HA HE nd lr ur L U il iu q) as (A' & L' & U' & rows' & lr' & ur' & il' & iu' & E & RA & MA & OA & RL' & ML & El & Mil & RU' & MU & Eu & Miu); auto. exists A', L', U'. split; auto.
  split. { exact (re_prec_exists add sub mul base rows A dp HM T agg cost w tr S o2t t2o HA HE base base lr lr' ur ur' L' U' il il' iu iu' RL' Okl HSl ML El Mil RU' Oku HSu MU Eu Miu). }
  intros prec HPr tol pw x b maxiter j [HT Hw Lx Lb Hj]. destruct (re_perms base rows A dp HM T agg cost w tr S o2t t2o HA HE) as (P1 & P2 & P3). destruct HQ as (_ & Q1 & Q2 & Q3). unfold solve_reordered. pose proof (proj1 MA) as N'. pose proof (proj1 RA) as C'. rewrite C', N'. pose proof (Zlen_nonneg rows) as Hm.
  assert (Bt : forall i p, get t2o i = Some p -> 0 <= i < m). { intros i p G. apply get_Some_bounds in G. rewrite (is_perm_len m t2o) in G by auto. lia. }
  destruct (reorderVectorOutOfPlaceWithInversePerm_ok m b (rw_b q) t2o (rw_ord q 0%nat) Hm P1 Lb Q1 (Q3 0%nat)) as (b' & -> & Lb' & Gb).
  destruct (reorderVectorOutOfPlaceWithInversePerm_ok m x (rw_x q) t2o (rw_ord q 1%nat) Hm P1 Lx Q2 (Q3 1%nat)) as (x' & -> & Lx' & Gx).
  destruct (body_ok zero one add mul sub opp RT div sqrt ltb is0 is1 ism1 H0 H1 Hm1 m o2t t2o P1 P2 P3 rows rows' base A' T eq_refl Hok MA RA OA HT pw tol minv prec Hw) with (x := x) (x' := x') (b := b) (b' := b') (maxiter := maxiter) (j := j) as (xf & EB & PF); auto.
  { intros it y z r r' Ly Lz Mr. destruct (re_prec add sub mul base rows A dp HM T agg cost w tr S o2t t2o HA HE base base lr lr' ur ur' L' U' il il' iu iu' RL' Okl HSl ML El Mil RU' Oku HSu MU Eu Miu prec it y z r r' HPr Ly Lz Mr) as (y0 & z0 & y1 & z1 & y1' & z1' & My & Mz & EBo & K & M1 & M2).
    destruct (HB y0 z0 r (proj1 My) (proj1 Mz) (proj1 Mr)) as (y2 & EB2). rewrite EBo in EB2. injection EB2 as -> ->. exists y1', z1'. split; auto. split; auto. apply M1. }
  { split; [auto|]. split; [auto|]. intros i p G. apply Gx; eauto. } { split; [auto|]. split; [auto|]. intros i p G. apply Gb; eauto. }
  rewrite EB. destruct PF as (F1 & F2 & F3). destruct (reorderVectorOutOfPlaceWithInversePerm_ok m xf x o2t (rw_ord q 2%nat) Hm (is_perm_o2t m o2t t2o P1 P2 P3) F2 Lx (Q3 2%nat)) as (xo & -> & Lo & Go).
  set (sp := spec rows minv tol x b maxiter) in *. assert (EX : xo = fst (fst sp)). { apply list_ext; [lia|]. intros i Hi. destruct (get_in_range o2t i ltac:(lia)) as (p & Gp). rewrite (Go i p ltac:(lia) Gp). apply F3. apply (o2t_t2o m o2t t2o P1 P2 P3 i p Gp). }
  subst xo. destruct sp as ((? & ?) & ?). reflexivity.
Qed.
End Re.

(** The symmetric Gauss-Seidel preconditioner. *)
Section Symgs.
Variables (rows : rows_t V) (A : csr V) (dg : list V) (id : Z -> V).
Notation m := (Zlen rows).
Hypothesis HR : rep true 0 m rows A.
Hypothesis Hok : rows_ok m rows.
Hypothesis HX : extptr A = None.
Hypothesis HD : diagptr_len A.
Hypothesis Ed : idiag A = Some dg.
Hypothesis Ld : Zlen dg = m.
Hypothesis Hd : holds dg m id.
Hypothesis Hinv : forall r, 0 <= r < m -> mul (coefat (nthl rows r) r) (id r) = one.
Notation M := (symgs_matrix zero one add mul rows id).
Notation lr := (select lower rows).
Notation ur := (scaled_rows mul id (select upper rows)).
Lemma symgs_two iu : holds iu m (fun _ => one) -> (forall r, Zlen r = m -> Zlen (two lr ur dg iu r) = m /\ M (two lr ur dg iu r) = r) /\
  (forall minv r, inverts m M minv -> Zlen r = m -> minv r = two lr ur dg iu r) /\
  (forall y z r, Zlen y = m -> Zlen z = m -> Zlen r = m -> both add sub mul rows lr ur dg iu y z r = Some (tri add mul sub true lr dg r, two lr ur dg iu r)) /\
  (forall L U it y z r, rep true 0 m lr L -> idiag L = Some dg -> rep true 0 m ur U -> idiag U = Some iu -> Zlen y = m -> Zlen z = m -> Zlen r = m ->
    prec_ref add sub mul L U it y z r = Some (tri add mul sub true lr dg r, two lr ur dg iu r) /\ Zlen (tri add mul sub true lr dg r) = m).
Proof.
  intros Hi. pose proof (Rmul_1_l RT one) as R1.
  assert (Nl : Zlen lr = m) by apply Zlen_select. assert (Nu : Zlen ur = m) by now rewrite Zlen_scaled, Zlen_select.
  assert (Okl : rows_ok m lr) by now apply rows_ok_select. assert (Oku : rows_ok m ur) by now apply rows_ok_scaled, rows_ok_select.
  assert (Sl : strictly true lr) by now apply strictly_lower. assert (Su : strictly false ur) by now apply strictly_scaled, strictly_upper.
  assert (D1 : forall r, 0 <= r < m -> mul one one = one) by auto.
  split; [|split; [|split]].
  - intros r Lr. pose proof (two_len zero one add mul sub opp RT m lr ur dg iu id _ (fun _ => one) (fun _ => one) Nl Okl Sl Hd Hinv Nu Oku Su Hi D1 r Lr) as L2. split; auto.
    destruct (two_solves zero one add mul sub opp RT m lr ur dg iu id _ (fun _ => one) (fun _ => one) Nl Okl Sl Hd Hinv Nu Oku Su Hi D1 r Lr) as (y & Ly & S1 & S2). eapply (symgs_value zero one add mul sub opp RT rows id); eauto.
  - intros minv r HI Lr. destruct (HI r Lr) as (Lm & E). destruct (symgs_solves zero one add mul sub opp RT rows id Hinv (minv r) Lm) as (y & Ly & S1 & S2). rewrite E in S1.
    exact (two_uniq zero one add mul sub opp RT m lr ur dg iu id _ (fun _ => one) (fun _ => one) Nl Okl Sl Hd Hinv Nu Oku Su Hi D1 r y (minv r) Lr Ly Lm S1 S2).
  - intros y z r Ly Lz Lr. exact (two_both zero one add mul sub opp RT m lr ur dg iu id _ (fun _ => one) (fun _ => one) Nl Okl Sl Hd Hinv Nu Oku Su Hi D1 rows y z r eq_refl Ly Lz Lr).
  - intros L U it y z r RL IL RU IU Ly Lz Lr. split; [exact (two_ref zero one add mul sub opp RT m lr ur dg iu id _ (fun _ => one) (fun _ => one) Nl Okl Sl Hd Hinv Nu Oku Su Hi D1 0 L U it y z r RL IL RU IU Ly Lz Lr)|].
    apply (tri_len zero one add mul sub opp RT Nl Okl Sl Hd Hinv true r r); auto.
Qed.
Theorem symgs_exact T q : 1 <= T -> sl_junk_ok m T (qw_junk q) -> (exists minv, inverts m M minv) /\
  forall minv, inverts m M minv -> forall w tol x b maxiter j, pcg_args m T w x b j -> pcg_symgs zero one add sub mul div opp sqrt ltb is0 is1 ism1 A T q w tol x b maxiter j = Some (spec rows minv tol x b maxiter).
Proof.
  intros HT HJ. destruct (symgs_parts_ok 0 rows A T q HR (or_introl eq_refl) HX HT HJ one mul dg id eq_refl HD Ed Ld Hd) as (L & U & ones & E & RL & IL & RU & IU & LI & Hi & _).
  destruct (symgs_two ones Hi) as (S1 & S2 & _ & S4). split; [exists (two lr ur dg ones); intros r Lr; auto|]. intros minv HI w tol x b maxiter j HA. unfold pcg_symgs. rewrite E.
  apply body_id with (base := 0); auto. intros it y z r Ly Lz Lr. rewrite (S2 minv r HI Lr). destruct (S4 L U it y z r RL IL RU IU Ly Lz Lr) as (-> & LT). exists (tri add mul sub true lr dg r). split; auto. split; auto. now apply S1.
Qed.
Theorem symgs_opt_exact dp T q agg cost w tr S o2t t2o nd rq : sched_matrix true 0 m rows rows A dp -> sched_args m T cost w -> constructTaskGraph (graph_of A 0 dp) T false agg tr cost w = Some (S, o2t, t2o) -> sl_junk_ok m T (qw_junk q) -> rw_ok m T rq ->
  (exists minv, inverts m M minv) /\ exists L U A' L' U', symgs_parts one mul A T q = Some (A, L, U) /\ reorder nd A L U o2t t2o T rq = Some (A', L', U') /\ (exists prec, prec_p2p add sub mul L' U' S T prec) /\
    forall prec minv, prec_p2p add sub mul L' U' S T prec -> inverts m M minv -> forall pw tol x b maxiter j, pcg_args m T pw x b j -> solve_re A' o2t t2o T rq pw tol prec x b maxiter j = Some (spec rows minv tol x b maxiter).
Proof.
  intros HM HA HE HJ HQ. pose proof (sa_T _ _ _ _ HA) as HT. destruct (symgs_parts_ok 0 rows A T q HR (or_introl eq_refl) HX HT HJ one mul dg id eq_refl HD Ed Ld Hd) as (L & U & ones & E & RL & IL & RU & IU & LI & Hi & X1 & X2 & D1 & D2).
  destruct (symgs_two ones Hi) as (S1 & S2 & S3 & _). split; [exists (two lr ur dg ones); intros r Lr; auto|]. exists L, U.
  assert (QX : forall minv, inverts m M minv -> exists A' L' U', reorder nd A L U o2t t2o T rq = Some (A', L', U') /\ (exists prec, prec_p2p add sub mul L' U' S T prec) /\
    forall prec, prec_p2p add sub mul L' U' S T prec -> forall tol pw x b maxiter j, pcg_args m T pw x b j -> solve_re A' o2t t2o T rq pw tol prec x b maxiter j = Some (spec rows minv tol x b maxiter)).
  { intros minv HI. apply (re_exact 0 rows A dp HM (or_introl eq_refl) Hok HX ltac:(intros d E'; congruence) T agg cost w tr S o2t t2o HA HE nd lr ur L U dg ones rq); auto using rows_ok_select, rows_ok_scaled, sub_select, sub_scaled.
    intros y z r Ly Lz Lr. rewrite (S2 minv r HI Lr). eauto. }
  destruct (QX (two lr ur dg ones)) as (A' & L' & U' & EP & EX & _); [intros r Lr; auto|]. exists A', L', U'. split; auto. split; auto. split; auto. intros prec minv HP HI. destruct (QX minv HI) as (A2 & L2 & U2 & EP2 & _ & K). rewrite EP in EP2. injection EP2 as <- <- <-. eauto.
Qed.
End Symgs.
End Exact.

(** The ILU(0) preconditioner. *)
Section ExactIlu.
Context {V : Type}.
Variables (zero one : V) (add mul sub : V -> V -> V) (opp : V -> V) (div : V -> V -> V) (inv : V -> V).
Variable FT : field_theory zero one add mul sub opp div inv (@eq V).
Variables (sqrt : V -> V) (ltb : V -> V -> bool) (is0 is1 ism1 : V -> bool).
Hypothesis H0 : forall a, is0 a = true -> a = zero.
Hypothesis H1 : forall a, is1 a = true -> a = one.
Hypothesis Hm1 : forall a, ism1 a = true -> a = opp one.
Notation spec := (pcg_spec zero one add mul div opp sqrt ltb true).
Notation solve_re := (solve_reordered zero one add sub mul div opp sqrt ltb is0 is1 ism1).
Notation coefat := (coefat zero add).
Notation two := (two add mul sub).
Notation RT := (F_R FT).
Variables (base : Z) (rows : rows_t V) (A : csr V) (dp : list Z).
Notation m := (Zlen rows).
Hypothesis HR : rep true base m rows A.
Hypothesis Hb : base = 0 \/ base = 1.
Hypothesis Hok : rows_ok m rows.
Hypothesis Hs : sorted_rows rows.
Hypothesis Hd : diagptr_ok base rows dp.
Notation LU lu := (ilu_matrix zero one add mul lu).
(** The matrix of the computed values. *)
Definition ilu_rows (lu : rows_t V) : Prop := exists fin, foldM (ilu_row sub mul div A base dp) (zrange 0 m) (values_of rows) = Some fin /\ rep true base m lu (with_values A fin).
Lemma ilu_rows_one lu lu' : ilu_rows lu -> ilu_rows lu' -> lu = lu'.
Proof. intros (f & E & R) (f' & E' & R'). rewrite E in E'. injection E' as <-. destruct (rep_inj _ _ _ _ _ _ _ _ R R') as (_ & _ & _ & H). auto. Qed.
(** The factors and what the two solves with them do. *)
Lemma ilu_two T q : 1 <= T -> qw_ok m (off (nthl rows) m) T q -> exists fin lu, foldM (ilu_row sub mul div A base dp) (zrange 0 m) (values_of rows) = Some fin /\
  (map (map fst) lu = map (map fst) rows /\ ilu_rows lu) /\ exists L U ones ids, ilu_parts one div A fin T q = Some (L, U) /\ rep true base m (select lower lu) L /\ rep true base m (select upper lu) U /\
    rows_ok m (select lower lu) /\ rows_ok m (select upper lu) /\ sub_pattern (select lower lu) rows /\ sub_pattern (select upper lu) rows /\ idiag L = Some ones /\ idiag U = Some ids /\ Zlen ones = m /\ Zlen ids = m /\
    extptr L = None /\ extptr U = None /\ diagptr L = None /\ diagptr U = None /\
    (pivots_ok zero add lu -> factors zero one add mul rows lu /\ (forall lu', factors zero one add mul rows lu' -> lu' = lu) /\
      (forall r, Zlen r = m -> Zlen (two (select lower lu) (select upper lu) ones ids r) = m /\ LU lu (two (select lower lu) (select upper lu) ones ids r) = r) /\
      (forall minv r, inverts m (LU lu) minv -> Zlen r = m -> minv r = two (select lower lu) (select upper lu) ones ids r) /\
      (forall y z r, Zlen y = m -> Zlen z = m -> Zlen r = m -> exists y1, both add sub mul rows (select lower lu) (select upper lu) ones ids y z r = Some (y1, two (select lower lu) (select upper lu) ones ids r)) /\
      (forall it y z r, Zlen y = m -> Zlen z = m -> Zlen r = m -> exists y1, prec_ref add sub mul L U it y z r = Some (y1, two (select lower lu) (select upper lu) ones ids r) /\ Zlen y1 = m)).
Proof.
  intros HT (J0 & J1 & J2 & J3). destruct (ilu_factors zero one add mul sub opp div inv FT base m rows A dp HR Hd Hs) as (fin & lu & E1 & R & P & F). change (rep true base m lu (with_values A fin)) in R.
  pose proof (pat_len _ _ P) as L0. exists fin, lu. split; auto. split; [split; auto; exists fin; auto|].
  destruct (ilu_parts_ok one div base lu A fin T q) as (L & U & ones & ids & E & R1 & I1 & L1 & G1 & R2 & I2 & L2 & G2 & X1 & X2 & D1 & D2); rewrite ?L0; auto.
  { apply sorted_weak. apply (pat_sorted _ _ P Hs). } { eapply pat_full; eauto using diagptr_full. }
  rewrite L0 in *. exists L, U, ones, ids. assert (Ok' : rows_ok m lu) by (eapply pat_ok; eauto). pose proof (pat_sub _ _ P) as Sb. assert (TR : forall p, sub_pattern (select p lu) rows). { intros p. destruct (sub_select p lu) as (S1 & S2). destruct Sb as (S3 & S4). split; [lia|]. eauto. }
  assert (Okl : rows_ok m (select lower lu)) by now apply rows_ok_select. assert (Oku : rows_ok m (select upper lu)) by now apply rows_ok_select.
  repeat match goal with |- _ /\ _ => split end; auto.
  intros Hp. unfold pivots_ok in Hp. rewrite L0 in Hp. split; [auto|]. split. { intros lu' F'. symmetry. eapply (factors_unique zero one add mul sub opp div inv FT base m rows A dp HR Hd Hs); eauto. }
  assert (DV : forall r, 0 <= r < m -> exists v, coefat (nthl lu r) r = v /\ v <> zero /\ get ids r = Some (div one v)).
  { intros r Hr. destruct (G2 r Hr) as (l1 & v & l2 & El & _ & Gi). assert (ND : NoDup (map fst (nthl lu r))) by (apply ssorted_NoDup, (pat_sorted _ _ P Hs); lia). assert (In1 : In (r, v) (nthl lu r)) by (rewrite El; apply in_or_app; right; now left).
    exists v. split; [now apply (coefat_one zero one add mul sub opp div inv FT)|]. split; auto. intros ->. apply (Hp r Hr). unfold upper_at. apply (coefat_one zero one add mul sub opp div inv FT); [now apply NoDup_fst_filter|]. apply filter_In. split; auto. cbn. lia. }
  set (id := at_ zero ids). assert (Hi : holds ids m id) by (apply holds_at; lia).
  assert (Du : forall r, 0 <= r < m -> mul (coefat (nthl lu r) r) (id r) = one). { intros r Hr. destruct (DV r Hr) as (v & -> & Nz & G). unfold id, at_. rewrite G. rewrite (Fdiv_def FT one v). rewrite (Rmul_1_l RT), (Rmul_comm RT). now apply (Finv_l FT). }
  pose proof (Rmul_1_l RT one) as R1'. assert (Dl : forall r, 0 <= r < m -> mul one one = one) by auto.
  assert (Nl : Zlen (select lower lu) = m) by now rewrite Zlen_select. assert (Nu : Zlen (select upper lu) = m) by now rewrite Zlen_select.
  assert (Sl : strictly true (select lower lu)) by (apply strictly_lower; now rewrite L0). assert (Su : strictly false (select upper lu)) by (apply strictly_upper; now rewrite L0).
  assert (Du' : forall r, 0 <= r < Zlen lu -> mul (coefat (nthl lu r) r) (id r) = one) by (rewrite L0; auto).
  repeat match goal with |- _ /\ _ => split end.
  - intros r Lr. pose proof (two_len zero one add mul sub opp RT m _ _ ones ids (fun _ => one) (fun _ => one) id _ Nl Okl Sl G1 Dl Nu Oku Su Hi Du r Lr) as L3. split; auto.
    destruct (two_solves zero one add mul sub opp RT m _ _ ones ids (fun _ => one) (fun _ => one) id _ Nl Okl Sl G1 Dl Nu Oku Su Hi Du r Lr) as (y & Ly & S1 & S2).
    eapply (ilu_value zero one add mul sub opp RT lu id); eauto; rewrite L0; eauto.
  - intros minv r HI Lr. destruct (HI r Lr) as (Lm & Em). destruct (ilu_solves zero one add mul sub opp RT lu (minv r)) as (y & Ly & S1 & S2); [lia|]. rewrite Em in S1. rewrite L0 in Ly.
    exact (two_uniq zero one add mul sub opp RT m _ _ ones ids (fun _ => one) (fun _ => one) id _ Nl Okl Sl G1 Dl Nu Oku Su Hi Du r y (minv r) Lr Ly Lm S1 S2).
  - intros y z r Ly Lz Lr. eexists. exact (two_both zero one add mul sub opp RT m _ _ ones ids (fun _ => one) (fun _ => one) id _ Nl Okl Sl G1 Dl Nu Oku Su Hi Du rows y z r eq_refl Ly Lz Lr).
  - intros it y z r Ly Lz Lr. eexists. split; [exact (two_ref zero one add mul sub opp RT m _ _ ones ids (fun _ => one) (fun _ => one) id _ Nl Okl Sl G1 Dl Nu Oku Su Hi Du base L U it y z r R1 I1 R2 I2 Ly Lz Lr)|].
    apply (tri_len zero one add mul sub opp RT Nl Okl Sl G1 Dl true r r); auto.
Qed.
Theorem ilu0_exact_lu T q : base = 0 -> diagptr A = Some dp -> 1 <= T -> qw_ok m (off (nthl rows) m) T q -> exists lu, (map (map fst) lu = map (map fst) rows /\ ilu_rows lu) /\
  (pivots_ok zero add lu -> factors zero one add mul rows lu /\ (forall lu', factors zero one add mul rows lu' -> lu' = lu) /\ (exists minv, inverts m (LU lu) minv) /\
    forall minv, inverts m (LU lu) minv -> forall w tol x b maxiter j, pcg_args m T w x b j -> pcg_ilu0 zero one add sub mul div opp sqrt ltb is0 is1 ism1 A T q w tol x b maxiter j = Some (spec rows minv tol x b maxiter)).
Proof.
  intros E0 Ed HT HQ. destruct (ilu_two T q HT HQ) as (fin & lu & EF & P & L & U & ones & ids & E & R1 & R2 & O1 & O2 & S1 & S2 & I1 & I2 & L1 & L2 & X1 & X2 & D1 & D2 & K). exists lu. split; auto. intros Hp. destruct (K Hp) as (F & FU & T1 & T2 & _ & T4).
  split; auto. split; auto. split; [eexists; exact T1|]. intros minv HI w tol x b maxiter j HA. unfold pcg_ilu0. rewrite Ed. rewrite (ilu_ref_ok sub mul div base m rows A dp HR (qw_lu q) E0) by apply HQ. rewrite EF, E.
  apply (body_id zero one add mul sub opp RT div sqrt ltb is0 is1 ism1 H0 H1 Hm1 base); auto. intros it y z r Ly Lz Lr. rewrite (T2 minv r HI Lr). destruct (T4 it y z r Ly Lz Lr) as (y1 & -> & Ly1). exists y1. split; auto. split; auto. now apply T1.
Qed.
Theorem ilu0_exact T q : base = 0 -> diagptr A = Some dp -> 1 <= T -> qw_ok m (off (nthl rows) m) T q -> exists lu, map (map fst) lu = map (map fst) rows /\
  (pivots_ok zero add lu -> factors zero one add mul rows lu /\ (forall lu', factors zero one add mul rows lu' -> lu' = lu) /\ (exists minv, inverts m (LU lu) minv) /\
    forall minv, inverts m (LU lu) minv -> forall w tol x b maxiter j, pcg_args m T w x b j -> pcg_ilu0 zero one add sub mul div opp sqrt ltb is0 is1 ism1 A T q w tol x b maxiter j = Some (spec rows minv tol x b maxiter)).
Proof. intros E0 Ed HT HQ. destruct (ilu0_exact_lu T q E0 Ed HT HQ) as (lu & (P & _) & K). exists lu. auto. Qed.
Theorem ilu0_opt_exact_lu T q agg cost w tr S o2t t2o nd rq sch : sched_matrix true base m rows rows A dp -> extptr A = None -> (forall d, idiag A = Some d -> Zlen d = m) -> sched_args m T cost w ->
  constructTaskGraph (graph_of A base dp) T false agg tr cost w = Some (S, o2t, t2o) -> qw_ok m (off (nthl rows) m) T q -> rw_ok m T rq ->
  exists fin lu L U A' L' U', ilu0_p2p sub mul div A dp S t2o T sch (qw_lu q) (Some fin) /\ (forall res, ilu0_p2p sub mul div A dp S t2o T sch (qw_lu q) res -> res = Some fin) /\ ilu_parts one div A fin T q = Some (L, U) /\
    reorder nd A L U o2t t2o T rq = Some (A', L', U') /\ (exists prec, prec_p2p add sub mul L' U' S T prec) /\ (map (map fst) lu = map (map fst) rows /\ ilu_rows lu) /\
    (pivots_ok zero add lu -> factors zero one add mul rows lu /\ (forall lu', factors zero one add mul rows lu' -> lu' = lu) /\ (exists minv, inverts m (LU lu) minv) /\
      forall prec minv, prec_p2p add sub mul L' U' S T prec -> inverts m (LU lu) minv -> forall pw tol x b maxiter j, pcg_args m T pw x b j -> solve_re A' o2t t2o T rq pw tol prec x b maxiter j = Some (spec rows minv tol x b maxiter)).
Proof.
  intros HM HX HG HA HE HQ HRq. pose proof (sa_T _ _ _ _ HA) as HT. destruct (ilu_two T q HT HQ) as (fin & lu & EF & P & L & U & ones & ids & E & R1 & R2 & O1 & O2 & S1 & S2 & I1 & I2 & L1 & L2 & X1 & X2 & D1 & D2 & K).
  destruct (p2p_fin sub mul div base rows A dp HR Hok HM T agg cost w tr S o2t t2o HA HE sch (qw_lu q)) as (fin' & EF' & _ & C1 & C2); [apply HQ|]. rewrite EF in EF'. injection EF' as <-. exists fin, lu, L, U.
  assert (QX : forall minv, (forall y z r, Zlen y = m -> Zlen z = m -> Zlen r = m -> exists y1, both add sub mul rows (select lower lu) (select upper lu) ones ids y z r = Some (y1, minv r)) -> exists A' L' U', reorder nd A L U o2t t2o T rq = Some (A', L', U') /\ (exists prec, prec_p2p add sub mul L' U' S T prec) /\
    forall prec, prec_p2p add sub mul L' U' S T prec -> forall tol pw x b maxiter j, pcg_args m T pw x b j -> solve_re A' o2t t2o T rq pw tol prec x b maxiter j = Some (spec rows minv tol x b maxiter)).
  { intros minv HB. apply (re_exact zero one add mul sub opp RT div sqrt ltb is0 is1 ism1 H0 H1 Hm1 base rows A dp HM Hb Hok HX HG T agg cost w tr S o2t t2o HA HE nd (select lower lu) (select upper lu) L U ones ids rq); auto. }
  destruct (reorder_ok sub base rows A dp HM Hb Hok HX HG T agg cost w tr S o2t t2o HA HE nd (select lower lu) (select upper lu) L U ones ids rq) as (A' & L' & U' & rows' & lr' & ur' & il' & iu' & ER & RA & MA & OA & RL' & ML & El & Mil & RU' & MU & Eu & Miu); auto.
  exists A', L', U'. split; auto. split; auto. split; auto. split; auto. split. { exact (re_prec_exists add sub mul base rows A dp HM T agg cost w tr S o2t t2o HA HE base base _ lr' _ ur' L' U' ones il' ids iu' RL' O1 S1 ML El Mil RU' O2 S2 MU Eu Miu). }
  split; auto. intros Hp. destruct (K Hp) as (F & FU & T1 & T2 & T3 & _). split; auto. split; auto. split; [eexists; exact T1|]. intros prec minv HP HI. destruct (QX minv) as (A2 & L3 & U3 & EP2 & _ & K2). { intros y z r Ly Lz Lr. rewrite (T2 minv r HI Lr). auto. }
  rewrite ER in EP2. injection EP2 as <- <- <-. eauto.
Qed.
Theorem ilu0_opt_exact T q agg cost w tr S o2t t2o nd rq sch : sched_matrix true base m rows rows A dp -> extptr A = None -> (forall d, idiag A = Some d -> Zlen d = m) -> sched_args m T cost w ->
  constructTaskGraph (graph_of A base dp) T false agg tr cost w = Some (S, o2t, t2o) -> qw_ok m (off (nthl rows) m) T q -> rw_ok m T rq ->
  exists fin lu L U A' L' U', ilu0_p2p sub mul div A dp S t2o T sch (qw_lu q) (Some fin) /\ (forall res, ilu0_p2p sub mul div A dp S t2o T sch (qw_lu q) res -> res = Some fin) /\ ilu_parts one div A fin T q = Some (L, U) /\
    reorder nd A L U o2t t2o T rq = Some (A', L', U') /\ (exists prec, prec_p2p add sub mul L' U' S T prec) /\ map (map fst) lu = map (map fst) rows /\
    (pivots_ok zero add lu -> factors zero one add mul rows lu /\ (forall lu', factors zero one add mul rows lu' -> lu' = lu) /\ (exists minv, inverts m (LU lu) minv) /\
      forall prec minv, prec_p2p add sub mul L' U' S T prec -> inverts m (LU lu) minv -> forall pw tol x b maxiter j, pcg_args m T pw x b j -> solve_re A' o2t t2o T rq pw tol prec x b maxiter j = Some (spec rows minv tol x b maxiter)).
Proof.
  intros HM HX HG HA HE HQ HRq. destruct (ilu0_opt_exact_lu T q agg cost w tr S o2t t2o nd rq sch HM HX HG HA HE HQ HRq) as (fin & lu & L & U & A' & L' & U' & K1 & K2 & K3 & K4 & K5 & (P & _) & K). exists fin, lu, L, U, A', L', U'. auto 10.
Qed.
End ExactIlu.
