(** * Orderings that reach the end: connected components under fair schedules, and
    executions of the breadth-first and Cuthill-McKee orderings for every matrix
    (reordering/ConnectedComponents.cpp:107-357, RCM.cpp:661-1117). *)
From Coq Require Import Permutation Relations.
From Verif Require Import Base Interleave Spec PermUtils Partition Flat Csr CsrOps Levels LevelsMain SplitLU Transpose RowPar UnionFind Components BinIO LevelsCsr BitVector Bfs ParBfs Rcm BfsPerm UnionFresh ComponentsBv BfsPermWhole RcmPipe RcmSource RcmLarge RcmWhole UnionSome.

(** ** Without bit vector *)
Section Plain.
Context {V : Type}.
Variables (hasv : bool) (base : Z) (rows : rows_t V) (A : csr V) (T : Z).
Let m := Zlen rows.
Hypothesis HR : rep hasv base m rows A.
Hypothesis Hok : rows_ok m rows.
Hypothesis Hm : 1 <= m.
Hypothesis HT : 1 <= T.

Lemma plain_work : exists work, mapM (cc_work A base T) (zrange 0 T) = Some work /\ Zlen work = T /\ forall w e, In w work -> In e w -> 0 <= fst e < m /\ 0 <= snd e < m.
Proof.
  destruct (cc_work_ok hasv base _ rows A T HR HT) as (work & EW & Hcat & Hl). exists work. split; auto. split; auto.
  intros w e Hw He. apply (edges_range _ rows e Hok). rewrite <- Hcat. apply in_concat. eauto.
Qed.
Lemma plain_down work us u : (forall w e, In w work -> In e w -> 0 <= fst e < m /\ 0 <= snd e < m) -> union_run m work us = Some u ->
  Zlen (fst u) = m /\ forall x, 0 <= x < m -> exists y, get (fst u) x = Some y /\ 0 <= y <= x.
Proof.
  intros Hw E. pose proof (uinit_inv m work ltac:(lia) Hw) as HI. apply (urun_inv _ _ us _ u) in HI; auto. destruct HI as [[HL Hd] _]. split; auto. intros x Hx. destruct (Hd x Hx) as (y & Ey & Hy & _). eauto.
Qed.
(** Under fair schedules both phases end. *)
Theorem cc_fair f g sch j : fair T f -> fair T g -> junk_ok m T j ->
  exists k l u c res, cc_run A T (turns f k) (turns g l) sch j = Some (u, c, res) /\ all_done u /\ call_done c /\
    (forall x y, 0 <= x < m -> 0 <= y < m -> get (fst c) x = get (fst c) y -> connected (edges_of rows) x y) /\
    component_listing m (fun x y => get (fst c) x = get (fst c) y) res.
Proof.
  intros Hf Hg HJ. destruct plain_work as (work & EW & HL & Hw). destruct (union_fair m work f ltac:(lia) Hw ltac:(now rewrite HL)) as (k & u & Eu & Du).
  destruct (plain_down work _ u Hw Eu) as (Lu & Hd).
  destruct (compress_fair m (fst u) ltac:(lia) Lu Hd T HT (cc_chunk m T) ltac:(intros t x Ht; apply chunk_range; auto; lia) g Hg) as (l & c & Ec & Dc).
  pose proof (proj1 HR) as HA. destruct (cc_listing hasv base rows A T (turns f k) (turns g l) sch j work u c) as (res & Er & H1 & _ & H2); auto; try (now rewrite HA).
  exists k, l, u, c, res. auto 6.
Qed.
(** With one thread every execution that goes on lists the components. *)
Theorem cc_one_ends sch j : T = 1 -> junk_ok m T j -> exists k l u c res, cc_run A T (repeat 0 k) (repeat 0 l) sch j = Some (u, c, res) /\ component_listing m (connected (edges_of rows)) res.
Proof.
  intros H1 HJ. destruct plain_work as (work & EW & HL & Hw).
  assert (F : fair T (fun _ => 0)) by (split; [intros; lia|]; intros t k Ht; exists k; split; lia).
  assert (R : forall k, turns (fun _ => 0) k = repeat 0 k). { intros k. unfold turns. generalize 0%nat. induction k as [|k IH]; intros a; cbn [seq map repeat]; [reflexivity|now rewrite IH]. }
  destruct (union_fair m work (fun _ => 0) ltac:(lia) Hw ltac:(now rewrite HL)) as (k & u & Eu & Du).
  destruct (plain_down work _ u Hw Eu) as (Lu & Hd).
  destruct (compress_fair m (fst u) ltac:(lia) Lu Hd T HT (cc_chunk m T) ltac:(intros t x Ht; apply chunk_range; auto; lia) (fun _ => 0) F) as (l & c & Ec & Dc).
  pose proof (proj1 HR) as HA. rewrite R in Eu, Ec. rewrite H1 in *. destruct (cc_one_thread hasv base rows A (repeat 0 k) (repeat 0 l) sch j work u c) as (res & Er & H2); auto; try (now rewrite HA).
  exists k, l, u, c, res. auto.
Qed.
(** With several there is always one that does. *)
Lemma cc_exact_run : exists work us cs u c, mapM (cc_work A base T) (zrange 0 T) = Some work /\ union_run m work us = Some u /\ all_done u /\ fresh_run us (uinit m work) /\ compress_run m T (fst u) cs = Some c /\ call_done c.
Proof.
  destruct plain_work as (work & EW & HL & Hw). destruct (union_fresh_exists m work ltac:(lia) Hw) as (us & u & Eu & Du & Fu). destruct (plain_down work _ u Hw Eu) as (Lu & Hd).
  destruct (compress_exists m (fst u) ltac:(lia) Lu Hd T HT (cc_chunk m T) ltac:(intros t x Ht; apply chunk_range; auto; lia)) as (cs & c & Ec & Dc).
  exists work, us, cs, u, c. auto 7.
Qed.
Theorem cc_exact_exists j : junk_ok m T j -> exists us cs, forall sch, exists u c res, cc_run A T us cs sch j = Some (u, c, res) /\ component_listing m (connected (edges_of rows)) res.
Proof.
  intros HJ. destruct cc_exact_run as (work & us & cs & u & c & EW & Eu & Du & Fu & Ec & Dc). exists us, cs. intros sch. exists u, c.
  pose proof (proj1 HR) as HA. apply (cc_fresh hasv base rows A T us cs sch j work u c); auto; now rewrite HA.
Qed.
End Plain.

(** ** With a bit vector *)
Section Bits.
Context {V : Type}.
Variables (hasv : bool) (base : Z) (rows : rows_t V) (A : csr V) (T : Z) (bv : list Z).
Let m := Zlen rows.
Hypothesis HR : rep hasv base m rows A.
Hypothesis Hok : rows_ok m rows.
Hypothesis HT : 1 <= T.
Hypothesis Hbv : m <= Zlen bv.
Hypothesis Hclosed : forall u v, In (u, v) (edges_of rows) -> (is_clear bv u <-> is_clear bv v).
Variables (sch : nat -> list nat) (g : bv_junk).
Hypothesis HG : bv_junk_ok m T g.
Let P := fun x => In x (clears m bv).

Lemma bv_finish chs p0 work us u' u : flat (nthl chs) T = clears m bv -> concat work = edges_from rows (clears m bv) -> union_run m work us = Some u' -> agreeU P u' u ->
  forall cs c', compress_run_on (nthl chs) T (fst u') cs = Some c' -> call_done c' -> bv_start A T bv sch g = Some (chs, state0 p0 work) ->
  exists c, foldM (bv_cstep bv) cs (cinit_on (nthl chs) T (fst u)) = Some c /\ call_done c.
Proof.
  intros Hf Hcat Eu HA cs c' Ec Dc Es.
  pose proof (agreeC0 rows T bv chs Hf u' u HA) as HC. destruct (csims P cs _ _ c' HC Ec) as (c & E & HA').
  exists c. split; [rewrite (bv_csims P bv) with (s' := cinit_on (nthl chs) T (fst u')); auto; [intros x Hx; now apply (In_N rows bv x)|now apply agreeC_sym]|].
  destruct HA' as (_ & HA2 & _). unfold call_done. now rewrite <- HA2.
Qed.
(** There are schedules that bring the search for components to its end, with current
    values at every store. *)
Theorem bv_through : exists us cs, runs_through A T us cs sch g bv.
Proof.
  destruct (start_ok hasv base rows A T bv HR Hok HT Hbv Hclosed sch g HG) as (chs & p0 & work & ES & Hf & Hlw & Hcat & Hlp & Hp0).
  pose proof (Zlen_nonneg rows) as Hm. pose proof (work_range rows bv Hok Hclosed work Hcat) as Hw.
  destruct (union_fresh_exists m work Hm Hw) as (us & u' & Eu & Du & Fu).
  pose proof (agree0 rows bv Hok Hclosed p0 work Hcat Hlp Hp0) as A0. destruct (usims P us _ _ u' (agreeU_sym P _ _ A0) Eu) as (u & E & HA).
  destruct (ideal_down rows bv Hok Hclosed work Hcat us u' Eu) as (L' & Hd').
  destruct (compress_exists m (fst u') Hm L' Hd' T HT (nthl chs) (ch_range rows T bv chs Hf)) as (cs & c' & Ec & Dc).
  destruct (bv_finish chs p0 work us u' u Hf Hcat Eu HA cs c' Ec Dc ES) as (c & E1 & D1).
  exists us, cs, chs, (state0 p0 work), u, c. split; auto. split; auto. split; [destruct HA as (_ & HA2 & _); unfold all_done; now rewrite <- HA2|]. split; [right|auto].
  apply (fresh_sim P us (uinit m work)); auto. now apply agreeU_sym.
Qed.
(** With one thread it ends by itself. *)
Theorem bv_one_through : T = 1 -> exists k l, runs_through A T (repeat 0 k) (repeat 0 l) sch g bv.
Proof.
  intros H1. destruct (start_ok hasv base rows A T bv HR Hok HT Hbv Hclosed sch g HG) as (chs & p0 & work & ES & Hf & Hlw & Hcat & Hlp & Hp0).
  assert (F : fair T (fun _ => 0)) by (split; [intros; lia|]; intros t k Ht; exists k; split; lia).
  assert (R : forall k, turns (fun _ => 0) k = repeat 0 k). { intros k. unfold turns. generalize 0%nat. induction k as [|k IH]; intros a; cbn [seq map repeat]; [reflexivity|now rewrite IH]. }
  pose proof (Zlen_nonneg rows) as Hm. pose proof (work_range rows bv Hok Hclosed work Hcat) as Hw.
  destruct (union_fair m work (fun _ => 0) Hm Hw ltac:(now rewrite Hlw)) as (k & u' & Eu & Du).
  pose proof (agree0 rows bv Hok Hclosed p0 work Hcat Hlp Hp0) as A0. destruct (usims P _ _ _ u' (agreeU_sym P _ _ A0) Eu) as (u & E & HA).
  destruct (ideal_down rows bv Hok Hclosed work Hcat _ u' Eu) as (L' & Hd').
  destruct (compress_fair m (fst u') Hm L' Hd' T HT (nthl chs) (ch_range rows T bv chs Hf) (fun _ => 0) F) as (l & c' & Ec & Dc).
  destruct (bv_finish chs p0 work _ u' u Hf Hcat Eu HA _ c' Ec Dc ES) as (c & E1 & D1). rewrite R in E, E1.
  exists k, l, chs, (state0 p0 work), u, c. split; auto. split; auto. split; [destruct HA as (_ & HA2 & _); unfold all_done; now rewrite <- HA2|]. auto.
Qed.
End Bits.

(** ** The breadth-first ordering *)
Section BfsSome.
Context {V : Type}.
Variables (A : csr V) (hasv : bool) (base : Z) (rows : rows_t V).
Let m := Zlen rows.
Hypothesis HR : rep hasv base m rows A.
Hypothesis HK : rows_ok m rows.
Hypothesis HSym : symmetric_adj (cols_of rows).
Hypothesis ND : forall u, NoDup (cols_of rows u).
Variables (T thr : Z) (bsch : list nat) (bjunk : list Z) (sch : Z -> nat -> list nat) (isch : Z -> list nat) (junk : Z -> list (list Z)) (csch : nat -> list nat) (g : bv_junk) (j : cc_junk) (levels perm inv : list Z).
Hypothesis HT : 1 <= T.
Hypothesis Hm : 1 <= m.
Hypothesis HTm : 2 <= T * m.
Hypothesis Lb : Zlen bjunk = m.
Hypothesis Lj : forall c, Zlen (junk c) = T - 1.
Hypothesis Ll : Zlen levels = m.
Hypothesis Lp : Zlen perm = m.
Hypothesis Li : Zlen inv = m.
Hypothesis HG : bv_junk_ok m T g.
Hypothesis HJ : junk_ok m T j.
Lemma first_bits : exists r, first_search A T bsch bjunk sch junk inv = Some r /\ m <= Zlen (pb_bv r) /\ forall u v, In (u, v) (edges_of rows) -> (is_clear (pb_bv r) u <-> is_clear (pb_bv r) v).
Proof.
  destruct (first_ok A hasv base rows HR HK ND T thr bsch bjunk sch isch junk (fun _ => None) inv) as (r & ord & Er & Lbv & _ & Scl & _); auto.
  exists r. split; auto. split; [fold m in Lbv; lia|]. exact (clear_closed rows HK HSym (pb_bv r) Scl).
Qed.
Theorem bfs_exists : exists us cs perm' inv', getBFSPermutation A T thr bsch bjunk sch isch junk (bv_comps A T us cs csch g j) levels perm inv = Some (perm', inv') /\ bfs_result rows perm' inv'.
Proof.
  destruct first_bits as (r & Er & Lr & Cr). destruct (bv_through hasv base rows A T (pb_bv r) HR HK HT Lr Cr csch g HG) as (us & cs & H). exists us, cs.
  apply (bfs_perm_whole A hasv base rows HR HK HSym ND); auto. intros r' Er' _. assert (r' = r) by congruence. now subst.
Qed.
Theorem bfs_one_ends : T = 1 -> exists k l perm' inv', getBFSPermutation A T thr bsch bjunk sch isch junk (bv_comps A T (repeat 0 k) (repeat 0 l) csch g j) levels perm inv = Some (perm', inv') /\ bfs_result rows perm' inv'.
Proof.
  intros H1. destruct first_bits as (r & Er & Lr & Cr). destruct (bv_one_through hasv base rows A T (pb_bv r) HR HK HT Lr Cr csch g HG H1) as (k & l & H). exists k, l.
  apply (bfs_perm_whole A hasv base rows HR HK HSym ND); auto. intros r' Er' _. assert (r' = r) by congruence. now subst.
Qed.
End BfsSome.

(** ** Cuthill-McKee *)
Theorem rcm_exists {V} (A : csr V) hasv base (rows : rows_t V) T srt pd who bj levels perm inv ps wo s1 s2 csch j bsch sch ex f :
  rep hasv base (Zlen rows) rows A -> base = 0 \/ base = 1 -> diagptr_len A -> rows_ok (Zlen rows) rows -> 1 <= Zlen rows ->
  symmetric_adj (cols_of rows) -> (forall u, NoDup (cols_of rows u)) -> 1 <= T -> T * Zlen rows < INT_MAX -> sorts_by (degree rows) srt -> rcm_room (cols_of rows) (Zlen rows) T pd ->
  (forall c, 0 <= who c < T) -> Zlen bj = Zlen rows -> Zlen levels = Zlen rows -> Zlen perm = Zlen rows -> Zlen inv = Zlen rows -> Zlen ps = Z.max (T * PAR_THR) (Zlen rows) + 1 -> Zlen wo = Zlen rows + 1 -> junk_ok (Zlen rows) T j ->
  (forall c, lx_ok T (ex c)) -> (forall c, fair T (f c)) ->
  exists us cs ks perm' inv', getRCM A T srt pd s1 s2 us cs csch j bsch bj who sch (fun c : Z => with_sched (ex c) (turns (f c) (ks c))) levels perm inv ps wo = Some (Finished (A, perm', inv')) /\ rcm_result_from rows pd perm' inv'.
Proof.
  intros HR HB HD HK H1 HSym ND HT HTm HS Hrm Hwho Lb Ll Lp Li Lps Lw HJ HX Hf. destruct (zero_based A hasv base rows HR HB HD s1) as (A0 & E0 & R0 & _).
  destruct (cc_exact_run hasv 0 rows A0 T R0 HK H1 HT) as (work & us & cs & u & c & EW & Eu & Du & Fu & Ec & Dc). exists us, cs.
  apply (getRCM_fresh A hasv base rows T srt pd who bj levels perm inv ps wo s1 s2 us cs csch j bsch sch A0 work u c ex f); auto; intros c0; destruct (Hf c0); auto.
Qed.

(** ** Worked case: threads in turns *)
Lemma fair_turns T : 1 <= T -> fair T (fun k => Z.of_nat k mod T).
Proof.
  intros HT. split; [intros k; apply Z.mod_pos_bound; lia|]. intros t k Ht. exists (k * Z.to_nat T + Z.to_nat t)%nat.
  split; [nia|]. rewrite Nat2Z.inj_add, Nat2Z.inj_mul, !Z2Nat.id by lia. rewrite Z.add_comm, Z.mod_add by lia. apply Z.mod_small. lia.
Qed.
Lemma some_case : fair 3 (fun k => Z.of_nat k mod 3) /\ rep true 1 8 rcm_case rcm_case_A /\ rows_ok 8 rcm_case /\ junk_ok 8 3 (junk77 3 8) /\
  exists u c, cc_run rcm_case_A 3 (turns (fun k => Z.of_nat k mod 3) 180) (turns (fun k => Z.of_nat k mod 3) 120) (fun _ => []) (junk77 3 8) = Some (u, c, mkCC 4 [0; 1; 2; 4] [4; 1; 2; 1] [0; 4; 5; 7; 1; 5; 6; 7; 3; 5; 6; 8; 77; 77; 77] [0; 3; 5; 6; 1; 2; 7; 4]).
Proof.
  split; [apply fair_turns; lia|]. split; [repeat split|]. split.
  { intros r c v Hr Hc. cbn [rcm_case In] in Hr. repeat (destruct Hr as [<-|Hr]; [cbn [In] in Hc; repeat (destruct Hc as [Hc|Hc]; [injection Hc as <- _; lia|]); destruct Hc|]). destruct Hr. }
  split; [repeat split; cbn [j_c2r j_sizes j_prefix junk77]; rewrite Zlen_repeat; lia|].
  do 2 eexists. vm_compute. reflexivity.
Qed.
