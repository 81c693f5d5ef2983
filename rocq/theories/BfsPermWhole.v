(** * Breadth-first ordering with its component search (reordering/RCM.cpp:970-1117)

    getBFSPermutation of BfsPerm.v calling the component search of ComponentsBv.v
    (:1009) on the bit vector left by the first search. *)
From Coq Require Import Permutation Relations.
From Verif Require Import Base Interleave Spec PermUtils Flat Csr CsrOps Levels LevelsMain SplitLU RowPar Transpose CsrTools UnionFind Components BinIO LevelsCsr BitVector Bfs ParBfs Rcm BfsPerm UnionFresh ComponentsBv.

(** :1009-1013.  [us], [cs]: the schedules of union and compression. *)
Definition bv_comps {V} (A : csr V) (T : Z) (us cs : list Z) (csch : nat -> list nat) (g : bv_junk) (j : cc_junk) (bv : list Z) : option cc_result :=
  ' (_, _, r) <- bv_cc A T bv us cs csch g j ;; Some r.

(** The schedules run union and compression to their end; with several threads the
    plain stores of the union use current values. *)
Definition runs_through {V} (A : csr V) (T : Z) (us cs : list Z) (csch : nat -> list nat) (g : bv_junk) (bv : list Z) : Prop :=
  exists chs s0 u c, bv_start A T bv csch g = Some (chs, s0) /\ foldM ustep us s0 = Some u /\ all_done u /\ (T = 1 \/ fresh_run us s0) /\
    foldM (bv_cstep bv) cs (cinit_on (nthl chs) T (fst u)) = Some c /\ call_done c.

Lemma forallb_false {B} (f : B -> bool) l : forallb f l = false -> exists x, In x l /\ f x = false.
Proof.
  induction l as [|a l IH]; cbn [forallb]; [discriminate|]. destruct (f a) eqn:E; [|intros _; exists a; split; [now left|auto]].
  intros H. destruct (IH H) as (x & Hx & Fx). exists x. split; [now right|auto].
Qed.

Section Whole.
Context {V : Type}.
Variables (A : csr V) (hasv : bool) (base : Z) (rows : rows_t V).
Let m := Zlen rows.
Hypothesis HR : rep hasv base m rows A.
Hypothesis HK : rows_ok m rows.
Let adj := cols_of rows.
Hypothesis HSym : symmetric_adj adj.
Hypothesis ND : forall u, NoDup (adj u).

Lemma clear_closed bv : (forall v, 0 <= v < m -> (bit bv v = Some false <-> ~ reach adj 0 v)) -> forall u v, In (u, v) (edges_of rows) -> (is_clear bv u <-> is_clear bv v).
Proof.
  intros H u v He. destruct (edges_range m rows _ HK He) as (Hu & Hv). cbn [fst snd] in *. unfold is_clear. rewrite !H by auto.
  assert (reach adj u v) as R by (apply (connected_reach rows u v HSym); now apply rst_step).
  split; intros N X; apply N; [|eapply reach_trans; eauto]. eapply reach_trans; eauto. apply reach_sym; auto.
Qed.

Variables (T thr : Z) (bsch : list nat) (bjunk : list Z) (sch : Z -> nat -> list nat) (isch : Z -> list nat) (junk : Z -> list (list Z)) (us cs : list Z) (csch : nat -> list nat) (g : bv_junk) (j : cc_junk) (levels perm inv : list Z).
Hypothesis HT : 1 <= T.
Hypothesis Hm : 1 <= m.
Hypothesis HTm : 2 <= T * m.
Hypothesis Lb : Zlen bjunk = m.
Hypothesis Lj : forall c, Zlen (junk c) = T - 1.
Hypothesis Ll : Zlen levels = m.
Hypothesis Lp : Zlen perm = m.
Hypothesis Li : Zlen inv = m.
Hypothesis HG : bv_junk_ok m T g.
Hypothesis HJ : junk_ok m T j.
Hypothesis HC : forall r, first_search A T bsch bjunk sch junk inv = Some r -> pb_nvis r <> m -> runs_through A T us cs csch g (pb_bv r).

Theorem bfs_perm_whole : exists perm' inv', getBFSPermutation A T thr bsch bjunk sch isch junk (bv_comps A T us cs csch g j) levels perm inv = Some (perm', inv') /\ bfs_result rows perm' inv'.
Proof.
  apply bfs_perm_ok with (hasv := hasv) (base := base); auto. intros r Er.
  destruct (first_ok A hasv base rows HR HK ND T thr bsch bjunk sch isch junk (fun _ => None) inv) as (r' & ord & Er' & Lbv & _ & Scl & No & Ro & _ & On & _); auto. assert (r' = r) by congruence. subst r'.
  assert (Rg0 : forall v, reach adj 0 v -> 0 <= v < m) by (intros v; apply (reach_range rows HK 0 v); fold m; lia).
  destruct (forallb (fun v => existsb (Z.eqb v) ord) (zrange 0 m)) eqn:Ef.
  - left. intros v Hv. rewrite forallb_forall in Ef. specialize (Ef v (proj2 (In_zrange 0 m v) Hv)). apply existsb_exists in Ef as (x & Hx & E). apply Z.eqb_eq in E. subst x. now apply Ro.
  - right. destruct (forallb_false _ _ Ef) as (v & Hv & Nv). apply In_zrange in Hv.
    assert (~ In v ord) as Nv' by (intros X; apply Bool.not_true_iff_false in Nv; apply Nv, existsb_exists; exists v; split; [auto|apply Z.eqb_refl]).
    assert (pb_nvis r <> m) as Hn.
    { rewrite On. intros X. pose proof (NoDup_bounded m (v :: ord) ltac:(lia)) as B. rewrite Zlen_cons in B. enough (1 + Zlen ord <= m) by lia. apply B; [now constructor|]. intros w [<-|Hw]; auto. apply Rg0. now apply Ro. }
    destruct (HC r Er Hn) as (chs & s0 & u & c & E1 & E2 & E3 & E4 & E5 & E6).
    destruct (bv_cc_listing hasv base rows A T (pb_bv r) HR HK HT ltac:(fold m; lia) (clear_closed (pb_bv r) Scl) csch g HG) as (chs' & s0' & E1' & _ & G).
    { exists v. split; auto. unfold is_clear. rewrite Scl by auto. now rewrite <- Ro. }
    assert (chs' = chs /\ s0' = s0) as (-> & ->) by (rewrite E1 in E1'; injection E1' as -> ->; auto).
    destruct (G us u E2) as (_ & G2). destruct (G2 cs c j E5 E6 HJ) as (res & ER & _ & _ & HL). exists res. split; [unfold bv_comps; now rewrite ER|].
    specialize (HL E3 E4). revert HL. apply rest_ext; [exact Scl|tauto].
Qed.
End Whole.

(** ** Worked case: three threads in turns, on the eight-node matrix of Rcm.v *)
Definition bpw_turns (n : nat) : list Z := concat (repeat [2; 0; 1] n).
Definition bpw_junk : bv_junk := mkBvJunk (repeat 99 24) (repeat 98 4) (fun k => repeat 97 (Z.to_nat k)) (repeat 96 8).
Definition bpw_case : option (list Z * list Z) :=
  getBFSPermutation rcm_case_A 3 2 [] (repeat 5 8) (fun _ => bp_case_sch) (fun _ => [2; 1]%nat) (fun _ => [[]; []])
    (bv_comps rcm_case_A 3 (bpw_turns 30) (bpw_turns 20) (fun _ => [1; 2]%nat) bpw_junk (junk77 3 8)) (repeat 55 8) (repeat 66 8) (repeat 77 8).
Lemma bpw_case_result : bpw_case = Some ([0; 4; 5; 1; 7; 2; 3; 6], [0; 3; 5; 6; 1; 2; 7; 4]).
Proof. vm_compute. reflexivity. Qed.
Lemma bpw_case_hyps : bv_junk_ok 8 3 bpw_junk /\ junk_ok 8 3 (junk77 3 8) /\
  forall r, first_search rcm_case_A 3 [] (repeat 5 8) (fun _ => bp_case_sch) (fun _ => [[]; []]) (repeat 77 8) = Some r ->
    pb_nvis r = 4 /\ runs_through rcm_case_A 3 (bpw_turns 30) (bpw_turns 20) (fun _ => [1; 2]%nat) bpw_junk (pb_bv r).
Proof.
  split; [|split].
  - repeat split. intros k Hk. cbn [bpw_junk g_nodes]. rewrite Zlen_repeat. lia.
  - repeat split; cbn [j_c2r j_sizes j_prefix junk77]; rewrite Zlen_repeat; lia.
  - intros r E. vm_compute in E. injection E as <-. split; [reflexivity|]. unfold runs_through. cbn [pb_bv].
    do 4 eexists. split; [vm_compute; reflexivity|]. split; [vm_compute; reflexivity|]. split; [|split; [right|split; [vm_compute; reflexivity|]]].
    + intros th H. cbn [snd] in H. cbn [In] in H. repeat (destruct H as [<-|H]; [reflexivity|]). destruct H.
    + apply (steps_b_ok current_b current current_b_ok). vm_compute. reflexivity.
    + intros pc todo n H. cbn [snd In] in H. repeat (destruct H as [H|H]; [injection H as <- <- <-; auto|]). destruct H.
Qed.

(** The same threads in getRCMPermutation. *)
Lemma rcm_turns_result : getRCMPermutation rcm_case_A 3 (dsort (degree rcm_case)) (fun _ => []) (fun _ => []) (bpw_turns 60) (bpw_turns 40) (fun _ => []) (junk77 3 8) (fun c => c mod 3) [3%nat; 2%nat] (repeat 55 8) (repeat 66 8) (repeat 77 8)
  = Some (rcm_case_A, [7; 3; 2; 5; 0; 6; 4; 1], [4; 7; 2; 1; 6; 3; 5; 0]).
Proof. vm_compute. reflexivity. Qed.
Lemma rcm_turns_hyps : exists A0 work u c, make0Based rcm_case_A (fun _ => []) = Some A0 /\ mapM (cc_work A0 0 3) (zrange 0 3) = Some work /\ union_run 8 work (bpw_turns 60) = Some u /\ all_done u /\
  fresh_run (bpw_turns 60) (uinit 8 work) /\ compress_run 8 3 (fst u) (bpw_turns 40) = Some c /\ call_done c /\ small_components (cols_of rcm_case) (Zlen rcm_case) 3.
Proof.
  do 4 eexists. split; [vm_compute; reflexivity|]. split; [vm_compute; reflexivity|]. split; [vm_compute; reflexivity|]. split; [|split; [|split; [vm_compute; reflexivity|split]]].
  - intros th H. cbn [snd] in H. cbn [In] in H. repeat (destruct H as [<-|H]; [reflexivity|]). destruct H.
  - apply (steps_b_ok current_b current current_b_ok). vm_compute. reflexivity.
  - intros pc todo n H. cbn [snd In] in H. repeat (destruct H as [H|H]; [injection H as <- <- <-; auto|]). destruct H.
  - apply small_if; [apply rcm_case_hyps|lia|]. change (Zlen rcm_case) with 8. unfold PAR_THR. lia.
Qed.
