(** * Worked cases for the fused solve, and what it does with indices from 1. *)
From Coq Require Import Permutation.
From Verif Require Import Base Interleave Spec PermUtils Flat Csr Transpose CsrTools CsrOps Sort RowPar Fill Permute PermuteMain PermuteFacts SpMV SplitLU P2P P2PProg Exec Kernels Levels LevelsCsr Tasks TaskGraph TaskGraphCsr Sched SchedPerm SchedCases Solve SolveCases Pcg PcgMain PcgCases Sgs SgsExact.
Open Scope Z_scope.

(** Rows 0 and 1 are independent, row 2 is connected to both. *)
Definition vee_rows : rows_t Z := [[(0, 1); (2, 2)]; [(1, -1); (2, 3)]; [(0, 2); (1, 3); (2, 1)]].
Definition vee_A base : csr Z := with_diag (csr_of base 3 vee_rows) (dp_of base vee_rows) [1; -1; 1].
Definition vee_world := simple_world [[0; 1]; [2]] 3 (fun k => repeat 1%nat k).
Definition vee_S : schedule := mkSched 3 [0; 1; 2; 3] [0; 2; 3] [0; 1; 0] [0; 0; 1] [[]; [2]; []] [[]; []; [1]].
Definition vee_perm : list Z := [0; 2; 1].
Definition turns (n : nat) : list Z := flat_map (fun _ => [0; 1]) (seq 0 n).
Definition vee_split base := splitLU (vee_A base) 2 (fun k => repeat 1%nat k) (qw_junk (some_qw 9 3 7 2)) (fun k => repeat k 3) (fun k => repeat k 3) (fun k => repeat k 3) (fun k => repeat k 3).
(** gs_test.cpp:570, 608-609, 731-735, 758-760, the threads by turns. *)
Definition vee_pair base (b y x : list Z) : option (list Z * list Z) :=
  ' (_, L, U) <- vee_split base ;;
  let j M := rw_junk (some_rw 9 3 2) M in
  L' <- permute false true L vee_perm (Some vee_perm) 2 (fun k => repeat 1%nat k) (j L) ;; U' <- permute false true U vee_perm (Some vee_perm) 2 (fun k => repeat 1%nat k) (j U) ;;
  vl <- values L' ;; vu <- values U' ;; dl <- idiag L' ;; du <- idiag U' ;;
  t <- multiplyWithVector 0 Z.add Z.sub Z.mul (Z.eqb 0) (Z.eqb 1) (Z.eqb (-1)) U' [9; 9; 9] (-1) (Own y) 1 (Own b) 0 2 (fun _ => []) [] ;;
  ' (_, s) <- p2p_run (fexec 0 Z.add Z.sub Z.mul L' base vl dl x 3) None (fops L') true vee_S (fun i => Some i) 2 [] (turns 30) [9; 9; 9] [None; None] (y ++ t) ;;
  ' (_, s') <- p2p_run (rexec Z.add Z.sub Z.mul Scaled U' base vu du (skipn 3 (mem s))) None (rops false U') false vee_S (fun i => Some i) 2 [] (turns 30) [9; 9; 9] [None; None] x ;;
  Some (firstn 3 (mem s), mem s').
Definition vee_ref base (b y x : list Z) : option (list Z * list Z) :=
  fy <- ref_sweep Z.add Z.sub Z.mul AddScaled true (vee_A base) base (values_of vee_rows) [1; -1; 1] b y ;;
  fx <- ref_sweep Z.add Z.sub Z.mul AddScaled false (vee_A base) base (values_of vee_rows) [1; -1; 1] fy x ;; Some (fy, fx).
Lemma vee_ok : rows_ok 3 vee_rows.
Proof. intros r c v [<-|[<-|[<-|[]]]]; cbn [In]; intros Hc; repeat (destruct Hc as [Hc|Hc]; [injection Hc as <- _; lia|]); destruct Hc. Qed.
Lemma vee_sched base : sched_matrix true base 3 vee_rows vee_rows (vee_A base) (dp_of base vee_rows).
Proof. destruct (csr_of_sched base 3 vee_rows eq_refl vee_ok) as [A1 A2 A3 A4 A5]. constructor; auto. Qed.
Lemma vee_args : sched_args 3 2 (fun _ => 1) vee_world.
Proof.
  constructor; [lia|lia|]. apply simple_world_ok; [lia|]. split; [reflexivity|]. split; [reflexivity|]. intros t Ht. assert (t = 0 \/ t = 1) as [-> | ->] by lia; vm_compute; discriminate.
Qed.
Lemma vee_case : sched_matrix true 0 3 vee_rows vee_rows (vee_A 0) (dp_of 0 vee_rows) /\ rows_ok 3 vee_rows /\ diagptr_len (vee_A 0) /\ extptr (vee_A 0) = None /\ idiag (vee_A 0) = Some [1; -1; 1] /\
  (forall r d, 0 <= r < 3 -> get [1; -1; 1] r = Some d -> coefat 0 Z.add (nthl vee_rows r) r * d = 1) /\ sched_args 3 2 (fun _ => 1) vee_world /\
  constructTaskGraph (graph_of (vee_A 0) 0 (dp_of 0 vee_rows)) 2 false false true (fun _ => 1) vee_world = Some (vee_S, vee_perm, vee_perm) /\ sl_junk_ok 3 2 (qw_junk (some_qw 9 3 7 2)) /\
  placed 3 vee_perm [5; 6; 7] [5; 7; 6] /\ vee_pair 0 [5; 7; 6] [1; 3; 2] [4; 8; 6] = Some ([-1; 0; 3], [51; -26; -81]) /\ vee_ref 0 [5; 6; 7] [1; 2; 3] [4; 6; 8] = Some ([-1; 3; 0], [51; -81; -26]).
Proof.
  split; [apply vee_sched|]. split; [exact vee_ok|]. split. { intros d E. injection E as <-. reflexivity. } split; [reflexivity|]. split; [reflexivity|].
  split. { intros r d Hr E. assert (r = 0 \/ r = 1 \/ r = 2) as [-> | [-> | ->]] by lia; injection E as <-; reflexivity. }
  split; [exact vee_args|]. split; [vm_compute; reflexivity|]. split; [apply (some_qw_ok 9 3 7 2); lia|].
  split; [|split; vm_compute; reflexivity]. split; [reflexivity|]. split; [reflexivity|].
  intros i r E. pose proof (get_Some_bounds _ _ _ E) as B. change (Zlen vee_perm) with 3 in B. assert (i = 0 \/ i = 1 \/ i = 2) as [-> | [-> | ->]] by lia; injection E as <-; reflexivity.
Qed.

(** ** Indices from 1.  ADJUST_FOR_BASE (test/test.hpp:90-97) does not move x, so
    x[colidx[j]] (gs_test.cpp:531) is the element after the one meant. *)
Definition vee_low : rows_t Z := [[]; [(0, 2); (2, 3)]; []].
Theorem fused_base1_refuted : exists (rows krows' : rows_t Z) A dp A' T cost w tr S o2t t2o ids ids' y y' b b' x',
  sched_matrix true 1 (Zlen rows) rows rows A dp /\ rows_ok (Zlen rows) rows /\ sched_args (Zlen rows) T cost w /\ constructTaskGraph (graph_of A 1 dp) T false false tr cost w = Some (S, o2t, t2o) /\
  rep true 1 (Zlen rows) krows' A' /\ moved_rows Z.sub o2t t2o (select lower rows) krows' /\ placed (Zlen rows) t2o ids ids' /\ placed (Zlen rows) t2o y y' /\ placed (Zlen rows) t2o b b' /\ Zlen x' = Zlen rows /\
  forall fin, ~ p2p_computes (fexec 0 Z.add Z.sub Z.mul A' 1 (values_of krows') ids' x' (Zlen y')) None (fops A') true S (fun i => Some i) T (y' ++ b') fin.
Proof.
  exists vee_rows, vee_low, (vee_A 1), (dp_of 1 vee_rows), (csr_of 1 3 vee_low), 2, (fun _ => 1), vee_world, true, vee_S, vee_perm, vee_perm, [1; -1; 1], [1; 1; -1], [1; 2; 3], [1; 3; 2], [5; 6; 7], [5; 7; 6], [4; 8; 6].
  assert (P3 : forall a b c : Z, placed 3 vee_perm [a; b; c] [a; c; b]).
  { intros a b c. split; [reflexivity|]. split; [reflexivity|]. intros i r E. pose proof (get_Some_bounds _ _ _ E) as B. change (Zlen vee_perm) with 3 in B. assert (i = 0 \/ i = 1 \/ i = 2) as [-> | [-> | ->]] by lia; injection E as <-; reflexivity. }
  split; [apply vee_sched|]. split; [exact vee_ok|]. split; [exact vee_args|]. split; [vm_compute; reflexivity|]. split; [apply csr_of_rep|].
  split. { split; [reflexivity|]. intros i r E. left. pose proof (get_Some_bounds _ _ _ E) as B. change (Zlen vee_perm) with 3 in B. assert (i = 0 \/ i = 1 \/ i = 2) as [-> | [-> | ->]] by lia; injection E as <-; reflexivity. }
  split; [apply P3|]. split; [apply P3|]. split; [apply P3|]. split; [reflexivity|].
  intros fin H. destruct (proj1 (H [] [9; 9; 9] [None; None] eq_refl eq_refl) (turns 30)) as (code & s & E & _).
  { intros t Ht. apply in_flat_map in Ht as (k & _ & [<-|[<-|[]]]); lia. }
  vm_compute in E. discriminate.
Qed.
(** Two rows, one thread: within the bounds, but the wrong element. *)
Definition duo_rows : rows_t Z := [[(0, 1); (1, 2)]; [(0, 2); (1, 1)]].
Definition duo_low : rows_t Z := [[]; [(0, 2)]].
Definition duo_S : schedule := mkSched 2 [0; 1; 2] [0; 2] [0; 0] [0; 0] [[]; []] [[]; []].
Definition duo_world := simple_world [[0; 1]] 2 (fun k => repeat 0%nat k).
Theorem fused_base1_wrong : exists (rows krows' : rows_t Z) A dp A' T cost w tr S o2t t2o ids' y' b' x' sched code s fy fb,
  sched_matrix true 1 (Zlen rows) rows rows A dp /\ rows_ok (Zlen rows) rows /\ sched_args (Zlen rows) T cost w /\ constructTaskGraph (graph_of A 1 dp) T false false tr cost w = Some (S, o2t, t2o) /\
  rep true 1 (Zlen rows) krows' A' /\ moved_rows Z.sub o2t t2o (select lower rows) krows' /\ Zlen ids' = Zlen rows /\ Zlen y' = Zlen rows /\ Zlen b' = Zlen rows /\ Zlen x' = Zlen rows /\
  p2p_run (fexec 0 Z.add Z.sub Z.mul A' 1 (values_of krows') ids' x' (Zlen y')) None (fops A') true S (fun i => Some i) T [] sched (map (fun _ => 9) (zrange 0 (ntasks S))) (map (fun _ => None) (zrange 0 T)) (y' ++ b') = Some (code, s) /\
  finished code s /\ mem s = fy ++ fb /\ Zlen fy = Zlen rows /\ updates Z.add Z.sub Z.mul Scaled true krows' ids' b' (dirZ true 0 (Zlen rows)) y' = Some fy /\ ~ rest_of 0 Z.add Z.sub Z.mul krows' x' fy b' fb.
Proof.
  exists duo_rows, duo_low, (csr_of 1 2 duo_rows), (dp_of 1 duo_rows), (csr_of 1 2 duo_low), 1, (fun _ => 1), duo_world, true, duo_S, [0; 1], [0; 1], [1; 1], [0; 0], [5; 7], [10; 20], (repeat 0 30).
  eexists _, _. exists [5; -3], [5; -43].
  assert (Ok : rows_ok 2 duo_rows). { intros r c v [<-|[<-|[]]]; cbn [In]; intros Hc; repeat (destruct Hc as [Hc|Hc]; [injection Hc as <- _; lia|]); destruct Hc. }
  split; [apply csr_of_sched; [reflexivity|exact Ok]|]. split; [exact Ok|].
  split. { constructor; [lia|change (Zlen duo_rows) with 2; lia|]. apply simple_world_ok; [vm_compute; discriminate|]. split; [reflexivity|]. split; [reflexivity|]. intros t Ht. replace t with 0 by lia. vm_compute. discriminate. }
  split; [vm_compute; reflexivity|]. split; [apply csr_of_rep|].
  split. { split; [reflexivity|]. intros i r E. left. pose proof (get_Some_bounds _ _ _ E) as B. change (Zlen [0; 1]) with 2 in B. assert (i = 0 \/ i = 1) as [-> | ->] by lia; injection E as <-; reflexivity. }
  split; [reflexivity|]. split; [reflexivity|]. split; [reflexivity|]. split; [reflexivity|]. split; [vm_compute; reflexivity|].
  split. { intros t p E. pose proof (get_Some_bounds _ _ _ E) as B. cbn in B. assert (t = 0) as -> by lia. injection E as <-. reflexivity. }
  split; [reflexivity|]. split; [reflexivity|]. split; [vm_compute; reflexivity|].
  intros (_ & H & _). destruct (H 1 ltac:(vm_compute; split; [discriminate|reflexivity])) as (v & p & E1 & E2 & E3). vm_compute in E1, E2, E3. injection E1 as <-. injection E2 as <-. discriminate.
Qed.
