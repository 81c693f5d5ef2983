(** * Worked cases for the test programs. *)
From Coq Require Import Permutation Sorted.
From Verif Require Import Base Interleave Spec PermUtils Flat Csr Transpose CsrTools CsrOps Permute PermuteMain PermuteFacts SpMV SplitLU SymPattern P2P P2PProg Exec Kernels Levels LevelsCsr Tasks TaskGraph TaskGraphCsr Sched SchedPerm SchedCases Solve SolveCases Pcg PcgMain PcgCases Sgs SgsExact SgsCases OnePerm TestProg.
Open Scope Z_scope.

(** The three schedules of a symmetric matrix: with barriers there are empty tasks,
    the permutations are the same. *)
Lemma vee_three : sched_matrix true 0 3 vee_rows vee_rows (vee_A 0) (dp_of 0 vee_rows) /\ rows_ok 3 vee_rows /\ idiag (vee_A 0) = Some [1; -1; 1] /\ sched_args 3 2 (fun _ => 1) vee_world /\
  constructTaskGraph (graph_of (vee_A 0) 0 (dp_of 0 vee_rows)) 2 true false false (fun _ => 1) vee_world = Some (mkSched 4 [0; 1; 2; 3; 3] [0; 2; 4] [0; 1; 0; 0] [0; 0; 1; 0] [[]; [2]; []; []] [[]; []; [1]; []], vee_perm, vee_perm) /\
  constructTaskGraph (graph_of (vee_A 0) 0 (dp_of 0 vee_rows)) 2 false false false (fun _ => 1) vee_world = Some (vee_S, vee_perm, vee_perm) /\
  constructTaskGraph (graph_of (vee_A 0) 0 (dp_of 0 vee_rows)) 2 false false true (fun _ => 1) vee_world = Some (vee_S, vee_perm, vee_perm).
Proof. split; [apply vee_sched|]. split; [exact vee_ok|]. split; [reflexivity|]. split; [exact vee_args|]. split; [|split]; vm_compute; reflexivity. Qed.

(** A matrix that is not symmetric: entries (0,2) and (2,1) have no partner. *)
Definition hook_rows : rows_t Z := [[(0, 1); (2, 5)]; [(1, -1)]; [(1, 3); (2, 1)]].
Definition hook_A : csr Z := with_diag (csr_of 0 3 hook_rows) (dp_of 0 hook_rows) [1; -1; 1].
Definition hook_G : gr := mkGr 3 0 [0; 2; 4; 7] [0; 2; 6] [2; 4; 7] [0; 2; 1; 2; 0; 1; 2].
(** trsv_test.cpp:466-640: split, schedule, forward and backward solve on the original
    matrices by t2o, the threads by turns. *)
Definition hook_trsv (b y x : list Z) : option (list Z * list Z) :=
  ' (_, L, U) <- splitLU hook_A 2 (fun k => repeat 1%nat k) (qw_junk (some_qw 9 3 7 2)) (fun k => repeat k 3) (fun k => repeat k 3) (fun k => repeat k 3) (fun k => repeat k 3) ;;
  G <- trsv_graph hook_A 2 (fun k => [0; 1; 1]%nat) uns_junk [] [7; 7; 7] ;;
  ' (Sc, _, t2o) <- constructTaskGraph G 2 false false true (fun _ => 1) vee_world ;;
  vl <- values L ;; vu <- values U ;; ids <- idiag L ;;
  ' (_, s) <- p2p_run (rexec Z.add Z.sub Z.mul Scaled L 0 vl ids b) None (rops true L) true Sc (get t2o) 2 [] (turns 30) [9; 9; 9] [None; None] y ;;
  ' (_, s') <- p2p_run (rexec Z.add Z.sub Z.mul Plain U 0 vu ids (mem s)) None (rops false U) false Sc (get t2o) 2 [] (turns 30) [9; 9; 9] [None; None] x ;;
  Some (mem s, mem s').
Lemma hook_ok : rows_ok 3 hook_rows.
Proof. intros r c v [<-|[<-|[<-|[]]]]; cbn [In]; intros Hc; repeat (destruct Hc as [Hc|Hc]; [injection Hc as <- _; lia|]); destruct Hc. Qed.
Lemma hook_case : rep true 0 3 hook_rows hook_A /\ rows_ok 3 hook_rows /\ (forall i, 0 <= i < 3 -> ssortedZ (map fst (nthl hook_rows i))) /\ full_diag hook_rows /\ extptr hook_A = None /\
  (forall d, diagptr hook_A = Some d -> diag_first 0 hook_rows d) /\ sym_junk_ok 3 uns_junk /\ idiag hook_A = Some [1; -1; 1] /\ sl_junk_ok 3 2 (qw_junk (some_qw 9 3 7 2)) /\ sched_args 3 2 (fun _ => 1) vee_world /\
  (** the schedule of the matrix itself would wait for nothing, although row 2 needs row 1 *)
  constructTaskGraph (graph_of hook_A 0 (dp_of 0 hook_rows)) 2 false false true (fun _ => 1) vee_world = Some (mkSched 3 [0; 1; 2; 3] [0; 2; 3] [0; 0; 0] [0; 0; 0] [[]; []; []] [[]; []; []], vee_perm, vee_perm) /\
  trsv_graph hook_A 2 (fun k => [0; 1; 1]%nat) uns_junk [] [7; 7; 7] = Some hook_G /\
  (exists SB, constructTaskGraph hook_G 2 true false false (fun _ => 1) vee_world = Some (SB, vee_perm, vee_perm)) /\
  constructTaskGraph hook_G 2 false false false (fun _ => 1) vee_world = Some (vee_S, vee_perm, vee_perm) /\ constructTaskGraph hook_G 2 false false true (fun _ => 1) vee_world = Some (vee_S, vee_perm, vee_perm) /\
  hook_trsv [5; 6; 7] [1; 2; 3] [4; 6; 8] = Some ([5; -6; 25], [-120; -6; 25]).
Proof.
  split; [apply csr_of_rep|]. split; [exact hook_ok|].
  split. { intros i Hi. assert (i = 0 \/ i = 1 \/ i = 2) as [-> | [-> | ->]] by lia; repeat constructor. }
  split. { intros i Hi. change (Zlen hook_rows) with 3 in Hi. assert (i = 0 \/ i = 1 \/ i = 2) as [-> | [-> | ->]] by lia; [exists 1; left|exists (-1); left|exists 1; right; left]; reflexivity. }
  split; [reflexivity|].
  split. { intros d E. injection E as <-. split; [reflexivity|]. intros i Hi. change (Zlen hook_rows) with 3 in Hi. assert (i = 0 \/ i = 1 \/ i = 2) as [-> | [-> | ->]] by lia. { exists [], 1, [(2, 5)]. repeat split. intros c w []. } { exists [], (-1), []. repeat split. intros c w []. } { exists [(1, 3)], 1, []. repeat split. intros c w [E|[]]. injection E as <- _. lia. } }
  split. { repeat split; intros; try reflexivity; try (cbn; rewrite ?Zlen_map, ?Zlen_zrange; lia). }
  split; [reflexivity|]. split; [apply (some_qw_ok 9 3 7 2); lia|]. split; [exact vee_args|].
  split; [vm_compute; reflexivity|]. split; [vm_compute; reflexivity|]. split; [eexists; vm_compute; reflexivity|]. split; [vm_compute; reflexivity|]. split; vm_compute; reflexivity.
Qed.
