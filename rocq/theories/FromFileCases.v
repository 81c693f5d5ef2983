(** * Worked cases: matrices read from files *)
From Coq Require Import Permutation Sorted String.
From Verif Require Import Base Interleave Spec PermUtils Flat Csr CsrTools CsrOps Coo Transpose BinIO Laplacian MmText MmIo MmLoad MmStore MmSym MmVec MmCases Convert.
From Verif Require Import SpMV P2P P2PProg Exec Kernels Ilu Levels LevelsFacts LevelsMain Tasks LevelsCsr TaskGraph TaskGraphFacts TaskGraphLists TaskGraphMain TaskGraphOrder TaskGraphCsr Sched SchedCases.
From Verif Require Import FromFile.
Open Scope Z_scope.

(** A path of three rows; the file holds the lower half. *)
Definition f_path := lines ["%%MatrixMarket matrix coordinate integer symmetric"; "3 3 5"; "1 1 4"; "2 1 7"; "2 2 5"; "3 2 9"; "3 3 6"]%string.
Definition path_entries : list (Z * (Z * Z)) := [(1, (1, 4)); (2, (1, 7)); (2, (2, 5)); (3, (2, 9)); (3, (3, 6))].
Definition path_files : files := one_file (str "a.mtx") f_path.
Lemma file_path : coordinate_file scan_num (fun x => x) 1 Integer Symmetric [3; 3; 5] path_entries f_path.
Proof.
  exists (str "%%MatrixMarket matrix coordinate integer symmetric"), [], (str "3 3 5"), (concat [str "1 1 4" ++ [NL]; str "2 1 7" ++ [NL]; str "2 2 5" ++ [NL]; str "3 2 9" ++ [NL]; str "3 3 6" ++ [NL]]).
  split; [reflexivity|]. split; [exact (banner_case Integer Symmetric)|]. split; [constructor|]. split; [line_txt|]. split.
  - apply (next_int [] 3 (str "3") [3; 5] (str " 3 5")); [ws_txt|dec_txt|unfold int32; lia|reflexivity|].
    apply (next_int [32] 3 (str "3") [5] (str " 5")); [ws_txt|dec_txt|unfold int32; lia|reflexivity|].
    apply (next_int [32] 5 (str "5") [] []); [ws_txt|dec_txt|unfold int32; lia|exact I|constructor].
  - apply (int_entries path_entries) with (w := []); [|constructor]. intros x y k [H|[H|[H|[H|[H|[]]]]]]; injection H as <- <- <-; unfold int32; lia.
Qed.
Lemma path_distinct : distinct path_entries /\ (forall x y v, In (x, (y, v)) path_entries -> 1 <= x <= 3 /\ 1 <= y <= 3) /\ (forall i, 1 <= i <= 3 -> exists v, In (i, (i, v)) path_entries).
Proof.
  split; [|split].
  - unfold distinct, path_entries. cbn [map fst snd]. repeat constructor; cbn [In]; intuition congruence.
  - intros x y v [H|[H|[H|[H|[H|[]]]]]]; injection H as <- <- <-; lia.
  - intros i Hi. assert (i = 1 \/ i = 2 \/ i = 3) as [-> | [-> | ->]] by lia; eexists; cbn [In path_entries]; eauto 10.
Qed.
Definition path_rows : rows_t Z := [[(0, 4); (1, 7)]; [(0, 7); (1, 5); (2, 9)]; [(1, 9); (2, 6)]].
Lemma path_loaded : exists A, znamed path_files (str "a.mtx") 1 false 1 = Some A /\ rowptr A = [1; 3; 6; 8] /\ colidx A = [1; 2; 1; 2; 3; 2; 3] /\ values A = Some [4; 7; 7; 5; 9; 9; 6] /\
  diagptr A = Some [1; 4; 7] /\ idiag A = Some [4; 5; 6].
Proof. eexists. split; [vm_compute; reflexivity|]. repeat split. Qed.

(** A lower triangular file, read without force.  Row 1 waits for row 0, which has no
    entry that would release it: row 1 belongs to no level. *)
Definition f_lower := lines ["%%MatrixMarket matrix coordinate integer general"; "2 2 3"; "1 1 1"; "2 1 1"; "2 2 1"]%string.
Lemma file_lower : coordinate_file scan_num (fun x => x) 1 Integer General [2; 2; 3] [(1, (1, 1)); (2, (1, 1)); (2, (2, 1))] f_lower.
Proof.
  exists (str "%%MatrixMarket matrix coordinate integer general"), [], (str "2 2 3"), (concat [str "1 1 1" ++ [NL]; str "2 1 1" ++ [NL]; str "2 2 1" ++ [NL]]).
  split; [reflexivity|]. split; [exact (banner_case Integer General)|]. split; [constructor|]. split; [line_txt|]. split.
  - apply (next_int [] 2 (str "2") [2; 3] (str " 2 3")); [ws_txt|dec_txt|unfold int32; lia|reflexivity|].
    apply (next_int [32] 2 (str "2") [3] (str " 3")); [ws_txt|dec_txt|unfold int32; lia|reflexivity|].
    apply (next_int [32] 3 (str "3") [] []); [ws_txt|dec_txt|unfold int32; lia|exact I|constructor].
  - apply (int_entries [(1, (1, 1)); (2, (1, 1)); (2, (2, 1))]) with (w := []); [|constructor]. intros x y k [H|[H|[H|[]]]]; injection H as <- <- <-; unfold int32; lia.
Qed.
Definition lower_A : csr Z := mkCSR 2 2 [0; 1; 3] [0; 0; 1] (Some [1; 1; 1]) (Some [1; 1]) (Some [1; 1]) (Some [0; 2]) None.
Definition lower_world : world := simple_world [[0]; [1]] 2 (fun _ => []).
(** 77 is what the memory of the permutations held before. *)
Lemma lower_lost : znamed (one_file (str "a.mtx") f_lower) (str "a.mtx") 0 false 1 = Some lower_A /\ sched_args 2 2 (fun _ => 1) lower_world /\
  world_tasks (graph_of lower_A 0 [0; 2]) 2 false false (fun _ => 1) lower_world = Some ([0; 1; 1], [0; 2], [0; 77], [0; 77]) /\
  (forall tr, constructTaskGraph (graph_of lower_A 0 [0; 2]) 2 false false tr (fun _ => 1) lower_world = None).
Proof.
  split; [vm_compute; reflexivity|]. split; [|split; [vm_compute; reflexivity|intros [|]; vm_compute; reflexivity]].
  constructor; [lia|lia|]. apply simple_world_ok; [lia|]. split; [reflexivity|]. split; [reflexivity|]. intros t Ht. assert (t = 0 \/ t = 1) as [-> | ->] by lia; vm_compute; discriminate.
Qed.
(** The same file with force: all rows. *)
Lemma lower_forced : exists A, znamed (one_file (str "a.mtx") f_lower) (str "a.mtx") 0 true 1 = Some A /\
  world_tasks (graph_of A 0 [0; 3]) 2 false false (fun _ => 1) lower_world = Some ([0; 2; 2], [0; 1; 2], [0; 1], [0; 1]) /\
  exists S, constructTaskGraph (graph_of A 0 [0; 3]) 2 false false true (fun _ => 1) lower_world = Some (S, [0; 1], [0; 1]).
Proof. eexists. split; [vm_compute; reflexivity|]. split; [vm_compute; reflexivity|]. eexists. vm_compute. reflexivity. Qed.
