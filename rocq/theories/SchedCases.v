(** * Worked cases and refutations for constructed schedules. *)
From Coq Require Import Permutation.
From Verif Require Import Base Interleave PermuteMain Spec PermUtils Flat Csr CsrTools CsrOps SpMV P2P P2PProg Exec Kernels Ilu Levels LevelsFacts LevelsMain Tasks LevelsCsr TaskGraph TaskGraphFacts TaskGraphLists TaskGraphMain TaskGraphOrder TaskGraphCsr Sched SchedPerm.

(** Three levels of two rows; every row is adjacent to all rows of the other levels. *)
Definition tri_rows : rows_t Z :=
  map (fun i => map (fun j => (j, if j =? i then 9 else 1 + i + j)) (filter (fun j => (j =? i) || negb (j / 2 =? i / 2)) (zrange 0 6))) (zrange 0 6).
Definition tri_A (base : Z) : csr Z := csr_of base 6 tri_rows.
Definition tri_dp (base : Z) : list Z := dp_of base tri_rows.
Definition simple_world (chunks : list (list Z)) (m : Z) (s : nat -> list nat) : world :=
  let j := map (fun _ => 77) (zrange 0 m) in mkWorld chunks (s 1%nat) (fun a b => s (a + b)%nat) (s 2%nat) s j j j j j (fun _ => 5) (fun n => map (fun _ => [3]) (zrange 0 n)) (fun n => map (fun _ => []) (zrange 0 n)).
Definition tri_world : world := simple_world [[0; 1; 2]; [3; 4; 5]] 6 (fun k => repeat 1%nat k).
Lemma tri_sym : sym_pattern tri_rows.
Proof. apply sym_check_ok. reflexivity. Qed.
Lemma halo_none {V} (rows : rows_t V) : rows_ok (Zlen rows) rows -> halo_last rows rows.
Proof. intros H i Hi. exists []. rewrite app_nil_r. split; auto. split; [|intros c v []]. intros c v Hv. apply (H _ _ _ (nth_row_In rows i Hi)) in Hv. lia. Qed.
Lemma tri_ok : rows_ok 6 tri_rows.
Proof.
  intros r c v Hr Hc. unfold tri_rows in Hr. apply in_map_iff in Hr as (i & <- & Hi). apply in_map_iff in Hc as (j & E & Hj). injection E as <- _. apply filter_In in Hj as (Hj & _). now apply In_zrange in Hj.
Qed.
Lemma csr_of_sched {V} base n (rows : rows_t V) : sym_check rows = true -> rows_ok (Zlen rows) rows -> sched_matrix true base n rows rows (csr_of base n rows) (dp_of base rows).
Proof. intros H Hok. constructor; auto using csr_of_rep, csr_of_local, halo_none. - now apply sym_check_ok. - apply dp_of_ok. now apply sym_check_ok. Qed.
Lemma tri_sched base : sched_matrix true base 6 tri_rows tri_rows (tri_A base) (tri_dp base).
Proof. apply csr_of_sched; [reflexivity|exact tri_ok]. Qed.
Lemma simple_world_ok m T chunks s : 0 <= m -> static_chunks m T chunks -> world_ok m T (simple_world chunks m s).
Proof. intros Hm H. constructor; cbn; auto; intros; rewrite ?Zlen_map, ?Zlen_zrange; lia. Qed.
Lemma tri_args : sched_args 6 2 (fun _ => 1) tri_world.
Proof.
  constructor; [lia|lia|]. apply simple_world_ok; [lia|]. split; [reflexivity|]. split; [reflexivity|]. intros t Ht. assert (t = 0 \/ t = 1) as [-> | ->] by lia; vm_compute; discriminate.
Qed.
(** Thread 0 has rows 0, 2, 4 and thread 1 rows 1, 3, 5. *)
Lemma tri_run : constructTaskGraph (graph_of (tri_A 1) 1 (tri_dp 1)) 2 false false false (fun _ => 1) tri_world =
  Some (mkSched 6 [0; 1; 2; 3; 4; 5; 6] [0; 3; 6] [0; 1; 2; 0; 1; 2] [2; 1; 0; 2; 1; 0] [[]; [3]; [3; 4]; []; [0]; [0; 1]] [[4; 5]; [5]; []; [1; 2]; [2]; []], [0; 3; 1; 4; 2; 5], [0; 2; 4; 1; 3; 5]).
Proof. vm_compute. reflexivity. Qed.
Lemma tri_run_reduced : constructTaskGraph (graph_of (tri_A 1) 1 (tri_dp 1)) 2 false false true (fun _ => 1) tri_world =
  Some (mkSched 6 [0; 1; 2; 3; 4; 5; 6] [0; 3; 6] [0; 1; 1; 0; 1; 1] [1; 1; 0; 1; 1; 0] [[]; [3]; [4]; []; [0]; [1]] [[4]; [5]; []; [1]; [2]; []], [0; 3; 1; 4; 2; 5], [0; 2; 4; 1; 3; 5]).
Proof. vm_compute. reflexivity. Qed.

(** A column beyond the square part without extptr: the construction reads
    origRowIdToTaskId beyond its end. *)
Definition wide_rows : rows_t Z := [[(0, 1); (1, 1)]].
Lemma wide_run tr : constructTaskGraph (graph_of (csr_of 0 2 wide_rows) 0 (dp_of 0 wide_rows)) 1 false false tr (fun _ => 1) (simple_world [[0]] 1 (fun _ => [])) = None.
Proof. destruct tr; vm_compute; reflexivity. Qed.
Lemma wide_sym : sym_pattern wide_rows.
Proof. apply sym_check_ok. reflexivity. Qed.
Lemma wide_world : world_ok 1 1 (simple_world [[0]] 1 (fun _ => [])).
Proof. apply simple_world_ok; [lia|]. split; [reflexivity|]. split; [reflexivity|]. intros t Ht. replace t with 0 by lia. vm_compute. discriminate. Qed.
Theorem wide_refuted : exists (rows : rows_t Z) A dp T cost w, rep true 0 2 rows A /\ local_rows 0 rows A rows /\ sym_pattern rows /\ diag_first 0 rows dp /\ rows_ok 2 rows /\ sched_args (Zlen rows) T cost w /\
  forall agg tr, constructTaskGraph (graph_of A 0 dp) T false agg tr cost w = None.
Proof.
  exists wide_rows, (csr_of 0 2 wide_rows), (dp_of 0 wide_rows), 1, (fun _ => 1), (simple_world [[0]] 1 (fun _ => [])).
  split; [apply csr_of_rep|]. split; [apply csr_of_local|]. split; [exact wide_sym|]. split; [apply dp_of_ok, wide_sym|]. split. { intros r c v [<-|[]] [E|[E|[]]]; injection E as <- <-; lia. }
  split. { constructor; [lia|lia|exact wide_world]. } intros [|] [|]; vm_compute; reflexivity.
Qed.
(** With barriers a thread has empty tasks; the transitive reduction adds an edge to
    them, for which no space is reserved. *)
Definition pair_rows : rows_t Z := [[(0, 2); (1, 1)]; [(0, 1); (1, 2)]].
Theorem barrier_refuted : exists (rows : rows_t Z) A dp T cost w, sched_matrix true 0 (Zlen rows) rows rows A dp /\ sched_args (Zlen rows) T cost w /\
  constructTaskGraph (graph_of A 0 dp) T true false true cost w = None /\ exists r, constructTaskGraph (graph_of A 0 dp) T true false false cost w = Some r.
Proof.
  exists pair_rows, (csr_of 0 2 pair_rows), (dp_of 0 pair_rows), 2, (fun _ => 1), (simple_world [[0]; [1]] 2 (fun _ => [])).
  split. { apply csr_of_sched; [reflexivity|]. intros r c v [<-|[<-|[]]] [E|[E|[]]]; injection E as <- <-; change (Zlen pair_rows) with 2; lia. }
  split. { constructor; [lia|lia|]. apply simple_world_ok; [vm_compute; discriminate|]. split; [reflexivity|]. split; [reflexivity|]. intros t Ht. assert (t = 0 \/ t = 1) as [-> | ->] by lia; vm_compute; discriminate. }
  split; [vm_compute; reflexivity|]. eexists. vm_compute. reflexivity.
Qed.

(** The backward executors visit the entries of a row in descending order, the
    reference in ascending order: with a subtraction for which that matters the
    results differ. *)
Definition bsub (a b : Z) : Z := 2 * a - b.
Definition bvec : list Z := [1; 2; 3; 4; 5; 6].
Lemma tri_backward : ref_sweep Z.add bsub Z.mul AddScaled false (tri_A 1) 1 (values_of tri_rows) bvec bvec bvec <> updates Z.add bsub Z.mul AddScaled false tri_rows bvec bvec (dirZ false 0 6) bvec.
Proof. vm_compute. discriminate. Qed.
Theorem backward_refuted : exists (rows : rows_t Z) A dp T cost w S o2t t2o add sub mul idiag b y ref fin,
  sched_matrix true 1 (Zlen rows) rows rows A dp /\ sched_args (Zlen rows) T cost w /\ constructTaskGraph (graph_of A 1 dp) T false false true cost w = Some (S, o2t, t2o) /\
  Zlen y = Zlen rows /\ Zlen b = Zlen rows /\ Zlen idiag = Zlen rows /\
  ref_sweep add sub mul AddScaled false A 1 (values_of rows) idiag b y = Some ref /\
  p2p_computes (rexec add sub mul AddScaled A 1 (values_of rows) idiag b) None (rops false A) false S (get t2o) T y fin /\ ref <> fin.
Proof.
  destruct (sched_sweep_p2p true 1 6 tri_rows tri_rows (tri_A 1) (tri_dp 1) (tri_sched 1) 2 false (fun _ => 1) 1 6 tri_rows (tri_A 1) (csr_of_rep _ _ _) tri_ok (sub_refl _) ltac:(reflexivity) Z.add bsub Z.mul AddScaled bvec bvec bvec ltac:(reflexivity) ltac:(reflexivity) ltac:(reflexivity) tri_world true _ _ _ false false tri_args tri_run_reduced) as (fin & F1 & F2).
  destruct (ref_sweep Z.add bsub Z.mul AddScaled false (tri_A 1) 1 (values_of tri_rows) bvec bvec bvec) as [ref|] eqn:ER. 2: { vm_compute in ER. discriminate. }
  exists tri_rows, (tri_A 1), (tri_dp 1), 2, (fun _ => 1), tri_world. eexists _, _, _. exists Z.add, bsub, Z.mul, bvec, bvec, bvec, ref, fin.
  split; [apply tri_sched|]. split; [exact tri_args|]. split; [exact tri_run_reduced|]. split; [reflexivity|]. split; [reflexivity|]. split; [reflexivity|]. split; [exact ER|]. split; [exact F2|].
  intros <-. apply tri_backward. rewrite ER, <- F1. reflexivity.
Qed.
(** pcg.cpp:136-169 on a 1-based matrix reads rowptr[-1]. *)
Theorem ilu_ref_refuted : exists (rows : rows_t Z) A dp lu, sched_matrix true 1 (Zlen rows) rows rows A dp /\ rows_ok (Zlen rows) rows /\ Zlen lu = off (nthl rows) (Zlen rows) /\ forall sub mul div, ilu0_ref sub mul div A dp lu = None.
Proof.
  exists tri_rows, (tri_A 1), (tri_dp 1), (map (fun _ => 0) (zrange 0 30)). split; [apply tri_sched|]. split; [exact tri_ok|]. split; [reflexivity|]. intros sub mul div. vm_compute. reflexivity.
Qed.

(** ** Worked cases *)
(** Arithmetic that is neither associative nor commutative. *)
Definition tri_sweep fwd asc := updates Z.add bsub Z.mul AddScaled asc tri_rows bvec bvec (dirZ fwd 0 6) bvec.
Lemma tri_sweep_run : tri_sweep true true = ref_sweep Z.add bsub Z.mul AddScaled true (tri_A 1) 1 (values_of tri_rows) bvec bvec bvec /\ tri_sweep true true <> None /\ tri_sweep false false <> None /\ tri_sweep true true <> tri_sweep false false.
Proof. split; [vm_compute; reflexivity|]. repeat split; vm_compute; discriminate. Qed.
(** The strictly lower and upper parts. *)
Definition tri_part (fwd : bool) : rows_t Z := map (fun i => filter (fun e => if fwd then fst e <? i else i <? fst e) (nthl tri_rows i)) (zrange 0 6).
Lemma tri_part_sub fwd : sub_pattern (tri_part fwd) tri_rows /\ rows_ok 6 (tri_part fwd) /\ rep true 0 6 (tri_part fwd) (csr_of 0 6 (tri_part fwd)).
Proof.
  assert (S : sub_pattern (tri_part fwd) tri_rows). { split; [reflexivity|]. intros r c (v & Hv). exists v. unfold tri_part, nthl at 1 in Hv. rewrite get_map in Hv. destruct (get (zrange 0 6) r) as [i|] eqn:E; [|destruct Hv]. cbn [option_map] in Hv.
    pose proof (get_Some_bounds _ _ _ E) as B. change (Zlen (zrange 0 6)) with 6 in B. rewrite get_zrange in E by lia. injection E as <-. apply filter_In in Hv as (Hv & _). exact Hv. }
  split; auto. split; [|apply csr_of_rep]. intros r c v Hr Hc. apply In_get in Hr as (i & Bi & Ei). apply nthl_get in Ei. subst r. change (Zlen (tri_part fwd)) with 6 in Bi. destruct (proj2 S i c (ex_intro _ v Hc)) as (v' & Hv'). apply (tri_ok _ _ _ (nth_row_In tri_rows i Bi) Hv').
Qed.
(** Solving with the strictly lower part and the inverse diagonal. *)
Lemma tri_solve_run : updates Z.add Z.sub Z.mul Scaled true (tri_part true) bvec bvec (dirZ true 0 6) [0; 0; 0; 0; 0; 0] = Some [1; 4; -48; -80; 4760; 6456].
Proof. vm_compute. reflexivity. Qed.
(** The reordered matrix. *)
Definition tri_o2t : list Z := [0; 3; 1; 4; 2; 5].
Definition tri_t2o : list Z := [0; 2; 4; 1; 3; 5].
Lemma tri_moved : moved_rows bsub tri_o2t tri_t2o tri_rows (perm_rows false tri_o2t tri_t2o tri_rows tri_rows) /\ moved 6 tri_t2o bvec [1; 3; 5; 2; 4; 6] /\
  perm_rows false tri_o2t tri_t2o tri_rows tri_rows <> tri_rows.
Proof.
  split; [|split].
  - split; [reflexivity|]. intros i r E. left. pose proof (get_Some_bounds _ _ _ E) as B. change (Zlen tri_t2o) with 6 in B.
    assert (i = 0 \/ i = 1 \/ i = 2 \/ i = 3 \/ i = 4 \/ i = 5) as D by lia. destruct D as [->|[->|[->|[->|[->| ->]]]]]; vm_compute in E; injection E as <-; vm_compute; reflexivity.
  - split; [reflexivity|]. split; [|intros p Hp; rewrite !get_out; auto; right; exact Hp]. intros i r E. pose proof (get_Some_bounds _ _ _ E) as B. change (Zlen tri_t2o) with 6 in B.
    assert (i = 0 \/ i = 1 \/ i = 2 \/ i = 3 \/ i = 4 \/ i = 5) as D by lia. destruct D as [->|[->|[->|[->|[->| ->]]]]]; vm_compute in E; injection E as <-; vm_compute; reflexivity.
  - vm_compute. discriminate.
Qed.
(** A local part of two rows and a halo column 2. *)
Definition halo_rows : rows_t Z := [[(0, 2); (1, 1); (2, 5)]; [(0, 1); (1, 2)]].
Definition halo_lrows : rows_t Z := [[(0, 2); (1, 1)]; [(0, 1); (1, 2)]].
Definition halo_A : csr Z := mkCSR 2 3 [0; 3; 5] [0; 1; 2; 0; 1] (Some [2; 1; 5; 1; 2]) None None None (Some [2; 5]).
Lemma halo_sched : sched_matrix true 0 3 halo_rows halo_lrows halo_A [0; 4].
Proof.
  constructor.
  - repeat split.
  - split; [reflexivity|]. split; [reflexivity|]. intros i Hi. change (Zlen halo_rows) with 2 in Hi. assert (i = 0 \/ i = 1) as [-> | ->] by lia; [exists [(2, 5)]|exists []]; split; reflexivity.
  - apply sym_check_ok. reflexivity.
  - split; [reflexivity|]. intros i Hi. change (Zlen halo_rows) with 2 in Hi. assert (i = 0 \/ i = 1) as [-> | ->] by lia.
    + exists [], 2, [(1, 1); (2, 5)]. split; [reflexivity|]. split; [intros c w []|reflexivity].
    + exists [(0, 1)], 2, []. split; [reflexivity|]. split; [intros c w [H|[]]; injection H as <- _; lia|reflexivity].
  - intros i Hi. change (Zlen halo_rows) with 2 in *. assert (i = 0 \/ i = 1) as [-> | ->] by lia; [exists [(2, 5)]|exists []]; (split; [reflexivity|]); split; intros c v H; vm_compute in H; repeat destruct H as [H|H]; try contradiction; injection H as <- _; lia.
Qed.
Lemma tri_barrier_run : exists thb tb o2t t2o, world_tasks (graph_of (tri_A 1) 1 (tri_dp 1)) 2 true false (fun _ => 1) tri_world = Some (thb, tb, o2t, t2o) /\ Zlen tb = 7.
Proof. eexists _, _, _, _. split; vm_compute; reflexivity. Qed.
