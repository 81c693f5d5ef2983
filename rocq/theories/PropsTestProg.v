(** * Properties: the test programs as wholes. *)
From Coq Require Import Ring_theory Permutation Sorted.
From Verif Require Import Base Interleave Spec PermUtils Flat Csr Transpose CsrTools CsrOps Permute PermuteMain PermuteFacts SpMV SplitLU SymPattern P2P P2PProg Exec Kernels Levels LevelsCsr Tasks TaskGraph TaskGraphCsr Sched SchedPerm SchedCases Solve SolveCases Pcg PcgMain PcgCases Sgs SgsExact SgsCases OnePerm TestProg TestProgCases.
Open Scope Z_scope.

(** C69.  All schedules of a matrix carry the same permutation, with or without barriers,
    with or without reduction, whatever the threads did while building them. *)
Theorem C69_one_perm : forall {V} hasv base n (rows lrows : rows_t V) A dp, sched_matrix hasv base n rows lrows A dp ->
  forall T agg cost bar1 bar2 tr1 tr2 w1 w2 S1 o1 t1 S2 o2 t2, sched_args (Zlen rows) T cost w1 -> sched_args (Zlen rows) T cost w2 ->
  constructTaskGraph (graph_of A base dp) T bar1 agg tr1 cost w1 = Some (S1, o1, t1) -> constructTaskGraph (graph_of A base dp) T bar2 agg tr2 cost w2 = Some (S2, o2, t2) -> o1 = o2 /\ t1 = t2.
Proof. intros V. exact one_perm. Qed.
Print Assumptions C69_one_perm.
(** gs_test on the original matrix: forward and backward sweep under the barrier schedule
    and the two point-to-point schedules, rows found by the permutation of the third. *)
Theorem C69_gs_plain : forall {V} base (rows : rows_t V) A dp ids, sched_matrix true base (Zlen rows) rows rows A dp -> rows_ok (Zlen rows) rows -> Zlen ids = Zlen rows ->
  forall T agg cost w1 w2 w3 SB S1 S2 ob tb o1 t1 o2t t2o, sched_args (Zlen rows) T cost w1 -> sched_args (Zlen rows) T cost w2 -> sched_args (Zlen rows) T cost w3 ->
  constructTaskGraph (graph_of A base dp) T true agg false cost w1 = Some (SB, ob, tb) -> constructTaskGraph (graph_of A base dp) T false agg false cost w2 = Some (S1, o1, t1) -> constructTaskGraph (graph_of A base dp) T false agg true cost w3 = Some (S2, o2t, t2o) ->
  forall add sub mul : V -> V -> V,
  forall b y x, Zlen b = Zlen rows -> Zlen y = Zlen rows -> Zlen x = Zlen rows ->
  exists fy fx, ref_sweep add sub mul AddScaled true A base (values_of rows) ids b y = Some fy /\
    all_compute (rexec add sub mul AddScaled A base (values_of rows) ids b) None (rops true A) true SB S1 S2 (get t2o) T y fy /\
    updates add sub mul AddScaled false rows ids fy (rev (zrange 0 (Zlen rows))) x = Some fx /\
    ((forall s a b, sub (sub s a) b = sub (sub s b) a) -> ref_sweep add sub mul AddScaled false A base (values_of rows) ids fy x = Some fx) /\
    all_compute (rexec add sub mul AddScaled A base (values_of rows) ids fy) None (rops false A) false SB S1 S2 (get t2o) T x fx.
Proof. intros V. exact gs_test_plain. Qed.
Print Assumptions C69_gs_plain.
(** gs_test on the reordered matrix and vectors, the result brought back. *)
Theorem C69_gs_reordered : forall {V} base (rows : rows_t V) A dp ids, base = 0 \/ base = 1 -> sched_matrix true base (Zlen rows) rows rows A dp -> rows_ok (Zlen rows) rows -> idiag A = Some ids -> Zlen ids = Zlen rows ->
  forall T agg cost w1 w2 w3 SB S1 S2 ob tb o1 t1 o2t t2o, sched_args (Zlen rows) T cost w1 -> sched_args (Zlen rows) T cost w2 -> sched_args (Zlen rows) T cost w3 ->
  constructTaskGraph (graph_of A base dp) T true agg false cost w1 = Some (SB, ob, tb) -> constructTaskGraph (graph_of A base dp) T false agg false cost w2 = Some (S1, o1, t1) -> constructTaskGraph (graph_of A base dp) T false agg true cost w3 = Some (S2, o2t, t2o) ->
  forall add sub mul : V -> V -> V,
  forall nd psch j, (forall s a b, sub (sub s a) b = sub (sub s b) a) -> junk_ok A T j ->
  exists A' vs' ids', permute nd true A o2t (Some t2o) T psch j = Some A' /\ values A' = Some vs' /\ idiag A' = Some ids' /\
  forall b y x tmp tr, Zlen b = Zlen rows -> Zlen y = Zlen rows -> Zlen x = Zlen rows -> (forall k : nat, Zlen (tmp k : list V) = Zlen rows) -> (forall k : nat, Permutation (tr k) (zrange 0 (Zlen rows))) ->
  exists fy fx, ref_sweep add sub mul AddScaled true A base (values_of rows) ids b y = Some fy /\ ref_sweep add sub mul AddScaled false A base (values_of rows) ids fy x = Some fx /\
  exists b' y' x' fy' fx', getReorderVector (tmp 0%nat) b o2t (Zlen rows) (tr 0%nat) = Some b' /\ reorderVector x (tmp 1%nat) (Some o2t) (Zlen rows) (tr 1%nat) (tr 2%nat) = Some x' /\ reorderVector y (tmp 2%nat) (Some o2t) (Zlen rows) (tr 3%nat) (tr 4%nat) = Some y' /\
    all_compute (rexec add sub mul AddScaled A' base vs' ids' b') None (rops true A') true SB S1 S2 (fun i => Some i) T y' fy' /\
    all_compute (rexec add sub mul AddScaled A' base vs' ids' fy') None (rops false A') false SB S1 S2 (fun i => Some i) T x' fx' /\
    reorderVector fx' (tmp 3%nat) (Some t2o) (Zlen rows) (tr 5%nat) (tr 6%nat) = Some fx.
Proof. intros V. exact gs_test_reordered. Qed.
Print Assumptions C69_gs_reordered.
(** gs_test with the fused pair, exact arithmetic, indices from 0. *)
Theorem C69_gs_fused : forall {V} (zero one : V) add mul sub opp, ring_theory zero one add mul sub opp (@eq V) ->
  forall is0 is1 ism1 (rows : rows_t V) A dp ids, (forall a, is0 a = true -> a = zero) -> (forall a, is1 a = true -> a = one) -> (forall a, ism1 a = true -> a = opp one) ->
  sched_matrix true 0 (Zlen rows) rows rows A dp -> rows_ok (Zlen rows) rows -> diagptr_len A -> extptr A = None ->
  idiag A = Some ids -> Zlen ids = Zlen rows -> (forall r d, 0 <= r < Zlen rows -> get ids r = Some d -> mul (coefat zero add (nthl rows r) r) d = one) ->
  forall T agg cost w S o2t t2o, sched_args (Zlen rows) T cost w -> constructTaskGraph (graph_of A 0 dp) T false agg true cost w = Some (S, o2t, t2o) ->
  forall ssch sj s1 s2 s3 s4, sl_junk_ok (Zlen rows) T sj ->
  exists L U, splitLU A T ssch sj s1 s2 s3 s4 = Some (A, L, U) /\
  forall nd psch psch' jl ju, junk_ok L T jl -> junk_ok U T ju ->
  exists L' U' vl vu ids', permute nd true L o2t (Some t2o) T psch jl = Some L' /\ permute nd true U o2t (Some t2o) T psch' ju = Some U' /\
    values L' = Some vl /\ values U' = Some vu /\ idiag L' = Some ids' /\ idiag U' = Some ids' /\
  forall b y x tmp tr sch junk, Zlen b = Zlen rows -> Zlen y = Zlen rows -> Zlen x = Zlen rows -> (forall k : nat, Zlen (tmp k : list V) = Zlen rows) -> (forall k : nat, Permutation (tr k) (zrange 0 (Zlen rows))) ->
  exists b' y' x' t' fy fy' t2' fx fx',
    getReorderVector (tmp 0%nat) b o2t (Zlen rows) (tr 0%nat) = Some b' /\ reorderVector x (tmp 1%nat) (Some o2t) (Zlen rows) (tr 1%nat) (tr 2%nat) = Some x' /\ reorderVector y (tmp 2%nat) (Some o2t) (Zlen rows) (tr 3%nat) (tr 4%nat) = Some y' /\
    SpMV.multiplyWithVector zero add sub mul is0 is1 ism1 U' (tmp 3%nat) (opp one) (Own y') one (Own b') zero T sch junk = Some t' /\
    p2p_computes (fexec zero add sub mul L' 0 vl ids' x' (Zlen y')) None (fops L') true S (fun i => Some i) T (y' ++ t') (fy' ++ t2') /\
    p2p_computes (rexec add sub mul Scaled U' 0 vu ids' t2') None (rops false U') false S (fun i => Some i) T x' fx' /\
    ref_sweep add sub mul AddScaled true A 0 (values_of rows) ids b y = Some fy /\ ref_sweep add sub mul AddScaled false A 0 (values_of rows) ids fy x = Some fx /\
    reorderVector fx' (tmp 4%nat) (Some t2o) (Zlen rows) (tr 5%nat) (tr 6%nat) = Some fx.
Proof. intros V. exact gs_test_fused. Qed.
Print Assumptions C69_gs_fused.
Example C69_ex : sched_matrix true 0 3 vee_rows vee_rows (vee_A 0) (dp_of 0 vee_rows) /\ rows_ok 3 vee_rows /\ idiag (vee_A 0) = Some [1; -1; 1] /\ sched_args 3 2 (fun _ => 1) vee_world /\
  constructTaskGraph (graph_of (vee_A 0) 0 (dp_of 0 vee_rows)) 2 true false false (fun _ => 1) vee_world = Some (mkSched 4 [0; 1; 2; 3; 3] [0; 2; 4] [0; 1; 0; 0] [0; 0; 1; 0] [[]; [2]; []; []] [[]; []; [1]; []], vee_perm, vee_perm) /\
  constructTaskGraph (graph_of (vee_A 0) 0 (dp_of 0 vee_rows)) 2 false false false (fun _ => 1) vee_world = Some (vee_S, vee_perm, vee_perm) /\
  constructTaskGraph (graph_of (vee_A 0) 0 (dp_of 0 vee_rows)) 2 false false true (fun _ => 1) vee_world = Some (vee_S, vee_perm, vee_perm).
Proof. exact vee_three. Qed.

(** C70.  The graph trsv_test schedules belongs to a symmetric matrix that has every
    entry of the given one. *)
Theorem C70_pattern : forall {V} (rows : rows_t V) A, rep true 0 (Zlen rows) rows A -> rows_ok (Zlen rows) rows -> (forall i, 0 <= i < Zlen rows -> ssortedZ (map fst (nthl rows i))) -> full_diag rows -> extptr A = None ->
  (forall d, diagptr A = Some d -> diag_first 0 rows d) -> forall T sch j, 1 <= T -> sym_junk_ok (Zlen rows) j ->
  forall dsch djunk, Zlen djunk = Zlen rows -> exists G (W : Type) hasv (srows : rows_t W) P dp, trsv_graph A T sch j dsch djunk = Some G /\
  G = graph_of P 0 dp /\ sched_matrix hasv 0 (Zlen rows) srows srows P dp /\ Zlen srows = Zlen rows /\ sub_pattern rows srows.
Proof. intros V. exact trsv_pattern. Qed.
Print Assumptions C70_pattern.
(** trsv_test as a whole: split, pattern, schedules, solves on the original and on the
    reordered matrices. *)
Theorem C70_trsv : forall {V} (rows : rows_t V) A, rep true 0 (Zlen rows) rows A -> rows_ok (Zlen rows) rows -> (forall i, 0 <= i < Zlen rows -> ssortedZ (map fst (nthl rows i))) -> full_diag rows -> extptr A = None ->
  (forall d, diagptr A = Some d -> diag_first 0 rows d) -> forall T sch j, 1 <= T -> sym_junk_ok (Zlen rows) j ->
  forall ids dsch djunk, idiag A = Some ids -> Zlen ids = Zlen rows -> Zlen djunk = Zlen rows ->
  forall ssch sj s1 s2 s3 s4, sl_junk_ok (Zlen rows) T sj ->
  exists L U G, splitLU A T ssch sj s1 s2 s3 s4 = Some (A, L, U) /\ trsv_graph A T sch j dsch djunk = Some G /\
  forall agg cost,
  (T <= 2 -> forall bar tr w, bar = false \/ tr = false -> sched_args (Zlen rows) T cost w -> exists S o2t t2o, constructTaskGraph G T bar agg tr cost w = Some (S, o2t, t2o)) /\
  forall w1 w2 w3 SB S1 S2 ob tb o1 t1 o2t t2o, sched_args (Zlen rows) T cost w1 -> sched_args (Zlen rows) T cost w2 -> sched_args (Zlen rows) T cost w3 ->
  constructTaskGraph G T true agg false cost w1 = Some (SB, ob, tb) -> constructTaskGraph G T false agg false cost w2 = Some (S1, o1, t1) -> constructTaskGraph G T false agg true cost w3 = Some (S2, o2t, t2o) ->
  forall add sub mul,
  let lr := select lower rows in let ur := select upper rows in
  (forall b y x, Zlen b = Zlen rows -> Zlen y = Zlen rows -> Zlen x = Zlen rows ->
   exists fy fx, ref_sweep add sub mul Scaled true L 0 (values_of lr) ids b y = Some fy /\
    all_compute (rexec add sub mul Scaled L 0 (values_of lr) ids b) None (rops true L) true SB S1 S2 (get t2o) T y fy /\
    updates add sub mul Plain false ur ids fy (rev (zrange 0 (Zlen rows))) x = Some fx /\
    ((forall s a b, sub (sub s a) b = sub (sub s b) a) -> ref_sweep add sub mul Plain false U 0 (values_of ur) ids fy x = Some fx) /\
    all_compute (rexec add sub mul Plain U 0 (values_of ur) ids fy) None (rops false U) false SB S1 S2 (get t2o) T x fx) /\
  ((forall s a b, sub (sub s a) b = sub (sub s b) a) ->
   forall nd psch psch' jl ju, junk_ok L T jl -> junk_ok U T ju ->
   exists L' U' vl vu ids', permute nd true L o2t (Some t2o) T psch jl = Some L' /\ permute nd true U o2t (Some t2o) T psch' ju = Some U' /\ values L' = Some vl /\ values U' = Some vu /\ idiag L' = Some ids' /\ idiag U' = Some ids' /\
   forall b y x tmp tr, Zlen b = Zlen rows -> Zlen y = Zlen rows -> Zlen x = Zlen rows -> (forall k : nat, Zlen (tmp k : list V) = Zlen rows) -> (forall k : nat, Permutation (tr k) (zrange 0 (Zlen rows))) ->
   exists fy fx, ref_sweep add sub mul Scaled true L 0 (values_of lr) ids b y = Some fy /\ ref_sweep add sub mul Plain false U 0 (values_of ur) ids fy x = Some fx /\
   exists b' y' x' fy' fx', getReorderVector (tmp 0%nat) b o2t (Zlen rows) (tr 0%nat) = Some b' /\ reorderVector x (tmp 1%nat) (Some o2t) (Zlen rows) (tr 1%nat) (tr 2%nat) = Some x' /\ reorderVector y (tmp 2%nat) (Some o2t) (Zlen rows) (tr 3%nat) (tr 4%nat) = Some y' /\
    all_compute (rexec add sub mul Scaled L' 0 vl ids' b') None (rops true L') true SB S1 S2 (fun i => Some i) T y' fy' /\
    all_compute (rexec add sub mul Plain U' 0 vu ids' fy') None (rops false U') false SB S1 S2 (fun i => Some i) T x' fx' /\
    reorderVector fx' (tmp 3%nat) (Some t2o) (Zlen rows) (tr 5%nat) (tr 6%nat) = Some fx).
Proof. intros V. exact trsv_test_ok. Qed.
Print Assumptions C70_trsv.
Example C70_ex : rep true 0 3 hook_rows hook_A /\ rows_ok 3 hook_rows /\ (forall i, 0 <= i < 3 -> ssortedZ (map fst (nthl hook_rows i))) /\ full_diag hook_rows /\ extptr hook_A = None /\
  (forall d, diagptr hook_A = Some d -> diag_first 0 hook_rows d) /\ sym_junk_ok 3 uns_junk /\ idiag hook_A = Some [1; -1; 1] /\ sl_junk_ok 3 2 (qw_junk (some_qw 9 3 7 2)) /\ sched_args 3 2 (fun _ => 1) vee_world /\
  (** the schedule of the matrix itself would wait for nothing, although row 2 needs row 1 *)
  constructTaskGraph (graph_of hook_A 0 (dp_of 0 hook_rows)) 2 false false true (fun _ => 1) vee_world = Some (mkSched 3 [0; 1; 2; 3] [0; 2; 3] [0; 0; 0] [0; 0; 0] [[]; []; []] [[]; []; []], vee_perm, vee_perm) /\
  trsv_graph hook_A 2 (fun k => [0; 1; 1]%nat) uns_junk [] [7; 7; 7] = Some hook_G /\
  (exists SB, constructTaskGraph hook_G 2 true false false (fun _ => 1) vee_world = Some (SB, vee_perm, vee_perm)) /\
  constructTaskGraph hook_G 2 false false false (fun _ => 1) vee_world = Some (vee_S, vee_perm, vee_perm) /\ constructTaskGraph hook_G 2 false false true (fun _ => 1) vee_world = Some (vee_S, vee_perm, vee_perm) /\
  hook_trsv [5; 6; 7] [1; 2; 3] [4; 6; 8] = Some ([5; -6; 25], [-120; -6; 25]).
Proof. exact hook_case. Qed.
