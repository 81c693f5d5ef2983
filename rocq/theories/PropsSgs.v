(** * Properties: the fused symmetric Gauss-Seidel pair. *)
From Coq Require Import Ring_theory.
From Verif Require Import Base Interleave Spec Flat Csr CsrOps Fill Permute PermuteMain SpMV CsrOps SplitLU P2P P2PProg Exec Kernels LevelsCsr Tasks TaskGraph TaskGraphCsr Sched SchedPerm Solve Pcg PcgMain PcgCases Sgs SgsExact SgsCases.
Open Scope Z_scope.

(** C61.  One call of the fused solve, any arithmetic: y is the sweep of the reordered
    triangular matrix, b is y less the product of the matrix with x, for every
    interleaving. *)
Theorem C61_kernel : forall {V} hasv base n (rows lrows : rows_t V) A dp, sched_matrix hasv base n rows lrows A dp ->
  forall T agg cost w, sched_args (Zlen rows) T cost w ->
  forall {X} base' n' (krows krows' : rows_t X) A', rep true base' n' krows' A' -> base' = 0 -> rows_ok n' krows -> sub_pattern krows rows -> Zlen rows <= n' ->
  forall zero add sub mul idiag b y idiag' b' y' x', n' <= Zlen y -> n' <= Zlen x' -> Zlen rows <= Zlen b -> Zlen rows <= Zlen idiag ->
  forall tr S o2t t2o, constructTaskGraph (graph_of A base dp) T false agg tr cost w = Some (S, o2t, t2o) ->
  moved_rows sub o2t t2o krows krows' -> moved (Zlen rows) t2o b b' -> moved (Zlen rows) t2o idiag idiag' -> moved (Zlen rows) t2o y y' ->
  exists fy fy' fb', updates add sub mul Scaled true krows idiag b (dirZ true 0 (Zlen rows)) y = Some fy /\ moved (Zlen rows) t2o fy fy' /\ rest_of zero add sub mul krows' x' fy' b' fb' /\
    p2p_computes (fexec zero add sub mul A' base' (values_of krows') idiag' x' (Zlen y')) None (fops A') true S (fun i => Some i) T (y' ++ b') (fy' ++ fb').
Proof. intros V hasv base n rows lrows A dp HM T agg cost w HA X. exact (fused_p2p hasv base n rows lrows A dp HM T agg cost w HA). Qed.
Print Assumptions C61_kernel.
(** The whole pair, exact arithmetic: split, reorder, multiply, fused forward solve,
    backward solve.  The results are those of the two reference sweeps, reordered. *)
Theorem C61_pair : forall {V} (zero one : V) add mul sub opp, ring_theory zero one add mul sub opp (@eq V) ->
  forall is0 is1 ism1 base (rows : rows_t V) A dp ids, (forall a, is0 a = true -> a = zero) -> (forall a, is1 a = true -> a = one) -> (forall a, ism1 a = true -> a = opp one) ->
  base = 0 -> sched_matrix true base (Zlen rows) rows rows A dp -> rows_ok (Zlen rows) rows -> diagptr_len A -> extptr A = None ->
  idiag A = Some ids -> Zlen ids = Zlen rows -> (forall r d, 0 <= r < Zlen rows -> get ids r = Some d -> mul (coefat zero add (nthl rows r) r) d = one) ->
  forall T agg cost w tr S o2t t2o, sched_args (Zlen rows) T cost w -> constructTaskGraph (graph_of A base dp) T false agg tr cost w = Some (S, o2t, t2o) ->
  forall ssch sj s1 s2 s3 s4, sl_junk_ok (Zlen rows) T sj ->
  exists L U, splitLU A T ssch sj s1 s2 s3 s4 = Some (A, L, U) /\
  forall nd psch psch' jl ju, junk_ok L T jl -> junk_ok U T ju ->
  exists L' U' vl vu ids', permute nd true L o2t (Some t2o) T psch jl = Some L' /\ permute nd true U o2t (Some t2o) T psch' ju = Some U' /\
    values L' = Some vl /\ values U' = Some vu /\ idiag L' = Some ids' /\ idiag U' = Some ids' /\
  forall b y x b' y' x' tmp sch junk, placed (Zlen rows) t2o b b' -> placed (Zlen rows) t2o y y' -> placed (Zlen rows) t2o x x' -> Zlen tmp = Zlen rows ->
  exists t' fy fy' t2' fx fx',
    multiplyWithVector zero add sub mul is0 is1 ism1 U' tmp (opp one) (Own y') one (Own b') zero T sch junk = Some t' /\
    p2p_computes (fexec zero add sub mul L' base vl ids' x' (Zlen y')) None (fops L') true S (fun i => Some i) T (y' ++ t') (fy' ++ t2') /\
    p2p_computes (rexec add sub mul Scaled U' base vu ids' t2') None (rops false U') false S (fun i => Some i) T x' fx' /\
    ref_sweep add sub mul AddScaled true A base (values_of rows) ids b y = Some fy /\ ref_sweep add sub mul AddScaled false A base (values_of rows) ids fy x = Some fx /\
    placed (Zlen rows) t2o fy fy' /\ placed (Zlen rows) t2o fx fx' /\ Zlen t2' = Zlen rows.
Proof. intros V. exact symgs_fused. Qed.
Print Assumptions C61_pair.
Example C61_ex : sched_matrix true 0 3 vee_rows vee_rows (vee_A 0) (dp_of 0 vee_rows) /\ rows_ok 3 vee_rows /\ diagptr_len (vee_A 0) /\ extptr (vee_A 0) = None /\ idiag (vee_A 0) = Some [1; -1; 1] /\
  (forall r d, 0 <= r < 3 -> get [1; -1; 1] r = Some d -> coefat 0 Z.add (nthl vee_rows r) r * d = 1) /\ sched_args 3 2 (fun _ => 1) vee_world /\
  constructTaskGraph (graph_of (vee_A 0) 0 (dp_of 0 vee_rows)) 2 false false true (fun _ => 1) vee_world = Some (vee_S, vee_perm, vee_perm) /\ sl_junk_ok 3 2 (qw_junk (some_qw 9 3 7 2)) /\
  placed 3 vee_perm [5; 6; 7] [5; 7; 6] /\ vee_pair 0 [5; 7; 6] [1; 3; 2] [4; 8; 6] = Some ([-1; 0; 3], [51; -26; -81]) /\ vee_ref 0 [5; 6; 7] [1; 2; 3] [4; 6; 8] = Some ([-1; 3; 0], [51; -81; -26]).
Proof. exact vee_case. Qed.
(** With indices from 1 the element of x after the one meant is read: behind the end
    of x for one matrix, a wrong result for another. *)
Theorem C61_base1_refuted : exists (rows krows' : rows_t Z) A dp A' T cost w tr S o2t t2o ids ids' y y' b b' x',
  sched_matrix true 1 (Zlen rows) rows rows A dp /\ rows_ok (Zlen rows) rows /\ sched_args (Zlen rows) T cost w /\ constructTaskGraph (graph_of A 1 dp) T false false tr cost w = Some (S, o2t, t2o) /\
  rep true 1 (Zlen rows) krows' A' /\ moved_rows Z.sub o2t t2o (select lower rows) krows' /\ placed (Zlen rows) t2o ids ids' /\ placed (Zlen rows) t2o y y' /\ placed (Zlen rows) t2o b b' /\ Zlen x' = Zlen rows /\
  forall fin, ~ p2p_computes (fexec 0 Z.add Z.sub Z.mul A' 1 (values_of krows') ids' x' (Zlen y')) None (fops A') true S (fun i => Some i) T (y' ++ b') fin.
Proof. exact fused_base1_refuted. Qed.
Print Assumptions C61_base1_refuted.
Theorem C61_base1_value_refuted : exists (rows krows' : rows_t Z) A dp A' T cost w tr S o2t t2o ids' y' b' x' sched code s fy fb,
  sched_matrix true 1 (Zlen rows) rows rows A dp /\ rows_ok (Zlen rows) rows /\ sched_args (Zlen rows) T cost w /\ constructTaskGraph (graph_of A 1 dp) T false false tr cost w = Some (S, o2t, t2o) /\
  rep true 1 (Zlen rows) krows' A' /\ moved_rows Z.sub o2t t2o (select lower rows) krows' /\ Zlen ids' = Zlen rows /\ Zlen y' = Zlen rows /\ Zlen b' = Zlen rows /\ Zlen x' = Zlen rows /\
  p2p_run (fexec 0 Z.add Z.sub Z.mul A' 1 (values_of krows') ids' x' (Zlen y')) None (fops A') true S (fun i => Some i) T [] sched (map (fun _ => 9) (zrange 0 (ntasks S))) (map (fun _ => None) (zrange 0 T)) (y' ++ b') = Some (code, s) /\
  finished code s /\ mem s = fy ++ fb /\ Zlen fy = Zlen rows /\ updates Z.add Z.sub Z.mul Scaled true krows' ids' b' (dirZ true 0 (Zlen rows)) y' = Some fy /\ ~ rest_of 0 Z.add Z.sub Z.mul krows' x' fy b' fb.
Proof. exact fused_base1_wrong. Qed.
Print Assumptions C61_base1_value_refuted.
