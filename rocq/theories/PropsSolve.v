(** * Properties: what the sweeps and ILU(0) compute, in exact arithmetic. *)
From Coq Require Import Ring_theory Field_theory QArith Qcanon.
From Verif Require Import Base Interleave Spec Flat Csr SpMV P2P P2PProg Exec Kernels Ilu LevelsCsr Tasks TaskGraph TaskGraphCsr Sched SchedCases Solve IluExact SolveCases.
Open Scope Z_scope.

(** C55.  Triangular solves: (D + N) x = b, whatever the vector held before; for the
    reference and for every execution of the scheduled ones. *)
Theorem C55_solve : forall {V} (zero one : V) add mul sub opp, ring_theory zero one add mul sub opp (@eq V) ->
  forall base n (rows : rows_t V) A, rep true base n rows A -> rows_ok n rows -> Zlen rows <= n ->
  forall k idiag b y id bf x0, holds b (Zlen rows) bf -> holds_id k idiag (Zlen rows) id -> holds y n x0 ->
  forall fwd d, k <> AddScaled -> strictly fwd rows -> (forall r, 0 <= r < Zlen rows -> match k with Plain => d r = one | _ => mul (d r) (id r) = one end) ->
  exists fin, ref_sweep add sub mul k fwd A base (values_of rows) idiag b y = Some fin /\ solved zero one add mul n rows d bf y fin.
Proof. intros V. exact solve_ref. Qed.
Print Assumptions C55_solve.
Theorem C55_solve_par : forall {V} (zero one : V) add mul sub opp, ring_theory zero one add mul sub opp (@eq V) ->
  forall base n (rows : rows_t V) A, rep true base n rows A -> rows_ok n rows -> Zlen rows <= n ->
  forall k idiag b y id bf x0, holds b (Zlen rows) bf -> holds_id k idiag (Zlen rows) id -> holds y n x0 ->
  forall fwd {W} hasv base' n' (rows' lrows : rows_t W) A' dp, sched_matrix hasv base' n' rows' lrows A' dp -> sub_pattern rows rows' ->
  forall T agg cost d, k <> AddScaled -> strictly fwd rows -> (forall r, 0 <= r < Zlen rows -> match k with Plain => d r = one | _ => mul (d r) (id r) = one end) ->
  (forall asc w tr S o2t t2o, sched_args (Zlen rows') T cost w -> constructTaskGraph (graph_of A' base' dp) T false agg tr cost w = Some (S, o2t, t2o) ->
    exists fin, p2p_computes (rexec add sub mul k A base (values_of rows) idiag b) None (rops asc A) fwd S (get t2o) T y fin /\ solved zero one add mul n rows d bf y fin) /\
  (forall asc w thb tb S o2t t2o, sched_args (Zlen rows') T cost w -> world_tasks (graph_of A' base' dp) T true agg cost w = Some (thb, tb, o2t, t2o) -> has_tasks S T thb tb ->
    exists fin, barrier_computes (rexec add sub mul k A base (values_of rows) idiag b) None (rops asc A) fwd S (get t2o) T y fin /\ solved zero one add mul n rows d bf y fin).
Proof. intros V zero one add mul sub opp RT base n rows A HR Hok Hn k idiag b y id bf x0 Hb Hid Hy fwd W. exact (solve_par zero one add mul sub opp RT base n rows A HR Hok Hn k idiag b y id bf x0 Hb Hid Hy fwd). Qed.
Print Assumptions C55_solve_par.
Theorem C55_unique : forall {V} (zero one : V) add mul sub opp, ring_theory zero one add mul sub opp (@eq V) ->
  forall fwd (rows : rows_t V) d id b x x', strictly fwd rows -> (forall r, 0 <= r < Zlen rows -> mul (d r) (id r) = one) ->
  solves zero one add mul rows d b x -> solves zero one add mul rows d b x' -> forall r, 0 <= r < Zlen rows -> x r = x' r.
Proof. intros V. exact solves_unique. Qed.
Print Assumptions C55_unique.
Example C55_solve_ex : rows_ok 6 (tri_part true) /\ strictly true (tri_part true) /\ holds bvec 6 (fun i => i + 1) /\ holds (map alt (zrange 0 6)) 6 alt /\ (forall r, 0 <= r < 6 -> alt r * alt r = 1) /\
  ref_sweep Z.add Z.sub Z.mul Scaled true (csr_of 0 6 (tri_part true)) 0 (values_of (tri_part true)) (map alt (zrange 0 6)) bvec [7; 7; 7; 7; 7; 7] = Some [1; -2; 8; -10; 36; -40] /\
  solved 0 1 Z.add Z.mul 6 (tri_part true) alt (fun i => i + 1) [7; 7; 7; 7; 7; 7] [1; -2; 8; -10; 36; -40].
Proof. exact tri_solve_case. Qed.

(** Gauss-Seidel: one sweep of the splitting of the matrix; solutions are fixed points. *)
Theorem C55_gs : forall {V} (zero one : V) add mul sub opp, ring_theory zero one add mul sub opp (@eq V) ->
  forall base n (rows : rows_t V) A, rep true base n rows A -> rows_ok n rows -> Zlen rows <= n ->
  forall k idiag b y id bf x0, holds b (Zlen rows) bf -> holds_id k idiag (Zlen rows) id -> holds y n x0 ->
  forall fwd, k = AddScaled -> (forall r, 0 <= r < Zlen rows -> mul (coefat zero add (nthl rows r) r) (id r) = one) ->
  exists fin, ref_sweep add sub mul k fwd A base (values_of rows) idiag b y = Some fin /\ swept zero one add mul fwd n rows bf x0 y fin.
Proof. intros V. exact gs_ref. Qed.
Print Assumptions C55_gs.
Theorem C55_gs_par : forall {V} (zero one : V) add mul sub opp, ring_theory zero one add mul sub opp (@eq V) ->
  forall base n (rows : rows_t V) A, rep true base n rows A -> rows_ok n rows -> Zlen rows <= n ->
  forall k idiag b y id bf x0, holds b (Zlen rows) bf -> holds_id k idiag (Zlen rows) id -> holds y n x0 ->
  forall fwd {W} hasv base' n' (rows' lrows : rows_t W) A' dp, sched_matrix hasv base' n' rows' lrows A' dp -> sub_pattern rows rows' ->
  forall T agg cost, k = AddScaled -> (forall r, 0 <= r < Zlen rows -> mul (coefat zero add (nthl rows r) r) (id r) = one) ->
  (forall asc w tr S o2t t2o, sched_args (Zlen rows') T cost w -> constructTaskGraph (graph_of A' base' dp) T false agg tr cost w = Some (S, o2t, t2o) ->
    exists fin, p2p_computes (rexec add sub mul k A base (values_of rows) idiag b) None (rops asc A) fwd S (get t2o) T y fin /\ swept zero one add mul fwd n rows bf x0 y fin) /\
  (forall asc w thb tb S o2t t2o, sched_args (Zlen rows') T cost w -> world_tasks (graph_of A' base' dp) T true agg cost w = Some (thb, tb, o2t, t2o) -> has_tasks S T thb tb ->
    exists fin, barrier_computes (rexec add sub mul k A base (values_of rows) idiag b) None (rops asc A) fwd S (get t2o) T y fin /\ swept zero one add mul fwd n rows bf x0 y fin).
Proof. intros V zero one add mul sub opp RT base n rows A HR Hok Hn k idiag b y id bf x0 Hb Hid Hy fwd W. exact (gs_par zero one add mul sub opp RT base n rows A HR Hok Hn k idiag b y id bf x0 Hb Hid Hy fwd). Qed.
Print Assumptions C55_gs_par.
Example C55_gs_ex : rows_ok 6 alt_rows /\ (forall r, 0 <= r < 6 -> coefat 0 Z.add (nthl alt_rows r) r * alt r = 1) /\
  ref_sweep Z.add Z.sub Z.mul AddScaled false (csr_of 0 6 alt_rows) 0 (values_of alt_rows) (map alt (zrange 0 6)) bvec [1; 1; 1; 1; 1; 1] = Some [-103; 109; -49; 53; -21; 24] /\
  swept 0 1 Z.add Z.mul false 6 alt_rows (fun i => i + 1) (fun _ => 1) [1; 1; 1; 1; 1; 1] [-103; 109; -49; 53; -21; 24].
Proof. exact alt_gs_case. Qed.

(** C56.  ILU(0): L U agrees with the matrix wherever the matrix has an entry, and
    no other factors with that pattern do. *)
Theorem C56_ilu : forall {V} (zero one : V) add mul sub opp div inv, field_theory zero one add mul sub opp div inv (@eq V) ->
  forall base n (rows lrows : rows_t V) A dp, sched_matrix true base n rows lrows A dp -> rows_ok n rows -> sorted_rows rows ->
  forall T agg cost w tr S o2t t2o, sched_args (Zlen rows) T cost w -> constructTaskGraph (graph_of A base dp) T false agg tr cost w = Some (S, o2t, t2o) ->
  exists fin lu, rep true base n lu (with_values A fin) /\ map (map fst) lu = map (map fst) rows /\
    (base = 0 -> forall lu0, Zlen lu0 = off (nthl rows) (Zlen rows) -> ilu0_ref sub mul div A dp lu0 = Some fin) /\
    (forall sch lu0, Zlen lu0 = off (nthl rows) (Zlen rows) -> ilu_copy A sch lu0 = Some (values_of rows)) /\
    p2p_computes (lexec sub mul div) None (ilu_ops A base dp) true S (get t2o) T (values_of rows) fin /\
    (pivots_ok zero add lu -> factors zero one add mul rows lu /\ forall lu', factors zero one add mul rows lu' -> lu' = lu).
Proof. intros V. exact ilu_exact. Qed.
Print Assumptions C56_ilu.
Example C56_ex : sched_matrix true 0 6 tri_q tri_q (tri_qA 0) (dp_of 0 tri_q) /\ rows_ok 6 tri_q /\ sorted_rows tri_q /\ sched_args 6 2 (fun _ => 1) tri_world /\ tri_run_q <> None.
Proof. exact (conj (tri_q_sched 0) (conj tri_q_ok (conj tri_q_sorted (conj tri_args tri_run_q_some)))). Qed.
Example C56_run_ex : ilu0_ref Qcminus Qcmult Qcdiv (tri_qA 0) (dp_of 0 tri_q) (map (fun _ => qz 77) (zrange 0 30)) = Some tri_fin /\ Zlen tri_fin = 30.
Proof. exact tri_fin_run. Qed.
Example C56_factors_ex : map this tri_fin = [9; 3; 4; 5; 6; 9; 4; 5; 6; 7; 1 # 3; 4 # 9; 56 # 9; 8 # 3; 26 # 9; 4 # 9; 5 # 9; 40 # 9; 22 # 9; 22 # 9; 5 # 9; 2 # 3; 3 # 7; 11 # 20; -167 # 630; 2 # 3; 7 # 9; 13 # 28; 11 # 20; -986 # 315]%Q /\
  map (map fst) (tri_lu tri_fin) = map (map fst) tri_q /\ pivots_ok (qz 0) Qcplus (tri_lu tri_fin) /\ this (product_at (qz 0) (qz 1) Qcplus Qcmult (tri_lu tri_fin) 2 3) = (32 # 9)%Q /\ ~ entry tri_q 2 3.
Proof. exact tri_factors. Qed.
Theorem C56_unsorted_refuted : exists (rows : rows_t Qc) A dp lu0 fin lu, sched_matrix true 0 (Zlen rows) rows rows A dp /\ rows_ok (Zlen rows) rows /\ Zlen lu0 = off (nthl rows) (Zlen rows) /\ ilu0_ref Qcminus Qcmult Qcdiv A dp lu0 = Some fin /\
  rep true 0 (Zlen rows) lu (with_values A fin) /\ map (map fst) lu = map (map fst) rows /\ pivots_ok (qz 0) Qcplus lu /\ ~ factors (qz 0) (qz 1) Qcplus Qcmult rows lu.
Proof. exact ilu_unsorted_refuted. Qed.
Print Assumptions C56_unsorted_refuted.
