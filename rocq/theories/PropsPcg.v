(** * Properties: preconditioned conjugate gradients (test/pcg.cpp). *)
From Coq Require Import Ring_theory Field_theory QArith Qcanon.
From Verif Require Import Base Interleave Spec Flat Csr CsrTools CsrOps SpMV SplitLU P2P P2PProg Exec Kernels Ilu LevelsCsr Tasks TaskGraph TaskGraphCsr Sched SchedCases Solve IluExact SolveCases Pcg PcgTri PcgMain PcgExact PcgCases.
Open Scope Z_scope.

(** C57.  In any arithmetic, with any schedules and any uninitialised memory, the four
    solvers return after at most maxiter iterations and access nothing outside their
    arrays. *)
Theorem C57_symgs_safe : forall {V} (zero one : V) add sub mul div opp sqrt ltb is0 is1 ism1 rows A dg T q w tol x b maxiter j,
  rep true 0 (Zlen rows) rows A -> rows_ok (Zlen rows) rows -> extptr A = None -> diagptr_len A -> idiag A = Some dg -> Zlen dg = Zlen rows ->
  sl_junk_ok (Zlen rows) T (qw_junk q) -> pcg_args (Zlen rows) T w x b j -> 0 <= maxiter ->
  returns (Zlen rows) maxiter (pcg_symgs zero one add sub mul div opp sqrt ltb is0 is1 ism1 A T q w tol x b maxiter j).
Proof. intros V. exact symgs_safe. Qed.
Print Assumptions C57_symgs_safe.
Theorem C57_symgs_opt_safe : forall {V} (zero one : V) add sub mul div opp sqrt ltb is0 is1 ism1 rows A dp dg T agg cost w tr S o2t t2o nd q rq,
  sched_matrix true 0 (Zlen rows) rows rows A dp -> rows_ok (Zlen rows) rows -> extptr A = None -> diagptr_len A -> idiag A = Some dg -> Zlen dg = Zlen rows -> sched_args (Zlen rows) T cost w ->
  constructTaskGraph (graph_of A 0 dp) T false agg tr cost w = Some (S, o2t, t2o) -> sl_junk_ok (Zlen rows) T (qw_junk q) -> rw_ok (Zlen rows) T rq ->
  exists L U A' L' U', symgs_parts one mul A T q = Some (A, L, U) /\ reorder nd A L U o2t t2o T rq = Some (A', L', U') /\ (exists prec, prec_p2p add sub mul L' U' S T prec) /\
    forall prec tol pw x b maxiter j, prec_p2p add sub mul L' U' S T prec -> pcg_args (Zlen rows) T pw x b j -> 0 <= maxiter -> returns (Zlen rows) maxiter (solve_reordered zero one add sub mul div opp sqrt ltb is0 is1 ism1 A' o2t t2o T rq pw tol prec x b maxiter j).
Proof. intros V. exact symgs_opt_safe. Qed.
Print Assumptions C57_symgs_opt_safe.
Theorem C57_ilu0_safe : forall {V} (zero one : V) add sub mul div opp sqrt ltb is0 is1 ism1 base rows A dp,
  rep true base (Zlen rows) rows A -> base = 0 \/ base = 1 -> rows_ok (Zlen rows) rows -> sorted_rows rows -> full_diag rows ->
  forall T q w tol x b maxiter j, base = 0 -> diagptr A = Some dp -> diagptr_ok base rows dp -> qw_ok (Zlen rows) (off (nthl rows) (Zlen rows)) T q -> pcg_args (Zlen rows) T w x b j -> 0 <= maxiter ->
  returns (Zlen rows) maxiter (pcg_ilu0 zero one add sub mul div opp sqrt ltb is0 is1 ism1 A T q w tol x b maxiter j).
Proof. intros V. exact ilu0_safe. Qed.
Print Assumptions C57_ilu0_safe.
Theorem C57_ilu0_opt_safe : forall {V} (zero one : V) add sub mul div opp sqrt ltb is0 is1 ism1 base rows A dp,
  rep true base (Zlen rows) rows A -> base = 0 \/ base = 1 -> rows_ok (Zlen rows) rows -> sorted_rows rows -> full_diag rows ->
  sched_matrix true base (Zlen rows) rows rows A dp -> extptr A = None -> (forall d, idiag A = Some d -> Zlen d = Zlen rows) ->
  forall T agg cost w tr S o2t t2o, sched_args (Zlen rows) T cost w -> constructTaskGraph (graph_of A base dp) T false agg tr cost w = Some (S, o2t, t2o) ->
  forall nd q rq sch pw tol x b maxiter j, qw_ok (Zlen rows) (off (nthl rows) (Zlen rows)) T q -> rw_ok (Zlen rows) T rq -> pcg_args (Zlen rows) T pw x b j -> 0 <= maxiter ->
  exists fin L U A' L' U', ilu0_p2p sub mul div A dp S t2o T sch (qw_lu q) (Some fin) /\ (forall res, ilu0_p2p sub mul div A dp S t2o T sch (qw_lu q) res -> res = Some fin) /\
    ilu_parts one div A fin T q = Some (L, U) /\ reorder nd A L U o2t t2o T rq = Some (A', L', U') /\ (exists prec, prec_p2p add sub mul L' U' S T prec) /\
    forall prec, prec_p2p add sub mul L' U' S T prec -> returns (Zlen rows) maxiter (solve_reordered zero one add sub mul div opp sqrt ltb is0 is1 ism1 A' o2t t2o T rq pw tol prec x b maxiter j).
Proof. intros V. exact ilu0_opt_safe. Qed.
Print Assumptions C57_ilu0_opt_safe.

(** In exact arithmetic they compute what the textbook method computes with the
    matrix (L + D) D^-1 (D + U) respectively the ILU(0) factors as preconditioner. *)
Theorem C57_symgs : forall {V} (zero one : V) add mul sub opp, ring_theory zero one add mul sub opp (@eq V) -> forall div sqrt ltb is0 is1 ism1,
  (forall a, is0 a = true -> a = zero) -> (forall a, is1 a = true -> a = one) -> (forall a, ism1 a = true -> a = opp one) ->
  forall rows A dg id, rep true 0 (Zlen rows) rows A -> rows_ok (Zlen rows) rows -> extptr A = None -> diagptr_len A -> idiag A = Some dg -> Zlen dg = Zlen rows -> holds dg (Zlen rows) id ->
  (forall r, 0 <= r < Zlen rows -> mul (coefat zero add (nthl rows r) r) (id r) = one) ->
  forall T q, 1 <= T -> sl_junk_ok (Zlen rows) T (qw_junk q) -> (exists minv, inverts (Zlen rows) (symgs_matrix zero one add mul rows id) minv) /\
  forall minv, inverts (Zlen rows) (symgs_matrix zero one add mul rows id) minv -> forall w tol x b maxiter j, pcg_args (Zlen rows) T w x b j ->
    pcg_symgs zero one add sub mul div opp sqrt ltb is0 is1 ism1 A T q w tol x b maxiter j = Some (pcg_spec zero one add mul div opp sqrt ltb true rows minv tol x b maxiter).
Proof. intros V. exact symgs_exact. Qed.
Print Assumptions C57_symgs.
Theorem C57_symgs_opt : forall {V} (zero one : V) add mul sub opp, ring_theory zero one add mul sub opp (@eq V) -> forall div sqrt ltb is0 is1 ism1,
  (forall a, is0 a = true -> a = zero) -> (forall a, is1 a = true -> a = one) -> (forall a, ism1 a = true -> a = opp one) ->
  forall rows A dg id, rep true 0 (Zlen rows) rows A -> rows_ok (Zlen rows) rows -> extptr A = None -> diagptr_len A -> idiag A = Some dg -> Zlen dg = Zlen rows -> holds dg (Zlen rows) id ->
  (forall r, 0 <= r < Zlen rows -> mul (coefat zero add (nthl rows r) r) (id r) = one) ->
  forall dp T q agg cost w tr S o2t t2o nd rq, sched_matrix true 0 (Zlen rows) rows rows A dp -> sched_args (Zlen rows) T cost w -> constructTaskGraph (graph_of A 0 dp) T false agg tr cost w = Some (S, o2t, t2o) ->
  sl_junk_ok (Zlen rows) T (qw_junk q) -> rw_ok (Zlen rows) T rq ->
  (exists minv, inverts (Zlen rows) (symgs_matrix zero one add mul rows id) minv) /\ exists L U A' L' U', symgs_parts one mul A T q = Some (A, L, U) /\ reorder nd A L U o2t t2o T rq = Some (A', L', U') /\ (exists prec, prec_p2p add sub mul L' U' S T prec) /\
    forall prec minv, prec_p2p add sub mul L' U' S T prec -> inverts (Zlen rows) (symgs_matrix zero one add mul rows id) minv -> forall pw tol x b maxiter j, pcg_args (Zlen rows) T pw x b j ->
      solve_reordered zero one add sub mul div opp sqrt ltb is0 is1 ism1 A' o2t t2o T rq pw tol prec x b maxiter j = Some (pcg_spec zero one add mul div opp sqrt ltb true rows minv tol x b maxiter).
Proof. intros V. exact symgs_opt_exact. Qed.
Print Assumptions C57_symgs_opt.
Theorem C57_ilu0 : forall {V} (zero one : V) add mul sub opp div inv, field_theory zero one add mul sub opp div inv (@eq V) -> forall sqrt ltb is0 is1 ism1,
  (forall a, is0 a = true -> a = zero) -> (forall a, is1 a = true -> a = one) -> (forall a, ism1 a = true -> a = opp one) ->
  forall base rows A dp, rep true base (Zlen rows) rows A -> base = 0 \/ base = 1 -> rows_ok (Zlen rows) rows -> sorted_rows rows -> diagptr_ok base rows dp ->
  forall T q, base = 0 -> diagptr A = Some dp -> 1 <= T -> qw_ok (Zlen rows) (off (nthl rows) (Zlen rows)) T q -> exists lu, map (map fst) lu = map (map fst) rows /\
  (pivots_ok zero add lu -> factors zero one add mul rows lu /\ (forall lu', factors zero one add mul rows lu' -> lu' = lu) /\ (exists minv, inverts (Zlen rows) (ilu_matrix zero one add mul lu) minv) /\
    forall minv, inverts (Zlen rows) (ilu_matrix zero one add mul lu) minv -> forall w tol x b maxiter j, pcg_args (Zlen rows) T w x b j ->
      pcg_ilu0 zero one add sub mul div opp sqrt ltb is0 is1 ism1 A T q w tol x b maxiter j = Some (pcg_spec zero one add mul div opp sqrt ltb true rows minv tol x b maxiter)).
Proof. intros V. exact ilu0_exact. Qed.
Print Assumptions C57_ilu0.
Theorem C57_ilu0_opt : forall {V} (zero one : V) add mul sub opp div inv, field_theory zero one add mul sub opp div inv (@eq V) -> forall sqrt ltb is0 is1 ism1,
  (forall a, is0 a = true -> a = zero) -> (forall a, is1 a = true -> a = one) -> (forall a, ism1 a = true -> a = opp one) ->
  forall base rows A dp, rep true base (Zlen rows) rows A -> base = 0 \/ base = 1 -> rows_ok (Zlen rows) rows -> sorted_rows rows -> diagptr_ok base rows dp ->
  forall T q agg cost w tr S o2t t2o nd rq sch, sched_matrix true base (Zlen rows) rows rows A dp -> extptr A = None -> (forall d, idiag A = Some d -> Zlen d = Zlen rows) -> sched_args (Zlen rows) T cost w ->
  constructTaskGraph (graph_of A base dp) T false agg tr cost w = Some (S, o2t, t2o) -> qw_ok (Zlen rows) (off (nthl rows) (Zlen rows)) T q -> rw_ok (Zlen rows) T rq ->
  exists fin lu L U A' L' U', ilu0_p2p sub mul div A dp S t2o T sch (qw_lu q) (Some fin) /\ (forall res, ilu0_p2p sub mul div A dp S t2o T sch (qw_lu q) res -> res = Some fin) /\ ilu_parts one div A fin T q = Some (L, U) /\
    reorder nd A L U o2t t2o T rq = Some (A', L', U') /\ (exists prec, prec_p2p add sub mul L' U' S T prec) /\ map (map fst) lu = map (map fst) rows /\
    (pivots_ok zero add lu -> factors zero one add mul rows lu /\ (forall lu', factors zero one add mul rows lu' -> lu' = lu) /\ (exists minv, inverts (Zlen rows) (ilu_matrix zero one add mul lu) minv) /\
      forall prec minv, prec_p2p add sub mul L' U' S T prec -> inverts (Zlen rows) (ilu_matrix zero one add mul lu) minv -> forall pw tol x b maxiter j, pcg_args (Zlen rows) T pw x b j ->
        solve_reordered zero one add sub mul div opp sqrt ltb is0 is1 ism1 A' o2t t2o T rq pw tol prec x b maxiter j = Some (pcg_spec zero one add mul div opp sqrt ltb true rows minv tol x b maxiter)).
Proof. intros V. exact ilu0_opt_exact. Qed.
Print Assumptions C57_ilu0_opt.

(** What is printed: the number of the iteration, and |b - A x| / |b - A x0| for the x
    returned. *)
Theorem C57_report : forall {V} (zero one : V) add mul sub opp, ring_theory zero one add mul sub opp (@eq V) -> forall div sqrt ltb is0 is1 ism1,
  (forall a, is0 a = true -> a = zero) -> (forall a, is1 a = true -> a = one) -> (forall a, ism1 a = true -> a = opp one) ->
  forall rows minv tol, rows_ok (Zlen rows) rows -> (forall r, Zlen r = Zlen rows -> Zlen (minv r) = Zlen rows) ->
  forall x b maxiter, Zlen x = Zlen rows -> Zlen b = Zlen rows -> 0 <= maxiter ->
  exists x' k e, pcg_spec zero one add mul div opp sqrt ltb true rows minv tol x b maxiter = (x', k, e) /\ reports zero one add mul opp div sqrt ltb rows tol b x x' maxiter k e.
Proof. intros V. exact spec_reports. Qed.
Print Assumptions C57_report.

(** A 2 x 2 system solved exactly; six rows for the scheduled versions. *)
Example C57_case : rep true 0 2 two_rows two_A /\ rows_ok 2 two_rows /\ extptr two_A = None /\ diagptr_len two_A /\ idiag two_A = Some two_dg /\ holds two_dg 2 (at_ q0 two_dg) /\
  (forall r, 0 <= r < 2 -> Qcmult (coefat q0 Qcplus (nthl two_rows r) r) (at_ q0 two_dg r) = q1) /\ sl_junk_ok 2 2 (qw_junk (some_qw (qz 9) 2 4 2)) /\ pcg_args 2 2 (some_pw 2) [qz 2; qz 1] [qz 1; qz 2] (some_pj (qz 9) 2) /\
  sched_matrix true 0 2 two_rows two_rows two_A (dp_of 0 two_rows) /\ sorted_rows two_rows /\ diagptr_ok 0 two_rows (dp_of 0 two_rows) /\
  option_map (fun r => (map this (fst (fst r)), snd (fst r), this (snd r))) (on_Qc (@pcg_symgs) two_A 2 (some_qw (qz 9) 2 4 2) (some_pw 2) (Q2Qc (1 # 1000000)) [qz 2; qz 1] [qz 1; qz 2] 10 (some_pj (qz 9) 2)) = Some ([1 # 11; 7 # 11]%Q, 2, 0%Q) /\
  option_map (fun r => (map this (fst (fst r)), snd (fst r), this (snd r))) (on_Qc (@pcg_ilu0) two_A 2 (some_qw (qz 9) 2 4 2) (some_pw 2) (Q2Qc (1 # 1000000)) [qz 2; qz 1] [qz 1; qz 2] 10 (some_pj (qz 9) 2)) = Some ([1 # 11; 7 # 11]%Q, 1, 0%Q).
Proof. exact two_case. Qed.
Example C57_opt_case : sched_matrix true 0 6 tri_q tri_q tri_qD (dp_of 0 tri_q) /\ rows_ok 6 tri_q /\ sorted_rows tri_q /\ extptr tri_qD = None /\ diagptr_len tri_qD /\ idiag tri_qD = Some tri_dg /\ holds tri_dg 6 (at_ q0 tri_dg) /\
  (forall r, 0 <= r < 6 -> Qcmult (coefat q0 Qcplus (nthl tri_q r) r) (at_ q0 tri_dg r) = q1) /\ sched_args 6 2 (fun _ => 1) tri_world /\
  constructTaskGraph (graph_of tri_qD 0 (dp_of 0 tri_q)) 2 false false true (fun _ => 1) tri_world <> None /\ qw_ok 6 30 2 (some_qw (qz 9) 6 30 2) /\ off (nthl tri_q) 6 = 30 /\ rw_ok 6 2 (some_rw (qz 9) 6 2) /\ pcg_args 6 2 (some_pw 6) tri_dg tri_dg (some_pj (qz 9) 6) /\
  pivots_ok q0 Qcplus (tri_lu tri_fin).
Proof. exact tri_opt_case. Qed.

(** Indices from 1: the loop that scales U writes behind its values. *)
Theorem C57_symgs_base1_refuted : exists (rows : rows_t Qc) A dg T q w tol x b maxiter j, rep true 1 (Zlen rows) rows A /\ rows_ok (Zlen rows) rows /\ extptr A = None /\ diagptr_len A /\ idiag A = Some dg /\ Zlen dg = Zlen rows /\
  sl_junk_ok (Zlen rows) T (qw_junk q) /\ pcg_args (Zlen rows) T w x b j /\ 0 <= maxiter /\
  splitLU A T (qw_split q) (qw_junk q) (qw_base q 0%nat) (qw_base q 1%nat) (qw_base q 2%nat) (qw_base q 3%nat) <> None /\ symgs_parts q1 Qcmult A T q = None /\ on_Qc (@pcg_symgs) A T q w tol x b maxiter j = None.
Proof. exact symgs_base1_refuted. Qed.
Print Assumptions C57_symgs_base1_refuted.
(** A start at the solution: it is overwritten with 0/0. *)
Theorem C57_exact_start_refuted : exists (rows : rows_t num) A dg T q w tol x b maxiter j x' k e, rep true 0 (Zlen rows) rows A /\ rows_ok (Zlen rows) rows /\ extptr A = None /\ diagptr_len A /\ idiag A = Some dg /\ Zlen dg = Zlen rows /\
  (forall r, 0 <= r < Zlen rows -> lift2 Qcmult (coefat (Some q0) (lift2 Qcplus) (nthl rows r) r) (at_ (Some q0) dg r) = Some q1) /\ sl_junk_ok (Zlen rows) T (qw_junk q) /\ pcg_args (Zlen rows) T w x b j /\
  vmul (Some q0) (Some q1) (lift2 Qcplus) (lift2 Qcmult) true rows x = b /\
  on_num (@pcg_symgs) A T q w tol x b maxiter j = Some (x', k, e) /\ (forall v, In v x -> v <> None) /\ (forall v, In v x' -> v = None) /\ x' <> [] /\ k = maxiter + 1.
Proof. exact exact_start_refuted. Qed.
Print Assumptions C57_exact_start_refuted.
