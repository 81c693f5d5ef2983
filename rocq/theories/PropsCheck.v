(** * C68: the comparison of results *)
From Coq Require Import Floats.SpecFloat Permutation.
From Verif Require Import Base Interleave Spec Flat Csr CsrOps P2P P2PProg Exec Kernels Levels LevelsCsr Tasks TaskGraph TaskGraphCsr Sched Check CheckCases.
Open Scope Z_scope.

(** C68.  correctnessCheck on doubles: exactly when it returns true, when false, and
    when its assertion fails (nd: compiled with NDEBUG). *)
Theorem C68_check nd tol ign n E A : positive_tol tol -> ign <> S754_nan -> n <= Zlen E -> n <= Zlen A ->
  (vec_accepted tol ign n E A -> correctnessCheck nd E A n tol ign = Some true) /\
  (~ vec_accepted tol ign n E A -> correctnessCheck nd E A n tol ign = if nd then Some false else None) /\
  (correctnessCheck nd E A n tol ign = Some true -> vec_accepted tol ign n E A).
Proof. exact (check_spec nd tol ign n E A). Qed.
Print Assumptions C68_check.
(** Equal results are never rejected, whatever they contain. *)
Theorem C68_equal nd tol ign n E : positive_tol tol -> ign <> S754_nan -> n <= Zlen E -> correctnessCheck nd E E n tol ign = Some true.
Proof. exact (check_self nd tol ign n E). Qed.
Print Assumptions C68_equal.
(** The function of the test programs: the first vector is kept, the later ones are
    compared with it; without NDEBUG the program goes on only if all are accepted. *)
Theorem C68_test nd m y0 ys : 0 <= m -> m <= Zlen y0 -> Forall (fun y => m <= Zlen y) ys ->
  (Forall (vec_accepted f_1em8 (S754_zero false) m y0) ys -> test_checks nd m (y0 :: ys) None = Some (true :: map (fun _ => true) ys)) /\
  (forall bs, test_checks nd m (y0 :: ys) None = Some bs -> exists bs', bs = true :: bs' /\
     Forall2 (fun y b => b = true <-> vec_accepted f_1em8 (S754_zero false) m y0 y) ys bs' /\ (nd = false -> Forall (vec_accepted f_1em8 (S754_zero false) m y0) ys)) /\
  (nd = true -> exists bs, test_checks nd m (y0 :: ys) None = Some bs).
Proof. exact (test_checks_spec nd m y0 ys). Qed.
Print Assumptions C68_test.
Example C68_ex : test_checks true 4 [ck_e; ck_near; ck_nan; ck_one; ck_e] None = Some [true; true; true; false; true] /\ test_checks false 4 [ck_e; ck_near; ck_one] None = None /\
  test_checks true 4 [ck_nan; ck_one] None = Some [true; true] /\ ck_e <> ck_near.
Proof. exact ck_runs. Qed.

(** An accepted result need not be close: NaN is accepted, whatever is expected, ... *)
Theorem C68_nan_refuted nd tol ign n E A : positive_tol tol -> ign <> S754_nan -> n <= Zlen E -> n <= Zlen A -> (forall i, 0 <= i < n -> get A i = Some S754_nan) ->
  correctnessCheck nd E A n tol ign = Some true.
Proof. exact (check_nan nd tol ign n E A). Qed.
Print Assumptions C68_nan_refuted.
(** ... and anything is accepted where NaN or an infinity is expected. *)
Theorem C68_overflow_refuted nd tol ign n E A : positive_tol tol -> ign <> S754_nan -> n <= Zlen E -> n <= Zlen A -> (forall i, 0 <= i < n -> get E i = Some S754_nan \/ exists s, get E i = Some (S754_infinity s)) ->
  correctnessCheck nd E A n tol ign = Some true.
Proof. exact (check_overflow nd tol ign n E A). Qed.
Print Assumptions C68_overflow_refuted.
Example C68_nan_ex : exists e a, e = f_of_Z 1 /\ a = S754_nan /\ correctnessCheck false [e] [a] 1 f_1em8 (S754_zero false) = Some true /\ correctnessCheck false [e] [f_of_Z 2] 1 f_1em8 (S754_zero false) = None.
Proof. exact nan_accepted. Qed.
(** gs_test rejects correct results: a matrix of doubles for which, with any number of
    threads and any schedule, the forward sweep is that of the reference and the
    backward sweep (entries of a row in the opposite order) is rejected. *)
Theorem C68_gs_test_refuted : exists (rows : rows_t f64) idg y ref fin,
  forallb (valid_binary 53 1024) (values_of rows) = true /\ full_diag rows /\ Zlen idg = Zlen rows /\ (forall i v, In (i, v) (nthl rows i) -> get idg i = Some (fdiv (f_of_Z 1) v)) /\
  test_checks false (Zlen rows) [ref; fin] None = None /\ test_checks true (Zlen rows) [ref; fin] None = Some [true; false] /\
  forall base, base = 0 \/ base = 1 -> exists A dp, sched_matrix true base (Zlen rows) rows rows A dp /\
    ref_sweep fadd fsub fmul AddScaled true A base (values_of rows) idg (test_b (Zlen rows)) (test_x (Zlen rows)) = Some y /\
    ref_sweep fadd fsub fmul AddScaled false A base (values_of rows) idg y (test_x (Zlen rows)) = Some ref /\
    forall T agg tr cost w S o2t t2o, sched_args (Zlen rows) T cost w -> constructTaskGraph (graph_of A base dp) T false agg tr cost w = Some (S, o2t, t2o) ->
      p2p_computes (rexec fadd fsub fmul AddScaled A base (values_of rows) idg (test_b (Zlen rows))) None (rops true A) true S (get t2o) T (test_x (Zlen rows)) y /\
      p2p_computes (rexec fadd fsub fmul AddScaled A base (values_of rows) idg y) None (rops false A) false S (get t2o) T (test_x (Zlen rows)) fin.
Proof. exact gs_check_refuted. Qed.
Print Assumptions C68_gs_test_refuted.
