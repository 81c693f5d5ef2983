(** * Worked cases for the comparison of results; a matrix on which gs_test fails. *)
From Coq Require Import Floats.SpecFloat Permutation.
From Verif Require Import Base Interleave Spec PermUtils Flat Csr CsrTools CsrOps SpMV P2P P2PProg Exec Kernels Ilu Levels LevelsFacts LevelsMain Tasks LevelsCsr TaskGraph TaskGraphCsr Sched SchedCases Check.
Open Scope Z_scope.

(** 1, 0, infinity, 2 with a last element 1e-9 away; NaN for the first; 1 instead of 0. *)
Definition ck_e : list f64 := [f_of_Z 1; S754_zero true; S754_infinity false; f_of_Z 2].
Definition ck_near : list f64 := [f_of_Z 1; S754_zero false; f_of_Z 7; fadd (f_of_Z 2) (fdiv (f_of_Z 1) (f_of_Z 1000000000))].
Definition ck_nan : list f64 := [S754_nan; S754_nan; S754_nan; S754_nan].
Definition ck_one : list f64 := [f_of_Z 1; f_of_Z 1; S754_infinity false; f_of_Z 2].
Lemma ck_runs : test_checks true 4 [ck_e; ck_near; ck_nan; ck_one; ck_e] None = Some [true; true; true; false; true] /\ test_checks false 4 [ck_e; ck_near; ck_one] None = None /\
  test_checks true 4 [ck_nan; ck_one] None = Some [true; true] /\ ck_e <> ck_near.
Proof. split; [vm_compute; reflexivity|]. split; [vm_compute; reflexivity|]. split; [vm_compute; reflexivity|]. vm_compute. discriminate. Qed.
Lemma nan_accepted : exists e a, e = f_of_Z 1 /\ a = S754_nan /\ correctnessCheck false [e] [a] 1 f_1em8 (S754_zero false) = Some true /\ correctnessCheck false [e] [f_of_Z 2] 1 f_1em8 (S754_zero false) = None.
Proof. exists (f_of_Z 1), S754_nan. repeat split; vm_compute; reflexivity. Qed.

(** Three rows: 1, 2^60, -2^61 in the first, and the diagonal 1, 2 with zeros stored for the others. *)
Definition big_rows : rows_t f64 := [[(0, f_of_Z 1); (1, f_of_Z (2 ^ 60)); (2, f_of_Z (- 2 ^ 61))]; [(0, f_of_Z 0); (1, f_of_Z 1)]; [(0, f_of_Z 0); (2, f_of_Z 2)]].
Definition big_A (base : Z) : csr f64 := csr_of base 3 big_rows.
Definition big_dp (base : Z) : list Z := dp_of base big_rows.
Definition big_idiag : list f64 := map (fdiv (f_of_Z 1)) [f_of_Z 1; f_of_Z 1; f_of_Z 2].
(** gs_test.cpp:616-617 and test.hpp:76-79: b[i] = i, x[i] = n - i. *)
Definition test_b (n : Z) : list f64 := map f_of_Z (zrange 0 n).
Definition test_x (n : Z) : list f64 := map (fun i => f_of_Z (n - i)) (zrange 0 n).
Definition big_y : list f64 := [f_of_Z 3; f_of_Z 1; f_of_Z 1].
Definition big_ref : list f64 := [f_of_Z 3; f_of_Z 1; fdiv (f_of_Z 1) (f_of_Z 2)].
Definition big_fin : list f64 := [f_of_Z 0; f_of_Z 1; fdiv (f_of_Z 1) (f_of_Z 2)].
Lemma big_ok : rows_ok 3 big_rows.
Proof. intros r c v [<-|[<-|[<-|[]]]] H; repeat (destruct H as [H|H]; [injection H as <- _; lia|]); destruct H. Qed.
Lemma big_sched base : sched_matrix true base 3 big_rows big_rows (big_A base) (big_dp base).
Proof. apply csr_of_sched; [vm_compute; reflexivity|exact big_ok]. Qed.
Lemma big_forward base : base = 0 \/ base = 1 -> ref_sweep fadd fsub fmul AddScaled true (big_A base) base (values_of big_rows) big_idiag (test_b 3) (test_x 3) = Some big_y.
Proof. intros [-> | ->]; vm_compute; reflexivity. Qed.
Lemma big_backward base : base = 0 \/ base = 1 -> ref_sweep fadd fsub fmul AddScaled false (big_A base) base (values_of big_rows) big_idiag big_y (test_x 3) = Some big_ref.
Proof. intros [-> | ->]; vm_compute; reflexivity. Qed.
Lemma big_updates : updates fadd fsub fmul AddScaled false big_rows big_idiag big_y (rev (zrange 0 3)) (test_x 3) = Some big_fin.
Proof. vm_compute. reflexivity. Qed.
Lemma big_rejected : test_checks false 3 [big_ref; big_fin] None = None /\ test_checks true 3 [big_ref; big_fin] None = Some [true; false].
Proof. split; vm_compute; reflexivity. Qed.
Lemma big_valid : forallb (valid_binary 53 1024) (values_of big_rows ++ big_idiag ++ test_b 3 ++ test_x 3 ++ big_y ++ big_ref ++ big_fin) = true.
Proof. vm_compute. reflexivity. Qed.
(** Whatever the number of threads and the schedule: the forward sweep gives the
    reference result, the backward sweep another one, and the comparison rejects it. *)
Theorem gs_check_refuted : exists (rows : rows_t f64) idg y ref fin,
  forallb (valid_binary 53 1024) (values_of rows) = true /\ full_diag rows /\ Zlen idg = Zlen rows /\ (forall i v, In (i, v) (nthl rows i) -> get idg i = Some (fdiv (f_of_Z 1) v)) /\
  test_checks false (Zlen rows) [ref; fin] None = None /\ test_checks true (Zlen rows) [ref; fin] None = Some [true; false] /\
  forall base, base = 0 \/ base = 1 -> exists A dp, sched_matrix true base (Zlen rows) rows rows A dp /\
    ref_sweep fadd fsub fmul AddScaled true A base (values_of rows) idg (test_b (Zlen rows)) (test_x (Zlen rows)) = Some y /\
    ref_sweep fadd fsub fmul AddScaled false A base (values_of rows) idg y (test_x (Zlen rows)) = Some ref /\
    forall T agg tr cost w S o2t t2o, sched_args (Zlen rows) T cost w -> constructTaskGraph (graph_of A base dp) T false agg tr cost w = Some (S, o2t, t2o) ->
      p2p_computes (rexec fadd fsub fmul AddScaled A base (values_of rows) idg (test_b (Zlen rows))) None (rops true A) true S (get t2o) T (test_x (Zlen rows)) y /\
      p2p_computes (rexec fadd fsub fmul AddScaled A base (values_of rows) idg y) None (rops false A) false S (get t2o) T (test_x (Zlen rows)) fin.
Proof.
  exists big_rows, big_idiag, big_y, big_ref, big_fin. change (Zlen big_rows) with 3.
  split; [vm_compute; reflexivity|]. split. { intros i Hi. change (Zlen big_rows) with 3 in Hi. assert (i = 0 \/ i = 1 \/ i = 2) as [-> | [-> | ->]] by lia; [exists (f_of_Z 1); left|exists (f_of_Z 1); right; left|exists (f_of_Z 2); right; left]; reflexivity. }
  split; [reflexivity|]. split. { intros i v H. destruct (Z_lt_dec i 0) as [L|L]; [unfold nthl in H; rewrite get_out in H by (left; lia); destruct H|]. destruct (Z_lt_dec i 3) as [L'|L']; [|unfold nthl in H; rewrite get_out in H by (right; change (Zlen big_rows) with 3; lia); destruct H].
    assert (i = 0 \/ i = 1 \/ i = 2) as [-> | [-> | ->]] by lia; vm_compute in H; repeat (destruct H as [H|H]; [try discriminate H; injection H as <-; vm_compute; reflexivity|]); destruct H. }
  split; [apply big_rejected|]. split; [apply big_rejected|].
  intros base Hb. exists (big_A base), (big_dp base). split; [apply big_sched|]. split; [now apply big_forward|]. split; [now apply big_backward|].
  intros T agg tr cost w S o2t t2o Hs Hc. split.
  - destruct (gs_p2p base 3 big_rows big_rows (big_A base) (big_dp base) (big_sched base) big_ok ltac:(vm_compute; discriminate) T agg cost fadd fsub fmul big_idiag (test_b 3) (test_x 3) w tr S o2t t2o true ltac:(vm_compute; discriminate) ltac:(vm_compute; discriminate) ltac:(vm_compute; discriminate) Hs Hc) as (fin & F1 & F2).
    rewrite (big_forward base Hb) in F1. injection F1 as <-. exact F2.
  - destruct (gs_backward base 3 big_rows big_rows (big_A base) (big_dp base) (big_sched base) big_ok ltac:(vm_compute; discriminate) T agg cost fadd fsub fmul big_idiag big_y (test_x 3) w tr S o2t t2o ltac:(vm_compute; discriminate) ltac:(vm_compute; discriminate) ltac:(vm_compute; discriminate) Hs Hc) as (fin & F1 & F2).
    change (Zlen big_rows) with 3 in F1. rewrite big_updates in F1. injection F1 as <-. exact F2.
Qed.
