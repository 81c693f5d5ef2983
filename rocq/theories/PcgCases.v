(** * The solvers of test/pcg.cpp: the reordered symmetric Gauss-Seidel solver in any
    arithmetic; cases; what fails. *)
From Coq Require Import Ring_theory Field_theory QArith Qcanon Permutation.
From Verif Require Import Base Interleave Spec PermUtils Flat Csr Transpose CsrTools CsrOps RowPar Fill SpMV SplitLU Permute PermuteMain PermuteFacts P2P P2PProg Exec Kernels Ilu Levels LevelsFacts LevelsMain LevelsCsr Tasks TaskGraph TaskGraphFacts TaskGraphLists TaskGraphMain TaskGraphOrder TaskGraphCsr Sched SchedCases SchedPerm Solve IluExact SolveCases Pcg PcgTri PcgMain PcgExact.
Open Scope Z_scope.

Theorem symgs_opt_safe {V} (zero one : V) add sub mul div opp sqrt ltb is0 is1 ism1 rows A dp dg T agg cost w tr S o2t t2o nd q rq :
  sched_matrix true 0 (Zlen rows) rows rows A dp -> rows_ok (Zlen rows) rows -> extptr A = None -> diagptr_len A -> idiag A = Some dg -> Zlen dg = Zlen rows -> sched_args (Zlen rows) T cost w ->
  constructTaskGraph (graph_of A 0 dp) T false agg tr cost w = Some (S, o2t, t2o) -> sl_junk_ok (Zlen rows) T (qw_junk q) -> rw_ok (Zlen rows) T rq ->
  exists L U A' L' U', symgs_parts one mul A T q = Some (A, L, U) /\ reorder nd A L U o2t t2o T rq = Some (A', L', U') /\ (exists prec, prec_p2p add sub mul L' U' S T prec) /\
    forall prec tol pw x b maxiter j, prec_p2p add sub mul L' U' S T prec -> pcg_args (Zlen rows) T pw x b j -> 0 <= maxiter -> returns (Zlen rows) maxiter (solve_reordered zero one add sub mul div opp sqrt ltb is0 is1 ism1 A' o2t t2o T rq pw tol prec x b maxiter j).
Proof.
  intros HM Hok HX HD Ed Ld HA HE HJ HQ. pose proof (sa_T _ _ _ _ HA) as HT.
  destruct (symgs_parts_ok 0 rows A T q (sm_rep _ _ _ _ _ _ _ HM) (or_introl eq_refl) HX HT HJ one mul dg (at_ zero dg) eq_refl HD Ed Ld) as (L & U & ones & E & RL & IL & RU & IU & LI & _ & X1 & X2 & D1 & D2); [apply holds_at; lia|].
  set (ur := scaled_rows mul (at_ zero dg) (select upper rows)) in *. exists L, U.
  assert (K : forall tol pw x b maxiter j, pcg_args (Zlen rows) T pw x b j -> 0 <= maxiter -> exists A' L' U', reorder nd A L U o2t t2o T rq = Some (A', L', U') /\ (exists prec, prec_p2p add sub mul L' U' S T prec) /\
    forall prec, prec_p2p add sub mul L' U' S T prec -> returns (Zlen rows) maxiter (solve_reordered zero one add sub mul div opp sqrt ltb is0 is1 ism1 A' o2t t2o T rq pw tol prec x b maxiter j)).
  { intros tol pw x b maxiter j HP Hmx. apply (re_safe zero one add sub mul div opp sqrt ltb is0 is1 ism1 0 rows A dp HM (or_introl eq_refl) Hok HX ltac:(intros d E'; congruence) T agg cost w tr S o2t t2o HA HE nd (select lower rows) ur L U dg ones rq); auto; unfold ur; auto using rows_ok_select, rows_ok_scaled, sub_select, sub_scaled. }
  set (j0 := map (fun _ => zero) (zrange 0 (Zlen rows))). assert (Lj : Zlen j0 = Zlen rows) by apply Zlen_mapz.
  destruct (K zero (mkPw (fun _ _ _ => []) (fun _ _ => Leaf (zrange 0 (Zlen rows)))) j0 j0 0 (mkPj j0 j0 j0 j0 j0)) as (A' & L' & U' & ER & EP & _); [constructor; cbn; auto; [intros it site; apply Permutation_refl|repeat split; auto]|lia|].
  exists A', L', U'. split; auto. split; auto. split; auto. intros prec tol pw x b maxiter j HP HPA Hmx. destruct (K tol pw x b maxiter j HPA Hmx) as (A2 & L2 & U2 & ER2 & _ & R). rewrite ER in ER2. injection ER2 as <- <- <-. auto.
Qed.

(** ** Cases.  The square root is not rational: any function will do. *)
Definition with_diag {V} (A : csr V) (dp : list Z) (dg : list V) : csr V := mkCSR (cm A) (cn A) (rowptr A) (colidx A) (values A) (Some dg) (diag A) (Some dp) (extptr A).
Definition some_qw {V} (v : V) (m nnz T : Z) : @qworld V :=
  let f {X} (x : X) n := map (fun _ => x) (zrange 0 n) in
  mkqworld (fun k => repeat 1%nat k) (mkSlJunk (f 77 (m + 1)) (f 77 (m + 1)) (f 77 m) (f 77 (T + 1)) (f 77 (T + 1)) (f v m) (f v m) (f 77) (f 77) (f v) (f v)) (fun k i => repeat i k) [1%nat] (f v nnz) (fun _ => [1%nat]) (f 77 m) (f v m).
Definition some_rw {V} (v : V) (m T : Z) : @rworld V :=
  let f {X} (x : X) n := map (fun _ => x) (zrange 0 n) in
  mkrworld (fun _ k => repeat 1%nat k) (fun M => let N := match get (rowptr M) (cm M) with Some N => N | None => 0 end in mkJunk (f 77 (cm M + 1)) (f 77 (cm M)) (f 77 N) (f v N) (f v (cm M)) (f 77 (cm M)) (f 77 (T + 1))) (f v m) (f v m) (fun _ => rev (zrange 0 m)).
Definition some_pw (m : Z) : pworld := mkPw (fun _ _ _ => [1%nat]) (fun _ _ => Node (Leaf (zrange 1 m)) (Leaf [0])).
Definition some_pj {V} (v : V) (m : Z) : @pjunk V := let f := map (fun _ => v) (zrange 0 m) in mkPj f f f f f.
Lemma some_qw_ok {V} (v : V) m nnz T : 0 <= m -> 0 <= nnz -> 1 <= T -> qw_ok m nnz T (some_qw v m nnz T).
Proof. intros. unfold qw_ok, some_qw, sl_junk_ok. cbn [qw_junk qw_lu qw_dptr qw_idiag sj_rpl sj_rpu sj_ext sj_ps0 sj_ps1 sj_idl sj_idu sj_cil sj_ciu sj_vsl sj_vsu]. repeat split; rewrite Zlen_map, Zlen_zrange; lia. Qed.
Lemma some_rw_ok {V} (v : V) m T : 0 <= m -> 1 <= T -> rw_ok m T (some_rw v m T).
Proof.
  intros. unfold rw_ok, some_rw. cbn [rw_junk rw_b rw_x rw_ord]. split; [|split; [|split]].
  - intros M N G HN Hc. exists N. rewrite G. cbn [j_rp j_ext j_ci j_vs j_idg j_dp j_ws]. repeat split; intros; rewrite Zlen_map, Zlen_zrange; lia.
  - rewrite Zlen_map, Zlen_zrange; lia. - rewrite Zlen_map, Zlen_zrange; lia.
  - intros _. apply Permutation_sym, Permutation_rev.
Qed.
Lemma some_args {V} (v : V) m T x b : 1 <= T -> 1 <= m -> Zlen x = m -> Zlen b = m -> pcg_args m T (some_pw m) x b (some_pj v m).
Proof.
  intros HT Hm Hx Hb. constructor; auto.
  - intros it site. unfold splits, some_pw. cbn [pw_dot leaves]. rewrite (zrange_cons 0 m) by lia. apply Permutation_sym, Permutation_cons_append.
  - unfold pj_ok, some_pj. cbn [pj_r pj_z pj_y pj_p pj_Ap]. assert (L : Zlen (map (fun _ => v) (zrange 0 m)) = m) by (rewrite Zlen_map, Zlen_zrange; lia). auto.
Qed.
Definition Qc_ltb (a b : Qc) : bool := negb (Qle_bool b a).
Definition Qc_is (c a : Qc) : bool := if Qc_eq_dec a c then true else false.
Lemma Qc_is_ok c a : Qc_is c a = true -> a = c.
Proof. unfold Qc_is. destruct (Qc_eq_dec a c); auto; discriminate. Qed.
Notation q0 := (qz 0).
Notation q1 := (qz 1).
Notation on_Qc f := (f Qc q0 q1 Qcplus Qcminus Qcmult Qcdiv Qcopp (fun a => a) Qc_ltb (Qc_is q0) (Qc_is q1) (Qc_is (Qcopp q1))).

(** A 2 x 2 system: the method ends with the solution after two iterations. *)
Definition two_rows : rows_t Qc := [[(0, qz 4); (1, qz 1)]; [(0, qz 1); (1, qz 3)]].
Definition two_dg : list Qc := [Qcinv (qz 4); Qcinv (qz 3)].
Definition two_A : csr Qc := with_diag (csr_of 0 2 two_rows) (dp_of 0 two_rows) two_dg.
Lemma two_case : rep true 0 2 two_rows two_A /\ rows_ok 2 two_rows /\ extptr two_A = None /\ diagptr_len two_A /\ idiag two_A = Some two_dg /\ holds two_dg 2 (at_ q0 two_dg) /\
  (forall r, 0 <= r < 2 -> Qcmult (coefat q0 Qcplus (nthl two_rows r) r) (at_ q0 two_dg r) = q1) /\ sl_junk_ok 2 2 (qw_junk (some_qw (qz 9) 2 4 2)) /\ pcg_args 2 2 (some_pw 2) [qz 2; qz 1] [qz 1; qz 2] (some_pj (qz 9) 2) /\
  sched_matrix true 0 2 two_rows two_rows two_A (dp_of 0 two_rows) /\ sorted_rows two_rows /\ diagptr_ok 0 two_rows (dp_of 0 two_rows) /\
  option_map (fun r => (map this (fst (fst r)), snd (fst r), this (snd r))) (on_Qc (@pcg_symgs) two_A 2 (some_qw (qz 9) 2 4 2) (some_pw 2) (Q2Qc (1 # 1000000)) [qz 2; qz 1] [qz 1; qz 2] 10 (some_pj (qz 9) 2)) = Some ([1 # 11; 7 # 11]%Q, 2, 0%Q) /\
  option_map (fun r => (map this (fst (fst r)), snd (fst r), this (snd r))) (on_Qc (@pcg_ilu0) two_A 2 (some_qw (qz 9) 2 4 2) (some_pw 2) (Q2Qc (1 # 1000000)) [qz 2; qz 1] [qz 1; qz 2] 10 (some_pj (qz 9) 2)) = Some ([1 # 11; 7 # 11]%Q, 1, 0%Q).
Proof.
  assert (R : rep true 0 2 two_rows two_A) by (repeat split; reflexivity). assert (Ok : rows_ok 2 two_rows) by (intros r c v [<-|[<-|[]]] [E|[E|[]]]; injection E as <- _; lia).
  assert (Sy : sym_pattern two_rows) by (apply sym_check_ok; vm_compute; reflexivity).
  assert (Sm : sched_matrix true 0 2 two_rows two_rows two_A (dp_of 0 two_rows)). { constructor; auto using halo_none, dp_of_ok. split; reflexivity. }
  split; auto. split; auto. split; [reflexivity|]. split. { intros d E. injection E as <-. reflexivity. } split; [reflexivity|]. split; [apply holds_at; vm_compute; discriminate|].
  split. { intros r Hr. apply Qc_is_canon. assert (r = 0 \/ r = 1) as [-> | ->] by lia; vm_compute; reflexivity. }
  split. { apply some_qw_ok; lia. } split. { apply some_args; try reflexivity; lia. } split; auto.
  split. { intros r Hr. change (Zlen two_rows) with 2 in Hr. assert (r = 0 \/ r = 1) as [-> | ->] by lia; repeat constructor; lia. }
  split. { apply (diagptr_of 0 2 two_rows two_rows two_A (dp_of 0 two_rows) Sm Ok Qcminus Qcmult Qcdiv (fun _ => 1)). }
  split; vm_compute; reflexivity.
Qed.
(** Six rows, two threads, a schedule with reduced dependences. *)
Definition tri_dg : list Qc := map (fun _ => Qcinv (qz 9)) (zrange 0 6).
Definition tri_qD : csr Qc := with_diag (tri_qA 0) (dp_of 0 tri_q) tri_dg.
Lemma tri_opt_case : sched_matrix true 0 6 tri_q tri_q tri_qD (dp_of 0 tri_q) /\ rows_ok 6 tri_q /\ sorted_rows tri_q /\ extptr tri_qD = None /\ diagptr_len tri_qD /\ idiag tri_qD = Some tri_dg /\ holds tri_dg 6 (at_ q0 tri_dg) /\
  (forall r, 0 <= r < 6 -> Qcmult (coefat q0 Qcplus (nthl tri_q r) r) (at_ q0 tri_dg r) = q1) /\ sched_args 6 2 (fun _ => 1) tri_world /\
  constructTaskGraph (graph_of tri_qD 0 (dp_of 0 tri_q)) 2 false false true (fun _ => 1) tri_world <> None /\ qw_ok 6 30 2 (some_qw (qz 9) 6 30 2) /\ off (nthl tri_q) 6 = 30 /\ rw_ok 6 2 (some_rw (qz 9) 6 2) /\ pcg_args 6 2 (some_pw 6) tri_dg tri_dg (some_pj (qz 9) 6) /\
  pivots_ok q0 Qcplus (tri_lu tri_fin).
Proof.
  assert (Sm : sched_matrix true 0 6 tri_q tri_q tri_qD (dp_of 0 tri_q)). { destruct (tri_q_sched 0) as [A1 A2 A3 A4 A5]. constructor; auto. }
  split; auto. split; [exact tri_q_ok|]. split; [exact tri_q_sorted|]. split; [reflexivity|]. split. { intros d E. injection E as <-. reflexivity. } split; [reflexivity|]. split; [apply holds_at; vm_compute; discriminate|].
  split. { intros r Hr. apply Qc_is_canon. assert (r = 0 \/ r = 1 \/ r = 2 \/ r = 3 \/ r = 4 \/ r = 5) as [-> | [-> | [-> | [-> | [-> | ->]]]]] by lia; vm_compute; reflexivity. }
  split; [exact tri_args|]. split; [exact tri_run_q_some|]. split; [apply some_qw_ok; lia|]. split; [reflexivity|]. split; [apply some_rw_ok; lia|]. split; [apply some_args; try reflexivity; lia|]. apply tri_factors.
Qed.

(** ** A matrix with indices from 1.  The loops that scale U (pcg.cpp:317-323,
    395-401) use rowptr as it is: the last iteration writes behind the values. *)
Theorem symgs_base1_refuted : exists (rows : rows_t Qc) A dg T q w tol x b maxiter j, rep true 1 (Zlen rows) rows A /\ rows_ok (Zlen rows) rows /\ extptr A = None /\ diagptr_len A /\ idiag A = Some dg /\ Zlen dg = Zlen rows /\
  sl_junk_ok (Zlen rows) T (qw_junk q) /\ pcg_args (Zlen rows) T w x b j /\ 0 <= maxiter /\
  splitLU A T (qw_split q) (qw_junk q) (qw_base q 0%nat) (qw_base q 1%nat) (qw_base q 2%nat) (qw_base q 3%nat) <> None /\ symgs_parts q1 Qcmult A T q = None /\ on_Qc (@pcg_symgs) A T q w tol x b maxiter j = None.
Proof.
  exists two_rows, (with_diag (csr_of 1 2 two_rows) (dp_of 1 two_rows) two_dg), two_dg, 2, (some_qw (qz 9) 2 4 2), (some_pw 2), (Q2Qc (1 # 10)), [qz 2; qz 1], [qz 1; qz 2], 10, (some_pj (qz 9) 2).
  split; [repeat split; reflexivity|]. split; [intros r c v [<-|[<-|[]]] [E|[E|[]]]; injection E as <- _; cbn; lia|]. split; [reflexivity|]. split. { intros d E. injection E as <-. reflexivity. } split; [reflexivity|]. split; [reflexivity|].
  split. { apply (some_qw_ok (qz 9) 2 4 2); lia. } split. { apply some_args; try reflexivity; lia. } split; [lia|].
  split. { match goal with |- ?o <> None => destruct o eqn:E; [discriminate|] end. vm_compute in E. discriminate. }
  split; vm_compute; reflexivity.
Qed.

(** ** A start at the solution.  Numbers with a value for 0/0: the first iteration
    divides 0 by 0 and overwrites the solution. *)
Definition num := option Qc.
Definition lift2 (f : Qc -> Qc -> Qc) (a b : num) : num := match a, b with Some a, Some b => Some (f a b) | _, _ => None end.
Definition num_div (a b : num) : num := match a, b with Some a, Some b => if Qc_eq_dec b q0 then None else Some (Qcdiv a b) | _, _ => None end.
Definition num_ltb (a b : num) : bool := match a, b with Some a, Some b => Qc_ltb a b | _, _ => false end.
Definition num_is (c : Qc) (a : num) : bool := match a with Some a => Qc_is c a | None => false end.
Notation on_num f := (f num (Some q0) (Some q1) (lift2 Qcplus) (lift2 Qcminus) (lift2 Qcmult) num_div (option_map Qcopp) (fun a => a) num_ltb (num_is q0) (num_is q1) (num_is (Qcopp q1))).
Definition num_rows : rows_t num := map (map (fun e => (fst e, Some (snd e)))) two_rows.
Lemma num_eq (a b : num) : option_map this a = option_map this b -> a = b.
Proof. destruct a, b; cbn; intros E; try discriminate; auto. injection E as E. f_equal. apply Qc_is_canon. now rewrite E. Qed.
Lemma nums_eq (a b : list num) : map (option_map this) a = map (option_map this) b -> a = b.
Proof. revert b. induction a as [|x a IH]; intros [|y b] E; cbn in E; try discriminate; auto. injection E as E1 E2. f_equal; auto using num_eq. Qed.
Theorem exact_start_refuted : exists (rows : rows_t num) A dg T q w tol x b maxiter j x' k e, rep true 0 (Zlen rows) rows A /\ rows_ok (Zlen rows) rows /\ extptr A = None /\ diagptr_len A /\ idiag A = Some dg /\ Zlen dg = Zlen rows /\
  (forall r, 0 <= r < Zlen rows -> lift2 Qcmult (coefat (Some q0) (lift2 Qcplus) (nthl rows r) r) (at_ (Some q0) dg r) = Some q1) /\ sl_junk_ok (Zlen rows) T (qw_junk q) /\ pcg_args (Zlen rows) T w x b j /\
  vmul (Some q0) (Some q1) (lift2 Qcplus) (lift2 Qcmult) true rows x = b /\
  on_num (@pcg_symgs) A T q w tol x b maxiter j = Some (x', k, e) /\ (forall v, In v x -> v <> None) /\ (forall v, In v x' -> v = None) /\ x' <> [] /\ k = maxiter + 1.
Proof.
  exists num_rows, (with_diag (csr_of 0 2 num_rows) (dp_of 0 num_rows) (map Some two_dg)), (map Some two_dg), 2, (some_qw (Some (qz 9)) 2 4 2), (some_pw 2), (Some (Q2Qc (1 # 10))), [Some (qz 2); Some (qz 1)], [Some (qz 9); Some (qz 5)], 3, (some_pj (Some (qz 9)) 2), [None; None], 4, None.
  split; [repeat split; reflexivity|]. split; [intros r c v [<-|[<-|[]]] [E|[E|[]]]; injection E as <- _; cbn; lia|]. split; [reflexivity|]. split. { intros d E. injection E as <-. reflexivity. } split; [reflexivity|]. split; [reflexivity|].
  split. { intros r Hr. change (Zlen num_rows) with 2 in Hr. assert (r = 0 \/ r = 1) as [-> | ->] by lia; apply num_eq; vm_compute; reflexivity. }
  split. { apply (some_qw_ok (Some (qz 9)) 2 4 2); lia. } split. { apply some_args; try reflexivity; lia. }
  split. { apply nums_eq. vm_compute. reflexivity. }
  split. { match goal with |- ?o = _ => destruct o as [((x' & k) & e)|] eqn:E; vm_compute in E; [|discriminate] end. injection E as <- <- <-. reflexivity. }
  split. { intros v [<-|[<-|[]]]; discriminate. } split. { intros v [<-|[<-|[]]]; reflexivity. } split; [discriminate|reflexivity].
Qed.
