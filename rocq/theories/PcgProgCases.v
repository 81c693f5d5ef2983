(** * Worked cases and what fails: test/pcg.cpp as a whole *)
From Coq Require Import Ring_theory Field_theory QArith Qcanon Permutation String.
From Verif Require Import Base Interleave Spec PermUtils Flat Csr Transpose CsrTools CsrOps Coo BinIO Laplacian MmText MmIo MmLoad MmStore MmSym MmVec MmCases Convert.
From Verif Require Import SpMV SplitLU Permute PermuteMain P2P P2PProg Exec Kernels Ilu Levels LevelsFacts LevelsMain LevelsCsr Tasks TaskGraph TaskGraphCsr Sched SchedCases SchedPerm Solve IluExact SolveCases Pcg PcgTri PcgMain PcgExact PcgCases Bfs FromFile FromFileCases PcgProg.
Open Scope Z_scope.

(** Rational numbers in files of integers. *)
Definition qscan (f : list Z) : option (Qc * list Z) := match scan_num f with Some (x, r) => Some (qz x, r) | None => None end.
Definition qjunk (k : nat) (n : Z) : list Qc := repeat (qz 5) (Z.to_nat n).
Definition qrun : runtime Qc :=
  mkRun 10 [] [] (fun _ => []) (fun _ => []) (let a k := repeat 2 (Z.to_nat k) in mkMmJunk a a (fun k => repeat (qz 2) (Z.to_nat k)) a) (fun _ k => repeat 77 (Z.to_nat k)) (fun _ k => repeat (qz 88) (Z.to_nat k)) 99 (fun i => qz (1000 + i)).
Lemma qjunk_ok : forall k n, 0 <= n -> Zlen (qjunk k n) = n.
Proof. intros k n H. unfold qjunk. rewrite Zlen_repeat. lia. Qed.
Lemma qrun_ok : runtime_ok qrun.
Proof. split; [intros k Hk; cbn; repeat split; rewrite Zlen_repeat; lia|]. intros k z Hz. cbn. rewrite !Zlen_repeat. lia. Qed.
Lemma numbers_q xs t : numbers_text scan_num xs t -> numbers_text qscan (map qz xs) t.
Proof.
  induction 1 as [|w x t xs r Hw (H1 & H2) Hr _ IH]; cbn [map]; [constructor|]. constructor; auto. split; auto. intros r' Hr'. unfold qscan. now rewrite H2.
Qed.
Definition with_q (es : list (Z * (Z * Z))) : list (Z * (Z * Qc)) := map (fun e => (fst e, (fst (snd e), qz (snd (snd e))))) es.
Lemma entries_q es t : entries_text scan_num (fun x => x) 1 Integer es t -> entries_text qscan qz q1 Integer (with_q es) t.
Proof.
  induction 1 as [w Hw|w x y v te es r Hw He Hr _ IH]; cbn [with_q map fst snd]; [now constructor|]. constructor; auto. inversion He; subst. now constructor.
Qed.
Lemma array_q b c m n xs file : array_file scan_num b c m n xs file -> array_file qscan b c m n (map qz xs) file.
Proof. intros (ba & cs & sz & bo & H1 & H2 & H3 & H4 & H5 & H6). exists ba, cs, sz, bo. repeat (split; auto). now apply numbers_q. Qed.
Lemma coordinate_q c sizes es file : coordinate_file scan_num (fun x => x) 1 Integer c sizes es file -> coordinate_file qscan qz q1 Integer c sizes (with_q es) file.
Proof. intros (ba & cs & sz & bo & H1 & H2 & H3 & H4 & H5 & H6). exists ba, cs, sz, bo. repeat (split; auto). now apply entries_q. Qed.

(** Schedules and memory for [n] rows and two threads. *)
Definition some_mw (n nnz : Z) (chunks : list (list Z)) : @mworld Qc :=
  mkMw (fun _ => some_qw (qz 9) n nnz 2) (fun _ => some_rw (qz 9) n 2) (fun _ => some_pw n) (fun _ => some_pj (qz 9) n) (fun _ => simple_world chunks n (fun k => repeat 1%nat k)) (fun _ => 1) false true [].
Lemma some_mw_ok inv n nnz (rows : rows_t Qc) A chunks : 1 <= n -> 0 <= nnz -> static_chunks n 2 chunks -> symmetric_matrix inv 0 n rows A -> full_diag rows -> mw_ok n nnz 2 A (some_mw n nnz chunks).
Proof.
  intros Hn Hz HC HY HF. set (j := map (fun _ => qz 9) (zrange 0 n)). assert (L : Zlen j = n) by (now apply Zlen_fill; lia).
  destruct (some_args (qz 9) n 2 j j) as [P1 P2 P3 P4 P5]; auto; [lia|].
  assert (SA : sched_args n 2 (fun _ => 1) (simple_world chunks n (fun k => repeat 1%nat k))). { constructor; [lia|lia|]. apply simple_world_ok; auto; lia. }
  constructor; cbn [some_mw mw_q mw_r mw_w mw_j mw_l mw_cost mw_agg mw_tr]; auto.
  - intros k. apply some_qw_ok; lia.
  - intros k. apply some_rw_ok; lia.
  - intros k dp E. apply (two_threads inv n rows A 2 false true (fun _ => 1) _ HY HF SA); auto; lia.
Qed.

(** The path of three rows in a.mtx and its right-hand side in a_b.mtx. *)
Definition sys_files : files := write_file path_files (str "a_b.mtx") f_column.
Lemma path_q_distinct : distinct (with_q path_entries) /\ (forall x y v, In (x, (y, v)) (with_q path_entries) -> 1 <= x <= 3 /\ 1 <= y <= 3) /\ (forall i, 1 <= i <= 3 -> exists v, In (i, (i, v)) (with_q path_entries)).
Proof.
  split; [|split].
  - unfold distinct, path_entries. cbn [with_q map fst snd]. repeat constructor; cbn [In]; intuition congruence.
  - intros x y v [H|[H|[H|[H|[H|[]]]]]]; injection H as <- <- <-; lia.
  - intros i Hi. assert (i = 1 \/ i = 2 \/ i = 3) as [-> | [-> | ->]] by lia; eexists; cbn [In path_entries with_q map fst snd]; eauto 10.
Qed.
Definition path_chunks : list (list Z) := [[0; 1]; [2]].
Lemma path_static : static_chunks 3 2 path_chunks.
Proof. split; [reflexivity|]. split; [reflexivity|]. intros t Ht. assert (t = 0 \/ t = 1) as [-> | ->] by lia; vm_compute; discriminate. Qed.
Lemma not_in_dec (x : Z) l : existsb (Z.eqb x) l = false -> ~ In x l.
Proof. intros H E. assert (X : existsb (Z.eqb x) l = true) by (apply existsb_exists; exists x; split; auto; apply Z.eqb_refl). congruence. Qed.
Lemma system_case : (forall k n, 0 <= n -> Zlen (qjunk k n) = n) /\ runtime_ok qrun /\ text_name (str "a" ++ str ".mtx") /\ Zlen (str ".mtx") = 4 /\ ~ In 0 (str "a") /\ Zlen [7] = Zlen (str "a") /\ ~ In 0 (@nil Z) /\
  sys_files (str "a" ++ str ".mtx") = Some f_path /\ coordinate_file qscan qz q1 Integer Symmetric [3; 3; Zlen (with_q path_entries)] (with_q path_entries) f_path /\ kind_ok Integer Symmetric /\
  distinct (with_q path_entries) /\ (forall x y v, In (x, (y, v)) (with_q path_entries) -> 1 <= x <= 3 /\ 1 <= y <= 3) /\ (forall i, 1 <= i <= 3 -> exists v, In (i, (i, v)) (with_q path_entries)) /\
  sys_files (str "a" ++ [] ++ str "_b.mtx") = Some f_column /\ array_file qscan Integer General 3 1 (map qz [4; 5; 6]) f_column /\
  forall inv rows A, Zlen rows = 3 -> symmetric_matrix inv 0 3 rows A -> full_diag rows -> mw_ok 3 (off (nthl rows) 3) 2 A (some_mw 3 (off (nthl rows) 3) path_chunks).
Proof.
  destruct path_q_distinct as (D1 & D2 & D3). split; [exact qjunk_ok|]. split; [exact qrun_ok|]. split; [exact name_text|]. split; [reflexivity|]. split; [apply not_in_dec; reflexivity|]. split; [reflexivity|]. split; [intros []|].
  split; [reflexivity|]. split; [exact (coordinate_q _ _ _ _ file_path)|]. split; [split; intros (E1 & E2); discriminate|]. split; auto. split; auto. split; auto. split; [reflexivity|]. split; [exact (array_q _ _ _ _ _ _ file_column)|].
  intros inv rows A L HY HF. apply (some_mw_ok inv 3 (off (nthl rows) 3) rows A); auto using path_static; [lia|]. apply off_nonneg.
Qed.
Notation qmain := (on_Qc (@pcg_main) qscan qz Qcinv (fun _ => q0) (qz 26) (Qcinv (qz 26)) (qz (-1)) qrun).
Notation qrhs := (rhs q1 qscan 10%nat qjunk).
Definition path_mw (A : csr Qc) : @mworld Qc := some_mw 3 7 path_chunks.
Definition qnamed fs name := csr_named qscan qz q1 Qcinv (fun _ => q0) (qz 26) (Qcinv (qz 26)) (qz (-1)) qrun fs name 0 false 1.

(** The solution: all four solvers get there. *)
Definition seen (r : option (list Qc * Z * Qc)) : option (list Q * Z) := option_map (fun r => (map this (fst (fst r)), snd (fst r))) r.
Lemma system_solved : exists A, qnamed sys_files (str "a.mtx") = Some A /\ qrhs sys_files [str "a.mtx"] [7; 0; 7] A = Some (map qz [4; 5; 6]) /\
  seen (on_Qc (@pcg_symgs) A 2 (some_qw (qz 9) 3 7 2) (some_pw 3) (Q2Qc (1 # 1000000)) (map qz [0; 0; 0]) (map qz [4; 5; 6]) 20000 (some_pj (qz 9) 3)) = Some ([6 # 83; 44 # 83; 17 # 83]%Q, 3) /\
  seen (on_Qc (@pcg_ilu0) A 2 (some_qw (qz 9) 3 7 2) (some_pw 3) (Q2Qc (1 # 1000000)) (map qz [0; 0; 0]) (map qz [4; 5; 6]) 20000 (some_pj (qz 9) 3)) = Some ([6 # 83; 44 # 83; 17 # 83]%Q, 1).
Proof. eexists. split; [vm_compute; reflexivity|]. split; [vm_compute; reflexivity|]. split; vm_compute; reflexivity. Qed.
(** Exact arithmetic: the diagonal of that matrix, its factors and pivots. *)
Definition path_q : rows_t Qc := map (map (fun e => (fst e, qz (snd e)))) path_rows.
Definition path_lu : rows_t Qc := [[(0, qz 4); (1, qz 7)]; [(0, Q2Qc (7 # 4)); (1, Q2Qc (-29 # 4)); (2, qz 9)]; [(1, Q2Qc (-36 # 29)); (2, Q2Qc (498 # 29))]].
Lemma exact_case : field_theory q0 q1 Qcplus Qcmult Qcminus Qcopp Qcdiv Qcinv (@eq Qc) /\ (forall a, Qc_is q0 a = true -> a = q0) /\ (forall a, Qc_is q1 a = true -> a = q1) /\ (forall a, Qc_is (Qcopp q1) a = true -> a = Qcopp q1) /\
  (forall i v, In (i, (i, v)) (entries path_q) -> v <> q0 /\ Qcmult v (Qcinv v) = q1) /\ factors q0 q1 Qcplus Qcmult path_q path_lu /\ pivots_ok q0 Qcplus path_lu /\
  exists A, qnamed sys_files (str "a.mtx") = Some A /\ map this (match values A with Some vs => vs | None => [] end) = map this (concat (map (map snd) path_q)) /\ colidx A = concat (map (map fst) path_q).
Proof.
  split; [exact Qcft|]. split; [apply Qc_is_ok|]. split; [apply Qc_is_ok|]. split; [apply Qc_is_ok|]. split.
  { intros i v H. assert (N : v <> q0). { intros ->. assert (X : In (i, (i, this q0)) (map (fun e => (fst e, (fst (snd e), this (snd (snd e))))) (entries path_q))) by (apply in_map_iff; exists (i, (i, q0)); auto). vm_compute in X. repeat (destruct X as [X|X]; [discriminate|]). exact X. }
    split; auto. now apply Qcmult_inv_r. }
  split.
  { split; [reflexivity|]. intros r c a Hr Ha. change (Zlen path_q) with 3 in Hr. assert (r = 0 \/ r = 1 \/ r = 2) as [-> | [-> | ->]] by lia; repeat (destruct Ha as [E|Ha]; [injection E as <- <-; apply Qc_is_canon; vm_compute; reflexivity|]); destruct Ha. }
  split.
  { intros r Hr E. change (Zlen path_lu) with 3 in Hr. apply (f_equal this) in E. assert (r = 0 \/ r = 1 \/ r = 2) as [-> | [-> | ->]] by lia; vm_compute in E; discriminate. }
  eexists. split; [vm_compute; reflexivity|]. split; vm_compute; reflexivity.
Qed.
(** The Laplacian of size 2. *)
Lemma lap_static : static_chunks 8 2 [[0; 1; 2; 3]; [4; 5; 6; 7]].
Proof. split; [reflexivity|]. split; [reflexivity|]. intros t Ht. assert (t = 0 \/ t = 1) as [-> | ->] by lia; vm_compute; discriminate. Qed.
Lemma size_case : 1 <= 2 <= 999 /\ str "2" = pr_int 2 /\ str "64" = pr_int 64 /\
  forall inv rows A, Zlen rows = 8 -> symmetric_matrix inv 0 8 rows A -> full_diag rows -> mw_ok 8 (off (nthl rows) 8) 2 A (some_mw 8 (off (nthl rows) 8) [[0; 1; 2; 3]; [4; 5; 6; 7]]).
Proof.
  split; [lia|]. split; [reflexivity|]. split; [reflexivity|]. intros inv rows A L HY HF. apply (some_mw_ok inv 8 (off (nthl rows) 8) rows A); auto using lap_static; [lia|]. apply off_nonneg.
Qed.

(** ** What fails *)
(** strncpy writes no 0 behind the stem (pcg.cpp:694).  The file a_b.mtx is there, but
    the memory behind the a held an X: aX_b.mtx is not found and the right-hand side is
    all ones. *)
Theorem other_rhs_refuted : exists A b, qnamed sys_files (str "a.mtx") = Some A /\ sys_files (str "a_b.mtx") = Some f_column /\ array_file qscan Integer General 3 1 b f_column /\ Zlen b = 3 /\
  qrhs sys_files [str "a.mtx"] ([7] ++ [88] ++ 0 :: [7]) A = Some (map (fun _ => q1) (zrange 0 3)) /\ b <> map (fun _ => q1) (zrange 0 3).
Proof.
  eexists. exists (map qz [4; 5; 6]). split; [vm_compute; reflexivity|]. split; [reflexivity|]. split; [exact (array_q _ _ _ _ _ _ file_column)|]. split; [reflexivity|]. split; [vm_compute; reflexivity|].
  intros E. apply (f_equal (map this)) in E. vm_compute in E. discriminate.
Qed.
(** Without a 0 in that memory the name is read behind the array. *)
Theorem no_end_refuted : exists buf2, 3 <= Zlen buf2 /\ (forall out nd tol, qmain sys_files [str "a.mtx"] buf2 qjunk nd 2 path_mw tol out <-> out = None).
Proof.
  exists [7; 7; 7]. split; [discriminate|]. intros out nd tol. unfold pcg_main.
  destruct (csr_named _ _ _ _ _ _ _ _ _ _ _ _ _ _) as [A|] eqn:E; [|tauto]. replace (qrhs sys_files [str "a.mtx"] [7; 7; 7] A) with (@None (list Qc)) by reflexivity. tauto.
Qed.
(** The size of the right-hand side is not compared with that of the matrix: two
    numbers for three rows. *)
Definition f_two := lines ["%%MatrixMarket matrix array integer general"; "2 1"; "4"; "5"]%string.
Definition short_files : files := write_file path_files (str "a_b.mtx") f_two.
Lemma file_two : array_file scan_num Integer General 2 1 [4; 5] f_two.
Proof.
  exists (str "%%MatrixMarket matrix array integer general"), [], (str "2 1"), (concat [str "4" ++ [NL]; str "5" ++ [NL]]).
  split; [reflexivity|]. split; [exact (printed_banner Array Integer General)|]. split; [constructor|]. split; [line_txt|]. split.
  - apply (next_int [] 2 (str "2") [1] (str " 1")); [ws_txt|dec_txt|unfold int32; lia|reflexivity|].
    apply (next_int [32] 1 (str "1") [] []); [ws_txt|dec_txt|unfold int32; lia|exact I|constructor].
  - apply (num_lines [4; 5] []). constructor.
Qed.
Theorem short_rhs_refuted : short_files (str "a.mtx") = Some f_path /\ short_files (str "a_b.mtx") = Some f_two /\ array_file qscan Integer General 2 1 (map qz [4; 5]) f_two /\
  (exists A, qnamed short_files (str "a.mtx") = Some A /\ cm A = 3 /\ qrhs short_files [str "a.mtx"] [7; 0; 7] A = Some (map qz [4; 5]) /\ mw_ok 3 7 2 A (path_mw A)) /\
  forall nd out, qmain short_files [str "a.mtx"] [7; 0; 7] qjunk nd 2 path_mw (Q2Qc (1 # 1000000)) out -> out = None.
Proof.
  split; [reflexivity|]. split; [reflexivity|]. split; [exact (array_q _ _ _ _ _ _ file_two)|]. split.
  - destruct (file_symmetric_matrix qscan qz q1 Qcinv (fun _ => q0) (qz 26) (Qcinv (qz 26)) (qz (-1)) qrun short_files (str "a.mtx") f_path Integer Symmetric 3 (with_q path_entries) 0 false 1 3) as (rows & A & EN & HY & HI); auto using qrun_ok, name_text; try lia; try apply path_q_distinct.
    { exact (coordinate_q _ _ _ _ file_path). } { split; intros (E1 & E2); discriminate. } { split; [apply Z.divide_1_l|lia]. }
    pose proof (file_full_diag q1 3 3 (with_q path_entries) rows (ym_len _ _ _ _ _ HY) HI (proj2 (proj2 path_q_distinct))) as HFD.
    exists A. split; [exact EN|]. split; [destruct (ym_rep _ _ _ _ _ HY) as (-> & _); exact (ym_len _ _ _ _ _ HY)|]. split; [vm_compute; reflexivity|]. apply (some_mw_ok Qcinv 3 7 rows A); auto using path_static; lia.
  - intros nd out. unfold pcg_main. set (N := csr_named _ _ _ _ _ _ _ _ _ _ _ _ _ _). assert (EN : exists A, N = Some A /\ qrhs short_files [str "a.mtx"] [7; 0; 7] A = Some (map qz [4; 5]) /\
      (x <- zeroed q0 A (qjunk 2%nat (cm A)) ;; on_Qc (@pcg_symgs) A 2 (some_qw (qz 9) 3 7 2) (some_pw 3) (Q2Qc (1 # 1000000)) x (map qz [4; 5]) 20000 (some_pj (qz 9) 3)) = None).
    { eexists. split; [vm_compute; reflexivity|]. split; vm_compute; reflexivity. }
    destruct EN as (A & -> & EB & EP). unfold r_fuel, qrun. rewrite EB. intros (r1 & r2 & r3 & r4 & E1 & _ & _ & _ & ->).
    assert (r1 = None) as -> by (rewrite E1; exact EP). reflexivity.
Qed.
