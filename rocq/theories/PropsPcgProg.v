(** * C75: the conjugate gradient program on a named matrix *)
From Coq Require Import Ring_theory Field_theory QArith Qcanon Permutation String.
From Verif Require Import Base Interleave Spec PermUtils Flat Csr Transpose CsrTools CsrOps Coo BinIO Laplacian MmText MmIo MmLoad MmStore MmSym MmVec MmCases Convert.
From Verif Require Import SpMV SplitLU Permute PermuteMain P2P P2PProg Exec Kernels Ilu Levels LevelsFacts LevelsMain LevelsCsr Tasks TaskGraph TaskGraphCsr Sched SchedCases SchedPerm Solve IluExact SolveCases Pcg PcgTri PcgMain PcgExact PcgCases Bfs FromFile FromFileCases PcgProg PcgProgCases.
Open Scope Z_scope.

(** C75.  The name is that of a symmetric coordinate file that lists the diagonal.  The
    buffer holds [s] and a 0 behind the place of the stem: the right-hand side comes from
    the file stem ++ s ++ "_b.mtx", or is all ones if there is none.  The four solvers
    return, and in exact arithmetic with what the method computes from 0. *)
Theorem C75_file {V} (zero one : V) (add mul sub : V -> V -> V) (opp : V -> V) (div : V -> V -> V) (sqrt : V -> V) (ltb : V -> V -> bool) (is0 is1 ism1 : V -> bool)
  (scan_g : list Z -> option (V * list Z)) (of_ll : Z -> V) (recip : V -> V) (decd : list Z -> V) (d di o : V) R fs stem ext more u s w file b c m0 es nd T W tol junk rhs0 :
  (forall k n, 0 <= n -> Zlen (junk k n) = n) -> runtime_ok R -> text_name (stem ++ ext) -> Zlen ext = 4 -> ~ In 0 stem -> Zlen u = Zlen stem -> ~ In 0 s ->
  fs (stem ++ ext) = Some file -> coordinate_file scan_g of_ll one b c [m0; m0; Zlen es] es file -> kind_ok b c -> c = Symmetric -> 0 <= m0 ->
  (forall x y v, In (x, (y, v)) es -> 1 <= x <= m0 /\ 1 <= y <= m0) -> distinct es -> (forall i, 1 <= i <= m0 -> exists v, In (i, (i, v)) es) ->
  match fs (stem ++ s ++ str "_b.mtx") with
  | None => rhs0 = map (fun _ => one) (zrange 0 m0)
  | Some bf => exists b' c', array_file scan_g b' c' m0 1 rhs0 bf /\ b' <> Pattern /\ ~ (b' = Real /\ c' = Hermitian) /\ Zlen rhs0 = m0
  end ->
  exists rows A, Zlen rows = m0 /\ (forall r c v, In (r, (c, v)) (entries rows) <-> symmetric_entries one m0 m0 es r c v) /\ symmetric_matrix recip 0 (Zlen rows) rows A /\
    (mw_ok m0 (off (nthl rows) m0) T A (W A) ->
     solves_all zero one add mul sub opp div sqrt ltb is0 is1 ism1 recip rows rhs0 tol
       (pcg_main zero one add sub mul div opp sqrt ltb is0 is1 ism1 scan_g of_ll recip decd d di o R fs ((stem ++ ext) :: more) (u ++ s ++ 0 :: w) junk nd T W tol)).
Proof. exact (main_file zero one add mul sub opp div sqrt ltb is0 is1 ism1 scan_g of_ll recip decd d di o R fs stem ext more u s w file b c m0 es nd T W tol junk rhs0). Qed.
Print Assumptions C75_file.
Example C75_file_ex : (forall k n, 0 <= n -> Zlen (qjunk k n) = n) /\ runtime_ok qrun /\ text_name (str "a" ++ str ".mtx") /\ Zlen (str ".mtx") = 4 /\ ~ In 0 (str "a") /\ Zlen [7] = Zlen (str "a") /\ ~ In 0 (@nil Z) /\
  sys_files (str "a" ++ str ".mtx") = Some f_path /\ coordinate_file qscan qz q1 Integer Symmetric [3; 3; Zlen (with_q path_entries)] (with_q path_entries) f_path /\ kind_ok Integer Symmetric /\
  distinct (with_q path_entries) /\ (forall x y v, In (x, (y, v)) (with_q path_entries) -> 1 <= x <= 3 /\ 1 <= y <= 3) /\ (forall i, 1 <= i <= 3 -> exists v, In (i, (i, v)) (with_q path_entries)) /\
  sys_files (str "a" ++ [] ++ str "_b.mtx") = Some f_column /\ array_file qscan Integer General 3 1 (map qz [4; 5; 6]) f_column /\
  forall inv rows A, Zlen rows = 3 -> symmetric_matrix inv 0 3 rows A -> full_diag rows -> mw_ok 3 (off (nthl rows) 3) 2 A (some_mw 3 (off (nthl rows) 3) path_chunks).
Proof. exact system_case. Qed.
Example C75_exact_ex : field_theory q0 q1 Qcplus Qcmult Qcminus Qcopp Qcdiv Qcinv (@eq Qc) /\ (forall a, Qc_is q0 a = true -> a = q0) /\ (forall a, Qc_is q1 a = true -> a = q1) /\ (forall a, Qc_is (Qcopp q1) a = true -> a = Qcopp q1) /\
  (forall i v, In (i, (i, v)) (entries path_q) -> v <> q0 /\ Qcmult v (Qcinv v) = q1) /\ factors q0 q1 Qcplus Qcmult path_q path_lu /\ pivots_ok q0 Qcplus path_lu /\
  exists A, qnamed sys_files (str "a.mtx") = Some A /\ map this (match values A with Some vs => vs | None => [] end) = map this (concat (map (map snd) path_q)) /\ colidx A = concat (map (map fst) path_q).
Proof. exact exact_case. Qed.
Example C75_solved_ex : exists A, qnamed sys_files (str "a.mtx") = Some A /\ qrhs sys_files [str "a.mtx"] [7; 0; 7] A = Some (map qz [4; 5; 6]) /\
  seen (on_Qc (@pcg_symgs) A 2 (some_qw (qz 9) 3 7 2) (some_pw 3) (Q2Qc (1 # 1000000)) (map qz [0; 0; 0]) (map qz [4; 5; 6]) 20000 (some_pj (qz 9) 3)) = Some ([6 # 83; 44 # 83; 17 # 83]%Q, 3) /\
  seen (on_Qc (@pcg_ilu0) A 2 (some_qw (qz 9) 3 7 2) (some_pw 3) (Q2Qc (1 # 1000000)) (map qz [0; 0; 0]) (map qz [4; 5; 6]) 20000 (some_pj (qz 9) 3)) = Some ([6 # 83; 44 # 83; 17 # 83]%Q, 1).
Proof. exact system_solved. Qed.

(** The name "m", or no name: the Laplacian and the right-hand side 1, ..., 1. *)
Theorem C75_size {V} (zero one : V) (add mul sub : V -> V -> V) (opp : V -> V) (div : V -> V -> V) (sqrt : V -> V) (ltb : V -> V -> bool) (is0 is1 ism1 : V -> bool)
  (scan_g : list Z -> option (V * list Z)) (of_ll : Z -> V) (recip : V -> V) (decd : list Z -> V) (d di o : V) R fs args m buf2 junk nd T W tol :
  (forall k n, 0 <= n -> Zlen (junk k n) = n) -> runtime_ok R -> 1 <= m <= 999 -> match args with [] => m = 64 | a :: _ => a = pr_int m end ->
  exists rows A, laplacian_rows d o m m m rows /\ symmetric_matrix (fun _ => di) 0 (Zlen rows) rows A /\
    (mw_ok (Zlen rows) (off (nthl rows) (Zlen rows)) T A (W A) ->
     solves_all zero one add mul sub opp div sqrt ltb is0 is1 ism1 (fun _ => di) rows (map (fun _ => one) (zrange 0 (Zlen rows))) tol
       (pcg_main zero one add sub mul div opp sqrt ltb is0 is1 ism1 scan_g of_ll recip decd d di o R fs args buf2 junk nd T W tol)).
Proof. exact (main_size zero one add mul sub opp div sqrt ltb is0 is1 ism1 scan_g of_ll recip decd d di o R fs args m buf2 junk nd T W tol). Qed.
Print Assumptions C75_size.
Example C75_size_ex : 1 <= 2 <= 999 /\ str "2" = pr_int 2 /\ str "64" = pr_int 64 /\
  forall inv rows A, Zlen rows = 8 -> symmetric_matrix inv 0 8 rows A -> full_diag rows -> mw_ok 8 (off (nthl rows) 8) 2 A (some_mw 8 (off (nthl rows) 8) [[0; 1; 2; 3]; [4; 5; 6; 7]]).
Proof. exact size_case. Qed.
(** The schedules that [mw_ok] asks for exist for up to two threads. *)
Theorem C75_two_threads {V} (inv : V -> V) n (rows : rows_t V) (A : csr V) T agg tr cost w : symmetric_matrix inv 0 n rows A -> full_diag rows -> sched_args n T cost w -> T <= 2 ->
  forall dp, diagptr A = Some dp -> exists Sd o2t t2o, constructTaskGraph (graph_of A 0 dp) T false agg tr cost w = Some (Sd, o2t, t2o).
Proof. exact (two_threads inv n rows A T agg tr cost w). Qed.
Print Assumptions C75_two_threads.

(** Exactly which file is looked for: the buffer behind the copied stem, up to the first
    0, is part of the name. *)
Theorem C75_name stem ext u v f : Zlen ext = 4 -> ~ In 0 stem -> Zlen u = Zlen stem ->
  rhs_name (u ++ v) (stem ++ ext) = Some f <-> exists s w, v = s ++ 0 :: w /\ ~ In 0 s /\ f = stem ++ s ++ str "_b.mtx".
Proof. exact (rhs_name_iff stem ext u v f). Qed.
Print Assumptions C75_name.
Theorem C75_other_rhs_refuted : exists A b, qnamed sys_files (str "a.mtx") = Some A /\ sys_files (str "a_b.mtx") = Some f_column /\ array_file qscan Integer General 3 1 b f_column /\ Zlen b = 3 /\
  qrhs sys_files [str "a.mtx"] ([7] ++ [88] ++ 0 :: [7]) A = Some (map (fun _ => q1) (zrange 0 3)) /\ b <> map (fun _ => q1) (zrange 0 3).
Proof. exact other_rhs_refuted. Qed.
Print Assumptions C75_other_rhs_refuted.
Theorem C75_no_end_refuted : exists buf2, 3 <= Zlen buf2 /\ (forall out nd tol, qmain sys_files [str "a.mtx"] buf2 qjunk nd 2 path_mw tol out <-> out = None).
Proof. exact no_end_refuted. Qed.
Print Assumptions C75_no_end_refuted.
(** A name with a stem as long as the buffer is undefined for every content of the
    buffer. *)
Theorem C75_long_name {V} (zero one : V) (add mul sub : V -> V -> V) (opp : V -> V) (div : V -> V -> V) (sqrt : V -> V) (ltb : V -> V -> bool) (is0 is1 ism1 : V -> bool)
  (scan_g : list Z -> option (V * list Z)) (of_ll : Z -> V) (recip : V -> V) (decd : list Z -> V) (d di o : V) R fs stem ext more buf2 junk nd T W tol out :
  Zlen ext = 4 -> ~ In 0 stem -> Zlen buf2 <= Zlen stem ->
  pcg_main zero one add sub mul div opp sqrt ltb is0 is1 ism1 scan_g of_ll recip decd d di o R fs ((stem ++ ext) :: more) buf2 junk nd T W tol out <-> out = None.
Proof. exact (main_long zero one add mul sub opp div sqrt ltb is0 is1 ism1 scan_g of_ll recip decd d di o R fs stem ext more buf2 junk nd T W tol out). Qed.
Print Assumptions C75_long_name.
(** The sizes of the matrix and of the right-hand side are not compared. *)
Theorem C75_short_rhs_refuted : short_files (str "a.mtx") = Some f_path /\ short_files (str "a_b.mtx") = Some f_two /\ array_file qscan Integer General 2 1 (map qz [4; 5]) f_two /\
  (exists A, qnamed short_files (str "a.mtx") = Some A /\ cm A = 3 /\ qrhs short_files [str "a.mtx"] [7; 0; 7] A = Some (map qz [4; 5]) /\ mw_ok 3 7 2 A (path_mw A)) /\
  forall nd out, qmain short_files [str "a.mtx"] [7; 0; 7] qjunk nd 2 path_mw (Q2Qc (1 # 1000000)) out -> out = None.
Proof. exact short_rhs_refuted. Qed.
Print Assumptions C75_short_rhs_refuted.
