(** * test/pcg.cpp as a whole: the matrix, the right-hand side, the four solvers. *)
From Coq Require Import Ring_theory Field_theory Ring Permutation String.
From Verif Require Import Base Interleave Spec PermUtils Flat Csr Transpose CsrTools CsrOps Coo BinIO Laplacian MmText MmIo MmLoad MmStore MmSym MmVec Convert.
From Verif Require Import SpMV SplitLU Permute PermuteMain P2P P2PProg Exec Kernels Ilu Levels LevelsFacts LevelsMain LevelsCsr Tasks TaskGraph TaskGraphCsr Sched SchedPerm Solve IluExact SolveCases Pcg PcgTri PcgMain PcgExact PcgCases Bfs FromFile.
Open Scope Z_scope.

(** ** Model *)
Section Model.
Context {V : Type}.
Variables (zero one : V) (add sub mul div : V -> V -> V) (opp sqrt : V -> V) (ltb : V -> V -> bool).
Variables (is0 is1 ism1 : V -> bool).

(** pcg.cpp:693-694: [buf2] is not initialised, and strncpy with a count below the
    length of the string appends no 0. *)
Definition strncpy (buf2 src : list Z) (k : Z) : option (list Z) := forZ 0 k (fun i buf => c <- get src i ;; set buf i c) buf2.
(** pcg.cpp:696: string(buf2) takes the characters before the first 0; without a 0 it
    reads behind the array. *)
Fixpoint string_of (buf : list Z) : option (list Z) :=
  match buf with [] => None | c :: buf => if c =? 0 then Some [] else s <- string_of buf ;; Some (c :: s) end.
(** pcg.cpp:693-696: the name of the file with the right-hand side. *)
Definition rhs_name (buf2 name : list Z) : option (list Z) :=
  buf <- strncpy buf2 name (Zlen name - 4) ;; s <- string_of buf ;; Some (s ++ str "_b.mtx").
(** pcg.cpp:690-701: the result of loadVectorMatrixMarket and the sizes are ignored; b
    is null unless the whole file could be read (FREE in Vector.cpp:50, 57 sets it to
    null). *)
Definition rhs (scan_g : list Z -> option (V * list Z)) (fuel : nat) (junk : nat -> Z -> list V) (fs : files) (args : list (list Z)) (buf2 : list Z) (A : csr V) : option (list V) :=
  b <- match args with
       | a :: _ => if 4 <=? Zlen a then f <- rhs_name buf2 a ;; match fs f with Some file => v <- loadVectorMatrixMarket scan_g fuel (junk 0%nat) file ;; Some (option_map snd v) | None => Some None end else Some None
       | [] => Some None
       end ;;
  match b with Some b => Some b | None => forZ 0 (cm A) (fun i b => set b i one) (junk 1%nat (cm A)) end.

(** pcg.cpp:387-485: what a complete run of pcg_symgs_opt may end with. *)
Definition symgs_opt_run (nd : bool) (A : csr V) (T : Z) (agg tr : bool) (cost : Z -> Z) (lw : world) (q : @qworld V) (rq : @rworld V) (w : pworld) (tol : V) (x b : list V) (maxiter : Z) (j : pjunk) (res : option (list V * Z * V)) : Prop :=
  match
    ' (A, L, U) <- symgs_parts one mul A T q ;;
    base <- getBase A ;; dp <- diagptr A ;; ' (Sd, o2t, t2o) <- constructTaskGraph (graph_of A base dp) T false agg tr cost lw ;;
    ' (A', L', U') <- reorder nd A L U o2t t2o T rq ;; Some (Sd, o2t, t2o, A', L', U')
  with
  | None => res = None
  | Some (Sd, o2t, t2o, A', L', U') => exists prec, prec_p2p add sub mul L' U' Sd T prec /\
      res = solve_reordered zero one add sub mul div opp sqrt ltb is0 is1 ism1 A' o2t t2o T rq w tol prec x b maxiter j
  end.
(** pcg.cpp:568-669: pcg_ilu0_opt; [sch]: the loop that copies the values in ilu0. *)
Definition ilu0_opt_run (nd : bool) (A : csr V) (T : Z) (agg tr : bool) (cost : Z -> Z) (lw : world) (sch : list nat) (q : @qworld V) (rq : @rworld V) (w : pworld) (tol : V) (x b : list V) (maxiter : Z) (j : pjunk) (res : option (list V * Z * V)) : Prop :=
  match base <- getBase A ;; dp <- diagptr A ;; ' (Sd, o2t, t2o) <- constructTaskGraph (graph_of A base dp) T false agg tr cost lw ;; Some (dp, Sd, o2t, t2o) with
  | None => res = None
  | Some (dp, Sd, o2t, t2o) => exists fin, ilu0_p2p sub mul div A dp Sd t2o T sch (qw_lu q) fin /\
      match fin <- fin ;; ' (L, U) <- ilu_parts one div A fin T q ;; reorder nd A L U o2t t2o T rq with
      | None => res = None
      | Some (A', L', U') => exists prec, prec_p2p add sub mul L' U' Sd T prec /\
          res = solve_reordered zero one add sub mul div opp sqrt ltb is0 is1 ism1 A' o2t t2o T rq w tol prec x b maxiter j
      end
  end.

(** Schedules and memory of the solvers, one for each. *)
Record mworld := mkMw {
  mw_q : nat -> @qworld V; mw_r : nat -> @rworld V; mw_w : nat -> pworld; mw_j : nat -> @pjunk V;
  mw_l : nat -> world; mw_cost : Z -> Z; mw_agg : bool; mw_tr : bool; mw_sch : list nat }.
(** pcg.cpp:706, 709, 712, 715 *)
Definition zeroed (A : csr V) (x : list V) : option (list V) := forZ 0 (cm A) (fun i x => set x i zero) x.
Definition next (A : csr V) (r : option (list V * Z * V)) (solver : list V -> option (list V * Z * V) -> Prop) (r' : option (list V * Z * V)) : Prop :=
  match r <- r ;; zeroed A (fst (fst r)) with Some x => solver x r' | None => r' = None end.
(** pcg.cpp:703-716: x, the number of iterations and the error of the four solvers.
    The first three leave the matrix as it was (C57: symgs_parts returns it; splitLU
    shifts the indices only of matrices with indices from 1), so that all four are
    given the same. *)
Definition solvers (nd : bool) (A : csr V) (T : Z) (W : mworld) (tol : V) (maxiter : Z) (x b : list V) (out : option (list (list V * Z * V))) : Prop :=
  exists r1 r2 r3 r4,
    r1 = (x <- zeroed A x ;; pcg_symgs zero one add sub mul div opp sqrt ltb is0 is1 ism1 A T (mw_q W 0%nat) (mw_w W 0%nat) tol x b maxiter (mw_j W 0%nat)) /\
    next A r1 (fun x => symgs_opt_run nd A T (mw_agg W) (mw_tr W) (mw_cost W) (mw_l W 0%nat) (mw_q W 1%nat) (mw_r W 0%nat) (mw_w W 1%nat) tol x b maxiter (mw_j W 1%nat)) r2 /\
    next A r2 (fun x r => r = pcg_ilu0 zero one add sub mul div opp sqrt ltb is0 is1 ism1 A T (mw_q W 2%nat) (mw_w W 2%nat) tol x b maxiter (mw_j W 2%nat)) r3 /\
    next A r3 (fun x => ilu0_opt_run nd A T (mw_agg W) (mw_tr W) (mw_cost W) (mw_l W 1%nat) (mw_sch W) (mw_q W 3%nat) (mw_r W 1%nat) (mw_w W 3%nat) tol x b maxiter (mw_j W 3%nat)) r4 /\
    out = (a <- r1 ;; b <- r2 ;; c <- r3 ;; d <- r4 ;; Some [a; b; c; d]).
(** pcg.cpp:671-722; [args]: the arguments behind the name of the program; [W]: the
    schedules and memory for the matrix that is read. *)
Definition pcg_main (scan_g : list Z -> option (V * list Z)) (of_ll : Z -> V) (recip : V -> V) (decd : list Z -> V) (d di o : V) (R : runtime V) (fs : files) (args : list (list Z)) (buf2 : list Z) (junk : nat -> Z -> list V)
  (nd : bool) (T : Z) (W : csr V -> mworld) (tol : V) (out : option (list (list V * Z * V))) : Prop :=
  match csr_named scan_g of_ll one recip decd d di o R fs (match args with a :: _ => a | [] => pr_int 64 end) 0 false 1 with
  | None => out = None
  | Some A =>
      match rhs scan_g (r_fuel R) junk fs args buf2 A with
      | None => out = None
      | Some b => solvers nd A T (W A) tol 20000 (junk 2%nat (cm A)) b out
      end
  end.

(** ** Specification *)
(** Memory of the right sizes, and complete constructions of the two schedules. *)
Record mw_ok (n nnz T : Z) (A : csr V) (W : mworld) : Prop := {
  mk_T : 1 <= T;
  mk_q : forall k, qw_ok n nnz T (mw_q W k);
  mk_r : forall k, rw_ok n T (mw_r W k);
  mk_w : forall k, pw_ok n (mw_w W k);
  mk_j : forall k, pj_ok n (mw_j W k);
  mk_l : forall k, sched_args n T (mw_cost W) (mw_l W k);
  mk_S : forall k dp, diagptr A = Some dp -> exists S o2t t2o, constructTaskGraph (graph_of A 0 dp) T false (mw_agg W) (mw_tr W) (mw_cost W) (mw_l W k) = Some (S, o2t, t2o) }.
End Model.

(** ** Proofs *)
Lemma Zlen_fill {X} (v : X) n : 0 <= n -> Zlen (map (fun _ => v) (zrange 0 n)) = n.
Proof. intros H. rewrite Zlen_map, Zlen_zrange. lia. Qed.
Lemma fill_ok {X} (v : X) n (l : list X) : 0 <= n -> Zlen l = n -> forZ 0 n (fun i x => set x i v) l = Some (map (fun _ => v) (zrange 0 n)).
Proof.
  intros Hn L. destruct (forZ_rule (fun k x => Zlen x = n /\ forall i, 0 <= i < k -> get x i = Some v) 0 n (fun i x => set x i v) l) as (x & E & Lx & G); [lia|split; auto; lia| |].
  - intros i x Hi (Lx & G). destruct (set_ok x i v) as (x' & E); [lia|]. exists x'. split; auto. split; [now rewrite (set_len _ _ _ _ E)|]. intros k Hk.
    destruct (Z.eq_dec k i) as [->|N]; [now apply (get_set_same _ _ _ _ E)|]. rewrite (get_set_other _ _ _ _ _ E) by auto. apply G. lia.
  - rewrite E. f_equal. apply list_ext; [now rewrite Zlen_fill|]. intros i Hi. rewrite G by lia. now rewrite get_map, get_zrange by lia.
Qed.

(** *** The name of the file *)
Lemma strncpy_ok stem ext u v : Zlen u = Zlen stem -> strncpy (u ++ v) (stem ++ ext) (Zlen stem) = Some (stem ++ v).
Proof.
  intros L. unfold strncpy. pose proof (Zlen_nonneg stem) as Hs. pose proof (Zlen_nonneg v) as Hv.
  destruct (forZ_rule (fun k x => Zlen x = Zlen (u ++ v) /\ (forall i, 0 <= i < k -> get x i = get stem i) /\ forall i, k <= i -> get x i = get (u ++ v) i) 0 (Zlen stem) (fun i buf => c <- get (stem ++ ext) i ;; set buf i c) (u ++ v)) as (x & E & Lx & G1 & G2); [lia|repeat split; auto; lia| |].
  - intros i x Hi (Lx & G1 & G2). rewrite get_app_l by lia. destruct (get_in_range stem i) as (c & Ec); [lia|]. rewrite Ec. rewrite Zlen_app in Lx. destruct (set_ok x i c) as (x' & E); [lia|]. exists x'. split; auto. split; [rewrite (set_len _ _ _ _ E), Zlen_app; lia|]. split.
    + intros k Hk. destruct (Z.eq_dec k i) as [->|N]; [rewrite Ec; now apply (get_set_same _ _ _ _ E)|]. rewrite (get_set_other _ _ _ _ _ E) by auto. apply G1. lia.
    + intros k Hk. rewrite (get_set_other _ _ _ _ _ E) by lia. apply G2. lia.
  - rewrite E. f_equal. rewrite Zlen_app in Lx. apply list_ext; [rewrite Zlen_app; lia|]. intros i Hi. destruct (Z_lt_ge_dec i (Zlen stem)).
    + rewrite G1, get_app_l by lia. reflexivity.
    + rewrite G2 by lia. rewrite !get_app_r by lia. now rewrite L.
Qed.
Lemma strncpy_long buf src k : Zlen buf < k -> k <= Zlen src -> strncpy buf src k = None.
Proof.
  intros H1 H2. unfold strncpy. pose proof (Zlen_nonneg buf) as Hb. rewrite (forZ_split 0 (Zlen buf) k) by lia.
  destruct (forZ_rule (fun k x => Zlen x = Zlen buf) 0 (Zlen buf) (fun i buf => c <- get src i ;; set buf i c) buf) as (x & E & Lx); [lia|auto| |].
  - intros i x Hi Lx. destruct (get_in_range src i) as (c & ->); [lia|]. destruct (set_ok x i c) as (x' & E); [lia|]. exists x'. split; auto. now rewrite (set_len _ _ _ _ E).
  - rewrite E. rewrite forZ_cons by lia. destruct (get_in_range src (Zlen buf)) as (c & ->); [lia|]. destruct (set x (Zlen buf) c) eqn:Es; auto. apply set_Some_inv in Es. lia.
Qed.
Lemma string_of_app a b : ~ In 0 a -> string_of (a ++ b) = (s <- string_of b ;; Some (a ++ s)).
Proof.
  induction a as [|c a IH]; cbn [app string_of In]; intros H; [now destruct (string_of b)|]. destruct (Z.eqb_spec c 0); [tauto|]. rewrite IH by tauto. now destruct (string_of b).
Qed.
Lemma string_of_iff b s : string_of b = Some s <-> ~ In 0 s /\ exists w, b = s ++ 0 :: w.
Proof.
  split.
  - revert s. induction b as [|c b IH]; cbn [string_of]; intros s E; [discriminate|]. destruct (Z.eqb_spec c 0) as [->|N].
    + injection E as <-. split; [easy|]. now exists b.
    + destruct (string_of b) as [s'|]; [|discriminate]. injection E as <-. destruct (IH s' eq_refl) as (H & w & ->). split; [|now exists w]. cbn [In]. intuition congruence.
  - intros (H & w & ->). rewrite string_of_app by auto. cbn [string_of Z.eqb]. now rewrite app_nil_r.
Qed.
(** The file that is looked for: behind the stem stands what happened to be in the
    buffer. *)
Theorem rhs_name_iff stem ext u v f : Zlen ext = 4 -> ~ In 0 stem -> Zlen u = Zlen stem ->
  rhs_name (u ++ v) (stem ++ ext) = Some f <-> exists s w, v = s ++ 0 :: w /\ ~ In 0 s /\ f = stem ++ s ++ str "_b.mtx".
Proof.
  intros HE H0 L. unfold rhs_name. replace (Zlen (stem ++ ext) - 4) with (Zlen stem) by (rewrite Zlen_app; lia). rewrite strncpy_ok by auto. rewrite string_of_app by auto. destruct (string_of v) as [s|] eqn:E.
  - apply string_of_iff in E as E'. destruct E' as (H & w & ->). split.
    + intros Ef. injection Ef as <-. exists s, w. rewrite app_assoc. auto.
    + intros (s' & w' & E' & H' & ->). f_equal. rewrite app_assoc. do 2 f_equal. assert (X : string_of (s ++ 0 :: w) = Some s') by (apply string_of_iff; split; auto; now exists w'). congruence.
  - split; [discriminate|]. intros (s' & w' & -> & H' & _). assert (X : string_of (s' ++ 0 :: w') = Some s') by (apply string_of_iff; split; auto; now exists w'). congruence.
Qed.
Theorem rhs_name_long stem ext buf2 : Zlen ext = 4 -> ~ In 0 stem -> Zlen buf2 <= Zlen stem -> rhs_name buf2 (stem ++ ext) = None.
Proof.
  intros HE H0 L. unfold rhs_name. replace (Zlen (stem ++ ext) - 4) with (Zlen stem) by (rewrite Zlen_app; lia). destruct (Z.eq_dec (Zlen buf2) (Zlen stem)) as [E|N].
  - pose proof (strncpy_ok stem ext buf2 [] E) as X. rewrite app_nil_r in X. rewrite X. rewrite string_of_app by auto. reflexivity.
  - rewrite strncpy_long; auto; rewrite ?Zlen_app; lia.
Qed.
(** *** The right-hand side *)
Section Rhs.
Context {V : Type}.
Variables (one : V) (scan_g : list Z -> option (V * list Z)) (fuel : nat) (junk : nat -> Z -> list V) (fs : files) (A : csr V).
Hypothesis HJ : forall k n, 0 <= n -> Zlen (junk k n) = n.
Hypothesis Hm : 0 <= cm A.
Notation ones := (map (fun _ => one) (zrange 0 (cm A))).
Lemma ones_ok : forZ 0 (cm A) (fun i b => set b i one) (junk 1%nat (cm A)) = Some ones.
Proof. apply fill_ok; auto. Qed.
Theorem rhs_default buf2 : rhs one scan_g fuel junk fs [] buf2 A = Some ones.
Proof. unfold rhs. apply ones_ok. Qed.
Theorem rhs_short name more buf2 : Zlen name < 4 -> rhs one scan_g fuel junk fs (name :: more) buf2 A = Some ones.
Proof. intros H. unfold rhs. replace (4 <=? Zlen name) with false by lia. apply ones_ok. Qed.
(** The buffer: [u] is overwritten by the stem, [s] and a 0 follow. *)
Theorem rhs_absent stem ext more u s w : Zlen ext = 4 -> ~ In 0 stem -> Zlen u = Zlen stem -> ~ In 0 s -> fs (stem ++ s ++ str "_b.mtx") = None ->
  rhs one scan_g fuel junk fs ((stem ++ ext) :: more) (u ++ s ++ 0 :: w) A = Some ones.
Proof.
  intros H1 H2 H3 H4 Ef. unfold rhs. pose proof (Zlen_nonneg stem). replace (4 <=? Zlen (stem ++ ext)) with true by (rewrite Zlen_app; lia).
  rewrite (proj2 (rhs_name_iff stem ext u (s ++ 0 :: w) _ H1 H2 H3) (ex_intro _ s (ex_intro _ w (conj eq_refl (conj H4 eq_refl))))). rewrite Ef. apply ones_ok.
Qed.
Theorem rhs_file stem ext more u s w file b c n xs : Zlen ext = 4 -> ~ In 0 stem -> Zlen u = Zlen stem -> ~ In 0 s -> fs (stem ++ s ++ str "_b.mtx") = Some file ->
  array_file scan_g b c n 1 xs file -> b <> Pattern -> ~ (b = Real /\ c = Hermitian) -> 0 <= n -> Zlen xs = n ->
  rhs one scan_g fuel junk fs ((stem ++ ext) :: more) (u ++ s ++ 0 :: w) A = Some xs.
Proof.
  intros H1 H2 H3 H4 Ef HF Hb Hh Hn L. unfold rhs. pose proof (Zlen_nonneg stem). replace (4 <=? Zlen (stem ++ ext)) with true by (rewrite Zlen_app; lia).
  rewrite (proj2 (rhs_name_iff stem ext u (s ++ 0 :: w) _ H1 H2 H3) (ex_intro _ s (ex_intro _ w (conj eq_refl (conj H4 eq_refl))))). rewrite Ef. rewrite (load_vector_ok scan_g fuel (junk 0%nat) b c n 1 xs file HF Hb Hh) by (auto; lia). reflexivity.
Qed.
End Rhs.

(** *** The solvers *)
Lemma strict {V} (rows : rows_t V) : rows_sorted rows -> (forall u, NoDup (cols_of rows u)) -> sorted_rows rows.
Proof.
  intros HS HN r Hr. pose proof (HS _ (nth_row_In rows r Hr)) as S. pose proof (HN r) as N. unfold cols_of in N. unfold row_sorted, sortedZ in S. unfold ssortedZ. induction S as [|a l S IH F]; [constructor|]. inversion N; subst. constructor; auto.
  rewrite Forall_forall in *. intros x Hx. specialize (F x Hx). assert (x <> a) by congruence. lia.
Qed.
Section Solvers.
Context {V : Type}.
Variables (zero one : V) (add mul sub : V -> V -> V) (opp : V -> V) (div : V -> V -> V) (sqrt : V -> V) (ltb : V -> V -> bool) (is0 is1 ism1 : V -> bool).
Variables (inv : V -> V) (n : Z) (rows : rows_t V) (A : csr V).
Hypothesis HY : symmetric_matrix inv 0 n rows A.
Hypothesis HF : full_diag rows.
Variables (nd : bool) (T : Z) (W : @mworld V).
Hypothesis HW : mw_ok n (off (nthl rows) n) T A W.
Variables (tol : V) (maxiter : Z) (x b : list V).
Hypothesis Lx : Zlen x = n.
Hypothesis Lb : Zlen b = n.
Hypothesis Hmx : 0 <= maxiter.
Notation solvers := (solvers zero one add sub mul div opp sqrt ltb is0 is1 ism1 nd A T W tol maxiter x b).
Notation x0 := (map (fun _ => zero) (zrange 0 n)).

Lemma pr_n : 0 <= n. Proof. pose proof (ym_len _ _ _ _ _ HY). pose proof (Zlen_nonneg rows). lia. Qed.
Lemma pr_zero y : Zlen y = n -> zeroed zero A y = Some x0.
Proof. intros L. unfold zeroed. destruct (ym_rep _ _ _ _ _ HY) as (-> & _). rewrite (ym_len _ _ _ _ _ HY). apply fill_ok; auto using pr_n. Qed.
Lemma pr_args k : pcg_args n T (mw_w W k) x0 b (mw_j W k).
Proof. constructor; auto; try apply HW. apply Zlen_fill, pr_n. Qed.

(** Each solver returns. *)
Notation r1 := (pcg_symgs zero one add sub mul div opp sqrt ltb is0 is1 ism1 A T (mw_q W 0%nat) (mw_w W 0%nat) tol x0 b maxiter (mw_j W 0%nat)).
Notation p2 := (symgs_opt_run zero one add sub mul div opp sqrt ltb is0 is1 ism1 nd A T (mw_agg W) (mw_tr W) (mw_cost W) (mw_l W 0%nat) (mw_q W 1%nat) (mw_r W 0%nat) (mw_w W 1%nat) tol x0 b maxiter (mw_j W 1%nat)).
Notation r3 := (pcg_ilu0 zero one add sub mul div opp sqrt ltb is0 is1 ism1 A T (mw_q W 2%nat) (mw_w W 2%nat) tol x0 b maxiter (mw_j W 2%nat)).
Notation p4 := (ilu0_opt_run zero one add sub mul div opp sqrt ltb is0 is1 ism1 nd A T (mw_agg W) (mw_tr W) (mw_cost W) (mw_l W 1%nat) (mw_sch W) (mw_q W 3%nat) (mw_r W 1%nat) (mw_w W 3%nat) tol x0 b maxiter (mw_j W 3%nat)).
Lemma pr_1 : returns n maxiter r1.
Proof.
  destruct (ym_sched _ _ _ _ _ HY HF) as (dp & idg & E1 & E2 & L & HI & HM). pose proof (ym_len _ _ _ _ _ HY) as Hn.
  rewrite <- Hn. apply (symgs_safe zero one add sub mul div opp sqrt ltb is0 is1 ism1 rows A idg); rewrite ?Hn; auto; try apply HY; try apply HW; auto using pr_args. apply (ym_diagptr_len _ _ _ _ _ HY).
Qed.
Lemma pr_2 : (exists r, p2 r) /\ forall r, p2 r -> returns n maxiter r.
Proof.
  destruct (ym_sched _ _ _ _ _ HY HF) as (dp & idg & E1 & E2 & L & HI & HM). pose proof (ym_len _ _ _ _ _ HY) as Hn. destruct (mk_S _ _ _ _ _ HW 0%nat dp E1) as (Sd & o2t & t2o & ES).
  destruct (symgs_opt_safe zero one add sub mul div opp sqrt ltb is0 is1 ism1 rows A dp idg T (mw_agg W) (mw_cost W) (mw_l W 0%nat) (mw_tr W) Sd o2t t2o nd (mw_q W 1%nat) (mw_r W 0%nat)) as (LL & U & A' & L' & U' & EP & ER & (prec & HP) & HR); rewrite ?Hn; auto; try apply HY; try apply HW; try (apply (ym_diagptr_len _ _ _ _ _ HY)).
  unfold symgs_opt_run. rewrite EP. rewrite (rep_base _ _ _ _ _ (ym_rep _ _ _ _ _ HY)), E1, ES, ER. split; [eauto|]. intros r (prec' & HP' & ->). rewrite Hn in HR. apply HR; auto using pr_args.
Qed.
Lemma pr_3 : returns n maxiter r3.
Proof.
  destruct (ym_sched _ _ _ _ _ HY HF) as (dp & idg & E1 & E2 & L & HI & HM). pose proof (ym_len _ _ _ _ _ HY) as Hn. pose proof (strict rows (ym_sorted _ _ _ _ _ HY) (ym_once _ _ _ _ _ HY)) as HS.
  rewrite <- Hn. apply (ilu0_safe zero one add sub mul div opp sqrt ltb is0 is1 ism1 0 rows A dp); rewrite ?Hn; auto; try apply HY; try apply HW; auto using pr_args. apply (diagptr_of 0 n rows rows A dp HM (ym_ok _ _ _ _ _ HY) sub mul div (fun _ => 1)).
Qed.
Lemma pr_4 : (exists r, p4 r) /\ forall r, p4 r -> returns n maxiter r.
Proof.
  destruct (ym_sched _ _ _ _ _ HY HF) as (dp & idg & E1 & E2 & L & HI & HM). pose proof (ym_len _ _ _ _ _ HY) as Hn. pose proof (strict rows (ym_sorted _ _ _ _ _ HY) (ym_once _ _ _ _ _ HY)) as HS. destruct (mk_S _ _ _ _ _ HW 1%nat dp E1) as (Sd & o2t & t2o & ES).
  destruct (ilu0_opt_safe zero one add sub mul div opp sqrt ltb is0 is1 ism1 0 rows A dp) with (T := T) (agg := mw_agg W) (cost := mw_cost W) (w := mw_l W 1%nat) (tr := mw_tr W) (S := Sd) (o2t := o2t) (t2o := t2o) (nd := nd) (q := mw_q W 3%nat) (rq := mw_r W 1%nat) (sch := mw_sch W) (pw := mw_w W 3%nat) (tol := tol) (x := x0) (b := b) (maxiter := maxiter) (j := mw_j W 3%nat)
    as (fin & LL & U & A' & L' & U' & Hf & Hu & EP & ER & (prec & HP) & HR); rewrite ?Hn; auto; try apply HY; try apply HW; auto using pr_args. { intros d Ed. congruence. }
  unfold ilu0_opt_run. rewrite (rep_base _ _ _ _ _ (ym_rep _ _ _ _ _ HY)), E1, ES. split.
  - eexists. exists (Some fin). split; auto. rewrite EP, ER. eauto.
  - intros r (fin' & Hf' & Hr). rewrite (Hu _ Hf') in Hr. rewrite EP, ER in Hr. destruct Hr as (prec' & HP' & ->). rewrite Hn in HR. apply HR; auto.
Qed.

(** All runs return four results. *)
Theorem solvers_safe : (exists out, solvers out) /\ forall out, solvers out -> exists a b c d, out = Some [a; b; c; d] /\ returns n maxiter (Some a) /\ returns n maxiter (Some b) /\ returns n maxiter (Some c) /\ returns n maxiter (Some d).
Proof.
  pose proof pr_1 as (x1 & k1 & e1 & E1 & L1 & K1). destruct pr_2 as ((o2 & H2) & R2). pose proof pr_3 as (x3 & k3 & e3 & E3 & L3 & K3). destruct pr_4 as ((o4 & H4) & R4). split.
  - destruct (R2 _ H2) as (x2 & k2 & e2 & E2 & L2 & K2). subst o2. exists (a <- r1 ;; b <- Some (x2, k2, e2) ;; c <- r3 ;; d <- o4 ;; Some [a; b; c; d]). exists r1, (Some (x2, k2, e2)), r3, o4. rewrite pr_zero by auto. split; auto. unfold next. rewrite E1. cbn [fst]. rewrite pr_zero by auto. split; auto. rewrite pr_zero by auto. split; auto. rewrite E3. cbn [fst]. rewrite pr_zero by auto. auto.
  - intros out (o1 & o2' & o3 & o4' & HE & N2 & N3 & N4 & ->). rewrite pr_zero in HE by auto. subst o1. unfold next in N2. rewrite E1 in N2. cbn [fst] in N2. rewrite pr_zero in N2 by auto. destruct (R2 _ N2) as (x2 & k2 & e2 & -> & L2 & K2).
    unfold next in N3. cbn [fst] in N3. rewrite pr_zero in N3 by auto. subst o3. unfold next in N4. rewrite E3 in N4. cbn [fst] in N4. rewrite pr_zero in N4 by auto. destruct (R4 _ N4) as (x4 & k4 & e4 & -> & L4 & K4). rewrite E1, E3.
    do 4 eexists. split; [reflexivity|]. repeat split; unfold returns; eauto 10.
Qed.
(** The results are those of the solvers from 0. *)
Lemma solvers_parts out : solvers out -> exists a b c d, out = Some [a; b; c; d] /\ r1 = Some a /\ p2 (Some b) /\ r3 = Some c /\ p4 (Some d).
Proof.
  pose proof pr_1 as (x1 & k1 & e1 & E1 & L1 & K1). destruct pr_2 as (_ & R2). pose proof pr_3 as (x3 & k3 & e3 & E3 & L3 & K3). destruct pr_4 as (_ & R4).
  intros (o1 & o2' & o3 & o4' & HE & N2 & N3 & N4 & ->). rewrite pr_zero in HE by auto. subst o1. unfold next in N2. rewrite E1 in N2. cbn [fst] in N2. rewrite pr_zero in N2 by auto. destruct (R2 _ N2) as (x2 & k2 & e2 & -> & L2 & K2).
  unfold next in N3. cbn [fst] in N3. rewrite pr_zero in N3 by auto. subst o3. unfold next in N4. rewrite E3 in N4. cbn [fst] in N4. rewrite pr_zero in N4 by auto. destruct (R4 _ N4) as (x4 & k4 & e4 & -> & L4 & K4). rewrite E1, E3. do 4 eexists. split; [reflexivity|]. auto.
Qed.

(** Exact arithmetic. *)
Variable finv : V -> V.
Hypothesis FT : field_theory zero one add mul sub opp div finv (@eq V).
Hypothesis H0 : forall a, is0 a = true -> a = zero.
Hypothesis H1 : forall a, is1 a = true -> a = one.
Hypothesis Hm1 : forall a, ism1 a = true -> a = opp one.
Hypothesis HD : forall i v, In (i, (i, v)) (entries rows) -> v <> zero /\ mul v (inv v) = one.
Notation id := (fun r => finv (coefat zero add (nthl rows r) r)).
Notation spec minv := (pcg_spec zero one add mul div opp sqrt ltb true rows minv tol x0 b maxiter).

Lemma inv_unique v : v <> zero -> mul v (inv v) = one -> inv v = finv v.
Proof.
  clear - FT. intros Hv E. pose proof (Finv_l FT v Hv) as E'. destruct (F_R FT) as [? ? ? M1 MC MA ? ? ?]. rewrite <- (M1 (inv v)), <- E', <- MA, E, MC. apply M1.
Qed.
Lemma pr_id : forall r, 0 <= r < n -> exists v, In (r, v) (nthl rows r) /\ coefat zero add (nthl rows r) r = v /\ v <> zero /\ inv v = finv v.
Proof.
  intros r Hr. rewrite <- (ym_len _ _ _ _ _ HY) in Hr. destruct (HF r Hr) as (v & Hv). exists v. split; auto. destruct (HD r v) as (D1 & D2); [now apply In_entries|]. split; [|split; auto using inv_unique].
  apply (coefat_one zero one add mul sub opp div finv FT); auto. apply (ym_once _ _ _ _ _ HY r).
Qed.
Theorem solvers_exact : exists lu minv,
  inverts n (symgs_matrix zero one add mul rows id) minv /\ map (map fst) lu = map (map fst) rows /\
  (pivots_ok zero add lu -> factors zero one add mul rows lu /\ forall lu', factors zero one add mul rows lu' -> lu' = lu) /\
  forall out, solvers out -> exists c d, out = Some [spec minv; spec minv; c; d] /\
    (pivots_ok zero add lu -> exists minv', inverts n (ilu_matrix zero one add mul lu) minv' /\ c = spec minv' /\ d = spec minv').
Proof.
  destruct (ym_sched _ _ _ _ _ HY HF) as (dp & idg & E1 & E2 & L & HI & HM). pose proof (ym_len _ _ _ _ _ HY) as Hn. pose proof (strict rows (ym_sorted _ _ _ _ _ HY) (ym_once _ _ _ _ _ HY)) as HS.
  pose proof (mk_T _ _ _ _ _ HW) as HT. pose proof (diagptr_of 0 n rows rows A dp HM (ym_ok _ _ _ _ _ HY) sub mul div (fun _ => 1)) as Hdp.
  assert (Hid : holds idg n id). { intros r Hr. destruct (pr_id r Hr) as (v & Hv & -> & _ & E). rewrite (HI r v); [now rewrite E|]. apply In_entries. split; auto. lia. }
  assert (Hone : forall r, 0 <= r < n -> mul (coefat zero add (nthl rows r) r) (finv (coefat zero add (nthl rows r) r)) = one).
  { intros r Hr. destruct (pr_id r Hr) as (v & _ & -> & Nv & _). rewrite (Rmul_comm (F_R FT)). now apply (Finv_l FT). }
  pose proof (ym_rep _ _ _ _ _ HY) as YR. pose proof (ym_ok _ _ _ _ _ HY) as YO. pose proof (ym_own _ _ _ _ _ HY) as YX. pose proof (ym_diagptr_len _ _ _ _ _ HY) as YD. pose proof (ym_sorted _ _ _ _ _ HY) as YS.
  pose proof HW as [M0 M1 M2 M3 M4 M5 M6]. pose proof pr_args as PA. destruct (M6 0%nat dp E1) as (S0 & o0 & t0 & C0). destruct (M6 1%nat dp E1) as (S1 & o1 & t1 & C1). pose proof solvers_parts as SP. clear HW. revert M1 M2 M3 M4 M5 M6 PA SP YR YO HM Hid Hone L. rewrite <- Hn. intros M1 M2 M3 M4 M5 M6 PA SP YR YO HM Hid Hone L.
  destruct (symgs_exact zero one add mul sub opp (F_R FT) div sqrt ltb is0 is1 ism1 H0 H1 Hm1 rows A idg id YR YO YX YD E2 L Hid Hone T (mw_q W 0%nat) HT (proj1 (M1 0%nat))) as ((minv & Hi) & X1).
  destruct (symgs_opt_exact zero one add mul sub opp (F_R FT) div sqrt ltb is0 is1 ism1 H0 H1 Hm1 rows A idg id YR YO YX YD E2 L Hid Hone dp T (mw_q W 1%nat) (mw_agg W) (mw_cost W) (mw_l W 0%nat) (mw_tr W) S0 o0 t0 nd (mw_r W 0%nat) HM (M5 0%nat) C0 (proj1 (M1 1%nat)) (M2 0%nat)) as (_ & L2 & U2 & A2 & L2' & U2' & EP2 & ER2 & _ & X2).
  destruct (ilu0_exact_lu zero one add mul sub opp div finv FT sqrt ltb is0 is1 ism1 H0 H1 Hm1 0 rows A dp YR (or_introl eq_refl) YO HS Hdp T (mw_q W 2%nat) eq_refl E1 HT (M1 2%nat)) as (lu & (P & C) & X3).
  destruct (ilu0_opt_exact_lu zero one add mul sub opp div finv FT sqrt ltb is0 is1 ism1 H0 H1 Hm1 0 rows A dp YR (or_introl eq_refl) YO HS Hdp T (mw_q W 3%nat) (mw_agg W) (mw_cost W) (mw_l W 1%nat) (mw_tr W) S1 o1 t1 nd (mw_r W 1%nat) (mw_sch W) HM YX ltac:(intros d Ed; congruence) (M5 1%nat) C1 (M1 3%nat) (M2 1%nat)) as (fin & lu4 & L4 & U4 & A4 & L4' & U4' & _ & F4 & EP4 & ER4 & _ & (P4 & C4) & X4).
  assert (EL : lu4 = lu) by exact (ilu_rows_one _ _ _ _ _ _ _ _ _ C4 C). rewrite EL in X4. clear EL P4 C4.
  exists lu, minv. split; auto. split; auto. split. { intros Hp. destruct (X3 Hp) as (F & FU & _). auto. }
  intros out Ho. destruct (SP out Ho) as (ra & rb & rc & rd & -> & Ea & Eb & Ec & Ed). exists rc, rd.
  rewrite (X1 minv Hi) in Ea by apply PA. injection Ea as <-.
  unfold symgs_opt_run in Eb. rewrite EP2, (rep_base _ _ _ _ _ YR), E1, C0, ER2 in Eb. destruct Eb as (prec & HP & Eb). rewrite (X2 prec minv HP Hi) in Eb by apply PA. injection Eb as ->. split; auto.
  intros Hp. destruct (X3 Hp) as (_ & _ & (minv' & Hi') & Y3). destruct (X4 Hp) as (_ & _ & _ & Y4). exists minv'. split; auto.
  rewrite (Y3 minv' Hi') in Ec by apply PA. injection Ec as <-. split; auto.
  unfold ilu0_opt_run in Ed. rewrite (rep_base _ _ _ _ _ YR), E1, C1 in Ed. destruct Ed as (fin' & Hf & Ed). rewrite (F4 _ Hf) in Ed. rewrite EP4, ER4 in Ed. destruct Ed as (prec' & HP' & Ed). rewrite (Y4 prec' minv' HP' Hi') in Ed by apply PA. now injection Ed as ->.
Qed.
End Solvers.

Lemma pr_int_short m : 1 <= m <= 999 -> Zlen (pr_int m) < 4.
Proof.
  intros H. assert (K : forallb (fun m => Zlen (pr_int m) <? 4) (zrange 1 1000) = true) by (vm_compute; reflexivity).
  rewrite forallb_forall in K. specialize (K m). rewrite In_zrange in K. specialize (K ltac:(lia)). lia.
Qed.

(** *** The program *)
(** Up to two threads can always be scheduled. *)
Theorem two_threads {V} (inv : V -> V) n (rows : rows_t V) (A : csr V) T agg tr cost w : symmetric_matrix inv 0 n rows A -> full_diag rows -> sched_args n T cost w -> T <= 2 ->
  forall dp, diagptr A = Some dp -> exists Sd o2t t2o, constructTaskGraph (graph_of A 0 dp) T false agg tr cost w = Some (Sd, o2t, t2o).
Proof.
  intros HY HF HA HT dp E. destruct (ym_gauss_seidel inv 0 n rows A HY HF) as (dp' & idg & E1 & _ & _ & K). rewrite E in E1. injection E1 as <-. now apply (K T agg tr cost w HA).
Qed.

Section Main.
Context {V : Type}.
Variables (zero one : V) (add mul sub : V -> V -> V) (opp : V -> V) (div : V -> V -> V) (sqrt : V -> V) (ltb : V -> V -> bool) (is0 is1 ism1 : V -> bool).
Variables (scan_g : list Z -> option (V * list Z)) (of_ll : Z -> V) (recip : V -> V) (decd : list Z -> V) (d di o : V).
Notation main := (pcg_main zero one add sub mul div opp sqrt ltb is0 is1 ism1 scan_g of_ll recip decd d di o).
Notation named := (csr_named scan_g of_ll one recip decd d di o).
Notation spec tol rows b minv := (pcg_spec zero one add mul div opp sqrt ltb true rows minv tol (map (fun _ => zero) (zrange 0 (Zlen rows))) b 20000).

(** A run of the program on the matrix [rows] and the right-hand side [b]: in any
    arithmetic it ends with four results after at most 20000 iterations each; in exact
    arithmetic these are what the textbook method computes from 0. *)
Definition solves_all (inv : V -> V) (rows : rows_t V) (b : list V) (tol : V) (prog : option (list (list V * Z * V)) -> Prop) : Prop :=
  (exists out, prog out) /\
  (forall out, prog out -> exists r1 r2 r3 r4, out = Some [r1; r2; r3; r4] /\ forall r, In r [r1; r2; r3; r4] -> returns (Zlen rows) 20000 (Some r)) /\
  forall finv, field_theory zero one add mul sub opp div finv (@eq V) ->
    (forall a, is0 a = true -> a = zero) -> (forall a, is1 a = true -> a = one) -> (forall a, ism1 a = true -> a = opp one) ->
    (forall i v, In (i, (i, v)) (entries rows) -> v <> zero /\ mul v (inv v) = one) ->
    exists lu minv, inverts (Zlen rows) (symgs_matrix zero one add mul rows (fun r => finv (coefat zero add (nthl rows r) r))) minv /\ map (map fst) lu = map (map fst) rows /\
      (pivots_ok zero add lu -> factors zero one add mul rows lu /\ forall lu', factors zero one add mul rows lu' -> lu' = lu) /\
      forall out, prog out -> exists c d, out = Some [spec tol rows b minv; spec tol rows b minv; c; d] /\
        (pivots_ok zero add lu -> exists minv', inverts (Zlen rows) (ilu_matrix zero one add mul lu) minv' /\ c = spec tol rows b minv' /\ d = spec tol rows b minv').

Theorem main_runs R fs args buf2 junk nd T W tol inv rows A b : (forall k n, 0 <= n -> Zlen (junk k n) = n) ->
  named R fs (match args with a :: _ => a | [] => pr_int 64 end) 0 false 1 = Some A -> symmetric_matrix inv 0 (Zlen rows) rows A -> full_diag rows ->
  rhs one scan_g (r_fuel R) junk fs args buf2 A = Some b -> Zlen b = Zlen rows -> mw_ok (Zlen rows) (off (nthl rows) (Zlen rows)) T A (W A) ->
  solves_all inv rows b tol (main R fs args buf2 junk nd T W tol).
Proof.
  intros HJ EN HY HF EB LB HW. pose proof (Zlen_nonneg rows) as Hn. assert (Ec : cm A = Zlen rows) by (destruct (ym_rep _ _ _ _ _ HY) as (-> & _); auto).
  assert (EQ : forall out, main R fs args buf2 junk nd T W tol out <-> solvers zero one add sub mul div opp sqrt ltb is0 is1 ism1 nd A T (W A) tol 20000 (junk 2%nat (cm A)) b out).
  { intros out. unfold pcg_main. rewrite EN, EB. tauto. }
  assert (Lx : Zlen (junk 2%nat (cm A)) = Zlen rows) by (rewrite Ec; auto).
  destruct (solvers_safe zero one add mul sub opp div sqrt ltb is0 is1 ism1 inv (Zlen rows) rows A HY HF nd T (W A) HW tol 20000 _ b Lx LB ltac:(lia)) as ((out & Ho) & K). split; [exists out; now apply EQ|]. split.
  - intros out' H. apply EQ in H. destruct (K _ H) as (r1 & r2 & r3 & r4 & -> & K1 & K2 & K3 & K4). exists r1, r2, r3, r4. split; auto. intros r [<-|[<-|[<-|[<-|[]]]]]; auto.
  - intros finv FT H0 H1 H2 HD. destruct (solvers_exact zero one add mul sub opp div sqrt ltb is0 is1 ism1 inv (Zlen rows) rows A HY HF nd T (W A) HW tol 20000 _ b Lx LB ltac:(lia) finv FT H0 H1 H2 HD) as (lu & minv & X1 & X2 & X3 & X4).
    exists lu, minv. split; auto. split; auto. split; auto. intros out' H. apply EQ in H. exact (X4 _ H).
Qed.

(** A symmetric coordinate file [stem].mtx that lists the diagonal; behind the copied
    characters the buffer holds [s] and a 0.  The right-hand side is the column of
    numbers of the file stem ++ s ++ "_b.mtx", or all ones if there is no such file. *)
Theorem main_file R fs stem ext more u s w file b c m0 es nd T W tol junk rhs0 :
  (forall k n, 0 <= n -> Zlen (junk k n) = n) -> runtime_ok R -> text_name (stem ++ ext) -> Zlen ext = 4 -> ~ In 0 stem -> Zlen u = Zlen stem -> ~ In 0 s ->
  fs (stem ++ ext) = Some file -> coordinate_file scan_g of_ll one b c [m0; m0; Zlen es] es file -> kind_ok b c -> c = Symmetric -> 0 <= m0 ->
  (forall x y v, In (x, (y, v)) es -> 1 <= x <= m0 /\ 1 <= y <= m0) -> distinct es -> (forall i, 1 <= i <= m0 -> exists v, In (i, (i, v)) es) ->
  match fs (stem ++ s ++ str "_b.mtx") with
  | None => rhs0 = map (fun _ => one) (zrange 0 m0)
  | Some bf => exists b' c', array_file scan_g b' c' m0 1 rhs0 bf /\ b' <> Pattern /\ ~ (b' = Real /\ c' = Hermitian) /\ Zlen rhs0 = m0
  end ->
  exists rows A, Zlen rows = m0 /\ (forall r c v, In (r, (c, v)) (entries rows) <-> symmetric_entries one m0 m0 es r c v) /\ symmetric_matrix recip 0 (Zlen rows) rows A /\
    (mw_ok m0 (off (nthl rows) m0) T A (W A) -> solves_all recip rows rhs0 tol (main R fs ((stem ++ ext) :: more) (u ++ s ++ 0 :: w) junk nd T W tol)).
Proof.
  intros HJ HR HN H4 HS Lu Hs Ef HF HK -> Hm HE HD HG HB.
  destruct (file_symmetric_matrix scan_g of_ll one recip decd d di o R fs (stem ++ ext) file b Symmetric m0 es 0 false 1 m0) as (rows & A & EN & HY & HI); auto; try lia.
  { split; [apply Z.divide_1_l|lia]. }
  pose proof (ym_len _ _ _ _ _ HY) as Ln. pose proof (file_full_diag one m0 m0 es rows Ln HI HG) as HFD. exists rows, A. split; auto. split; auto. rewrite Ln. split; auto. intros HW.
  assert (Ec : cm A = m0) by (destruct (ym_rep _ _ _ _ _ HY) as (-> & _); auto).
  assert (EB : rhs one scan_g (r_fuel R) junk fs ((stem ++ ext) :: more) (u ++ s ++ 0 :: w) A = Some rhs0 /\ Zlen rhs0 = m0).
  { destruct (fs (stem ++ s ++ str "_b.mtx")) as [bf|] eqn:Eb.
    - destruct HB as (b' & c' & B1 & B2 & B3 & B4). split; auto. apply (rhs_file one scan_g (r_fuel R) junk fs A HJ stem ext more u s w bf b' c' m0 rhs0); auto.
    - subst rhs0. split; [|now apply Zlen_fill]. rewrite <- Ec. apply rhs_absent; auto. lia. }
  destruct EB as (EB & LB). apply (main_runs R fs ((stem ++ ext) :: more) (u ++ s ++ 0 :: w) junk nd T W tol recip rows A rhs0); rewrite ?Ln; auto.
Qed.
(** The Laplacian of size m (64 without an argument); the right-hand side is all ones. *)
Theorem main_size R fs args m buf2 junk nd T W tol : (forall k n, 0 <= n -> Zlen (junk k n) = n) -> runtime_ok R -> 1 <= m <= 999 -> match args with [] => m = 64 | a :: _ => a = pr_int m end ->
  exists rows A, laplacian_rows d o m m m rows /\ symmetric_matrix (fun _ => di) 0 (Zlen rows) rows A /\
    (mw_ok (Zlen rows) (off (nthl rows) (Zlen rows)) T A (W A) -> solves_all (fun _ => di) rows (map (fun _ => one) (zrange 0 (Zlen rows))) tol (main R fs args buf2 junk nd T W tol)).
Proof.
  intros HJ HR Hm HA. assert (I32 : int32 m) by (unfold int32; lia).
  destruct (size_symmetric_matrix scan_g of_ll one recip decd d di o m ltac:(lia) I32) as (rows & HL & HFD & K). destruct (K R fs 0 false 1 HR (or_introl eq_refl)) as (A & EN & HY). exists rows, A. split; auto.
  pose proof (ym_len _ _ _ _ _ HY) as Ln. pose proof HY as HY'. rewrite <- Ln in HY'. split; auto. intros HW. assert (Ec : cm A = Zlen rows) by (destruct (ym_rep _ _ _ _ _ HY') as (-> & _); auto). pose proof (Zlen_nonneg rows) as Hn.
  apply main_runs with (A := A); auto; [| |now apply Zlen_fill].
  - destruct args as [|a more]; [now subst m|now subst a].
  - rewrite <- Ec. destruct args as [|a more]; [apply rhs_default; auto; lia|]. apply rhs_short; auto; [lia|]. subst a. now apply pr_int_short.
Qed.
(** A stem as long as the buffer or longer: the copy leaves the buffer (pcg.cpp:693-696). *)
Theorem main_long R fs stem ext more buf2 junk nd T W tol out : Zlen ext = 4 -> ~ In 0 stem -> Zlen buf2 <= Zlen stem -> main R fs ((stem ++ ext) :: more) buf2 junk nd T W tol out <-> out = None.
Proof.
  intros H4 H0 HL. unfold pcg_main. destruct (named R fs (stem ++ ext) 0 false 1) as [A|]; [|tauto]. unfold rhs. pose proof (Zlen_nonneg stem). replace (4 <=? Zlen (stem ++ ext)) with true by (rewrite Zlen_app; lia).
  rewrite rhs_name_long by auto. tauto.
Qed.
End Main.
