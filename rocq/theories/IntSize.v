(** * Sizes and positions in work arrays, computed with int.

    The other models compute with unbounded integers.  Here the expressions that
    give the sizes of work arrays, and the positions of a thread in them, are
    evaluated as the code does, in int: a result outside of int is undefined.
    Allocation sizes of type size_t (the factor sizeof) are not modelled. *)
From Coq Require Import ZArith List Lia Bool.
From Coq Require Import ZifyBool.
From Verif Require Import Base Interleave Spec PrefixSum Flat CountSort Laplacian.
Import ListNotations.
Open Scope Z_scope.

(** ** int *)
Definition int_min : Z := -2147483648.
Definition int_max : Z := 2147483647.
Definition ck (z : Z) : option Z := if (int_min <=? z) && (z <=? int_max) then Some z else None.
Definition iadd (a b : Z) : option Z := ck (a + b).
Definition isub (a b : Z) : option Z := ck (a - b).
Definition imul (a b : Z) : option Z := ck (a * b).
Definition iquot (a b : Z) : option Z := assert! negb (b =? 0) ;; ck (Z.quot a b).
Definition irem (a b : Z) : option Z := assert! negb (b =? 0) ;; assert! (int_min <=? Z.quot a b) && (Z.quot a b <=? int_max) ;; Some (Z.rem a b).

(** ** Model *)
(** An array with a block of [w] elements for each of [M] threads and element [i] of
    the block of thread [tid]:
    reordering/ConnectedComponents.cpp:82, 98, 116 (w = A->m);
    reordering/RCM.cpp:179-187, 223-255, 392-437, 580 (w = m);
    reordering/BFSBipartite.cpp:445-453, 486-533, 660-688 (w = max(m, n));
    reordering/RCM.cpp:78, 86-113 (w = numLevels). *)
Definition block_size (w M : Z) : option Z := imul w M.
Definition block_index (w tid i : Z) : option Z := p <- imul w tid ;; iadd p i.

(** The workspace of prefixSumMultiple, PrefixSum.cpp:35, 50, 55, 61, of
    n*(nthreads + 1) elements by Utils.hpp:96. *)
Definition workspace_size (n T : Z) : option Z := t1 <- iadd T 1 ;; imul n t1.
Definition workspace_index (n t i : Z) : option Z := t1 <- iadd t 1 ;; p <- imul t1 n ;; iadd p i.

(** The counters of the counting sort: CSR.cpp:499 and
    reordering/ConnectedComponents.cpp:208. *)
Definition counters_size (K M : Z) : option Z := k1 <- iadd K 1 ;; imul k1 M.
(** CSR.cpp:462-465, reordering/ConnectedComponents.cpp:53-56 *)
Definition itranspose_idx (idx d1 d2 : Z) : option Z :=
  r <- irem idx d1 ;; p <- imul r d2 ;; q <- iquot idx d1 ;; iadd p q.
(** CSR.cpp:538: the bounds of the first loop, [tid*n + 1] and [(tid + 1)*n]. *)
Definition iscan_bounds (K tid : Z) : option (Z * Z) :=
  a <- imul tid K ;; lo <- iadd a 1 ;; t1 <- iadd tid 1 ;; hi <- imul t1 K ;; Some (lo, hi).

(** The arrays of getRCMPermutation, reordering/RCM.cpp:688-694, with those of
    bfsAuxData (:179-190), in the order of their allocation: children_array, q[0],
    q[1], rowptrs, write_offset, prefixSum_array. *)
Definition PAR_THR : Z := 65536.
Definition rcm_sizes (m maxDegree M : Z) : option (list Z) :=
  c <- imul M (Z.max PAR_THR maxDegree) ;;
  q0 <- imul m M ;; q1 <- imul m M ;; r <- imul M m ;;
  m1 <- iadd m 1 ;; w <- imul m1 16 ;;
  p <- imul M PAR_THR ;; p1 <- iadd (Z.max p m) 1 ;;
  Some [c; q0; q1; r; w; p1].

(** findLevels_, LevelSchedule.cpp:503-510 with NUM_MAX_THREADS = 2048: the aligned
    number of rows, the size of buffer and the offset of tempBuffer. *)
Definition levels_width (n T : Z) : option Z := s <- iadd n T ;; s1 <- isub s 1 ;; Some (Z.max T s1).
Definition levels_sizes (n T : Z) : option (Z * Z * Z) :=
  a <- iadd n 15 ;; b <- iquot a 16 ;; c <- imul b 16 ;; al <- iadd c 128 ;;
  w <- levels_width n T ;; w5 <- imul 5 w ;; k <- imul 2048 (2 + 16 + 2 + 2) ;; sz <- iadd w5 k ;;
  t <- imul w 4 ;; Some (al, sz, t).
(** LevelSchedule.cpp:540-541: the offsets of q[tid] and rowPtrs[tid] *)
Definition levels_offsets (n T tid : Z) : option (Z * Z) :=
  w <- levels_width n T ;; s <- iquot w T ;; s2 <- imul s 2 ;; q <- imul s2 tid ;;
  w2 <- imul w 2 ;; Some (q, w2 + q).

(** COO.cpp:223-224 *)
Definition padded (m pad : Z) : option Z :=
  a <- iadd m pad ;; b <- isub a 1 ;; c <- iquot b pad ;; imul c pad.

(** Laplacian.cpp:33-34: the number of rows and the size of rowptr *)
Definition lap_sizes (nx ny nz : Z) : option (Z * Z) :=
  p <- imul nx ny ;; m <- imul p nz ;; m1 <- iadd m 1 ;; Some (m, m1).
(** Laplacian.cpp:66-79 *)
Definition lap_rowptr_int (nx ny nz : Z) (junk : list Z) : option (Z * list Z) :=
  rp0 <- set junk 0 0 ;;
  forZ 0 nz (fun iz s =>
    forZ 0 ny (fun iy s =>
      dy <- imul (lap_count iy ny nz) (lap_count iz nz nz) ;;
      forZ 0 nx (fun ix s =>
        let '(idx, rp) := s in
        a <- imul iz ny ;; b <- iadd a iy ;; c <- imul b nx ;; row <- iadd c ix ;;
        d <- imul (lap_count ix nx nz) dy ;; idx' <- iadd idx d ;;
        r1 <- iadd row 1 ;;
        rp' <- set rp r1 idx' ;; Some (idx', rp')) s) s) (0, rp0).

(** ** Proofs *)
Lemma ck_iff z : ck z <> None <-> int_min <= z <= int_max.
Proof. unfold ck. destruct (_ && _) eqn:E; split; intros H; try lia; congruence. Qed.
Lemma ck_ok z : int_min <= z <= int_max -> ck z = Some z.
Proof. intros H. unfold ck. replace (_ && _) with true by lia. reflexivity. Qed.
Lemma ck_Some z y : ck z = Some y -> y = z /\ int_min <= z <= int_max.
Proof. unfold ck. destruct (_ && _) eqn:E; [|discriminate]. intros [= <-]. lia. Qed.
Lemma ck_out z : ~ int_min <= z <= int_max -> ck z = None.
Proof. intros H. unfold ck. replace (_ && _) with false by lia. reflexivity. Qed.
Ltac ck_facts := repeat match goal with H : ck _ = Some _ |- _ => apply ck_Some in H; destruct H as [? H] end.

(** *** Blocks *)
Theorem block_size_iff w M : 0 <= w -> 0 <= M -> (block_size w M = Some (w * M) <-> w * M <= int_max) /\ (block_size w M = None <-> int_max < w * M).
Proof.
  intros Hw HM. unfold block_size, imul. assert (0 <= w * M) by nia. unfold ck.
  destruct (_ && _) eqn:E; unfold int_min, int_max in *; split; split; intros H'; try discriminate; try reflexivity; lia.
Qed.
Theorem block_index_ok w M tid i : w * M <= int_max -> 0 <= i < w -> 0 <= tid < M -> block_index w tid i = Some (w * tid + i) /\ 0 <= w * tid + i < w * M.
Proof.
  intros H Hi Ht. assert (0 <= w * tid) by nia. assert (w * tid + w <= w * M) by nia. unfold block_index, imul, iadd.
  rewrite ck_ok by (unfold int_min, int_max in *; lia). rewrite ck_ok by (unfold int_min, int_max in *; lia). split; [reflexivity|lia].
Qed.
Lemma block_inj w tid i tid' i' : 0 <= i < w -> 0 <= i' < w -> 0 <= tid -> 0 <= tid' -> w * tid + i = w * tid' + i' -> tid = tid' /\ i = i'.
Proof. intros. assert (tid = tid') by nia. subst. lia. Qed.
Theorem blocks_ok w M : 0 <= w -> 0 <= M ->
  (forall s, block_size w M = Some s -> s = w * M /\
    (forall tid i, 0 <= tid < M -> 0 <= i < w -> exists k, block_index w tid i = Some k /\ 0 <= k < s) /\
    (forall tid i tid' i' k, 0 <= tid < M -> 0 <= i < w -> 0 <= tid' < M -> 0 <= i' < w -> block_index w tid i = Some k -> block_index w tid' i' = Some k -> tid = tid' /\ i = i')) /\
  (block_size w M = None <-> int_max < w * M).
Proof.
  intros Hw HM. destruct (block_size_iff w M Hw HM) as [_ HN]. split; [|exact HN].
  intros s Hs. assert (w * M <= int_max) as HL. { destruct (Z_le_gt_dec (w * M) int_max); auto. assert (block_size w M = None) by (apply HN; lia). congruence. }
  unfold block_size, imul in Hs. apply ck_Some in Hs. destruct Hs as [-> _]. split; [reflexivity|]. split.
  - intros tid i Ht Hi. destruct (block_index_ok w M tid i HL Hi Ht) as [E B]. eauto.
  - intros tid i tid' i' k Ht Hi Ht' Hi' E E'. destruct (block_index_ok w M tid i HL Hi Ht) as [F _]. destruct (block_index_ok w M tid' i' HL Hi' Ht') as [F' _].
    rewrite F in E. rewrite F' in E'. injection E as <-. injection E' as E'. apply (block_inj w); try lia.
Qed.

Theorem workspace_ok n T : 0 <= n -> 0 <= T < int_max ->
  (forall s, workspace_size n T = Some s -> s = n * (T + 1) /\ forall t i, -1 <= t < T -> 0 <= i < n -> exists k, workspace_index n t i = Some k /\ k = (t + 1) * n + i /\ 0 <= k < s) /\
  (workspace_size n T = None <-> int_max < n * (T + 1)).
Proof.
  intros Hn HT. assert (0 <= n * (T + 1)) by nia. unfold workspace_size, imul, iadd. rewrite (ck_ok (T + 1)) by (unfold int_min, int_max in *; lia). split.
  - intros s Hs. apply ck_Some in Hs. destruct Hs as [-> Hs]. split; [reflexivity|]. intros t i Ht Hi.
    assert (0 <= (t + 1) * n) by nia. assert ((t + 1) * n + n <= n * (T + 1)) by nia. unfold workspace_index, imul, iadd.
    rewrite (ck_ok (t + 1)) by (unfold int_min, int_max in *; lia). rewrite (ck_ok ((t + 1) * n)) by (unfold int_min, int_max in *; lia). rewrite ck_ok by (unfold int_min, int_max in *; lia).
    eexists. split; [reflexivity|]. split; [reflexivity|lia].
  - unfold ck. destruct (_ && _) eqn:E; split; intros; try discriminate; try reflexivity; unfold int_min, int_max in *; lia.
Qed.

(** *** Counters *)
Lemma transpose_idx_range K T i : 1 <= T -> 0 <= i < K * T -> 0 <= transpose_idx i T K < K * T.
Proof.
  intros HT Hi. unfold transpose_idx. pose proof (Z.rem_bound_pos i T ltac:(lia) ltac:(lia)). pose proof (Z.quot_rem' i T).
  assert (0 <= Z.quot i T) by (apply Z.quot_pos; lia). assert (Z.quot i T < K) by nia. nia.
Qed.
Theorem itranspose_ok K T M i : 1 <= T <= M -> (K + 1) * M <= int_max -> 0 <= i < K * T -> itranspose_idx i T K = Some (transpose_idx i T K).
Proof.
  intros HT HK Hi. pose proof (transpose_idx_range K T i ltac:(lia) Hi) as R. unfold transpose_idx in *.
  pose proof (Z.rem_bound_pos i T ltac:(lia) ltac:(lia)) as B. pose proof (Z.quot_rem' i T).
  assert (0 <= Z.quot i T) by (apply Z.quot_pos; lia). assert (Z.quot i T < K) by nia.
  assert (0 <= K) by nia. assert (K * T <= (K + 1) * M) by nia. assert (K <= K * T) by nia. assert (0 <= Z.rem i T * K) by nia.
  unfold itranspose_idx, irem, iquot, imul, iadd.
  replace (T =? 0) with false by lia. cbn [negb].
  replace (_ && _) with true by (unfold int_min, int_max in *; lia).
  rewrite (ck_ok (Z.rem i T * K)) by (unfold int_min, int_max in *; lia). rewrite (ck_ok (Z.quot i T)) by (unfold int_min, int_max in *; lia). rewrite ck_ok by (unfold int_min, int_max in *; lia). reflexivity.
Qed.
Theorem counters_ok K M : 0 <= K < int_max -> 1 <= M ->
  (forall s, counters_size K M = Some s -> s = (K + 1) * M /\ forall T, 1 <= T <= M ->
    (forall tid, 0 <= tid < T -> iscan_bounds K tid = Some (tid * K + 1, (tid + 1) * K)) /\
    (forall i, 0 <= i < K * T -> exists k, itranspose_idx i T K = Some k /\ k = transpose_idx i T K /\ 0 <= k /\ iadd k 1 = Some (k + 1) /\ k < s) /\
    (forall i i' k, 0 <= i < K * T -> 0 <= i' < K * T -> itranspose_idx i T K = Some k -> itranspose_idx i' T K = Some k -> i = i')) /\
  (counters_size K M = None <-> int_max < (K + 1) * M).
Proof.
  intros HK HM. assert (0 <= (K + 1) * M) by nia. unfold counters_size, imul, iadd. rewrite (ck_ok (K + 1)) by (unfold int_min, int_max in *; lia). split.
  - intros s Hs. apply ck_Some in Hs. destruct Hs as [-> Hs]. split; [reflexivity|]. intros T HT. assert (K * T + M <= (K + 1) * M) by nia. split; [|split].
    + intros tid Ht. assert (0 <= tid * K) by nia. assert ((tid + 1) * K <= K * T) by nia. unfold iscan_bounds, imul, iadd.
      rewrite (ck_ok (tid * K)) by (unfold int_min, int_max in *; lia). rewrite (ck_ok (tid * K + 1)) by (unfold int_min, int_max in *; lia).
      rewrite (ck_ok (tid + 1)) by (unfold int_min, int_max in *; nia). rewrite (ck_ok ((tid + 1) * K)) by (unfold int_min, int_max in *; lia). reflexivity.
    + intros i Hi. exists (transpose_idx i T K). pose proof (transpose_idx_range K T i ltac:(lia) Hi). split; [apply (itranspose_ok K T M); lia|]. split; [reflexivity|]. split; [lia|]. split; [apply ck_ok; unfold int_min, int_max in *; lia|lia].
    + intros i i' k Hi Hi' E E'. rewrite (itranspose_ok K T M) in E by lia. rewrite (itranspose_ok K T M) in E' by lia. injection E as <-. injection E' as E'. unfold transpose_idx in E'.
      pose proof (Z.rem_bound_pos i T ltac:(lia) ltac:(lia)). pose proof (Z.quot_rem' i T). pose proof (Z.rem_bound_pos i' T ltac:(lia) ltac:(lia)). pose proof (Z.quot_rem' i' T).
      assert (0 <= Z.quot i T) by (apply Z.quot_pos; lia). assert (Z.quot i T < K) by nia. assert (0 <= Z.quot i' T) by (apply Z.quot_pos; lia). assert (Z.quot i' T < K) by nia.
      destruct (block_inj K (Z.rem i' T) (Z.quot i' T) (Z.rem i T) (Z.quot i T)) as [P Q]; try lia.
  - unfold ck. destruct (_ && _) eqn:E; split; intros; try discriminate; try reflexivity; unfold int_min, int_max in *; lia.
Qed.

(** *** The arrays of RCM, of the level construction and padding *)
Theorem rcm_sizes_iff m maxDegree M l : 0 <= m -> 0 <= maxDegree -> 1 <= M ->
  rcm_sizes m maxDegree M = Some l <-> (M * 65536 <= int_max /\ M * maxDegree <= int_max /\ m * M <= int_max /\ (m + 1) * 16 <= int_max) /\
    l = [M * Z.max 65536 maxDegree; m * M; m * M; m * M; (m + 1) * 16; Z.max (M * 65536) m + 1].
Proof.
  intros Hm Hd HM. unfold rcm_sizes, imul, iadd, PAR_THR.
  assert (K : (M * 65536 <= int_max /\ M * maxDegree <= int_max /\ m * M <= int_max /\ (m + 1) * 16 <= int_max) ->
    (c <- ck (M * Z.max 65536 maxDegree) ;; q0 <- ck (m * M) ;; q1 <- ck (m * M) ;; r <- ck (M * m) ;; m1 <- ck (m + 1) ;; w <- ck (m1 * 16) ;; p <- ck (M * 65536) ;; p1 <- ck (Z.max p m + 1) ;; Some [c; q0; q1; r; w; p1])
    = Some [M * Z.max 65536 maxDegree; m * M; m * M; m * M; (m + 1) * 16; Z.max (M * 65536) m + 1]).
  { intros (H1 & H2 & H3 & H4). assert (M * Z.max 65536 maxDegree <= int_max) by (destruct (Z.max_spec 65536 maxDegree) as [[_ ->]|[_ ->]]; lia).
    assert (0 <= M * Z.max 65536 maxDegree) by nia. assert (0 <= m * M) by nia. rewrite (Z.mul_comm M m). assert (M <= 32767) by (unfold int_max in *; lia).
    rewrite (ck_ok (M * Z.max _ _)) by (unfold int_min, int_max in *; lia). rewrite (ck_ok (m * M)) by (unfold int_min, int_max in *; lia).
    rewrite (ck_ok (m + 1)) by (unfold int_min, int_max in *; lia). rewrite (ck_ok ((m + 1) * 16)) by (unfold int_min, int_max in *; lia).
    rewrite (ck_ok (M * 65536)) by (unfold int_min, int_max in *; lia). rewrite ck_ok by (unfold int_min, int_max in *; lia). reflexivity. }
  split.
  - intros E. assert (B : M * 65536 <= int_max /\ M * maxDegree <= int_max /\ m * M <= int_max /\ (m + 1) * 16 <= int_max).
    { destruct (ck _) as [c|] eqn:E1; [|discriminate]. destruct (ck (m * M)) as [q|] eqn:E2; [|discriminate]. destruct (ck (M * m)) as [r|] eqn:E3; [|discriminate].
      destruct (ck (m + 1)) as [m1|] eqn:E4; [|discriminate]. destruct (ck (m1 * 16)) as [w|] eqn:E5; [|discriminate].
      apply ck_Some in E1, E2, E4, E5. destruct E1 as [-> E1], E2 as [-> E2], E4 as [-> E4], E5 as [-> E5]. split; [nia|]. split; [nia|]. split; [lia|]. unfold int_max in *. lia. }
    split; auto. rewrite (K B) in E. now injection E as <-.
  - intros (B & ->). exact (K B).
Qed.

Lemma levels_width_ok n T : 0 <= n -> 1 <= T -> n + T <= int_max -> levels_width n T = Some (Z.max T (n + T - 1)).
Proof. intros. unfold levels_width, iadd, isub. rewrite (ck_ok (n + T)) by (unfold int_min, int_max in *; lia). rewrite ck_ok by (unfold int_min, int_max in *; lia). reflexivity. Qed.
Theorem levels_sizes_iff n T : 0 <= n -> 1 <= T ->
  (exists r, levels_sizes n T = Some r) <-> 5 * Z.max T (n + T - 1) + 45056 <= int_max.
Proof.
  intros Hn HT. split.
  - intros (r & E). unfold levels_sizes, levels_width, iadd, isub, imul, iquot in E.
    destruct (ck (n + 15)); [|discriminate]. cbn [Z.eqb negb] in E. destruct (ck (z ÷ 16)); [|discriminate]. destruct (ck (z0 * 16)); [|discriminate]. destruct (ck (z1 + 128)); [|discriminate].
    destruct (ck (n + T)) as [s|] eqn:E1; [|discriminate]. apply ck_Some in E1. destruct E1 as [-> _].
    destruct (ck (n + T - 1)) as [s|] eqn:E2; [|discriminate]. apply ck_Some in E2. destruct E2 as [-> _].
    destruct (ck (5 * _)) as [w5|] eqn:E3; [|discriminate]. apply ck_Some in E3. destruct E3 as [-> _].
    destruct (ck (2048 * _)) as [k|] eqn:E4; [|discriminate]. apply ck_Some in E4. destruct E4 as [-> _].
    destruct (ck (_ + 2048 * _)) as [sz|] eqn:E5; [|discriminate]. apply ck_Some in E5. lia.
  - intros H. unfold levels_sizes. rewrite levels_width_ok by (unfold int_max in *; lia). unfold iadd, imul, iquot.
    rewrite (ck_ok (n + 15)) by (unfold int_min, int_max in *; lia). cbn [Z.eqb negb].
    assert (0 <= (n + 15) ÷ 16) by (apply Z.quot_pos; lia). assert ((n + 15) ÷ 16 * 16 <= n + 15) by (pose proof (Z.quot_rem' (n + 15) 16); pose proof (Z.rem_bound_pos (n + 15) 16); lia).
    rewrite (ck_ok ((n + 15) ÷ 16)) by (unfold int_min, int_max in *; lia). rewrite (ck_ok (_ ÷ 16 * 16)) by (unfold int_min, int_max in *; lia). rewrite (ck_ok (_ ÷ 16 * 16 + 128)) by (unfold int_min, int_max in *; lia).
    rewrite (ck_ok (5 * _)) by (unfold int_min, int_max in *; lia). rewrite (ck_ok (2048 * _)) by (unfold int_min, int_max in *; lia).
    rewrite (ck_ok (_ + 2048 * _)) by (unfold int_min, int_max in *; lia). rewrite ck_ok by (unfold int_min, int_max in *; lia). eauto.
Qed.
(** The shares of the threads: q in the first [2 * width], rowPtrs in the second, all
    before tempBuffer. *)
Theorem levels_offsets_ok n T al sz t : 0 <= n -> 1 <= T -> levels_sizes n T = Some (al, sz, t) ->
  n <= al - 128 /\ t + n + 45056 <= sz /\
  (forall tid, 0 <= tid < T -> exists q r, levels_offsets n T tid = Some (q, r) /\ 0 <= q /\ q + 2 * (Z.max T (n + T - 1) ÷ T) <= r /\ 2 * Z.max T (n + T - 1) <= r /\ r + 2 * (Z.max T (n + T - 1) ÷ T) <= t) /\
  (forall tid tid' q r q' r', 0 <= tid < tid' -> tid' < T -> levels_offsets n T tid = Some (q, r) -> levels_offsets n T tid' = Some (q', r') ->
     q + 2 * (Z.max T (n + T - 1) ÷ T) <= q' /\ r + 2 * (Z.max T (n + T - 1) ÷ T) <= r').
Proof.
  intros Hn HT E. assert (5 * Z.max T (n + T - 1) + 45056 <= int_max) as H by (apply levels_sizes_iff; eauto).
  set (w := Z.max T (n + T - 1)) in *. assert (T <= w /\ n + T - 1 <= w) as [Hw1 Hw2] by (unfold w; lia).
  assert (al = (n + 15) ÷ 16 * 16 + 128 /\ sz = 5 * w + 45056 /\ t = w * 4) as (-> & -> & ->).
  { unfold levels_sizes in E. rewrite levels_width_ok in E by (unfold int_max in *; lia). fold w in E. unfold iadd, imul, iquot in E. cbn [Z.eqb negb] in E.
    repeat match type of E with context [ck ?x] => let F := fresh in destruct (ck x) eqn:F; [apply ck_Some in F; destruct F as [-> _]|discriminate] end. injection E as <- <- <-. split; [reflexivity|split; [clearbody w; destruct w; reflexivity|reflexivity]]. }
  assert (OFF : forall tid, 0 <= tid < T -> levels_offsets n T tid = Some (w ÷ T * 2 * tid, w * 2 + w ÷ T * 2 * tid)).
  { intros tid Ht. unfold levels_offsets. rewrite levels_width_ok by (unfold int_max in *; lia). fold w. unfold imul, iquot. replace (T =? 0) with false by lia. cbn [negb].
    pose proof (Z.quot_rem' w T). pose proof (Z.rem_bound_pos w T ltac:(lia) ltac:(lia)). assert (0 <= w ÷ T) by (apply Z.quot_pos; lia). assert (w ÷ T <= w) by nia. assert (0 <= w ÷ T * 2 * tid) by nia. assert (w ÷ T * 2 * tid <= 2 * w) by nia.
    rewrite (ck_ok (w ÷ T)) by (unfold int_min, int_max in *; lia). rewrite (ck_ok (w ÷ T * 2)) by (unfold int_min, int_max in *; lia). rewrite (ck_ok (w ÷ T * 2 * tid)) by (unfold int_min, int_max in *; lia). rewrite ck_ok by (unfold int_min, int_max in *; lia). reflexivity. }
  pose proof (Z.quot_rem' w T). pose proof (Z.rem_bound_pos w T ltac:(lia) ltac:(lia)). assert (0 <= w ÷ T) by (apply Z.quot_pos; lia).
  split. { pose proof (Z.quot_rem' (n + 15) 16). pose proof (Z.rem_bound_pos (n + 15) 16 ltac:(lia) ltac:(lia)). lia. }
  split; [lia|]. split.
  - intros tid Ht. rewrite OFF by lia. eexists _, _. split; [reflexivity|]. assert (w ÷ T * 2 * tid + 2 * (w ÷ T) <= 2 * w) by nia. assert (0 <= w ÷ T * 2 * tid) by nia. lia.
  - intros tid tid' q r q' r' Ht Ht' F F'. rewrite OFF in F by lia. rewrite OFF in F' by lia. injection F as <- <-. injection F' as <- <-. nia.
Qed.

Theorem padded_ok m pad : 0 <= m <= int_max -> 1 <= pad <= int_max ->
  (forall r, padded m pad = Some r <-> m + pad <= int_max /\ m <= r < m + pad /\ (pad | r)) /\ (padded m pad = None <-> int_max < m + pad).
Proof.
  intros Hm Hp. destruct (Z_le_gt_dec (m + pad) int_max) as [L|G].
  - assert (padded m pad = Some ((m + pad - 1) ÷ pad * pad)) as ->.
    { unfold padded, iadd, isub, imul, iquot. rewrite (ck_ok (m + pad)) by (unfold int_min, int_max in *; lia). rewrite (ck_ok (m + pad - 1)) by (unfold int_min, int_max in *; lia). replace (pad =? 0) with false by lia. cbn [negb].
      pose proof (Z.quot_rem' (m + pad - 1) pad). pose proof (Z.rem_bound_pos (m + pad - 1) pad ltac:(lia) ltac:(lia)). assert (0 <= (m + pad - 1) ÷ pad) by (apply Z.quot_pos; lia). assert ((m + pad - 1) ÷ pad <= m + pad - 1) by nia.
      rewrite (ck_ok (_ ÷ pad)) by (unfold int_min, int_max in *; lia). apply ck_ok. unfold int_min, int_max in *. nia. }
    split; [|split; [discriminate|lia]]. intros r.
    pose proof (Z.quot_rem' (m + pad - 1) pad). pose proof (Z.rem_bound_pos (m + pad - 1) pad ltac:(lia) ltac:(lia)). split.
    + intros [= <-]. split; [lia|]. split; [lia|]. exists ((m + pad - 1) ÷ pad). ring.
    + intros (_ & B & k & ->). f_equal. assert ((m + pad - 1) ÷ pad = k) as -> by nia. ring.
  - assert (padded m pad = None) as ->.
    { unfold padded, iadd. rewrite ck_out by (unfold int_min, int_max in *; lia). reflexivity. }
    split; [|split; intros; [lia|reflexivity]]. intros r. split; [discriminate|lia].
Qed.

(** *** The Laplacian *)
Section Runs.
Context {X S : Type} (val : S -> Z) (lim : Z) (f g : X -> S -> option S).
(** [f] is [g] as long as [val] stays below [lim]; [val] does not fall. *)
Lemma foldM_below l : (forall x s s', In x l -> f x s = Some s' -> g x s = Some s') -> forall s s', foldM f l s = Some s' -> foldM g l s = Some s'.
Proof.
  induction l as [|x l IH]; intros H s s' E; cbn [foldM] in *; [exact E|]. destruct (f x s) as [s1|] eqn:E1; [|discriminate].
  rewrite (H x s s1 (or_introl eq_refl) E1). apply IH; auto. intros y u u' Hy. apply H. now right.
Qed.
Lemma foldM_mono l : (forall x s s', In x l -> g x s = Some s' -> val s <= val s') -> forall s s', foldM g l s = Some s' -> val s <= val s'.
Proof.
  induction l as [|x l IH]; intros H s s' E; cbn [foldM] in *; [injection E as <-; lia|]. destruct (g x s) as [s1|] eqn:E1; [|discriminate].
  pose proof (H x s s1 (or_introl eq_refl) E1). assert (val s1 <= val s') by (apply IH; auto; intros y u u' Hy; apply H; now right). lia.
Qed.
Lemma foldM_upto l : (forall x s s', In x l -> g x s = Some s' -> val s <= val s') -> (forall x s s', In x l -> g x s = Some s' -> 0 <= val s -> val s' <= lim -> f x s = Some s') ->
  forall s s', foldM g l s = Some s' -> 0 <= val s -> val s' <= lim -> foldM f l s = Some s'.
Proof.
  induction l as [|x l IH]; intros H F s s' E P L; cbn [foldM] in *; [exact E|]. destruct (g x s) as [s1|] eqn:E1; [|discriminate].
  assert (val s1 <= val s') by (apply (foldM_mono l); auto; intros y u u' Hy; apply H; now right). pose proof (H x s s1 (or_introl eq_refl) E1).
  rewrite (F x s s1 (or_introl eq_refl) E1) by lia. apply IH; auto; try lia; intros y u u' Hy; [apply H|apply F]; now right.
Qed.
Lemma foldM_keep (P : S -> Prop) l : (forall x s s', In x l -> P s -> f x s = Some s' -> P s') -> forall s s', P s -> foldM f l s = Some s' -> P s'.
Proof.
  induction l as [|x l IH]; intros H s s' HP E; cbn [foldM] in *; [injection E as <-; exact HP|]. destruct (f x s) as [s1|] eqn:E1; [|discriminate].
  apply (IH (fun y u u' Hy => H y u u' (or_intror Hy)) s1); auto. apply (H x s s1); auto. now left.
Qed.
End Runs.

Lemma lap_count_pos k size nz : 1 <= lap_count k size nz <= 3.
Proof. unfold lap_count. destruct (_ && _); [lia|]. destruct (_ =? _); lia. Qed.

Section Lap.
Variables nx ny nz : Z.
Hypothesis Hx : 1 <= nx.
Hypothesis Hy : 1 <= ny.
Hypothesis Hz : 1 <= nz.
Let m := nx * ny * nz.

Theorem lap_sizes_iff : (lap_sizes nx ny nz = Some (m, m + 1) <-> m + 1 <= int_max) /\ (lap_sizes nx ny nz = None <-> int_max < m + 1).
Proof.
  assert (1 <= nx * ny) by nia. assert (nx * ny <= m) by (unfold m; nia).
  destruct (Z_le_gt_dec (m + 1) int_max) as [L|G].
  - assert (lap_sizes nx ny nz = Some (m, m + 1)) as ->; [|split; split; intros; try discriminate; try reflexivity; lia].
    unfold lap_sizes, imul, iadd. rewrite (ck_ok (nx * ny)) by (unfold int_min, int_max in *; lia). fold m. rewrite (ck_ok m) by (unfold int_min, int_max in *; lia). rewrite ck_ok by (unfold int_min, int_max in *; lia). reflexivity.
  - assert (lap_sizes nx ny nz = None) as ->; [|split; split; intros; try discriminate; try reflexivity; lia].
    unfold lap_sizes, imul, iadd. destruct (ck (nx * ny)) as [p|] eqn:E; [|reflexivity]. apply ck_Some in E. destruct E as [-> _]. fold m.
    destruct (ck m) as [p|] eqn:E; [|reflexivity]. apply ck_Some in E. destruct E as [-> _]. rewrite ck_out by lia. reflexivity.
Qed.

Definition step_x (iz iy ix : Z) (s : Z * list Z) : option (Z * list Z) :=
  let '(idx, rp) := s in
  let idx' := idx + lap_count ix nx nz * (lap_count iy ny nz * lap_count iz nz nz) in
  rp' <- set rp ((iz * ny + iy) * nx + ix + 1) idx' ;; Some (idx', rp').
Definition istep_x (dy iz iy ix : Z) (s : Z * list Z) : option (Z * list Z) :=
  let '(idx, rp) := s in
  a <- imul iz ny ;; b <- iadd a iy ;; c <- imul b nx ;; row <- iadd c ix ;;
  d <- imul (lap_count ix nx nz) dy ;; idx' <- iadd idx d ;;
  r1 <- iadd row 1 ;;
  rp' <- set rp r1 idx' ;; Some (idx', rp').

Lemma step_mono iz iy ix s s' : step_x iz iy ix s = Some s' -> fst s <= fst s'.
Proof.
  destruct s as [idx rp]. unfold step_x. destruct (set _ _ _); [|discriminate]. intros [= <-]. cbn [fst].
  pose proof (lap_count_pos ix nx nz). pose proof (lap_count_pos iy ny nz). pose proof (lap_count_pos iz nz nz). nia.
Qed.
Lemma istep_below iz iy ix s s' : istep_x (lap_count iy ny nz * lap_count iz nz nz) iz iy ix s = Some s' -> step_x iz iy ix s = Some s' /\ fst s' <= int_max.
Proof.
  destruct s as [idx rp]. unfold istep_x, step_x, imul, iadd. intros E.
  destruct (ck (iz * ny)) as [a|] eqn:E1; [|discriminate]. apply ck_Some in E1. destruct E1 as [-> _].
  destruct (ck (iz * ny + iy)) as [a|] eqn:E1; [|discriminate]. apply ck_Some in E1. destruct E1 as [-> _].
  destruct (ck ((iz * ny + iy) * nx)) as [a|] eqn:E1; [|discriminate]. apply ck_Some in E1. destruct E1 as [-> _].
  destruct (ck (_ + ix)) as [a|] eqn:E1; [|discriminate]. apply ck_Some in E1. destruct E1 as [-> _].
  destruct (ck (lap_count ix _ _ * _)) as [a|] eqn:E1; [|discriminate]. apply ck_Some in E1. destruct E1 as [-> _].
  destruct (ck (idx + _)) as [a|] eqn:E1; [|discriminate]. apply ck_Some in E1. destruct E1 as [-> L].
  destruct (ck (_ + 1)) as [a|] eqn:E1; [|discriminate]. apply ck_Some in E1. destruct E1 as [-> _].
  split; [exact E|]. destruct (set _ _ _); [|discriminate]. injection E as <-. cbn [fst]. lia.
Qed.
Lemma istep_upto iz iy ix s s' : m + 1 <= int_max -> 0 <= iz < nz -> 0 <= iy < ny -> 0 <= ix < nx -> step_x iz iy ix s = Some s' -> 0 <= fst s -> fst s' <= int_max ->
  istep_x (lap_count iy ny nz * lap_count iz nz nz) iz iy ix s = Some s'.
Proof.
  intros L Bz By Bx E P Q. assert (nx * ny <= m) by (unfold m; nia).
  assert (0 <= (iz * ny + iy) * nx + ix < m) as R by (unfold m; apply (cell_range nx ny nz Hx Hy Hz ix iy iz); unfold in_grid; lia).
  assert (0 <= iz * ny) by nia. assert (0 <= (iz * ny + iy) * nx) by nia. assert (iz * ny + iy <= (iz * ny + iy) * nx) by nia.
  pose proof (lap_count_pos ix nx nz). pose proof (lap_count_pos iy ny nz). pose proof (lap_count_pos iz nz nz).
  assert (1 <= lap_count iy ny nz * lap_count iz nz nz <= 9) by nia. assert (1 <= lap_count ix nx nz * (lap_count iy ny nz * lap_count iz nz nz) <= 27) by nia.
  destruct s as [idx rp]. unfold step_x in E. unfold istep_x, imul, iadd. cbn [fst] in *.
  rewrite (ck_ok (iz * ny)) by (unfold int_min, int_max in *; lia). rewrite (ck_ok (iz * ny + iy)) by (unfold int_min, int_max in *; lia).
  rewrite (ck_ok ((iz * ny + iy) * nx)) by (unfold int_min, int_max in *; lia). rewrite (ck_ok (_ + ix)) by (unfold int_min, int_max in *; lia).
  rewrite (ck_ok (lap_count ix _ _ * _)) by (unfold int_min, int_max in *; lia).
  destruct (set rp _ _) as [rp'|] eqn:E1; [|discriminate]. injection E as <-. cbn [fst] in *.
  rewrite (ck_ok (idx + _)) by (unfold int_min, int_max in *; lia). rewrite (ck_ok (_ + 1)) by (unfold int_min, int_max in *; lia). rewrite E1. reflexivity.
Qed.

Definition walk (st : Z -> Z -> Z -> Z * list Z -> option (Z * list Z)) (s : Z * list Z) : option (Z * list Z) :=
  foldM (fun iz s => foldM (fun iy s => foldM (st iz iy) (zrange 0 nx) s) (zrange 0 ny) s) (zrange 0 nz) s.
Definition istep (iz iy ix : Z) := istep_x (lap_count iy ny nz * lap_count iz nz nz) iz iy ix.

Lemma walk_keep st (P : Z * list Z -> Prop) : (forall iz iy ix s s', P s -> st iz iy ix s = Some s' -> P s') -> forall s s', P s -> walk st s = Some s' -> P s'.
Proof.
  intros H s s' HP. unfold walk. apply foldM_keep; [|exact HP]. intros iz u u' _ Hu. apply foldM_keep; [|exact Hu]. intros iy v v' _ Hv. apply foldM_keep; [|exact Hv]. intros ix w w' _ Hw. apply H. exact Hw.
Qed.
Lemma walk_below s s' : walk istep s = Some s' -> walk step_x s = Some s'.
Proof.
  unfold walk. apply foldM_below. intros iz u u' _. apply foldM_below. intros iy v v' _. apply foldM_below. intros ix w w' _ E. apply (istep_below iz iy ix w w' E).
Qed.
Lemma walk_upto s s' : m + 1 <= int_max -> walk step_x s = Some s' -> 0 <= fst s -> fst s' <= int_max -> walk istep s = Some s'.
Proof.
  intros L. unfold walk.
  assert (M1 : forall iz iy u u', foldM (step_x iz iy) (zrange 0 nx) u = Some u' -> fst u <= fst u').
  { intros iz iy u u'. apply (foldM_mono fst (step_x iz iy)). intros ix w w' _. apply step_mono. }
  assert (M2 : forall iz u u', foldM (fun iy s => foldM (step_x iz iy) (zrange 0 nx) s) (zrange 0 ny) u = Some u' -> fst u <= fst u').
  { intros iz u u'. apply (foldM_mono fst (fun iy s => foldM (step_x iz iy) (zrange 0 nx) s)). intros iy w w' _. apply M1. }
  apply (foldM_upto fst).
  - intros iz u u' _. apply M2.
  - intros iz u u' Bz. apply (foldM_upto fst).
    + intros iy v v' _. apply M1.
    + intros iy v v' By. apply (foldM_upto fst).
      * intros ix w w' _. apply step_mono.
      * intros ix w w' Bx E P Q. apply In_zrange in Bx, By, Bz. apply istep_upto; auto.
Qed.

Lemma lap_rowptr_walk junk : lap_rowptr nx ny nz junk = (rp0 <- set junk 0 0 ;; walk step_x (0, rp0)).
Proof. reflexivity. Qed.
Lemma lap_rowptr_int_walk junk : lap_rowptr_int nx ny nz junk = (rp0 <- set junk 0 0 ;; walk istep (0, rp0)).
Proof.
  unfold lap_rowptr_int, walk, istep, forZ. destruct (set junk 0 0) as [rp0|]; [|reflexivity].
  apply foldM_ext. intros iz s _. apply foldM_ext. intros iy u _.
  pose proof (lap_count_pos iy ny nz). pose proof (lap_count_pos iz nz nz). unfold imul at 1. rewrite ck_ok by (unfold int_min, int_max; nia). reflexivity.
Qed.

Theorem lap_int_iff junk nnz rp : m + 1 <= int_max -> lap_rowptr nx ny nz junk = Some (nnz, rp) ->
  (nnz <= int_max -> lap_rowptr_int nx ny nz junk = Some (nnz, rp)) /\ (int_max < nnz -> lap_rowptr_int nx ny nz junk = None).
Proof.
  intros L E. rewrite lap_rowptr_walk in E. rewrite lap_rowptr_int_walk. destruct (set junk 0 0) as [rp0|]; [|discriminate]. split; intros H.
  - apply walk_upto; auto. cbn [fst]. lia.
  - destruct (walk istep (0, rp0)) as [s'|] eqn:E'; [|reflexivity]. exfalso.
    assert (fst s' <= int_max). { apply (walk_keep istep (fun s => fst s <= int_max)) with (s := (0, rp0)); auto; [|cbn [fst]; unfold int_max; lia]. intros iz iy ix u u' _ Eu. apply (istep_below iz iy ix u u' Eu). }
    apply walk_below in E'. rewrite E in E'. injection E' as <-. cbn [fst] in *. lia.
Qed.

(** The number of entries *)
Definition share (size k : Z) : Z := before (fun i => lap_count i size nz) k.
Lemma share_full size : 2 <= size -> 2 <= nz -> share size size = 3 * size - 2.
Proof.
  intros Hs Hn. assert (K : forall k, 1 <= k -> k <= size - 1 -> share size k = 3 * k - 1).
  { apply (Zlt_lower_bound_ind (fun k => k <= size - 1 -> share size k = 3 * k - 1) 1). intros k IH Hk Hk'.
    unfold share in *. replace k with (k - 1 + 1) at 1 by lia. rewrite before_S by lia. destruct (Z.eq_dec k 1) as [-> | Hne].
    - change (1 - 1) with 0. rewrite before_0. unfold lap_count. cbn [Z.leb Z.compare andb]. replace (nz =? 1) with false by lia. lia.
    - rewrite IH by lia. unfold lap_count. replace (_ && _) with true by lia. lia. }
  assert (E : share size (size - 1 + 1) = share size (size - 1) + lap_count (size - 1) size nz) by (unfold share; rewrite before_S by lia; reflexivity).
  replace (size - 1 + 1) with size in E by lia. rewrite E, K by lia.
  unfold lap_count. replace (_ && _) with false by lia. replace (nz =? 1) with false by lia. lia.
Qed.
Lemma sum_x z y : 0 <= z -> 0 <= y < ny -> forall x, 0 <= x -> x <= nx ->
  before (lap_cnt nx ny nz) ((z * ny + y) * nx + x) = before (lap_cnt nx ny nz) ((z * ny + y) * nx) + share nx x * (lap_count y ny nz * lap_count z nz nz).
Proof.
  intros H1 H2. assert (0 <= (z * ny + y) * nx) by nia.
  apply (natlike_ind (fun x => x <= nx -> before (lap_cnt nx ny nz) ((z * ny + y) * nx + x) = before (lap_cnt nx ny nz) ((z * ny + y) * nx) + share nx x * (lap_count y ny nz * lap_count z nz nz))).
  - intros _. rewrite Z.add_0_r. unfold share. rewrite before_0. lia.
  - intros x Hx0 IH Hle. unfold Z.succ. rewrite Z.add_assoc, before_S by lia. rewrite IH by lia. unfold share. rewrite before_S by lia.
    pose proof (lap_cnt_cell nx ny nz Hx Hy x y z ltac:(lia) H2) as C. unfold cell in C. rewrite C. ring.
Qed.
Lemma sum_y z : 0 <= z -> forall y, 0 <= y -> y <= ny ->
  before (lap_cnt nx ny nz) ((z * ny + y) * nx) = before (lap_cnt nx ny nz) (z * ny * nx) + share nx nx * (share ny y * lap_count z nz nz).
Proof.
  intros H1. apply (natlike_ind (fun y => y <= ny -> before (lap_cnt nx ny nz) ((z * ny + y) * nx) = before (lap_cnt nx ny nz) (z * ny * nx) + share nx nx * (share ny y * lap_count z nz nz))).
  - intros _. rewrite Z.add_0_r. unfold share at 2. rewrite before_0. ring.
  - intros y Hy0 IH Hle. unfold Z.succ. replace ((z * ny + (y + 1)) * nx) with ((z * ny + y) * nx + nx) by ring. rewrite sum_x by lia. rewrite IH by lia. assert (E : share ny (y + 1) = share ny y + lap_count y ny nz) by (unfold share; rewrite before_S by lia; reflexivity). rewrite E. ring.
Qed.
Lemma sum_z : forall z, 0 <= z -> before (lap_cnt nx ny nz) (z * ny * nx) = share nx nx * (share ny ny * share nz z).
Proof.
  apply (natlike_ind (fun z => before (lap_cnt nx ny nz) (z * ny * nx) = share nx nx * (share ny ny * share nz z))).
  - replace (0 * ny * nx) with 0 by ring. rewrite before_0. unfold share at 3. rewrite before_0. ring.
  - intros z Hz0 IH. unfold Z.succ. replace ((z + 1) * ny * nx) with ((z * ny + ny) * nx) by ring. rewrite sum_y by lia. rewrite IH. assert (E : share nz (z + 1) = share nz z + lap_count z nz nz) by (unfold share; rewrite before_S by lia; reflexivity). rewrite E. ring.
Qed.
Theorem lap_total : 2 <= nx -> 2 <= ny -> 2 <= nz -> before (lap_cnt nx ny nz) m = (3 * nx - 2) * (3 * ny - 2) * (3 * nz - 2).
Proof. intros. unfold m. replace (nx * ny * nz) with (nz * ny * nx) by ring. rewrite sum_z by lia. rewrite !share_full by lia. ring. Qed.

Theorem lap_int_total junk : 2 <= nx -> 2 <= ny -> 2 <= nz -> m + 1 <= int_max -> Zlen junk = m + 1 ->
  (lap_rowptr_int nx ny nz junk = lap_rowptr nx ny nz junk <-> (3 * nx - 2) * (3 * ny - 2) * (3 * nz - 2) <= int_max) /\
  (lap_rowptr_int nx ny nz junk = None <-> int_max < (3 * nx - 2) * (3 * ny - 2) * (3 * nz - 2)).
Proof.
  intros H1 H2 H3 L LJ. pose proof (lap_rowptr_gen nx ny nz Hx Hy Hz junk LJ) as G. rewrite <- lap_total by auto. fold m in G.
  destruct (lap_int_iff _ _ _ L G) as [A B]. rewrite G. destruct (Z_le_gt_dec (before (lap_cnt nx ny nz) m) int_max) as [C|C].
  - rewrite (A C). split; split; intros; auto; try discriminate; lia.
  - rewrite (B ltac:(lia)). split; split; intros; auto; try discriminate; lia.
Qed.
End Lap.

(** ** Worked cases *)
Lemma ex_block : block_size 8388608 255 = Some 2139095040 /\ block_index 8388608 254 8388607 = Some 2139095039.
Proof. split; vm_compute; reflexivity. Qed.
Lemma ex_counters : counters_size 3 4 = Some 16 /\ map (fun i => itranspose_idx i 4 3) (zrange 0 12) = map Some [0; 3; 6; 9; 1; 4; 7; 10; 2; 5; 8; 11].
Proof. split; vm_compute; reflexivity. Qed.
Lemma ex_rcm : rcm_sizes 1000000 500 272 = Some [17825792; 272000000; 272000000; 272000000; 16000016; 17825793].
Proof. vm_compute; reflexivity. Qed.
Lemma ex_levels : levels_sizes 1000 4 = Some (1136, 50071, 4012) /\ levels_offsets 1000 4 3 = Some (1500, 3506).
Proof. split; vm_compute; reflexivity. Qed.
Lemma ex_padded : padded 1001 16 = Some 1008 /\ padded 2147483640 16 = None.
Proof. split; vm_compute; reflexivity. Qed.
Lemma ex_lap : lap_rowptr_int 2 3 2 (repeat 77 13) = lap_rowptr 2 3 2 (repeat 77 13) /\ exists rp, lap_rowptr_int 2 3 2 (repeat 77 13) = Some (112, rp).
Proof. split; [vm_compute; reflexivity|]. eexists. vm_compute. reflexivity. Qed.

(** With 8388608 = 2^23 rows one thread more makes the size of the array negative. *)
Lemma threads_refuted : block_size 8388608 255 <> None /\ block_size 8388608 256 = None /\ rcm_sizes 8388608 100 255 <> None /\ rcm_sizes 8388608 100 256 = None.
Proof. repeat split; try (vm_compute; discriminate); vm_compute; reflexivity. Qed.
(** The largest cube is that of 430; the rows of that of 431 would fit. *)
Lemma lap_cube n junk : 2 <= n <= 1290 -> Zlen junk = n * n * n + 1 ->
  (n <= 430 -> lap_rowptr_int n n n junk = lap_rowptr n n n junk) /\ (431 <= n -> lap_rowptr_int n n n junk = None /\ lap_sizes n n n = Some (n * n * n, n * n * n + 1)).
Proof.
  intros Hn L. assert (n * n * n <= 1290 * 1290 * 1290) by nia. assert (n * n * n + 1 <= int_max) as B by (unfold int_max; lia).
  destruct (lap_int_total n n n ltac:(lia) ltac:(lia) ltac:(lia) junk ltac:(lia) ltac:(lia) ltac:(lia) B L) as [P Q]. split; intros Hc.
  - apply P. assert ((3 * n - 2) * (3 * n - 2) <= 1288 * 1288) by nia. unfold int_max. nia.
  - split.
    + apply Q. assert (1291 * 1291 <= (3 * n - 2) * (3 * n - 2)) by nia. unfold int_max. nia.
    + apply (lap_sizes_iff n n n); try lia; exact B.
Qed.
Lemma lap_cube_refuted junk : Zlen junk = 431 * 431 * 431 + 1 -> lap_rowptr_int 431 431 431 junk = None /\ lap_sizes 431 431 431 = Some (80062991, 80062992).
Proof. intros L. destruct (lap_cube 431 junk ltac:(lia) L) as [_ H]. apply H. lia. Qed.
