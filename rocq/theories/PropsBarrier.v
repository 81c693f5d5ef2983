(** Properties C26-C28: the dissemination barrier and the reducing barrier. *)
From Coq Require Import List Arith Bool.
Import ListNotations.
From Verif Require Import Reduce ReduceProof Barrier.

(** C26: whoever has left its k-th wait, everybody has entered the k-th wait. *)
Theorem C26_barrier_safe : forall n tpc s c t c' t' k,
  1 <= n -> 1 <= tpc ->
  reachable n tpc (rounds n) s -> c < n -> t < tpc -> c' < n -> t' < tpc ->
  k <= left s c t -> k <= entered s c' t'.
Proof.
  exact (fun n tpc s c t c' t' k Hn Ht Hr Hc Htt Hc' Htt' Hk =>
    Nat.le_trans _ _ _ Hk
      (barrier_safe n tpc (rounds n) Hn Ht (proj1 (rounds_ok n Hn)) (proj2 (rounds_ok n Hn))
         s c t c' t' Hr Hc Htt Hc' Htt')).
Qed.
Print Assumptions C26_barrier_safe.

(** Three cores of two threads pass one episode completely. *)
Definition episode_3x2 : list (nat * nat) :=
  [(0,0);(0,1);(1,0);(1,1);(2,0);(2,1);
   (0,0);(0,0);(1,0);(1,0);(2,0);(2,0);          (* masters see their threads *)
   (0,0);(1,0);(2,0);(0,0);(1,0);(2,0);          (* round 0 *)
   (0,0);(1,0);(2,0);(0,0);(1,0);(2,0);          (* round 1 *)
   (0,0);(1,0);(2,0);(0,0);(1,0);(2,0);          (* adjust, wake *)
   (0,1);(1,1);(2,1)].
Example C26_case :
  option_map (fun s => map (fun c => map (left s c) [0;1]) [0;1;2])
             (exec 3 2 (rounds 3) episode_3x2 init)
  = Some [[1;1];[1;1];[1;1]].
Proof. vm_compute. reflexivity. Qed.
Example C26_case_blocks :
  exec 3 2 (rounds 3) [(0,0);(0,1);(0,0);(0,0);(0,0);(0,0)] init = None.
Proof. vm_compute. reflexivity. Qed.

(** The number of rounds computed in the USE_MCRT build (highest set bit) is
    too small: with 3 cores, core 0 leaves before core 1 has entered. *)
Theorem C26_mcrt_rounds_refuted : exists s,
  reachable 3 1 (rounds_mcrt 3) s /\ left s 0 0 = 1 /\ entered s 1 0 = 0.
Proof. exact barrier_mcrt_unsafe. Qed.
Print Assumptions C26_mcrt_rounds_refuted.

(** C27: once everybody has called wait k times, every run of the threads
    inside wait is bounded, and it can only stop with everybody outside. *)
Theorem C27_barrier_completes : forall n tpc s k e s',
  1 <= n -> 1 <= tpc ->
  reachable n tpc (rounds n) s ->
  (forall c t, c < n -> t < tpc -> entered s c t = k) ->
  run_inside n tpc (rounds n) s e s' ->
  e <= total n tpc (rounds n) s /\
  ((exists c t, c < n /\ t < tpc /\ can_move n tpc (rounds n) s' c t) \/
   (forall c t, c < n -> t < tpc -> pc s' c t = Out /\ left s' c t = k)).
Proof.
  exact (fun n tpc s k e s' Hn Ht Hr Hk Hrun =>
    barrier_completes n tpc (rounds n) Hn Ht (proj1 (rounds_ok n Hn)) (proj2 (rounds_ok n Hn))
      s k e s' Hr Hk Hrun).
Qed.
Print Assumptions C27_barrier_completes.

(** Also with threads that are one call ahead: as long as nobody is behind the
    thread under consideration, somebody inside wait can move. *)
Theorem C27_barrier_no_deadlock : forall n tpc s c t,
  1 <= n -> 1 <= tpc ->
  reachable n tpc (rounds n) s -> c < n -> t < tpc -> pc s c t <> Out ->
  (forall c' t', c' < n -> t' < tpc -> entered s c t <= entered s c' t') ->
  exists c' t', c' < n /\ t' < tpc /\ can_move n tpc (rounds n) s c' t'.
Proof.
  exact (fun n tpc s c t Hn Ht =>
    barrier_progress n tpc (rounds n) Hn Ht (proj1 (rounds_ok n Hn)) (proj2 (rounds_ok n Hn)) s c t).
Qed.
Print Assumptions C27_barrier_no_deadlock.
Example C27_case :
  option_map (fun s => (map (fun c => map (entered s c) [0;1]) [0;1;2], pc s 2 1))
             (exec 3 2 (rounds 3) [(0,0);(0,1);(1,0);(1,1);(2,0);(2,1)] init)
  = Some ([[1;1];[1;1];[1;1]], WCore).
Proof. vm_compute. reflexivity. Qed.

(** C28: the first call of every thread returns the reduction of everybody's
    first contribution; any number of cores but one, of threads per core. *)
Theorem C28_first_use : forall (V : Type) (op : V -> V -> V) n tpc zero (x : nat -> nat -> V) rv0 acc0 tr0 red0 r0 s tid,
  2 <= n -> 1 <= tpc ->
  (forall a b c, op a (op b c) = op (op a b) c) -> (forall a b, op a b = op b a) -> (forall a, op a zero = a) ->
  mreach op n (nearest_pow2 n) (rounds n) tpc zero (core_args tpc x) (minit rv0 acc0 tr0 red0 r0) s ->
  (forall tid, tid < n * tpc -> entered_calls tpc s tid <= 1) -> tid < n * tpc ->
  returned tpc s tid = [] \/ returned tpc s tid = [fold_left op (map (fun tid => x tid 0) (seq 0 (n * tpc))) zero].
Proof. exact @reduce_first_pow2. Qed.
Print Assumptions C28_first_use.

(** Three cores of one thread; core 0 also plays pseudo core 3. *)
Example C28_first_use_hyps :
  mreach Nat.add 3 (nearest_pow2 3) (rounds 3) 1 0 (core_args 1 rd_x) rd_init rd1_end.
Proof. exact (msep_reach _ _ _ _ _ _ _ _ _ rd1_end_sep). Qed.
Example C28_first_use_ex : map (fun tid => returned 1 rd1_end tid) [0;1;2] = repeat [7] 3 /\ map (entered_calls 1 rd1_end) [0;1;2] = [1;1;1].
Proof. exact rd1_end_out. Qed.

(** C28: the k-th call returns the reduction of the k-th contributions, if a
    thread starts a call only when everybody has returned from the previous one. *)
Theorem C28_separated : forall (V : Type) (op : V -> V -> V) n tpc zero (x : nat -> nat -> V) rv0 acc0 tr0 red0 r0 s tid k v,
  2 <= n -> 1 <= tpc ->
  (forall a b c, op a (op b c) = op (op a b) c) -> (forall a b, op a b = op b a) -> (forall a, op a zero = a) ->
  msep op n (nearest_pow2 n) (rounds n) tpc zero (core_args tpc x) (minit rv0 acc0 tr0 red0 r0) s ->
  tid < n * tpc -> nth_error (returned tpc s tid) k = Some v ->
  v = fold_left op (map (fun tid => x tid k) (seq 0 (n * tpc))) zero.
Proof. exact @reduce_sep_pow2. Qed.
Print Assumptions C28_separated.

(** Three cores of two threads, three calls. *)
Example C28_separated_hyps : msep Nat.add 3 (nearest_pow2 3) (rounds 3) 2 0 (core_args 2 rd_x) rd_init rd_end.
Proof. exact rd_end_sep. Qed.
Example C28_separated_ex : map (fun tid => firstn 3 (returned 2 rd_end tid)) [0;1;2;3;4;5] = repeat [63;123;183] 6.
Proof. exact rd_end_out. Qed.

(** C28: while a thread is inside, some thread can move. *)
Theorem C28_progress : forall (V : Type) (op : V -> V -> V) n tpc zero (x : nat -> nat -> V) rv0 acc0 tr0 red0 r0 s,
  2 <= n -> 1 <= tpc ->
  (forall a b c, op a (op b c) = op (op a b) c) -> (forall a b, op a b = op b a) -> (forall a, op a zero = a) ->
  msep op n (nearest_pow2 n) (rounds n) tpc zero (core_args tpc x) (minit rv0 acc0 tr0 red0 r0) s ->
  (exists tid, tid < n * tpc /\ mpcs s (tid / tpc) (tid mod tpc) <> MOut) ->
  exists tid s', tid < n * tpc /\ mstep op n (nearest_pow2 n) (rounds n) tpc zero (core_args tpc x) (tid / tpc) (tid mod tpc) s = Some s' /\
    msep op n (nearest_pow2 n) (rounds n) tpc zero (core_args tpc x) (minit rv0 acc0 tr0 red0 r0) s'.
Proof. exact @reduce_progress_pow2. Qed.
Print Assumptions C28_progress.

(** One core: its partner is itself, and the sum is doubled. *)
Theorem C28_single_core_refuted : exists s,
  mreach Nat.add 1 (nearest_pow2 1) (rounds 1) 1 0 (core_args 1 contrib_ex) rd_init s /\
  entered_calls 1 s 0 = 1 /\ returned 1 s 0 = [contrib_ex 0 0 + contrib_ex 0 0].
Proof. exact reduce_single_core. Qed.
Print Assumptions C28_single_core_refuted.

(** Two cores, two calls: core 1 runs ahead and overwrites the value of its
    first call before core 0 has read it; core 0 returns a mixture. *)
Theorem C28_second_use_refuted : exists s,
  mreach Nat.add 2 (nearest_pow2 2) (rounds 2) 1 0 (core_args 1 contrib_ex) rd_init s /\
  returned 1 s 0 = [contrib_ex 0 0 + contrib_ex 1 1] /\ returned 1 s 1 = [contrib_ex 0 0 + contrib_ex 1 0].
Proof. exact reduce_race. Qed.
Print Assumptions C28_second_use_refuted.
