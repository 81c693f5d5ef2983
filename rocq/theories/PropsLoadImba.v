(** Property C77: the barrier that measures how unevenly the threads arrive. *)
From Coq Require Import List Arith NArith ZArith.
Import ListNotations.
From Verif Require Import Base LoadImba Reduce LoadImbaRun.
Open Scope Z_scope.

(** C77: what a thread measures in its k-th call: its own arrival, the arrival of the
    last thread and its own departure, in this order. *)
Theorem C77_measured : forall n tpc rv0 acc0 tr0 red0 r0 tm s tid k a v o,
  (2 <= n -> 1 <= tpc ->
  lsep n tpc (linit rv0 acc0 tr0 red0 r0 tm) s -> tid < n * tpc -> nth_error (measured tpc s tid) k = Some (a, v, o) ->
  nth_error (starts tpc s tid) k = Some a /\
  (forall tid', tid' < n * tpc -> exists b, nth_error (starts tpc s tid') k = Some b /\ (b <= v)%N) /\
  (exists tid', tid' < n * tpc /\ nth_error (starts tpc s tid') k = Some v) /\ (v <= o)%N /\ (o <= lnow s)%N)%nat.
Proof. exact (fun n tpc rv0 acc0 tr0 red0 r0 tm s tid k a v o Hn Ht => measured_ok n tpc Hn Ht rv0 acc0 tr0 red0 r0 tm s tid k a v o). Qed.
Print Assumptions C77_measured.

(** C77: after any number of calls the arrays of a thread hold, for every use, the least,
    the largest and the sum of the times it waited for the last thread, the number of
    calls and the sum of the times it needed to leave. *)
Theorem C77_arrays : forall n tpc rv0 acc0 tr0 red0 r0 tm s tid use numUses,
  (2 <= n)%nat -> (1 <= tpc)%nat ->
  lsep n tpc (linit rv0 acc0 tr0 red0 r0 tm) s -> (tid < n * tpc)%nat -> (lnow s < 2 ^ 64)%N -> 0 <= numUses -> (forall k, 0 <= use k < numUses) ->
  Forall (call_ok numUses) (calls_of use (measured tpc s tid)) /\
  exists l, run_calls (calls_of use (measured tpc s tid)) (limba_init numUses) = Some l /\ summarises numUses (calls_of use (measured tpc s tid)) l.
Proof. exact (fun n tpc rv0 acc0 tr0 red0 r0 tm s tid use numUses Hn Ht => calls_measured n tpc Hn Ht rv0 acc0 tr0 red0 r0 tm s tid use numUses). Qed.
Print Assumptions C77_arrays.

(** C77: while a thread is in a call, some thread can move, whatever the time. *)
Theorem C77_progress : forall n tpc rv0 acc0 tr0 red0 r0 tm s,
  (2 <= n -> 1 <= tpc ->
  lsep n tpc (linit rv0 acc0 tr0 red0 r0 tm) s -> (exists c t, c < n /\ t < tpc /\ lpcs s c t <> LOut) ->
  exists c t, c < n /\ t < tpc /\ forall tm', (lnow s <= tm')%N -> exists s', lstep n tpc tm' c t s = Some s' /\ lsep n tpc (linit rv0 acc0 tr0 red0 r0 tm) s')%nat.
Proof. exact (fun n tpc rv0 acc0 tr0 red0 r0 tm s Hn Ht => progress_ok n tpc Hn Ht rv0 acc0 tr0 red0 r0 tm s). Qed.
Print Assumptions C77_progress.
Example C77_progress_hyps : lsep 2 2 li0 li_mid /\ lpcs li_mid 1 1 = LIn /\ lpcs li_mid 0 0 = LOut.
Proof. exact mid_case. Qed.

Example C77_measured_hyps : lsep 2 2 li0 li_two.
Proof. exact li_two_sep. Qed.
Example C77_measured_ex : map (measured 2 li_two) [0;1;2;3]%nat =
  [[(100,103,146); (158,162,206)]; [(102,103,156); (162,162,216)]; [(103,103,145); (157,162,205)]; [(101,103,155); (161,162,215)]]%N.
Proof. exact li_two_out. Qed.

(** If a thread may start its next call at once, the value may be later than all
    arrivals. *)
Theorem C77_race_refuted : exists s, lreach 2 1 li0 s /\ exists a v o, nth_error (measured 1 s 0) 0 = Some (a, v, o) /\
  (forall tid, (tid < 2)%nat -> exists b, nth_error (starts 1 s tid) 0 = Some b /\ (b < v)%N).
Proof. exact race_refuted. Qed.
Print Assumptions C77_race_refuted.

(** C77: a call stays inside the arrays exactly if barNum is below numUses. *)
Theorem C77_defined : forall numUses cs l b s la e, summarises numUses cs l -> (exists l', limba_wait b s la e l = Some l') <-> 0 <= b < numUses.
Proof. exact wait_defined. Qed.
Print Assumptions C77_defined.

(** getInstance leaves numUses at 1: a second use writes behind the arrays. *)
Theorem C77_uses_refuted : forall cs l s la e, run_calls cs (limba_init 1) = Some l -> Forall (call_ok 1) cs -> limba_wait 1 s la e l = None.
Proof. exact uses_refuted. Qed.
Print Assumptions C77_uses_refuted.

(** C77: reset forgets all calls. *)
Theorem C77_reset : forall numUses T hist ls, 0 <= numUses -> 0 <= T -> team numUses T hist ls ->
  exists ls', limba_reset numUses T ls = Some ls' /\ team numUses T (fun _ => []) ls'.
Proof. exact reset_ok. Qed.
Print Assumptions C77_reset.

(** C77: the summary prints least, largest and averages over the calls of all threads. *)
Theorem C77_print : forall numUses T hist ls, 0 <= numUses -> 1 <= T -> team numUses T hist ls -> (forall i, 0 <= i < T -> Forall (call_ok numUses) (hist i)) -> fits T hist ->
  limba_print numUses T ls = Some (map (fun j => row_of T j hist) (zrange 0 numUses)).
Proof. exact print_ok. Qed.
Print Assumptions C77_print.

Example C77_print_hyps : team 2 2 li_hist li_team /\ (forall i, 0 <= i < 2 -> Forall (call_ok 2) (li_hist i)) /\ fits 2 li_hist.
Proof. exact (conj li_team_ok (conj li_hist_ok li_fits)). Qed.
(** The second use was not used: its minimum is the largest number. *)
Example C77_print_ex : limba_print 2 2 li_team = Some [[0; 2; 0; 4; 4; 97; 2; 2; 48]; [1; 2; 2 ^ 64 - 1; 0; 0; 0; 0; 0; 0]].
Proof. exact li_print. Qed.

(** C77: printLoadImbalance takes the time to leave from the time waited, modulo 2^64. *)
Theorem C77_imbalance : forall numUses T hist ls, 0 <= numUses -> 0 <= T -> team numUses T hist ls -> (forall i, 0 <= i < T -> Forall (call_ok numUses) (hist i)) ->
  limba_imbalance numUses T ls = Some ((sum_of waited (everyone T hist) - sum_of leaving (everyone T hist)) mod 2 ^ 64).
Proof. exact imbalance_ok. Qed.
Print Assumptions C77_imbalance.

(** Threads that arrive at the same time are reported with an imbalance of nearly 2^64. *)
Theorem C77_imbalance_refuted : exists s l0 l1, lsep 2 1 li0 s /\ (lnow s <= 6)%N /\
  run_calls (calls_of (fun _ => 0) (measured 1 s 0)) (limba_init 1) = Some l0 /\
  run_calls (calls_of (fun _ => 0) (measured 1 s 1)) (limba_init 1) = Some l1 /\
  limba_imbalance 1 2 [l0; l1] = Some (2 ^ 64 - 2).
Proof. exact even_refuted. Qed.
Print Assumptions C77_imbalance_refuted.

(** C77: the destructor frees every array once, but not the structures. *)
Theorem C77_destroy : forall T, 0 <= T -> limba_destroy T (limba_blocks T) = Some (map LStruct (zrange 0 T)).
Proof. exact destroy_leaves. Qed.
Print Assumptions C77_destroy.
Theorem C77_leak_refuted : forall T, 1 <= T -> exists h, limba_destroy T (limba_blocks T) = Some h /\ In (LStruct 0) h.
Proof. exact leak_refuted. Qed.
Print Assumptions C77_leak_refuted.
