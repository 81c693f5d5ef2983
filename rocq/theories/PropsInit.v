(** Property C58: the barriers are set up completely before a thread can use them. *)
From Verif Require Import Base InitSkel Barrier Reduce BarrierInit ReduceInit.

(** ** C58 *)
(** Barrier::init, any memory from the allocator, any interleaving: no undefined
    behaviour, no endless run, no deadlock, and once a thread returns the memory is
    the starting state from which C26 and C27 are proved. *)
Theorem C58_barrier : forall n tpc L jt jf, (1 <= n)%nat -> (1 <= tpc <= 128)%nat ->
  (forall c, Zlen (jt c) = Z.of_nat tpc) -> (forall c, Zlen (jf c) = Z.of_nat L) ->
  forall k s, irun (Z.of_nat n * Z.of_nat tpc) (b_setup (Z.of_nat n) (Z.of_nat tpc) (Z.of_nat L) jt jf) (b_nact (Z.of_nat tpc) (Z.of_nat L)) (b_act (Z.of_nat n) (Z.of_nat tpc))
     (istart (Z.of_nat n * Z.of_nat tpc) b_start) k s ->
  k <= Z.of_nat n * Z.of_nat tpc * (11 + Z.of_nat L) /\
  (forall t, 0 <= t < Z.of_nat n * Z.of_nat tpc -> istep (Z.of_nat n * Z.of_nat tpc) (b_setup (Z.of_nat n) (Z.of_nat tpc) (Z.of_nat L) jt jf) (b_nact (Z.of_nat tpc) (Z.of_nat L)) (b_act (Z.of_nat n) (Z.of_nat tpc)) t s <> None) /\
  ((forall t, 0 <= t < Z.of_nat n * Z.of_nat tpc -> get (ipcs s) t = Some IDone) \/
   exists t s', 0 <= t < Z.of_nat n * Z.of_nat tpc /\ istep (Z.of_nat n * Z.of_nat tpc) (b_setup (Z.of_nat n) (Z.of_nat tpc) (Z.of_nat L) jt jf) (b_nact (Z.of_nat tpc) (Z.of_nat L)) (b_act (Z.of_nat n) (Z.of_nat tpc)) t s = Some (Some s')) /\
  ((exists t, get (ipcs s) t = Some IDone) -> b_shows n tpc L (imem s) Barrier.init).
Proof. exact barrier_is_set_up. Qed.
Print Assumptions C58_barrier.
Example C58_barrier_case :
  option_map (fun s => (ipcs s, istat s, map (b_cores (imem s)) [0; 1], map (b_obj (imem s)) [0; 1],
    (b_pf (imem s) 0 0 0, b_pf (imem s) 0 1 0, b_pf (imem s) 1 0 0, b_pf (imem s) 1 1 0), map (b_tc (imem s)) [0; 1; 2; 3], map (b_ct (imem s)) [0; 1; 2; 3]))
    (iexec 4 (b_setup 2 2 1 (fun _ => [7; 8]) (fun _ => [9])) (b_nact 2 1) (b_act 2 2) (turns 4 16) (istart 4 b_start))
  = Some (repeat IDone 4, 2, [Some 0; Some 1], repeat (Some (mkCore 1 [1; 1] [0] [0] 0 1)) 2,
     (Some (1, 0, 0), Some (1, 1, 0), Some (0, 0, 0), Some (0, 1, 0)), [Some 0; Some 0; Some 1; Some 1], [Some 0; Some 1; Some 0; Some 1]).
Proof. exact barrier_init_case. Qed.

(** With more than 128 threads on a core the property fails: the number of
    thread 128 is stored as -128. *)
Theorem C58_threads_refuted : exists jt jf k s, (forall c, Zlen (jt c) = 129) /\ (forall c, Zlen (jf c) = 1) /\
  irun 129 (b_setup 1 129 1 jt jf) (b_nact 129 1) (b_act 1 129) (istart 129 b_start) k s /\
  get (ipcs s) 128 = Some IDone /\ b_ct (imem s) 128 = Some (-128).
Proof. exact barrier_init_int8. Qed.
Print Assumptions C58_threads_refuted.

(** ReduceBarrier::init: the same, if the number of cores is a power of two or at most 128. *)
Theorem C58_reduce : forall n tpc jt jf jp V rv0 acc0 tr0 red0 r0, (1 <= n)%nat -> (n = nearest_pow2 n \/ n <= 128)%nat -> (1 <= tpc <= 128)%nat ->
  (forall c, Zlen (jt c) = Z.of_nat tpc) -> (forall c, Zlen (jf c) = Z.of_nat (rounds n)) -> (forall c, Zlen (jp c) = Z.of_nat (rounds n)) ->
  reduce_set_up n tpc jt jf jp (fun m => r_shows n (nearest_pow2 n) tpc (rounds n) m (@minit V rv0 acc0 tr0 red0 r0)).
Proof. exact reduce_is_set_up. Qed.
Print Assumptions C58_reduce.
Example C58_reduce_case :
  option_map (fun s => (ipcs s, istat s, map (r_ps (imem s)) [0; 1; 2], map (fun v => map (r_pr (imem s) v) [0; 1]) [0; 1; 2; 3], map (fun v => map (r_pf (imem s) v 1) [0; 1]) [0; 1; 2; 3], map (r_tc (imem s)) [0; 1; 2]))
    (iexec 3 (r_setup 3 4 1 2 (fun _ => [7]) (fun _ => [8; 9]) (fun _ => [5; 6])) (r_nact 1 2) (r_act 3 4 1) (turns 3 16) (istart 3 r_start))
  = Some (repeat IDone 3, 2, [Some (mkPs 3 [0; 0] [0; 0] 0 1); None; None],
      [[Some (1, 0); Some (2, 1)]; [Some (2, 0); Some (3, 1)]; [Some (3, 0); Some (0, 1)]; [Some (0, 0); Some (1, 1)]],
      [[Some (1, 1, 0); Some (2, 1, 1)]; [Some (2, 1, 0); Some (3, 1, 1)]; [Some (3, 1, 0); Some (0, 1, 1)]; [Some (0, 1, 0); Some (1, 1, 1)]],
      [Some 0; Some 1; Some 2]).
Proof. exact reduce_init_case. Qed.

(** The number of participants is the one computed by the constructor. *)
Theorem C58_counts : forall n : nat, (1 <= n)%nat -> exists fuel0, forall fuel, (fuel0 <= fuel)%nat -> pow2_loop fuel 1 (Z.of_nat n) = Some (Z.of_nat (nearest_pow2 n)).
Proof. exact pow2_loop_ok. Qed.
Print Assumptions C58_counts.
Example C58_counts_case : pow2_loop 9 1 5 = Some 8.
Proof. exact (eq_refl _). Qed.

(** 240 cores: a pseudo core's number does not fit an int8_t, and the set-up
    reads outside the table of cores. *)
Theorem C58_cores_refuted : exists jt jf jp k s, (forall c, Zlen (jt c) = 1) /\ (forall c, Zlen (jf c) = 8) /\ (forall c, Zlen (jp c) = 8) /\
  irun 240 (r_setup 240 256 1 8 jt jf jp) (r_nact 1 8) (r_act 240 256 1) (istart 240 r_start) k s /\
  istep 240 (r_setup 240 256 1 8 jt jf jp) (r_nact 1 8) (r_act 240 256 1) 0 s = None.
Proof. exact reduce_init_int8. Qed.
Print Assumptions C58_cores_refuted.
