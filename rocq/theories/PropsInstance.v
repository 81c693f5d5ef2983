(** Property C72: the barrier shared by a program. *)
From Verif Require Import Base InitSkel Barrier BarrierInit Instance.

(** ** C72 *)
(** Every thread of a team calls getInstance, as often as it likes, and there is no
    instance yet: in every interleaving exactly one object is made, every call
    returns it, and only when it is in the state from which C26 and C27 are
    proved; nothing undefined happens, the number of moves is bounded, and some
    thread can move until all calls are made.  Objects made earlier are not touched. *)
Theorem C72_get : forall mic T jt jf, (1 <= T)%nat -> let tpc := threads_per_core mic T in let n := (T / tpc)%nat in bjunk_ok n tpc (rounds n) jt jf ->
  forall old calls, (forall t, 0 <= t < Z.of_nat T -> 1 <= calls t) ->
  gives (Z.of_nat T) (Z.of_nat n * Z.of_nat tpc) (b_setup (Z.of_nat n) (Z.of_nat tpc) (Z.of_nat (rounds n)) jt jf) (b_nact (Z.of_nat tpc) (Z.of_nat (rounds n))) (b_act (Z.of_nat n) (Z.of_nat tpc)) b_start
    (gstart (Z.of_nat T) None old calls) calls (8 * zsum (map calls (zrange 0 (Z.of_nat T))) + Z.of_nat T * (11 + Z.of_nat (rounds n))) (Zlen old) (ready_object n tpc old).
Proof. exact get_ok. Qed.
Print Assumptions C72_get.
Example C72_get_case : bjunk_ok 3 1 (rounds 3) (fun _ => [7]) (fun _ => [8; 9]) /\
  option_map (fun s => (g_inst s, Zlen (g_objs s), g_th s, option_map (fun ob => (istat ob, map (b_tc (imem ob)) [0; 1; 2])) (get (g_objs s) 1))) (g_run (turns 3 40))
  = Some (Some 1, 2, [mkT GTest 0 [1]; mkT GTest 0 [1; 1]; mkT GTest 0 [1; 1; 1]], Some (2, [Some 0; Some 1; Some 2])).
Proof. exact instance_case. Qed.
Example C72_waits_case : option_map (fun s => (g_inst s, Zlen (g_objs s), map t_pc (g_th s))) (g_run (concat (repeat [1; 2] 40))) = Some (None, 1, [GTest; GWait1 0; GWait1 0]).
Proof. exact instance_waits. Qed.

(** The same for initializeInstance, if it is given the size of the team. *)
Theorem C72_initialize : forall n tpc jt jf, (1 <= n)%nat -> (1 <= tpc <= 128)%nat -> bjunk_ok n tpc (rounds n) jt jf ->
  forall old calls, (forall t, 0 <= t < Z.of_nat (n * tpc) -> 1 <= calls t) ->
  gives (Z.of_nat (n * tpc)) (Z.of_nat n * Z.of_nat tpc) (b_setup (Z.of_nat n) (Z.of_nat tpc) (Z.of_nat (rounds n)) jt jf) (b_nact (Z.of_nat tpc) (Z.of_nat (rounds n))) (b_act (Z.of_nat n) (Z.of_nat tpc)) b_start
    (gstart (Z.of_nat (n * tpc)) None old calls) calls (8 * zsum (map calls (zrange 0 (Z.of_nat (n * tpc)))) + Z.of_nat (n * tpc) * (11 + Z.of_nat (rounds n))) (Zlen old) (ready_object n tpc old).
Proof. exact initialize_ok. Qed.
Print Assumptions C72_initialize.
Example C72_initialize_case : bjunk_ok 1 2 (rounds 1) (fun _ => [7; 8]) (fun _ => [9]) /\
  option_map (fun s => (g_inst s, g_th s, map (fun ob => map (b_ct (imem ob)) [0; 1]) (g_objs s))) (gexec 2 2 (b_setup 1 2 1 (fun _ => [7; 8]) (fun _ => [9])) (b_nact 2 1) (b_act 1 2) b_start (turns 2 40) (gstart 2 None [] (fun _ => 1)))
  = Some (Some 0, [mkT GTest 0 [0]; mkT GTest 0 [0]], [[Some 0; Some 1]]).
Proof. exact initialize_case. Qed.

(** There is an instance already: every call of any team returns it and makes nothing. *)
Theorem C72_there : forall T N (setup : Z -> bmem -> option bmem) nact act m0 o old calls, 0 <= T -> (forall t, 0 <= t < T -> 0 <= calls t) ->
  gives T N setup nact act m0 (gstart T (Some o) old calls) calls (2 * zsum (map calls (zrange 0 T))) o (fun s => g_inst s = Some o /\ g_objs s = old).
Proof. exact (@there_gives bmem). Qed.
Print Assumptions C72_there.
Example C72_there_case : option_map (fun s => (g_inst s, Zlen (g_objs s), g_th s)) (gexec 2 3 i2_setup (b_nact 1 1) (b_act 2 1) b_start (turns 2 6) (gstart 2 (Some 0) [l_ob] g_calls)) = Some (Some 0, 1, [mkT GTest 0 [0]; mkT GTest 0 [0; 0]]).
Proof. exact there_case. Qed.

(** Whatever sequence of regions, calls outside of regions and deletions a program
    makes: every object is deleted at most once, all but the instance have been
    deleted, the instance was set up completely, and its destructor gives back every
    block exactly once and reads none that it has given back. *)
Theorem C72_life : forall n tpc jt jf, (1 <= n)%nat -> (1 <= tpc <= 128)%nat -> bjunk_ok n tpc (rounds n) jt jf ->
  forall w, lived (Z.of_nat n * Z.of_nat tpc) (b_setup (Z.of_nat n) (Z.of_nat tpc) (Z.of_nat (rounds n)) jt jf) (b_nact (Z.of_nat tpc) (Z.of_nat (rounds n))) (b_act (Z.of_nat n) (Z.of_nat tpc)) b_start w ->
  well_kept (b_ready (Z.of_nat n) (Z.of_nat tpc) (Z.of_nat (rounds n))) w /\
  forall o ob h, w_inst w = Some o -> get (w_objs w) o = Some ob -> (forall b, h b = allocated (Z.of_nat n) b) ->
    exists h', destroy (Z.of_nat n) true (imem ob) h = Some h' /\ forall b, h' b = false.
Proof. exact barrier_life. Qed.
Print Assumptions C72_life.
Example C72_life_case : let w := mkW (g_inst l_end) (g_objs l_end) [0] in
  lived 2 i2_setup (b_nact 1 1) (b_act 2 1) b_start w /\ (w_inst w, Zlen (w_objs w), g_th l_end) = (Some 1, 2, [mkT GTest 0 [1]; mkT GTest 0 [1; 1]]).
Proof. exact life_case. Qed.
Example C72_destroy_case : option_map (fun h => map h [BCores; BThreadCores; BCoreTids; BCore 0; BCore 1; BSenses 0; BSenses 1; BFlags 0 0; BFlags 1 1; BPartner 0 1; BPartner 1 0]) (destroy 2 true (imem l_ob) (allocated 2)) = Some (repeat false 11) /\
  destroy 2 true (imem l_ob) (allocated 1) = None.
Proof. exact destroy_case. Qed.

(** initializeInstance for more threads than call it: no call ever returns. *)
Theorem C72_small_team_refuted : forall T N (setup : Z -> bmem -> option bmem) nact act m0, 1 <= T < N -> forall old calls, (forall t, 0 <= t < T -> 1 <= calls t) ->
  forall k s, grun T N setup nact act m0 (gstart T None old calls) k s -> forall t th, get (g_th s) t = Some th -> t_got th = [].
Proof. exact (@short_never bmem). Qed.
Print Assumptions C72_small_team_refuted.
Example C72_small_team_case : option_map (fun s => (g_inst s, map t_pc (g_th s), map (fun ob => (iwait ob, ipcs ob)) (g_objs s)))
  (gexec 2 3 (b_setup 3 1 2 (fun _ => [7]) (fun _ => [8; 9])) (b_nact 1 2) (b_act 3 1) b_start (turns 2 60) (gstart 2 None [] (fun _ => 1)))
  = Some (Some 0, [GInit 0; GInit 0], [(1, [ISpin1; ISpin1])]).
Proof. exact instance_short_case. Qed.

(** For fewer threads than call it: the third of three writes behind the table of cores. *)
Theorem C72_large_team_refuted : exists jt jf k s, bjunk_ok 2 1 (rounds 2) jt jf /\
  grun 3 2 (b_setup 2 1 1 jt jf) (b_nact 1 1) (b_act 2 1) b_start (gstart 3 None [] (fun _ => 1)) k s /\
  gstep 3 2 (b_setup 2 1 1 jt jf) (b_nact 1 1) (b_act 2 1) b_start 2 s = None.
Proof. exact instance_long. Qed.
Print Assumptions C72_large_team_refuted.
