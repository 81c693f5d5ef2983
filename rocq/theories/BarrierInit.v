(** * Setting up the barriers (/repo/synk/barrier.cpp:111-185, synk/reduce.hpp:107-246).

    The objects of the cores are created by thread 0 of each core; an object is
    named by its core.  A table holds [None] where nothing has been stored yet:
    reading it is undefined behaviour.  Not modelled: the failure of an allocation
    and the initial contents of myRvals (written before they are read). *)
From Verif Require Import Base InitSkel Barrier Reduce.

(** Conversion to int8_t (two's complement). *)
Definition int8 (x : Z) : Z := (x + 128) mod 256 - 128.
Definition put {A} (f : Z -> A) (i : Z) (v : A) : Z -> A := fun x => if x =? i then v else f x.
(** Load and store of an array of length [n] given by a function. *)
Definition rd {A} (n : Z) (f : Z -> option A) (i : Z) : option A := if (0 <=? i) && (i <? n) then f i else None.
Definition wr {A} (n : Z) (f : Z -> option A) (i : Z) (v : A) : option (Z -> option A) := if (0 <=? i) && (i <? n) then Some (put f i (Some v)) else None.
(** [for (i = 0; i < n; ++i) a[i] = v] *)
Definition fill (n v : Z) (a : list Z) : option (list Z) := forZ 0 n (fun i a => set a i v) a.

(** Threads and cores. *)
Lemma tid_core n tpc : 1 <= tpc -> forall tid, 0 <= tid < n * tpc -> 0 <= tid / tpc < n /\ 0 <= tid mod tpc < tpc /\ tid = tid / tpc * tpc + tid mod tpc.
Proof.
  intros Ht tid H. pose proof (Z.mod_pos_bound tid tpc ltac:(lia)). pose proof (Z.div_mod tid tpc ltac:(lia)). split; [|lia]. split; [apply Z.div_pos; lia|apply Z.div_lt_upper_bound; lia].
Qed.
Lemma core_tid n tpc : 1 <= tpc -> forall c t, 0 <= c < n -> 0 <= t < tpc -> 0 <= c * tpc + t < n * tpc /\ (c * tpc + t) / tpc = c /\ (c * tpc + t) mod tpc = t.
Proof.
  intros Ht c t Hc Hu. split; [nia|]. split; [rewrite Z.add_comm, Z.div_add, Z.div_small by lia; lia|]. rewrite Z.add_comm, Z_mod_plus_full. apply Z.mod_small. lia.
Qed.

(** ** Barrier *)
Section BarrierInit.
(** numCores, numThreadsPerCore, lgNumCores *)
Variables n tpc L : Z.

(** CoreBarrier (barrier.hpp:45-53), without partnerFlags; one entry of the flags
    per cache line. *)
Record core_obj := mkCore { o_cs : Z; o_ts : list Z; o_fl0 : list Z; o_fl1 : list Z; o_par : Z; o_sns : Z }.
Record bmem := mkB {
  b_cores : Z -> option Z;                  (* cores *)
  b_obj : Z -> option core_obj;
  b_pf : Z -> Z -> Z -> option (Z * Z * Z); (* partnerFlags[j][i] of a core: core, j and i of the flag it points to *)
  b_tc : Z -> option Z;                     (* threadCores *)
  b_ct : Z -> option Z }.                   (* coreTids *)
(** barrier.cpp:111-123 *)
Definition b_start : bmem := mkB (fun _ => None) (fun _ => None) (fun _ _ _ => None) (fun _ => None) (fun _ => None).

(** barrier.cpp:132-157; [jt], [jf] is the memory the allocations return. *)
Definition b_setup (jt jf : Z -> list Z) (tid : Z) (m : bmem) : option bmem :=
  let cid := tid / tpc in
  if tid mod tpc =? 0 then
    ts <- fill tpc 1 (jt cid) ;; f0 <- fill L 0 (jf cid) ;; f1 <- fill L 0 (jf (cid + n)) ;;
    cs <- wr n (b_cores m) cid cid ;;
    Some (mkB cs (put (b_obj m) cid (Some (mkCore 1 ts f0 f1 0 1))) (b_pf m) (b_tc m) (b_ct m))
  else Some m.
(** barrier.cpp:165-178: entry of threadCores, entry of coreTids, the links of
    round [k] - 2.  Entries that a round reads are not stored to any more. *)
Definition b_nact (tid : Z) : Z := if tid mod tpc =? 0 then 2 + L else 2.
Definition b_act (tid k : Z) (m : bmem) : option bmem :=
  let cid := tid / tpc in
  if k =? 0 then
    c <- rd n (b_cores m) cid ;; tc <- wr (n * tpc) (b_tc m) tid c ;; Some (mkB (b_cores m) (b_obj m) (b_pf m) tc (b_ct m))
  else if k =? 1 then
    ct <- wr (n * tpc) (b_ct m) tid (int8 (tid mod tpc)) ;; Some (mkB (b_cores m) (b_obj m) (b_pf m) (b_tc m) ct)
  else
    let i := k - 2 in
    q <- rd n (b_cores m) ((cid + 2 ^ i) mod n) ;;
    o <- b_obj m q ;; own <- b_obj m cid ;;
    Some (mkB (b_cores m) (b_obj m) (fun c j r => if (c =? cid) && (r =? i) && ((j =? 0) || (j =? 1)) then Some (q, j, i) else b_pf m c j r) (b_tc m) (b_ct m)).

(** ** Specification *)
(** The tables are complete: the objects hold the starting values, and every
    thread finds its core and its number in the core. *)
Definition b_ready (m : bmem) : Prop :=
  (forall c, 0 <= c < n -> b_cores m c = Some c /\
     b_obj m c = Some (mkCore 1 (repeat 1 (Z.to_nat tpc)) (repeat 0 (Z.to_nat L)) (repeat 0 (Z.to_nat L)) 0 1) /\
     forall j i, (j = 0 \/ j = 1) -> 0 <= i < L -> b_pf m c j i = Some ((c + 2 ^ i) mod n, j, i)) /\
  (forall c t, 0 <= c < n -> 0 <= t < tpc -> b_tc m (c * tpc + t) = Some c /\ b_ct m (c * tpc + t) = Some (int8 t)).

(** ** Proof *)
Lemma fill_ok k v a : 0 <= k -> Zlen a = k -> fill k v a = Some (repeat v (Z.to_nat k)).
Proof.
  intros Hk Ha. unfold fill.
  destruct (forZ_rule (fun i w => Zlen w = k /\ forall x, 0 <= x < i -> get w x = Some v) 0 k (fun i a => set a i v) a) as (w & E & Lw & Gw); auto.
  - split; auto. intros; lia.
  - intros i w Hi (Lw & Gw). destruct (set_ok w i v) as (w' & S); [lia|]. exists w'. split; auto. split; [rewrite (set_len _ _ _ _ S); auto|].
    intros x Hx. rewrite (get_set _ _ _ _ _ S). destruct (Z.eqb_spec x i); auto. apply Gw. lia.
  - rewrite E. f_equal. apply list_ext; [rewrite Zlen_repeat; lia|]. intros i Hi. rewrite Gw by lia. symmetry.
    destruct (get_in_range (repeat v (Z.to_nat k)) i) as (x & G); [rewrite Zlen_repeat; lia|]. rewrite G. apply get_In, repeat_spec in G. now subst.
Qed.
Lemma rd_ok {A} (k : Z) (f : Z -> option A) i v : 0 <= i < k -> f i = Some v -> rd k f i = Some v.
Proof. intros H E. unfold rd. destruct (Z.leb_spec 0 i), (Z.ltb_spec i k); cbn [andb]; auto; lia. Qed.
Lemma wr_ok {A} (k : Z) (f : Z -> option A) i v : 0 <= i < k -> wr k f i v = Some (put f i (Some v)).
Proof. intros H. unfold wr. destruct (Z.leb_spec 0 i), (Z.ltb_spec i k); cbn [andb]; auto; lia. Qed.

Hypothesis Hn : 1 <= n.
Hypothesis Ht : 1 <= tpc.
Hypothesis HL : 0 <= L.
Variables jt jf : Z -> list Z.
Hypothesis Hjt : forall c, Zlen (jt c) = tpc.
Hypothesis Hjf : forall c, Zlen (jf c) = L.

Let fresh := mkCore 1 (repeat 1 (Z.to_nat tpc)) (repeat 0 (Z.to_nat L)) (repeat 0 (Z.to_nat L)) 0 1.
Definition b_I1 (d : Z -> bool) (m : bmem) : Prop :=
  forall c, 0 <= c < n -> d (c * tpc) = true -> b_cores m c = Some c /\ b_obj m c = Some fresh.
Definition b_I2 (d : Z -> Z) (m : bmem) : Prop :=
  (forall c, 0 <= c < n -> b_cores m c = Some c /\ b_obj m c = Some fresh /\
     forall j i, (j = 0 \/ j = 1) -> 0 <= i < L -> i + 2 < d (c * tpc) -> b_pf m c j i = Some ((c + 2 ^ i) mod n, j, i)) /\
  (forall t, 0 <= t < n * tpc -> (0 < d t -> b_tc m t = Some (t / tpc)) /\ (1 < d t -> b_ct m t = Some (int8 (t mod tpc)))).

Theorem b_init_skeleton k s : irun (n * tpc) (b_setup jt jf) b_nact b_act (istart (n * tpc) b_start) k s ->
  k <= zsum (map (fun t => 9 + b_nact t) (zrange 0 (n * tpc))) /\
  (forall t, 0 <= t < n * tpc -> istep (n * tpc) (b_setup jt jf) b_nact b_act t s <> None) /\
  ((forall t, 0 <= t < n * tpc -> get (ipcs s) t = Some IDone) \/ exists t s', 0 <= t < n * tpc /\ istep (n * tpc) (b_setup jt jf) b_nact b_act t s = Some (Some s')) /\
  ((exists t, get (ipcs s) t = Some IDone) -> b_ready (imem s)).
Proof.
  intros R.
  assert (C0 : forall c, 0 <= c < n -> 0 <= c * tpc < n * tpc /\ (c * tpc) / tpc = c /\ (c * tpc) mod tpc = 0).
  { intros c Hc. pose proof (core_tid n tpc Ht c 0 Hc ltac:(lia)) as H. rewrite Z.add_0_r in H. auto. }
  destruct (skeleton (n * tpc) (b_setup jt jf) b_nact b_act b_I1 b_I2) with (m := b_start) (k := k) (s := s) as (S1 & S2 & S3 & S4); auto.
  - nia.
  - intros t _. unfold b_nact. destruct (t mod tpc =? 0); lia.
  - intros d d' m E H c Hc D. apply H; auto. rewrite E; auto. apply C0; auto.
  - intros d d' m E (H & H'). split.
    + intros c Hc. destruct (H c Hc) as (A1 & A2 & A3). split; auto. split; auto. intros j i Hj Hi Hd. apply A3; auto. rewrite E; auto. apply C0; auto.
    + intros t Hh. rewrite <- (E t Hh). auto.
  - intros d m t Hh D H. destruct (tid_core n tpc Ht t Hh) as (T1 & T2 & T3). unfold b_setup. destruct (Z.eqb_spec (t mod tpc) 0) as [E|E].
    + rewrite !fill_ok by (auto; lia). rewrite wr_ok by lia. eexists. split; [reflexivity|]. intros c Hc Dc. cbn [b_cores b_obj]. unfold put.
      destruct (Z.eqb_spec c (t / tpc)) as [->|Nc]; [auto|]. apply H; auto. destruct (Z.eqb_spec (c * tpc) t) as [Et|Et]; auto. exfalso. apply Nc. rewrite <- Et. symmetry. apply C0; auto.
    + exists m. split; auto. intros c Hc Dc. apply H; auto. destruct (Z.eqb_spec (c * tpc) t) as [Et|Et]; auto. exfalso. apply E. rewrite <- Et. apply C0; auto.
  - intros m H. split.
    + intros c Hc. destruct (H c Hc eq_refl) as (A & B). split; auto. split; auto. intros; lia.
    + intros t Hh. split; lia.
  - intros d m t Hh Hd (H & H'). destruct (tid_core n tpc Ht t Hh) as (T1 & T2 & T3). unfold b_act. destruct (Z.eqb_spec (d t) 0) as [D0|D0]; [|destruct (Z.eqb_spec (d t) 1) as [D1|D1]].
    + destruct (H _ T1) as (A1 & A2 & A3). rewrite (rd_ok n _ _ _ T1 A1). rewrite wr_ok by lia. eexists. split; [reflexivity|]. split.
      * intros c Hc. cbn [b_cores b_obj b_pf]. destruct (H c Hc) as (B1 & B2 & B3). split; auto. split; auto. intros j i Hj Hi Hd'. apply B3; auto. destruct (Z.eqb_spec (c * tpc) t); subst; lia.
      * intros u Hu. cbn [b_tc b_ct]. unfold put. destruct (H' u Hu) as (B1 & B2). destruct (Z.eqb_spec u t) as [->|Nu]; split; auto. lia.
    + rewrite wr_ok by lia. eexists. split; [reflexivity|]. split.
      * intros c Hc. cbn [b_cores b_obj b_pf]. destruct (H c Hc) as (B1 & B2 & B3). split; auto. split; auto. intros j i Hj Hi Hd'. apply B3; auto. destruct (Z.eqb_spec (c * tpc) t); subst; lia.
      * intros u Hu. cbn [b_tc b_ct]. unfold put. destruct (H' u Hu) as (B1 & B2). destruct (Z.eqb_spec u t) as [->|Nu]; split; auto. intros _. apply B1. lia.
    + assert (Z0 : t mod tpc = 0 /\ d t < 2 + L) by (unfold b_nact in Hd; destruct (Z.eqb_spec (t mod tpc) 0); lia). destruct Z0 as (Z0 & Zd).
      pose proof (Z.mod_pos_bound (t / tpc + 2 ^ (d t - 2)) n ltac:(lia)) as Q. destruct (H _ Q) as (Q1 & Q2 & _). destruct (H _ T1) as (A1 & A2 & _).
      rewrite (rd_ok n _ _ _ Q Q1), Q2, A2. eexists. split; [reflexivity|]. split.
      * intros c Hc. cbn [b_cores b_obj b_pf]. destruct (H c Hc) as (B1 & B2 & B3). split; auto. split; auto. intros j i Hj Hi Hd'.
        destruct (Z.eqb_spec c (t / tpc)) as [Ec|Nc]; cbn [andb].
        -- replace (c * tpc) with t in Hd' by lia. rewrite Z.eqb_refl in Hd'. destruct (Z.eqb_spec i (d t - 2)) as [->|Ni]; cbn [andb].
           ++ replace ((j =? 0) || (j =? 1)) with true by lia. subst c. reflexivity.
           ++ apply B3; auto. replace (c * tpc) with t by lia. lia.
        -- apply B3; auto. destruct (Z.eqb_spec (c * tpc) t) as [Et|Et]; auto. exfalso. apply Nc. rewrite <- Et. symmetry. apply C0; auto.
      * intros u Hu. cbn [b_tc b_ct]. destruct (H' u Hu) as (B1 & B2). destruct (Z.eqb_spec u t) as [->|Nu]; auto. split; intros _; [apply B1|apply B2]; lia.
  - intros c Hc H. discriminate.
  - rewrite todo_start in S1. split; [exact S1|].
    split; [exact S2|]. split; [exact S3|]. intros (t & G). destruct (S4 t G) as (H & H'). split.
    + intros c Hc. destruct (H c Hc) as (A1 & A2 & A3). split; auto. split; auto. intros j i Hj Hi. apply A3; auto. unfold b_nact. destruct (C0 c Hc) as (_ & _ & ->). rewrite Z.eqb_refl. lia.
    + intros c u Hc Hu. destruct (core_tid n tpc Ht c u Hc Hu) as (E1 & E2 & E3). destruct (H' _ E1) as (B1 & B2). rewrite E2 in B1. rewrite E3 in B2.
      assert (2 <= b_nact (c * tpc + u)) by (unfold b_nact; destruct (_ =? 0); lia). split; [apply B1; lia|apply B2; lia].
Qed.
End BarrierInit.

(** ** The start of the machine of Barrier *)
(** The memory is that of state [s] of the machine: the senses, flags and links of
    every core and, for every thread, its core and its number there. *)
Definition b_shows (n tpc L : nat) (m : bmem) (s : Barrier.state) : Prop :=
  forall c, (c < n)%nat -> exists o, b_cores m (Z.of_nat c) = Some (Z.of_nat c) /\ b_obj m (Z.of_nat c) = Some o /\
    o_cs o = b2z (csense s c) /\ o_par o = b2z (Barrier.par s c) /\ o_sns o = b2z (sns s c) /\
    (forall t, (t < tpc)%nat -> get (o_ts o) (Z.of_nat t) = Some (b2z (tsense s c t)) /\
       b_tc m (Z.of_nat (c * tpc + t)) = Some (Z.of_nat c) /\ b_ct m (Z.of_nat (c * tpc + t)) = Some (Z.of_nat t)) /\
    (forall i, (i < L)%nat -> get (o_fl0 o) (Z.of_nat i) = Some (b2z (flag s c false i)) /\ get (o_fl1 o) (Z.of_nat i) = Some (b2z (flag s c true i)) /\
       forall b, b_pf m (Z.of_nat c) (b2z b) (Z.of_nat i) = Some (Z.of_nat (partner n c i), b2z b, Z.of_nat i)).

Lemma get_repeat {A} (v : A) k i : 0 <= i < Z.of_nat k -> get (repeat v k) i = Some v.
Proof. intros H. destruct (get_in_range (repeat v k) i) as (x & G); [rewrite Zlen_repeat; lia|]. rewrite G. apply get_In, repeat_spec in G. now subst. Qed.
Lemma int8_small x : 0 <= x < 128 -> int8 x = x.
Proof. intros H. unfold int8. rewrite Z.mod_small; lia. Qed.
Lemma b_ready_shows n tpc L m : (1 <= n)%nat -> (tpc <= 128)%nat -> b_ready (Z.of_nat n) (Z.of_nat tpc) (Z.of_nat L) m -> b_shows n tpc L m Barrier.init.
Proof.
  intros Hn Ht (A & B) c Hc. destruct (A (Z.of_nat c)) as (A1 & A2 & A3); [lia|]. eexists. split; [exact A1|]. split; [exact A2|].
  cbn [o_cs o_par o_sns o_ts o_fl0 o_fl1 csense Barrier.par sns tsense flag Barrier.init b2z]. split; auto. split; auto. split; auto. split.
  - intros t Hu. split; [apply get_repeat; lia|]. destruct (B (Z.of_nat c) (Z.of_nat t)) as (B1 & B2); [lia|lia|]. rewrite Nat2Z.inj_add, Nat2Z.inj_mul. rewrite int8_small in B2 by lia. auto.
  - intros i Hi. split; [apply get_repeat; lia|]. split; [apply get_repeat; lia|]. intros b. rewrite A3 by (destruct b; cbn [b2z]; lia). unfold partner. rewrite Nat2Z.inj_mod, Nat2Z.inj_add, Nat2Z.inj_pow. reflexivity.
Qed.

(** ** Whole statements *)
(** What a set-up must guarantee, for any memory: no undefined behaviour, at most
    [bound] moves, some thread can move until all are done, and no thread
    is done before the memory is complete. *)
Definition set_up {M} (N : Z) (setup : Z -> M -> option M) (nact : Z -> Z) (act : Z -> Z -> M -> option M) (m0 : M) (bound : Z) (complete : M -> Prop) : Prop :=
  forall k s, irun N setup nact act (istart N m0) k s ->
    k <= bound /\ (forall t, 0 <= t < N -> istep N setup nact act t s <> None) /\
    ((forall t, 0 <= t < N -> get (ipcs s) t = Some IDone) \/ exists t s', 0 <= t < N /\ istep N setup nact act t s = Some (Some s')) /\
    ((exists t, get (ipcs s) t = Some IDone) -> complete (imem s)).

(** Barrier::init with [n] cores of [tpc] threads and [L] rounds. *)
Definition barrier_set_up (n tpc L : nat) (jt jf : Z -> list Z) (complete : bmem -> Prop) : Prop :=
  set_up (Z.of_nat n * Z.of_nat tpc) (b_setup (Z.of_nat n) (Z.of_nat tpc) (Z.of_nat L) jt jf) (b_nact (Z.of_nat tpc) (Z.of_nat L)) (b_act (Z.of_nat n) (Z.of_nat tpc))
    b_start ((Z.of_nat n * Z.of_nat tpc) * (11 + Z.of_nat L)) complete.

Lemma zsum_bound (f : Z -> Z) N b : 0 <= N -> (forall t, 0 <= t < N -> f t <= b) -> zsum (map f (zrange 0 N)) <= N * b.
Proof.
  intros HN. apply (natlike_ind (fun N => (forall t, 0 <= t < N -> f t <= b) -> zsum (map f (zrange 0 N)) <= N * b)); auto.
  - intros _. rewrite zrange_nil by lia. cbn. lia.
  - intros x Hx IH H. rewrite <- Z.add_1_r. rewrite zrange_snoc by lia. rewrite map_app, zsum_app. cbn [map zsum fold_right]. unfold zsum in *.
    specialize (IH ltac:(intros; apply H; lia)). specialize (H x ltac:(lia)). lia.
Qed.

Theorem barrier_is_set_up n tpc L jt jf : (1 <= n)%nat -> (1 <= tpc <= 128)%nat ->
  (forall c, Zlen (jt c) = Z.of_nat tpc) -> (forall c, Zlen (jf c) = Z.of_nat L) ->
  barrier_set_up n tpc L jt jf (fun m => b_shows n tpc L m Barrier.init).
Proof.
  intros Hn Ht Hjt Hjf k s R. destruct (b_init_skeleton (Z.of_nat n) (Z.of_nat tpc) (Z.of_nat L) ltac:(lia) ltac:(lia) ltac:(lia) jt jf Hjt Hjf k s R) as (S1 & S2 & S3 & S4).
  split; [|split; [exact S2|split; [exact S3|]]].
  - etransitivity; [exact S1|]. apply zsum_bound; [nia|]. intros t _. unfold b_nact. destruct (_ =? 0); lia.
  - intros D. apply b_ready_shows; auto; lia.
Qed.

(** Two cores of two threads with one round: threads 3, 2, 1, 0 in turn. *)
Definition turns (N : Z) (k : nat) : list Z := concat (repeat (rev (zrange 0 N)) k).
Lemma barrier_init_case :
  option_map (fun s => (ipcs s, istat s, map (b_cores (imem s)) [0; 1], map (b_obj (imem s)) [0; 1],
    (b_pf (imem s) 0 0 0, b_pf (imem s) 0 1 0, b_pf (imem s) 1 0 0, b_pf (imem s) 1 1 0), map (b_tc (imem s)) [0; 1; 2; 3], map (b_ct (imem s)) [0; 1; 2; 3]))
    (iexec 4 (b_setup 2 2 1 (fun _ => [7; 8]) (fun _ => [9])) (b_nact 2 1) (b_act 2 2) (turns 4 16) (istart 4 b_start))
  = Some (repeat IDone 4, 2, [Some 0; Some 1], repeat (Some (mkCore 1 [1; 1] [0] [0] 0 1)) 2,
     (Some (1, 0, 0), Some (1, 1, 0), Some (0, 0, 0), Some (0, 1, 0)), [Some 0; Some 0; Some 1; Some 1], [Some 0; Some 1; Some 0; Some 1]).
Proof. vm_compute. reflexivity. Qed.

(** 129 threads on a core: the number 128 is stored as -128. *)
Lemma iexec_irun {M} N setup nact act (m0 : M) tr : Forall (fun t => 0 <= t < N) tr -> forall s s' k,
  irun N setup nact act (istart N m0) k s -> iexec N setup nact act tr s = Some s' -> exists k', irun N setup nact act (istart N m0) k' s'.
Proof.
  induction 1 as [|t tr Hh Hr IH]; intros s s' k R E; cbn [iexec] in E; [injection E as <-; eauto|].
  destruct (istep N setup nact act t s) as [[s1|]|] eqn:S; [| |discriminate].
  - eapply IH; [|exact E]. econstructor; eauto.
  - eapply IH; eauto.
Qed.
Lemma barrier_init_int8 : exists jt jf k s, (forall c, Zlen (jt c) = 129) /\ (forall c, Zlen (jf c) = 1) /\
  irun 129 (b_setup 1 129 1 jt jf) (b_nact 129 1) (b_act 1 129) (istart 129 b_start) k s /\
  get (ipcs s) 128 = Some IDone /\ b_ct (imem s) 128 = Some (-128).
Proof.
  exists (fun _ => repeat 0 129), (fun _ => [0]).
  destruct (iexec 129 (b_setup 1 129 1 (fun _ => repeat 0 129) (fun _ => [0])) (b_nact 129 1) (b_act 1 129) (turns 129 16) (istart 129 b_start)) as [s|] eqn:E; [|vm_compute in E; discriminate].
  destruct (iexec_irun 129 (b_setup 1 129 1 (fun _ => repeat 0 129) (fun _ => [0])) (b_nact 129 1) (b_act 1 129) b_start (turns 129 16)) with (s := istart 129 b_start) (s' := s) (k := 0) as (k & R); auto.
  - apply Forall_forall. intros t H. unfold turns in H. apply in_concat in H as (l & H1 & H2). apply repeat_spec in H1. subst l. apply in_rev in H2. apply In_zrange in H2. exact H2.
  - constructor.
  - exists k, s. split; [reflexivity|]. split; [reflexivity|]. split; [exact R|].
    assert (Q : option_map (fun s => (get (ipcs s) 128, b_ct (imem s) 128)) (Some s) = Some (Some IDone, Some (-128))) by (rewrite <- E; vm_compute; reflexivity).
    cbn [option_map] in Q. injection Q as Q1 Q2. auto.
Qed.
