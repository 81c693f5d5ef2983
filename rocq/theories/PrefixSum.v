(** * Parallel prefix sums (/repo/PrefixSum.cpp). *)
From Verif Require Import Base Spec Interleave.

(** ** prefixSum, /repo/PrefixSum.cpp:6-26

    [io] holds the variables [*in_out] of all threads side by side. *)

(** Line 11, thread [t]: [workspace[tid + 1] = *in_out]. *)
Definition ps_write (io : list Z) (t : Z) (ws : list Z) : option (list Z) :=
  v <- get io t ;; set ws (t + 1) v.

(** Lines 14-22, executed by the master between the barriers; the second
    component is the value stored in the master's [*sum]. *)
Definition ps_master (T : Z) (ws : list Z) : option (list Z * Z) :=
  ws <- set ws 0 0 ;;
  ws <- forZ 1 T (fun i ws => a <- get ws (i + 1) ;; b <- get ws i ;; set ws (i + 1) (a + b)) ws ;;
  s <- get ws T ;;
  Some (ws, s).

(** Line 25, thread [t]: [*in_out = workspace[tid]]. *)
Definition ps_read (ws : list Z) (t : Z) (io : list Z) : option (list Z) :=
  v <- get ws t ;; set io t v.

(** One call by all threads; [tr1] and [tr2] are the orders in which the
    threads run before the first and after the second barrier. *)
Definition prefixSum_run (T : Z) (io ws : list Z) (tr1 tr2 : list Z)
  : option (list Z * Z) :=
  ws1 <- foldM (ps_write io) tr1 ws ;;
  '(ws2, s) <- ps_master T ws1 ;;
  io' <- foldM (ps_read ws2) tr2 io ;;
  Some (io', s).

(** One thread per element. *)
Definition singletons (T : Z) : list (list Z) := map (fun t => [t]) (zrange 0 T).

Lemma singletons_split T : singletons T = par_split (fun t => t) T.
Proof.
  unfold singletons, par_split. apply map_ext. intros t.
  rewrite zrange_cons, zrange_nil by lia. auto.
Qed.

(** ** prefixSumMultiple, /repo/PrefixSum.cpp:28-63

    [io] holds the arrays [in_out] of all threads side by side: lane [i] of
    thread [t] is element [t*n+i]. *)

(** Lines 34-36 for thread [t]; an action is a pair (thread, lane). *)
Definition psm_write (n : Z) (io : list Z) (a : Z * Z) (ws : list Z) : option (list Z) :=
  let (t, i) := a in
  v <- get io (t * n + i) ;; set ws ((t + 1) * n + i) v.

(** Lines 39-57, master. [junk] is the old contents of the array [sum]. *)
Definition psm_master (n T : Z) (ws sum : list Z) : option (list Z * list Z) :=
  ws <- forZ 0 n (fun i ws => set ws i 0) ws ;;
  ws <- forZ 1 T (fun t ws =>
          forZ 0 n (fun i ws =>
            a <- get ws ((t + 1) * n + i) ;; b <- get ws (t * n + i) ;;
            set ws ((t + 1) * n + i) (a + b)) ws) ws ;;
  sum <- forZ 0 n (fun i sum => v <- get ws (T * n + i) ;; set sum i v) sum ;;
  Some (ws, sum).

(** Lines 60-62. *)
Definition psm_read (n : Z) (ws : list Z) (a : Z * Z) (io : list Z) : option (list Z) :=
  let (t, i) := a in
  v <- get ws (t * n + i) ;; set io (t * n + i) v.

Definition psm_threads (n T : Z) : list (list (Z * Z)) :=
  map (fun t => map (fun i => (t, i)) (zrange 0 n)) (zrange 0 T).

Definition prefixSumMultiple_run (n T : Z) (io ws sum : list Z) (tr1 tr2 : list (Z * Z))
  : option (list Z * list Z) :=
  ws1 <- foldM (psm_write n io) tr1 ws ;;
  '(ws2, s) <- psm_master n T ws1 sum ;;
  io' <- foldM (psm_read n ws2) tr2 io ;;
  Some (io', s).

(** ** Proofs *)

Lemma addr_inj n t i t' i' :
  0 <= i < n -> 0 <= i' < n -> t * n + i = t' * n + i' -> t = t' /\ i = i'.
Proof.
  intros Hi Hi' E.
  assert (t = t') by nia. subst. split; [auto|lia].
Qed.

Lemma addr_range n T t i : 0 <= i < n -> 0 <= t < T -> 0 <= t * n + i < T * n.
Proof. intros. nia. Qed.

(** Sum of lane values of threads before [t]. *)
Definition before (x : Z -> Z) (t : Z) : Z := zsum (map x (zrange 0 t)).

Lemma before_0 x : before x 0 = 0.
Proof. unfold before. now rewrite zrange_nil by lia. Qed.

Lemma before_S x t : 0 <= t -> before x (t + 1) = before x t + x t.
Proof.
  intros H. unfold before. rewrite zrange_snoc by auto. rewrite map_app, zsum_app.
  unfold zsum at 2. cbn. lia.
Qed.

Definition pairs (n T : Z) : list (Z * Z) := concat (psm_threads n T).

Lemma pairs_snoc n T : 0 <= T -> pairs n (T + 1) = pairs n T ++ map (fun i => (T, i)) (zrange 0 n).
Proof.
  intros H. unfold pairs, psm_threads. rewrite zrange_snoc by auto.
  rewrite map_app, concat_app. cbn. now rewrite app_nil_r.
Qed.

(** Loop over all (thread, lane) pairs as a nested loop. *)
Lemma foldM_pairs {S} (f : Z * Z -> S -> option S) n T s :
  0 <= T ->
  foldM f (pairs n T) s = forZ 0 T (fun t s => forZ 0 n (fun i s => f (t, i) s) s) s.
Proof.
  intros H. unfold forZ, pairs, psm_threads.
  generalize (zrange 0 T). intros l. revert s.
  induction l as [|t l IH]; intros s; cbn; auto.
  rewrite foldM_app.
  assert (forall k s, foldM f (map (fun i => (t, i)) k) s = foldM (fun i s => f (t, i) s) k s) as E.
  { induction k as [|a k IHk]; intros s0; cbn; auto. destruct (f (t, a) s0); auto. }
  rewrite E. destruct (foldM (fun i s0 => f (t, i) s0) (zrange 0 n) s); auto.
Qed.

Lemma psm_write_commute n io t1 i1 t2 i2 :
  0 <= i1 < n -> 0 <= i2 < n -> t1 <> t2 ->
  commute (psm_write n io) (t1, i1) (t2, i2).
Proof.
  intros H1 H2 Hne s. unfold psm_write.
  destruct (get io (t1 * n + i1)) as [v1|], (get io (t2 * n + i2)) as [v2|]; auto.
  - apply set_comm. intros E. apply addr_inj in E; lia.
  - now destruct (set s ((t1 + 1) * n + i1) v1).
  - now destruct (set s ((t2 + 1) * n + i2) v2).
Qed.

Lemma psm_read_commute n ws t1 i1 t2 i2 :
  0 <= i1 < n -> 0 <= i2 < n -> t1 <> t2 ->
  commute (psm_read n ws) (t1, i1) (t2, i2).
Proof.
  intros H1 H2 Hne s. unfold psm_read.
  destruct (get ws (t1 * n + i1)) as [v1|], (get ws (t2 * n + i2)) as [v2|]; auto.
  - apply set_comm. intros E. apply addr_inj in E; lia.
  - now destruct (set s (t1 * n + i1) v1).
  - now destruct (set s (t2 * n + i2) v2).
Qed.

Lemma psm_threads_commute {S} n T (f : Z * Z -> S -> option S) :
  (forall t1 i1 t2 i2, 0 <= i1 < n -> 0 <= i2 < n -> t1 <> t2 -> commute f (t1, i1) (t2, i2)) ->
  threads_commute f (psm_threads n T).
Proof.
  intros H. apply threads_commute_map; [apply NoDup_zrange|].
  intros t1 t2 a b Ht1 Ht2 Hne Ha Hb.
  apply in_map_iff in Ha as (i1 & <- & Hi1). apply in_map_iff in Hb as (i2 & <- & Hi2).
  apply In_zrange in Hi1, Hi2. apply H; auto.
Qed.

(** Writing a full (T x n) block row-major at offset [off]. *)
Lemma block_write n T off (g : Z -> Z -> Z) (ws : list Z) (f : Z * Z -> list Z -> option (list Z)) :
  0 <= n -> 0 <= T -> 0 <= off -> off + T * n <= Zlen ws ->
  (forall t i w, 0 <= t < T -> 0 <= i < n -> f (t, i) w = set w (off + (t * n + i)) (g t i)) ->
  exists ws', foldM f (pairs n T) ws = Some ws' /\ Zlen ws' = Zlen ws /\
    (forall t i, 0 <= t < T -> 0 <= i < n -> get ws' (off + (t * n + i)) = Some (g t i)) /\
    (forall k, k < off \/ off + T * n <= k -> get ws' k = get ws k).
Proof.
  intros Hn HT Hoff Hlen Hf. rewrite foldM_pairs by auto.
  destruct (forZ_rule (fun k w => Zlen w = Zlen ws /\
     (forall t i, 0 <= t < k -> 0 <= i < n -> get w (off + (t * n + i)) = Some (g t i)) /\
     (forall j, j < off \/ off + k * n <= j -> get w j = get ws j)) 0 T
     (fun t s => forZ 0 n (fun i s => f (t, i) s) s) ws) as (w & E & HI); auto.
  - split; auto. split; intros; [lia|auto].
  - intros t w Ht (Hl & H1 & H2).
    destruct (forZ_rule (fun i w' => Zlen w' = Zlen ws /\
      (forall t' i', 0 <= t' <= t -> 0 <= i' < n -> (t' < t \/ i' < i) ->
         get w' (off + (t' * n + i')) = Some (g t' i')) /\
      (forall j, j < off \/ off + (t * n + i) <= j -> get w' j = get ws j)) 0 n
      (fun i s => f (t, i) s) w) as (w' & E' & HI'); auto.
    + split; auto. split.
      * intros; apply H1; lia.
      * intros; apply H2; lia.
    + intros i w1 Hi (G0 & G1 & G2). rewrite Hf by auto.
      destruct (set_ok w1 (off + (t * n + i)) (g t i)) as (w2 & Ew2).
      { rewrite G0. pose proof (addr_range n T t i). lia. }
      exists w2. split; auto. rewrite (set_len _ _ _ _ Ew2). split; auto. split.
      * intros t' i' Ht' Hi' Hor. rewrite (get_set _ _ _ _ _ Ew2).
        destruct (Z.eqb_spec (off + (t' * n + i')) (off + (t * n + i))) as [Eq|Ne].
        -- assert (t' * n + i' = t * n + i) as Eq' by lia.
           apply addr_inj in Eq' as [-> ->]; auto.
        -- apply G1; auto.
           destruct Hor as [|]; [left; auto|].
           destruct (Z.eq_dec t' t) as [->|]; [right|left]; lia.
      * intros j Hj. rewrite (get_set_other _ _ _ _ _ Ew2) by (pose proof (addr_range n T t i); lia).
        apply G2. lia.
    + exists w'. split; auto. destruct HI' as (G0 & G1 & G2). split; auto. split.
      * intros t' i Ht' Hi. apply G1; lia.
      * intros j Hj. apply G2. lia.
  - exists w. auto.
Qed.

Lemma psm_master_ok n T (x : Z -> Z -> Z) ws sum :
  0 <= n -> 1 <= T -> (T + 1) * n <= Zlen ws -> n <= Zlen sum ->
  (forall t i, 0 <= t < T -> 0 <= i < n -> get ws ((t + 1) * n + i) = Some (x t i)) ->
  exists ws' sum', psm_master n T ws sum = Some (ws', sum') /\
    Zlen sum' = Zlen sum /\
    (forall t i, 0 <= t <= T -> 0 <= i < n ->
       get ws' (t * n + i) = Some (before (fun t' => x t' i) t)) /\
    (forall i, 0 <= i < n -> get sum' i = Some (before (fun t' => x t' i) T)) /\
    (forall i, n <= i -> get sum' i = get sum i).
Proof.
  intros Hn HT Hws Hsum Hx. unfold psm_master.
  (* workspace[0..n) = 0 *)
  destruct (forZ_rule (fun k w => Zlen w = Zlen ws /\
     (forall i, 0 <= i < k -> get w i = Some 0) /\
     (forall j, k <= j -> get w j = get ws j)) 0 n (fun i w => set w i 0) ws)
    as (w0 & E0 & L0 & Z0 & K0); auto.
  { split; auto. split; intros; [lia|auto]. }
  { intros i w Hi (A & B & C).
    destruct (set_ok w i 0) as (w' & Ew'); [rewrite A; nia|].
    exists w'. split; auto. rewrite (set_len _ _ _ _ Ew'). split; auto. split.
    - intros j Hj. rewrite (get_set _ _ _ _ _ Ew'). destruct (Z.eqb_spec j i); auto. apply B; lia.
    - intros j Hj. rewrite (get_set_other _ _ _ _ _ Ew') by lia. apply C; lia. }
  rewrite E0.
  (* scan *)
  destruct (forZ_rule (fun k w => Zlen w = Zlen ws /\
     (forall t i, 0 <= t <= k -> 0 <= i < n ->
        get w (t * n + i) = Some (before (fun t' => x t' i) t)) /\
     (forall t i, k < t <= T -> 0 <= i < n -> get w (t * n + i) = Some (x (t - 1) i))) 1 T
     (fun t w => forZ 0 n (fun i w => a <- get w ((t + 1) * n + i) ;; b <- get w (t * n + i) ;;
            set w ((t + 1) * n + i) (a + b)) w) w0)
    as (w1 & E1 & L1 & P1 & _); auto.
  { split; auto. split.
    - intros t i Ht Hi. destruct (Z.eq_dec t 0) as [->|].
      + rewrite before_0. cbn [Z.mul Z.add]. apply Z0. auto.
      + assert (t = 1) by lia. subst. rewrite K0 by nia.
        replace (1 * n + i) with ((0 + 1) * n + i) by lia. rewrite Hx by lia.
        f_equal. rewrite <- (Z.add_0_l 1) at 1. rewrite before_S, before_0 by lia. lia.
    - intros t i Ht Hi. rewrite K0 by nia.
      replace (t * n + i) with ((t - 1 + 1) * n + i) by lia. apply Hx; lia. }
  { intros t w Ht (A & B & C).
    destruct (forZ_rule (fun k w' => Zlen w' = Zlen ws /\
       (forall t' i, 0 <= t' <= t -> 0 <= i < n ->
          get w' (t' * n + i) = Some (before (fun t' => x t' i) t')) /\
       (forall i, 0 <= i < k -> get w' ((t + 1) * n + i) = Some (before (fun t' => x t' i) (t + 1))) /\
       (forall t' i, (t + 1 < t' \/ t' = t + 1 /\ k <= i) -> t' <= T -> 0 <= i < n ->
          get w' (t' * n + i) = Some (x (t' - 1) i))) 0 n
       (fun i w => a <- get w ((t + 1) * n + i) ;; b <- get w (t * n + i) ;;
            set w ((t + 1) * n + i) (a + b)) w) as (w2 & E2 & L2 & Q1 & Q2 & Q3); auto.
    { split; auto. split; auto. split; [intros; lia|]. intros; apply C; lia. }
    { intros i w' Hi (A' & B' & C' & D').
      rewrite (D' (t + 1) i) by lia. rewrite (B' t i) by lia.
      destruct (set_ok w' ((t + 1) * n + i)
        (x (t + 1 - 1) i + before (fun t' => x t' i) t)) as (w'' & Ew'').
      { rewrite A'. pose proof (addr_range n (T + 1) (t + 1) i). lia. }
      exists w''. split; auto. rewrite (set_len _ _ _ _ Ew''). split; auto. split; [|split].
      - intros t' i' Ht' Hi'. rewrite (get_set_other _ _ _ _ _ Ew''); [apply B'; auto|].
        intros Eq. apply addr_inj in Eq; lia.
      - intros i' Hi'. rewrite (get_set _ _ _ _ _ Ew'').
        destruct (Z.eqb_spec ((t + 1) * n + i') ((t + 1) * n + i)) as [Eq|Ne].
        + assert (i' = i) by lia. subst. f_equal. rewrite before_S by lia.
          replace (t + 1 - 1) with t by lia. lia.
        + apply C'. assert (i' <> i) by (intros ->; lia). lia.
      - intros t' i' Hor Hle Hi'. rewrite (get_set_other _ _ _ _ _ Ew''); [apply D'; auto; lia|].
        intros Eq. apply addr_inj in Eq; lia. }
    exists w2. split; auto. split; auto. split.
    - intros t' i Ht' Hi. destruct (Z.eq_dec t' (t + 1)) as [->|].
      + apply Q2; auto.
      + apply Q1; lia.
    - intros t' i Ht' Hi. apply Q3; lia. }
  rewrite E1.
  destruct (forZ_rule (fun k s => Zlen s = Zlen sum /\
     (forall i, 0 <= i < k -> get s i = Some (before (fun t' => x t' i) T)) /\
     (forall i, k <= i -> get s i = get sum i)) 0 n
     (fun i sum => v <- get w1 (T * n + i) ;; set sum i v) sum)
     as (s1 & F1 & G1 & G2 & G3); auto.
  { split; auto. split; intros; [lia|auto]. }
  { intros i s Hi (A & B & C). rewrite (P1 T i) by lia.
    destruct (set_ok s i (before (fun t' => x t' i) T)) as (s' & Es'); [lia|].
    exists s'. split; auto. rewrite (set_len _ _ _ _ Es'). split; auto. split.
    - intros j Hj. rewrite (get_set _ _ _ _ _ Es'). destruct (Z.eqb_spec j i); [subst; auto|apply B; lia].
    - intros j Hj. rewrite (get_set_other _ _ _ _ _ Es') by lia. apply C; lia. }
  rewrite F1. exists w1, s1. split; auto.
Qed.

Lemma prefixSumMultiple_ok n T (x : Z -> Z -> Z) io ws sum tr1 tr2 :
  0 <= n -> 1 <= T -> Zlen io = T * n -> (T + 1) * n <= Zlen ws -> n <= Zlen sum ->
  (forall t i, 0 <= t < T -> 0 <= i < n -> get io (t * n + i) = Some (x t i)) ->
  interleave (psm_threads n T) tr1 -> interleave (psm_threads n T) tr2 ->
  exists io' sum', prefixSumMultiple_run n T io ws sum tr1 tr2 = Some (io', sum') /\
    Zlen io' = Zlen io /\ Zlen sum' = Zlen sum /\
    (forall t i, 0 <= t < T -> 0 <= i < n ->
       get io' (t * n + i) = Some (zsum (map (fun t' => x t' i) (zrange 0 t)))) /\
    (forall i, 0 <= i < n -> get sum' i = Some (zsum (map (fun t' => x t' i) (zrange 0 T)))) /\
    (forall i, n <= i -> get sum' i = get sum i).
Proof.
  intros Hn HT Hio Hws Hsum Hx H1 H2. unfold prefixSumMultiple_run.
  rewrite (interleave_deterministic (psm_write n io) _ _ H1)
    by (apply psm_threads_commute; intros; apply psm_write_commute; auto).
  fold (pairs n T).
  destruct (block_write n T n x ws (psm_write n io)) as (ws1 & E1 & L1 & W1 & _); try lia; auto.
  { intros t i w Ht Hi. unfold psm_write. rewrite Hx by auto. f_equal. lia. }
  rewrite E1.
  destruct (psm_master_ok n T x ws1 sum) as (ws2 & sum' & E2 & L2 & P & Q & R); auto; try lia.
  { intros t i Ht Hi. rewrite <- (W1 t i) by auto. f_equal. lia. }
  rewrite E2.
  rewrite (interleave_deterministic (psm_read n ws2) _ _ H2)
    by (apply psm_threads_commute; intros; apply psm_read_commute; auto).
  fold (pairs n T).
  destruct (block_write n T 0 (fun t i => before (fun t' => x t' i) t) io (psm_read n ws2))
    as (io' & E3 & L3 & W3 & _); try lia; auto.
  { intros t i w Ht Hi. unfold psm_read. rewrite (P t i) by lia. reflexivity. }
  rewrite E3. exists io', sum'. split; auto.
Qed.

(** prefixSum is the one-lane case. *)
Lemma forZ_singleton {S} (f : Z -> S -> option S) s : forZ 0 1 f s = f 0 s.
Proof. unfold forZ. rewrite zrange_cons, zrange_nil by lia. cbn. now destruct (f 0 s). Qed.

Lemma foldM_map {A B S} (g : B -> A) (f : A -> S -> option S) l s :
  foldM f (map g l) s = foldM (fun b s => f (g b) s) l s.
Proof. revert s; induction l as [|b l IH]; intros s; cbn; auto. destruct (f (g b) s); auto. Qed.

Lemma interleave_map {A B} (g : A -> B) ts tr :
  interleave ts tr -> interleave (map (map g) ts) (map g tr).
Proof.
  induction 1 as [ts Hd|ts1 a t ts2 tr Hi IH].
  - cbn. constructor. intros t Ht. apply in_map_iff in Ht as (t' & <- & Ht').
    now rewrite (Hd t').
  - rewrite map_app. cbn. constructor. now rewrite map_app in IH.
Qed.

Lemma singletons_psm T : map (map (fun t => (t, 0))) (singletons T) = psm_threads 1 T.
Proof.
  unfold singletons, psm_threads. rewrite map_map. apply map_ext. intros t.
  rewrite (zrange_cons 0 1), (zrange_nil (0 + 1) 1) by lia. reflexivity.
Qed.

Lemma set_get_0 (s : list Z) v : Zlen s = 1 -> set s 0 v = Some [v].
Proof.
  destruct s as [|a [|b s]]; intros H; try discriminate.
  - reflexivity.
  - unfold Zlen in H; cbn [length] in H; lia.
Qed.

Lemma ps_master_psm T ws :
  1 <= T ->
  psm_master 1 T ws [0] =
  ('(w, s) <- ps_master T ws ;; Some (w, [s])).
Proof.
  intros HT. unfold psm_master, ps_master.
  rewrite forZ_singleton. destruct (set ws 0 0) as [w0|]; auto.
  assert (forall w, forZ 1 T (fun t ws => forZ 0 1 (fun i ws =>
            a <- get ws ((t + 1) * 1 + i) ;; b <- get ws (t * 1 + i) ;;
            set ws ((t + 1) * 1 + i) (a + b)) ws) w =
          forZ 1 T (fun i ws => a <- get ws (i + 1) ;; b <- get ws i ;; set ws (i + 1) (a + b)) w) as ->.
  { intros w. apply forZ_ext. intros t w1 Ht. rewrite forZ_singleton.
    replace ((t + 1) * 1 + 0) with (t + 1) by lia. replace (t * 1 + 0) with t by lia. auto. }
  destruct (forZ 1 T _ w0) as [w1|]; auto. rewrite forZ_singleton.
  replace (T * 1 + 0) with T by lia. destruct (get w1 T); auto.
Qed.

Lemma prefixSum_ok T io ws tr1 tr2 :
  1 <= T -> Zlen io = T -> T + 1 <= Zlen ws ->
  interleave (singletons T) tr1 -> interleave (singletons T) tr2 ->
  exists io', prefixSum_run T io ws tr1 tr2 = Some (io', zsum io) /\
    Zlen io' = T /\
    (forall t, 0 <= t < T -> get io' t = Some (zsum (slice io 0 t))).
Proof.
  intros HT Hio Hws H1 H2.
  set (x := fun t (_ : Z) => nth (Z.to_nat t) io 0).
  assert (Hx : forall t i, 0 <= t < T -> 0 <= i < 1 -> get io (t * 1 + i) = Some (x t i)).
  { intros t i Ht Hi. replace (t * 1 + i) with t by lia. unfold x, get.
    destruct (Z.ltb_spec t 0); [lia|]. apply nth_error_nth'. unfold Zlen in *; lia. }
  apply (interleave_map (fun t => (t, 0))) in H1, H2. rewrite singletons_psm in H1, H2.
  destruct (prefixSumMultiple_ok 1 T x io ws [0] _ _ ltac:(lia) HT ltac:(lia) ltac:(lia)
     ltac:(unfold Zlen; cbn; lia) Hx H1 H2) as (io' & sum' & E & L & Ls & P & Q & _).
  assert (Hmap : forall t, 0 <= t <= T -> map (fun t' => x t' 0) (zrange 0 t) = slice io 0 t).
  { intros t Ht. apply list_ext.
    - rewrite Zlen_map, Zlen_zrange, Zlen_slice by lia. lia.
    - intros i Hi. rewrite Zlen_map, Zlen_zrange in Hi.
      rewrite get_map, get_zrange by lia. rewrite get_slice by lia. cbn [option_map].
      specialize (Hx (0 + i) 0). rewrite <- Hx by lia. f_equal. lia. }
  exists io'. unfold prefixSumMultiple_run in E. unfold prefixSum_run.
  rewrite foldM_map in E.
  assert (foldM (fun b s => psm_write 1 io (b, 0) s) tr1 ws = foldM (ps_write io) tr1 ws) as EE.
  { apply foldM_ext. intros a s _. unfold psm_write, ps_write.
    replace (a * 1 + 0) with a by lia. replace ((a + 1) * 1 + 0) with (a + 1) by lia. auto. }
  rewrite EE in E. clear EE. destruct (foldM (ps_write io) tr1 ws) as [ws1|]; [|discriminate].
  rewrite ps_master_psm in E by auto. destruct (ps_master T ws1) as [[ws2 s]|]; [|discriminate].
  rewrite foldM_map in E.
  assert (foldM (fun b s => psm_read 1 ws2 (b, 0) s) tr2 io = foldM (ps_read ws2) tr2 io) as EE.
  { apply foldM_ext. intros a s0 _. unfold psm_read, ps_read.
    replace (a * 1 + 0) with a by lia. auto. }
  rewrite EE in E. clear EE. destruct (foldM (ps_read ws2) tr2 io) as [io2|]; [|discriminate].
  injection E as -> <-. split.
  - specialize (Q 0 ltac:(lia)). rewrite get_cons_0 in Q. rewrite Hmap in Q by lia.
    rewrite <- Hio in Q at 1. rewrite slice_full in Q. congruence.
  - split; [congruence|]. intros t Ht. specialize (P t 0 Ht ltac:(lia)).
    rewrite Hmap in P by lia. rewrite <- P. f_equal. lia.
Qed.

(** ** Two calls in a row with the same workspace

    After the second barrier of the first call, thread [t] still has to read
    workspace[t] (line 25) while a faster thread may already execute line 11 of
    the next call.  Actions of this window: *)
Inductive ps_gap := GapRead (t : Z) | GapWrite (t : Z) (v : Z).

(** State: workspace and the in_out variables. *)
Definition gap_step (a : ps_gap) (s : list Z * list Z) : option (list Z * list Z) :=
  let (ws, io) := s in
  match a with
  | GapRead t => v <- get ws t ;; io' <- set io t v ;; Some (ws, io')
  | GapWrite t v => ws' <- set ws (t + 1) v ;; Some (ws', io)
  end.

(** Two threads contributing 1 and 1, then 5 and 5: thread 1 must get 1 from
    the first call but may get 5. *)
Lemma prefixSum_back_to_back_race :
  exists tr ws io,
    interleave [[GapRead 0; GapWrite 0 5]; [GapRead 1; GapWrite 1 5]] tr /\
    ps_master 2 [0; 1; 1] = Some (ws, 2) /\
    foldM gap_step tr (ws, [1; 1]) = Some ([0; 5; 5], io) /\
    get io 1 = Some 5 /\ zsum (slice [1; 1] 0 1) = 1.
Proof.
  exists [GapRead 0; GapWrite 0 5; GapRead 1; GapWrite 1 5], [0; 1; 2], [0; 5].
  split.
  - apply (il_step [] (GapRead 0) [GapWrite 0 5] [[GapRead 1; GapWrite 1 5]]).
    apply (il_step [] (GapWrite 0 5) [] [[GapRead 1; GapWrite 1 5]]).
    apply (il_step [[]] (GapRead 1) [GapWrite 1 5] []).
    apply (il_step [[]] (GapWrite 1 5) [] []).
    constructor. cbn. intuition.
  - vm_compute. auto.
Qed.
