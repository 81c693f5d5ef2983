(** * Work distribution over threads (/repo/Utils.cpp:37-93). *)
From Verif Require Import Base Spec Search Interleave.

(** /repo/Utils.cpp:37-46 [getSimpleThreadPartition].  [T] is
    omp_get_num_threads(), [t] is omp_get_thread_num().  C division truncates
    ([Z.quot]).  Simplified: int overflow is not modelled here (see
    [simple_partition_int]). *)
Definition simple_partition (n T t : Z) : Z * Z :=
  let n_per_thread := Z.quot (n + T - 1) T in
  let b := Z.min (n_per_thread * t) n in
  (b, Z.min (b + n_per_thread) n).

(** /repo/Utils.cpp:48-63 [getLoadBalancedPartition].  The three assertions of
    the function are kept; a failing one gives [None]. *)
Definition load_balanced_partition (prefixSum : list Z) (n T t : Z) : option (Z * Z) :=
  base <- get prefixSum 0 ;;
  last <- get prefixSum n ;;
  let total_work := last - base in
  let work_per_thread := Z.quot (total_work + T - 1) T in
  b <- (if t =? 0 then Some 0
        else lower_bound prefixSum 0 n (work_per_thread * t + base)) ;;
  e <- (if t =? T - 1 then Some n
        else lower_bound prefixSum 0 n (work_per_thread * (t + 1) + base)) ;;
  assert! (b <=? e) ;;
  assert! ((0 <=? b) && (b <=? n)) ;;
  assert! ((0 <=? e) && (e <=? n)) ;;
  Some (b, e).

(** A tiling from a monotone boundary function. *)
Lemma tiles_from_boundaries n T ranges (b : Z -> Z) :
  1 <= T -> b 0 = 0 -> b T = n ->
  (forall t, 0 <= t < T -> b t <= b (t + 1)) ->
  (forall t, 0 <= t < T -> ranges t = Some (b t, b (t + 1))) ->
  tiles n T ranges.
Proof.
  intros HT H0 HTn Hm Hr.
  assert (forall k t, 0 <= t -> t + Z.of_nat k <= T -> b t <= b (t + Z.of_nat k)) as Mono.
  { induction k as [|k IH]; intros t Ht Hle.
    - replace (t + Z.of_nat 0) with t by lia. lia.
    - specialize (IH t Ht). pose proof (Hm (t + Z.of_nat k)).
      replace (t + Z.of_nat (S k)) with (t + Z.of_nat k + 1) by lia. lia. }
  assert (forall t, 0 <= t <= T -> 0 <= b t <= n) as Bd.
  { intros t Ht. pose proof (Mono (Z.to_nat t) 0). pose proof (Mono (Z.to_nat (T - t)) t).
    replace (0 + Z.of_nat (Z.to_nat t)) with t in * by lia.
    replace (t + Z.of_nat (Z.to_nat (T - t))) with T in * by lia. lia. }
  repeat split.
  - intros t Ht. exists (b t), (b (t + 1)). rewrite Hr by auto.
    pose proof (Bd t); pose proof (Bd (t + 1)); pose proof (Hm t).
    repeat split; lia.
  - exists (b 1). rewrite Hr by lia. rewrite H0. auto.
  - exists (b (T - 1)). rewrite Hr by lia. replace (T - 1 + 1) with T by lia. now rewrite HTn.
  - intros t Ht1 Ht2. exists (b t), (b (t + 1)), (b (t + 1 + 1)).
    rewrite !Hr by lia. auto.
  - intros i Hi.
    assert (exists t, 0 <= t < T /\ b t <= i < b (t + 1)) as (t & Ht & Hbi).
    { assert (forall k, Z.of_nat k <= T -> i < b (Z.of_nat k) ->
        exists t, 0 <= t < T /\ b t <= i < b (t + 1)) as G.
      { induction k as [|k IH]; intros Hk Hlt.
        - cbn in Hlt. lia.
        - destruct (Z_lt_ge_dec i (b (Z.of_nat k))).
          + apply IH; lia.
          + exists (Z.of_nat k). split; [lia|].
            replace (Z.of_nat k + 1) with (Z.of_nat (S k)) by lia. lia. }
      apply (G (Z.to_nat T)); rewrite Z2Nat.id by lia; lia. }
    exists t. split.
    + split; auto. exists (b t), (b (t + 1)). rewrite Hr by auto. auto.
    + intros t' (Ht' & lo & hi & E & Hlo).
      rewrite Hr in E by auto. injection E as <- <-.
      destruct (Z.eq_dec t t'); auto. exfalso.
      apply (tiling_disjoint b T t t' i i); auto.
Qed.

Definition simple_boundary (n T t : Z) : Z := Z.min ((n + T - 1) / T * t) n.

Lemma simple_partition_boundary n T t :
  0 <= n -> 1 <= T -> 0 <= t < T ->
  simple_partition n T t = (simple_boundary n T t, simple_boundary n T (t + 1)).
Proof.
  intros Hn HT Ht. unfold simple_partition, simple_boundary.
  rewrite Z.quot_div_nonneg by lia.
  set (q := (n + T - 1) / T). assert (0 <= q) by (apply Z.div_pos; lia).
  f_equal. replace (q * (t + 1)) with (q * t + q) by ring.
  assert (0 <= q * t) by nia. lia.
Qed.

Lemma simple_boundary_last n T : 0 <= n -> 1 <= T -> simple_boundary n T T = n.
Proof.
  intros Hn HT. unfold simple_boundary.
  pose proof (Z.div_mod (n + T - 1) T). pose proof (Z.mod_pos_bound (n + T - 1) T).
  nia.
Qed.

Lemma simple_boundary_mono n T t :
  0 <= n -> 1 <= T -> 0 <= t -> simple_boundary n T t <= simple_boundary n T (t + 1).
Proof.
  intros Hn HT Ht. unfold simple_boundary.
  assert (0 <= (n + T - 1) / T) by (apply Z.div_pos; lia). nia.
Qed.

Lemma simple_boundary_0 n T : 0 <= n -> simple_boundary n T 0 = 0.
Proof. intros; unfold simple_boundary. rewrite Z.mul_0_r. lia. Qed.

Lemma simple_partition_tiles n T :
  0 <= n -> 1 <= T -> tiles n T (fun t => Some (simple_partition n T t)).
Proof.
  intros Hn HT. apply (tiles_from_boundaries n T _ (simple_boundary n T)); auto.
  - now apply simple_boundary_0.
  - now apply simple_boundary_last.
  - intros; apply simple_boundary_mono; lia.
  - intros. now rewrite simple_partition_boundary by lia.
Qed.

(** ** getLoadBalancedPartition *)

(** Boundary between threads t-1 and t. *)
Definition lb_boundary (p : list Z) (n T t : Z) : Z :=
  if t =? 0 then 0 else if t =? T then n else
  match get p 0, get p n with
  | Some base, Some last =>
      match lower_bound p 0 n (Z.quot (last - base + T - 1) T * t + base) with
      | Some r => r | None => 0 end
  | _, _ => 0
  end.

Lemma lb_boundary_spec p n T :
  0 <= n -> 1 <= T -> n < Zlen p -> monotone p ->
  lb_boundary p n T 0 = 0 /\ lb_boundary p n T T = n /\
  (forall t, 0 <= t < T -> lb_boundary p n T t <= lb_boundary p n T (t + 1)) /\
  (forall t, 0 <= t <= T -> 0 <= lb_boundary p n T t <= n) /\
  (forall t, 0 <= t < T -> load_balanced_partition p n T t =
     Some (lb_boundary p n T t, lb_boundary p n T (t + 1))).
Proof.
  intros Hn HT Hlen Hm.
  destruct (@get_in_range _ p 0) as [base Hb]; [lia|].
  destruct (@get_in_range _ p n) as [last Hl]; [lia|].
  assert (base <= last) as Hbl by (apply (Hm 0 n); auto; lia).
  set (wpt := Z.quot (last - base + T - 1) T).
  assert (0 <= wpt) as Hw by (apply Z.quot_pos; lia).
  assert (Hlb : forall t, 0 <= t -> exists r, lower_bound p 0 n (wpt * t + base) = Some r /\ 0 <= r <= n).
  { intros t Ht. apply lower_bound_safe; lia. }
  assert (Hmo : monotone_on p 0 n) by now apply monotone_monotone_on.
  assert (Bd : forall t, 0 <= t <= T -> 0 <= lb_boundary p n T t <= n).
  { intros t Ht. unfold lb_boundary. rewrite Hb, Hl. fold wpt.
    destruct (Z.eqb_spec t 0); [lia|]. destruct (Z.eqb_spec t T); [lia|].
    destruct (Hlb t) as (r & E & Hr); [lia|]. rewrite E. lia. }
  assert (Mono : forall t, 0 <= t < T -> lb_boundary p n T t <= lb_boundary p n T (t + 1)).
  { intros t Ht. pose proof (Bd t) as B1. pose proof (Bd (t + 1)) as B2.
    destruct (Z.eq_dec t 0) as [->|].
    { unfold lb_boundary at 1. rewrite Z.eqb_refl. lia. }
    destruct (Z.eq_dec (t + 1) T) as [E1|].
    { unfold lb_boundary at 2. destruct (Z.eqb_spec (t + 1) 0); [lia|].
      destruct (Z.eqb_spec (t + 1) T); lia. }
    unfold lb_boundary. rewrite Hb, Hl. fold wpt.
    destruct (Z.eqb_spec t 0), (Z.eqb_spec (t + 1) 0), (Z.eqb_spec t T),
      (Z.eqb_spec (t + 1) T); try lia.
    destruct (Hlb t) as (r & E & Hr); [lia|].
    destruct (Hlb (t + 1)) as (s & F & Hs); [lia|]. rewrite E, F.
    eapply lower_bound_mono; [exact E|exact F| | | | |]; auto; nia. }
  split; [reflexivity|]. split.
  { unfold lb_boundary. destruct (Z.eqb_spec T 0); [lia|]. now rewrite Z.eqb_refl. }
  split; [auto|]. split; [auto|].
  intros t Ht. unfold load_balanced_partition. rewrite Hb, Hl.
  change (Z.quot (last - base + T - 1) T) with wpt. cbv zeta.
  assert ((if t =? 0 then Some 0 else lower_bound p 0 n (wpt * t + base))
          = Some (lb_boundary p n T t)) as ->.
  { unfold lb_boundary. rewrite Hb, Hl. fold wpt.
    destruct (Z.eqb_spec t 0); auto. destruct (Z.eqb_spec t T); [lia|].
    destruct (Hlb t) as (r & E & Hr); [lia|]. now rewrite E. }
  assert ((if t =? T - 1 then Some n else lower_bound p 0 n (wpt * (t + 1) + base))
          = Some (lb_boundary p n T (t + 1))) as ->.
  { unfold lb_boundary. rewrite Hb, Hl. fold wpt.
    destruct (Z.eqb_spec (t + 1) 0); [lia|].
    destruct (Z.eqb_spec t (T - 1)), (Z.eqb_spec (t + 1) T); try lia; auto.
    destruct (Hlb (t + 1)) as (r & E & Hr); [lia|]. now rewrite E. }
  pose proof (Bd t). pose proof (Bd (t + 1)). pose proof (Mono t).
  destruct (Z.leb_spec (lb_boundary p n T t) (lb_boundary p n T (t + 1))); [|lia].
  destruct (Z.leb_spec 0 (lb_boundary p n T t)), (Z.leb_spec (lb_boundary p n T t) n); try lia.
  destruct (Z.leb_spec 0 (lb_boundary p n T (t + 1))),
    (Z.leb_spec (lb_boundary p n T (t + 1)) n); try lia.
  reflexivity.
Qed.

Lemma load_balanced_partition_tiles p n T :
  0 <= n -> 1 <= T -> n < Zlen p -> monotone p ->
  tiles n T (load_balanced_partition p n T).
Proof.
  intros Hn HT Hl Hm.
  destruct (lb_boundary_spec p n T) as (H1 & H2 & H3 & H4 & H5); auto.
  apply (tiles_from_boundaries n T _ (lb_boundary p n T)); auto.
Qed.

(** ** 32-bit arithmetic and the parallel memset/memcpy *)

Definition int_ok (x : Z) : bool := (-2147483648 <=? x) && (x <=? 2147483647).
(** Signed overflow is undefined behaviour. *)
Definition int32 (x : Z) : option Z := if int_ok x then Some x else None.
(** Conversion of size_t to int keeps the low 32 bits. *)
Definition to_int32 (x : Z) : Z :=
  let r := x mod 4294967296 in if r <? 2147483648 then r else r - 4294967296.

(** /repo/Utils.cpp:37-46 with int overflow as undefined behaviour. *)
Definition simple_partition_int (n T t : Z) : option (Z * Z) :=
  s1 <- int32 (n + T) ;; s <- int32 (s1 - 1) ;;
  let npt := Z.quot s T in
  p <- int32 (npt * t) ;;
  let b := Z.min p n in
  e <- int32 (b + npt) ;;
  Some (b, Z.min e n).

(** /repo/Utils.cpp:69-75 (and 83-89): the byte range handled by one thread.
    The conditional expression has type size_t and is converted to int.  A
    negative length is converted to a huge size_t, an access outside the
    buffer: [None]. *)
Definition par_mem_range (n T t : Z) : option (Z * Z) :=
  let nCacheLines := to_int32 (n / 64) in
  '(b, e) <- simple_partition_int nCacheLines T t ;;
  nBegin <- int32 (b * 64) ;;
  nEnd <- (if t =? T - 1 then Some (to_int32 n)
           else e' <- int32 (e * 64) ;; Some (to_int32 e')) ;;
  assert! (nBegin <=? nEnd) ;;
  Some (nBegin, nEnd).

Definition pm_boundary (n T t : Z) : Z :=
  if t =? T then n else simple_boundary (n / 64) T t * 64.

Lemma int32_Some x : -2147483648 <= x <= 2147483647 -> int32 x = Some x.
Proof.
  intros H. unfold int32, int_ok.
  destruct (Z.leb_spec (-2147483648) x), (Z.leb_spec x 2147483647); auto; lia.
Qed.

Lemma to_int32_small x : 0 <= x <= 2147483647 -> to_int32 x = x.
Proof.
  intros H. unfold to_int32. rewrite Z.mod_small by lia.
  destruct (Z.ltb_spec x 2147483648); lia.
Qed.

Lemma simple_partition_int_ok n T t :
  0 <= n -> 1 <= T -> 0 <= t < T -> 2 * n + T <= 2147483647 ->
  simple_partition_int n T t = Some (simple_partition n T t).
Proof.
  intros Hn HT Ht Hb. unfold simple_partition_int, simple_partition.
  rewrite (int32_Some (n + T)) by lia. cbv zeta.
  rewrite (int32_Some (n + T - 1)) by lia.
  rewrite Z.quot_div_nonneg by lia.
  set (q := (n + T - 1) / T).
  assert (0 <= q) by (apply Z.div_pos; lia).
  assert (T * q <= n + T - 1) by (apply Z.mul_div_le; lia).
  rewrite (int32_Some (q * t)) by nia.
  assert (q <= n \/ n = 0) by nia.
  assert (0 <= q * t) by nia.
  rewrite (int32_Some (Z.min (q * t) n + q)).
  - reflexivity.
  - assert (q <= n + T - 1) by nia. lia.
Qed.

Lemma pm_boundary_props n T :
  0 <= n -> 1 <= T ->
  pm_boundary n T 0 = 0 /\ pm_boundary n T T = n /\
  (forall t, 0 <= t < T -> pm_boundary n T t <= pm_boundary n T (t + 1)).
Proof.
  intros Hn HT. assert (0 <= n / 64) by (apply Z.div_pos; lia). repeat split.
  - unfold pm_boundary. destruct (Z.eqb_spec 0 T); [lia|].
    now rewrite simple_boundary_0.
  - unfold pm_boundary. now rewrite Z.eqb_refl.
  - intros t Ht. unfold pm_boundary. destruct (Z.eqb_spec t T); [lia|].
    destruct (Z.eqb_spec (t + 1) T) as [E|E].
    + assert (simple_boundary (n / 64) T t <= n / 64) by (unfold simple_boundary; lia).
      pose proof (Z.mul_div_le n 64). lia.
    + pose proof (simple_boundary_mono (n / 64) T t). lia.
Qed.

(** Below 2^31 bytes each thread gets the bytes of its boundaries. *)
Lemma par_mem_range_ok n T t :
  0 <= n <= 2147483647 -> 1 <= T <= 1073741824 -> 0 <= t < T ->
  par_mem_range n T t = Some (pm_boundary n T t, pm_boundary n T (t + 1)).
Proof.
  intros Hn HT Ht. unfold par_mem_range.
  assert (0 <= n / 64 <= 33554431) as Hc.
  { split; [apply Z.div_pos; lia|].
    pose proof (Z.div_le_mono n 2147483647 64). change (2147483647 / 64) with 33554431 in *. lia. }
  rewrite to_int32_small by lia. cbv zeta.
  rewrite simple_partition_int_ok by lia.
  rewrite simple_partition_boundary by lia.
  assert (forall t, 0 <= t -> 0 <= simple_boundary (n / 64) T t <= n / 64) as Bd.
  { intros t' Ht'. unfold simple_boundary.
    assert (0 <= (n / 64 + T - 1) / T) by (apply Z.div_pos; lia). nia. }
  pose proof (Bd t). pose proof (Bd (t + 1)).
  rewrite int32_Some by lia.
  destruct (pm_boundary_props n T) as (_ & _ & Hm); [lia|lia|]. specialize (Hm t Ht).
  unfold pm_boundary in *. destruct (Z.eqb_spec t T); [lia|].
  destruct (Z.eqb_spec t (T - 1)), (Z.eqb_spec (t + 1) T); try lia.
  - rewrite to_int32_small by lia.
    destruct (Z.leb_spec (simple_boundary (n / 64) T t * 64) n); [auto|lia].
  - rewrite int32_Some by lia. rewrite to_int32_small by lia.
    destruct (Z.leb_spec (simple_boundary (n / 64) T t * 64)
      (simple_boundary (n / 64) T (t + 1) * 64)); [auto|lia].
Qed.

Lemma par_mem_range_tiles n T :
  0 <= n <= 2147483647 -> 1 <= T <= 1073741824 -> tiles n T (par_mem_range n T).
Proof.
  intros Hn HT. destruct (pm_boundary_props n T) as (H1 & H2 & H3); [lia|lia|].
  apply (tiles_from_boundaries n T _ (pm_boundary n T)); auto; [lia|].
  intros. apply par_mem_range_ok; auto.
Qed.

(** Byte accesses of all threads: one action per byte, in address order within
    a thread.  [None] when some thread's range is invalid. *)
Definition par_mem_threads (n T : Z) : option (list (list Z)) :=
  rs <- mapM (par_mem_range n T) (zrange 0 T) ;;
  Some (map (fun r : Z * Z => zrange (fst r) (snd r)) rs).

(** /repo/Utils.cpp:65-78 [parMemset]: the store of one byte. *)
Definition memset_byte (c : Z) (i : Z) (dst : list Z) : option (list Z) := set dst i c.

(** /repo/Utils.cpp:80-93 [parMemcpy]: the copy of one byte. *)
Definition memcpy_byte (src : list Z) (i : Z) (dst : list Z) : option (list Z) :=
  v <- get src i ;; set dst i v.

Lemma par_mem_threads_ok n T :
  0 <= n <= 2147483647 -> 1 <= T <= 1073741824 ->
  par_mem_threads n T = Some (par_split (pm_boundary n T) T).
Proof.
  intros Hn HT. unfold par_mem_threads, par_split.
  rewrite (mapM_Some _ (fun t => (pm_boundary n T t, pm_boundary n T (t + 1)))).
  - rewrite map_map. reflexivity.
  - intros t Ht. apply In_zrange in Ht. apply par_mem_range_ok; auto.
Qed.

Lemma memcpy_seq (src dst : list Z) n :
  0 <= n <= Zlen src -> n <= Zlen dst ->
  exists dst', forZ 0 n (memcpy_byte src) dst = Some dst' /\
    Zlen dst' = Zlen dst /\
    (forall i, 0 <= i < n -> get dst' i = get src i) /\
    (forall i, n <= i -> get dst' i = get dst i).
Proof.
  intros Hn Hd.
  destruct (forZ_rule (fun k d => Zlen d = Zlen dst /\
      (forall i, 0 <= i < k -> get d i = get src i) /\
      (forall i, k <= i -> get d i = get dst i)) 0 n (memcpy_byte src) dst)
    as (d & E & HI); [lia| | |eauto].
  - split; [auto|]. split; intros; [lia|auto].
  - intros i s Hi (Hl & H1 & H2). unfold memcpy_byte.
    destruct (@get_in_range _ src i) as [v Hv]; [lia|]. rewrite Hv.
    destruct (set_ok s i v) as [s' Hs']; [lia|]. exists s'. split; auto.
    rewrite (set_len _ _ _ _ Hs'). split; [auto|]. split.
    + intros k Hk. rewrite (get_set _ _ _ _ _ Hs').
      destruct (Z.eqb_spec k i); [subst; auto|apply H1; lia].
    + intros k Hk. rewrite (get_set_other _ _ _ _ _ Hs') by lia. apply H2; lia.
Qed.

Lemma memcpy_commute src i j : i <> j -> commute (memcpy_byte src) i j.
Proof.
  intros H. apply (store_act_commute (fun i => Some i) (get src) i j).
  intros a b Ea Eb. congruence.
Qed.

Lemma memset_commute c i j : i <> j -> commute (memset_byte c) i j.
Proof.
  intros H. apply (store_act_commute (fun i => Some i) (fun _ => Some c) i j).
  intros a b Ea Eb. congruence.
Qed.

Lemma parMemcpy_correct n T src dst tr ts :
  0 <= n <= 2147483647 -> 1 <= T <= 1073741824 ->
  n <= Zlen src -> n <= Zlen dst ->
  par_mem_threads n T = Some ts -> interleave ts tr ->
  exists dst', foldM (memcpy_byte src) tr dst = Some dst' /\ Zlen dst' = Zlen dst /\
    (forall i, 0 <= i < n -> get dst' i = get src i) /\
    (forall i, n <= i -> get dst' i = get dst i).
Proof.
  intros Hn HT Hs Hd Ets Hi. rewrite par_mem_threads_ok in Ets by auto.
  injection Ets as <-. destruct (pm_boundary_props n T) as (H1 & H2 & H3); [lia|lia|].
  rewrite (par_for_sequential _ (pm_boundary n T) T 0 n); auto; try lia.
  - apply memcpy_seq; lia.
  - intros; apply memcpy_commute; auto.
Qed.

Lemma parMemset_correct n T c dst tr ts :
  0 <= n <= 2147483647 -> 1 <= T <= 1073741824 -> n <= Zlen dst ->
  par_mem_threads n T = Some ts -> interleave ts tr ->
  exists dst', foldM (memset_byte c) tr dst = Some dst' /\ Zlen dst' = Zlen dst /\
    (forall i, 0 <= i < n -> get dst' i = Some c) /\
    (forall i, n <= i -> get dst' i = get dst i).
Proof.
  intros Hn HT Hd Ets Hi. rewrite par_mem_threads_ok in Ets by auto.
  injection Ets as <-. destruct (pm_boundary_props n T) as (H1 & H2 & H3); [lia|lia|].
  rewrite (par_for_sequential _ (pm_boundary n T) T 0 n); auto; try lia.
  - destruct (forZ_rule (fun k d => Zlen d = Zlen dst /\
      (forall i, 0 <= i < k -> get d i = Some c) /\
      (forall i, k <= i -> get d i = get dst i)) 0 n (memset_byte c) dst)
    as (d & E & HI); [lia| | |eauto].
    + split; [auto|]. split; intros; [lia|auto].
    + intros i s Hi' (Hl & G1 & G2). unfold memset_byte.
      destruct (set_ok s i c) as [s' Hs']; [lia|]. exists s'. split; auto.
      rewrite (set_len _ _ _ _ Hs'). split; [auto|]. split.
      * intros k Hk. rewrite (get_set _ _ _ _ _ Hs').
        destruct (Z.eqb_spec k i); [subst; auto|apply G1; lia].
      * intros k Hk. rewrite (get_set_other _ _ _ _ _ Hs') by lia. apply G2; lia.
  - intros; apply memset_commute; auto.
Qed.

(** 4 GiB with one thread: nothing is touched, so byte 0 keeps its old value.
    2 GiB with one thread: the length is negative. *)
Lemma par_mem_large_witness :
  par_mem_range 4294967296 1 0 = Some (0, 0) /\
  par_mem_range 2147483648 1 0 = None.
Proof. vm_compute. auto. Qed.

Lemma par_mem_refuted_lem :
  ~ (forall n T, 0 <= n -> 1 <= T -> tiles n T (par_mem_range n T)).
Proof.
  intros H. specialize (H 4294967296 1). destruct H as (_ & _ & (lo & E) & _); try lia.
  change (1 - 1) with 0 in E. rewrite (proj1 par_mem_large_witness) in E. discriminate.
Qed.
