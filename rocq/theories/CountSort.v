(** * Parallel counting sort.

    The same algorithm appears twice in the library: CSR::transpose
    (/repo/CSR.cpp:509-595) and findConnectedComponents_
    (/repo/reordering/ConnectedComponents.cpp:226-292).  It is modelled here
    once, with the key function, the items of each thread and the number of
    buckets as parameters; the users instantiate it.

    The array [b] is the int[T][K] matrix of counters ([bucket] respectively
    [*compSizePrefixSum]); the code's element [bucket[tid*n + idx]] with
    [bucket -= base] is element [t*K + (idx - base)] of [b]. *)
From Verif Require Import Base Spec Interleave PrefixSum Flat.

(** /repo/CSR.cpp:462-465, /repo/reordering/ConnectedComponents.cpp:53-56. *)
Definition transpose_idx (idx d1 d2 : Z) : Z := Z.rem idx d1 * d2 + Z.quot idx d1.

(** One list per thread, computed from the thread number and its items. *)
Definition threads_of {A B} (f : Z -> list A -> list B) (ts : list (list A)) : list (list B) :=
  map (fun t => f t (nthl ts t)) (zrange 0 (Zlen ts)).

Section Model.
Context {A B : Type} (key : A -> Z) (payload : A -> B).
Variable K : Z.  (* number of buckets *)
Variable T : Z.  (* number of threads *)

(** Counting: CSR.cpp:514-532, ConnectedComponents.cpp:226-236. *)
Inductive cnt_act := CClear (i : Z) | CIncr (i : Z).
Definition cnt_step (a : cnt_act) (b : list Z) : option (list Z) :=
  match a with
  | CClear i => set b i 0
  | CIncr i => v <- get b i ;; set b i (v + 1)
  end.
Definition cnt_thread (t : Z) (items : list A) : list cnt_act :=
  map CClear (zrange (t * K) (t * K + K)) ++ map (fun a => CIncr (t * K + key a)) items.

(** First pass of the scan over the transposed counters: CSR.cpp:538-543,
    ConnectedComponents.cpp:240-245. *)
Definition scan1_step (i : Z) (b : list Z) : option (list Z) :=
  v <- get b (transpose_idx i T K) ;;
  w <- get b (transpose_idx (i - 1) T K) ;;
  set b (transpose_idx i T K) (v + w).
Definition scan1_thread (t : Z) : list Z := zrange (t * K + 1) ((t + 1) * K).

(** Second pass, by the master: CSR.cpp:546-555, ConnectedComponents.cpp:249-257. *)
Definition scan2 (b : list Z) : option (list Z) :=
  forZ 1 T (fun i b =>
    let j0 := K * i - 1 in
    let j1 := K * (i + 1) - 1 in
    v <- get b (transpose_idx j1 T K) ;;
    w <- get b (transpose_idx j0 T K) ;;
    set b (transpose_idx j1 T K) (v + w)) b.

(** Third pass: CSR.cpp:558-566, ConnectedComponents.cpp:260-268.  An action is
    a pair (thread, i). *)
Definition scan3_step (a : Z * Z) (b : list Z) : option (list Z) :=
  let (t, i) := a in
  v <- get b (transpose_idx i T K) ;;
  w <- get b (transpose_idx (K * t - 1) T K) ;;
  set b (transpose_idx i T K) (v + w).
Definition scan3_thread (t : Z) : list (Z * Z) :=
  if 0 <? t then map (fun i => (t, i)) (zrange (t * K) ((t + 1) * K - 1)) else [].

(** Placing the items, last one first: CSR.cpp:570-595,
    ConnectedComponents.cpp:286-292.  One action is one item. *)
Definition place_step (ta : Z * A) (s : list Z * list B) : option (list Z * list B) :=
  let (t, a) := ta in
  let (b, out) := s in
  v <- get b (t * K + key a) ;;
  b <- set b (t * K + key a) (v - 1) ;;
  out <- set out (v - 1) (payload a) ;;
  Some (b, out).
Definition place_thread (t : Z) (items : list A) : list (Z * A) :=
  map (fun a => (t, a)) (rev items).

(** The phases are separated by barriers; [tr1] ... [tr4] are the orders in
    which the actions of a phase happen. *)
Definition counting (tr1 : list cnt_act) (tr2 : list Z) (tr3 : list (Z * Z)) (b : list Z)
  : option (list Z) :=
  b <- foldM cnt_step tr1 b ;;
  b <- foldM scan1_step tr2 b ;;
  b <- scan2 b ;;
  foldM scan3_step tr3 b.

Definition counting_sort (tr1 : list cnt_act) (tr2 : list Z) (tr3 : list (Z * Z))
    (tr4 : list (Z * A)) (b : list Z) (out : list B) : option (list Z * list B) :=
  b <- counting tr1 tr2 tr3 b ;;
  foldM place_step tr4 (b, out).
End Model.

(** ** Specification: items in the order of their keys, equal keys in the order
    given. *)
Definition with_key {A} (key : A -> Z) (c : Z) (l : list A) : list A :=
  filter (fun a => key a =? c) l.
Definition sort_by_key {A} (key : A -> Z) (K : Z) (l : list A) : list A :=
  flat (fun c => with_key key c l) K.
(** Number of items with a key below [c]. *)
Definition keys_below {A} (key : A -> Z) (c : Z) (l : list A) : Z :=
  Zlen (filter (fun a => key a <? c) l).

(** ** Proofs *)

Lemma foldM_concat_map {X S} (f : X -> S -> option S) (g : Z -> list X) lo hi s :
  foldM f (concat (map g (zrange lo hi))) s = forZ lo hi (fun t s => foldM f (g t) s) s.
Proof.
  unfold forZ. revert s. induction (zrange lo hi) as [|t l IH]; intros s; cbn; auto.
  rewrite foldM_app. destruct (foldM f (g t) s); auto.
Qed.

Lemma Zlen_threads_of {X Y} (f : Z -> list X -> list Y) ts : Zlen (threads_of f ts) = Zlen ts.
Proof. unfold threads_of. rewrite Zlen_map, Zlen_zrange. pose proof (Zlen_nonneg ts). lia. Qed.

Lemma nthl_threads_of {X Y} (f : Z -> list X -> list Y) ts t :
  0 <= t < Zlen ts -> nthl (threads_of f ts) t = f t (nthl ts t).
Proof.
  intros H. apply nthl_get. unfold threads_of. rewrite get_map, get_zrange by lia. reflexivity.
Qed.

Lemma quot_rem_pos i T : 0 <= i -> 1 <= T -> Z.quot i T = i / T /\ Z.rem i T = i mod T.
Proof. intros. rewrite Z.quot_div_nonneg, Z.rem_mod_nonneg by lia. auto. Qed.

Lemma keys_below_S {A} (key : A -> Z) c (l : list A) :
  keys_below key (c + 1) l = keys_below key c l + Zlen (with_key key c l).
Proof.
  unfold keys_below, with_key. induction l as [|x l IH]; cbn; auto.
  destruct (Z.ltb_spec (key x) (c + 1)), (Z.ltb_spec (key x) c), (Z.eqb_spec (key x) c);
    rewrite ?Zlen_cons; lia.
Qed.

Lemma keys_below_0 {A} (key : A -> Z) (l : list A) : (forall x, In x l -> 0 <= key x) -> keys_below key 0 l = 0.
Proof.
  unfold keys_below. induction l as [|x l IH]; intros H; cbn; auto.
  destruct (Z.ltb_spec (key x) 0) as [L|L].
  - specialize (H x (or_introl eq_refl)). lia.
  - apply IH. intros; apply H; cbn; auto.
Qed.

Section Proofs.
Context {A : Type} (key : A -> Z).
Variable K : Z.
Variable T : Z.
Hypothesis HK : 1 <= K.
Hypothesis HT : 1 <= T.

Notation tr i := (transpose_idx i T K).

Lemma tr_pair c t : 0 <= c -> 0 <= t < T -> tr (c * T + t) = t * K + c.
Proof.
  intros Hc Ht. unfold transpose_idx. destruct (quot_rem_pos (c * T + t) T) as [-> ->]; [nia|lia|].
  rewrite Z.div_add_l, Z.div_small by lia.
  rewrite Z.add_comm, (Z.add_comm (c * T)), Z.mod_add, Z.mod_small by lia. lia.
Qed.

Lemma lin_pair i : 0 <= i < K * T ->
  exists c t, 0 <= c < K /\ 0 <= t < T /\ i = c * T + t.
Proof.
  intros Hi. exists (i / T), (i mod T).
  pose proof (Z.mod_pos_bound i T). pose proof (Z.div_mod i T).
  assert (0 <= i / T) by (apply Z.div_pos; lia).
  assert (i / T < K) by (apply Z.div_lt_upper_bound; lia). repeat split; lia.
Qed.

Lemma tr_range i : 0 <= i < K * T -> 0 <= tr i < K * T.
Proof.
  intros Hi. destruct (lin_pair i Hi) as (c & t & Hc & Ht & ->). rewrite tr_pair by lia. nia.
Qed.

Lemma tr_inj i j : 0 <= i < K * T -> 0 <= j < K * T -> tr i = tr j -> i = j.
Proof.
  intros Hi Hj E. destruct (lin_pair i Hi) as (c & t & Hc & Ht & ->).
  destruct (lin_pair j Hj) as (c' & t' & Hc' & Ht' & ->).
  rewrite !tr_pair in E by lia. apply addr_inj in E as [-> ->]; auto.
Qed.

(** [b], read in transposed order, holds the values of [a]. *)
Definition repr (L : Z) (b : list Z) (a : Z -> Z) : Prop :=
  Zlen b = L /\ forall i, 0 <= i < K * T -> get b (tr i) = Some (a i).

Definition updz (a : Z -> Z) (i v : Z) : Z -> Z := fun j => if j =? i then v else a j.

Lemma repr_set L b a i v :
  K * T <= L -> repr L b a -> 0 <= i < K * T ->
  exists b', set b (tr i) v = Some b' /\ repr L b' (updz a i v).
Proof.
  intros HL [Hl Hg] Hi. pose proof (tr_range i Hi).
  destruct (set_ok b (tr i) v) as (b' & E); [lia|].
  exists b'. split; auto. split; [now rewrite (set_len _ _ _ _ E)|].
  intros j Hj. rewrite (get_set _ _ _ _ _ E). unfold updz.
  destruct (Z.eqb_spec (tr j) (tr i)) as [Eq|Ne], (Z.eqb_spec j i) as [->|Ne']; auto.
  - apply tr_inj in Eq; auto. contradiction.
  - contradiction.
Qed.

Lemma repr_ext L b a a' : (forall i, 0 <= i < K * T -> a i = a' i) -> repr L b a -> repr L b a'.
Proof. intros H [Hl Hg]. split; auto. intros i Hi. rewrite Hg by auto. now rewrite H. Qed.

(** *** Counting *)

Lemma cnt_commute t t' a a' l l' :
  0 <= t -> 0 <= t' -> t <> t' ->
  (forall x, In x l -> 0 <= key x < K) -> (forall x, In x l' -> 0 <= key x < K) ->
  In a (cnt_thread key K t l) -> In a' (cnt_thread key K t' l') ->
  commute cnt_step a a'.
Proof.
  intros Ht Ht' Hne Hk Hk' Ha Ha'.
  set (idx := fun a => match a with CClear i => i | CIncr i => i end).
  assert (forall t l x, (forall x, In x l -> 0 <= key x < K) -> In x (cnt_thread key K t l) ->
    t * K <= idx x < t * K + K) as Bd.
  { clear. intros t l x Hk Hx. unfold cnt_thread in Hx. apply in_app_or in Hx as [Hx|Hx];
      apply in_map_iff in Hx as (y & <- & Hy); cbn.
    - apply In_zrange in Hy. lia.
    - specialize (Hk _ Hy). lia. }
  pose proof (Bd t l a Hk Ha) as H1. pose proof (Bd t' l' a' Hk' Ha') as H2.
  assert (idx a <> idx a') as Hidx by nia. clear - Hidx.
  assert (forall a s, cnt_step a s =
    gact (idx a) [idx a] (fun vs => match a, vs with CIncr _, [v] => v + 1 | _, _ => 0 end) s) as G.
  { clear. intros [i|i] s; unfold gact, cnt_step; cbn [idx mapM].
    - destruct (get s i) eqn:E; auto. apply set_none. now apply get_None_iff in E.
    - destruct (get s i); auto. }
  intros s. rewrite !G. destruct (gact (idx a) _ _ s) eqn:E1, (gact (idx a') _ _ s) eqn:E2;
   rewrite ?G; pose proof (gact_commute (idx a) [idx a] 
     (fun vs => match a, vs with CIncr _, [v] => v + 1 | _, _ => 0 end)
     (idx a') [idx a'] (fun vs => match a', vs with CIncr _, [v] => v + 1 | _, _ => 0 end) s Hidx) as C;
   rewrite E1, E2 in C; apply C; cbn; lia.
Qed.

Lemma fill_zero b0 t :
  (t + 1) * K <= Zlen b0 -> 0 <= t ->
  exists b, foldM cnt_step (map CClear (zrange (t * K) (t * K + K))) b0 = Some b /\
    Zlen b = Zlen b0 /\
    (forall k, get b k = if (t * K <=? k) && (k <? t * K + K) then Some 0 else get b0 k).
Proof.
  intros Hl Ht. rewrite foldM_map.
  change (foldM (fun i s => cnt_step (CClear i) s) (zrange (t * K) (t * K + K)) b0)
    with (forZ (t * K) (t * K + K) (fun i s => set s i 0) b0).
  destruct (forZ_rule (fun i b => Zlen b = Zlen b0 /\
    (forall k, get b k = if (t * K <=? k) && (k <? i) then Some 0 else get b0 k))
    (t * K) (t * K + K) (fun i s => set s i 0) b0) as (b & E & H); try lia.
  - split; auto. intros k. destruct (Z.leb_spec (t * K) k), (Z.ltb_spec k (t * K)); auto; lia.
  - intros i b Hi [H1 H2]. destruct (set_ok b i 0) as (b' & E); [nia|].
    exists b'. split; auto. split; [now rewrite (set_len _ _ _ _ E)|].
    intros k. rewrite (get_set _ _ _ _ _ E), H2.
    destruct (Z.eqb_spec k i), (Z.leb_spec (t * K) k), (Z.ltb_spec k i), (Z.ltb_spec k (i + 1));
      cbn; auto; lia.
  - exists b. split; auto.
Qed.

Lemma incr_ok t items b0 :
  0 <= t -> (t + 1) * K <= Zlen b0 -> (forall x, In x items -> 0 <= key x < K) ->
  (forall c, 0 <= c < K -> get b0 (t * K + c) <> None) ->
  exists b, foldM cnt_step (map (fun a => CIncr (t * K + key a)) items) b0 = Some b /\
    Zlen b = Zlen b0 /\
    (forall c, 0 <= c < K -> get b (t * K + c) =
       option_map (fun v => v + Zlen (with_key key c items)) (get b0 (t * K + c))) /\
    (forall k, k < t * K \/ t * K + K <= k -> get b k = get b0 k).
Proof.
  intros Ht. revert b0. induction items as [|x items IH]; intros b0 Hl Hk Hsome.
  - exists b0. cbn. repeat split; auto. intros c Hc. destruct (get b0 (t * K + c)); auto.
    cbn. f_equal. unfold Zlen; cbn. lia.
  - cbn [map foldM cnt_step]. pose proof (Hk x (or_introl eq_refl)) as Hx.
    destruct (get b0 (t * K + key x)) as [v|] eqn:Ev; [|now apply Hsome in Ev].
    destruct (set_ok b0 (t * K + key x) (v + 1)) as (b1 & E1); [nia|]. rewrite E1.
    destruct (IH b1) as (b & E & L & H1 & H2).
    + now rewrite (set_len _ _ _ _ E1).
    + intros; apply Hk; cbn; auto.
    + intros c Hc. rewrite (get_set _ _ _ _ _ E1). destruct (Z.eqb_spec (t * K + c) (t * K + key x)); [discriminate|].
      now apply Hsome.
    + exists b. split; auto. split; [now rewrite L, (set_len _ _ _ _ E1)|]. split.
      * intros c Hc. rewrite H1 by auto. rewrite (get_set _ _ _ _ _ E1).
        unfold with_key. cbn [filter].
        destruct (Z.eqb_spec (t * K + c) (t * K + key x)) as [Eq|Ne], (Z.eqb_spec (key x) c); try lia.
        -- rewrite Eq, Ev. cbn [option_map]. f_equal. rewrite Zlen_cons. lia.
        -- auto.
      * intros k Hkk. rewrite H2 by auto. apply (get_set_other _ _ _ _ _ E1). lia.
Qed.

Variable ts : list (list A).
Hypothesis Hts : Zlen ts = T.
Hypothesis Hkeys : forall t x, In t ts -> In x t -> 0 <= key x < K.

Lemma Hkeys' t x : 0 <= t < T -> In x (nthl ts t) -> 0 <= key x < K.
Proof.
  intros Ht Hx. apply (Hkeys (nthl ts t)); auto.
  apply (get_In ts t). apply get_nthl. lia.
Qed.

Definition cnt (t c : Z) : Z := Zlen (with_key key c (nthl ts t)).

Lemma counting_ok b0 tr1 :
  K * T <= Zlen b0 -> interleave (threads_of (cnt_thread key K) ts) tr1 ->
  exists b, foldM cnt_step tr1 b0 = Some b /\ Zlen b = Zlen b0 /\
    (forall t c, 0 <= t < T -> 0 <= c < K -> get b (t * K + c) = Some (cnt t c)).
Proof.
  intros Hl Hi. rewrite (interleave_deterministic _ _ _ Hi).
  - unfold threads_of. rewrite foldM_concat_map, Hts.
    destruct (forZ_rule (fun t b => Zlen b = Zlen b0 /\
      (forall t' c, 0 <= t' < t -> 0 <= c < K -> get b (t' * K + c) = Some (cnt t' c)))
      0 T (fun t s => foldM cnt_step (cnt_thread key K t (nthl ts t)) s) b0) as (b & E & H); try lia.
    + split; auto. intros; lia.
    + intros t b Ht [H1 H2]. unfold cnt_thread. rewrite foldM_app.
      destruct (fill_zero b t) as (b1 & E1 & L1 & G1); [nia|lia|]. rewrite E1.
      destruct (incr_ok t (nthl ts t) b1) as (b2 & E2 & L2 & G2 & G3); [lia|nia| | |].
      * intros x. apply Hkeys'; auto.
      * intros c Hc. rewrite G1. replace ((t * K <=? t * K + c) && (t * K + c <? t * K + K)) with true by lia.
        discriminate.
      * exists b2. split; auto. split; [lia|]. intros t' c Ht' Hc.
        destruct (Z.eq_dec t' t) as [->|].
        -- rewrite G2 by auto. rewrite G1.
           replace ((t * K <=? t * K + c) && (t * K + c <? t * K + K)) with true by lia.
           reflexivity.
        -- rewrite G3 by nia. rewrite G1.
           replace ((t * K <=? t' * K + c) && (t' * K + c <? t * K + K)) with false by nia.
           apply H2; lia.
    + exists b. tauto.
  - apply threads_commute_map; [apply NoDup_zrange|].
    intros t1 t2 a b H1 H2 Hne Ha Hb. apply In_zrange in H1, H2.
    eapply (cnt_commute t1 t2); eauto; try lia; intros x; apply Hkeys'; lia.
Qed.

(** *** Scan *)

(** Counters in the order bucket-major, thread-minor. *)
Definition a0 (i : Z) : Z := cnt (i mod T) (i / T).

Lemma a0_pair c t : 0 <= c -> 0 <= t < T -> a0 (c * T + t) = cnt t c.
Proof.
  intros Hc Ht. unfold a0.
  rewrite Z.div_add_l, Z.div_small by lia.
  rewrite (Z.add_comm (c * T)), Z.mod_add, Z.mod_small by lia. f_equal; lia.
Qed.

Lemma cnt_nonneg t c : 0 <= cnt t c.
Proof. apply Zlen_nonneg. Qed.
Lemma a0_nonneg i : 0 <= a0 i.
Proof. apply cnt_nonneg. Qed.

Lemma repr_counting b : (forall t c, 0 <= t < T -> 0 <= c < K -> get b (t * K + c) = Some (cnt t c)) ->
  repr (Zlen b) b a0.
Proof.
  intros H. split; auto. intros i Hi. destruct (lin_pair i Hi) as (c & t & Hc & Ht & ->).
  rewrite tr_pair, a0_pair by lia. auto.
Qed.

Definition chunk (i : Z) : Z := before a0 (i + 1) - before a0 (K * (i / K)).

Lemma scan1_gact i b : scan1_step K T i b =
  gact (tr i) [tr i; tr (i - 1)] (fun vs => match vs with [v; w] => v + w | _ => 0 end) b.
Proof.
  unfold scan1_step, gact. cbn [mapM]. destruct (get b (tr i)); auto.
  destruct (get b (tr (i - 1))); auto.
Qed.

Lemma scan1_commute i j t t' : 0 <= t < T -> 0 <= t' < T -> t <> t' ->
  In i (scan1_thread K t) -> In j (scan1_thread K t') -> commute (scan1_step K T) i j.
Proof.
  intros Ht Ht' Hne Hi Hj b. apply In_zrange in Hi, Hj.
  assert (0 <= t * K) by nia. assert ((t + 1) * K <= K * T) by nia.
  assert (0 <= t' * K) by nia. assert ((t' + 1) * K <= K * T) by nia.
  assert (i <> j /\ i <> j - 1 /\ i - 1 <> j) as (N1 & N2 & N3) by nia.
  rewrite !scan1_gact.
  pose proof (gact_commute (tr i) [tr i; tr (i - 1)] (fun vs => match vs with [v; w] => v + w | _ => 0 end)
   (tr j) [tr j; tr (j - 1)] (fun vs => match vs with [v; w] => v + w | _ => 0 end) b) as C.
  assert (tr i <> tr j) by (intros E; apply tr_inj in E; lia).
  assert (tr i <> tr (j - 1)) by (intros E; apply tr_inj in E; lia).
  assert (tr (i - 1) <> tr j) by (intros E; apply tr_inj in E; lia).
  cbn [In] in C.
  transitivity (b1 <- gact (tr i) [tr i; tr (i - 1)] (fun vs => match vs with [v; w] => v + w | _ => 0 end) b ;;
    gact (tr j) [tr j; tr (j - 1)] (fun vs => match vs with [v; w] => v + w | _ => 0 end) b1).
  { destruct (gact (tr i) _ _ b); auto. apply scan1_gact. }
  rewrite C by (intuition congruence).
  destruct (gact (tr j) _ _ b); auto. now rewrite scan1_gact.
Qed.

Lemma scan1_ok L b tr2 :
  K * T <= L -> repr L b a0 ->
  interleave (map (scan1_thread K) (zrange 0 T)) tr2 ->
  exists b', foldM (scan1_step K T) tr2 b = Some b' /\ repr L b' chunk.
Proof.
  intros HL HR Hi. rewrite (interleave_deterministic _ _ _ Hi).
  - rewrite foldM_concat_map.
    destruct (forZ_rule (fun t b => repr L b (fun i => if i <? t * K then chunk i else a0 i)) 0 T
      (fun t s => foldM (scan1_step K T) (scan1_thread K t) s) b) as (b' & E & H); try lia.
    + eapply repr_ext; [|exact HR]. intros i Hi'. cbn beta. destruct (Z.ltb_spec i (0 * K)); auto; lia.
    + intros t b1 Ht HR1.
      destruct (forZ_rule (fun j b => repr L b (fun i => if i <? j then chunk i else a0 i))
        (t * K + 1) ((t + 1) * K) (scan1_step K T) b1) as (b2 & E2 & H2); try lia.
      * eapply repr_ext; [|exact HR1]. intros i Hi'. cbn beta.
        destruct (Z.ltb_spec i (t * K)), (Z.ltb_spec i (t * K + 1)); auto; try lia.
        assert (i = t * K) by lia. subst. unfold chunk.
        rewrite Z.div_mul by lia. rewrite (Z.mul_comm K t). rewrite before_S by nia. lia.
      * intros j b2 Hj HR2. unfold scan1_step.
        assert (0 <= t * K) by nia. assert ((t + 1) * K <= K * T) by nia.
        destruct HR2 as [Hl Hg]. rewrite Hg, Hg by lia.
        destruct (repr_set L b2 (fun i => if i <? j then chunk i else a0 i) j
          ((if j <? j then chunk j else a0 j) + (if j - 1 <? j then chunk (j - 1) else a0 (j - 1))))
          as (b3 & E3 & H3); try lia; [split; auto|].
        rewrite E3. exists b3. split; auto. eapply repr_ext; [|exact H3].
        intros i Hi'. unfold updz.
        destruct (Z.eqb_spec i j) as [->|Ne].
        -- replace (j <? j) with false by lia. replace (j - 1 <? j) with true by lia.
           replace (j <? j + 1) with true by lia. unfold chunk.
           assert (j / K = t) as ->.
           { symmetry. apply (Z.div_unique j K t (j - t * K)); lia. }
           assert ((j - 1) / K = t) as ->.
           { symmetry. apply (Z.div_unique (j - 1) K t (j - 1 - t * K)); lia. }
           replace (j - 1 + 1) with j by lia. rewrite before_S by lia. lia.
        -- destruct (Z.ltb_spec i j), (Z.ltb_spec i (j + 1)); auto; lia.
      * exists b2. split; auto.
    + exists b'. split; auto. eapply repr_ext; [|exact H]. intros i Hi'. cbn beta.
      replace (i <? T * K) with true by lia. auto.
  - apply threads_commute_map; [apply NoDup_zrange|].
    intros t1 t2 i j H1 H2. apply In_zrange in H1, H2. intros Hne Hi1 Hj1. apply (scan1_commute i j t1 t2); auto.
Qed.

Definition after2 (i : Z) : Z := if i mod K =? K - 1 then before a0 (i + 1) else chunk i.

Lemma chunk_last t : 0 <= t -> chunk (K * (t + 1) - 1) = before a0 (K * (t + 1)) - before a0 (K * t).
Proof.
  intros Ht. unfold chunk. replace (K * (t + 1) - 1 + 1) with (K * (t + 1)) by lia.
  replace ((K * (t + 1) - 1) / K) with t; auto.
  apply (Z.div_unique _ K t (K - 1)); lia.
Qed.

Lemma last_mod i t : 0 <= i -> 0 <= t -> K * t <= i < K * (t + 1) ->
  (i mod K =? K - 1) = (i =? K * (t + 1) - 1).
Proof.
  intros Hi Ht H. replace (i mod K) with (i - K * t).
  - lia.
  - apply (Z.mod_unique i K t); lia.
Qed.

Lemma scan2_ok L b :
  K * T <= L -> repr L b chunk -> exists b', scan2 K T b = Some b' /\ repr L b' after2.
Proof.
  intros HL HR. unfold scan2.
  destruct (forZ_rule (fun t b => repr L b (fun i => if i <? K * t then after2 i else chunk i)) 1 T
    (fun i b => v <- get b (tr (K * (i + 1) - 1)) ;; w <- get b (tr (K * i - 1)) ;;
       set b (tr (K * (i + 1) - 1)) (v + w)) b) as (b' & E & H); try lia.
  - eapply repr_ext; [|exact HR]. intros i Hi. cbn beta. destruct (Z.ltb_spec i (K * 1)); auto.
    unfold after2. rewrite (last_mod i 0) by lia.
    destruct (Z.eqb_spec i (K * (0 + 1) - 1)) as [->|]; auto.
    rewrite chunk_last by lia. rewrite Z.mul_0_r, before_0. 
    replace (K * (0 + 1) - 1 + 1) with (K * (0 + 1)) by lia. lia.
  - intros t b1 Ht HR1. destruct HR1 as [Hl Hg].
    assert (0 <= K * t - 1) by nia. assert (K * (t + 1) <= K * T) by nia.
    rewrite Hg, Hg by nia.
    edestruct (repr_set L b1 (fun i => if i <? K * t then after2 i else chunk i) (K * (t + 1) - 1))
      as (b2 & E2 & H2); [lia|split; auto|nia|].
    rewrite E2. exists b2. split; auto. eapply repr_ext; [|exact H2].
    intros i Hi. unfold updz. destruct (Z.eqb_spec i (K * (t + 1) - 1)) as [->|Ne].
    + replace (K * (t + 1) - 1 <? K * t) with false by nia.
      replace (K * t - 1 <? K * t) with true by nia.
      replace (K * (t + 1) - 1 <? K * (t + 1)) with true by nia.
      rewrite chunk_last by lia. unfold after2.
      rewrite (last_mod (K * t - 1) (t - 1)) by nia.
      rewrite (last_mod (K * (t + 1) - 1) t) by nia.
      replace (K * t - 1 =? K * (t - 1 + 1) - 1) with true by nia. rewrite Z.eqb_refl.
      replace (K * t - 1 + 1) with (K * t) by lia.
      replace (K * (t + 1) - 1 + 1) with (K * (t + 1)) by lia. lia.
    + destruct (Z.ltb_spec i (K * t)), (Z.ltb_spec i (K * (t + 1))); auto; try nia.
      unfold after2. rewrite (last_mod i t) by nia.
      replace (i =? K * (t + 1) - 1) with false by lia. auto.
  - exists b'. split; auto. eapply repr_ext; [|exact H]. intros i Hi. cbn beta.
    replace (i <? K * T) with true by lia. auto.
Qed.

Lemma scan3_gact t i b : scan3_step K T (t, i) b =
  gact (tr i) [tr i; tr (K * t - 1)] (fun vs => match vs with [v; w] => v + w | _ => 0 end) b.
Proof.
  unfold scan3_step, gact. cbn [mapM]. destruct (get b (tr i)); auto.
  destruct (get b (tr (K * t - 1))); auto.
Qed.

Lemma scan3_in t a : In a (scan3_thread K t) ->
  exists i, a = (t, i) /\ 0 < t /\ t * K <= i < (t + 1) * K - 1.
Proof.
  unfold scan3_thread. destruct (Z.ltb_spec 0 t); cbn [In]; [|tauto].
  intros H'. apply in_map_iff in H' as (i & <- & Hi). apply In_zrange in Hi. eauto.
Qed.

Lemma scan3_commute a a' t t' : 0 <= t < T -> 0 <= t' < T -> t <> t' ->
  In a (scan3_thread K t) -> In a' (scan3_thread K t') -> commute (scan3_step K T) a a'.
Proof.
  intros Ht Ht' Hne Ha Ha' b.
  apply scan3_in in Ha as (i & -> & Hp & Hi). apply scan3_in in Ha' as (j & -> & Hp' & Hj).
  assert (0 <= t * K) by nia. assert ((t + 1) * K <= K * T) by nia.
  assert (0 <= t' * K) by nia. assert ((t' + 1) * K <= K * T) by nia.
  assert (i <> j /\ i <> K * t' - 1 /\ K * t - 1 <> j) as (N1 & N2 & N3) by nia.
  rewrite !scan3_gact.
  pose proof (gact_commute (tr i) [tr i; tr (K * t - 1)] (fun vs => match vs with [v; w] => v + w | _ => 0 end)
   (tr j) [tr j; tr (K * t' - 1)] (fun vs => match vs with [v; w] => v + w | _ => 0 end) b) as C.
  assert (0 <= K * t - 1 < K * T) by nia. assert (0 <= K * t' - 1 < K * T) by nia.
  assert (tr i <> tr j) by (intros E; apply tr_inj in E; lia).
  assert (tr i <> tr (K * t' - 1)) by (intros E; apply tr_inj in E; lia).
  assert (tr (K * t - 1) <> tr j) by (intros E; apply tr_inj in E; lia).
  cbn [In] in C.
  transitivity (b1 <- gact (tr i) [tr i; tr (K * t - 1)] (fun vs => match vs with [v; w] => v + w | _ => 0 end) b ;;
    gact (tr j) [tr j; tr (K * t' - 1)] (fun vs => match vs with [v; w] => v + w | _ => 0 end) b1).
  { destruct (gact (tr i) _ _ b); auto. apply scan3_gact. }
  rewrite C by (intuition congruence).
  destruct (gact (tr j) _ _ b); auto. now rewrite scan3_gact.
Qed.

Lemma scan3_ok L b tr3 :
  K * T <= L -> repr L b after2 ->
  interleave (map (scan3_thread K) (zrange 0 T)) tr3 ->
  exists b', foldM (scan3_step K T) tr3 b = Some b' /\ repr L b' (fun i => before a0 (i + 1)).
Proof.
  intros HL HR Hi. rewrite (interleave_deterministic _ _ _ Hi).
  - rewrite foldM_concat_map.
    destruct (forZ_rule (fun t b => repr L b (fun i => if i <? t * K then before a0 (i + 1) else after2 i)) 0 T
      (fun t s => foldM (scan3_step K T) (scan3_thread K t) s) b) as (b' & E & H); try lia.
    + eapply repr_ext; [|exact HR]. intros i Hi'. cbn beta. destruct (Z.ltb_spec i (0 * K)); auto; lia.
    + intros t b1 Ht HR1. unfold scan3_thread. destruct (Z.ltb_spec 0 t) as [Hp|Hz].
      * rewrite foldM_map.
        assert (0 <= t * K) by nia. assert ((t + 1) * K <= K * T) by nia.
        destruct (forZ_rule (fun j b => repr L b (fun i => if i <? j then before a0 (i + 1) else after2 i))
          (t * K) ((t + 1) * K - 1) (fun i => scan3_step K T (t, i)) b1) as (b2 & E2 & H2); try lia; auto.
        -- intros j b2 Hj HR2. unfold scan3_step.
           destruct HR2 as [Hl Hg]. rewrite Hg, Hg by nia.
           edestruct (repr_set L b2 (fun i => if i <? j then before a0 (i + 1) else after2 i) j)
             as (b3 & E3 & H3); try lia; [split; auto|].
           rewrite E3. exists b3. split; auto. eapply repr_ext; [|exact H3].
           intros i Hi'. unfold updz.
           destruct (Z.eqb_spec i j) as [->|Ne].
           ++ replace (j <? j) with false by lia. replace (K * t - 1 <? j) with true by lia.
              replace (j <? j + 1) with true by lia. unfold after2.
              rewrite (last_mod j t) by lia. replace (j =? K * (t + 1) - 1) with false by lia.
              unfold chunk. replace (j / K) with t by (apply (Z.div_unique j K t (j - t * K)); lia).
              replace (K * t - 1 + 1) with (K * t) by lia. lia.
           ++ destruct (Z.ltb_spec i j), (Z.ltb_spec i (j + 1)); auto; lia.
        -- exists b2. split; auto. eapply repr_ext; [|exact H2]. intros i Hi'. cbn beta.
           destruct (Z.ltb_spec i ((t + 1) * K - 1)), (Z.ltb_spec i ((t + 1) * K)); auto; try lia.
           unfold after2. rewrite (last_mod i t) by lia.
           replace (i =? K * (t + 1) - 1) with true by lia. auto.
      * assert (t = 0) by lia. subst. exists b1. split; auto.
        eapply repr_ext; [|exact HR1]. intros i Hi'. cbn beta.
        destruct (Z.ltb_spec i (0 * K)), (Z.ltb_spec i ((0 + 1) * K)); auto; try lia.
        unfold after2. rewrite (last_mod i 0) by lia.
        destruct (i =? K * (0 + 1) - 1); auto. unfold chunk.
        replace (i / K) with 0 by (apply (Z.div_unique i K 0 i); lia).
        rewrite Z.mul_0_r, before_0. lia.
    + exists b'. split; auto. eapply repr_ext; [|exact H]. intros i Hi'. cbn beta.
      replace (i <? T * K) with true by lia. auto.
  - apply threads_commute_map; [apply NoDup_zrange|].
    intros t1 t2 i j H1 H2. apply In_zrange in H1, H2. intros Hne Hi1 Hj1. apply (scan3_commute i j t1 t2); auto.
Qed.

(** Counters after the scan: end of the segment of (bucket c, thread t). *)
Lemma counting_scan_ok b0 tr1 tr2 tr3 :
  K * T <= Zlen b0 ->
  interleave (threads_of (cnt_thread key K) ts) tr1 ->
  interleave (map (scan1_thread K) (zrange 0 T)) tr2 ->
  interleave (map (scan3_thread K) (zrange 0 T)) tr3 ->
  exists b, counting K T tr1 tr2 tr3 b0 = Some b /\ Zlen b = Zlen b0 /\
    (forall t c, 0 <= t < T -> 0 <= c < K ->
       get b (t * K + c) = Some (before a0 (c * T + t) + cnt t c)).
Proof.
  intros HL H1 H2 H3. unfold counting.
  destruct (counting_ok b0 tr1 HL H1) as (b1 & E1 & L1 & G1). rewrite E1.
  pose proof (repr_counting b1 G1) as R1. rewrite L1 in R1.
  destruct (scan1_ok _ _ _ HL R1 H2) as (b2 & E2 & R2). rewrite E2.
  destruct (scan2_ok _ _ HL R2) as (b3 & E3 & R3). rewrite E3.
  destruct (scan3_ok _ _ _ HL R3 H3) as (b4 & E4 & L4 & R4). rewrite E4.
  exists b4. split; auto. split; auto. intros t c Ht Hc.
  rewrite <- (tr_pair c t) by lia. rewrite R4 by nia. f_equal.
  rewrite before_S by nia. now rewrite a0_pair by lia.
Qed.

(** *** Placing *)

Context {B : Type} (payload : A -> B).

(** The items of the counting-sort segments. *)
Definition seg (i : Z) : list A := with_key key (i / T) (nthl ts (i mod T)).

Lemma seg_len i : Zlen (seg i) = a0 i.
Proof. reflexivity. Qed.

Lemma off_seg i : off seg i = before a0 i.
Proof. unfold off. apply before_ext. intros; apply seg_len. Qed.

(** [rest] holds what each thread has still to place, in placing order. *)
Definition place_inv (rest : list (list A)) (s : list Z * list B) : Prop :=
  let (b, out) := s in
  Zlen rest = T /\
  (forall t c, 0 <= t < T -> 0 <= c < K ->
     get b (t * K + c) = Some (before a0 (c * T + t) + Zlen (with_key key c (nthl rest t)))) /\
  K * T <= Zlen b /\
  before a0 (K * T) <= Zlen out /\
  (forall t x, 0 <= t < T -> In x (nthl rest t) -> 0 <= key x < K) /\
  (forall t c, 0 <= t < T -> 0 <= c < K -> Zlen (with_key key c (nthl rest t)) <= cnt t c).

Lemma place_rest (rest : list (list A)) acts s :
  interleave acts s -> forall st,
  acts = threads_of (fun t l => map (fun a => (t, a)) l) rest ->
  place_inv rest st ->
  exists b' out', foldM (place_step key payload K) s st = Some (b', out') /\
    Zlen b' = Zlen (fst st) /\ Zlen out' = Zlen (snd st) /\
    (forall t c, 0 <= t < T -> 0 <= c < K -> get b' (t * K + c) = Some (before a0 (c * T + t))) /\
    (forall t l1 x l2, 0 <= t < T -> nthl rest t = l1 ++ x :: l2 ->
       get out' (before a0 (key x * T + t) + Zlen (with_key key (key x) l2)) = Some (payload x)) /\
    (forall o, (forall t c k, 0 <= t < T -> 0 <= c < K -> 0 <= k < Zlen (with_key key c (nthl rest t)) ->
        o <> before a0 (c * T + t) + k) -> get out' o = get (snd st) o).
Proof.
  intros Hi. revert rest. induction Hi as [acts Hd|ts1 a l ts2 s Hi IH]; intros rest [b out] Ea HI.
  - destruct HI as (Hl & Hb & HLb & HLo & Hk & Hc).
    assert (forall t, 0 <= t < T -> nthl rest t = []) as Hnil.
    { intros t Ht. assert (nthl acts t = []) as Hn.
      { apply Hd. apply (get_In _ t). apply get_nthl. rewrite Ea, Zlen_threads_of. lia. }
      rewrite Ea, nthl_threads_of in Hn by lia. now apply map_eq_nil in Hn. }
    exists b, out. cbn. repeat split; auto.
    + intros t c Ht Hc'. rewrite Hb by auto. rewrite Hnil by auto. cbn. f_equal. unfold Zlen; cbn; lia.
    + intros t l1 x l2 Ht E. rewrite Hnil in E by auto. now destruct l1.
  - destruct HI as (Hl & Hb & HLb & HLo & Hk & Hc).
    set (t := Zlen ts1).
    assert (Zlen (ts1 ++ (a :: l) :: ts2) = T) as HlenA by (rewrite Ea, Zlen_threads_of; auto).
    rewrite Zlen_app, Zlen_cons in HlenA. pose proof (Zlen_nonneg ts1). pose proof (Zlen_nonneg ts2).
    assert (0 <= t < T) as Ht by (unfold t; lia).
    assert (nthl (ts1 ++ (a :: l) :: ts2) t = a :: l) as Hn.
    { apply nthl_get. rewrite get_app_r by (unfold t; lia). unfold t. now rewrite Z.sub_diag. }
    rewrite Ea, nthl_threads_of in Hn by lia.
    destruct (nthl rest t) as [|x r] eqn:Er; [discriminate|]. cbn in Hn. injection Hn as <- Hl'.
    assert (0 <= key x < K) as Hx by (apply (Hk t); auto; rewrite Er; cbn; auto).
    set (c := key x).
    pose proof (Hb t c Ht Hx) as Hbt. rewrite Er in Hbt. unfold with_key in Hbt. cbn [filter] in Hbt.
    unfold c in Hbt. rewrite Z.eqb_refl, Zlen_cons in Hbt. fold c in Hbt. fold (with_key key c r) in Hbt.
    pose proof (Hc t c Ht Hx) as Hct. rewrite Er in Hct. unfold with_key in Hct. cbn [filter] in Hct.
    unfold c in Hct. rewrite Z.eqb_refl, Zlen_cons in Hct. fold c in Hct. fold (with_key key c r) in Hct.
    set (n := Zlen (with_key key c r)) in *. assert (0 <= n) by apply Zlen_nonneg.
    assert (0 <= c * T + t < K * T) as Hlin by nia.
    assert (before a0 (c * T + t) + cnt t c <= before a0 (K * T)) as Hbd.
    { rewrite <- a0_pair by lia. rewrite <- before_S by lia. apply before_mono; [|lia].
      intros; apply a0_nonneg. }
    assert (0 <= before a0 (c * T + t)) by (apply before_nonneg; intros; apply a0_nonneg).
    cbn [foldM place_step]. fold c. rewrite Hbt.
    replace (before a0 (c * T + t) + (1 + n) - 1) with (before a0 (c * T + t) + n) by lia.
    destruct (set_ok b (t * K + c) (before a0 (c * T + t) + n)) as (b1 & Eb1); [nia|].
    destruct (set_ok out (before a0 (c * T + t) + n) (payload x)) as (out1 & Eo1); [lia|].
    rewrite Eb1, Eo1.
    set (rest' := upd rest (Z.to_nat t) r).
    assert (set rest t r = Some rest') as Erest by (apply set_Some; lia).
    assert (forall t', 0 <= t' < T -> nthl rest' t' = if t' =? t then r else nthl rest t') as Hn'.
    { intros t' Ht'. unfold nthl. rewrite (get_set _ _ _ _ _ Erest). now destruct (t' =? t). }
    destruct (IH rest' (b1, out1)) as (b' & out' & E & L1 & L2 & G1 & G2 & G3).
    + apply list_ext.
      * rewrite Zlen_threads_of, (set_len _ _ _ _ Erest), Zlen_app, Zlen_cons. lia.
      * intros i Hi'. rewrite Zlen_app, Zlen_cons in Hi'.
        assert (get (ts1 ++ l :: ts2) i = if i =? t then Some l else get (ts1 ++ ((t, x) :: l) :: ts2) i) as ->.
        { unfold t in *. destruct (Z.eqb_spec i (Zlen ts1)) as [->|Ne].
          - rewrite get_app_r by lia. now rewrite Z.sub_diag.
          - destruct (Z_lt_ge_dec i (Zlen ts1)).
            + now rewrite !get_app_l by lia.
            + rewrite !get_app_r by lia. now rewrite !get_cons_pos by lia. }
        rewrite Ea. unfold threads_of. rewrite !get_map, (set_len _ _ _ _ Erest), !get_zrange by lia.
        cbn [option_map]. rewrite Z.add_0_l. rewrite Hn' by lia.
        destruct (Z.eqb_spec i t) as [->|]; auto. now rewrite Hl'.
    + cbn. split; [now rewrite (set_len _ _ _ _ Erest)|].
      split; [|split; [|split; [|split]]].
      * intros t' c' Ht' Hc'. rewrite (get_set _ _ _ _ _ Eb1), Hn' by auto.
        destruct (Z.eqb_spec (t' * K + c') (t * K + c)) as [Eq|Ne].
        -- apply addr_inj in Eq as [-> ->]; auto. now rewrite Z.eqb_refl.
        -- rewrite Hb by auto. destruct (Z.eqb_spec t' t) as [->|]; auto.
           rewrite Er. unfold with_key. cbn [filter].
           destruct (Z.eqb_spec (key x) c') as [<-|]; auto. now contradiction Ne.
      * now rewrite (set_len _ _ _ _ Eb1).
      * now rewrite (set_len _ _ _ _ Eo1).
      * intros t' x' Ht'. rewrite Hn' by auto. destruct (Z.eqb_spec t' t) as [->|]; intros Hx'.
        -- apply (Hk t); auto. rewrite Er. cbn; auto.
        -- apply (Hk t'); auto.
      * intros t' c' Ht' Hc'. rewrite Hn' by auto. destruct (Z.eqb_spec t' t) as [->|]; auto.
        etransitivity; [|apply (Hc t c'); auto]. rewrite Er. unfold with_key. cbn [filter].
        destruct (key x =? c'); rewrite ?Zlen_cons; lia.
    + rewrite E. exists b', out'. cbn [fst snd] in *.
      split; auto. split; [now rewrite L1, (set_len _ _ _ _ Eb1)|].
      split; [now rewrite L2, (set_len _ _ _ _ Eo1)|]. split; auto. split.
      * intros t' l1 x' l2 Ht' Es.
        destruct (Z.eq_dec t' t) as [->|Hne].
        -- destruct l1 as [|y l1].
           ++ rewrite Er in Es. cbn in Es. injection Es as <- <-. fold c. fold n.
              rewrite G3; [apply (get_set_same _ _ _ _ Eo1)|].
              intros t' c' k Ht'' Hc' Hk'. rewrite Hn' in Hk' by auto.
              intros Eq.
              rewrite <- !off_seg in Eq.
              assert (c * T + t = c' * T + t' /\ n = k) as [Eq1 Eq2].
              { apply (off_unique seg); try nia.
                - rewrite seg_len, a0_pair by lia. lia.
                - rewrite seg_len, a0_pair by lia. pose proof (Hc t' c' Ht'' Hc').
                  destruct (Z.eqb_spec t' t) as [->|]; [|lia].
                  rewrite Er in H3. unfold with_key in H3, Hk'. cbn [filter] in H3.
                  destruct (key x =? c'); rewrite ?Zlen_cons in H3; lia. }
              apply addr_inj in Eq1 as [<- <-]; auto.
              rewrite Z.eqb_refl in Hk'. unfold n in Eq2. lia.
           ++ rewrite Er in Es. cbn in Es. injection Es as <- Es.
              apply (G2 t l1); auto. rewrite Hn', Z.eqb_refl by auto. auto.
        -- apply (G2 t' l1); auto. rewrite Hn' by auto.
           destruct (Z.eqb_spec t' t); [contradiction|auto].
      * intros o Ho. rewrite G3.
        -- apply (get_set_other _ _ _ _ _ Eo1). intros ->.
           apply (Ho t c n Ht Hx); auto. rewrite Er. unfold with_key. cbn [filter]. unfold c at 1.
           rewrite Z.eqb_refl, Zlen_cons. fold (with_key key c r). fold n. lia.
        -- intros t' c' k Ht' Hc' Hk'. apply Ho; auto. rewrite Hn' in Hk' by auto.
           destruct (Z.eqb_spec t' t) as [->|]; auto. rewrite Er. unfold with_key in *. cbn [filter].
           destruct (key x =? c'); rewrite ?Zlen_cons; lia.
Qed.

Lemma with_key_rev c (l : list A) : with_key key c (rev l) = rev (with_key key c l).
Proof.
  unfold with_key. induction l as [|x l IH]; cbn; auto.
  rewrite filter_app, IH. cbn. destruct (key x =? c); cbn; auto. now rewrite app_nil_r.
Qed.

Lemma with_key_app c (l r : list A) : with_key key c (l ++ r) = with_key key c l ++ with_key key c r.
Proof. apply filter_app. Qed.

(** An element of the segment comes from a split of the thread's items. *)
Lemma with_key_split c (l : list A) k x :
  get (with_key key c l) k = Some x ->
  exists l1 l2, l = l1 ++ x :: l2 /\ key x = c /\ k = Zlen (with_key key c l1).
Proof.
  revert k. induction l as [|y l IH]; intros k E; cbn in E.
  - now rewrite get_out in E by (unfold Zlen; cbn; lia).
  - destruct (Z.eqb_spec (key y) c) as [Hy|Hy].
    + assert (0 <= k) by (apply get_Some_bounds in E; lia).
      destruct (Z.eq_dec k 0) as [->|].
      * rewrite get_cons_0 in E. injection E as ->. exists [], l. auto.
      * rewrite get_cons_pos in E by lia. destruct (IH _ E) as (l1 & l2 & -> & Hx & Ek).
        exists (y :: l1), l2. repeat split; auto. unfold with_key. cbn [filter].
        rewrite Hy, Z.eqb_refl, Zlen_cons. unfold with_key in Ek. lia.
    + destruct (IH _ E) as (l1 & l2 & -> & Hx & Ek).
      exists (y :: l1), l2. repeat split; auto. unfold with_key. cbn [filter].
      destruct (Z.eqb_spec (key y) c); [contradiction|auto].
Qed.

Lemma sort_by_key_seg : flat seg (K * T) = sort_by_key key K (concat ts).
Proof.
  rewrite flat_nested by lia. unfold sort_by_key. apply flat_ext. intros c Hc.
  rewrite concat_flat, Hts. unfold with_key. rewrite filter_flat.
  apply flat_ext. intros t Ht. unfold seg.
  rewrite Z.div_add_l, Z.div_small by lia.
  rewrite (Z.add_comm (c * T)), Z.mod_add, Z.mod_small by lia. now rewrite Z.add_0_r.
Qed.

Lemma before_keys c : 0 <= c <= K -> before a0 (c * T) = keys_below key c (concat ts).
Proof.
  intros Hc. rewrite <- off_seg.
  assert (forall c, 0 <= c -> off seg (c * T) = off (fun c => with_key key c (concat ts)) c) as G.
  { intros c' Hc'. rewrite <- !Zlen_flat by nia. rewrite flat_nested by lia. f_equal.
    apply flat_ext. intros c0 Hc0. rewrite concat_flat, Hts. unfold with_key. rewrite filter_flat.
    apply flat_ext. intros t0 Ht. unfold seg.
    rewrite Z.div_add_l, Z.div_small by lia.
    rewrite (Z.add_comm (c0 * T)), Z.mod_add, Z.mod_small by lia. now rewrite Z.add_0_r. }
  rewrite G by lia. destruct Hc as [Hc _]. revert c Hc. apply Z_ind0.
  - rewrite off_0, keys_below_0; auto. intros x Hx. apply in_concat in Hx as (l & Hl & Hx).
    specialize (Hkeys l x Hl Hx). lia.
  - intros c Hc IH. rewrite off_S, keys_below_S, IH by lia. auto.
Qed.

(** The whole sort.  Whatever the interleavings and the old contents of the
    arrays: the output starts with the sorted items, the rest of it is
    unchanged, and the counters of thread [t] are the starts of its segments. *)
Theorem counting_sort_ok b0 out0 tr1 tr2 tr3 tr4 :
  K * T <= Zlen b0 -> Zlen (concat ts) <= Zlen out0 ->
  interleave (threads_of (cnt_thread key K) ts) tr1 ->
  interleave (map (scan1_thread K) (zrange 0 T)) tr2 ->
  interleave (map (scan3_thread K) (zrange 0 T)) tr3 ->
  interleave (threads_of (fun t items => place_thread t items) ts) tr4 ->
  exists b out, counting_sort key payload K T tr1 tr2 tr3 tr4 b0 out0 = Some (b, out) /\
    Zlen b = Zlen b0 /\ Zlen out = Zlen out0 /\
    slice out 0 (Zlen (concat ts)) = map payload (sort_by_key key K (concat ts)) /\
    slice out (Zlen (concat ts)) (Zlen out0) = slice out0 (Zlen (concat ts)) (Zlen out0) /\
    (forall c, 0 <= c < K -> get b c = Some (keys_below key c (concat ts))) /\
    (forall t c, 0 <= t < T -> 0 <= c < K -> exists v, get b (t * K + c) = Some v /\ 0 <= v <= Zlen (concat ts)).
Proof.
  intros HL HO H1 H2 H3 H4. unfold counting_sort.
  destruct (counting_scan_ok b0 tr1 tr2 tr3 HL H1 H2 H3) as (b1 & E1 & L1 & G1). rewrite E1.
  assert (before a0 (K * T) = Zlen (concat ts)) as Htot.
  { rewrite before_keys by lia. unfold keys_below. f_equal.
    assert (forall x, In x (concat ts) -> 0 <= key x < K) as Hall.
    { intros x Hx. apply in_concat in Hx as (l & Hl & Hx). eauto. }
    revert Hall. generalize (concat ts). clear. induction l as [|x l IH]; intros H; cbn; auto.
    specialize (H x (or_introl eq_refl)) as Hx. destruct (Z.ltb_spec (key x) K); [|lia].
    f_equal. apply IH. intros; apply H; cbn; auto. }
  set (rest := map (@rev A) ts).
  assert (Zlen rest = T) as Hrl by (unfold rest; now rewrite Zlen_map).
  assert (forall t, 0 <= t < T -> nthl rest t = rev (nthl ts t)) as Hrest.
  { intros t Ht. apply nthl_get. unfold rest. rewrite get_map, (get_nthl ts t) by lia. auto. }
  destruct (place_rest rest (threads_of (fun t items => place_thread t items) ts) tr4 H4 (b1, out0))
    as (b & out & E & L2 & L3 & P1 & P2 & P3).
  - unfold threads_of. rewrite Hts, Hrl. apply map_ext_in. intros t Ht. apply In_zrange in Ht.
    rewrite Hrest by auto. reflexivity.
  - cbn. split; auto. split; [|split; [|split; [|split]]]; try lia.
    + intros t c Ht Hc. rewrite G1 by auto. rewrite Hrest, with_key_rev, Zlen_rev by auto. auto.
    + intros t x Ht. rewrite Hrest by auto. intros Hx. apply in_rev in Hx. now apply (Hkeys' t).
    + intros t c Ht Hc. rewrite Hrest, with_key_rev, Zlen_rev by auto. unfold cnt. lia.
  - cbn [fst snd] in *. exists b, out. split; auto. split; [lia|]. split; auto.
    pose proof (Zlen_nonneg (concat ts)).
    split; [|split; [|split]].
    + rewrite <- sort_by_key_seg, flat_map_f.
      assert (forall i, off (fun i => map payload (seg i)) i = before a0 i) as Hoff.
      { intros i. unfold off. apply before_ext. intros. rewrite Zlen_map. apply seg_len. }
      apply flat_intro; [nia| |].
      * rewrite Zlen_slice by lia. rewrite Hoff. lia.
      * intros i k Hi Hk. rewrite Hoff. rewrite Zlen_map, seg_len in Hk.
        assert (before a0 i + a0 i <= before a0 (K * T)).
        { rewrite <- before_S by lia. apply before_mono; [intros; apply a0_nonneg|lia]. }
        assert (0 <= before a0 i) by (apply before_nonneg; intros; apply a0_nonneg).
        rewrite get_slice by lia. rewrite Z.add_0_l.
        destruct (lin_pair i Hi) as (c & t & Hc & Ht & ->).
        assert (seg (c * T + t) = with_key key c (nthl ts t)) as Eseg.
        { unfold seg. rewrite Z.div_add_l, Z.div_small by lia.
          rewrite (Z.add_comm (c * T)), Z.mod_add, Z.mod_small by lia. now rewrite Z.add_0_r. }
        rewrite Eseg, get_map. rewrite a0_pair in Hk by lia. unfold cnt in Hk.
        destruct (get_in_range (with_key key c (nthl ts t)) k Hk) as (x & Ex). rewrite Ex.
        destruct (with_key_split _ _ _ _ Ex) as (l1 & l2 & El & Hx & Ek).
        specialize (P2 t (rev l2) x (rev l1) Ht).
        rewrite Hrest, El, rev_app_distr in P2 by auto. cbn [rev] in P2.
        rewrite <- app_assoc in P2. specialize (P2 eq_refl).
        rewrite with_key_rev, Zlen_rev, Hx, <- Ek in P2. exact P2.
    + apply list_ext.
      * rewrite !Zlen_slice by lia. lia.
      * intros i Hi. rewrite Zlen_slice in Hi by lia. rewrite !get_slice by lia.
        apply P3. intros t c k Ht Hc Hk Eq. rewrite Hrest, with_key_rev, Zlen_rev in Hk by auto.
        fold (cnt t c) in Hk.
        assert (before a0 (c * T + t) + cnt t c <= before a0 (K * T)).
        { rewrite <- a0_pair by lia. rewrite <- before_S by nia.
          apply before_mono; [intros; apply a0_nonneg|nia]. }
        lia.
    + intros c Hc. specialize (P1 0 c ltac:(lia) Hc). rewrite Z.mul_0_l, Z.add_0_l, Z.add_0_r in P1.
      rewrite P1. now rewrite before_keys by lia.
    + intros t c Ht Hc. rewrite (P1 t c Ht Hc). eexists. split; [reflexivity|]. rewrite <- Htot.
      split; [apply before_nonneg; intros; apply a0_nonneg|]. apply before_mono; [intros; apply a0_nonneg|nia].
Qed.
End Proofs.

(** Two threads, three buckets, junk in the arrays. *)
Example counting_sort_case :
  counting_sort (fun x => x mod 3) (fun x => x) 3 2
    (concat (threads_of (cnt_thread (fun x => x mod 3) 3) [[5;3];[4;1;8]]))
    (concat (map (scan1_thread 3) (zrange 0 2)))
    (concat (map (scan3_thread 3) (zrange 0 2)))
    (concat (threads_of (fun t l => place_thread t l) [[5;3];[4;1;8]]))
    [9;9;9;9;9;9;9;9] [7;7;7;7;7;7]
  = Some ([0;1;3;1;1;4;9;9], [3;4;1;5;8;7]).
Proof. vm_compute. reflexivity. Qed.

(** ** Facts about the specification *)

Lemma flat_insert {A} (f g : Z -> list A) K k a :
  0 <= k < K -> g k = a :: f k -> (forall c, c <> k -> g c = f c) ->
  Permutation (flat g K) (a :: flat f K).
Proof.
  intros Hk H1 H2. assert (0 <= K) as HK by lia. revert Hk. pattern K. revert K HK. apply Z_ind0.
  - lia.
  - intros K HK IH Hk. rewrite !flat_S by lia. destruct (Z.eq_dec K k) as [->|Hne].
    + rewrite H1. rewrite (flat_ext g f) by (intros i Hi; apply H2; lia).
      apply Permutation_sym, Permutation_middle.
    + rewrite (H2 K) by auto. rewrite IH by lia. reflexivity.
Qed.

Lemma sort_by_key_perm {A} (key : A -> Z) K l :
  (forall a, In a l -> 0 <= key a < K) -> Permutation (sort_by_key key K l) l.
Proof.
  unfold sort_by_key. induction l as [|a l IH]; intros H.
  - unfold flat. replace (concat _) with (@nil A); auto. generalize (zrange 0 K). induction l; cbn; auto.
  - rewrite (flat_insert (fun c => with_key key c l) _ K (key a) a).
    + apply perm_skip, IH. intros; apply H; cbn; auto.
    + apply H; cbn; auto.
    + unfold with_key. cbn. now rewrite Z.eqb_refl.
    + intros c Hc. unfold with_key. cbn. destruct (Z.eqb_spec (key a) c); auto. congruence.
Qed.

Lemma flat_push {A} (f g : Z -> list A) K k a :
  0 <= k < K -> g k = a :: f k -> (forall c, c <> k -> g c = f c) -> (forall c, 0 <= c < k -> f c = []) ->
  flat g K = a :: flat f K.
Proof.
  intros Hk H1 H2 H3. assert (0 <= K) as HK by lia. revert Hk. pattern K. revert K HK. apply Z_ind0.
  - lia.
  - intros K HK IH Hk. rewrite !flat_S by lia. destruct (Z.eq_dec K k) as [->|Hne].
    + rewrite H1. rewrite (flat_ext g f) by (intros i Hi; apply H2; lia).
      rewrite (flat_ext f (fun _ => [])) by (intros i Hi; apply H3; lia).
      replace (flat (fun _ => []) k) with (@nil A); auto. unfold flat. generalize (zrange 0 k).
      intros l. induction l; cbn; auto.
    + rewrite (H2 K) by auto. rewrite IH by lia. reflexivity.
Qed.

(** Sorted input is left alone. *)
Lemma sort_by_key_sorted {A} (key : A -> Z) K l :
  (forall a, In a l -> 0 <= key a < K) -> sortedZ (map key l) -> sort_by_key key K l = l.
Proof.
  unfold sort_by_key. induction l as [|a l IH]; intros H Hs.
  - unfold flat. generalize (zrange 0 K). intros l. induction l; cbn; auto.
  - cbn [map] in Hs. inversion Hs as [|? ? Hs' Hf]; subst. rewrite Forall_forall in Hf.
    rewrite (flat_push (fun c => with_key key c l) _ K (key a) a).
    + f_equal. apply IH; auto. intros; apply H; cbn; auto.
    + apply H; cbn; auto.
    + unfold with_key. cbn. now rewrite Z.eqb_refl.
    + intros c Hc. unfold with_key. cbn. destruct (Z.eqb_spec (key a) c); auto. congruence.
    + intros c Hc. unfold with_key. clear - Hf Hc. induction l as [|b l IH]; cbn; auto.
      destruct (Z.eqb_spec (key b) c).
      * specialize (Hf (key b)). cbn in Hf. specialize (Hf (or_introl eq_refl)). lia.
      * apply IH. intros x Hx. apply Hf. cbn; auto.
Qed.

Lemma In_sort_by_key {A} (key : A -> Z) K l a :
  In a (sort_by_key key K l) <-> In a l /\ 0 <= key a < K.
Proof.
  unfold sort_by_key, flat. rewrite in_concat. split.
  - intros (x & Hx & Ha). apply in_map_iff in Hx as (c & <- & Hc). apply In_zrange in Hc.
    apply filter_In in Ha as [Ha E]. split; auto. lia.
  - intros [Ha Hk]. exists (with_key key (key a) l). split.
    + apply (in_map (fun c => with_key key c l)). now apply In_zrange.
    + apply filter_In. split; auto. apply Z.eqb_refl.
Qed.
