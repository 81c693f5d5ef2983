(** * The large components in RCM (reordering/RCM.cpp:77-140, :661-968).

    The components with at least PAR_THR nodes, one after the other, each by all
    threads: the source (RcmSource.v), the parallel search (ParBfs.v), the prefix
    sums of the level sizes (here), the pipelined placement (RcmPipe.v).  With the
    small components of Rcm.v this is the whole of getRCMPermutation.
    Simplified: the maximum of the degrees (:678-681, a reduction) is computed in
    order.  Not modelled: time measurement, the assertion :667, int overflow. *)
From Coq Require Import Permutation Relations.
From Verif Require Import Base Interleave Spec PermUtils Partition Flat Csr CsrOps Levels LevelsMain SplitLU Transpose RowPar UnionFind Components BinIO LevelsCsr BitVector Bfs ParBfs Rcm BfsPerm RcmPipe RcmSource.

(** ** Model *)
(** prefixSumOfLevels with parallel = true and components given, :77-140.
    [who i] is the thread that counts element [i].  A thread counts in its own
    part of local_count (:82, :97; [numLevels] elements, a level outside of it is
    an error).  The omp for ends with a barrier. *)
Section Prefix.
Variables (m T : Z).
(** :88, :96-103 *)
Definition pf_count (who : Z -> Z) (levels comp : list Z) (n t : Z) : option (list Z) :=
  foldM (fun i cnt => v <- get comp i ;; if (0 <=? v) && (v <? m) then x <- get levels v ;; y <- get cnt x ;; set cnt x (y + 1) else None)
        (filter (fun i => who i =? t) (zrange 0 (Zlen comp))) (repeat 0 (Z.to_nat n)).
(** :105-117: local_sum and the stores to prefixSum.  The bounds are those of
    getSimpleThreadPartition. *)
Definition pf_local (cnts : list (list Z)) (n t : Z) : option (Z * list (Z * Z)) :=
  let '(lb, le) := simple_partition n T t in
  forZ lb le (fun l '(sum, out) => xs <- mapM (fun c => get c l) cnts ;; Some (sum + zsum xs, out ++ [(l, sum)])) (0, []).
(** :122-124; the list is local_sum_array[1 ..]. *)
Definition pf_sums (locals : list Z) : option (list Z) :=
  forZ 1 T (fun t a => x <- get a (t - 1) ;; y <- get a t ;; set a t (y + x)) locals.
Definition pf_levels (who : Z -> Z) (s1 s2 : list nat) (levels comp : list Z) (n : Z) (ps : list Z) : option (list Z) :=
  cnts <- mapM (pf_count who levels comp n) (zrange 0 T) ;;
  locals <- mapM (pf_local cnts n) (zrange 0 T) ;;
  ps <- par s1 (fun '(l, v) ps => set ps l v) (map snd locals) ps ;;
  sums <- pf_sums (map fst locals) ;;
  last <- get sums (T - 1) ;;
  assert! (last =? Zlen comp) ;;
  ps <- set ps n (Zlen comp) ;;
  adds <- mapM (fun t => if 0 <? t then x <- get sums (t - 1) ;; let '(lb, le) := simple_partition n T t in Some (map (fun l => (l, x)) (zrange lb le)) else Some []) (zrange 0 T) ;;
  par s2 (fun '(l, x) ps => y <- get ps l ;; set ps l (y + x)) adds ps.
End Prefix.

(** What happens while a large component is handled. *)
Record lg_exec := mkLX {
  lx_min : Z -> Z;                                  (* the thread of an element in getMinDegreeNode *)
  lx_sel : nat -> sel_exec * (nat -> sel_exec);     (* the searches of the selection *)
  lx_bits : list nat;                               (* initializeBitVector *)
  lx_bfs : nat -> list nat; lx_junk : list (list Z);  (* the search, old contents of rowptrs *)
  lx_cnt : Z -> Z; lx_ps1 : list nat; lx_ps2 : list nat;  (* prefixSumOfLevels *)
  lx_wo : list nat;                                 (* the stores to write_offset *)
  lx_sched : list Z }.                              (* the steps of the placement *)
(** The memory that lives across components. *)
Record lg_mem := mkLM { lg_levels : list Z; lg_perm : list Z; lg_inv : list Z; lg_bv : list Z; lg_ps : list Z; lg_wo : list Z }.
(** The steps given may end before all threads are through the placement. *)
Inductive ran (X : Type) := Finished (x : X) | Waiting.
Arguments Finished {X}. Arguments Waiting {X}.
Definition is_done (pc : pl_pc) : bool := match pc with PDone => true | _ => false end.

Section Model.
Context {V : Type}.
Variable A : csr V.
Variable T : Z.
Variable srt : list Z -> list Z.
Variable pd : bool.

(** :678-681 *)
Definition max_degree : option Z := forZ 0 (cm A) (fun i mx => d <- sel_deg A i ;; Some (Z.max mx d)) 0.

(** :847-939, one component with the root [i], its nodes [comp], their first
    position [offset]. *)
Definition large_comp (maxDegree : Z) (x : lg_exec) (i offset : Z) (comp : list Z) (s : lg_mem) : option (ran lg_mem) :=
  ' (source, bv) <- (if pd then selectSources A T (lx_min x) (lx_sel x) comp (lg_bv s) else Some (i, lg_bv s)) ;;
  assert! (0 <=? source) && (source <? cm A) ;;
  bv <- init_bits A (lx_bits x) comp bv ;;
  r <- bfs_par A 0 T true false None (lx_bfs x) source (lg_levels s) bv [] 0 (lx_junk x) ;;
  let n := pb_levels_n r in
  ps <- pf_levels (cm A) T (lx_cnt x) (lx_ps1 x) (lx_ps2 x) (pb_levels r) comp n (lg_ps s) ;;
  ' (y, pcs) <- pl_place A T srt n offset maxDegree (slice ps 0 (n + 1)) source (lx_wo x) (lx_sched x) (pb_levels r) (lg_perm s) (lg_inv s) (lg_wo s) ;;
  Some (if forallb is_done pcs then Finished (mkLM (pl_levels y) (pl_perm y) (pl_inv y) (pb_bv r) ps (pl_wo y)) else Waiting).

(** :844-939 *)
Definition large_step (maxDegree : Z) (cc : cc_result) (ex : Z -> lg_exec) (c : Z) (s : ran lg_mem) : option (ran lg_mem) :=
  match s with
  | Waiting => Some Waiting
  | Finished s =>
      i <- get (cc_roots cc) c ;; offset <- get (cc_starts cc) c ;; size <- get (cc_sizes cc) c ;;
      if size <? PAR_THR then Some (Finished s)
      else comp <- mapM (fun k => get (cc_nodes cc) (offset + k)) (zrange 0 size) ;; large_comp maxDegree (ex c) i offset comp s
  end.
Definition rcm_large (maxDegree : Z) (cc : cc_result) (ex : Z -> lg_exec) (s : lg_mem) : option (ran lg_mem) :=
  forZ 0 (cc_n cc) (large_step maxDegree cc ex) (Finished s).
End Model.

(** :661-968.  [levels], [perm], [inv], [ps], [wo], [bj] are the previous contents
    of the arrays. *)
Definition getRCM {V} (A : csr V) (T : Z) (srt : list Z -> list Z) (pd : bool) (s1 s2 : nat -> list nat) (us cs : list Z) (csch : nat -> list nat) (j : cc_junk)
  (bsch : list nat) (bj : list Z) (who : Z -> Z) (sch : list nat) (ex : Z -> lg_exec) (levels perm inv ps wo : list Z) : option (ran (csr V * list Z * list Z)) :=
  if cm A =? cn A then
    base <- getBase A ;;
    A0 <- make0Based A s1 ;;
    maxDegree <- max_degree A0 ;;
    bv <- bv_new bsch bj (cm A0) ;;
    ' (_, _, cc) <- cc_run A0 T us cs csch j ;;
    ' (levels, perm, inv) <- rcm_small A0 T srt cc who sch (levels, perm, inv) ;;
    r <- rcm_large A0 T srt pd maxDegree cc ex (mkLM levels perm inv bv ps wo) ;;
    match r with
    | Waiting => Some Waiting
    | Finished s => A1 <- (if 1 =? base then make1Based A0 s2 else Some A0) ;; Some (Finished (A1, lg_perm s, lg_inv s))
    end
  else None.

(** ** The prefix sums *)
Lemma filter_map_comm {X Y} (p : Y -> bool) (f : X -> Y) l : filter p (map f l) = map f (filter (fun x => p (f x)) l).
Proof. induction l as [|a l IH]; auto. cbn [map filter]. destruct (p (f a)); cbn [map]; congruence. Qed.
Lemma list_as_map (l : list Z) d : l = map (fun i => match get l i with Some v => v | None => d end) (zrange 0 (Zlen l)).
Proof.
  apply list_ext; [rewrite Zlen_map, Zlen_zrange; pose proof (Zlen_nonneg l); lia|]. intros i Hi. rewrite get_map, get_zrange by lia. cbn [option_map]. rewrite Z.add_0_l. destruct (get_in_range l i Hi) as (v & ->). reflexivity.
Qed.
(** Adding to each of some distinct elements. *)
Lemma rmw_all (l : list (Z * Z)) : forall w, NoDup (map fst l) -> (forall p x, In (p, x) l -> 0 <= p < Zlen w) ->
  exists w', foldM (fun '(p, x) w => y <- get w p ;; set w p (y + x)) l w = Some w' /\ Zlen w' = Zlen w /\
    (forall p x y, In (p, x) l -> get w p = Some y -> get w' p = Some (y + x)) /\ forall p, ~ In p (map fst l) -> get w' p = get w p.
Proof.
  induction l as [|(p & x) l IH]; intros w N B.
  - exists w. split; auto. split; auto. split; auto. intros p x y [].
  - cbn [map fst] in N. inversion N as [|p' l' N1 N2 E1]. subst. cbn [foldM]. destruct (get_in_range w p (B p x (or_introl eq_refl))) as (y & Ey). rewrite Ey. destruct (set_ok w p (y + x) (B p x (or_introl eq_refl))) as (w1 & E). rewrite E. pose proof (set_len _ _ _ _ E) as L1.
    destruct (IH w1 N2) as (w' & E' & L' & G1 & G2); [intros q z H; rewrite L1; apply (B q z); now right|]. exists w'. split; auto. split; [lia|]. split.
    + intros q z y' [H|H] Gq.
      * injection H as -> ->. rewrite G2 by auto. rewrite (get_set_same _ _ _ _ E). congruence.
      * apply G1; auto. rewrite (get_set_other _ _ _ _ _ E); auto. intros Eq. apply N1. rewrite Eq || rewrite <- Eq. now apply (in_map fst) in H.
    + intros q Hq. cbn [map fst In] in Hq. rewrite G2 by tauto. apply (get_set_other _ _ _ _ _ E). intros Eq. apply Hq. left. congruence.
Qed.

Section Prefix.
Variables (m T n : Z) (g levels : list Z) (lev : Z -> Z) (who : Z -> Z).
Hypothesis HT : 1 <= T.
Hypothesis Hn : 0 <= n.
Hypothesis Hg : forall v, In v g -> 0 <= v < m /\ get levels v = Some (lev v) /\ 0 <= lev v < n.
Hypothesis Hw : forall i, 0 <= who i < T.
Let levi (i : Z) : Z := lev (match get g i with Some v => v | None => 0 end).
Let idx := zrange 0 (Zlen g).
Let below (l : Z) : Z := Zlen (filter (fun i => levi i <? l) idx).
Let b := simple_boundary n T.

Lemma pf_below l : below l = Zlen (filter (fun v => lev v <? l) g).
Proof. transitivity (Zlen (filter (fun v => lev v <? l) (map (fun i => match get g i with Some v => v | None => 0 end) idx))); [now rewrite filter_map_comm, Zlen_map|]. unfold idx. now rewrite <- list_as_map. Qed.
Lemma pf_below_0 : below 0 = 0.
Proof. rewrite pf_below. rewrite filter_none; [reflexivity|]. intros v Hv. apply Hg in Hv. lia. Qed.
Lemma pf_below_n : below n = Zlen g.
Proof. rewrite pf_below. f_equal. assert (H : forall l, (forall v, In v l -> In v g) -> filter (fun v => lev v <? n) l = l); [|now apply H]. induction l as [|v l IH]; intros H; auto. cbn [filter]. rewrite IH by (intros; apply H; now right). replace (lev v <? n) with true; auto. specialize (Hg v (H v (or_introl eq_refl))). lia. Qed.
Lemma pf_tot l : below (l + 1) = below l + Zlen (filter (fun i => levi i =? l) idx).
Proof. apply Zlen_filter_split. intros i _. lia. Qed.
Lemma pf_threads (P : Z -> bool) L k : 0 <= k -> zsum (map (fun t => Zlen (filter P (filter (fun i => who i =? t) L))) (zrange 0 k)) = Zlen (filter P (filter (fun i => who i <? k) L)).
Proof.
  intros Hk. pattern k. revert k Hk. apply Z_ind0.
  - rewrite (filter_none (fun i => who i <? 0)); [reflexivity|]. intros i _. specialize (Hw i). lia.
  - intros k Hk IH. rewrite zrange_snoc, map_app, zsum_app, IH by lia. cbn [map zsum fold_right]. rewrite Z.add_0_r. clear IH. induction L as [|i L IHL]; auto. cbn [filter]. destruct (Z.ltb_spec (who i) (k + 1)), (Z.ltb_spec (who i) k), (Z.eqb_spec (who i) k); try lia; cbn [filter]; destruct (P i); rewrite ?Zlen_cons; lia.
Qed.

Lemma pf_count_from L : (forall i, In i L -> 0 <= i < Zlen g) -> forall cnt f, Zlen cnt = n -> (forall l, 0 <= l < n -> get cnt l = Some (f l)) ->
  exists cnt', foldM (fun i cnt => v <- get g i ;; if (0 <=? v) && (v <? m) then x <- get levels v ;; y <- get cnt x ;; set cnt x (y + 1) else None) L cnt = Some cnt' /\
    Zlen cnt' = n /\ forall l, 0 <= l < n -> get cnt' l = Some (f l + Zlen (filter (fun i => levi i =? l) L)).
Proof.
  induction L as [|i L IH]; intros HL cnt f Lc Hf.
  - exists cnt. split; auto. split; auto. intros l Hl. rewrite Hf by auto. f_equal. change (Zlen (filter (fun i => levi i =? l) [])) with 0. lia.
  - cbn [foldM]. destruct (get_in_range g i (HL i (or_introl eq_refl))) as (v & Ev). rewrite Ev. destruct (Hg v (get_In _ _ _ Ev)) as (B1 & E1 & B2). replace ((0 <=? v) && (v <? m)) with true by lia. rewrite E1, Hf by auto. destruct (set_ok cnt (lev v) (f (lev v) + 1) ltac:(lia)) as (c1 & E). rewrite E.
    assert (Ei : levi i = lev v) by (unfold levi; now rewrite Ev).
    destruct (IH (fun j Hj => HL j (or_intror Hj)) c1 (fun l => f l + if levi i =? l then 1 else 0)) as (c' & E' & L' & G').
    + rewrite (set_len _ _ _ _ E). auto.
    + intros l Hl. rewrite (get_set _ _ _ _ _ E). rewrite Ei. destruct (Z.eqb_spec l (lev v)) as [->|N]; [now rewrite Z.eqb_refl|]. replace (lev v =? l) with false by lia. rewrite Hf by auto. f_equal. lia.
    + exists c'. split; auto. split; auto. intros l Hl. rewrite G' by auto. f_equal. cbn [filter]. destruct (levi i =? l); rewrite ?Zlen_cons; lia.
Qed.
Let cnt_of (t l : Z) : Z := Zlen (filter (fun i => levi i =? l) (filter (fun i => who i =? t) idx)).
Lemma pf_count_ok t : exists c, pf_count m who levels g n t = Some c /\ forall l, 0 <= l < n -> get c l = Some (cnt_of t l).
Proof.
  destruct (pf_count_from (filter (fun i => who i =? t) idx)) with (cnt := repeat 0 (Z.to_nat n)) (f := fun _ : Z => 0) as (c & E & _ & G).
  - intros i Hi. apply filter_In in Hi as (Hi & _). now apply In_zrange in Hi.
  - rewrite Zlen_repeat. lia.
  - intros l Hl. destruct (get_in_range (repeat 0 (Z.to_nat n)) l ltac:(rewrite Zlen_repeat; lia)) as (x & Ex). rewrite Ex. now apply get_In, repeat_spec in Ex as ->.
  - exists c. split; auto.
Qed.
Lemma pf_counts_ok : exists cnts, mapM (pf_count m who levels g n) (zrange 0 T) = Some cnts /\ forall l, 0 <= l < n -> exists xs, mapM (fun c => get c l) cnts = Some xs /\ zsum xs = Zlen (filter (fun i => levi i =? l) idx).
Proof.
  destruct (mapM_ex (pf_count m who levels g n) (zrange 0 T)) as (cnts & E); [intros t _; destruct (pf_count_ok t) as (c & Ec & _); eauto|]. exists cnts. split; auto. intros l Hl.
  assert (H : forall k, 0 <= k -> forall cs, mapM (pf_count m who levels g n) (zrange 0 k) = Some cs -> mapM (fun c => get c l) cs = Some (map (fun t => cnt_of t l) (zrange 0 k))).
  { intros k Hk cs Ecs. assert (Lc : Zlen cs = k). { apply mapM_length in Ecs. unfold Zlen. rewrite Ecs. change (Zlen (zrange 0 k) = k). rewrite Zlen_zrange. lia. }
    apply (f_equal Some) in Ecs. assert (G : forall c, In c cs -> exists t, 0 <= t < k /\ get c l = Some (cnt_of t l)).
    { intros c Hc. apply In_get in Hc as (t & Ht & G). exists t. split; [lia|]. injection Ecs as Ecs. pose proof (mapM_get _ _ _ t t Ecs ltac:(rewrite get_zrange by lia; f_equal; lia)) as X. destruct (pf_count_ok t) as (c' & E1 & E2). rewrite G, E1 in X. injection X as ->. auto. }
    destruct (mapM_ex (fun c => get c l) cs) as (xs & Ex); [intros c Hc; destruct (G c Hc) as (t & _ & ->); eauto|]. rewrite Ex. f_equal.
    assert (Lx : Zlen xs = k) by (apply mapM_length in Ex; unfold Zlen in *; lia).
    apply list_ext; [rewrite Zlen_map, Zlen_zrange; lia|]. intros t Ht. rewrite get_map, get_zrange by lia. cbn [option_map]. rewrite Z.add_0_l. injection Ecs as Ecs. destruct (pf_count_ok t) as (c & E1 & E2). pose proof (mapM_get _ _ _ t t Ecs ltac:(rewrite get_zrange by lia; f_equal; lia)) as X. rewrite E1 in X. pose proof (mapM_get _ _ _ t c Ex X) as Y. cbv beta in Y. rewrite Y. auto. }
  exists (map (fun t => cnt_of t l) (zrange 0 T)). split; [apply H; auto; lia|]. unfold cnt_of. rewrite pf_threads by lia. f_equal. f_equal.
  assert (X : forall L, filter (fun i => who i <? T) L = L); [|apply X]. induction L as [|i L IH]; auto. cbn [filter]. specialize (Hw i). replace (who i <? T) with true by lia. now rewrite IH.
Qed.

Let outs (t : Z) : list (Z * Z) := map (fun l => (l, below l - below (b t))) (zrange (b t) (b (t + 1))).
Lemma pf_b t : 0 <= t < T -> 0 <= b t <= b (t + 1) /\ b (t + 1) <= n.
Proof.
  intros Ht. pose proof (simple_boundary_mono n T t Hn HT ltac:(lia)). unfold b. split; [split; auto|]; unfold simple_boundary in *; [|lia]. assert (0 <= (n + T - 1) / T) by (apply Z.div_pos; lia). nia.
Qed.
Lemma pf_local_ok cnts t : 0 <= t < T -> (forall l, 0 <= l < n -> exists xs, mapM (fun c => get c l) cnts = Some xs /\ zsum xs = Zlen (filter (fun i => levi i =? l) idx)) ->
  pf_local T cnts n t = Some (below (b (t + 1)) - below (b t), outs t).
Proof.
  intros Ht HC. unfold pf_local. rewrite simple_partition_boundary by lia. fold b. pose proof (pf_b t Ht) as Hb.
  destruct (forZ_rule (fun l '(sum, out) => sum = below l - below (b t) /\ out = map (fun l => (l, below l - below (b t))) (zrange (b t) l)) (b t) (b (t + 1)) (fun l '(sum, out) => xs <- mapM (fun c => get c l) cnts ;; Some (sum + zsum xs, out ++ [(l, sum)])) (0, [])) as ((sum & out) & E & E1 & E2); try lia.
  - split; [lia|]. rewrite zrange_nil by lia. reflexivity.
  - intros l (sum & out) Hl (-> & ->). destruct (HC l ltac:(lia)) as (xs & Ex & Sx). rewrite Ex. eexists. split; [reflexivity|]. rewrite pf_tot, Sx. split; [lia|]. rewrite zrange_snoc, map_app by lia. reflexivity.
  - rewrite E, E1, E2. reflexivity.
Qed.
Lemma pf_owner l : 0 <= l < n -> exists t, 0 <= t < T /\ b t <= l < b (t + 1).
Proof.
  intros Hl. assert (H : forall k, 0 <= k -> k <= T -> l < b k -> exists t, 0 <= t < k /\ b t <= l < b (t + 1)).
  { intros k Hk. pattern k. revert k Hk. apply Z_ind0; [intros _ H; unfold b in H; rewrite simple_boundary_0 in H; lia|]. intros k Hk IH Hk1 H. destruct (Z_lt_ge_dec l (b k)) as [L|L].
    - destruct IH as (t & Ht & B); auto; [lia|]. exists t. split; [lia|]. auto.
    - exists k. split; lia. }
  apply (H T); try lia. unfold b. rewrite simple_boundary_last by lia. lia.
Qed.
Lemma pf_owner_unique l t t' : 0 <= t < T -> 0 <= t' < T -> b t <= l < b (t + 1) -> b t' <= l < b (t' + 1) -> t = t'.
Proof.
  intros Ht Ht' B B'. destruct (Z.eq_dec t t') as [|N]; auto. exfalso. apply (tiling_disjoint b T t t' l l); auto. intros x Hx. now apply pf_b.
Qed.
Lemma pf_sums_ok : exists sums, pf_sums T (map (fun t => below (b (t + 1)) - below (b t)) (zrange 0 T)) = Some sums /\ forall t, 0 <= t < T -> get sums t = Some (below (b (t + 1))).
Proof.
  unfold pf_sums. destruct (forZ_rule (fun k a => Zlen a = T /\ forall t, 0 <= t < T -> get a t = Some (if t <? k then below (b (t + 1)) else below (b (t + 1)) - below (b t))) 1 T (fun t a => x <- get a (t - 1) ;; y <- get a t ;; set a t (y + x)) (map (fun t => below (b (t + 1)) - below (b t)) (zrange 0 T))) as (a & E & La & Ha); try lia.
  - rewrite Zlen_map, Zlen_zrange. split; [lia|]. intros t Ht. rewrite get_map, get_zrange by lia. cbn [option_map]. rewrite Z.add_0_l. destruct (Z.ltb_spec t 1); auto. replace t with 0 by lia. f_equal. replace (b 0) with 0 by (symmetry; now apply simple_boundary_0). rewrite pf_below_0. lia.
  - intros k a Hk (La & Ha). rewrite (Ha (k - 1)), (Ha k) by lia. replace (k - 1 <? k) with true by lia. replace (k <? k) with false by lia. replace (k - 1 + 1) with k by lia. destruct (set_ok a k (below (b (k + 1)) - below (b k) + below (b k)) ltac:(lia)) as (a' & E). exists a'. split; auto. split; [rewrite (set_len _ _ _ _ E); auto|].
    intros t Ht. rewrite (get_set _ _ _ _ _ E). destruct (Z.eqb_spec t k) as [->|N]; [replace (k <? k + 1) with true by lia; f_equal; lia|]. rewrite Ha by auto. destruct (Z.ltb_spec t k), (Z.ltb_spec t (k + 1)); auto; lia.
  - exists a. split; auto. intros t Ht. rewrite Ha by auto. now replace (t <? T) with true by lia.
Qed.
Let adds (t : Z) : list (Z * Z) := if 0 <? t then map (fun l => (l, below (b t))) (zrange (b t) (b (t + 1))) else [].
Lemma pf_adds_fst : NoDup (map fst (concat (map adds (zrange 0 T)))).
Proof.
  assert (H : forall k, 0 <= k -> k <= T -> map fst (concat (map adds (zrange 0 k))) = if 0 <? k then zrange (b 1) (b k) else []).
  { intros k Hk. pattern k. revert k Hk. apply Z_ind0; [reflexivity|]. intros k Hk IH Hk1. rewrite zrange_snoc, map_app, concat_app, map_app, IH by lia. replace (0 <? k + 1) with true by lia. cbn [map concat]. rewrite app_nil_r. unfold adds. destruct (Z.ltb_spec 0 k).
    - rewrite map_map. cbn [fst]. rewrite map_id. symmetry. apply zrange_app. split; [|apply pf_b; lia].
      assert (M : forall j, 0 <= j -> 1 + j <= T -> b 1 <= b (1 + j)). { intros j Hj. pattern j. revert j Hj. apply Z_ind0; [rewrite Z.add_0_r; lia|]. intros j Hj IHj B. pose proof (pf_b (1 + j) ltac:(lia)) as Q. replace (1 + (j + 1)) with (1 + j + 1) by lia. specialize (IHj ltac:(lia)). lia. }
      specialize (M (k - 1) ltac:(lia) ltac:(lia)). now replace (1 + (k - 1)) with k in M by lia.
    - replace k with 0 by lia. cbn [map app]. change (0 + 1) with 1. rewrite zrange_nil by lia. reflexivity. }
  rewrite H by lia. destruct (0 <? T); [|apply NoDup_nil]. apply NoDup_from_get. intros i j v Gi Gj. pose proof (get_Some_bounds _ _ _ Gi) as Bi. pose proof (get_Some_bounds _ _ _ Gj) as Bj. rewrite Zlen_zrange in Bi, Bj. rewrite get_zrange in Gi, Gj by lia. injection Gi as Gi. injection Gj as Gj. lia.
Qed.

Theorem pf_levels_ok s1 s2 psa : n + 1 <= Zlen psa -> exists psa', pf_levels m T who s1 s2 levels g n psa = Some psa' /\ Zlen psa' = Zlen psa /\
  forall l, 0 <= l <= n -> get psa' l = Some (Zlen (filter (fun v => lev v <? l) g)).
Proof.
  intros HL. unfold pf_levels. destruct pf_counts_ok as (cnts & Ec & HC). rewrite Ec.
  rewrite (mapM_Some _ (fun t => (below (b (t + 1)) - below (b t), outs t))) by (intros t Ht; apply In_zrange in Ht; now apply pf_local_ok). rewrite !map_map. cbn [fst snd].
  assert (Ho : forall p v, In (p, v) (merge s1 (map outs (zrange 0 T))) <-> exists t, 0 <= t < T /\ b t <= p < b (t + 1) /\ v = below p - below (b t)).
  { intros p v. rewrite In_merge. split.
    - intros (l & Hl & H). apply in_map_iff in Hl as (t & <- & Ht). apply In_zrange in Ht. unfold outs in H. apply in_map_iff in H as (l & E & Hl). injection E as <- <-. apply In_zrange in Hl. eauto.
    - intros (t & Ht & B & ->). exists (outs t). split; [apply in_map, In_zrange; auto|]. apply in_map_iff. exists p. split; auto. now apply In_zrange. }
  destruct (write_all (fun '(l, v) ps => set ps l v) fst snd (merge s1 (map outs (zrange 0 T))) psa) as (ps1 & E1 & L1 & G1 & G1').
  { intros (p & v) w _ _. reflexivity. }
  { intros (p & v) H. apply Ho in H as (t & Ht & B & _). cbn [fst]. pose proof (pf_b t Ht). lia. }
  { intros (p & v) (p' & v') H H' E. cbn [fst snd] in *. subst p'. apply Ho in H as (t & Ht & B & ->). apply Ho in H' as (t' & Ht' & B' & ->). now rewrite (pf_owner_unique p t t'). }
  match goal with |- context [par s1 ?f ?ts psa] => change (par s1 f ts psa) with (foldM (fun '(l, v) (ps : list Z) => set ps l v) (merge s1 (map outs (zrange 0 T))) psa) end. rewrite E1. destruct pf_sums_ok as (sums & Es & Hs). rewrite Es, (Hs (T - 1)) by lia. replace (T - 1 + 1) with T by lia. assert (Eb : b T = n) by now apply simple_boundary_last. rewrite Eb, pf_below_n, Z.eqb_refl.
  destruct (set_ok ps1 n (Zlen g) ltac:(lia)) as (ps2 & E2). rewrite E2.
  rewrite (mapM_Some _ adds).
  2:{ intros t Ht. apply In_zrange in Ht. unfold adds. destruct (Z.ltb_spec 0 t); auto. rewrite Hs by lia. rewrite simple_partition_boundary by lia. replace (t - 1 + 1) with t by lia. reflexivity. }
  unfold par. assert (Ha : forall p x, In (p, x) (merge s2 (map adds (zrange 0 T))) <-> exists t, 0 < t < T /\ b t <= p < b (t + 1) /\ x = below (b t)).
  { intros p v. rewrite In_merge. split.
    - intros (l & Hl & H). apply in_map_iff in Hl as (t & <- & Ht). apply In_zrange in Ht. unfold adds in H. destruct (Z.ltb_spec 0 t); [|contradiction]. apply in_map_iff in H as (l & E & Hl). injection E as <- <-. apply In_zrange in Hl. exists t. split; [lia|]. auto.
    - intros (t & Ht & B & ->). exists (adds t). split; [apply in_map, In_zrange; lia|]. unfold adds. replace (0 <? t) with true by lia. apply in_map_iff. exists p. split; auto. now apply In_zrange. }
  destruct (rmw_all (merge s2 (map adds (zrange 0 T))) ps2) as (ps3 & E3 & L3 & G3 & G3').
  { eapply Permutation_NoDup; [|apply pf_adds_fst]. apply Permutation_map, Permutation_sym, merge_perm. }
  { intros p x H. apply Ha in H as (t & Ht & B & _). pose proof (pf_b t ltac:(lia)). rewrite (set_len _ _ _ _ E2). lia. }
  exists ps3. split; [exact E3|]. pose proof (set_len _ _ _ _ E2) as L2. split; [lia|]. intros l Hl. rewrite <- pf_below. destruct (Z.eq_dec l n) as [->|N].
  - rewrite G3'; [rewrite (get_set_same _ _ _ _ E2), pf_below_n; reflexivity|]. intros H. apply in_map_iff in H as ((p & x) & E & H). cbn [fst] in E. subst p. apply Ha in H as (t & Ht & B & _). pose proof (pf_b t ltac:(lia)). lia.
  - destruct (pf_owner l ltac:(lia)) as (t & Ht & B). assert (Q1 : get ps2 l = Some (below l - below (b t))). { rewrite (get_set_other _ _ _ _ _ E2) by auto. apply (G1 (l, below l - below (b t))). apply Ho. eauto. }
    destruct (Z.eq_dec t 0) as [->|Nt].
    + rewrite G3'; [rewrite Q1; f_equal; replace (b 0) with 0 by (symmetry; now apply simple_boundary_0); rewrite pf_below_0; lia|]. intros H. apply in_map_iff in H as ((p & x) & E & H). cbn [fst] in E. subst p. apply Ha in H as (t & Ht' & B' & _). pose proof (pf_owner_unique l 0 t Ht ltac:(lia) B B'). lia.
    + rewrite (G3 l (below (b t)) (below l - below (b t))); [f_equal; lia| |auto]. apply Ha. exists t. split; [lia|]. auto.
Qed.
End Prefix.

(** ** One large component *)
Definition with_sched (x : lg_exec) (sched : list Z) : lg_exec :=
  mkLX (lx_min x) (lx_sel x) (lx_bits x) (lx_bfs x) (lx_junk x) (lx_cnt x) (lx_ps1 x) (lx_ps2 x) (lx_wo x) sched.
Definition lx_ok (T : Z) (x : lg_exec) : Prop :=
  (forall i, 0 <= lx_min x i < T) /\ (forall k, exec_ok T (fst (lx_sel x k)) /\ forall j, exec_ok T (snd (lx_sel x k) j)) /\ Zlen (lx_junk x) = T - 1 /\ (forall i, 0 <= lx_cnt x i < T) /\ (forall t, In t (lx_sched x) -> 0 <= t < T).

Lemma pl_step_wo {V} (A : csr V) T srt n offset mx ps t s pcs s' pcs' : pl_step A T srt n offset mx ps t (s, pcs) = Some (s', pcs') -> Zlen (pl_wo s') = Zlen (pl_wo s).
Proof.
  unfold pl_step. destruct (get pcs t) as [pc|]; [|discriminate]. destruct (pl_step1 A T srt n offset mx ps s pc) as [(s1 & pc')|] eqn:E; [|discriminate]. destruct (set pcs t pc'); [|discriminate]. intros H. injection H as -> _.
  destruct pc as [l0|l0 r0|l0 r0|l0 r0|l0 r0 u0 j0 ch0|l0 r0 u0 j0 v0 ch0|l0 r0 c0|l0 r0 w0 [|v0 c0]|l0 r0 w0 v0 c0|l0 r0 w0 c0|]; cbn [pl_step1] in E;
    repeat match type of E with
    | (match ?e with Some _ => _ | None => _ end) = _ => let H := fresh in destruct e eqn:H; [|discriminate E]
    | (if ?e then _ else _) = _ => destruct e; [|try discriminate E]
    end; try discriminate E; injection E as <- _; auto. cbn [pl_wo]. eapply set_len; eauto.
Qed.
Lemma pl_place_wo {V} (A : csr V) T srt n offset mx ps src sch sched levels perm inv wo y pcs : pl_place A T srt n offset mx ps src sch sched levels perm inv wo = Some (y, pcs) -> Zlen (pl_wo y) = Zlen wo.
Proof.
  unfold pl_place. destruct (rcm_place A offset src (perm, inv)) as [(p1 & i1)|]; [|discriminate]. destruct (pl_offsets T n offset ps sch wo) as [wo1|] eqn:E1; [|discriminate]. unfold pl_run. intros E.
  assert (L1 : Zlen wo1 = Zlen wo).
  { unfold pl_offsets in E1. destruct (mapM _ _) as [ts|]; [|discriminate]. unfold par in E1. revert wo E1. generalize (merge sch ts). induction l as [|(p & v) l IH]; intros wo E1; [injection E1 as ->; auto|]. cbn [foldM] in E1. destruct (set wo p v) as [w|] eqn:Ew; [|discriminate]. rewrite <- (set_len _ _ _ _ Ew). now apply IH. }
  rewrite <- L1. clear L1 E1 wo. change wo1 with (pl_wo (mkPL levels p1 i1 wo1)). revert E. generalize (mkPL levels p1 i1 wo1), (map PLevel (zrange 0 T)). induction sched as [|t sched IH]; intros s p E; [injection E as -> _; auto|]. cbn [foldM] in E. destruct (pl_step A T srt n offset mx ps t (s, p)) as [(s1 & p2)|] eqn:Es; [|discriminate]. rewrite <- (pl_step_wo _ _ _ _ _ _ _ _ _ _ _ _ Es). eapply IH; eauto.
Qed.

Section Large.
Context {V : Type}.
Variables (A : csr V) (hasv : bool) (rows : rows_t V).
Let m := Zlen rows.
Let adj := cols_of rows.
Let deg := degree rows.
Hypothesis HR : rep hasv 0 m rows A.
Hypothesis HK : rows_ok m rows.
Hypothesis HSym : symmetric_adj adj.
Hypothesis ND : forall u, NoDup (adj u).
Variables (T : Z) (srt : list Z -> list Z) (pd : bool).
Hypothesis HT : 1 <= T.
Hypothesis Hbig : T * m < INT_MAX.
Hypothesis Hm2 : 2 <= T * m.
Hypothesis HS : sorts_by deg srt.
Variable mx : Z.
Hypothesis Hmx : forall u, Zlen (adj u) <= mx.

Definition lg_ok (s : lg_mem) : Prop :=
  Zlen (lg_levels s) = m /\ Zlen (lg_perm s) = m /\ Zlen (lg_inv s) = m /\ m <= Zlen (lg_bv s) /\ m + 1 <= Zlen (lg_ps s) /\ Zlen (lg_wo s) = m + 1.

Lemma deg_lt u : degree rows u < INT_MAX.
Proof.
  assert (Zlen (adj u) <= m) by (apply (NoDup_bounded m); [apply Zlen_nonneg|apply ND|]; intros v Hv; apply (adj_range rows HK u v Hv)).
  unfold degree. unfold adj, cols_of in H. rewrite Zlen_map in H. pose proof (Zlen_nonneg rows). fold m in H0. nia.
Qed.

Section Comp.
Variables (i offset : Z) (g : list Z) (s : lg_mem).
Hypothesis Hi : In i g.
Hypothesis Hrange : forall v, In v g -> 0 <= v < m.
Hypothesis Hg : forall a v, In a g -> (In v g <-> reach adj a v).
Hypothesis Ng : NoDup g.
Hypothesis Ho : 0 <= offset /\ offset + Zlen g <= m.
Hypothesis Hs : lg_ok s.
Hypothesis Hclear : all_clear g (lg_bv s).
Hypothesis Hroom : pd = true -> cand_room adj m T g.

Definition src_ok (src : Z) : Prop := In src g /\ (if pd then pseudo_peripheral adj src else src = i).

Lemma large_setup x : (forall a n, In a g -> bfs_depth adj a n -> n + 2 <= Zlen (lg_ps s)) -> lx_ok T x -> exists src n levels bv ps,
  (forall sched, large_comp A T srt pd mx (with_sched x sched) i offset g s =
    (' (y, pcs) <- pl_place A T srt n offset mx (slice ps 0 (n + 1)) src (lx_wo x) sched levels (lg_perm s) (lg_inv s) (lg_wo s) ;;
     Some (if forallb is_done pcs then Finished (mkLM (pl_levels y) (pl_perm y) (pl_inv y) bv ps (pl_wo y)) else Waiting))) /\
  src_ok src /\ bfs_depth adj src (n - 1) /\ (forall v k, dist adj src v k -> get levels v = Some k) /\ Zlen (slice ps 0 (n + 1)) = n + 1 /\ counts rows src (slice ps 0 (n + 1)) /\ Zlen levels = m /\
  same_out g (lg_bv s) bv /\ Zlen ps = Zlen (lg_ps s).
Proof.
  intros Hps (X1 & X2 & X3 & X4 & _). pose proof Hs as (L1 & L2 & L3 & L4 & L5 & L6). unfold large_comp. cbn [lx_min lx_sel lx_bits lx_bfs lx_junk lx_cnt lx_ps1 lx_ps2 lx_wo lx_sched with_sched].
  assert (exists src bv, (if pd then selectSources A T (lx_min x) (lx_sel x) g (lg_bv s) else Some (i, lg_bv s)) = Some (src, bv) /\ src_ok src /\ same_out g (lg_bv s) bv) as (src & bv & E1 & (Hsrc & Hsel) & S1).
  { unfold src_ok. destruct pd.
    - destruct (selectSources_ok A hasv rows HR HK HSym T HT Hbig g Hrange (fun u _ => deg_lt u) Hg Hm2 (lg_bv s) L4 (Hroom eq_refl) (lx_min x) (lx_sel x)) as (src & bv & E & I1 & I2 & I3); auto. { intros ->. contradiction. } exists src, bv. auto.
    - exists i, (lg_bv s). split; auto. split; auto. split; auto. }
  rewrite E1. rewrite (proj1 HR : cm A = m). pose proof (Hrange src Hsrc) as Bsrc. replace ((0 <=? src) && (src <? m)) with true by lia.
  assert (Lbv : Zlen rows <= Zlen bv) by (destruct S1; fold m; lia).
  destruct (init_bits_ok A hasv rows HR T g Hrange (fun u _ => deg_lt u) Hg (lx_bits x) bv Lbv) as (bv1 & E2 & S2 & C2). rewrite E2.
  assert (S12 : same_out g (lg_bv s) bv1) by (destruct S1 as (Q1 & Q2), S2 as (Q3 & Q4); split; [lia|intros v Hv; rewrite Q4, Q2 by auto; auto]).
  destruct (bfs_par_ok A hasv 0 rows HR HK T true false HT src Bsrc None bv1 (lg_levels s) []) with (sch := lx_bfs x) (width := 0) (junk := lx_junk x) as (r & E3 & B1 & B2 & _ & B4 & _ & _ & B7); auto.
  - destruct S12. fold m. lia.
  - intros v Hv. apply C2. now apply (Hg src v).
  - intros H; discriminate H.
  - rewrite E3. destruct B7 as [(n & En & D & _ & HLv & _)|(_ & B7)]; [|congruence]. specialize (HLv eq_refl).
    assert (Hdl : forall v k, dist adj src v k -> get (pb_levels r) v = Some k) by apply HLv.
    set (lev := fun v => match get (pb_levels r) v with Some k => k | None => 0 end).
    assert (Hn0 : 0 <= n). { destruct D as ((v & Dv) & _). apply dist_nonneg in Dv. lia. }
    assert (Hlev : forall v, In v g -> exists k, dist adj src v k /\ 0 <= k < n /\ lev v = k).
    { intros v Hv. apply (Hg src v Hsrc) in Hv. destruct (reach_dist _ _ _ Hv) as (k & Dk). exists k. split; auto. split; [split; [eapply dist_nonneg; eauto|destruct D as (_ & D); eapply D; eauto]|]. unfold lev. now rewrite (Hdl v k Dk). }
    destruct (pf_levels_ok m T (n + 1) g (pb_levels r) lev (lx_cnt x) HT ltac:(lia)) with (s1 := lx_ps1 x) (s2 := lx_ps2 x) (psa := lg_ps s) as (ps & E4 & L4' & G4); auto.
    + intros v Hv. destruct (Hlev v Hv) as (k & Dk & Bk & Ek). split; auto. split; [rewrite Ek; auto|lia].
    + pose proof (Hps src n Hsrc D). lia.
    + pose proof (Hps src n Hsrc D) as Bn. exists src, (n + 1), (pb_levels r), (pb_bv r), ps. rewrite En. split; [intros sched; rewrite E4; reflexivity|]. split; [now split|]. replace (n + 1 - 1) with n by lia. split; auto. split; auto.
      split; [rewrite Zlen_slice by lia; lia|]. split; [|split; [|split]].
      * intros l o z Gz No Hlo. pose proof (get_Some_bounds _ _ _ Gz) as Bl. rewrite Zlen_slice in Bl by lia. rewrite get_slice in Gz by lia. rewrite Z.add_0_l, G4 in Gz by lia. injection Gz as <-. apply Zlen_same; auto; [now apply NoDup_filter|]. intros v. rewrite Hlo, filter_In. split.
        -- intros (k & Dk & Bk). assert (Hv : In v g) by (apply (Hg src v Hsrc); eapply dist_reach; eauto). split; auto. destruct (Hlev v Hv) as (k' & Dk' & _ & ->). rewrite (dist_unique _ _ _ _ _ Dk' Dk). lia.
        -- intros (Hv & Bv). destruct (Hlev v Hv) as (k & Dk & _ & Ek). exists k. split; auto. lia.
      * lia.
      * split; [destruct S12; lia|]. intros v Hv. destruct S12 as (_ & S12). rewrite <- S12 by auto. apply B4. intros R. apply Hv. now apply (Hg src v).
      * auto.
Qed.

Hypothesis Hdepth : forall a n, In a g -> bfs_depth adj a n -> n < m.

Definition large_done (s' : lg_mem) : Prop :=
  lg_ok s' /\ same_out g (lg_bv s) (lg_bv s') /\ exists src o, src_ok src /\ cm_order adj deg src o /\ placed rows offset (lg_perm s) (lg_inv s) o (lg_perm s', lg_inv s').

Lemma is_done_all pcs : forallb is_done pcs = true <-> pl_all_done pcs.
Proof. rewrite forallb_forall. unfold pl_all_done. split; intros H pc Hpc; specialize (H pc Hpc); destruct pc; auto; discriminate. Qed.

Lemma ps_room a n : In a g -> bfs_depth adj a n -> n + 2 <= Zlen (lg_ps s).
Proof. intros Ha D. pose proof (Hdepth a n Ha D). destruct Hs as (_ & _ & _ & _ & L & _). lia. Qed.
Theorem large_comp_ok x : lx_ok T x -> exists r, large_comp A T srt pd mx x i offset g s = Some r /\ forall s', r = Finished s' -> large_done s'.
Proof.
  intros HX. destruct (large_setup x ps_room HX) as (src & n & levels & bv & ps & E & S & D & HL & Lps & HC & Ll & SO & Lp). pose proof Hs as (L1 & L2 & L3 & L4 & L5 & L6). assert (Bn : n <= m) by (pose proof (Hdepth src (n - 1) (proj1 S) D); lia).
  assert (Ex : x = with_sched x (lx_sched x)) by (destruct x; reflexivity). pose proof (E (lx_sched x)) as E'. rewrite <- Ex in E'. rewrite E'.
  destruct (pl_place_ok A hasv rows HR HK ND srt HS src n T offset mx g (slice ps 0 (n + 1)) levels (lg_perm s) (lg_inv s) (lg_wo s)) with (sch := lx_wo x) (sched := lx_sched x) as (y & pcs & Ey & Hy); auto.
  - apply Hrange. apply S.
  - intros v. apply Hg. apply S.
  - apply HX.
  - rewrite Ey. eexists. split; [reflexivity|]. intros s' Hs'. destruct (forallb is_done pcs) eqn:Ed; [|discriminate]. injection Hs' as <-. apply is_done_all in Ed. destruct (Hy Ed) as (Ly & o & Oo & Po). pose proof (pl_place_wo _ _ _ _ _ _ _ _ _ _ _ _ _ _ _ _ Ey) as Lw.
    split; [|split; [auto|exists src, o; auto]]. destruct Po as (P1 & P2 & _). destruct SO. unfold lg_ok. cbn [lg_levels lg_perm lg_inv lg_bv lg_ps lg_wo]. split; auto. split; auto. split; auto. split; [lia|]. split; [lia|]. lia.
Qed.
Theorem large_comp_fair x (f : nat -> Z) : lx_ok T x -> (forall k, 0 <= f k < T) -> (forall t k, 0 <= t < T -> exists j, (k <= j)%nat /\ f j = t) ->
  exists k s', large_comp A T srt pd mx (with_sched x (map f (seq 0 k))) i offset g s = Some (Finished s') /\ large_done s'.
Proof.
  intros HX F1 F2. destruct (large_setup x ps_room HX) as (src & n & levels & bv & ps & E & S & D & HL & Lps & HC & Ll & SO & Lp). pose proof Hs as (L1 & L2 & L3 & L4 & L5 & L6). assert (Bn : n <= m) by (pose proof (Hdepth src (n - 1) (proj1 S) D); lia).
  destruct (pl_place_fair A hasv rows HR HK ND srt HS src n T offset mx g (slice ps 0 (n + 1)) levels (lg_perm s) (lg_inv s) (lg_wo s)) with (sch := lx_wo x) (f := f) as (k & y & pcs & Ey & Hd); auto.
  - apply Hrange. apply S.
  - intros v. apply Hg. apply S.
  - exists k. destruct (large_comp_ok (with_sched x (map f (seq 0 k)))) as (r & Er & Hr).
    + destruct HX as (X1 & X2 & X3 & X4 & _). repeat (split; [assumption|]). cbn [lx_sched with_sched]. intros t Ht. apply in_map_iff in Ht as (q & <- & _). auto.
    + rewrite E, Ey in Er. apply is_done_all in Hd. rewrite Hd in Er. injection Er as <-. eexists. split; [rewrite E, Ey, Hd; reflexivity|]. apply Hr. reflexivity.
Qed.
End Comp.
End Large.

(** A component of six nodes with two threads, the source chosen. *)
Definition lg_case_run : option (ran lg_mem) :=
  let sch := fun _ : nat => concat (repeat [0; 1]%nat 20) in
  large_comp (csr_of 0 6 sel_case2) 2 (dsort (degree sel_case2)) true 3
    (mkLX (fun i => i mod 2) (fun _ => ([1; 0]%nat, sch, [[]], fun _ => ([0; 1]%nat, sch, [[]]))) [0; 1]%nat sch [[]] (fun i => (i + 1) mod 2) [1; 0; 1]%nat [1]%nat [1; 1; 0]%nat (concat (repeat [1; 0; 0] 80)))
    0 0 (zrange 0 6) (mkLM (repeat 44 6) (repeat 55 6) (repeat 66 6) (repeat 0 6) (repeat 77 9) (repeat 88 7)).
Lemma lg_case_result : lg_case_run = Some (Finished (mkLM [-1; -1; -1; -1; -1; 0] [2; 0; 3; 1; 4; 5] [1; 3; 0; 2; 4; 5] (repeat 1 6) [0; 1; 2; 3; 5; 6; 6; 77; 77] [1; 2; 3; 5; 6; 6; 6])).
Proof. vm_compute. reflexivity. Qed.
