(** * Connected components: compression, numbering and sorting
    (/repo/reordering/ConnectedComponents.cpp:58-325).

    Here: the instance without bit vector (WITH_BIT_VECTOR = false), i.e. the
    nodes are 0..m-1.  The WITH_BIT_VECTOR instance is in ComponentsBv.v, the
    debug-only checks at lines 297-320 are in ComponentsDebug.v. *)
From Coq Require Import Relations.
From Verif Require Import Base Spec Interleave Partition PrefixSum Flat CountSort Csr UnionFind.

(** ** Path compression, lines 182-195

    One atomic step per access to [p]; note the two loads of [p[r]] at lines
    188 and 189. *)
Inductive cpc :=
| CNext                       (* 185: next node *)
| CTest (ii r : Z)            (* 188: load p[r], compare with r *)
| CLoad (ii r : Z)            (* 189: r = p[r] *)
| CStore (ii r : Z).          (* 192-193: p[ii] = r; if (r == ii) ++compId *)

(** Program point, nodes left, compId. *)
Definition cthread : Type := cpc * list Z * Z.

Definition cstep1 (p : list Z) (th : cthread) : option (list Z * cthread) :=
  let '(pc, todo, n) := th in
  match pc with
  | CNext => match todo with
             | [] => Some (p, (CNext, [], n))
             | i :: r => Some (p, (CTest i i, r, n))
             end
  | CTest ii r => v <- get p r ;;
      Some (p, ((if v =? r then CStore ii r else CLoad ii r), todo, n))
  | CLoad ii r => v <- get p r ;; Some (p, (CTest ii v, todo, n))
  | CStore ii r => p' <- set p ii r ;;
      Some (p', (CNext, todo, if r =? ii then n + 1 else n))
  end.

Definition cstate : Type := list Z * list cthread.
Definition cstep (t : Z) (s : cstate) : option cstate :=
  let (p, ths) := s in
  th <- get ths t ;;
  ' (p', th') <- cstep1 p th ;;
  ths' <- set ths t th' ;;
  Some (p', ths').

(** Lines 128-130: the range of thread [t] ([simple_partition] is the same
    computation). *)
Definition cc_chunk (m T t : Z) : list Z :=
  let (b, e) := simple_partition m T t in zrange b e.

(** The threads at the start; [ch t] are the nodes of thread [t], its range when
    there is no bit vector. *)
Definition cinit_on (ch : Z -> list Z) (T : Z) (p : list Z) : cstate :=
  (p, map (fun t => (CNext, ch t, 0)) (zrange 0 T)).
Definition compress_run_on (ch : Z -> list Z) (T : Z) (p : list Z) (sched : list Z) : option cstate :=
  foldM cstep sched (cinit_on ch T p).

Definition cinit (m T : Z) (p : list Z) : cstate := cinit_on (cc_chunk m T) T p.
Definition compress_run (m T : Z) (p : list Z) (sched : list Z) : option cstate :=
  foldM cstep sched (cinit m T p).

Definition call_done (s : cstate) : Prop :=
  forall pc todo n, In (pc, todo, n) (snd s) -> pc = CNext /\ todo = [].

(** ** Numbering, lines 197-222 *)

(** Line 196, each thread: cnts[tid + 1] = compId. *)
Definition cnts_step (ths : list cthread) (t : Z) (cnts : list Z) : option (list Z) :=
  ' (_, n) <- get ths t ;; set cnts (t + 1) n.

(** Lines 213-222: what thread [t] stores depends on [p] and [cnts] only, which
    nobody changes here.  An action (c, r) is
    [compToRoot[c] = r; rootToComp[r] = c]. *)
Definition own_root (p : list Z) (i : Z) : bool :=
  match get p i with Some r => r =? i | None => false end.
Definition roots_in (p : list Z) (l : list Z) : list Z := filter (own_root p) l.
Definition label_thread (p l : list Z) (c0 : Z) : list (Z * Z) :=
  let rs := roots_in p l in
  combine (zrange c0 (c0 + Zlen rs)) rs.
Definition label_step (a : Z * Z) (s : list Z * list Z) : option (list Z * list Z) :=
  let (c, r) := a in
  let (c2r, r2c) := s in
  c2r <- set c2r c r ;; r2c <- set r2c r c ;; Some (c2r, r2c).

(** Lines 232-236 and 286-292: the items of a thread, a node with its component. *)
Definition cc_items (p r2c l : list Z) : option (list (Z * Z)) :=
  mapM (fun i => r <- get p i ;; c <- get r2c r ;; Some (i, c)) l.

(** Lines 272-282: sizes. *)
Definition size_thread (K T t : Z) : list Z :=
  let cPer := Z.quot (K + T - 1) T in
  let cB := Z.max (Z.min (cPer * t) K) 1 in
  let cE := Z.min (cB + cPer) K in
  (if t =? 0 then [0] else []) ++ zrange cB cE.
Definition size_step (K T : Z) (b : list Z) (c : Z) (sizes : list Z) : option (list Z) :=
  v <- (if c =? 0 then get b (K * (T - 1))
        else x <- get b (c + K * (T - 1)) ;; y <- get b (c - 1 + K * (T - 1)) ;; Some (x - y)) ;;
  set sizes c v.

(** Uninitialised memory. *)
Record cc_junk := mkJunk {
  j_cnts : list Z; j_r2c : list Z; j_c2r : Z -> list Z; j_sizes : Z -> list Z;
  j_prefix : Z -> list Z; j_nodes : list Z }.

Record cc_result := mkCC {
  cc_n : Z; cc_roots : list Z; cc_sizes : list Z; cc_starts : list Z; cc_nodes : list Z }.

(** Everything after the compression, phase by phase; [sch k] is the schedule of
    phase [k], [ch t] are the nodes of thread [t]. *)
Definition cc_number_on (ch : Z -> list Z) (T : Z) (sch : nat -> list nat) (s : cstate) (j : cc_junk) : option cc_result :=
  let (p, ths) := s in
  cnts <- par (sch 0%nat) (cnts_step ths) (singletons T) (j_cnts j) ;;
  ' (cnts, K) <- ps_master T cnts ;;
  starts <- mapM (get cnts) (zrange 0 T) ;;
  ' (c2r, r2c) <- par (sch 1%nat) label_step
                    (map (fun tc => label_thread p (ch (fst tc)) (snd tc)) (combine (zrange 0 T) starts))
                    (j_c2r j K, j_r2c j) ;;
  items <- mapM (fun t => cc_items p r2c (ch t)) (zrange 0 T) ;;
  b <- counting K T (merge (sch 2%nat) (threads_of (cnt_thread snd K) items))
                    (merge (sch 3%nat) (map (scan1_thread K) (zrange 0 T)))
                    (merge (sch 4%nat) (map (scan3_thread K) (zrange 0 T))) (j_prefix j K) ;;
  sizes <- par (sch 5%nat) (size_step K T b) (map (size_thread K T) (zrange 0 T)) (j_sizes j K) ;;
  ' (b, nodes) <- par (sch 6%nat) (place_step snd fst K) (threads_of (fun t l => place_thread t l) items)
                    (b, j_nodes j) ;;
  Some (mkCC K c2r sizes b nodes).
(** Without bit vector the nodes of a thread are its range. *)
Definition cc_number (m T : Z) : (nat -> list nat) -> cstate -> cc_junk -> option cc_result := cc_number_on (cc_chunk m T) T.

(** The allocations have the sizes of lines 67-75 and 205-207. *)
Definition junk_ok (m T : Z) (j : cc_junk) : Prop :=
  Zlen (j_cnts j) = T + 1 /\ Zlen (j_r2c j) = m /\ Zlen (j_nodes j) = m /\
  forall K, 0 <= K -> Zlen (j_c2r j K) = K /\ Zlen (j_sizes j K) = K /\
    Zlen (j_prefix j K) = (K + 1) * T.

(** ** Specification of the result *)

(** The arrays list the classes of [same] on 0..m-1: each class in increasing
    order, classes by increasing smallest node. *)
Definition component_listing (m : Z) (same : Z -> Z -> Prop) (r : cc_result) : Prop :=
  exists groups : list (list Z),
    Zlen groups = cc_n r /\
    cc_nodes r = concat groups /\
    cc_sizes r = map Zlen groups /\
    (forall c, 0 <= c < cc_n r -> get (cc_starts r) c = Some (zsum (slice (cc_sizes r) 0 c))) /\
    map Some (cc_roots r) = map (@hd_error Z) groups /\
    ssortedZ (cc_roots r) /\
    (forall g, In g groups -> ssortedZ g) /\
    is_perm m (cc_nodes r) /\
    (forall x y, 0 <= x < m -> 0 <= y < m ->
       (same x y <-> exists g, In g groups /\ In x g /\ In y g)).

(** [r] lists the classes of [same] among the nodes of 0..m-1 satisfying [P]: each
    class in increasing order, classes by increasing smallest node.  The array of
    nodes may be longer. *)
Definition rest_listing (m : Z) (P : Z -> Prop) (same : Z -> Z -> Prop) (r : cc_result) : Prop :=
  exists groups : list (list Z),
    Zlen groups = cc_n r /\
    (forall k, 0 <= k < Zlen (concat groups) -> get (cc_nodes r) k = get (concat groups) k) /\
    cc_sizes r = map Zlen groups /\
    (forall c, 0 <= c < cc_n r -> get (cc_starts r) c = Some (zsum (slice (cc_sizes r) 0 c))) /\
    map Some (cc_roots r) = map (@hd_error Z) groups /\
    ssortedZ (cc_roots r) /\
    (forall g, In g groups -> ssortedZ g) /\
    NoDup (concat groups) /\ (forall v, In v (concat groups) <-> 0 <= v < m /\ P v) /\
    (forall x y, 0 <= x < m -> 0 <= y < m -> P x -> P y ->
       (same x y <-> exists g, In g groups /\ In x g /\ In y g)).

(** ** Compression: proofs *)

Section Compress.
Variable m : Z.
Variable p0 : list Z.
Hypothesis Hm : 0 <= m.
Hypothesis Hlen : Zlen p0 = m.
Hypothesis Hdown : forall x, 0 <= x < m -> exists y, get p0 x = Some y /\ 0 <= y <= x.

Notation eqr x y := (forall r, root_of p0 x r <-> root_of p0 y r).

Lemma root_ex x : 0 <= x < m -> exists r, root_of p0 x r /\ 0 <= r <= x.
Proof.
  intros Hx. assert (0 <= x) as H0 by lia. revert Hx.
  pattern x. apply Zlt_0_ind; [|exact H0]. clear x H0. intros x IH H0 Hx.
  destruct (Hdown x Hx) as (y & Ey & Hy).
  destruct (Z.eq_dec y x) as [->|Hne].
  - exists x. split; [now constructor|lia].
  - destruct (IH y) as (r & Hr & Hr1); try lia.
    exists r. split; [econstructor 2; eauto|lia].
Qed.

Definition cforest (p : list Z) : Prop :=
  Zlen p = m /\ forall x, 0 <= x < m -> exists y, get p x = Some y /\ 0 <= y <= x /\
    eqr x y /\ (y = x <-> get p0 x = Some x).

Definition cpc_ok (pc : cpc) : Prop :=
  match pc with
  | CNext => True
  | CTest ii r => 0 <= ii < m /\ 0 <= r <= ii /\ eqr ii r
  | CLoad ii r => 0 <= ii < m /\ 0 <= r <= ii /\ eqr ii r /\ get p0 r <> Some r
  | CStore ii r => 0 <= ii < m /\ 0 <= r <= ii /\ root_of p0 ii r
  end.

Definition cur (pc : cpc) : list Z :=
  match pc with CNext => [] | CTest ii _ | CLoad ii _ | CStore ii _ => [ii] end.

Definition compressed (p : list Z) (x : Z) : Prop := forall r, root_of p0 x r -> get p x = Some r.

Definition cth_ok (p : list Z) (chunk : list Z) (th : cthread) : Prop :=
  let '(pc, todo, n) := th in
  cpc_ok pc /\ exists fin, chunk = fin ++ cur pc ++ todo /\
    (forall x, In x fin -> compressed p x) /\ n = Zlen (roots_in p0 fin).

Lemma eqr_root x r : eqr x r -> get p0 r = Some r -> root_of p0 x r.
Proof. intros H Hr. apply H. now constructor. Qed.

Lemma cstep1_inv p chunk pc todo n :
  (forall x, In x chunk -> 0 <= x < m) ->
  cforest p -> cth_ok p chunk (pc, todo, n) ->
  exists p' th', cstep1 p (pc, todo, n) = Some (p', th') /\ cforest p' /\ cth_ok p' chunk th' /\
    (forall x, compressed p x -> compressed p' x).
Proof.
  intros Hch Hf (Hpc & fin & Hsplit & Hfin & Hn). pose proof Hf as [Hl Hg].
  destruct pc as [|ii r|ii r|ii r]; cbn [cstep1 cpc_ok cur] in *.
  - destruct todo as [|i rest].
    + exists p, (CNext, [], n). split; auto. split; auto. split; [|auto]. split; [exact I|]. eauto.
    + exists p, (CTest i i, rest, n). split; auto. split; auto. split; [|auto].
      assert (0 <= i < m) by (apply Hch; rewrite Hsplit; apply in_or_app; cbn; auto).
      split; [cbn; split; [auto|split; [lia|tauto]]|]. exists fin. auto.
  - destruct Hpc as (Hii & Hr & He). destruct (Hg r) as (v & Ev & Hv & He2 & Hiff); [lia|]. rewrite Ev.
    exists p, ((if v =? r then CStore ii r else CLoad ii r), todo, n).
    split; auto. split; auto. split; [|auto].
    destruct (Z.eqb_spec v r) as [->|Hne].
    + split; [cbn; split; [auto|split; [auto|]]|exists fin; auto].
      apply eqr_root; auto. now apply Hiff.
    + split; [cbn; split; [auto|split; [auto|split; [auto|]]]|exists fin; auto].
      intros H. apply Hne. now apply Hiff.
  - destruct Hpc as (Hii & Hr & He & Hnr). destruct (Hg r) as (v & Ev & Hv & He2 & Hiff); [lia|]. rewrite Ev.
    exists p, (CTest ii v, todo, n). split; auto. split; auto. split; [|auto].
    split; [cbn; split; [auto|split; [lia|]]|exists fin; auto].
    intros r0. rewrite He. apply He2.
  - destruct Hpc as (Hii & Hr & Hroot).
    destruct (set_ok p ii r) as (p' & Es); [lia|]. rewrite Es.
    assert (forall x, compressed p x -> compressed p' x) as Hkeep.
    { intros x Hx r0 Hr0. rewrite (get_set _ _ _ _ _ Es). destruct (Z.eqb_spec x ii) as [->|]; auto.
      f_equal. eapply root_of_fun; eauto. }
    assert (r = ii <-> get p0 ii = Some ii) as Hself.
    { split.
      - intros ->. now apply root_of_root in Hroot.
      - intros H. apply (root_of_fun p0 ii); auto. now constructor. }
    exists p', (CNext, todo, if r =? ii then n + 1 else n). split; auto. split; [|split; auto].
    + split; [now rewrite (set_len _ _ _ _ Es)|].
      intros x Hx. rewrite (get_set _ _ _ _ _ Es). destruct (Z.eqb_spec x ii) as [->|]; [|now apply Hg].
      exists r. split; auto. split; auto. split; auto.
      intros r0. split; intros H0.
      * rewrite (root_of_fun _ _ _ _ H0 Hroot). constructor. now apply root_of_root in Hroot.
      * assert (r0 = r) as ->.
        { apply (root_of_fun p0 r); auto. constructor. now apply root_of_root in Hroot. }
        auto.
    + split; [exact I|]. exists (fin ++ [ii]). cbn [cur].
      rewrite <- app_assoc. split; auto. split.
      * intros x Hx. apply in_app_or in Hx as [Hx|[<-|[]]]; auto.
        intros r0 Hr0. rewrite (get_set_same _ _ _ _ Es). f_equal. eapply root_of_fun; eauto.
      * unfold roots_in in *. rewrite filter_app, Zlen_app. cbn [filter].
        assert (own_root p0 ii = (r =? ii)) as ->.
        { unfold own_root. destruct (Hdown ii Hii) as (y & Ey & _). rewrite Ey. rewrite Ey in Hself.
          destruct (Z.eqb_spec y ii) as [e|e], (Z.eqb_spec r ii) as [e'|e']; auto; exfalso.
          - apply e'. apply Hself. congruence.
          - apply e. apply Hself in e'. congruence. }
        destruct (r =? ii); unfold Zlen at 2; cbn; lia.
Qed.

Variable T : Z.
Hypothesis HT : 1 <= T.

Variable ch : Z -> list Z.
Hypothesis chunk_range : forall t x, 0 <= t < T -> In x (ch t) -> 0 <= x < m.

Definition cinv (s : cstate) : Prop :=
  cforest (fst s) /\ Zlen (snd s) = T /\
  forall t th, get (snd s) t = Some th -> cth_ok (fst s) (ch t) th.

Lemma cth_mono p p' chunk th :
  (forall x, compressed p x -> compressed p' x) -> cth_ok p chunk th -> cth_ok p' chunk th.
Proof.
  intros H. destruct th as [[pc todo] n]. intros (Hpc & fin & H1 & H2 & H3).
  split; auto. exists fin. auto.
Qed.

Lemma cstep_inv t s : cinv s -> 0 <= t < T -> exists s', cstep t s = Some s' /\ cinv s'.
Proof.
  destruct s as [p ths]. intros (Hf & Hl & Hth) Ht. cbn [fst snd] in *. unfold cstep.
  destruct (get_in_range ths t ltac:(lia)) as ([[pc todo] n] & Et). rewrite Et.
  destruct (cstep1_inv p (ch t) pc todo n) as (p' & th' & E1 & Hf' & Hth' & Hk); auto.
  { intros x. now apply chunk_range. }
  rewrite E1. destruct (set_ok ths t th' ltac:(lia)) as (ths' & Es). rewrite Es.
  exists (p', ths'). split; auto. split; auto. cbn [fst snd]. split; [now rewrite (set_len _ _ _ _ Es)|].
  intros t' th0 E0. rewrite (get_set _ _ _ _ _ Es) in E0. destruct (Z.eqb_spec t' t) as [->|].
  - injection E0 as <-. auto.
  - apply (cth_mono p); auto.
Qed.

Lemma cinit_inv : cinv (cinit_on ch T p0).
Proof.
  split; [|split]; cbn [cinit_on fst snd].
  - split; auto. intros x Hx. destruct (Hdown x Hx) as (y & Ey & Hy). exists y.
    split; auto. split; auto. split.
    + intros r. split; [apply root_links|apply root_links']; auto.
    + rewrite Ey. split; [now intros ->|congruence].
  - rewrite Zlen_map, Zlen_zrange. lia.
  - intros t th E. pose proof (get_Some_bounds _ _ _ E) as Hb. rewrite Zlen_map, Zlen_zrange in Hb.
    rewrite get_map, get_zrange in E by lia. injection E as <-.
    split; [exact I|]. exists []. cbn. split; auto. split; [tauto|reflexivity].
Qed.

(** Whatever the interleaving, all nodes end up pointing to their roots, and
    the threads have counted the roots in their ranges. *)
Theorem compress_ok_on sched s :
  compress_run_on ch T p0 sched = Some s -> call_done s ->
  Zlen (fst s) = m /\ Zlen (snd s) = T /\
  (forall x r, In x (flat ch T) -> root_of p0 x r -> get (fst s) x = Some r) /\
  (forall t, 0 <= t < T -> get (snd s) t = Some (CNext, [], Zlen (roots_in p0 (ch t)))).
Proof.
  intros E Hd. assert (cinv s) as (Hf & Hl & Hth).
  { revert E. apply (foldM_inv cinv); [|apply cinit_inv].
    intros t s1 s2 _ H1 E1. destruct (cstep_inv t s1 H1) as (s3 & E3 & H3); [|congruence].
    destruct s1 as [p ths]. unfold cstep in E1. destruct (get ths t) eqn:Eg; [|discriminate].
    apply get_Some_bounds in Eg. destruct H1 as (_ & H1 & _). cbn in H1. lia. }
  split; [apply Hf|]. split; auto.
  assert (forall t, 0 <= t < T -> (forall x, In x (ch t) -> compressed (fst s) x) /\
    get (snd s) t = Some (CNext, [], Zlen (roots_in p0 (ch t)))) as G.
  { intros t Ht. destruct (get_in_range (snd s) t ltac:(lia)) as ([[pc todo] n] & Et).
    destruct (Hth _ _ Et) as (_ & fin & H1 & H2 & H3).
    destruct (Hd pc todo n (get_In _ _ _ Et)) as [-> ->]. cbn in H1. rewrite app_nil_r in H1. subst fin.
    split; auto. now rewrite Et, H3. }
  split.
  - intros x r Hx Hr.
    apply in_concat in Hx as (l & Hl2 & Hx). apply in_map_iff in Hl2 as (t & <- & Ht). apply In_zrange in Ht.
    now apply (G t Ht).
  - intros t Ht. apply G; auto.
Qed.

Lemma compress_no_ub_on sched :
  (forall t, In t sched -> 0 <= t < T) -> exists s, compress_run_on ch T p0 sched = Some s.
Proof.
  intros H. unfold compress_run_on. generalize cinit_inv. generalize (cinit_on ch T p0).
  induction sched as [|t sched IH]; intros s HI; cbn [foldM]; eauto.
  destruct (cstep_inv t s HI) as (s1 & E1 & H1); [apply H; cbn; auto|].
  rewrite E1. apply IH; auto. intros; apply H; cbn; auto.
Qed.
(** The compression terminates: every unfinished thread makes progress. *)
Definition cpot (pc : cpc) : Z :=
  match pc with
  | CNext => 0
  | CTest _ r => 2 * r + 3
  | CLoad _ r => 2 * r + 2
  | CStore _ _ => 1
  end.
Definition ctpot (th : cthread) : Z := let '(pc, todo, _) := th in cpot pc + (2 * m + 2) * Zlen todo.
Definition cspot (s : cstate) : Z := zsum (map ctpot (snd s)).

Lemma cstep1_pot p chunk pc todo n p' th' :
  (forall x, In x chunk -> 0 <= x < m) ->
  cforest p -> cth_ok p chunk (pc, todo, n) -> (pc <> CNext \/ todo <> []) ->
  cstep1 p (pc, todo, n) = Some (p', th') -> ctpot th' + 1 <= ctpot (pc, todo, n).
Proof.
  intros Hch [Hl Hg] (Hpc & fin & Hsplit & _) Hb E.
  destruct pc as [|ii r|ii r|ii r]; cbn [cstep1 cpc_ok cur] in *.
  - destruct todo as [|i rest]; [tauto|]. injection E as <- <-. cbn [ctpot cpot]. rewrite Zlen_cons.
    assert (0 <= i < m) by (apply Hch; rewrite Hsplit; apply in_or_app; cbn; auto). nia.
  - destruct (get p r) as [v|] eqn:Ev; [|discriminate]. injection E as <- <-. cbn [ctpot].
    destruct (v =? r); cbn [cpot]; lia.
  - destruct Hpc as (Hii & Hr & _ & Hnr). destruct (Hg r) as (v & Ev & Hv & _ & Hiff); [lia|].
    rewrite Ev in E. injection E as <- <-. cbn [ctpot cpot].
    assert (v <> r) by (intros ->; apply Hnr; now apply Hiff). lia.
  - destruct (set p ii r) as [q|]; [|discriminate]. injection E as <- <-. cbn [ctpot cpot]. lia.
Qed.

Definition cbusy (t : Z) (s : cstate) : Prop := forall n, get (snd s) t <> Some (CNext, [], n).
Inductive cbusy_run : list Z -> cstate -> cstate -> Prop :=
| cbr_nil : forall s, cbusy_run [] s s
| cbr_cons : forall t l s s1 s2, cbusy t s -> cstep t s = Some s1 -> cbusy_run l s1 s2 ->
    cbusy_run (t :: l) s s2.

Lemma cspot_nonneg s : cinv s -> 0 <= cspot s.
Proof.
  intros (_ & _ & Hth). apply zsum_nonneg. intros v Hv. apply in_map_iff in Hv as ([[pc todo] n] & <- & Hin).
  apply In_get in Hin as (t & _ & Et). destruct (Hth _ _ Et) as [Hpc _]. pose proof (Zlen_nonneg todo).
  cbn [ctpot]. destruct pc; cbn [cpot cpc_ok] in *; nia.
Qed.

Lemma cstep_pot t s s' : cinv s -> cbusy t s -> cstep t s = Some s' -> cinv s' /\ cspot s' + 1 <= cspot s.
Proof.
  intros HI Hb Es. pose proof HI as (Hf & Hl & Hth).
  destruct s as [p ths]. cbn [fst snd] in *. pose proof Es as Es0. cbn [cstep] in Es.
  destruct (get ths t) as [[[pc todo] n]|] eqn:Et; [|discriminate].
  pose proof (get_Some_bounds _ _ _ Et) as Ht. rewrite Hl in Ht.
  destruct (cstep_inv t (p, ths) HI Ht) as (s3 & E3 & HI3). assert (s3 = s') by congruence. subst s3.
  split; auto.
  destruct (cstep1 p (pc, todo, n)) as [[p' th']|] eqn:E1; [|discriminate].
  destruct (set ths t th') as [ths'|] eqn:E2; [|discriminate]. injection Es as <-.
  pose proof (cstep1_pot p (ch t) pc todo n p' th'
     ltac:(intros x; now apply chunk_range) Hf (Hth _ _ Et)) as Hp.
  assert (pc <> CNext \/ todo <> []) as Hne.
  { destruct pc; try (left; discriminate). right. intros ->. apply (Hb n). exact Et. }
  specialize (Hp Hne E1). unfold cspot. cbn [fst snd].
  apply set_Some_inv in E2 as [Hr ->]. rewrite upd_map.
  rewrite zsum_upd by (rewrite map_length; unfold Zlen in Hr; lia).
  assert (nth (Z.to_nat t) (map ctpot ths) 0 = ctpot (pc, todo, n)) as ->; [|lia].
  apply nth_error_nth. rewrite nth_error_map. unfold get in Et.
  destruct (t <? 0); [discriminate|]. now rewrite Et.
Qed.

Theorem compress_terminates_on sched s :
  cbusy_run sched (cinit_on ch T p0) s -> Zlen sched <= (2 * m + 2) * Zlen (flat ch T).
Proof.
  intros Hr.
  assert (forall l s s', cinv s -> cbusy_run l s s' -> Zlen l + cspot s' <= cspot s /\ cinv s') as G.
  { intros l a b HI H. induction H as [a|t l a a1 b Hb E1 H IH].
    - split; [unfold Zlen; cbn; lia|auto].
    - destruct (cstep_pot t a a1 HI Hb E1) as [HI1 Hp]. destruct (IH HI1).
      split; auto. rewrite Zlen_cons. lia. }
  destruct (G sched (cinit_on ch T p0) s cinit_inv Hr) as [Hle HI].
  pose proof (cspot_nonneg s HI).
  assert (cspot (cinit_on ch T p0) = (2 * m + 2) * Zlen (flat ch T)) as E0; [|lia].
  unfold cspot, cinit_on. cbn [snd]. rewrite map_map. cbn [ctpot cpot].
  unfold flat. generalize (zrange 0 T). intros ts.
  induction ts as [|t ts IH]; cbn [map concat]; [unfold zsum, Zlen; cbn; lia|].
  assert (forall a l, zsum (a :: l) = a + zsum l) as Z1 by reflexivity.
  rewrite Z1, IH, Zlen_app. lia.
Qed.
End Compress.

(** The instance without bit vector. *)
Lemma chunks_concat m T : 0 <= m -> 1 <= T -> flat (cc_chunk m T) T = zrange 0 m.
Proof.
  intros Hm HT. unfold flat.
  rewrite (map_ext_in _ (fun t => zrange (simple_boundary m T t) (simple_boundary m T (t + 1)))).
  - rewrite concat_zrange_tiling; try lia.
    + now rewrite simple_boundary_0, simple_boundary_last by lia.
    + intros; apply simple_boundary_mono; lia.
  - intros t Ht. apply In_zrange in Ht. unfold cc_chunk. now rewrite simple_partition_boundary by lia.
Qed.
Lemma chunk_range m T t x : 0 <= m -> 0 <= t < T -> In x (cc_chunk m T t) -> 0 <= x < m.
Proof.
  intros Hm Ht. unfold cc_chunk. rewrite simple_partition_boundary by lia. intros H.
  apply In_zrange in H. pose proof (simple_boundary_mono m T).
  assert (forall k, 0 <= k -> 0 <= simple_boundary m T k <= m) as Bd.
  { intros k Hk. unfold simple_boundary. assert (0 <= (m + T - 1) / T) by (apply Z.div_pos; lia). nia. }
  pose proof (Bd t). pose proof (Bd (t + 1)). lia.
Qed.

Section Ranges.
Variable m : Z.
Variable p0 : list Z.
Hypothesis Hm : 0 <= m.
Hypothesis Hlen : Zlen p0 = m.
Hypothesis Hdown : forall x, 0 <= x < m -> exists y, get p0 x = Some y /\ 0 <= y <= x.
Variable T : Z.
Hypothesis HT : 1 <= T.
Theorem compress_ok sched s :
  compress_run m T p0 sched = Some s -> call_done s ->
  Zlen (fst s) = m /\ Zlen (snd s) = T /\
  (forall x r, 0 <= x < m -> root_of p0 x r -> get (fst s) x = Some r) /\
  (forall t, 0 <= t < T -> get (snd s) t = Some (CNext, [], Zlen (roots_in p0 (cc_chunk m T t)))).
Proof.
  intros E Hd. destruct (compress_ok_on m p0 Hlen Hdown T HT (cc_chunk m T)) with (sched := sched) (s := s) as (A & B & C & D); auto.
  { intros t x. now apply chunk_range. }
  split; auto. split; auto. split; auto. intros x r Hx. apply C. rewrite chunks_concat by lia. now apply In_zrange.
Qed.
Lemma compress_no_ub sched :
  (forall t, In t sched -> 0 <= t < T) -> exists s, compress_run m T p0 sched = Some s.
Proof. apply (compress_no_ub_on m p0 Hlen Hdown T HT (cc_chunk m T)). intros t x. now apply chunk_range. Qed.
Theorem compress_terminates sched s :
  cbusy_run sched (cinit m T p0) s -> Zlen sched <= (2 * m + 2) * m.
Proof.
  intros H. rewrite <- (Z.sub_0_r m) at 2. rewrite <- (Z.max_r 0 (m - 0)), <- Zlen_zrange, <- (chunks_concat m T) by lia.
  apply (compress_terminates_on m p0 Hm Hlen Hdown T HT (cc_chunk m T)) with (s := s); auto. intros t x. now apply chunk_range.
Qed.
End Ranges.

(** ** Numbering and sorting: proofs *)

Lemma ps_master_ok T x ws :
  1 <= T -> T + 1 <= Zlen ws -> (forall t, 0 <= t < T -> get ws (t + 1) = Some (x t)) ->
  exists ws', ps_master T ws = Some (ws', before x T) /\
    (forall t, 0 <= t <= T -> get ws' t = Some (before x t)).
Proof.
  intros HT Hl Hx.
  destruct (psm_master_ok 1 T (fun t _ => x t) ws [0]) as (ws' & sum' & E & L & P & Q & _); try lia.
  - unfold Zlen; cbn; lia.
  - intros t i Ht Hi. replace ((t + 1) * 1 + i) with (t + 1) by lia. auto.
  - rewrite ps_master_psm in E by auto. destruct (ps_master T ws) as [[w s]|]; [|discriminate].
    injection E as -> <-. specialize (Q 0 ltac:(lia)). rewrite get_cons_0 in Q. injection Q as ->.
    exists ws'. split; auto. intros t Ht. specialize (P t 0 Ht ltac:(lia)).
    replace (t * 1 + 0) with t in P by lia. exact P.
Qed.

Lemma In_combine_range {A} c0 (rs : list A) c r :
  In (c, r) (combine (zrange c0 (c0 + Zlen rs)) rs) <-> exists k, get rs k = Some r /\ c = c0 + k.
Proof.
  revert c0. induction rs as [|x rs IH]; intros c0.
  - rewrite zrange_nil by (unfold Zlen; cbn; lia). cbn. split; [tauto|].
    intros (k & E & _). now rewrite get_out in E by (unfold Zlen; cbn; lia).
  - pose proof (Zlen_nonneg rs). rewrite zrange_cons by (rewrite Zlen_cons; lia). cbn [combine In].
    replace (c0 + Zlen (x :: rs)) with (c0 + 1 + Zlen rs) by (rewrite Zlen_cons; lia).
    rewrite IH. split.
    + intros [E|(k & E & ->)].
      * injection E as <- <-. exists 0. split; [auto|lia].
      * exists (k + 1). rewrite get_cons_S by (apply get_Some_bounds in E; lia). split; [auto|lia].
    + intros (k & E & ->). destruct (Z.eq_dec k 0) as [->|].
      * left. rewrite get_cons_0 in E. injection E as ->. f_equal. lia.
      * right. pose proof (get_Some_bounds _ _ _ E). rewrite get_cons_pos in E by lia.
        exists (k - 1). split; [auto|lia].
Qed.

Lemma mapM_zrange {B} (f : Z -> option B) (g : Z -> B) n :
  (forall i, 0 <= i < n -> f i = Some (g i)) -> mapM f (zrange 0 n) = Some (map g (zrange 0 n)).
Proof. intros H. apply mapM_Some. intros a Ha. apply H. now apply In_zrange. Qed.

Lemma combine_map_same {A B} (f : A -> B) l : combine l (map f l) = map (fun a => (a, f a)) l.
Proof. induction l; cbn; auto. now rewrite IHl. Qed.

Lemma ssorted_zrange lo hi : ssortedZ (zrange lo hi).
Proof.
  unfold ssortedZ. destruct (Z_lt_ge_dec lo hi); [|rewrite zrange_nil by lia; constructor].
  remember (Z.to_nat (hi - lo)) as n eqn:En. revert lo En l.
  induction n as [|n IH]; intros lo En l; [lia|].
  rewrite zrange_cons by lia. destruct (Z.eq_dec (lo + 1) hi) as [->|].
  - rewrite zrange_nil by lia. repeat constructor.
  - constructor; [apply IH; lia|]. apply Forall_forall. intros x Hx. apply In_zrange in Hx. lia.
Qed.

Lemma ssorted_filter f l : ssortedZ l -> ssortedZ (filter f l).
Proof.
  induction 1 as [|a l Hs IH Hf]; cbn; [constructor|].
  destruct (f a); auto. constructor; auto.
  apply Forall_forall. intros x Hx. apply filter_In in Hx as [Hx _].
  rewrite Forall_forall in Hf. auto.
Qed.

Lemma ssorted_get l i j a b : ssortedZ l -> i < j -> get l i = Some a -> get l j = Some b -> a < b.
Proof.
  intros Hs. revert i j. induction Hs as [|x l Hs IH Hf]; intros i j Hij Ha Hb.
  - now rewrite get_out in Ha by (unfold Zlen; cbn; lia).
  - pose proof (get_Some_bounds _ _ _ Ha). rewrite (get_cons_pos x l j) in Hb by lia.
    destruct (Z.eq_dec i 0) as [->|].
    + rewrite get_cons_0 in Ha. injection Ha as ->. rewrite Forall_forall in Hf.
      apply Hf. now apply get_In in Hb.
    + rewrite get_cons_pos in Ha by lia. apply (IH (i - 1) (j - 1)); auto. lia.
Qed.

Lemma ssorted_inj l i j a : ssortedZ l -> get l i = Some a -> get l j = Some a -> i = j.
Proof.
  intros Hs Hi Hj. destruct (Ztrichotomy i j) as [L|[E|L]]; auto; exfalso.
  - pose proof (ssorted_get l i j a a Hs L Hi Hj). lia.
  - pose proof (ssorted_get l j i a a Hs ltac:(lia) Hj Hi). lia.
Qed.

Lemma NoDup_app' {A} (l l' : list A) :
  NoDup l -> NoDup l' -> (forall x, In x l -> In x l' -> False) -> NoDup (l ++ l').
Proof.
  induction 1 as [|a l Ha Hl IH]; intros H2 H3; cbn; auto. constructor.
  - intros H. apply in_app_or in H as [H|H]; auto. apply (H3 a); cbn; auto.
  - apply IH; auto. intros x Hx. apply H3. cbn; auto.
Qed.


Lemma ssorted_NoDup l : ssortedZ l -> NoDup l.
Proof.
  induction 1 as [|x l _ IH Hf]; constructor; auto. intros H. rewrite Forall_forall in Hf. specialize (Hf x H). lia.
Qed.
Lemma sorted_room m N : 0 <= m -> ssortedZ N -> (forall x, In x N -> 0 <= x < m) -> Zlen N <= m.
Proof.
  intros Hm Hs Hr. rewrite <- (Z.sub_0_r m), <- (Z.max_r 0 (m - 0)), <- Zlen_zrange by lia. unfold Zlen. apply inj_le, NoDup_incl_length; [now apply ssorted_NoDup|].
  intros x Hx. apply In_zrange. auto.
Qed.

Section Number.
Variables m T : Z.
Variable N : list Z.       (* the nodes *)
Variable ch : Z -> list Z. (* those of a thread *)
Variable p : list Z.       (* compressed *)
Hypothesis HT : 1 <= T.
Hypothesis HNs : ssortedZ N.
Hypothesis HNr : forall x, In x N -> 0 <= x < m.
Hypothesis HNe : N <> [].
Hypothesis Hch : flat ch T = N.
Hypothesis Hp : forall x, In x N -> exists r, get p x = Some r /\ In r N /\ r <= x /\ get p r = Some r.

Definition R : list Z := roots_in p N.
Notation K := (Zlen R).

Lemma R_flat : R = flat (fun t => roots_in p (ch t)) T.
Proof. unfold R, roots_in. now rewrite <- Hch, filter_flat. Qed.

Definition rc (t : Z) : Z := Zlen (roots_in p (ch t)).

Lemma K_before : before rc T = K.
Proof. rewrite R_flat, Zlen_flat by lia. reflexivity. Qed.

Lemma In_R r : In r R <-> In r N /\ get p r = Some r.
Proof.
  unfold R, roots_in. rewrite filter_In. unfold own_root.
  split; intros [H1 H2]; split; auto.
  - destruct (get p r) as [v|]; [|discriminate]. f_equal. lia.
  - rewrite H2. apply Z.eqb_refl.
Qed.

Lemma R_sorted : ssortedZ R.
Proof. apply ssorted_filter, HNs. Qed.

Lemma K_pos : 1 <= K.
Proof.
  assert (exists r, In r R) as (r & H).
  { assert (exists x, In x N) as (x & Hx) by (destruct N as [|x l]; [congruence|exists x; now left]).
    destruct (Hp x Hx) as (r & _ & Hr & _ & E). exists r. apply In_R. auto. }
  destruct R; [destruct H|]. rewrite Zlen_cons. pose proof (Zlen_nonneg l). lia.
Qed.

(** Component number of a node. *)
Lemma comp_ex x : In x N -> exists c, 0 <= c < K /\ get R c = get p x.
Proof.
  intros Hx. destruct (Hp x Hx) as (r & E & Hr & _ & Er).
  assert (In r R) as H by (apply In_R; auto).
  apply In_get in H as (c & Hc & Ec). exists c. split; auto. congruence.
Qed.

Definition labelled (r2c : list Z) : Prop := forall c r, get R c = Some r -> get r2c r = Some c.

Definition comp (r2c : list Z) (x : Z) : Z :=
  match get p x with
  | Some r => match get r2c r with Some c => c | None => 0 end
  | None => 0
  end.

Lemma comp_ok r2c x : labelled r2c -> In x N ->
  0 <= comp r2c x < K /\ get R (comp r2c x) = get p x /\
  (r <- get p x ;; c <- get r2c r ;; Some (x, c)) = Some (x, comp r2c x).
Proof.
  intros Hl Hx. destruct (comp_ex x Hx) as (c & Hc & E).
  destruct (Hp x Hx) as (r & Er & _). unfold comp. rewrite Er in *.
  rewrite (Hl c r E). auto.
Qed.

Lemma label_ok sch c2r0 r2c0 :
  Zlen c2r0 = K -> Zlen r2c0 = m ->
  exists r2c, par sch label_step (map (fun t => label_thread p (ch t) (before rc t)) (zrange 0 T)) (c2r0, r2c0)
     = Some (R, r2c) /\ Zlen r2c = m /\ labelled r2c.
Proof.
  intros H1 H2. set (acts := merge sch (map (fun t => label_thread p (ch t) (before rc t)) (zrange 0 T))).
  assert (forall c r, In (c, r) acts <-> get R c = Some r) as HA.
  { intros c r. unfold acts. rewrite In_merge. split.
    - intros (l & Hl & Hin). apply in_map_iff in Hl as (t & <- & Ht). apply In_zrange in Ht.
      unfold label_thread in Hin. apply In_combine_range in Hin as (k & Ek & ->).
      rewrite R_flat. change (before rc t) with (off (fun t => roots_in p (ch t)) t).
      rewrite get_flat; auto. now apply get_Some_bounds in Ek.
    - intros E. pose proof (get_Some_bounds _ _ _ E) as Hb. rewrite <- K_before in Hb.
      destruct (before_locate rc T c) as (t & k & Ht & Hk & ->); try lia.
      { intros; apply Zlen_nonneg. }
      exists (label_thread p (ch t) (before rc t)). split.
      + apply (in_map (fun t => label_thread p (ch t) (before rc t))). now apply In_zrange.
      + unfold label_thread. apply In_combine_range. exists k. split; auto.
        rewrite R_flat in E. change (before rc t) with (off (fun t => roots_in p (ch t)) t) in E.
        rewrite get_flat in E; auto. }
  destruct (write_all (fun (a : Z * Z) w => set w (fst a) (snd a)) fst snd acts c2r0) as (c2r & E1 & L1 & G1 & _).
  { auto. }
  { intros [c r] H. apply HA in H. apply get_Some_bounds in H. cbn. lia. }
  { intros [c r] [c' r'] Ha Hb. cbn. intros <-. apply HA in Ha, Hb. congruence. }
  destruct (write_all (fun (a : Z * Z) w => set w (snd a) (fst a)) snd fst acts r2c0) as (r2c & E2 & L2 & G2 & _).
  { auto. }
  { intros [c r] H. apply HA, get_In, In_R in H as (H & _). apply HNr in H. cbn. lia. }
  { intros [c r] [c' r'] Ha Hb. cbn. intros <-. apply HA in Ha, Hb. now apply (ssorted_inj R _ _ _ R_sorted Ha Hb). }
  exists r2c. split.
  - unfold par. fold acts.
    rewrite (foldM_pair label_step (fun a w => set w (fst a) (snd a)) (fun a w => set w (snd a) (fst a))
       acts c2r0 r2c0 c2r r2c); auto; [|now intros [c r] x y].
    f_equal. f_equal. apply list_ext; [lia|]. intros c Hc.
    destruct (get_in_range R c) as (r & Er); [lia|]. rewrite Er. apply (G1 (c, r)). now apply HA.
  - split; [lia|]. intros c r E. apply (G2 (c, r)). now apply HA.
Qed.

Lemma size_cover c : 0 <= c < K -> exists t, 0 <= t < T /\ In c (size_thread K T t).
Proof.
  intros Hc. pose proof K_pos as HK. unfold size_thread.
  destruct (Z.eq_dec c 0) as [->|Hc0].
  - exists 0. split; [lia|]. cbn. auto.
  - rewrite Z.quot_div_nonneg by lia. set (q := (K + T - 1) / T).
    assert (1 <= q) as Hq by (apply Z.div_le_lower_bound; lia).
    assert (q * T >= K) as HqT.
    { pose proof (Z.div_mod (K + T - 1) T). pose proof (Z.mod_pos_bound (K + T - 1) T). unfold q. nia. }
    exists (c / q). assert (0 <= c / q) by (apply Z.div_pos; lia).
    assert (c / q < T) by (apply Z.div_lt_upper_bound; nia).
    split; [lia|]. apply in_or_app. right. apply In_zrange.
    pose proof (Z.div_mod c q). pose proof (Z.mod_pos_bound c q). nia.
Qed.

Lemma size_range t c : 0 <= t < T -> In c (size_thread K T t) -> 0 <= c < K.
Proof.
  intros Ht. pose proof K_pos as HK. unfold size_thread. intros H. apply in_app_or in H as [H|H].
  - destruct (t =? 0); [|destruct H]. destruct H as [<-|[]]. lia.
  - apply In_zrange in H. lia.
Qed.

Lemma size_ok sch b sizes0 (x : Z -> Z) :
  (forall c, 0 <= c < K -> get b (c + K * (T - 1)) = Some (x (c + 1))) -> x 0 = 0 ->
  Zlen sizes0 = K ->
  exists sizes, par sch (size_step K T b) (map (size_thread K T) (zrange 0 T)) sizes0 = Some sizes /\
    sizes = map (fun c => x (c + 1) - x c) (zrange 0 K).
Proof.
  intros Hb Hx0 Hl. pose proof K_pos as HK.
  assert (forall c, In c (merge sch (map (size_thread K T) (zrange 0 T))) <-> 0 <= c < K) as HA.
  { intros c. rewrite In_merge. split.
    - intros (l & H & Hin). apply in_map_iff in H as (t & <- & Ht). apply In_zrange in Ht.
      now apply (size_range t).
    - intros Hc. destruct (size_cover c Hc) as (t & Ht & Hin). exists (size_thread K T t). split; auto.
      apply in_map. now apply In_zrange. }
  destruct (write_all (size_step K T b) (fun c => c) (fun c => x (c + 1) - x c)
     (merge sch (map (size_thread K T) (zrange 0 T))) sizes0) as (sizes & E & L & G & _).
  - intros c w Hc _. apply HA in Hc. unfold size_step. destruct (Z.eqb_spec c 0) as [->|].
    + rewrite <- (Z.add_0_l (K * (T - 1))), Hb by lia. now rewrite Hx0, Z.sub_0_r.
    + rewrite Hb by lia. rewrite Hb by lia. now replace (c - 1 + 1) with c by lia.
  - intros c Hc. apply HA in Hc. lia.
  - intros a b0 _ _ ->. auto.
  - exists sizes. split; auto. apply list_ext.
    + rewrite Zlen_map, Zlen_zrange. lia.
    + intros c Hc. rewrite get_map, get_zrange by lia. cbn. apply G. apply HA. lia.
Qed.

(** Nodes of component [c]. *)
Definition group (c : Z) : list Z :=
  match get R c with
  | Some r => filter (fun x => match get p x with Some v => v =? r | None => false end) N
  | None => []
  end.

Lemma In_group c x : In x (group c) <-> In x N /\ exists r, get R c = Some r /\ get p x = Some r.
Proof.
  unfold group. destruct (get R c) as [r|] eqn:Er.
  - rewrite filter_In. split.
    + intros [H1 H2]. split; auto. exists r. split; auto. destruct (get p x) as [v|]; [|discriminate].
      f_equal. lia.
    + intros [H1 (r' & E1 & E2)]. injection E1 as <-. rewrite E2. split; auto. apply Z.eqb_refl.
  - cbn. split; [tauto|]. intros (_ & r & E & _). discriminate.
Qed.

Lemma number_on_ok sch j (ths : list cthread) :
  junk_ok m T j ->
  (forall t, 0 <= t < T -> get ths t = Some (CNext, [], rc t)) ->
  exists res, cc_number_on ch T sch (p, ths) j = Some res /\ Zlen (cc_nodes res) = m /\
    rest_listing m (fun v => In v N) (fun x y => get p x = get p y) res /\
    (2 <= T -> exists e, get (cc_starts res) (cc_n res) = Some e /\ e <= Zlen N).
Proof.
  intros (J1 & J2 & J3 & J4) Hths. pose proof K_pos as HK. unfold cc_number_on.
  destruct (J4 K ltac:(lia)) as (J5 & J6 & J7).
  (* cnts *)
  destruct (write_all (cnts_step ths) (fun t => t + 1) rc (merge (sch 0%nat) (singletons T)) (j_cnts j))
    as (cnts & E0 & L0 & G0 & _).
  { intros t w Ht _. apply In_merge in Ht as (l & Hl & Ht). apply in_map_iff in Hl as (t' & <- & Ht').
    apply In_zrange in Ht'. destruct Ht as [->|[]]. unfold cnts_step. now rewrite Hths. }
  { intros t Ht. apply In_merge in Ht as (l & Hl & Ht). apply in_map_iff in Hl as (t' & <- & Ht').
    apply In_zrange in Ht'. destruct Ht as [->|[]]. lia. }
  { intros a b _ _ H. f_equal. lia. }
  unfold par at 1. rewrite E0.
  destruct (ps_master_ok T rc cnts) as (cnts' & E1 & G1); try lia.
  { intros t Ht. apply G0. apply In_merge. exists [t]. split; [|cbn; auto].
    apply (in_map (fun t => [t])). now apply In_zrange. }
  rewrite E1, K_before.
  rewrite (mapM_zrange _ (before rc)) by (intros; apply G1; lia).
  rewrite combine_map_same, map_map. cbn [fst snd].
  destruct (label_ok (sch 1%nat) (j_c2r j K) (j_r2c j)) as (r2c & E2 & L2 & Hlab); auto.
  rewrite E2.
  (* items *)
  set (items := map (fun t => map (fun x => (x, comp r2c x)) (ch t)) (zrange 0 T)).
  assert (mapM (fun t => cc_items p r2c (ch t)) (zrange 0 T) = Some items) as ->.
  { apply mapM_zrange. intros t Ht. unfold cc_items. apply mapM_Some. intros x Hx.
    apply comp_ok; auto. rewrite <- Hch. apply in_concat.
    exists (ch t). split; auto. apply in_map. now apply In_zrange. }
  assert (concat items = map (fun x => (x, comp r2c x)) N) as Hcon.
  { rewrite <- Hch, flat_map_f. reflexivity. }
  assert (HNl : Zlen N <= m) by (apply sorted_room; auto; rewrite <- J2; apply Zlen_nonneg).
  assert (Zlen items = T) as Hil by (unfold items; rewrite Zlen_map, Zlen_zrange; lia).
  assert (forall l x, In l items -> In x l -> 0 <= snd x < K) as Hkeys.
  { intros l x Hl Hx. assert (In x (concat items)) as Hx' by (apply in_concat; eauto).
    rewrite Hcon in Hx'. apply in_map_iff in Hx' as (y & <- & Hy). cbn.
    now apply comp_ok. }
  pose proof (merge_interleave (sch 2%nat) (threads_of (cnt_thread snd K) items)) as I1.
  pose proof (merge_interleave (sch 3%nat) (map (scan1_thread K) (zrange 0 T))) as I2.
  pose proof (merge_interleave (sch 4%nat) (map (scan3_thread K) (zrange 0 T))) as I3.
  pose proof (merge_interleave (sch 6%nat) (threads_of (fun t (l : list (Z * Z)) => place_thread t l) items)) as I4.
  destruct (counting_scan_ok snd K T ltac:(lia) HT items Hil Hkeys (j_prefix j K) _ _ _ ltac:(nia) I1 I2 I3)
    as (b & E3 & L3 & G3).
  destruct (counting_sort_ok snd K T ltac:(lia) HT items Hil Hkeys fst (j_prefix j K) (j_nodes j)
     _ _ _ _ ltac:(nia) ltac:(rewrite Hcon, Zlen_map; lia) I1 I2 I3 I4)
    as (b' & nodes & E4 & L4 & L5 & S1 & _ & S3 & S4).
  unfold counting_sort in E4. rewrite E3 in E4. rewrite E3.
  set (kb := fun c => keys_below snd c (concat items)).
  destruct (size_ok (sch 5%nat) b (j_sizes j K) kb) as (sizes & E5 & Hsz); auto.
  { intros c Hc. rewrite Z.add_comm, Z.mul_comm, G3 by lia. f_equal. unfold kb.
    rewrite <- (before_keys snd K T HT items Hil Hkeys fst) by lia.
    replace ((c + 1) * T) with (c * T + (T - 1) + 1) by lia. rewrite before_S by nia.
    rewrite a0_pair by lia. reflexivity. }
  { unfold kb. apply keys_below_0. intros x Hx. apply in_concat in Hx as (l & Hl & Hx).
    specialize (Hkeys l x Hl Hx). lia. }
  rewrite E5. unfold par. rewrite E4. eexists. split; [reflexivity|].
  (* the groups *)
  assert (Zlen (concat items) = Zlen N) as Hlm by (rewrite Hcon, Zlen_map; lia).
  assert (forall c, 0 <= c < K -> map fst (with_key snd c (concat items)) = group c) as Hgrp.
  { intros c Hc. rewrite Hcon. destruct (get_in_range R c) as (r & Er); [lia|].
    unfold with_key, group. rewrite Er.
    assert (forall x, In x N -> (comp r2c x =? c) = match get p x with Some v => v =? r | None => false end) as Heq.
    { intros x Hx. destruct (comp_ok r2c x Hlab Hx) as (C1 & C2 & _).
      destruct (Hp x Hx) as (v & Ev & _). rewrite Ev in *.
      destruct (Z.eqb_spec (comp r2c x) c) as [E|Nc], (Z.eqb_spec v r) as [E'|N']; auto; exfalso.
      - congruence.
      - subst v. apply Nc. apply (ssorted_inj R _ _ _ R_sorted C2 Er). }
    revert Heq. clear. induction N as [|x l IH]; intros Heq; cbn; auto.
    rewrite (Heq x) by (cbn; auto). specialize (IH ltac:(intros; apply Heq; cbn; auto)).
    destruct (get p x) as [v|]; auto. destruct (v =? r); cbn; congruence. }
  assert (map fst (sort_by_key snd K (concat items)) = flat group K) as Hsg.
  { unfold sort_by_key. rewrite flat_map_f. apply flat_ext. auto. }
  assert (Permutation (flat group K) N) as Hperm.
  { rewrite <- Hsg, (sort_by_key_perm snd K (concat items)), Hcon, map_map, map_id; [reflexivity|].
    intros x Hx. apply in_concat in Hx as (l & Hl & Hx). eauto. }
  assert (Zlen (flat group K) = Zlen N) as Hfl by (unfold Zlen; f_equal; apply (Permutation_length Hperm)).
  assert (forall k, 0 <= k < Zlen N -> get nodes k = get (flat group K) k) as Hnodes.
  { intros k Hk. rewrite Hlm, Hsg in S1. rewrite <- S1, get_slice by lia. f_equal. }
  assert (forall c, 0 <= c < K -> kb (c + 1) - kb c = Zlen (group c)) as Hkb.
  { intros c Hc. unfold kb. rewrite keys_below_S, <- Hgrp, Zlen_map by auto. lia. }
  split; [cbn [cc_nodes]; lia|].
  split; [|intros H2; destruct (S4 1 0 ltac:(lia) ltac:(lia)) as (e & Ee & He); exists e; cbn [cc_starts cc_n]; replace K with (1 * K + 0) by lia; split; [exact Ee|lia]].
  exists (map group (zrange 0 K)). cbn [cc_n cc_roots cc_sizes cc_starts cc_nodes].
  assert (Hszg : sizes = map Zlen (map group (zrange 0 K))).
  { rewrite Hsz, map_map. apply map_ext_in. intros c Hc. apply In_zrange in Hc. now apply Hkb. }
  split; [rewrite Zlen_map, Zlen_zrange; lia|].
  split; [intros k Hk; apply Hnodes; unfold flat in Hfl; lia|]. split; [exact Hszg|].
  split.
  { intros c Hc. rewrite S3 by auto. f_equal. fold (kb c).
    assert (Zlen sizes = K) as Hsl by (rewrite Hsz, Zlen_map, Zlen_zrange; lia).
    assert (forall c, 0 <= c -> c <= K -> kb c = zsum (slice sizes 0 c)) as G; [|apply G; lia].
    apply (Z_ind0 (fun c => c <= K -> kb c = zsum (slice sizes 0 c))).
    - intros _. rewrite slice_nil by lia. unfold kb. rewrite keys_below_0; auto.
      intros x Hx. apply in_concat in Hx as (l & Hl & Hx). specialize (Hkeys l x Hl Hx). lia.
    - intros k Hk IH Hle. rewrite (slice_app sizes 0 k (k + 1)) by lia. rewrite zsum_app, <- IH by lia.
      rewrite (slice_cons sizes k (k + 1) (kb (k + 1) - kb k)) by
        (try lia; rewrite Hsz, get_map, get_zrange by lia; reflexivity).
      rewrite slice_nil by lia. unfold zsum at 1. cbn [fold_right]. lia. }
  split.
  { rewrite map_map. apply list_ext; [rewrite !Zlen_map, Zlen_zrange; lia|].
    intros c Hc. rewrite Zlen_map in Hc. rewrite !get_map, get_zrange by lia. cbn [option_map].
    rewrite Z.add_0_l. destruct (get_in_range R c Hc) as (r & Er). rewrite Er. cbn [option_map]. f_equal.
    assert (In r (group c)) as Hin.
    { apply In_group. pose proof (get_In _ _ _ Er) as H. apply In_R in H as [H1 H2]. split; auto. exists r. auto. }
    assert (ssortedZ (group c)) as Hs.
    { unfold group. rewrite Er. apply ssorted_filter, HNs. }
    destruct (group c) as [|h l] eqn:Eg; [destruct Hin|]. cbn. f_equal.
    destruct Hin as [->|Hin]; auto.
    assert (In h (group c)) as Hh by (rewrite Eg; cbn; auto).
    apply In_group in Hh as (Hh & r' & E1' & E2'). assert (r' = r) by congruence. subst r'.
    destruct (Hp h Hh) as (v & Ev & _ & Hv & _). assert (v = r) by congruence. subst v.
    apply StronglySorted_inv in Hs as (_ & Hf). rewrite Forall_forall in Hf. specialize (Hf r Hin). lia. }
  split; [apply R_sorted|].
  split.
  { intros g Hg. apply in_map_iff in Hg as (c & <- & Hc). unfold group.
    destruct (get R c); [|constructor]. apply ssorted_filter, HNs. }
  split; [apply (Permutation_NoDup (Permutation_sym Hperm)), ssorted_NoDup, HNs|].
  split.
  { intros v. change (In v (flat group K) <-> 0 <= v < m /\ In v N). split.
    - intros H. apply (Permutation_in _ Hperm) in H. auto.
    - intros [_ H]. now apply (Permutation_in _ (Permutation_sym Hperm)). }
  intros x y _ _ Hx Hy. split.
  - intros Hxy. destruct (comp_ex x Hx) as (c & Hc & Ec). destruct (Hp x Hx) as (r & Er & _).
    exists (group c). split; [apply in_map; now apply In_zrange|].
    split; apply In_group; split; auto; exists r; split; congruence.
  - intros (g & Hg & H1 & H2). apply in_map_iff in Hg as (c & <- & Hc).
    apply In_group in H1 as (_ & r & E1' & E2'). apply In_group in H2 as (_ & r' & E3' & E4'). congruence.
Qed.
End Number.

(** All nodes: *)
Lemma listing_all m (P : Z -> Prop) same res : (forall v, 0 <= v < m -> P v) -> 0 <= m -> Zlen (cc_nodes res) = m ->
  rest_listing m P same res -> component_listing m same res.
Proof.
  intros HP Hm HL (g & G1 & G2 & G3 & G4 & G5 & G6 & G7 & G8 & G9 & G10). exists g.
  assert (Permutation (concat g) (zrange 0 m)) as Hp.
  { apply NoDup_Permutation; [auto|apply NoDup_zrange|]. intros v. rewrite G9, In_zrange. split; [tauto|]. intros H. split; auto. }
  assert (Zlen (concat g) = m) as Hg by (unfold Zlen; pose proof (Permutation_length Hp); pose proof (Zlen_zrange 0 m); unfold Zlen in *; lia).
  assert (cc_nodes res = concat g) as E by (apply list_ext; [lia|]; intros k Hk; apply G2; lia).
  split; auto. split; auto. split; auto. split; auto. split; auto. split; auto. split; auto.
  split; [unfold is_perm; now rewrite E|]. intros x y Hx Hy. apply G10; auto.
Qed.
Lemma number_ok m T (p : list Z) sch j (ths : list cthread) : 1 <= m -> 1 <= T ->
  (forall x, 0 <= x < m -> exists r, get p x = Some r /\ 0 <= r <= x /\ get p r = Some r) ->
  junk_ok m T j ->
  (forall t, 0 <= t < T -> get ths t = Some (CNext, [], Zlen (roots_in p (cc_chunk m T t)))) ->
  exists res, cc_number m T sch (p, ths) j = Some res /\
    component_listing m (fun x y => get p x = get p y) res.
Proof.
  intros Hm HT Hp HJ Hths.
  destruct (number_on_ok m T (zrange 0 m) (cc_chunk m T) p) with (sch := sch) (j := j) (ths := ths) as (res & E & HL & HR & _); auto.
  - apply ssorted_zrange.
  - intros x Hx. now apply In_zrange in Hx.
  - rewrite zrange_cons by lia. discriminate.
  - apply chunks_concat; lia.
  - intros x Hx. apply In_zrange in Hx. destruct (Hp x Hx) as (r & E1 & E2 & E3). exists r. rewrite In_zrange. repeat split; auto; lia.
  - exists res. split; [exact E|]. apply (listing_all m (fun v => In v (zrange 0 m))); auto; try lia. intros v Hv. now apply In_zrange.
Qed.

(** ** The whole function *)

(** Lines 152-155: the pairs (xx, y) of row [x]. *)
Definition cc_row {V} (A : csr V) (base x : Z) : option (list (Z * Z)) :=
  lo <- get (rowptr A) x ;; hi <- get (rowptr A) (x + 1) ;;
  mapM (fun j => c <- get (colidx A) j ;; Some (x, c - base)) (zrange (lo - base) (hi - base)).
(** Lines 139-155: the pairs of thread [t]. *)
Definition cc_work {V} (A : csr V) (base T t : Z) : option (list (Z * Z)) :=
  ' (b, e) <- load_balanced_partition (rowptr A) (cm A) T t ;;
  rs <- mapM (cc_row A base) (zrange b e) ;; Some (concat rs).

(** Lines 58-326 (BASE is the index base of [A], 328-340).  [us] and [cs]
    are the schedules of the union and of the compression phase, which both have
    to run to the end. *)
Definition cc_run {V} (A : csr V) (T : Z) (us cs : list Z) (sch : nat -> list nat) (j : cc_junk)
  : option (ustate * cstate * cc_result) :=
  base <- getBase A ;;
  work <- mapM (cc_work A base T) (zrange 0 T) ;;
  u <- union_run (cm A) work us ;;
  c <- compress_run (cm A) T (fst u) cs ;;
  r <- cc_number (cm A) T sch c j ;;
  Some (u, c, r).

(** Specification: the edges of the matrix graph. *)
Definition edges_of {V} (rows : rows_t V) : list (Z * Z) :=
  concat (map (fun i => map (fun e => (i, fst e)) (nthl rows i)) (zrange 0 (Zlen rows))).

Lemma cc_row_ok {V} hasv base n rows (A : csr V) x :
  rep hasv base n rows A -> 0 <= x < Zlen rows ->
  cc_row A base x = Some (map (fun e => (x, fst e)) (nthl rows x)).
Proof.
  intros (H1 & H2 & H3 & H4 & _) Hx. unfold cc_row. rewrite H3, H4, !get_rowptr_of by lia.
  replace (base + off (nthl rows) x - base) with (off (nthl rows) x) by lia.
  replace (base + off (nthl rows) (x + 1) - base) with (off (nthl rows) x + Zlen (nthl rows x))
    by (rewrite off_S; lia).
  apply mapM_list. intros k [c v] E. rewrite (get_colidx_of base rows x k c v) by auto. cbn. f_equal. f_equal. lia.
Qed.

Lemma cc_work_ok {V} hasv base n rows (A : csr V) T :
  rep hasv base n rows A -> 1 <= T ->
  exists work, mapM (cc_work A base T) (zrange 0 T) = Some work /\ concat work = edges_of rows /\ Zlen work = T.
Proof.
  intros HR HT. pose proof HR as (H1 & H2 & H3 & H4 & _). pose proof (Zlen_nonneg rows).
  destruct (lb_boundary_spec (rowptr A) (cm A) T) as (B1 & B2 & B3 & B4 & B5); try lia.
  { rewrite H3, Zlen_rowptr_of. lia. }
  { rewrite H3. apply rowptr_of_monotone. }
  set (bd := lb_boundary (rowptr A) (cm A) T) in *.
  set (er := fun i => map (fun e => (i, fst e)) (nthl rows i)).
  exists (map (fun t => concat (map er (zrange (bd t) (bd (t + 1))))) (zrange 0 T)).
  split; [|split].
  - apply mapM_zrange. intros t Ht. unfold cc_work. rewrite B5 by lia.
    rewrite (mapM_Some _ er); auto. intros x Hx. apply In_zrange in Hx.
    pose proof (B4 t). pose proof (B4 (t + 1)). eapply cc_row_ok; eauto. lia.
  - rewrite <- (map_map (fun t => zrange (bd t) (bd (t + 1))) (fun l => concat (map er l))).
    unfold edges_of. fold er. replace (zrange 0 (Zlen rows)) with (zrange (bd 0) (bd T)) by (rewrite B1, B2, H1; auto).
    rewrite <- (concat_zrange_tiling bd T) by (auto; lia).
    generalize (map (fun t => zrange (bd t) (bd (t + 1))) (zrange 0 T)). intros ls.
    induction ls as [|l ls IH]; cbn; auto. now rewrite IH, map_app, concat_app.
  - rewrite Zlen_map, Zlen_zrange. lia.
Qed.

Lemma edges_range {V} n (rows : rows_t V) e :
  rows_ok n rows -> In e (edges_of rows) -> 0 <= fst e < Zlen rows /\ 0 <= snd e < n.
Proof.
  intros Hr H. apply in_concat in H as (l & Hl & He). apply in_map_iff in Hl as (i & <- & Hi).
  apply In_zrange in Hi. apply in_map_iff in He as ([c v] & <- & Hc). cbn. split; auto.
  apply (Hr (nthl rows i) c v); auto. now apply nth_row_In.
Qed.

Lemma compress_result m T (p0 : list Z) cs s :
  1 <= m -> 1 <= T -> Zlen p0 = m ->
  (forall x, 0 <= x < m -> exists y, get p0 x = Some y /\ 0 <= y <= x) ->
  compress_run m T p0 cs = Some s -> call_done s ->
  Zlen (fst s) = m /\
  (forall x, 0 <= x < m -> exists r, get (fst s) x = Some r /\ 0 <= r <= x /\ get (fst s) r = Some r /\ root_of p0 x r) /\
  (forall t, 0 <= t < T -> get (snd s) t = Some (CNext, [], Zlen (roots_in (fst s) (cc_chunk m T t)))).
Proof.
  intros Hm HT Hl Hd E Hdone.
  destruct (compress_ok m p0 ltac:(lia) Hl Hd T HT cs s E Hdone) as (L & L2 & HC & HN).
  assert (HX : forall x, 0 <= x < m -> exists r, get (fst s) x = Some r /\ 0 <= r <= x /\
     get (fst s) r = Some r /\ root_of p0 x r).
  { intros x Hx. destruct (root_ex m p0 Hd x Hx) as (r & Hr & Hr1). exists r.
    split; [now apply HC|]. split; auto. split; auto. apply HC; [lia|]. constructor. now apply root_of_root in Hr. }
  split; auto. split; auto. intros t Ht. rewrite HN by auto. f_equal. f_equal. f_equal.
  unfold roots_in. apply filter_ext_in. intros x Hx.
  assert (0 <= x < m) as Hx'.
  { apply In_zrange. rewrite <- (chunks_concat m T) by lia.
    apply in_concat. exists (cc_chunk m T t). split; auto. apply in_map. now apply In_zrange. }
  unfold own_root. destruct (HX x Hx') as (r & Er & _ & _ & Hr). rewrite Er.
  destruct (Hd x Hx') as (y & Ey & _). rewrite Ey.
  destruct (Z.eqb_spec y x) as [->|Hn], (Z.eqb_spec r x) as [->|Hn']; auto; exfalso.
  - apply Hn'. apply (root_of_fun p0 x); auto. now constructor.
  - apply root_of_root in Hr. congruence.
Qed.

(** For every schedule that runs both concurrent phases to their end: no access
    out of bounds, and the arrays list the classes of the final forest, whose
    classes lie inside the connected components. *)
Theorem cc_listing {V} hasv base rows (A : csr V) T us cs sch j work u c :
  rep hasv base (Zlen rows) rows A -> rows_ok (Zlen rows) rows -> 1 <= Zlen rows -> 1 <= T ->
  junk_ok (Zlen rows) T j ->
  mapM (cc_work A base T) (zrange 0 T) = Some work ->
  union_run (cm A) work us = Some u -> all_done u ->
  compress_run (cm A) T (fst u) cs = Some c -> call_done c ->
  exists res, cc_run A T us cs sch j = Some (u, c, res) /\
    (forall x y, 0 <= x < Zlen rows -> 0 <= y < Zlen rows ->
       get (fst c) x = get (fst c) y -> connected (edges_of rows) x y) /\
    (forall x y, 0 <= x < Zlen rows -> 0 <= y < Zlen rows ->
       (get (fst c) x = get (fst c) y <-> exists r, root_of (fst u) x r /\ root_of (fst u) y r)) /\
    component_listing (Zlen rows) (fun x y => get (fst c) x = get (fst c) y) res.
Proof.
  intros HR Hok Hm HT HJ EW EU DU EC DC. pose proof HR as (H1 & H2 & H3 & H4 & _).
  destruct (cc_work_ok hasv base _ rows A T HR HT) as (work' & EW' & Hcat & _).
  assert (work' = work) by congruence. subst work'. rewrite H1 in *.
  assert (forall w e, In w work -> In e w -> 0 <= fst e < Zlen rows /\ 0 <= snd e < Zlen rows) as Hwr.
  { intros w e Hw He. apply edges_range with (rows := rows); auto. rewrite <- Hcat. apply in_concat. eauto. }
  destruct (union_sound (Zlen rows) work us u ltac:(lia) Hwr EU) as (Lu & Hroot & Hsound).
  assert (forall x, 0 <= x < Zlen rows -> exists y, get (fst u) x = Some y /\ 0 <= y <= x) as Hd.
  { pose proof (uinit_inv (Zlen rows) work ltac:(lia) Hwr) as HI.
    apply (urun_inv _ _ us _ u) in HI; auto. destruct HI as [[_ Hf] _].
    intros x Hx. destruct (Hf x Hx) as (y & Ey & Hy & _). eauto. }
  destruct (compress_result (Zlen rows) T (fst u) cs c Hm HT Lu Hd EC DC) as (Lc & Hc & Hths).
  destruct c as [p ths]. cbn [fst snd] in *.
  destruct (number_ok (Zlen rows) T p sch j ths Hm HT) as (res & E & HL); auto.
  { intros x Hx. destruct (Hc x Hx) as (r & Er & Hr & Er' & _). eauto. }
  exists res. split.
  - unfold cc_run, getBase. rewrite H3, get_rowptr_of, off_0, Z.add_0_r by lia.
    rewrite EW, H1, EU. cbn [fst]. rewrite EC. cbv beta iota. now rewrite E.
  - assert (forall x y, 0 <= x < Zlen rows -> 0 <= y < Zlen rows ->
       (get p x = get p y <-> exists r, root_of (fst u) x r /\ root_of (fst u) y r)) as Hiff.
    { intros x y Hx Hy. destruct (Hc x Hx) as (r & Er & _ & _ & Hr). destruct (Hc y Hy) as (r' & Er' & _ & _ & Hr').
      rewrite Er, Er'. split.
      - intros Eq. injection Eq as <-. eauto.
      - intros (q & Q1 & Q2). f_equal. rewrite (root_of_fun _ _ _ _ Hr Q1). symmetry. exact (root_of_fun _ _ _ _ Hr' Q2). }
    split; [|split; auto].
    intros x y Hx Hy Eq. apply Hiff in Eq as (r & R1 & R2); auto. rewrite <- Hcat. apply (Hsound x y r); auto.
Qed.

(** With one thread the listing is that of the connected components. *)
Lemma listing_ext m same same' res :
  (forall x y, 0 <= x < m -> 0 <= y < m -> (same x y <-> same' x y)) ->
  component_listing m same res -> component_listing m same' res.
Proof.
  intros H (g & G1 & G2 & G3 & G4 & G5 & G6 & G7 & G8 & G9). exists g. repeat split; auto.
  - intros Hs. apply (G9 x y); auto. now apply H.
  - intros Hs. apply H; auto. now apply (G9 x y).
Qed.

Theorem cc_one_thread {V} hasv base rows (A : csr V) us cs sch j work u c :
  rep hasv base (Zlen rows) rows A -> rows_ok (Zlen rows) rows -> 1 <= Zlen rows ->
  junk_ok (Zlen rows) 1 j ->
  mapM (cc_work A base 1) (zrange 0 1) = Some work ->
  union_run (cm A) work us = Some u -> all_done u ->
  compress_run (cm A) 1 (fst u) cs = Some c -> call_done c ->
  exists res, cc_run A 1 us cs sch j = Some (u, c, res) /\
    component_listing (Zlen rows) (connected (edges_of rows)) res.
Proof.
  intros HR Hok Hm HJ EW EU DU EC DC.
  destruct (cc_listing hasv base rows A 1 us cs sch j work u c) as (res & E & _ & Hiff & HL); auto; try lia.
  exists res. split; auto. apply listing_ext with (2 := HL).
  intros x y Hx Hy. rewrite Hiff by auto.
  destruct (cc_work_ok hasv base _ rows A 1 HR ltac:(lia)) as (work' & EW' & Hcat & Hlw).
  assert (work' = work) by congruence. subst work'.
  assert (exists w, work = [w]) as (w & ->).
  { destruct work as [|w [|w' r]]; unfold Zlen in Hlw; cbn [length] in Hlw; [lia|eauto|lia]. }
  cbn [concat] in Hcat. rewrite app_nil_r in Hcat. subst w.
  destruct HR as (H1 & _). rewrite H1 in *.
  apply (union_one_thread (Zlen rows) (edges_of rows) us u); auto; try lia.
  intros e He. exact (edges_range _ rows e Hok He).
Qed.

(** ** Refutations *)

(** The matrix of [lost_work]: with this schedule, findConnectedComponents
    reports two components although the graph is connected. *)
Definition lost_matrix : csr Z :=
  mkCSR 5 5 [0; 1; 2; 4; 6; 8] [3; 4; 3; 4; 0; 2; 1; 2] None None None None None.
Definition lost_rows : rows_t Z :=
  [[(3, 0)]; [(4, 0)]; [(3, 0); (4, 0)]; [(0, 0); (2, 0)]; [(1, 0); (2, 0)]].
Definition junk77 (T : Z) (m : nat) : cc_junk :=
  mkJunk (repeat 77 (S (Z.to_nat T))) (repeat 77 m) (fun K => repeat 77 (Z.to_nat K))
    (fun K => repeat 77 (Z.to_nat K)) (fun K => repeat 77 (Z.to_nat ((K + 1) * T))) (repeat 77 m).

Lemma lost_matrix_run :
  cc_run lost_matrix 4 lost_sched (concat (repeat [0; 1; 2; 3] 20)) (fun _ => []) (junk77 4 5) =
  Some (([0;1;0;0;1], [(Next, []); (Next, []); (Next, []); (Next, [])]),
        ([0;1;0;0;1], [(CNext, [], 2); (CNext, [], 0); (CNext, [], 0); (CNext, [], 0)]),
        mkCC 2 [0; 1] [3; 2] [0; 3; 1; 4; 3; 4; 3; 5; 77; 77; 77; 77] [0; 2; 3; 1; 4]).
Proof. vm_compute. reflexivity. Qed.

Theorem lost_matrix_refuted :
  rep false 0 5 lost_rows lost_matrix /\ rows_ok 5 lost_rows /\ junk_ok 5 4 (junk77 4 5) /\
  (forall x y, 0 <= x < 5 -> 0 <= y < 5 -> connected (edges_of lost_rows) x y) /\
  exists u c r,
    cc_run lost_matrix 4 lost_sched (concat (repeat [0; 1; 2; 3] 20)) (fun _ => []) (junk77 4 5) = Some (u, c, r) /\
    all_done u /\ call_done c /\ cc_n r = 2.
Proof.
  split; [repeat split|]. split.
  { intros r c v Hr Hc. cbn in Hr. repeat (destruct Hr as [<-|Hr]; [cbn in Hc; repeat (destruct Hc as [E|Hc]; [injection E as <- <-; lia|]); tauto|]). tauto. }
  split.
  { assert (forall k, 0 <= k -> Zlen (repeat 77 (Z.to_nat k)) = k) as Hz.
    { intros k Hk. unfold Zlen. rewrite repeat_length. lia. }
    split; [reflexivity|]. split; [reflexivity|]. split; [reflexivity|].
    intros K HK. cbn [j_c2r j_sizes j_prefix junk77]. rewrite !Hz; lia. }
  split.
  { assert (forall x, 0 <= x < 5 -> connected (edges_of lost_rows) 0 x) as H0.
    { assert (forall a b, In (a, b) (edges_of lost_rows) -> connected (edges_of lost_rows) a b) as St.
      { intros a b H. now apply rst_step. }
      assert (connected (edges_of lost_rows) 0 3) as H3 by (apply St; vm_compute; tauto).
      assert (connected (edges_of lost_rows) 0 2) as H2.
      { apply rst_trans with 3; auto. apply St. vm_compute; tauto. }
      assert (connected (edges_of lost_rows) 0 4) as H4.
      { apply rst_trans with 2; auto. apply St. vm_compute; tauto. }
      assert (connected (edges_of lost_rows) 0 1) as H1.
      { apply rst_trans with 4; auto. apply St. vm_compute; tauto. }
      intros x Hx. assert (x = 0 \/ x = 1 \/ x = 2 \/ x = 3 \/ x = 4) as [->|[->|[->|[->| ->]]]] by lia; auto.
      apply rst_refl. }
    intros x y Hx Hy. apply rst_trans with 0; [apply rst_sym|]; apply H0; auto. }
  do 3 eexists. split; [exact lost_matrix_run|]. split; [|split].
  - intros th H. cbn in H. intuition.
  - intros pc todo n H. cbn in H. intuition congruence.
  - reflexivity.
Qed.

(** An empty matrix: line 276 stores into the zero-length array compSizes. *)
Definition empty_matrix : csr Z := mkCSR 0 0 [0] [] None None None None None.
Lemma empty_matrix_run :
  cc_run empty_matrix 2 [] [] (fun _ => []) (junk77 2 0) = None.
Proof. vm_compute. reflexivity. Qed.
(** Everything before that line succeeds, and both phases are finished. *)
Lemma empty_matrix_before :
  union_run 0 [[]; []] [] = Some ([], [(Next, []); (Next, [])]) /\
  compress_run 0 2 [] [] = Some ([], [(CNext, [], 0); (CNext, [], 0)]) /\
  mapM (cc_work empty_matrix 0 2) (zrange 0 2) = Some [[]; []].
Proof. vm_compute. auto. Qed.
