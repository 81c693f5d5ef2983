(** * Interleavings of the atomic actions of several threads.

    A parallel phase between two barriers is a list of threads, each a list of
    atomic actions on the shared state.  An execution is any interleaving.
    When actions of different threads commute, every interleaving computes what
    running the threads one after the other computes. *)
From Verif Require Import Base.

Inductive interleave {A} : list (list A) -> list A -> Prop :=
| il_done : forall ts, (forall t, In t ts -> t = []) -> interleave ts []
| il_step : forall ts1 a t ts2 tr,
    interleave (ts1 ++ t :: ts2) tr ->
    interleave (ts1 ++ (a :: t) :: ts2) (a :: tr).

Definition commute {A S} (f : A -> S -> option S) (a b : A) : Prop :=
  forall s, (s' <- f a s ;; f b s') = (s' <- f b s ;; f a s').

(** Actions of different threads commute. *)
Fixpoint threads_commute {A S} (f : A -> S -> option S) (ts : list (list A)) : Prop :=
  match ts with
  | [] => True
  | t :: r =>
      (forall a t' b, In a t -> In t' r -> In b t' -> commute f a b) /\
      threads_commute f r
  end.

Lemma foldM_commute {A S} (f : A -> S -> option S) a l s :
  (forall b, In b l -> commute f a b) ->
  (s' <- foldM f l s ;; f a s') = (s' <- f a s ;; foldM f l s').
Proof.
  revert s; induction l as [|b l IH]; intros s H; cbn.
  - now destruct (f a s).
  - pose proof (H b (or_introl eq_refl) s) as Hb.
    assert (forall b', In b' l -> commute f a b') as Hl by (intros; apply H; cbn; auto).
    destruct (f b s) as [sb|] eqn:Eb.
    + rewrite (IH sb Hl). destruct (f a s) as [sa|] eqn:Ea.
      * rewrite <- Hb. destruct (f b sa) eqn:E2; auto.
      * now rewrite <- Hb.
    + destruct (f a s) as [sa|]; auto. now rewrite Hb.
Qed.

Lemma threads_commute_tail {A S} (f : A -> S -> option S) ts1 a t ts2 :
  threads_commute f (ts1 ++ (a :: t) :: ts2) ->
  threads_commute f (ts1 ++ t :: ts2) /\
  (forall t' b, In t' ts1 -> In b t' -> commute f a b).
Proof.
  induction ts1 as [|t1 ts1 IH]; cbn.
  - intros [H1 H2]. split; [split; auto|].
    + intros x t' y Hx; apply H1; cbn; auto.
    + tauto.
  - intros [H1 H2]. destruct (IH H2) as [IH1 IH2]. split; [split; auto|].
    + intros x t' y Hx Ht' Hy. apply in_app_or in Ht' as [Ht'|[<-|Ht']].
      * eapply H1; eauto. apply in_or_app; auto.
      * eapply (H1 x (a :: t) y); cbn; auto. apply in_or_app; cbn; auto.
      * eapply H1; eauto. apply in_or_app; cbn; auto.
    + intros t' b [<-|Ht'] Hb; eauto.
      intros s. symmetry. apply (H1 b (a :: t) a); cbn; auto.
      apply in_or_app; cbn; auto.
Qed.

(** Every interleaving equals running the threads one after the other. *)
Theorem interleave_deterministic {A S} (f : A -> S -> option S) ts tr :
  interleave ts tr -> threads_commute f ts ->
  forall s, foldM f tr s = foldM f (concat ts) s.
Proof.
  induction 1 as [ts Hd|ts1 a t ts2 tr Hi IH]; intros Hc s.
  - replace (concat ts) with (@nil A); auto.
    clear Hc. induction ts as [|t ts IHts]; cbn; auto.
    rewrite (Hd t) by (cbn; auto). cbn. apply IHts. intros; apply Hd; cbn; auto.
  - destruct (threads_commute_tail _ _ _ _ _ Hc) as [Hc1 Hc2].
    cbn [foldM]. rewrite concat_app, foldM_app. cbn [concat app foldM].
    assert (forall b, In b (concat ts1) -> commute f a b) as Hcc.
    { intros b Hb. apply in_concat in Hb as (t' & Ht' & Hb). eauto. }
    pose proof (foldM_commute f a (concat ts1) s Hcc) as E.
    transitivity (s'' <- (s' <- foldM f (concat ts1) s ;; f a s') ;; foldM f (t ++ concat ts2) s'').
    + rewrite E. destruct (f a s) as [sa|]; auto.
      rewrite (IH Hc1). rewrite concat_app, foldM_app. cbn. reflexivity.
    + destruct (foldM f (concat ts1) s); auto.
Qed.

Lemma interleave_perm {A} (ts : list (list A)) tr :
  interleave ts tr -> Permutation tr (concat ts).
Proof.
  induction 1 as [ts Hd|ts1 a t ts2 tr Hi IH].
  - replace (concat ts) with (@nil A); auto.
    induction ts as [|t ts IHts]; cbn; auto.
    rewrite (Hd t) by (cbn; auto). cbn. apply IHts. intros; apply Hd; cbn; auto.
  - rewrite concat_app in *. cbn in *. apply Permutation_cons_app. auto.
Qed.

(** There is always an interleaving: threads one after the other. *)
Lemma interleave_concat {A} (ts : list (list A)) : interleave ts (concat ts).
Proof.
  assert (forall ts1 (ts : list (list A)), (forall t, In t ts1 -> t = []) ->
    interleave (ts1 ++ ts) (concat ts)) as G.
  { intros ts1 ts'. revert ts1. induction ts' as [|t ts' IH]; intros ts1 H.
    - cbn. constructor. intros t Ht. rewrite app_nil_r in Ht. auto.
    - cbn. induction t as [|a t IHt].
      + cbn. replace (ts1 ++ [] :: ts') with ((ts1 ++ [[]]) ++ ts')
          by (rewrite <- app_assoc; auto).
        apply IH. intros t Ht. apply in_app_or in Ht as [Ht|[<-|[]]]; auto.
      + cbn. constructor. auto. }
  apply (G [] ts). cbn; tauto.
Qed.

(** Invariants are preserved by any interleaving. *)
Lemma interleave_inv {A S} (P : S -> Prop) (f : A -> S -> option S) ts tr s s' :
  interleave ts tr ->
  (forall t a s s', In t ts -> In a t -> P s -> f a s = Some s' -> P s') ->
  P s -> foldM f tr s = Some s' -> P s'.
Proof.
  intros Hi H HP E. eapply foldM_inv; eauto.
  intros a s1 s2 Ha HP1 E1. apply (Permutation_in _ (interleave_perm _ _ Hi)) in Ha.
  apply in_concat in Ha as (t & Ht & Ha). eauto.
Qed.

(** ** Stores to different places of an array commute. *)

Lemma upd_comm {A} (l : list A) i j v w :
  i <> j -> upd (upd l i v) j w = upd (upd l j w) i v.
Proof.
  revert i j; induction l as [|a l IH]; intros i j H; cbn; auto.
  destruct i, j; cbn; try congruence. f_equal. apply IH. congruence.
Qed.

Lemma set_comm {A} (l : list A) i j v w :
  i <> j -> (l' <- set l i v ;; set l' j w) = (l' <- set l j w ;; set l' i v).
Proof.
  intros H. unfold set.
  destruct ((0 <=? i) && (i <? Zlen l)) eqn:Ei, ((0 <=? j) && (j <? Zlen l)) eqn:Ej.
  - unfold Zlen in *. rewrite !upd_length, Ei, Ej. f_equal. apply upd_comm. lia.
  - unfold Zlen in *. now rewrite upd_length, Ej.
  - unfold Zlen in *. now rewrite upd_length, Ei.
  - auto.
Qed.

(** A parallel loop whose iteration [i] stores a value computed from data that
    no iteration changes: action [i] is [w[p i] = g i]. *)
Definition store_act {V} (p : Z -> option Z) (g : Z -> option V) (i : Z) (w : list V)
  : option (list V) :=
  k <- p i ;; v <- g i ;; set w k v.

Lemma store_act_commute {V} (p : Z -> option Z) (g : Z -> option V) i j :
  (forall a b, p i = Some a -> p j = Some b -> a <> b) ->
  commute (store_act p g) i j.
Proof.
  intros H s. unfold store_act.
  destruct (p i) as [a|] eqn:Ea, (p j) as [b|] eqn:Eb; cbn; auto.
  - destruct (g i), (g j); cbn; auto.
    + apply set_comm. eauto.
    + now destruct (set s a v).
    + now destruct (set s b v).
  - destruct (g i); auto. now destruct (set s a v).
  - destruct (g j); auto. now destruct (set s b v).
Qed.

(** The iterations of a parallel loop, split over [T] threads at [b]. *)
Definition par_split (b : Z -> Z) (T : Z) : list (list Z) :=
  map (fun t => zrange (b t) (b (t + 1))) (zrange 0 T).

Lemma threads_commute_map {A S} (f : A -> S -> option S) (g : Z -> list A) l :
  NoDup l ->
  (forall t1 t2 a b, In t1 l -> In t2 l -> t1 <> t2 -> In a (g t1) -> In b (g t2) ->
     commute f a b) ->
  threads_commute f (map g l).
Proof.
  induction l as [|x l IH]; cbn; intros Hnd H; auto.
  inversion Hnd; subst. split.
  - intros a t' b Ha Ht' Hb. apply in_map_iff in Ht' as (y & <- & Hy).
    apply (H x y); cbn; auto. intros ->; auto.
  - apply IH; auto. intros; eapply (H t1 t2); cbn; eauto.
Qed.

Lemma tiling_disjoint (b : Z -> Z) T t1 t2 i j :
  (forall t, 0 <= t < T -> b t <= b (t + 1)) ->
  0 <= t1 < T -> 0 <= t2 < T -> t1 <> t2 ->
  b t1 <= i < b (t1 + 1) -> b t2 <= j < b (t2 + 1) -> i <> j.
Proof.
  intros Hm H1 H2 Hne Hi Hj.
  assert (forall k t, 0 <= t -> t + Z.of_nat k <= T -> b t <= b (t + Z.of_nat k)) as Mono.
  { induction k as [|k IH]; intros t Ht Hle.
    - replace (t + Z.of_nat 0) with t by lia. lia.
    - specialize (IH t Ht). pose proof (Hm (t + Z.of_nat k)).
      replace (t + Z.of_nat (S k)) with (t + Z.of_nat k + 1) by lia. lia. }
  destruct (Z_lt_ge_dec t1 t2).
  - pose proof (Mono (Z.to_nat (t2 - (t1 + 1))) (t1 + 1)).
    replace (t1 + 1 + Z.of_nat (Z.to_nat (t2 - (t1 + 1)))) with t2 in * by lia. lia.
  - pose proof (Mono (Z.to_nat (t1 - (t2 + 1))) (t2 + 1)).
    replace (t2 + 1 + Z.of_nat (Z.to_nat (t1 - (t2 + 1)))) with t1 in * by lia. lia.
Qed.

(** Main rule for OpenMP worksharing: if the loop is split at a tiling of
    [lo, hi) and different iterations commute, every interleaving computes what
    the sequential loop computes. *)
Theorem par_for_sequential {S} (f : Z -> S -> option S) (b : Z -> Z) T lo hi tr s :
  0 <= T -> b 0 = lo -> b T = hi ->
  (forall t, 0 <= t < T -> b t <= b (t + 1)) ->
  (forall i j, lo <= i < hi -> lo <= j < hi -> i <> j -> commute f i j) ->
  interleave (par_split b T) tr ->
  foldM f tr s = forZ lo hi f s.
Proof.
  intros HT Hlo Hhi Hm Hc Hi. unfold forZ.
  assert (forall k t, 0 <= t -> t + Z.of_nat k <= T -> b t <= b (t + Z.of_nat k)) as Mono.
  { induction k as [|k IH]; intros t Ht Hle.
    - replace (t + Z.of_nat 0) with t by lia. lia.
    - specialize (IH t Ht). pose proof (Hm (t + Z.of_nat k)).
      replace (t + Z.of_nat (Datatypes.S k)) with (t + Z.of_nat k + 1) by lia. lia. }
  assert (forall t, 0 <= t <= T -> lo <= b t <= hi) as Bd.
  { intros t Ht. pose proof (Mono (Z.to_nat t) 0). pose proof (Mono (Z.to_nat (T - t)) t).
    replace (0 + Z.of_nat (Z.to_nat t)) with t in * by lia.
    replace (t + Z.of_nat (Z.to_nat (T - t))) with T in * by lia. lia. }
  rewrite (interleave_deterministic f (par_split b T)); auto.
  - unfold par_split. rewrite concat_zrange_tiling by auto. now rewrite Hlo, Hhi.
  - apply threads_commute_map; [apply NoDup_zrange|].
    intros t1 t2 i j H1 H2 Hne Hi1 Hj1.
    apply In_zrange in H1, H2, Hi1, Hj1.
    pose proof (Bd t1); pose proof (Bd (t1 + 1)); pose proof (Bd t2); pose proof (Bd (t2 + 1)).
    apply Hc; try lia. apply (tiling_disjoint b T t1 t2); auto; lia.
Qed.

Example interleave_nonvacuous :
  interleave [[1;2];[3]] [1;3;2].
Proof.
  apply (il_step [] 1 [2] [[3]]). apply (il_step [[2]] 3 [] []).
  apply (il_step [] 2 [] [[]]). constructor. cbn. intuition.
Qed.

(** ** Iterations in any order

    An [omp parallel for] without schedule clause may give any iteration to any
    thread, so its trace is some permutation of the iteration space. *)
Lemma foldM_perm {A S} (f : A -> S -> option S) l l' :
  Permutation l l' ->
  (forall a b, In a l -> In b l -> a <> b -> commute f a b) ->
  (forall a b : A, {a = b} + {a <> b}) ->
  forall s, foldM f l s = foldM f l' s.
Proof.
  intros HP Hc Dec. induction HP as [|x l l' HP IH|x y l|l1 l2 l3 HP1 IH1 HP2 IH2]; intros s.
  - auto.
  - cbn. destruct (f x s); auto. apply IH. intros; apply Hc; cbn; auto.
  - cbn. destruct (Dec x y) as [->|Hne]; auto.
    assert (commute f y x) as C by (apply Hc; cbn; auto).
    specialize (C s). destruct (f y s) as [sy|], (f x s) as [sx|]; auto.
    + now rewrite C.
    + now rewrite C.
    + now rewrite <- C.
  - rewrite IH1 by auto. apply IH2.
    intros a b Ha Hb. apply Hc; apply (Permutation_in _ (Permutation_sym HP1)); auto.
Qed.

Theorem par_for_any_order {S} (f : Z -> S -> option S) lo hi tr s :
  Permutation tr (zrange lo hi) ->
  (forall i j, lo <= i < hi -> lo <= j < hi -> i <> j -> commute f i j) ->
  foldM f tr s = forZ lo hi f s.
Proof.
  intros HP Hc. unfold forZ. apply foldM_perm; auto; [|apply Z.eq_dec].
  intros a b Ha Hb. apply Hc; apply In_zrange; eapply Permutation_in; eauto.
Qed.

(** ** Read some elements, write one

    [b[i] = f(b[j1], b[j2], ...)].  Two such actions commute unless one writes
    what the other reads or writes. *)
Definition gact {V} (i : Z) (js : list Z) (f : list V -> V) (b : list V) : option (list V) :=
  vs <- mapM (get b) js ;; set b i (f vs).

Lemma mapM_get_other {V} (b b' : list V) i v js :
  set b i v = Some b' -> ~ In i js -> mapM (get b') js = mapM (get b) js.
Proof.
  intros E. induction js as [|j js IH]; intros Hn; cbn; auto.
  rewrite (get_set_other _ _ _ _ _ E) by (intros ->; apply Hn; cbn; auto).
  rewrite IH; auto. intros H; apply Hn; cbn; auto.
Qed.

Lemma set_none {V} (b : list V) i v : set b i v = None <-> (i < 0 \/ Zlen b <= i).
Proof.
  unfold set. destruct ((0 <=? i) && (i <? Zlen b)) eqn:E; split; intros; try discriminate; auto; lia.
Qed.

Lemma set_none_other {V} (b b' : list V) i j v w :
  set b i v = Some b' -> set b j w = None -> set b' j w = None.
Proof. intros E H. apply set_none in H. apply set_none. rewrite (set_len _ _ _ _ E). auto. Qed.

Lemma gact_commute {V} i js f i' js' f' (b : list V) :
  i <> i' -> ~ In i js' -> ~ In i' js ->
  (b1 <- gact i js f b ;; gact i' js' f' b1) = (b1 <- gact i' js' f' b ;; gact i js f b1).
Proof.
  intros Hne H1 H2. unfold gact.
  destruct (mapM (get b) js) as [vs|] eqn:E1; [|].
  - destruct (set b i (f vs)) as [b1|] eqn:S1.
    + rewrite (mapM_get_other _ _ _ _ _ S1 H1).
      destruct (mapM (get b) js') as [vs'|] eqn:E2; auto.
      destruct (set b i' (f' vs')) as [b2|] eqn:S2.
      * rewrite (mapM_get_other _ _ _ _ _ S2 H2), E1.
        pose proof (set_comm b i i' (f vs) (f' vs') Hne) as C. now rewrite S1, S2 in C.
      * apply (set_none_other _ _ _ _ _ _ S1 S2).
    + destruct (mapM (get b) js') as [vs'|] eqn:E2; auto.
      destruct (set b i' (f' vs')) as [b2|] eqn:S2; auto.
      rewrite (mapM_get_other _ _ _ _ _ S2 H2), E1. symmetry.
      apply (set_none_other _ _ _ _ _ _ S2 S1).
  - destruct (mapM (get b) js') as [vs'|] eqn:E2; auto.
    destruct (set b i' (f' vs')) as [b2|] eqn:S2; auto.
    now rewrite (mapM_get_other _ _ _ _ _ S2 H2), E1.
Qed.

(** ** Executable interleavings

    [merge sched ts]: the threads [ts] take turns as [sched] says; when it is
    exhausted they finish one after the other.  Every interleaving arises from
    some [sched] ([interleave_merge]), so quantifying over [sched] is the same
    as quantifying over interleavings. *)
Fixpoint merge {A} (sched : list nat) (ts : list (list A)) : list A :=
  match sched with
  | [] => concat ts
  | t :: r =>
      match nth_error ts t with
      | Some (a :: l) => a :: merge r (upd ts t l)
      | _ => merge r ts
      end
  end.

(** A parallel region: actions [f], threads [ts], order [sched]. *)
Definition par {A S} (sched : list nat) (f : A -> S -> option S) (ts : list (list A)) (s : S)
  : option S := foldM f (merge sched ts) s.

Lemma upd_app_mid {A} (l1 : list A) x l2 v : upd (l1 ++ x :: l2) (length l1) v = l1 ++ v :: l2.
Proof. induction l1 as [|a l1 IH]; cbn; auto. now rewrite IH. Qed.

Theorem merge_interleave {A} sched (ts : list (list A)) : interleave ts (merge sched ts).
Proof.
  revert ts. induction sched as [|t r IH]; intros ts; cbn [merge].
  - apply interleave_concat.
  - destruct (nth_error ts t) as [[|a l]|] eqn:E; auto.
    apply nth_error_split in E as (l1 & l2 & -> & <-).
    rewrite upd_app_mid. constructor. apply IH.
Qed.

Theorem interleave_merge {A} (ts : list (list A)) tr :
  interleave ts tr -> exists sched, merge sched ts = tr.
Proof.
  induction 1 as [ts Hd|ts1 a t ts2 tr Hi [sched IH]].
  - exists []. cbn. induction ts as [|t ts IHts]; cbn; auto.
    rewrite (Hd t) by (cbn; auto). cbn. apply IHts. intros; apply Hd; cbn; auto.
  - exists (length ts1 :: sched). cbn [merge].
    rewrite nth_error_app2 by auto. rewrite Nat.sub_diag. cbn [nth_error].
    rewrite upd_app_mid. now rewrite IH.
Qed.

Lemma par_sequential {A S} sched (f : A -> S -> option S) ts s :
  threads_commute f ts -> par sched f ts s = foldM f (concat ts) s.
Proof. intros H. unfold par. apply interleave_deterministic; auto. apply merge_interleave. Qed.

Lemma merge_perm {A} sched (ts : list (list A)) : Permutation (merge sched ts) (concat ts).
Proof. apply interleave_perm, merge_interleave. Qed.

Lemma In_merge {A} sched (ts : list (list A)) a :
  In a (merge sched ts) <-> exists t, In t ts /\ In a t.
Proof.
  rewrite <- in_concat. split; apply Permutation_in; [|apply Permutation_sym]; apply merge_perm.
Qed.

(** ** Stores of values that do not depend on the state, in any order *)
Lemma write_all {A V} (f : A -> list V -> option (list V)) (pos : A -> Z) (val : A -> V) l w :
  (forall a w', In a l -> Zlen w' = Zlen w -> f a w' = set w' (pos a) (val a)) ->
  (forall a, In a l -> 0 <= pos a < Zlen w) ->
  (forall a b, In a l -> In b l -> pos a = pos b -> val a = val b) ->
  exists w', foldM f l w = Some w' /\ Zlen w' = Zlen w /\
    (forall a, In a l -> get w' (pos a) = Some (val a)) /\
    (forall k, (forall a, In a l -> pos a <> k) -> get w' k = get w k).
Proof.
  revert w. induction l as [|a l IH]; intros w Hf Hp Hv.
  - exists w. cbn. repeat split; auto. tauto.
  - cbn [foldM]. rewrite Hf by (cbn; auto).
    destruct (set_ok w (pos a) (val a)) as (w1 & E1); [apply Hp; cbn; auto|]. rewrite E1.
    pose proof (set_len _ _ _ _ E1) as L1.
    destruct (IH w1) as (w' & E & L & G1 & G2).
    + intros b w' Hb Hl. apply Hf; cbn; auto. lia.
    + intros b Hb. rewrite L1. apply Hp; cbn; auto.
    + intros; apply Hv; cbn; auto.
    + exists w'. split; auto. split; [lia|]. split.
      * intros b [<-|Hb]; auto.
        destruct (in_dec Z.eq_dec (pos a) (map pos l)) as [Hin|Hout].
        -- apply in_map_iff in Hin as (c & Ec & Hc). rewrite <- Ec. rewrite G1 by auto. f_equal.
           apply Hv; cbn; auto.
        -- rewrite G2; [apply (get_set_same _ _ _ _ E1)|].
           intros c Hc Eq. apply Hout. rewrite <- Eq. apply in_map; auto.
      * intros k Hk. rewrite G2 by (intros; apply Hk; cbn; auto).
        apply (get_set_other _ _ _ _ _ E1). intros ->. apply (Hk a); cbn; auto.
Qed.

(** Two components updated side by side. *)
Lemma foldM_pair {A S1 S2} (f : A -> S1 * S2 -> option (S1 * S2)) f1 f2 l s1 s2 r1 r2 :
  (forall a x y, f a (x, y) = (x' <- f1 a x ;; y' <- f2 a y ;; Some (x', y'))) ->
  foldM f1 l s1 = Some r1 -> foldM f2 l s2 = Some r2 -> foldM f l (s1, s2) = Some (r1, r2).
Proof.
  intros Hf. revert s1 s2. induction l as [|a l IH]; intros s1 s2; cbn [foldM].
  - congruence.
  - rewrite Hf. destruct (f1 a s1); [|discriminate]. destruct (f2 a s2); [|discriminate]. auto.
Qed.
