(** * From levels to tasks (LevelSchedule.cpp:602-798).

    Every level is sorted and divided among the threads; the rows are then
    renumbered so that the rows of a thread are contiguous.  The loop over levels
    is parallel; its iterations touch disjoint parts of reversePerm, bBuffer and
    taskRows, so the model computes them one by one.  The final loop over threads
    stores into shared arrays; its stores are interleaved arbitrarily. *)
From Coq Require Import Permutation.
From Verif Require Import Base Interleave Spec Search Partition PrefixSum Flat Csr Transpose RowPar Ilu Levels LevelsFacts LevelsMain.

(** ** Model *)
(** std::sort on int, by its contract. *)
Fixpoint zinsert (x : Z) (l : list Z) : list Z := match l with [] => [x] | y :: r => if x <=? y then x :: l else y :: zinsert x r end.
Definition zsort (l : list Z) : list Z := fold_right zinsert [] l.

(** :631-665, the loop over threads for one level; [r], [b] and the ranges are
    relative to levelBegin, [n] is the size of the level.  The flag tells that the
    loop was left by break. *)
Fixpoint split_loop (fuel : nat) (agg : bool) (b : list Z) (n per t prevEnd r : Z) : option (list (Z * Z) * bool) :=
  match fuel with
  | O => Some ([], false)
  | S fuel =>
      newr <- lower_bound b r n ((t + 1) * per) ;;
      let r1 := if agg then (if t =? 0 then Z.min (r + (newr - r + 7) / 8 * 8) n else Z.min (r - 1 + (newr - r + 1 + 7) / 8 * 8) n) else newr in
      let e := Z.min r1 n in
      if agg && (n <=? e) then Some ([(prevEnd, e)], true)
      else ' (l, stop) <- split_loop fuel agg b n per (t + 1) e (r1 + 1) ;; Some ((prevEnd, e) :: l, stop)
  end.
(** :618-681: taskRows of one level, for every thread.  When the loop is not left
    by break, the shift of :673-676 starts beyond the last thread. *)
Definition level_tasks (T : Z) (agg : bool) (cost : Z -> Z) (lb : Z) (L : list Z) : option (list (Z * Z)) :=
  let total := zsum (map cost L) in
  ' (l, stop) <- split_loop (Z.to_nat T) agg (psums 0 (map cost L)) (Zlen L) ((total + T - 1) / T) 0 0 0 ;;
  let l' := map (fun p => (lb + fst p, lb + snd p)) l in
  if agg then if stop then Some (map (fun _ => (lb, lb)) (zrange 0 (T - Zlen l')) ++ l') else None else Some l'.

(** :746-757, 763-777: the stores of one thread, as (array, position, value);
    array 0 is taskBoundaries, 1 origToThreadContPerm, 2 threadContToOrigPerm. *)
Definition fill_task (bar : bool) (rev : list Z) (be : Z * Z) (s : Z * Z * list (Z * Z * Z)) : option (Z * Z * list (Z * Z * Z)) :=
  let '(b, e) := be in let '(ro, to, acts) := s in
  if bar || (b <? e) then
    mv <- mapM (fun j => i <- get rev j ;; Some [(1, i, ro + (j - b)); (2, ro + (j - b), i)]) (zrange b e) ;;
    Some (ro + Z.max 0 (e - b), to + 1, acts ++ (0, to, ro) :: concat mv)
  else Some (ro, to, acts).
Definition fill_thread (bar : bool) (rev : list Z) (tr : list (list (Z * Z))) (rps thb : list Z) (t : Z) : option (list (Z * Z * Z)) :=
  ro <- get rps t ;; to <- get thb t ;; bes <- mapM (fun lt => get lt t) tr ;;
  ' (_, _, acts) <- foldM (fill_task bar rev) bes (ro, to, []) ;; Some acts.
Definition write3 (a : Z * Z * Z) (s : list Z * list Z * list Z) : option (list Z * list Z * list Z) :=
  let '(k, p, v) := a in let '(x, y, z) := s in
  if k =? 0 then x' <- set x p v ;; Some (x', y, z) else if k =? 1 then y' <- set y p v ;; Some (x, y', z) else z' <- set z p v ;; Some (x, y, z').

(** :621 sort of each level *)
Definition sort_levels (rv lv : list Z) : option (list (list Z)) :=
  mapM (fun l => b <- get lv l ;; e <- get lv (l + 1) ;;
        if (0 <=? b) && (b <=? e) && (e <=? Zlen rv) then Some (zsort (slice rv b e)) else None) (zrange 0 (Zlen lv - 1)).

(** :602-798.  Results: threadBoundaries, taskBoundaries, origToThreadContPerm,
    threadContToOrigPerm.  [tbj] is what taskBoundaries holds after resize. *)
Definition makeTasks (T : Z) (bar agg : bool) (cost : Z -> Z) (sch : list nat) (rv lv : list Z) (tbj : Z -> Z) (o2t t2o : list Z)
  : option (list Z * list Z * list Z * list Z) :=
  levels <- sort_levels rv lv ;;
  tr <- mapM (fun l => lb <- get lv l ;; L <- get levels l ;; level_tasks T agg cost lb L) (zrange 0 (Zlen lv - 1)) ;;
  counts <- mapM (fun t => ds <- mapM (fun lt => ' (b, e) <- get lt t ;; Some (e - b)) tr ;;
                           Some (zsum ds, if bar then Zlen ds else Zlen (filter (fun d => negb (d =? 0)) ds))) (zrange 0 T) ;;
  let rps := psums 0 (map fst counts) in let thb := psums 0 (map snd counts) in
  nt <- get thb T ;;
  acts <- mapM (fill_thread bar (concat levels) tr rps thb) (zrange 0 T) ;;
  ' (tb, o2t', t2o') <- par sch write3 acts (map tbj (zrange 0 (nt + 1)), o2t, t2o) ;;
  tb' <- set tb nt (Zlen o2t) ;;
  Some (thb, tb', o2t', t2o').

(** ** Specification *)
(** [tasks] lists the rows of every task of every thread. *)
Record tasks_ok (m T : Z) (tasks : list (list (list Z))) (thb tb o2t t2o : list Z) : Prop := {
  to_T : Zlen tasks = T;
  to_thb : thb = map (off (nthl tasks)) (zrange 0 (T + 1));
  to_tb : tb = map (off (nthl (concat tasks))) (zrange 0 (Zlen (concat tasks) + 1));
  to_t2o : t2o = concat (concat tasks);
  to_perm : Permutation t2o (zrange 0 m);
  to_inv : Zlen o2t = m /\ forall p i, get t2o p = Some i -> get o2t i = Some p }.
(** Task [k] of thread [t] lies in one level, later tasks in later levels. *)
Definition levels_increase (lev : Z -> Z) (tasks : list (list (list Z))) : Prop :=
  exists lv : Z -> Z -> Z, forall t ks, get tasks t = Some ks ->
    (forall k K, get ks k = Some K -> forall i, In i K -> lev i = lv t k) /\
    (forall k k', 0 <= k < k' -> k' < Zlen ks -> lv t k < lv t k').

(** ** Proofs *)
Lemma zinsert_perm x l : Permutation (zinsert x l) (x :: l).
Proof. induction l as [|y l IH]; cbn [zinsert]; auto. destruct (x <=? y); auto. rewrite IH. apply perm_swap. Qed.
Lemma zsort_perm l : Permutation (zsort l) l.
Proof. induction l as [|x l IH]; cbn; auto. unfold zsort in IH. now rewrite zinsert_perm, IH. Qed.
Lemma Sorted_mono l : monotone l <-> match l with [] => True | x :: r => (forall y, In y r -> x <= y) /\ monotone r end.
Proof.
  destruct l as [|x r]; [split; auto; intros _ i j a b _ H; apply get_Some_bounds in H; change (Zlen (@nil Z)) with 0 in H; lia|]. split.
  - intros H. split.
    + intros y Hy. apply In_get in Hy as (n & Hn & Gn). apply (H 0 (n + 1)); [lia|apply get_cons_0|]. rewrite get_cons_pos by lia. now replace (n + 1 - 1) with n by lia.
    + intros i j a b Hij Ha Hb. pose proof (get_Some_bounds _ _ _ Ha). apply (H (i + 1) (j + 1)); [lia| |]; rewrite get_cons_pos by lia; [now replace (i + 1 - 1) with i by lia|now replace (j + 1 - 1) with j by lia].
  - intros (H1 & H2) i j a b Hij Ha Hb. pose proof (get_Some_bounds _ _ _ Ha). destruct (Z.eq_dec i 0) as [->|].
    + rewrite get_cons_0 in Ha. injection Ha as <-. destruct (Z.eq_dec j 0) as [->|]; [rewrite get_cons_0 in Hb; injection Hb as <-; lia|]. rewrite get_cons_pos in Hb by lia. apply H1. eapply get_In; eauto.
    + rewrite get_cons_pos in Ha, Hb by lia. apply (H2 (i - 1) (j - 1)); auto. lia.
Qed.
Lemma zinsert_mono x l : monotone l -> monotone (zinsert x l).
Proof.
  induction l as [|y l IH]; intros H; cbn [zinsert].
  - apply Sorted_mono. split; [intros y []|auto].
  - destruct (Z.leb_spec x y) as [L|L]; apply Sorted_mono.
    + split; auto. intros z [<-|Hz]; auto. apply Sorted_mono in H as (H1 & _). specialize (H1 z Hz). lia.
    + apply Sorted_mono in H as (H1 & H2). split; [|auto]. intros z Hz. apply (Permutation_in z (zinsert_perm x l)) in Hz as [<-|Hz]; [lia|auto].
Qed.
Lemma zsort_mono l : monotone (zsort l).
Proof. induction l as [|x l IH]; [intros i j a b _ H; apply get_Some_bounds in H; change (Zlen (zsort [])) with 0 in H; lia|]. cbn. apply zinsert_mono. exact IH. Qed.
Lemma mono_unique l : forall l', monotone l -> monotone l' -> Permutation l l' -> l = l'.
Proof.
  induction l as [|x l IH]; intros [|y l'] H H' P; auto; try (apply Permutation_length in P; discriminate).
  apply Sorted_mono in H as (H1 & H2). pose proof H' as H0'. apply Sorted_mono in H' as (H1' & H2').
  assert (x = y).
  { assert (In x (y :: l')) as A by (eapply Permutation_in; [exact P|cbn; auto]). assert (In y (x :: l)) as B by (eapply Permutation_in; [symmetry; exact P|cbn; auto]).
    destruct A as [->|A]; auto. destruct B as [->|B]; auto. specialize (H1 y B). specialize (H1' x A). lia. }
  subst y. f_equal. apply IH; auto. now apply Permutation_cons_inv in P.
Qed.
Lemma zrange_mono lo hi : monotone (zrange lo hi).
Proof.
  intros i j a b Hij Ha Hb. pose proof (get_Some_bounds _ _ _ Ha) as A. pose proof (get_Some_bounds _ _ _ Hb) as B. rewrite Zlen_zrange in A, B. rewrite get_zrange in Ha, Hb by lia. injection Ha as <-. injection Hb as <-. lia.
Qed.
Lemma filter_mono (p : Z -> bool) l : monotone l -> monotone (filter p l).
Proof.
  induction l as [|x l IH]; intros H; cbn [filter]; auto. apply Sorted_mono in H as (H1 & H2). destruct (p x); auto. apply Sorted_mono. split; auto. intros y Hy. apply filter_In in Hy as (Hy & _). auto.
Qed.
(** A sorted level is the list of its rows in increasing order. *)
Lemma zsort_level m (p : Z -> bool) l : NoDup l -> (forall i, In i l <-> 0 <= i < m /\ p i = true) -> zsort l = filter p (zrange 0 m).
Proof.
  intros N M. apply mono_unique. { apply zsort_mono. } { apply filter_mono, zrange_mono. }
  rewrite zsort_perm. apply NoDup_Permutation; auto. { apply NoDup_filter, NoDup_zrange. } intros i. rewrite M, filter_In, In_zrange. tauto.
Qed.

Definition lvl m (lev : Z -> Z) l := filter (fun i => lev i =? l) (zrange 0 m).
Lemma sort_levels_ok m lev ls : level_sets m lev ls -> sort_levels (concat ls) (map (off (nthl ls)) (zrange 0 (Zlen ls + 1))) = Some (map (lvl m lev) (zrange 0 (Zlen ls))).
Proof.
  intros H. pose proof (Zlen_nonneg ls) as Hn. unfold sort_levels. rewrite Zlen_map, Zlen_zrange. replace (Z.max 0 (Zlen ls + 1 - 0) - 1) with (Zlen ls) by lia.
  apply mapM_Some. intros l Hl. apply In_zrange in Hl. rewrite !get_map, !get_zrange by lia. cbn [option_map]. replace (0 + l) with l by lia. replace (0 + (l + 1)) with (l + 1) by lia.
  rewrite (off_S (nthl ls) l) by lia. pose proof (off_nonneg (nthl ls) l). pose proof (Zlen_nonneg (nthl ls l)). pose proof (off_mono (nthl ls) (l + 1) (Zlen ls) ltac:(lia)) as Hm. rewrite off_S in Hm by lia.
  rewrite (Zlen_concat_off ls (Zlen ls) eq_refl) in Hm. replace (_ && _ && _) with true by lia. f_equal.
  rewrite concat_flat. replace (off (nthl ls) l + Zlen (nthl ls l)) with (off (nthl ls) (l + 1)) by (rewrite off_S; lia). rewrite slice_flat by lia.
  destruct (H l Hl) as (N & M). apply zsort_level; auto. intros i. rewrite M. split; intros (A & B); split; auto; lia.
Qed.

(** ** Division of a level among the threads *)
Section Split.
Variables (agg : bool) (c : list Z) (T : Z).
Hypotheses (HT : 1 <= T) (Hc : forall x, In x c -> 0 < x).
Let n := Zlen c.
Let b := psums 0 c.
Let per := (zsum c + T - 1) / T.
Lemma per_total : zsum c <= T * per.
Proof. unfold per. pose proof (Z.div_mod (zsum c + T - 1) T ltac:(lia)). pose proof (Z.mod_pos_bound (zsum c + T - 1) T ltac:(lia)). lia. Qed.
Lemma b_mono : monotone b.
Proof. apply psums_mono. intros d Hd. specialize (Hc d Hd). lia. Qed.
Lemma psums_lt l : (forall x, In x l -> 0 < x) -> forall a i v, 0 <= i < Zlen l -> get (psums a l) i = Some v -> v < a + zsum l.
Proof.
  induction l as [|d l IH]; intros H a i v Hi Hv. { change (Zlen (@nil Z)) with 0 in Hi. lia. }
  change (zsum (d :: l)) with (d + zsum l). cbn [psums] in Hv. rewrite Zlen_cons in Hi. pose proof (H d (or_introl eq_refl)).
  assert (0 <= zsum l). { rewrite <- (map_id l). apply zsum_map_nonneg. intros y Hy. specialize (H y (or_intror Hy)). lia. }
  destruct (Z.eq_dec i 0) as [->|]; [rewrite get_cons_0 in Hv; injection Hv as <-; lia|]. rewrite get_cons_pos in Hv by lia. apply IH in Hv; [lia|intros; apply H; cbn; auto|lia].
Qed.
Lemma b_lt i v : 0 <= i < n -> get b i = Some v -> v < zsum c.
Proof. intros Hi Hv. eapply psums_lt in Hv; eauto. Qed.
Lemma b_len : Zlen b = n + 1.
Proof. apply psums_len. Qed.
(** The ranges follow each other. *)
Fixpoint chained (p : Z) (l : list (Z * Z)) (q : Z) : Prop := match l with [] => p = q | (x, y) :: r => x = p /\ x <= y /\ chained y r q end.
Lemma up8 x : 0 <= x -> x <= (x + 7) / 8 * 8.
Proof. intros H. pose proof (Z.div_mod (x + 7) 8 ltac:(lia)). pose proof (Z.mod_pos_bound (x + 7) 8 ltac:(lia)). lia. Qed.
Lemma split_loop_ok fuel : forall t prevEnd r, Z.of_nat fuel = T - t -> 0 <= t < T -> 0 <= prevEnd <= n -> (t = 0 -> r = 0 /\ prevEnd = 0) -> (0 < t -> 0 <= r /\ prevEnd = Z.min (r - 1) n /\ (agg = true -> r <= n)) ->
  exists l stop, split_loop fuel agg b n per t prevEnd r = Some (l, stop) /\ chained prevEnd l n /\ Zlen l <= T - t /\ (agg = false -> Zlen l = T - t) /\ (agg = true -> stop = true).
Proof.
  induction fuel as [|fuel IH]; intros t prevEnd r Hf Ht Hp H0 H1; [lia|]. cbn [split_loop].
  assert (Hn : 0 <= n) by apply Zlen_nonneg. assert (Hr : 0 <= r) by (destruct (Z.eq_dec t 0); [destruct H0; lia|destruct H1; lia]).
  assert (exists newr, lower_bound b r n ((t + 1) * per) = Some newr /\ (r <= n -> r <= newr <= n) /\ (n < r -> newr = r) /\ (t = T - 1 -> n <= newr)) as (newr & E & N1 & N2 & N3).
  { destruct (Z_le_gt_dec r n) as [L|L].
    - destruct (lower_bound_safe b r n ((t + 1) * per)) as (q & Eq & Hq); [lia|rewrite b_len; lia|]. exists q. split; auto. split; [lia|]. split; [lia|]. intros ->.
      apply lower_bound_spec in Eq as (_ & _ & Q3); [|lia|apply monotone_monotone_on, b_mono]. destruct (Z_lt_le_dec q n); [|lia].
      destruct (@get_in_range _ b q) as (v & Gv); [rewrite b_len; lia|]. pose proof (b_lt q v ltac:(lia) Gv). specialize (Q3 q v ltac:(lia) Gv). pose proof per_total. nia.
    - exists r. split; [apply partition_point_empty; lia|]. lia. }
  rewrite E. set (r1 := if agg then _ else newr).
  assert (Hr1 : prevEnd <= Z.min r1 n /\ Z.min newr n <= Z.min r1 n /\ 0 <= r1 /\ (agg = true -> r1 <= n)).
  { subst r1. destruct agg eqn:Ea.
    - destruct (Z.eqb_spec t 0) as [->|Nt].
      + destruct (H0 eq_refl) as (-> & ->). pose proof (up8 (newr - 0) ltac:(lia)). lia.
      + destruct (H1 ltac:(lia)) as (A1 & A2 & A3). specialize (A3 eq_refl). pose proof (up8 (newr - r + 1) ltac:(lia)). lia.
    - destruct (Z.eq_dec t 0) as [->|Nt]; [destruct (H0 eq_refl) as (-> & ->); lia|]. destruct (H1 ltac:(lia)) as (A1 & A2 & A3). lia. }
  clearbody r1. destruct (agg && (n <=? Z.min r1 n)) eqn:Eb.
  - exists [(prevEnd, Z.min r1 n)], true. split; auto. split. { cbn [chained]. lia. } split; [unfold Zlen; cbn; lia|]. split; auto. intros ->. discriminate.
  - destruct (Z.eq_dec t (T - 1)) as [->|Nt].
    + (* last thread *) assert (fuel = 0)%nat by lia. subst fuel. cbn [split_loop]. specialize (N3 eq_refl). assert (Z.min r1 n = n) by lia. destruct agg; [lia|].
      exists [(prevEnd, Z.min r1 n)], false. split; auto. split. { cbn [chained]. lia. } unfold Zlen; cbn. repeat split; try lia; auto; discriminate.
    + destruct (IH (t + 1) (Z.min r1 n) (r1 + 1)) as (l & stop & El & C & L1 & L2 & L3); try lia.
      rewrite El. exists ((prevEnd, Z.min r1 n) :: l), stop. split; auto. split; [cbn [chained]; split; auto; split; auto; lia|]. rewrite Zlen_cons. split; [lia|]. split; auto. intros Ea. rewrite L2 by auto. lia.
Qed.
End Split.

Lemma chained_app p l q l' q' : chained p l q -> chained q l' q' -> chained p (l ++ l') q'.
Proof. revert p. induction l as [|(x, y) l IH]; intros p; cbn [chained app]. { now intros ->. } intros (-> & L & C) C'. auto. Qed.
Lemma chained_const p n : chained p (map (fun _ => (p, p)) (zrange 0 n)) p.
Proof. induction (zrange 0 n) as [|a l IH]; cbn [map chained]; auto. repeat split; auto. lia. Qed.
Lemma chained_shift d p l q : chained p l q -> chained (d + p) (map (fun x => (d + fst x, d + snd x)) l) (d + q).
Proof. revert p. induction l as [|(x, y) l IH]; intros p; cbn [chained map fst snd]. { now intros ->. } intros (-> & L & C). split; auto. split; [lia|auto]. Qed.
Lemma level_tasks_ok T agg cost lb L : 1 <= T -> (forall i, In i L -> 0 < cost i) ->
  exists l, level_tasks T agg cost lb L = Some l /\ Zlen l = T /\ chained lb l (lb + Zlen L).
Proof.
  intros HT Hc. unfold level_tasks. set (c := map cost L). assert (Hc' : forall x, In x c -> 0 < x). { intros x Hx. apply in_map_iff in Hx as (i & <- & Hi). auto. }
  replace (Zlen L) with (Zlen c) by apply Zlen_map.
  destruct (split_loop_ok agg c T HT Hc' (Z.to_nat T) 0 0 0) as (l & stop & -> & C & L1 & L2 & L3); try lia. { pose proof (Zlen_nonneg c). lia. }
  apply (chained_shift lb) in C. rewrite Z.add_0_r in C. rewrite Zlen_map. pose proof (Zlen_nonneg l). destruct agg.
  - rewrite L3 by auto. eexists. split; [reflexivity|]. rewrite Zlen_app, !Zlen_map, Zlen_zrange. split; [lia|]. eapply chained_app; [apply chained_const|exact C].
  - eexists. split; [reflexivity|]. rewrite Zlen_map. rewrite L2 by auto. split; [lia|auto].
Qed.

(** ** The final arrays *)
Section Acts.
(** The stores for a list of tasks beginning at row [ro] and task [to]. *)
Fixpoint acts_of (ro to : Z) (ks : list (list Z)) : list (Z * Z * Z) :=
  match ks with
  | [] => []
  | K :: ks => (0, to, ro) :: concat (map (fun j => match get K j with Some i => [(1, i, ro + j); (2, ro + j, i)] | None => [] end) (zrange 0 (Zlen K))) ++ acts_of (ro + Zlen K) (to + 1) ks
  end.
Lemma acts_app ks ks' : forall ro to, acts_of ro to (ks ++ ks') = acts_of ro to ks ++ acts_of (ro + Zlen (concat ks)) (to + Zlen ks) ks'.
Proof.
  induction ks as [|K ks IH]; intros ro to; cbn [acts_of app concat]. { change (Zlen (@nil Z)) with 0. change (Zlen (@nil (list Z))) with 0. now rewrite !Z.add_0_r. }
  rewrite IH, Zlen_app, Zlen_cons, <- app_assoc. cbn [app]. f_equal. f_equal. f_equal. f_equal; lia.
Qed.
Lemma In_acts0 ks : forall ro to p v, In (0, p, v) (acts_of ro to ks) <-> exists k, 0 <= k < Zlen ks /\ p = to + k /\ v = ro + off (nthl ks) k.
Proof.
  induction ks as [|K ks IH]; intros ro to p v; cbn [acts_of]. { split; [intros []|]. intros (k & Hk & _). change (Zlen (@nil (list Z))) with 0 in Hk. lia. }
  cbn [In]. rewrite in_app_iff, IH. assert (HS : forall k, 0 <= k -> off (nthl (K :: ks)) (k + 1) = Zlen K + off (nthl ks) k).
  { intros k Hk. pattern k. revert k Hk. apply Z_ind0. { rewrite off_S, !off_0 by lia. unfold nthl. rewrite get_cons_0. lia. }
    intros k Hk E. rewrite off_S, E, off_S by lia. unfold nthl at 2. rewrite get_cons_pos by lia. replace (k + 1 - 1) with k by lia. unfold nthl at 3. lia. }
  rewrite Zlen_cons. split.
  - intros [E|[H|(k & Hk & -> & ->)]].
    + injection E as <- <-. exists 0. rewrite off_0. pose proof (Zlen_nonneg ks). lia.
    + exfalso. apply in_concat in H as (l & Hl & H). apply in_map_iff in Hl as (j & <- & _). destruct (get K j); cbn in H; [destruct H as [E|[E|[]]]; discriminate|auto].
    + exists (k + 1). rewrite HS by lia. lia.
  - intros (k & Hk & -> & ->). destruct (Z.eq_dec k 0) as [->|]; [left; rewrite off_0; f_equal; [f_equal|]; lia|]. right. right. exists (k - 1). pose proof (HS (k - 1) ltac:(lia)) as E. replace (k - 1 + 1) with k in E by lia. rewrite E. lia.
Qed.
Lemma In_acts1 ks : forall ro to i v, In (1, i, v) (acts_of ro to ks) <-> exists p, get (concat ks) p = Some i /\ v = ro + p.
Proof.
  induction ks as [|K ks IH]; intros ro to i v; cbn [acts_of concat]. { split; [intros []|]. intros (k & Hk & _). apply get_Some_bounds in Hk. change (Zlen (@nil Z)) with 0 in Hk. lia. }
  cbn [In]. rewrite in_app_iff, IH, in_concat. split.
  - intros [E|[(l & Hl & H)|(p & Gp & ->)]]; [discriminate| |].
    + apply in_map_iff in Hl as (j & <- & Hj). destruct (get K j) as [i'|] eqn:Gj; [|destruct H]. destruct H as [E|[E|[]]]; [|discriminate]. injection E as -> <-. exists j. split; auto.
      rewrite get_app_l; auto. eapply get_Some_bounds; eauto.
    + pose proof (get_Some_bounds _ _ _ Gp). exists (Zlen K + p). split; [|lia]. rewrite get_app_r by lia. now replace (Zlen K + p - Zlen K) with p by lia.
  - intros (p & Gp & ->). pose proof (get_Some_bounds _ _ _ Gp) as B. destruct (Z_lt_le_dec p (Zlen K)).
    + right. left. rewrite get_app_l in Gp by lia. eexists. split; [apply in_map_iff; exists p; split; [reflexivity|apply In_zrange; lia]|]. rewrite Gp. cbn; auto.
    + right. right. rewrite get_app_r in Gp by lia. exists (p - Zlen K). split; auto. lia.
Qed.
Lemma In_acts2 ks : forall ro to i v, In (2, v, i) (acts_of ro to ks) <-> exists p, get (concat ks) p = Some i /\ v = ro + p.
Proof.
  induction ks as [|K ks IH]; intros ro to i v; cbn [acts_of concat]. { split; [intros []|]. intros (k & Hk & _). apply get_Some_bounds in Hk. change (Zlen (@nil Z)) with 0 in Hk. lia. }
  cbn [In]. rewrite in_app_iff, IH, in_concat. split.
  - intros [E|[(l & Hl & H)|(p & Gp & ->)]]; [discriminate| |].
    + apply in_map_iff in Hl as (j & <- & Hj). destruct (get K j) as [i'|] eqn:Gj; [|destruct H]. destruct H as [E|[E|[]]]; [discriminate|]. injection E as <- ->. exists j. split; auto.
      rewrite get_app_l; auto. eapply get_Some_bounds; eauto.
    + pose proof (get_Some_bounds _ _ _ Gp). exists (Zlen K + p). split; [|lia]. rewrite get_app_r by lia. now replace (Zlen K + p - Zlen K) with p by lia.
  - intros (p & Gp & ->). pose proof (get_Some_bounds _ _ _ Gp) as B. destruct (Z_lt_le_dec p (Zlen K)).
    + right. left. rewrite get_app_l in Gp by lia. eexists. split; [apply in_map_iff; exists p; split; [reflexivity|apply In_zrange; lia]|]. rewrite Gp. cbn; auto.
    + right. right. rewrite get_app_r in Gp by lia. exists (p - Zlen K). split; auto. lia.
Qed.
Lemma In_acts_tag ks : forall ro to a, In a (acts_of ro to ks) -> fst (fst a) = 0 \/ fst (fst a) = 1 \/ fst (fst a) = 2.
Proof.
  induction ks as [|K ks IH]; intros ro to a; cbn [acts_of]; [intros []|]. cbn [In]. rewrite in_app_iff, in_concat. intros [<-|[(l & Hl & H)|H]]; [cbn; auto| |eauto].
  apply in_map_iff in Hl as (j & <- & Hj). destruct (get K j) as [i'|]; [|destruct H]. destruct H as [<-|[<-|[]]]; cbn; auto.
Qed.

(** What one thread stores. *)
Lemma fill_fold bar rev bes : forall ro to acc, (forall b e, In (b, e) bes -> 0 <= b <= e /\ e <= Zlen rev) ->
  let ks := filter (fun K => bar || (0 <? Zlen K)) (map (fun be => slice rev (fst be) (snd be)) bes) in
  foldM (fill_task bar rev) bes (ro, to, acc) = Some (ro + Zlen (concat ks), to + Zlen ks, acc ++ acts_of ro to ks).
Proof.
  induction bes as [|(b, e) bes IH]; intros ro to acc H; cbn [map filter foldM]. { cbn [acts_of concat]. change (Zlen (@nil Z)) with 0. change (Zlen (@nil (list Z))) with 0. now rewrite !Z.add_0_r, app_nil_r. }
  destruct (H b e (or_introl eq_refl)) as (Hbe & Hel). cbn [fst snd fill_task]. rewrite Zlen_slice by lia. replace (0 <? e - b) with (b <? e) by lia.
  specialize (fun ro to acc => IH ro to acc (fun b e Hin => H b e (or_intror Hin))). cbv zeta in IH. destruct (bar || (b <? e)).
  - set (K := slice rev b e). assert (LK : Zlen K = e - b) by (apply Zlen_slice; lia).
    rewrite (mapM_Some _ (fun j => match get K (j - b) with Some i => [(1, i, ro + (j - b)); (2, ro + (j - b), i)] | None => [] end)).
    2: { intros j Hj. apply In_zrange in Hj. unfold K. rewrite get_slice by lia. replace (b + (j - b)) with j by lia. destruct (@get_in_range _ rev j) as (i & ->); [lia|]. reflexivity. }
    rewrite IH. cbn [concat acts_of]. rewrite Zlen_app, Zlen_cons, LK. replace (Z.max 0 (e - b)) with (e - b) by lia. rewrite !Z.add_assoc. f_equal. f_equal.
    rewrite <- app_assoc. f_equal. cbn [app]. f_equal. f_equal. f_equal.
    replace (zrange b e) with (map (fun j => b + j) (zrange 0 (e - b))).
    + rewrite map_map. apply map_ext. intros j. now replace (b + j - b) with j by lia.
    + apply list_ext. { rewrite Zlen_map, !Zlen_zrange. lia. } intros j Hj. rewrite Zlen_map, Zlen_zrange in Hj. rewrite get_map, !get_zrange by lia. reflexivity.
  - rewrite IH. reflexivity.
Qed.

Lemma write3_split l : forall x y z x' y' z', (forall a, In a l -> fst (fst a) = 0 \/ fst (fst a) = 1 \/ fst (fst a) = 2) ->
  let part k := filter (fun a : Z * Z * Z => fst (fst a) =? k) l in let f (a : Z * Z * Z) w := set w (snd (fst a)) (snd a) in
  foldM f (part 0) x = Some x' -> foldM f (part 1) y = Some y' -> foldM f (part 2) z = Some z' -> foldM write3 l (x, y, z) = Some (x', y', z').
Proof.
  induction l as [|((k, p), v) l IH]; intros x y z x' y' z' H; cbn [filter foldM fst snd].
  - intros E1 E2 E3. injection E1 as <-. injection E2 as <-. injection E3 as <-. reflexivity.
  - specialize (fun x y z x' y' z' => IH x y z x' y' z' (fun a Ha => H a (or_intror Ha))). cbv zeta in IH. cbn [write3].
    destruct (H _ (or_introl eq_refl)) as [E|[E|E]]; cbn in E; subst k; cbn [Z.eqb foldM fst snd Pos.eqb]; intros E1 E2 E3.
    + destruct (set x p v); [|discriminate]. apply IH; auto.
    + destruct (set y p v); [|discriminate]. apply IH; auto.
    + destruct (set z p v); [|discriminate]. apply IH; auto.
Qed.
Lemma write3_all sch tss tasks m x y z : (forall a, In a (concat tss) <-> In a (acts_of 0 0 tasks)) -> NoDup (concat tasks) -> (forall i, In i (concat tasks) <-> 0 <= i < m) ->
  0 <= m -> Zlen x = Zlen tasks + 1 -> Zlen y = m -> Zlen z = m ->
  exists x', par sch write3 tss (x, y, z) = Some (x', match foldM (fun a w => set w (snd (fst a)) (snd a)) (filter (fun a => fst (fst a) =? 1) (merge sch tss)) y with Some y' => y' | None => [] end, concat tasks) /\
    Zlen x' = Zlen x /\ (forall k, 0 <= k < Zlen tasks -> get x' k = Some (off (nthl tasks) k)) /\
    exists y', foldM (fun a w => set w (snd (fst a)) (snd a)) (filter (fun a => fst (fst a) =? 1) (merge sch tss)) y = Some y' /\ Zlen y' = m /\ forall p i, get (concat tasks) p = Some i -> get y' i = Some p.
Proof.
  intros Ht Nd Mem Hm Lx Ly Lz. assert (Hin : forall k a, In a (filter (fun a => fst (fst a) =? k) (merge sch tss)) <-> In a (acts_of 0 0 tasks) /\ fst (fst a) = k).
  { intros k a. rewrite filter_In, In_merge, <- in_concat, Ht, Z.eqb_eq. tauto. }
  assert (LT : Zlen (concat tasks) = m). { rewrite <- (Zlen_same (zrange 0 m) (concat tasks)); [rewrite Zlen_zrange; lia|apply NoDup_zrange|auto|]. intros i. rewrite In_zrange. symmetry. apply Mem. }
  pose (f := fun (a : Z * Z * Z) w => set w (snd (fst a)) (snd a)).
  destruct (write_all f (fun a => snd (fst a)) snd (filter (fun a => fst (fst a) =? 0) (merge sch tss)) x) as (x' & Ex & Lx' & X1 & X2).
  { reflexivity. } { intros ((k, p), v) Ha. apply Hin in Ha as (Ha & E). cbn in E. subst k. apply In_acts0 in Ha as (k & Hk & -> & _). cbn. lia. }
  { intros ((k, p), v) ((k', p'), v') Ha Hb Ep. apply Hin in Ha as (Ha & E), Hb as (Hb & E'). cbn in E, E', Ep |- *. subst k k'. apply In_acts0 in Ha as (k & Hk & -> & ->), Hb as (k' & Hk' & -> & ->). f_equal. f_equal. lia. }
  destruct (write_all f (fun a => snd (fst a)) snd (filter (fun a => fst (fst a) =? 1) (merge sch tss)) y) as (y' & Ey & Ly' & Y1 & Y2).
  { reflexivity. } { intros ((k, p), v) Ha. apply Hin in Ha as (Ha & E). cbn in E. subst k. apply In_acts1 in Ha as (q & Gq & _). cbn. rewrite Ly. apply Mem. eapply get_In; eauto. }
  { intros ((k, p), v) ((k', p'), v') Ha Hb Ep. apply Hin in Ha as (Ha & E), Hb as (Hb & E'). cbn in E, E', Ep |- *. subst k k' p'. apply In_acts1 in Ha as (k & Gk & ->), Hb as (k' & Gk' & ->). f_equal. eapply (PermUtils.NoDup_get_inj (concat tasks)); eauto. }
  destruct (write_all f (fun a => snd (fst a)) snd (filter (fun a => fst (fst a) =? 2) (merge sch tss)) z) as (z' & Ez & Lz' & Z1 & Z2).
  { reflexivity. } { intros ((k, p), v) Ha. apply Hin in Ha as (Ha & E). cbn in E. subst k. apply In_acts2 in Ha as (q & Gq & ->). cbn. apply get_Some_bounds in Gq. lia. }
  { intros ((k, p), v) ((k', p'), v') Ha Hb Ep. apply Hin in Ha as (Ha & E), Hb as (Hb & E'). cbn in E, E', Ep |- *. subst k k' p'. apply In_acts2 in Ha as (k & Gk & ->), Hb as (k' & Gk' & E). assert (k = k') by lia. subst k'. congruence. }
  exists x'. unfold par. rewrite (write3_split (merge sch tss) x y z x' y' z'); auto.
  2: { intros a Ha. apply In_merge in Ha. rewrite <- in_concat in Ha. apply Ht in Ha. eapply In_acts_tag; eauto. }
  fold f. rewrite Ey. split; [|split; [auto|split]].
  - f_equal. f_equal. apply list_ext; [lia|]. intros p Hp. destruct (@get_in_range _ (concat tasks) p) as (i & Gi); [lia|]. rewrite Gi. apply (Z1 (2, p, i)). apply Hin. split; auto. apply In_acts2. exists p. auto.
  - intros k Hk. apply (X1 (0, k, off (nthl tasks) k)). apply Hin. split; auto. apply In_acts0. exists k. auto.
  - exists y'. split; auto. split; [lia|]. intros p i Gp. apply (Y1 (1, i, p)). apply Hin. split; auto. apply In_acts1. exists p. auto.
Qed.
End Acts.

(** Double concatenation in the other order. *)
Lemma concat_transpose {A} (f : Z -> Z -> list A) (ts ls : list Z) :
  Permutation (concat (map (fun t => concat (map (f t) ls)) ts)) (concat (map (fun l => concat (map (fun t => f t l) ts)) ls)).
Proof.
  induction ts as [|t ts IH]; cbn [map concat]. { induction ls; cbn; auto. }
  rewrite IH. clear IH. induction ls as [|l ls IH]; cbn [map concat]; auto.
  rewrite <- IH. rewrite <- !app_assoc. apply Permutation_app_head. rewrite !app_assoc. apply Permutation_app_tail. apply Permutation_app_comm.
Qed.
Lemma concat_filter_nonempty {A} bar (l : list (list A)) : concat (filter (fun K => bar || (0 <? Zlen K)) l) = concat l.
Proof.
  induction l as [|K l IH]; auto. cbn [filter]. destruct (bar || (0 <? Zlen K)) eqn:E; cbn [concat]; rewrite IH; auto.
  destruct K; auto. rewrite Zlen_cons in E. pose proof (Zlen_nonneg K). destruct bar; [discriminate|]. cbn [orb] in E. lia.
Qed.
Lemma chained_concat {A} (rev : list A) l : forall p q, 0 <= p -> q <= Zlen rev -> chained p l q -> p <= q /\ concat (map (fun be => slice rev (fst be) (snd be)) l) = slice rev p q /\ forall b e, In (b, e) l -> p <= b <= e /\ e <= q.
Proof.
  induction l as [|(x, y) l IH]; intros p q Hp Hq C; cbn [chained] in C. { subst q. split; [lia|]. split; [|intros b e []]. cbn. unfold slice. replace (Z.to_nat (p - p)) with 0%nat by lia. reflexivity. }
  destruct C as (-> & L & C). destruct (IH y q ltac:(lia) Hq C) as (I1 & I2 & I3). split; [lia|]. cbn [map concat fst snd]. rewrite I2. split. { symmetry. apply slice_app; lia. }
  intros b e [E|H]; [injection E as <- <-; lia|]. specialize (I3 b e H). lia.
Qed.

Lemma psums_off {A} (f : Z -> list A) T : 0 <= T -> psums 0 (map (fun t => Zlen (f t)) (zrange 0 T)) = map (off f) (zrange 0 (T + 1)).
Proof.
  intros HT. assert (forall n a, 0 <= n -> 0 <= a -> psums (off f a) (map (fun t => Zlen (f t)) (zrange a (a + n))) = map (off f) (zrange a (a + n + 1))) as H.
  { intros n a Hn. revert a. pattern n. revert n Hn. apply Z_ind0.
    - intros a Ha. rewrite Z.add_0_r, zrange_nil by lia. rewrite (zrange_cons a) by lia. rewrite zrange_nil by lia. reflexivity.
    - intros n Hn IH a Ha. rewrite (zrange_cons a (a + (n + 1))) by lia. rewrite (zrange_cons a (a + (n + 1) + 1)) by lia. cbn [map psums]. f_equal.
      rewrite <- off_S by lia. replace (a + (n + 1)) with (a + 1 + n) by lia. apply IH. lia. }
  specialize (H T 0 HT ltac:(lia)). rewrite off_0 in H. exact H.
Qed.
Lemma filter_map {A B} (p : B -> bool) (f : A -> B) l : filter p (map f l) = map f (filter (fun x => p (f x)) l).
Proof. induction l as [|x l IH]; auto. cbn [map filter]. rewrite IH. now destruct (p (f x)). Qed.
Lemma Zlen_concat_zsum {A} (l : list (list A)) : Zlen (concat l) = zsum (map (fun K => Zlen K) l).
Proof. induction l as [|K l IH]; auto. cbn [concat map]. change (zsum (Zlen K :: map (fun K => Zlen K) l)) with (Zlen K + zsum (map (fun K => Zlen K) l)). rewrite Zlen_app. lia. Qed.
Lemma nthl_map_zrange {A} (f : Z -> list A) n t : 0 <= t < n -> nthl (map f (zrange 0 n)) t = f t.
Proof. intros H. unfold nthl. rewrite get_map, get_zrange by lia. cbn [option_map]. f_equal. Qed.

Lemma Zlen_zrange_m m : 0 <= m -> Zlen (zrange 0 m) = m.
Proof. intros H. rewrite Zlen_zrange. lia. Qed.

Lemma mapM_map {A B C} (f : B -> option C) (g : A -> B) l : mapM f (map g l) = mapM (fun x => f (g x)) l.
Proof. induction l as [|x l IH]; auto. cbn [map mapM]. now rewrite IH. Qed.
Lemma filter_true {A} (l : list A) : filter (fun _ => true) l = l.
Proof. induction l as [|x l IH]; auto. cbn [filter]. now rewrite IH. Qed.

Section Make.
Variables (m T nl : Z) (lev : Z -> Z) (bar agg : bool) (cost : Z -> Z).
Hypotheses (Hm : 0 <= m) (HT : 1 <= T) (Hnl : 0 <= nl).
Hypothesis Hlev : forall i, 0 <= i < m -> 0 <= lev i < nl.
Hypothesis Hcost : forall i, 0 <= i < m -> 0 < cost i.
Let levels := map (lvl m lev) (zrange 0 nl).
Let rev := concat levels.
Let lb l := off (nthl levels) l.
Definition trf l := match level_tasks T agg cost (lb l) (lvl m lev l) with Some x => x | None => [] end.
Definition rng t l := match get (trf l) t with Some be => be | None => (0, 0) end.
Definition piece t l := slice rev (fst (rng t l)) (snd (rng t l)).
Definition lvs t := filter (fun l => bar || (0 <? Zlen (piece t l))) (zrange 0 nl).
(** The rows of every task of every thread. *)
Definition the_tasks : list (list (list Z)) := map (fun t => map (piece t) (lvs t)) (zrange 0 T).

Lemma In_lvl i l : In i (lvl m lev l) <-> 0 <= i < m /\ lev i = l.
Proof. unfold lvl. rewrite filter_In, In_zrange. split; intros (A & B); split; auto; lia. Qed.
Lemma nth_level l : 0 <= l < nl -> nthl levels l = lvl m lev l.
Proof. apply nthl_map_zrange. Qed.
Lemma len_levels : Zlen levels = nl.
Proof. unfold levels. rewrite Zlen_map, Zlen_zrange. lia. Qed.
Lemma trf_ok l : 0 <= l < nl -> level_tasks T agg cost (lb l) (lvl m lev l) = Some (trf l) /\ Zlen (trf l) = T /\ chained (lb l) (trf l) (lb (l + 1)).
Proof.
  intros Hl. destruct (level_tasks_ok T agg cost (lb l) (lvl m lev l) HT) as (x & E & L & C). { intros i Hi. apply In_lvl in Hi. apply Hcost. lia. }
  unfold trf. rewrite E. split; auto. split; auto. unfold lb at 2. rewrite off_S by lia. rewrite nth_level by lia. exact C.
Qed.
Lemma len_rev : Zlen rev = lb nl.
Proof. unfold rev, lb. symmetry. apply Zlen_concat_off, len_levels. Qed.
Lemma level_concat l : 0 <= l < nl -> concat (map (fun t => piece t l) (zrange 0 T)) = slice rev (lb l) (lb (l + 1)) /\ forall t, 0 <= t < T -> get (trf l) t = Some (rng t l) /\ lb l <= fst (rng t l) <= snd (rng t l) /\ snd (rng t l) <= lb (l + 1).
Proof.
  intros Hl. destruct (trf_ok l Hl) as (_ & L & C). destruct (chained_concat rev (trf l) (lb l) (lb (l + 1))) as (A & B & D); auto. { apply off_nonneg. } { rewrite len_rev. apply off_mono. lia. }
  assert (E : map (fun t => rng t l) (zrange 0 T) = trf l).
  { apply list_ext. { rewrite Zlen_map, Zlen_zrange. lia. } intros i Hi. rewrite Zlen_map, Zlen_zrange in Hi. rewrite get_map, get_zrange by lia. cbn [option_map]. replace (0 + i) with i by lia. unfold rng. destruct (@get_in_range _ (trf l) i) as (x & ->); [lia|]. reflexivity. }
  split. { rewrite <- B, <- E, map_map. reflexivity. }
  intros t Ht. destruct (@get_in_range _ (trf l) t) as (x & Gx); [lia|]. unfold rng. rewrite Gx. split; auto. destruct x as (b, e). apply D. eapply get_In; eauto.
Qed.
Lemma rev_perm : Permutation rev (zrange 0 m).
Proof.
  assert (HL : level_sets m lev levels). { intros l Hl. rewrite len_levels in Hl. rewrite nth_level by auto. split; [apply NoDup_filter, NoDup_zrange|]. intros i. apply In_lvl. }
  apply NoDup_Permutation. { eapply level_sets_NoDup; eauto. } { apply NoDup_zrange. }
  intros i. rewrite In_zrange. unfold rev. rewrite nthl_In, len_levels. split.
  - intros (l & Hl & Hi). rewrite nth_level in Hi by auto. now apply In_lvl in Hi.
  - intros Hi. exists (lev i). split; [auto|]. rewrite nth_level by auto. now apply In_lvl.
Qed.
Lemma piece_level t l i : 0 <= t < T -> 0 <= l < nl -> In i (piece t l) -> lev i = l.
Proof.
  intros Ht Hl Hi. destruct (level_concat l Hl) as (A & B). destruct (B t Ht) as (_ & B1 & B2).
  assert (In i (slice rev (lb l) (lb (l + 1)))) as H. { rewrite <- A. apply in_concat. exists (piece t l). split; auto. apply in_map_iff. exists t. split; auto. apply In_zrange. lia. }
  unfold rev, lb in H. rewrite concat_flat, len_levels in H. rewrite slice_flat in H by lia. rewrite nth_level in H by auto. now apply In_lvl in H.
Qed.
Lemma tasks_concat t : concat (map (piece t) (lvs t)) = concat (map (piece t) (zrange 0 nl)).
Proof. unfold lvs. rewrite <- (concat_filter_nonempty bar (map (piece t) (zrange 0 nl))), filter_map. reflexivity. Qed.
Lemma all_perm : Permutation (concat (concat the_tasks)) (zrange 0 m).
Proof.
  rewrite <- rev_perm. unfold the_tasks. transitivity (concat (map (fun t => concat (map (piece t) (zrange 0 nl))) (zrange 0 T))).
  - clear. induction (zrange 0 T) as [|t l IH]; auto. cbn [map concat]. rewrite concat_app, tasks_concat. apply Permutation_app_head, IH.
  - rewrite concat_transpose. rewrite (map_ext_in _ (fun l => slice rev (lb l) (lb (l + 1)))). 2: { intros l Hl. apply In_zrange in Hl. apply level_concat. lia. }
    rewrite (map_ext_in _ (nthl levels)). 2: { intros l Hl. apply In_zrange in Hl. unfold rev, lb. rewrite concat_flat, len_levels, slice_flat by lia. reflexivity. }
    unfold rev. rewrite (concat_flat levels), len_levels. reflexivity.
Qed.
Lemma lvs_strict t k k' x y : 0 <= k < k' -> get (lvs t) k = Some x -> get (lvs t) k' = Some y -> x < y.
Proof.
  intros Hk Hx Hy. assert (N : NoDup (lvs t)) by apply NoDup_filter, NoDup_zrange. assert (M : monotone (lvs t)) by apply filter_mono, zrange_mono.
  pose proof (M k k' x y ltac:(lia) Hx Hy). destruct (Z.eq_dec x y) as [->|]; [|lia]. pose proof (PermUtils.NoDup_get_inj _ _ _ _ N Hx Hy). lia.
Qed.
Lemma lvs_range t l : In l (lvs t) -> 0 <= l < nl.
Proof. intros H. apply filter_In in H as (H & _). apply In_zrange in H. lia. Qed.
Lemma tasks_levels : levels_increase lev the_tasks.
Proof.
  exists (fun t k => match get (lvs t) k with Some l => l | None => 0 end). intros t ks Hks. pose proof (get_Some_bounds _ _ _ Hks) as Bt. unfold the_tasks in Hks, Bt. rewrite Zlen_map, Zlen_zrange in Bt.
  rewrite get_map, get_zrange in Hks by lia. cbn [option_map] in Hks. injection Hks as <-. replace (0 + t) with t by lia. split.
  - intros k K HK i Hi. apply get_map_inv in HK as (l & Gl & ->). rewrite Gl. eapply piece_level; eauto; [lia|]. eapply lvs_range, get_In; eauto.
  - intros k k' Hk Hk'. rewrite Zlen_map in Hk'. destruct (@get_in_range _ (lvs t) k) as (x & Gx); [lia|]. destruct (@get_in_range _ (lvs t) k') as (y & Gy); [lia|]. rewrite Gx, Gy. eapply lvs_strict; eauto.
Qed.

Theorem makeTasks_ok ls sch tbj o2t t2o : Zlen ls = nl -> level_sets m lev ls -> Zlen o2t = m -> Zlen t2o = m ->
  exists thb tb o2t' t2o', makeTasks T bar agg cost sch (concat ls) (map (off (nthl ls)) (zrange 0 (nl + 1))) tbj o2t t2o = Some (thb, tb, o2t', t2o') /\
    tasks_ok m T the_tasks thb tb o2t' t2o'.
Proof.
  intros Lls Hls Lo Lt. unfold makeTasks. pose proof (sort_levels_ok m lev ls Hls) as ES. rewrite Lls in ES. rewrite ES. clear ES. fold levels. fold rev. rewrite Zlen_map, Zlen_zrange. replace (Z.max 0 (nl + 1 - 0) - 1) with nl by lia.
  assert (Hlb : forall l, 0 <= l <= nl -> off (nthl ls) l = lb l).
  { intros l Hl. apply before_ext. intros j Hj. rewrite nth_level by lia. destruct (Hls j ltac:(lia)) as (N & M). apply Zlen_same; auto. { apply NoDup_filter, NoDup_zrange. } intros i. now rewrite M, In_lvl. }
  rewrite (mapM_Some _ trf).
  2: { intros l Hl. apply In_zrange in Hl. rewrite get_map, get_zrange by lia. cbn [option_map]. replace (0 + l) with l by lia. rewrite Hlb by lia. unfold levels. rewrite get_map, get_zrange by lia. cbn [option_map]. replace (0 + l) with l by lia. now apply trf_ok. }
  set (tr := map trf (zrange 0 nl)). set (ks := fun t => map (piece t) (lvs t)).
  assert (Hget : forall t, 0 <= t < T -> forall l, In l (zrange 0 nl) -> get (trf l) t = Some (rng t l)). { intros t Ht l Hl. apply In_zrange in Hl. apply level_concat; lia. }
  assert (Hbes : forall t, 0 <= t < T -> mapM (fun lt => get lt t) tr = Some (map (rng t) (zrange 0 nl))).
  { intros t Ht. unfold tr. rewrite mapM_map. apply mapM_Some. auto. }
  assert (Hks : forall t, ks t = filter (fun K => bar || (0 <? Zlen K)) (map (fun be => slice rev (fst be) (snd be)) (map (rng t) (zrange 0 nl)))).
  { intros t. rewrite map_map, filter_map. reflexivity. }
  assert (Hrng : forall t l, 0 <= t < T -> 0 <= l < nl -> 0 <= fst (rng t l) <= snd (rng t l) /\ snd (rng t l) <= Zlen rev).
  { intros t l Ht Hl. destruct (level_concat l Hl) as (_ & B). destruct (B t Ht) as (_ & B1 & B2). rewrite len_rev. pose proof (off_mono (nthl levels) (l + 1) nl ltac:(lia)). pose proof (off_nonneg (nthl levels) l). unfold lb in *. lia. }
  rewrite (mapM_Some _ (fun t => (Zlen (concat (ks t)), Zlen (ks t)))).
  2: { intros t Ht. apply In_zrange in Ht.
    assert (E : mapM (fun lt => ' (b, e) <- get lt t ;; Some (e - b)) tr = Some (map (fun l => Zlen (piece t l)) (zrange 0 nl))).
    { unfold tr. assert (Hg : forall l, In l (zrange 0 nl) -> get (trf l) t = Some (rng t l) /\ Zlen (piece t l) = snd (rng t l) - fst (rng t l)).
      { intros l Hl. split; [apply Hget; auto; lia|]. apply In_zrange in Hl. unfold piece. apply Zlen_slice; apply Hrng; lia. }
      rewrite mapM_map. apply mapM_Some. intros l Hl. destruct (Hg l Hl) as (-> & ->). now destruct (rng t l) as (b, e). }
    rewrite E. f_equal. f_equal.
    - unfold ks. rewrite tasks_concat, Zlen_concat_zsum, map_map. reflexivity.
    - unfold ks, lvs. rewrite (Zlen_map (piece t)). destruct bar; cbn [orb].
      + rewrite Zlen_map. now rewrite filter_true.
      + rewrite filter_map, Zlen_map. f_equal. apply filter_ext. intros l. pose proof (Zlen_nonneg (piece t l)). lia. }
  rewrite !map_map. cbn [fst snd]. rewrite (psums_off ks T) by lia. rewrite (psums_off (fun t => concat (ks t)) T) by lia.
  rewrite get_map, get_zrange by lia. cbn [option_map]. replace (0 + T) with T by lia.
  set (ro := off (fun t => concat (ks t))). set (to := off ks).
  rewrite (mapM_Some _ (fun t => acts_of (ro t) (to t) (ks t))).
  2: { intros t Ht. apply In_zrange in Ht. unfold fill_thread. rewrite !get_map, !get_zrange by lia. cbn [option_map]. replace (0 + t) with t by lia. rewrite Hbes by lia. fold ro. fold to.
    rewrite fill_fold. { rewrite <- Hks. reflexivity. } intros b e Hbe. apply in_map_iff in Hbe as (l & E & Hl). apply In_zrange in Hl. pose proof (Hrng t l ltac:(lia) ltac:(lia)) as H. rewrite E in H. exact H. }
  assert (Hflat : forall n, 0 <= n -> concat (map (fun t => acts_of (ro t) (to t) (ks t)) (zrange 0 n)) = acts_of 0 0 (flat ks n) /\ Zlen (concat (flat ks n)) = ro n).
  { intros n Hn. pattern n. revert n Hn. apply Z_ind0. { split; reflexivity. } intros n Hn (IH1 & IH2). rewrite zrange_snoc by lia. rewrite map_app, concat_app, IH1, flat_S by lia. cbn [map concat]. rewrite app_nil_r. split.
    - rewrite acts_app. cbn [Z.add]. rewrite IH2. rewrite Zlen_flat by lia. reflexivity.
    - rewrite concat_app, Zlen_app, IH2. unfold ro. rewrite off_S by lia. reflexivity. }
  assert (Etasks : concat the_tasks = flat ks T) by reflexivity.
  assert (Ent : to T = Zlen (concat the_tasks)) by (rewrite Etasks, Zlen_flat by lia; reflexivity).
  pose proof all_perm as Pall.
  destruct (write3_all sch (map (fun t => acts_of (ro t) (to t) (ks t)) (zrange 0 T)) (concat the_tasks) m (map tbj (zrange 0 (to T + 1))) o2t t2o) as (x' & Ew & Lx & X1 & y' & Ey & Ly & Y1); auto.
  { intros a. rewrite (proj1 (Hflat T ltac:(lia))), Etasks. tauto. }
  { eapply Permutation_NoDup; [symmetry; exact Pall|apply NoDup_zrange]. }
  { intros i. rewrite <- (In_zrange 0 m i). split; apply Permutation_in; [|symmetry]; auto. }
  { rewrite Zlen_map, Zlen_zrange, Ent. pose proof (Zlen_nonneg (concat the_tasks)). lia. }
  rewrite Ew, Ey. rewrite Zlen_map, Zlen_zrange in Lx. destruct (set_ok x' (to T) (Zlen o2t)) as (tb & Etb). { pose proof (Zlen_nonneg (concat the_tasks)). lia. } rewrite Etb.
  do 4 eexists. split; [reflexivity|]. constructor; auto.
  - unfold the_tasks. rewrite Zlen_map, Zlen_zrange. lia.
  - apply map_ext_in. intros t Ht. apply In_zrange in Ht. apply off_ext. intros i Hi. symmetry. apply nthl_map_zrange. lia.
  - pose proof (Zlen_nonneg (concat the_tasks)) as Hz. apply list_ext. { rewrite (set_len _ _ _ _ Etb), Zlen_map, Zlen_zrange. lia. }
    intros k Hk. rewrite (set_len _ _ _ _ Etb), Lx in Hk. rewrite get_map, get_zrange by lia. cbn [option_map]. replace (0 + k) with k by lia. destruct (Z.eq_dec k (to T)) as [->|Nk].
    + rewrite (get_set_same _ _ _ _ Etb). f_equal. rewrite Ent, (Zlen_concat_off (concat the_tasks) _ eq_refl), Lo. rewrite <- (Zlen_zrange_m m Hm). unfold Zlen. now rewrite (Permutation_length Pall).
    + rewrite (get_set_other _ _ _ _ _ Etb Nk). apply X1. lia.
Qed.
End Make.
