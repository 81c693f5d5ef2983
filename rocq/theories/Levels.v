(** * Level construction (LevelSchedule.cpp:190-436, 498-572).

    The pattern of the matrix is given by the arrays rowptr, diagptr, extptr
    (rowptr + 1 when NULL, :469-471) and colidx.  Between two barriers the threads
    work concurrently; the model interleaves their accesses to shared counters
    arbitrarily.  The array rowPtrs[t] always holds the prefix sums of the numbers
    of successors of the rows queued in q[t]; it is recomputed from the queue. *)
From Coq Require Import Permutation.
From Verif Require Import Base Interleave Spec Search Partition PrefixSum Flat Csr Transpose RowPar.

Record gr := mkGr { g_m : Z; g_base : Z; g_row : list Z; g_dia : list Z; g_ext : list Z; g_col : list Z }.

(** ** Model *)
(** :323-326, 404-407: the columns behind the diagonal of row [i]. *)
Definition succs (G : gr) (i : Z) : option (list Z) :=
  d <- get (g_dia G) i ;; e <- get (g_ext G) i ;;
  mapM (fun j => c <- get (g_col G) (j - g_base G) ;; Some (c - g_base G)) (zrange (d + 1) e).
(** :332, 411-412, 552: extptr[i] - diagptr[i] - 1 *)
Definition degree (G : gr) (i : Z) : option Z := d <- get (g_dia G) i ;; e <- get (g_ext G) i ;; Some (e - d - 1).
(** :327, 408: columns beyond the rows are skipped. *)
Definition inside (m : Z) (l : list Z) : list Z := filter (fun c => c <? m) l.

(** :540-541: the share of the buffer that q[t] gets, and rowPtrs[t] likewise. *)
Definition share (m T : Z) : Z := Z.max T (m + T - 1) / T * 2.
(** :410-415, 551-555: *tailPtr++ = x, *(rowPtr + 1) = ...; rowPtrs needs one
    element more than the queue.  A store beyond the share is an error. *)
Definition enqueue (G : gr) (cap t x : Z) (qs : list (list Z)) : option (list (list Z)) :=
  q <- get qs t ;; _ <- degree G x ;; if Zlen q + 1 <? cap then set qs t (q ++ [x]) else None.
Definition empty_queues (T : Z) : list (list Z) := map (fun _ => []) (zrange 0 T).

(** :545-557: thread [t] runs the iterations [nthl chunks t]. *)
Definition init_step (G : gr) (cap : Z) (a : Z * Z) (s : list Z * list (list Z)) : option (list Z * list (list Z)) :=
  let '(t, i) := a in let '(np, qs) := s in
  r <- get (g_row G) i ;; d <- get (g_dia G) i ;; np' <- set np i (d - r) ;;
  if d - r =? 0 then qs' <- enqueue G cap t i qs ;; Some (np', qs') else Some (np', qs).
(** :409-416: __sync_fetch_and_add, then the push. *)
Definition edge_step (G : gr) (cap : Z) (a : Z * Z) (s : list Z * list (list Z)) : option (list Z * list (list Z)) :=
  let '(t, x) := a in let '(np, qs) := s in
  n <- get np x ;; np' <- set np x (n - 1) ;;
  if n =? 1 then qs' <- enqueue G cap t x qs ;; Some (np', qs') else Some (np', qs).
(** :328-336, thread 0 alone, pushing to reversePerm behind [e]. *)
Definition serial_step (G : gr) (cap2 e : Z) (x : Z) (s : list Z * list Z * Z) : option (list Z * list Z * Z) :=
  let '(np, rv, cnt) := s in
  n <- get np x ;; np' <- set np x (n - 1) ;;
  if n - 1 =? 0 then _ <- degree G x ;; if cnt + 1 <? cap2 then rv' <- set rv (e + cnt) x ;; Some (np', rv', cnt + 1) else None
  else Some (np', rv, cnt).

(** :266: qTailPrefixSum *)
Definition qpre (T : Z) (qs : list (list Z)) : list Z := map (off (nthl qs)) (zrange 0 (T + 1)).
(** :278-302: the elements copied by thread [tid], as (destination, value).  A
    memcpy of negative length is an error. *)
Definition copy_moves (T b0 : Z) (qs : list (list Z)) (tid : Z) : option (list (Z * Z)) :=
  let N := off (nthl qs) T in let per := (N + T - 1) / T in
  let iB := Z.min (b0 + per * tid) (b0 + N) in let iE := Z.min (iB + per) (b0 + N) in
  tb <- upper_bound (qpre T qs) 0 (T + 1) (per * tid) ;; te <- upper_bound (qpre T qs) 0 (T + 1) (per * (tid + 1)) ;;
  l <- mapM (fun t => let p := off (nthl qs) t in
         let b := Z.max 0 (iB - b0 - p) in let e := Z.min (Zlen (nthl qs t)) (iE - b0 - p) in
         if e <? b then None else mapM (fun k => v <- get (nthl qs t) k ;; Some (b0 + p + k, v)) (zrange b e))
       (zrange (tb - 1) (Z.min (te - 1) (T - 1) + 1)) ;;
  Some (concat l).

(** The contents of rowPtrs[t]. *)
Fixpoint psums (a : Z) (l : list Z) : list Z := a :: match l with [] => [] | d :: l => psums (a + d) l end.
Definition rowPtrs (G : gr) (q : list Z) : option (list Z) := ds <- mapM (degree G) q ;; Some (psums 0 ds).
(** nnzPrefixSum after :267 *)
Definition nnzPre (G : gr) (T : Z) (qs : list (list Z)) : option (list Z) :=
  ds <- mapM (fun t => ds <- mapM (degree G) (nthl qs t) ;; Some (zsum ds)) (zrange 0 T) ;; Some (psums 0 ds).
(** :352-386 *)
Definition split_at (G : gr) (T : Z) (qs : list (list Z)) (nnzp : list Z) (x : Z) : option Z :=
  tb <- upper_bound nnzp 0 (T + 1) x ;;
  if tb - 1 =? T then Some (off (nthl qs) T)
  else rp <- rowPtrs G (nthl qs (tb - 1)) ;; p <- get nnzp (tb - 1) ;;
       u <- upper_bound rp 0 (Zlen (nthl qs (tb - 1))) (x - p) ;; Some (u - 1 + off (nthl qs) (tb - 1)).
Definition trav_range (G : gr) (T : Z) (qs : list (list Z)) (nnzp : list Z) (tid : Z) : option (Z * Z) :=
  W <- get nnzp T ;; let per := (W + T - 1) / T in
  iB <- (if tid =? 0 then Some 0 else split_at G T qs nnzp (per * tid)) ;;
  iE <- split_at G T qs nnzp (per * (tid + 1)) ;; Some (iB, iE).
(** :398-408: the counters that thread [tid] decrements, in order. *)
Definition par_edges (G : gr) (T b0 : Z) (qs : list (list Z)) (nnzp rv : list Z) (tid : Z) : option (list (Z * Z)) :=
  ' (iB, iE) <- trav_range G T qs nnzp tid ;;
  rs <- mapM (get rv) (zrange (b0 + iB) (b0 + iE)) ;; ss <- mapM (succs G) rs ;;
  Some (map (pair tid) (inside (g_m G) (concat ss))).

Record lstate := mkL { l_np : list Z; l_rev : list Z; l_lev : list Z; l_qs : list (list Z); l_ser : bool; l_end : Z }.

(** One iteration of the loop :221-427; [None] inside means that the loop ends.
    After a serial iteration the new level is already in reversePerm; only the
    entries of thread 0 are read from the tables, the model puts the level into
    queue 0 and leaves the others empty. *)
Definition round (G : gr) (T : Z) (sch : nat -> list nat) (s : lstate) : option (option lstate) :=
  let N := off (nthl (l_qs s)) T in let b0 := l_end s in let e := b0 + N in
  if N =? 0 then Some None
  else
    rv <- (if l_ser s then Some (l_rev s)
           else mv <- mapM (copy_moves T b0 (l_qs s)) (zrange 0 T) ;; par (sch 0%nat) (fun a w => set w (fst a) (snd a)) mv (l_rev s)) ;;
    if N <? (if l_ser s then 128 else 64) then
      rs <- mapM (get rv) (zrange b0 e) ;; ss <- mapM (succs G) rs ;;
      ' (np', rv', cnt) <- foldM (serial_step G (Z.max T (g_m G + T - 1) * 2) e) (inside (g_m G) (concat ss)) (l_np s, rv, 0) ;;
      q0 <- mapM (get rv') (zrange e (e + cnt)) ;;
      Some (Some (mkL np' rv' (l_lev s ++ [e]) (q0 :: empty_queues (T - 1)) true e))
    else
      nnzp <- nnzPre G T (l_qs s) ;;
      es <- mapM (par_edges G T b0 (l_qs s) nnzp rv) (zrange 0 T) ;;
      ' (np', qs') <- par (sch 1%nat) (edge_step G (share (g_m G) T)) es (l_np s, empty_queues T) ;;
      Some (Some (mkL np' rv (l_lev s ++ [e]) qs' false e)).
Fixpoint rounds (fuel : nat) (G : gr) (T : Z) (sch : nat -> nat -> list nat) (s : lstate) : option lstate :=
  match fuel with
  | O => None
  | S fuel => r <- round G T (sch fuel) s ;; match r with None => Some s | Some s' => rounds fuel G T sch s' end
  end.
(** reversePerm (before the sort of :621) and levIndices.  [chunks] are the
    iterations given to each thread by the omp for of :547. *)
Definition findLevels (G : gr) (T : Z) (chunks : list (list Z)) (sch0 : list nat) (sch : nat -> nat -> list nat) (np rv : list Z) : option (list Z * list Z) :=
  ' (np', qs) <- par sch0 (init_step G (share (g_m G) T)) (map (fun t => map (pair t) (nthl chunks t)) (zrange 0 T)) (np, empty_queues T) ;;
  s <- rounds (S (Z.to_nat (g_m G + 1))) G T sch (mkL np' rv [0] qs false 0) ;;
  Some (l_rev s, l_lev s).

(** ** Specification *)
(** [lo j]: the rows that row [j] depends on.  [lev] is the length of the longest
    chain of dependencies. *)
Definition is_depth (m : Z) (lo : Z -> list Z) (lev : Z -> Z) : Prop :=
  forall j, 0 <= j < m -> 0 <= lev j /\ (forall i, In i (lo j) -> lev i < lev j) /\ (0 < lev j -> exists i, In i (lo j) /\ lev i = lev j - 1).
(** [ls] lists the rows of every level. *)
Definition level_sets (m : Z) (lev : Z -> Z) (ls : list (list Z)) : Prop :=
  forall l, 0 <= l < Zlen ls -> NoDup (nthl ls l) /\ forall i, In i (nthl ls l) <-> 0 <= i < m /\ lev i = l.
(** The arrays describe the dependencies [lo] and their converse [up]. *)
Record pattern_ok (G : gr) (lo up : Z -> list Z) : Prop := {
  po_m : 0 <= g_m G;
  po_low : forall i, 0 <= i < g_m G -> exists r d e cs, get (g_row G) i = Some r /\ get (g_dia G) i = Some d /\ get (g_ext G) i = Some e /\
    d - r = Zlen (lo i) /\ succs G i = Some cs /\ e - d - 1 = Zlen cs /\ inside (g_m G) cs = up i;
  po_lt : forall i j, 0 <= j < g_m G -> In i (lo j) -> 0 <= i < j;
  po_up : forall i j, 0 <= i < g_m G -> In j (up i) -> 0 <= j < g_m G;
  po_sym : forall i j, 0 <= i < g_m G -> 0 <= j < g_m G -> (In j (up i) <-> In i (lo j));
  po_nlo : forall i, 0 <= i < g_m G -> NoDup (lo i);
  po_nup : forall i, 0 <= i < g_m G -> NoDup (up i) }.

(** ** Proofs *)
Definition cnt (x : Z) (l : list Z) : Z := Zlen (filter (Z.eqb x) l).
Lemma cnt_cons x y l : cnt x (y :: l) = (if x =? y then 1 else 0) + cnt x l.
Proof. unfold cnt. cbn [filter]. destruct (x =? y); [rewrite Zlen_cons|]; lia. Qed.
Lemma cnt_app x l l' : cnt x (l ++ l') = cnt x l + cnt x l'.
Proof. unfold cnt. now rewrite filter_app, Zlen_app. Qed.
Lemma cnt_nonneg x l : 0 <= cnt x l.
Proof. apply Zlen_nonneg. Qed.
Lemma cnt_perm x l l' : Permutation l l' -> cnt x l = cnt x l'.
Proof. induction 1; rewrite ?cnt_cons; try lia. Qed.
Lemma cnt_notin x l : ~ In x l -> cnt x l = 0.
Proof. induction l as [|y l IH]; intros H; [reflexivity|]. rewrite cnt_cons. destruct (Z.eqb_spec x y) as [->|N]; [destruct H; cbn; auto|]. rewrite IH; [lia|]. intros Hx. apply H. cbn; auto. Qed.
Lemma cnt_NoDup x l : NoDup l -> In x l -> cnt x l = 1.
Proof.
  induction l as [|y l IH]; intros H Hx; [destruct Hx|]. inversion_clear H as [|? ? N D]. rewrite cnt_cons. destruct Hx as [->|Hx].
  - rewrite Z.eqb_refl, cnt_notin by auto. reflexivity.
  - rewrite IH by auto. destruct (Z.eqb_spec x y) as [->|]; [contradiction|lia].
Qed.
Lemma cnt_pos x l : 0 < cnt x l -> In x l.
Proof. intros H. destruct (in_dec Z.eq_dec x l); auto. rewrite cnt_notin in H by auto. lia. Qed.
Lemma cnt_concat_map (f : Z -> list Z) x l : (forall i, In i l -> NoDup (f i)) ->
  cnt x (concat (map f l)) = Zlen (filter (fun i => if in_dec Z.eq_dec x (f i) then true else false) l).
Proof.
  induction l as [|i l IH]; intros H; cbn [map concat filter]; [reflexivity|]. rewrite cnt_app, IH by (intros; apply H; cbn; auto).
  destruct (in_dec Z.eq_dec x (f i)) as [Hx|Hx]; [rewrite cnt_NoDup, Zlen_cons by (auto; apply H; cbn; auto)|rewrite cnt_notin by auto]; lia.
Qed.
Lemma Zlen_same {A} (l l' : list A) : NoDup l -> NoDup l' -> (forall x, In x l <-> In x l') -> Zlen l = Zlen l'.
Proof. intros N N' H. unfold Zlen. now rewrite (Permutation_length (NoDup_Permutation N N' H)). Qed.
Lemma Zlen_filter_split {A} (p q r : A -> bool) l : (forall x, In x l -> (p x = true -> q x = true \/ r x = true) /\ (q x = true -> p x = true) /\ (r x = true -> p x = true) /\ ~ (q x = true /\ r x = true)) ->
  Zlen (filter p l) = Zlen (filter q l) + Zlen (filter r l).
Proof.
  induction l as [|x l IH]; intros H; [reflexivity|]. cbn [filter]. specialize (IH (fun y Hy => H y (or_intror Hy))). destruct (H x (or_introl eq_refl)) as (H1 & H2 & H3 & H4).
  destruct (p x) eqn:P, (q x) eqn:Q, (r x) eqn:R; rewrite ?Zlen_cons; try lia; exfalso; intuition congruence.
Qed.
Lemma Zlen_concat_off {A} (qs : list (list A)) T : Zlen qs = T -> off (nthl qs) T = Zlen (concat qs).
Proof. intros <-. rewrite concat_flat, Zlen_flat; [reflexivity|apply Zlen_nonneg]. Qed.

Lemma set_queue_perm {A} (qs qs' : list (list A)) t q x : get qs t = Some q -> set qs t (q ++ [x]) = Some qs' -> Permutation (concat qs') (concat qs ++ [x]).
Proof.
  intros G E. pose proof (get_Some_bounds _ _ _ G) as B. revert qs qs' B G E. pattern t.
  assert (H : forall n (qs qs' : list (list A)), get qs (Z.of_nat n) = Some q -> set qs (Z.of_nat n) (q ++ [x]) = Some qs' -> Permutation (concat qs') (concat qs ++ [x])).
  { induction n as [|n IH]; intros [|q1 qs] qs' G E; try (apply get_Some_bounds in G; change (Zlen (@nil (list A))) with 0 in G; lia).
    - change (Z.of_nat 0) with 0 in G, E. rewrite get_cons_0 in G. injection G as ->.
      assert (E2 : qs' = (q ++ [x]) :: qs).
      { apply list_ext. - apply set_len in E. rewrite !Zlen_cons in *. lia.
        - intros i _. destruct (Z.eq_dec i 0) as [->|Ni]; [rewrite (get_set_same _ _ _ _ E), get_cons_0; reflexivity|].
          rewrite (get_set_other _ _ _ _ _ E Ni). destruct (Z_lt_le_dec i 0) as [Hi|Hi]; [rewrite !get_out; auto|]. now rewrite !get_cons_pos by lia. }
      subst qs'. cbn [concat]. rewrite <- !app_assoc.
      apply Permutation_app_head. apply Permutation_app_comm.
    - rewrite get_cons_pos in G by lia. replace (Z.of_nat (S n) - 1) with (Z.of_nat n) in G by lia.
      destruct (set_ok qs (Z.of_nat n) (q ++ [x])) as (qs1 & E1). { apply get_Some_bounds in G. lia. }
      assert (E2 : qs' = q1 :: qs1).
      { apply list_ext. - apply set_len in E. apply set_len in E1. rewrite Zlen_cons in *. lia.
        - intros i _. destruct (Z.eq_dec i (Z.of_nat (S n))) as [->|Ni].
          + rewrite (get_set_same _ _ _ _ E). rewrite get_cons_pos by lia. replace (Z.of_nat (S n) - 1) with (Z.of_nat n) by lia. symmetry. eapply get_set_same; eauto.
          + rewrite (get_set_other _ _ _ _ _ E Ni). destruct (Z_lt_le_dec i 0) as [Hi|Hi]; [rewrite !get_out; auto|]. destruct (Z.eq_dec i 0) as [->|]; [now rewrite !get_cons_0|].
            rewrite !get_cons_pos by lia. symmetry. eapply get_set_other; eauto. lia. }
      subst qs'. cbn [concat]. rewrite <- app_assoc. apply Permutation_app_head. eapply IH; eauto. }
  intros qs qs' B G E. rewrite <- (Z2Nat.id t) in G, E by lia. eapply H; eauto.
Qed.

Section Proof.
Variables (G : gr) (lo up : Z -> list Z) (lev : Z -> Z) (T : Z).
Hypothesis HP : pattern_ok G lo up.
Hypothesis HL : is_depth (g_m G) lo lev.
Hypothesis HT : 1 <= T.
Let m := g_m G.
Notation cap := (share m T).

Lemma degree_ok i : 0 <= i < m -> exists cs, succs G i = Some cs /\ degree G i = Some (Zlen cs) /\ inside m cs = up i.
Proof.
  intros Hi. destruct (po_low _ _ _ HP i Hi) as (r & d & e & cs & E1 & E2 & E3 & E4 & E5 & E6 & E7). exists cs. split; auto. split; auto. unfold degree. rewrite E2, E3. now rewrite E6.
Qed.
Lemma enqueue_inv t x qs qs' : enqueue G cap t x qs = Some qs' -> Zlen qs' = Zlen qs /\ Permutation (concat qs') (concat qs ++ [x]).
Proof.
  unfold enqueue. destruct (get qs t) as [q|] eqn:E; [|discriminate]. destruct (degree G x); [|discriminate]. destruct (Zlen q + 1 <? cap); [|discriminate].
  intros ES. split; [eapply set_len; eauto|]. eapply set_queue_perm; eauto.
Qed.
Lemma enqueue_ok t x qs : 0 <= x < m -> 0 <= t < Zlen qs -> Zlen (concat qs) + 1 < cap -> exists qs', enqueue G cap t x qs = Some qs'.
Proof.
  intros Hx Ht Hc. unfold enqueue. rewrite (get_nthl qs t Ht). destruct (degree_ok x Hx) as (cs & _ & -> & _).
  assert (Zlen (nthl qs t) <= Zlen (concat qs)).
  { rewrite <- (Zlen_concat_off qs _ eq_refl). pose proof (off_S (nthl qs) t ltac:(lia)). pose proof (off_nonneg (nthl qs) t). pose proof (off_mono (nthl qs) (t + 1) (Zlen qs) ltac:(lia)). lia. }
  replace (Zlen (nthl qs t) + 1 <? cap) with true by lia. destruct (set_ok qs t (nthl qs t ++ [x])) as (qs' & E); eauto.
Qed.

(** Decrementing counters in any order: which rows get queued. *)
Lemma edges_fold l : forall np qs (c : Z -> Z), (forall x, 0 <= x < m -> get np x = Some (c x)) -> (forall a, In a l -> 0 <= snd a < m /\ 0 <= fst a < Zlen qs) ->
  (forall x, cnt x (map snd l) <= c x) ->
  (forall np' qs', foldM (edge_step G cap) l (np, qs) = Some (np', qs') ->
    Zlen np' = Zlen np /\ Zlen qs' = Zlen qs /\ (forall x, 0 <= x < m -> get np' x = Some (c x - cnt x (map snd l))) /\
    exists new, Permutation (concat qs') (concat qs ++ new) /\ NoDup new /\ forall x, In x new <-> 0 <= x < m /\ 0 < c x /\ cnt x (map snd l) = c x) /\
  (Zlen (concat qs) + Zlen (filter (fun x => (0 <? c x) && (cnt x (map snd l) =? c x)) (zrange 0 m)) < cap ->
    exists s, foldM (edge_step G cap) l (np, qs) = Some s).
Proof.
  induction l as [|(t, x) l IH]; intros np qs c Hnp Hl Hc.
  - cbn [foldM]. split; [|eauto]. intros np' qs' E. injection E as <- <-. split; auto. split; auto. split.
    + intros x Hx. rewrite (Hnp x Hx). f_equal. cbn [map]. change (cnt x []) with 0. lia.
    + exists []. rewrite app_nil_r. split; auto. split; [constructor|]. intros x. split; [intros []|]. cbn [map]. change (cnt x []) with 0. lia.
  - destruct (Hl (t, x) (or_introl eq_refl)) as (Hx & Ht). cbn [fst snd] in Hx, Ht. cbn [foldM edge_step]. rewrite (Hnp x Hx).
    assert (Hnp0 : 0 <= x < Zlen np) by (eapply get_Some_bounds, Hnp; auto). destruct (set_ok np x (c x - 1) Hnp0) as (np1 & E1). rewrite E1. cbn [map snd] in *.
    set (c' := fun y => if y =? x then c x - 1 else c y).
    assert (Hnp1 : forall y, 0 <= y < m -> get np1 y = Some (c' y)).
    { intros y Hy. unfold c'. destruct (Z.eqb_spec y x) as [->|N]; [eapply get_set_same; eauto|rewrite (get_set_other _ _ _ _ _ E1 N); auto]. }
    assert (Hc' : forall y, cnt y (map snd l) <= c' y).
    { intros y. pose proof (Hc y) as H. rewrite cnt_cons in H. unfold c'. destruct (y =? x) eqn:Y; [apply Z.eqb_eq in Y; rewrite Y in *|]; lia. }
    pose proof (Hc x) as Hcx. rewrite cnt_cons, Z.eqb_refl in Hcx. pose proof (cnt_nonneg x (map snd l)) as Hn.
    destruct (Z.eqb_spec (c x) 1) as [E|NE].
    + split.
      * intros np' qs' EF. destruct (enqueue G cap t x qs) as [qs1|] eqn:EQ; [|discriminate]. destruct (enqueue_inv _ _ _ _ EQ) as (L1 & P1).
        destruct (IH np1 qs1 c' Hnp1) as (IH1 & _); auto. { intros a Ha. rewrite L1. apply Hl. cbn; auto. }
        destruct (IH1 np' qs' EF) as (A1 & A2 & A3 & new & A4 & A5 & A6). split; [rewrite A1; eapply set_len; eauto|]. split; [lia|]. split.
        { intros y Hy. rewrite (A3 y Hy). rewrite cnt_cons. unfold c'. destruct (y =? x) eqn:Y; f_equal; try lia. apply Z.eqb_eq in Y. subst. lia. }
        exists (x :: new). split. { rewrite A4, P1, <- app_assoc. reflexivity. } split.
        { constructor; auto. rewrite A6. unfold c'. rewrite Z.eqb_refl. lia. }
        intros y. cbn [In]. rewrite A6, cnt_cons. unfold c'. destruct (Z.eqb_spec y x) as [->|N].
        { split; [intros _|auto]. repeat split; try lia. }
        split; [intros [->|H]; [congruence|]; tauto|intros H; right; tauto].
      * intros Hb. assert (Hf : Zlen (filter (fun y => (0 <? c y) && (cnt y (x :: map snd l) =? c y)) (zrange 0 m)) = 1 + Zlen (filter (fun y => (0 <? c' y) && (cnt y (map snd l) =? c' y)) (zrange 0 m))).
        { rewrite (Zlen_filter_split _ (fun y => y =? x) (fun y => (0 <? c' y) && (cnt y (map snd l) =? c' y))).
          - f_equal. transitivity (Zlen [x]); [|reflexivity]. apply Zlen_same. + apply NoDup_filter, NoDup_zrange. + repeat constructor. intros [].
            + intros y. rewrite filter_In, In_zrange, Z.eqb_eq. cbn [In]. split; [intros (_ & ->); auto|intros [<-|[]]]. auto.
          - intros y _. rewrite cnt_cons. unfold c'. destruct (Z.eqb_spec y x) as [->|N]; [|repeat split; lia]. lia. }
        cbn [map] in Hb. rewrite Hf in Hb. pose proof (Zlen_nonneg (filter (fun y => (0 <? c' y) && (cnt y (map snd l) =? c' y)) (zrange 0 m))).
        destruct (enqueue_ok t x qs Hx Ht) as (qs1 & EQ); [lia|]. rewrite EQ. destruct (enqueue_inv _ _ _ _ EQ) as (L1 & P1).
        destruct (IH np1 qs1 c' Hnp1) as (_ & IH2); auto. { intros a Ha. rewrite L1. apply Hl. cbn; auto. }
        apply IH2. unfold Zlen at 1. rewrite (Permutation_length P1), app_length. fold (Zlen (concat qs)). cbn [length]. unfold Zlen in *. lia.
    + assert (Hch : forall y, 0 < c y /\ cnt y (x :: map snd l) = c y <-> 0 < c' y /\ cnt y (map snd l) = c' y).
      { intros y. rewrite cnt_cons. unfold c'. destruct (Z.eqb_spec y x) as [->|N]; lia. }
      destruct (IH np1 qs c' Hnp1) as (IH1 & IH2); auto. { intros a Ha. apply Hl. cbn; auto. } split.
      * intros np' qs' EF. destruct (IH1 np' qs' EF) as (A1 & A2 & A3 & new & A4 & A5 & A6). split; [rewrite A1; eapply set_len; eauto|]. split; [lia|]. split.
        { intros y Hy. rewrite (A3 y Hy). rewrite cnt_cons. unfold c'. destruct (y =? x) eqn:Y; f_equal; try lia. apply Z.eqb_eq in Y. subst. lia. }
        exists new. split; auto. split; auto. intros y. rewrite A6, Hch. tauto.
      * intros Hb. apply IH2. erewrite filter_ext; [exact Hb|]. intros y. cbn [map]. specialize (Hch y). cbn beta. lia.
Qed.
(** The same by thread 0 alone. *)
Lemma serial_fold l cap2 e : forall np rv k (c : Z -> Z), (forall x, 0 <= x < m -> get np x = Some (c x)) -> (forall x, In x l -> 0 <= x < m) ->
  (forall x, cnt x l <= c x) -> 0 <= k -> 0 <= e -> e + k + Zlen (filter (fun x => (0 <? c x) && (cnt x l =? c x)) (zrange 0 m)) <= Zlen rv ->
  k + Zlen (filter (fun x => (0 <? c x) && (cnt x l =? c x)) (zrange 0 m)) < cap2 ->
  exists np' rv' k' new, foldM (serial_step G cap2 e) l (np, rv, k) = Some (np', rv', k') /\
    Zlen np' = Zlen np /\ Zlen rv' = Zlen rv /\ (forall x, 0 <= x < m -> get np' x = Some (c x - cnt x l)) /\
    k' = k + Zlen new /\ NoDup new /\ (forall x, In x new <-> 0 <= x < m /\ 0 < c x /\ cnt x l = c x) /\
    (forall p, p < e + k -> get rv' p = get rv p) /\ (forall p, 0 <= p < Zlen new -> get rv' (e + k + p) = get new p).
Proof.
  induction l as [|x l IH]; intros np rv k c Hnp Hl Hc Hk He Hr Hcap.
  - cbn [foldM]. exists np, rv, k, []. split; auto. split; auto. split; auto. split.
    { intros x Hx. rewrite (Hnp x Hx). f_equal. change (cnt x []) with 0. lia. }
    split; [change (Zlen (@nil Z)) with 0; lia|]. split; [constructor|]. split.
    { intros x. split; [intros []|]. change (cnt x []) with 0. lia. }
    split; auto. change (Zlen (@nil Z)) with 0. lia.
  - pose proof (Hl x (or_introl eq_refl)) as Hx. cbn [foldM serial_step]. rewrite (Hnp x Hx).
    assert (Hnp0 : 0 <= x < Zlen np) by (eapply get_Some_bounds, Hnp; auto). destruct (set_ok np x (c x - 1) Hnp0) as (np1 & E1). rewrite E1.
    set (c' := fun y => if y =? x then c x - 1 else c y).
    assert (Hnp1 : forall y, 0 <= y < m -> get np1 y = Some (c' y)).
    { intros y Hy. unfold c'. destruct (Z.eqb_spec y x) as [->|N]; [eapply get_set_same; eauto|rewrite (get_set_other _ _ _ _ _ E1 N); auto]. }
    assert (Hc' : forall y, cnt y l <= c' y).
    { intros y. pose proof (Hc y) as H. rewrite cnt_cons in H. unfold c'. destruct (y =? x) eqn:Y; [apply Z.eqb_eq in Y; rewrite Y in *|]; lia. }
    pose proof (Hc x) as Hcx. rewrite cnt_cons, Z.eqb_refl in Hcx. pose proof (cnt_nonneg x l) as Hn.
    destruct (Z.eqb_spec (c x - 1) 0) as [E|NE].
    + assert (Hf : Zlen (filter (fun y => (0 <? c y) && (cnt y (x :: l) =? c y)) (zrange 0 m)) = 1 + Zlen (filter (fun y => (0 <? c' y) && (cnt y l =? c' y)) (zrange 0 m))).
      { rewrite (Zlen_filter_split _ (fun y => y =? x) (fun y => (0 <? c' y) && (cnt y l =? c' y))).
        - f_equal. transitivity (Zlen [x]); [|reflexivity]. apply Zlen_same. + apply NoDup_filter, NoDup_zrange. + repeat constructor. intros [].
          + intros y. rewrite filter_In, In_zrange, Z.eqb_eq. cbn [In]. split; [intros (_ & ->); auto|intros [<-|[]]]. auto.
        - intros y _. rewrite cnt_cons. unfold c'. destruct (Z.eqb_spec y x) as [->|N]; [|repeat split; lia]. lia. }
      rewrite Hf in Hr, Hcap. pose proof (Zlen_nonneg (filter (fun y => (0 <? c' y) && (cnt y l =? c' y)) (zrange 0 m))) as Hnn.
      destruct (degree_ok x Hx) as (cs & _ & -> & _). replace (k + 1 <? cap2) with true by lia. destruct (set_ok rv (e + k) x) as (rv1 & E2); [lia|]. rewrite E2.
      destruct (IH np1 rv1 (k + 1) c' Hnp1) as (np' & rv' & k' & new & A0 & A1 & A2 & A3 & A4 & A5 & A6 & A7 & A8); auto; try lia.
      { intros; apply Hl; cbn; auto. } { rewrite (set_len _ _ _ _ E2). lia. }
      exists np', rv', k', (x :: new). split; auto. split; [rewrite A1; eapply set_len; eauto|]. split; [rewrite A2; eapply set_len; eauto|]. split.
      { intros y Hy. rewrite (A3 y Hy). rewrite cnt_cons. unfold c'. destruct (y =? x) eqn:Y; f_equal; try lia. apply Z.eqb_eq in Y. subst. lia. }
      split; [rewrite Zlen_cons; lia|]. split. { constructor; auto. rewrite A6. unfold c'. rewrite Z.eqb_refl. lia. }
      split. { intros y. cbn [In]. rewrite A6, cnt_cons. unfold c'. destruct (Z.eqb_spec y x) as [->|N].
        { split; [intros _|auto]. repeat split; try lia. }
        split; [intros [->|H]; [congruence|]; tauto|intros H; right; tauto]. }
      split. { intros p Hp. rewrite A7 by lia. eapply get_set_other; eauto. lia. }
      intros p Hp. rewrite Zlen_cons in Hp. destruct (Z.eq_dec p 0) as [->|Np].
      * rewrite A7 by lia. rewrite Z.add_0_r, get_cons_0. eapply get_set_same; eauto.
      * rewrite get_cons_pos by lia. rewrite <- A8 by lia. f_equal. lia.
    + assert (Hch : forall y, 0 < c y /\ cnt y (x :: l) = c y <-> 0 < c' y /\ cnt y l = c' y).
      { intros y. rewrite cnt_cons. unfold c'. destruct (Z.eqb_spec y x) as [->|N]; lia. }
      assert (Hf : filter (fun y => (0 <? c y) && (cnt y (x :: l) =? c y)) (zrange 0 m) = filter (fun y => (0 <? c' y) && (cnt y l =? c' y)) (zrange 0 m)).
      { apply filter_ext. intros y. specialize (Hch y). lia. }
      rewrite Hf in Hr, Hcap.
      destruct (IH np1 rv k c' Hnp1) as (np' & rv' & k' & new & A0 & A1 & A2 & A3 & A4 & A5 & A6 & A7 & A8); auto. { intros; apply Hl; cbn; auto. }
      exists np', rv', k', new. split; auto. split; [rewrite A1; eapply set_len; eauto|]. split; auto. split.
      { intros y Hy. rewrite (A3 y Hy). rewrite cnt_cons. unfold c'. destruct (y =? x) eqn:Y; f_equal; try lia. apply Z.eqb_eq in Y. subst. lia. }
      split; auto. split; auto. split; auto. intros y. rewrite A6, Hch. tauto.
Qed.
End Proof.
