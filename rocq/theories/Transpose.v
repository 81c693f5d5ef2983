(** * CSR::transpose (/repo/CSR.cpp:457-629). *)
From Verif Require Import Base Spec Interleave Partition PrefixSum Flat CountSort Csr.

(** Iterations of an [omp for] loop, in any order. *)
Definition par_any {S} (sch : list nat) (f : Z -> S -> option S) (lo hi : Z) (s : S) : option S :=
  par sch f (map (fun i => [i]) (zrange lo hi)) s.

Section Model.
Context {V : Type}.
Implicit Types A : csr V.

(** Lines 514-532: the keys a thread counts, read by one loop over all its
    non-zeros. *)
Definition tr_keys A (base T t : Z) : option (list Z) :=
  ' (b, e) <- load_balanced_partition (rowptr A) (cm A) T t ;;
  lo <- get (rowptr A) b ;; hi <- get (rowptr A) e ;;
  mapM (fun j => c <- get (colidx A) j ;;
                 assert! ((base <=? c) && (c <? cn A + base)) ;;
                 Some (c - base)) (zrange (lo - base) (hi - base)).

(** Lines 570-595: what a thread places, row by row: (key, (row, value)). *)
Definition tr_value A (j : Z) : option (option V) :=
  match values A with
  | Some vs => v <- get vs j ;; Some (Some v)
  | None => Some None
  end.
Definition tr_row A (base i : Z) : option (list (Z * (Z * option V))) :=
  lo <- get (rowptr A) i ;; hi <- get (rowptr A) (i + 1) ;;
  mapM (fun j => c <- get (colidx A) j ;; v <- tr_value A j ;; Some (c - base, (i + base, v)))
       (zrange (lo - base) (hi - base)).
Definition tr_items A (base T t : Z) : option (list (Z * (Z * option V))) :=
  ' (b, e) <- load_balanced_partition (rowptr A) (cm A) T t ;;
  rs <- mapM (tr_row A base) (zrange b e) ;; Some (concat rs).

(** Lines 573-580 and 587-592. *)
Definition set_val (vals : option (list V)) (k : Z) (v : option V) : option (option (list V)) :=
  match vals, v with
  | Some l, Some x => l' <- set l k x ;; Some (Some l')
  | None, _ => Some None
  | Some _, None => None
  end.
Definition place2_step (n : Z) (ta : Z * (Z * (Z * option V)))
    (s : list Z * (list Z * option (list V))) : option (list Z * (list Z * option (list V))) :=
  let '(t, (c, (i, v))) := ta in
  let '(b, (cols, vals)) := s in
  k <- get b (t * n + c) ;;
  b <- set b (t * n + c) (k - 1) ;;
  vals <- set_val vals (k - 1) v ;;
  cols <- set cols (k - 1) i ;;
  Some (b, (cols, vals)).

(** Lines 614-620. *)
Definition tr_diag (base : Z) (b cols : list Z) (i : Z) (d : list Z) : option (list Z) :=
  lo <- get b i ;; hi <- get b (i + 1) ;;
  forZ (lo - base) (hi - base) (fun j d =>
    c <- get cols j ;;
    if c =? i + base then set d i (j + base) else Some d) d.

(** Uninitialised memory. *)
Record tr_junk := mkTJ { tj_bucket : list Z; tj_cols : list Z; tj_vals : list V; tj_diag : list Z }.
Definition tj_ok (n T nnz : Z) (j : tr_junk) : Prop :=
  Zlen (tj_bucket j) = (n + 1) * T /\ Zlen (tj_cols j) = nnz /\ Zlen (tj_vals j) = nnz /\
  Zlen (tj_diag j) = n.

(** The result points at the first n + 1 elements of [bucket] (lines 625-626);
    the rest of that allocation is not reachable through the CSR interface.  A
    NULL row pointer array (lines 495-497) is the empty list: any access to it is
    undefined. *)
Definition transpose A (T : Z) (sch : nat -> list nat) (j : tr_junk) : option (csr V) :=
  base <- getBase A ;;
  nnz <- getNnz A ;;
  let n := cn A in
  let vals0 := match values A with Some _ => Some (tj_vals j) | None => None end in
  let diag0 := match diagptr A with Some _ => Some (tj_diag j) | None => None end in
  if n =? 0 then Some (mkCSR n (cm A) [] (tj_cols j) vals0 None None diag0 None)
  else
    keys <- mapM (tr_keys A base T) (zrange 0 T) ;;
    items <- mapM (tr_items A base T) (zrange 0 T) ;;
    b <- counting n T (merge (sch 0%nat) (threads_of (cnt_thread (fun k => k) n) keys))
           (merge (sch 1%nat) (map (scan1_thread n) (zrange 0 T)))
           (merge (sch 2%nat) (map (scan3_thread n) (zrange 0 T))) (tj_bucket j) ;;
    ' (b, (cols, vals)) <- par (sch 3%nat) (place2_step n)
                             (threads_of (fun t l => place_thread t l) items) (b, (tj_cols j, vals0)) ;;
    b <- (if 0 <? base
          then b <- par_any (sch 4%nat) (fun i b => v <- get b i ;; set b i (v + base)) 0 n b ;;
               b0 <- get b 0 ;; assert! (b0 =? base) ;; Some b
          else Some b) ;;
    b <- set b n (nnz + base) ;;
    d <- match diag0 with
         | Some d => d <- par_any (sch 5%nat) (tr_diag base b cols) 0 n d ;; Some (Some d)
         | None => Some None
         end ;;
    Some (mkCSR n (cm A) (slice b 0 (n + 1)) cols vals None None d None).
End Model.
Arguments tr_junk : clear implicits.

(** ** Specification *)

(** Row [c] of the transpose: the entries of column [c], by increasing row, in
    storage order within a row. *)
Definition column {V} (rows : rows_t V) (c : Z) : list (Z * V) :=
  concat (map (fun i => map (fun e => (i, snd e)) (filter (fun e => fst e =? c) (nthl rows i)))
    (zrange 0 (Zlen rows))).
Definition transpose_rows {V} (n : Z) (rows : rows_t V) : rows_t V := map (column rows) (zrange 0 n).

(** [d] points at the last entry of column [i] in each row [i] that has one. *)
Definition diag_pointers {V} (base : Z) (rows : rows_t V) (junk d : list Z) : Prop :=
  Zlen d = Zlen rows /\
  forall i, 0 <= i < Zlen rows ->
    (exists l1 v l2, nthl rows i = l1 ++ (i, v) :: l2 /\ (forall w, ~ In (i, w) l2) /\
       get d i = Some (base + off (nthl rows) i + Zlen l1)) \/
    ((forall w, ~ In (i, w) (nthl rows i)) /\ get d i = get junk i).

(** ** Proofs *)

Lemma par_any_seq {S} sch (f : Z -> S -> option S) lo hi s :
  (forall i j, lo <= i < hi -> lo <= j < hi -> i <> j -> commute f i j) ->
  par_any sch f lo hi s = forZ lo hi f s.
Proof.
  intros H. unfold par_any, par.
  apply par_for_any_order; auto.
  apply Permutation_sym. rewrite merge_perm.
  replace (concat (map (fun i => [i]) (zrange lo hi))) with (zrange lo hi); auto.
  induction (zrange lo hi); cbn; congruence.
Qed.

(** Stores of independent values, one per index. *)
Lemma par_any_write {X} sch (f : Z -> list X -> option (list X)) (val : Z -> X) lo hi w :
  0 <= lo -> hi <= Zlen w ->
  (forall i w', lo <= i < hi -> Zlen w' = Zlen w -> get w' i = get w i -> f i w' = set w' i (val i)) ->
  exists w', par_any sch f lo hi w = Some w' /\ Zlen w' = Zlen w /\
    (forall i, lo <= i < hi -> get w' i = Some (val i)) /\
    (forall i, ~ lo <= i < hi -> get w' i = get w i).
Proof.
  intros H0 H1 Hf. unfold par_any, par.
  assert (Hp : Permutation (merge sch (map (fun i => [i]) (zrange lo hi))) (zrange lo hi)).
  { rewrite merge_perm. replace (concat (map (fun i => [i]) (zrange lo hi))) with (zrange lo hi); auto.
    induction (zrange lo hi); cbn; congruence. }
  set (l := merge sch _) in *. clearbody l.
  assert (Hnd : NoDup l) by (eapply Permutation_NoDup; [apply Permutation_sym, Hp|apply NoDup_zrange]).
  assert (Hin : forall i, In i l <-> lo <= i < hi).
  { intros i. rewrite <- In_zrange. split; apply Permutation_in; auto. now apply Permutation_sym. }
  assert (G : forall l w1, NoDup l -> (forall i, In i l -> lo <= i < hi) -> Zlen w1 = Zlen w ->
     (forall i, In i l -> get w1 i = get w i) ->
     exists w', foldM f l w1 = Some w' /\ Zlen w' = Zlen w /\
       (forall i, In i l -> get w' i = Some (val i)) /\ (forall i, ~ In i l -> get w' i = get w1 i)).
  { clear Hp Hnd Hin. clear l. induction l as [|a l IH]; intros w1 Hnd Hr Hl Hg.
    - exists w1. cbn. repeat split; auto. tauto.
    - inversion Hnd as [|? ? Ha Hnd']; subst. cbn [foldM].
      specialize (Hr a (or_introl eq_refl)) as Har.
      rewrite Hf by (auto; apply Hg; cbn; auto).
      destruct (set_ok w1 a (val a)) as (w2 & E2); [lia|]. rewrite E2.
      destruct (IH w2) as (w' & E & L & G1 & G2); auto.
      { intros; apply Hr; cbn; auto. }
      { now rewrite (set_len _ _ _ _ E2). }
      { intros i Hi. rewrite (get_set_other _ _ _ _ _ E2) by (intros ->; contradiction). apply Hg; cbn; auto. }
      exists w'. split; auto. split; auto. split.
      + intros i [<-|Hi]; auto. rewrite G2 by auto. apply (get_set_same _ _ _ _ E2).
      + intros i Hi. rewrite G2 by (intros H; apply Hi; cbn; auto).
        apply (get_set_other _ _ _ _ _ E2). intros ->. apply Hi. cbn; auto. }
  destruct (G l w Hnd) as (w' & E & L & G1 & G2); auto.
  { intros i; apply Hin. }
  exists w'. split; auto. split; auto. split.
  - intros i Hi. apply G1. now apply Hin.
  - intros i Hi. apply G2. now rewrite Hin.
Qed.

Lemma filter_concat {A} (p : A -> bool) ls : filter p (concat ls) = concat (map (filter p) ls).
Proof. induction ls as [|l ls IH]; cbn; auto. now rewrite filter_app, IH. Qed.

Lemma filter_map_comm {A B} (f : A -> B) (p : B -> bool) l :
  filter p (map f l) = map f (filter (fun a => p (f a)) l).
Proof. induction l as [|a l IH]; cbn; auto. destruct (p (f a)); cbn; now rewrite IH. Qed.

Section Proof.
Context {V : Type}.
Variables (hasv : bool) (base n : Z) (rows : rows_t V) (A : csr V) (T : Z).
Hypothesis HR : rep hasv base n rows A.
Hypothesis Hok : rows_ok n rows.
Hypothesis HT : 1 <= T.
Hypothesis Hn : 1 <= n.

Notation m := (Zlen rows).
Notation row i := (nthl rows i).

Definition vopt (v : V) : option V := if hasv then Some v else None.
Definition item (i : Z) (e : Z * V) : Z * (Z * option V) := (fst e, (i + base, vopt (snd e))).
Definition row_items (i : Z) : list (Z * (Z * option V)) := map (item i) (row i).

Lemma tr_row_ok i : 0 <= i < m -> tr_row A base i = Some (row_items i).
Proof.
  intros Hi. destruct HR as (H1 & H2 & H3 & H4 & H5). unfold tr_row. rewrite H3, H4, !get_rowptr_of by lia.
  replace (base + off (nthl rows) i - base) with (off (nthl rows) i) by lia.
  replace (base + off (nthl rows) (i + 1) - base) with (off (nthl rows) i + Zlen (row i)) by (rewrite off_S; lia).
  apply mapM_list. intros k [c v] E. rewrite (get_colidx_of base rows i k c v) by auto.
  unfold tr_value, item, vopt. rewrite H5. destruct hasv.
  - rewrite (get_values_of rows i k c v) by auto. cbn. repeat f_equal. lia.
  - cbn. repeat f_equal. lia.
Qed.

Definition bd (t : Z) : Z := lb_boundary (rowptr A) (cm A) T t.

Lemma bd_spec : bd 0 = 0 /\ bd T = m /\ (forall t, 0 <= t < T -> bd t <= bd (t + 1)) /\
  (forall t, 0 <= t <= T -> 0 <= bd t <= m) /\
  (forall t, 0 <= t < T -> load_balanced_partition (rowptr A) (cm A) T t = Some (bd t, bd (t + 1))).
Proof.
  destruct HR as (H1 & H2 & H3 & H4 & H5). pose proof (Zlen_nonneg rows). rewrite <- H1. unfold bd.
  apply lb_boundary_spec; try lia.
  - rewrite H3, Zlen_rowptr_of. lia.
  - rewrite H3. apply rowptr_of_monotone.
Qed.

Definition items_of (t : Z) : list (Z * (Z * option V)) := concat (map row_items (zrange (bd t) (bd (t + 1)))).

Lemma tr_items_ok : mapM (tr_items A base T) (zrange 0 T) = Some (map items_of (zrange 0 T)).
Proof.
  destruct bd_spec as (B1 & B2 & B3 & B4 & B5).
  apply mapM_Some. intros t Ht. apply In_zrange in Ht. unfold tr_items. rewrite B5 by lia.
  rewrite (mapM_Some _ row_items); auto. intros i Hi. apply In_zrange in Hi. apply tr_row_ok.
  pose proof (B4 t). pose proof (B4 (t + 1)). lia.
Qed.

Lemma concat_items : concat (map items_of (zrange 0 T)) = concat (map row_items (zrange 0 m)).
Proof.
  destruct bd_spec as (B1 & B2 & B3 & B4 & B5).
  replace (zrange 0 m) with (zrange (bd 0) (bd T)) by (now rewrite B1, B2).
  rewrite <- (concat_zrange_tiling bd T) by (auto; lia). unfold items_of.
  rewrite <- (map_map (fun t => zrange (bd t) (bd (t + 1))) (fun l => concat (map row_items l))).
  generalize (map (fun t => zrange (bd t) (bd (t + 1))) (zrange 0 T)). intros ls.
  induction ls as [|l ls IH]; cbn; auto. now rewrite IH, map_app, concat_app.
Qed.

Lemma item_key_range t x : In t (map items_of (zrange 0 T)) -> In x t -> 0 <= fst x < n.
Proof.
  intros Ht Hx. assert (In x (concat (map items_of (zrange 0 T)))) as H by (apply in_concat; eauto).
  rewrite concat_items in H. apply in_concat in H as (l & Hl & Hx').
  apply in_map_iff in Hl as (i & <- & Hi). apply In_zrange in Hi.
  apply in_map_iff in Hx' as ([c v] & <- & He). cbn. apply (Hok (row i) c v); auto. now apply nth_row_In.
Qed.

Lemma off_sum_rows lo hi : 0 <= lo <= hi -> hi <= m ->
  off (nthl rows) hi = off (nthl rows) lo + Zlen (concat (map row_items (zrange lo hi))).
Proof.
  intros H1 H2. revert H2. replace hi with (lo + (hi - lo)) by lia.
  assert (0 <= hi - lo) as H0 by lia. revert H0. generalize (hi - lo). apply (Z_ind0 (fun d => lo + d <= m ->
    off (nthl rows) (lo + d) = off (nthl rows) lo + Zlen (concat (map row_items (zrange lo (lo + d)))))).
  - intros _. rewrite zrange_nil by lia. cbn. rewrite Z.add_0_r. change (Zlen (@nil (Z * (Z * option V)))) with 0. lia.
  - intros d Hd IH Hle. replace (lo + (d + 1)) with (lo + d + 1) by lia.
    rewrite off_S, IH by lia. rewrite (zrange_snoc lo (lo + d)) by lia.
    rewrite map_app, concat_app, Zlen_app. cbn [map concat]. rewrite app_nil_r.
    unfold row_items at 3. rewrite Zlen_map. lia.
Qed.

Lemma tr_keys_ok : mapM (tr_keys A base T) (zrange 0 T) = Some (map (fun t => map fst (items_of t)) (zrange 0 T)).
Proof.
  destruct bd_spec as (B1 & B2 & B3 & B4 & B5).
  apply mapM_Some. intros t Ht. apply In_zrange in Ht. unfold tr_keys. rewrite B5 by lia.
  pose proof (B4 t ltac:(lia)) as Ba. pose proof (B4 (t + 1) ltac:(lia)) as Bb. pose proof (B3 t Ht) as Bc.
  destruct HR as (H1 & H2 & H3 & H4 & H5). rewrite H3, !get_rowptr_of by lia.
  replace (base + off (nthl rows) (bd t) - base) with (off (nthl rows) (bd t)) by lia.
  replace (base + off (nthl rows) (bd (t + 1)) - base) with (off (nthl rows) (bd t) + Zlen (items_of t))
    by (rewrite (off_sum_rows (bd t) (bd (t + 1))) by lia; unfold items_of; lia).
  apply mapM_list. intros k x E.
  assert (exists i e, get (concat rows) (off (nthl rows) (bd t) + k) = Some e /\ x = item i e) as (i & e & E1 & ->).
  { unfold items_of in E. fold (items_of t) in E.
    pose proof (get_Some_bounds _ _ _ E) as Hk.
    set (f := fun i => row_items (bd t + i)).
    assert (items_of t = flat f (bd (t + 1) - bd t)) as Ef.
    { unfold items_of, flat, f. f_equal. rewrite <- (map_map (fun i => bd t + i) row_items). f_equal.
      apply list_ext.
      - rewrite Zlen_map, !Zlen_zrange. lia.
      - intros q Hq. rewrite Zlen_zrange in Hq. rewrite get_map, !get_zrange by lia. reflexivity. }
    change (get (items_of t) k = Some x) in E. change (0 <= k < Zlen (items_of t)) in Hk.
    rewrite Ef in E, Hk. destruct (flat_locate f (bd (t + 1) - bd t) k) as (i & q & Hi & Hq & ->); auto; try lia.
    { now rewrite Zlen_flat in Hk by lia. }
    rewrite get_flat in E by (auto; lia). unfold f, row_items in E, Hq. rewrite get_map in E. rewrite Zlen_map in Hq.
    destruct (get_in_range (row (bd t + i)) q Hq) as (e & Ee). rewrite Ee in E. injection E as <-.
    exists (bd t + i), e. split; auto.
    replace (off (nthl rows) (bd t) + (off f i + q)) with (off (nthl rows) (bd t + i) + q).
    - rewrite get_concat by (auto; lia). auto.
    - rewrite (off_sum_rows (bd t) (bd t + i)) by lia.
      assert (concat (map row_items (zrange (bd t) (bd t + i))) = flat f i) as ->.
      { unfold flat, f. f_equal. rewrite <- (map_map (fun i => bd t + i) row_items). f_equal.
        apply list_ext.
        - rewrite Zlen_map, !Zlen_zrange. lia.
        - intros z Hz. rewrite Zlen_zrange in Hz. rewrite get_map, !get_zrange by lia. reflexivity. }
      rewrite Zlen_flat by lia. lia. }
  rewrite H4. unfold colidx_of. rewrite get_map, E1. cbn [option_map item fst].
  assert (0 <= fst e < n) as Hc.
  { apply get_In in E1. apply in_concat in E1 as (r & Hr & He). destruct e as [c v]. apply (Hok r c v); auto. }
  rewrite H2. replace (_ && _) with true by lia. f_equal. lia.
Qed.

Notation pcol := (fun x : Z * (Z * option V) => fst (snd x)).
Notation pval := (fun x : Z * (Z * option V) => snd (snd x)).

Lemma set_map {X Y} (f : X -> Y) l k x : set (map f l) k (f x) = option_map (map f) (set l k x).
Proof.
  unfold set. rewrite Zlen_map. destruct ((0 <=? k) && (k <? Zlen l)); auto. cbn. f_equal.
  generalize (Z.to_nat k). induction l as [|a l IH]; intros [|q]; cbn; auto. now rewrite IH.
Qed.

Lemma place2_none tr b cols b' cols' :
  foldM (place_step fst pcol n) tr (b, cols) = Some (b', cols') ->
  foldM (place2_step n) tr (b, (cols, None)) = Some (b', (cols', @None (list V))).
Proof.
  revert b cols. induction tr as [|[t [c [i v]]] tr IH]; intros b cols E; cbn [foldM] in *.
  - now injection E as <- <-.
  - cbn [place_step place2_step fst snd] in *.
    destruct (get b (t * n + c)) as [k|]; [|discriminate].
    destruct (set b (t * n + c) (k - 1)) as [b1|]; [|discriminate]. cbn [set_val].
    destruct (set cols (k - 1) i) as [cols1|]; [|discriminate]. now apply IH.
Qed.

Lemma place2_some tr b cols vals b' cols' b'' ov :
  (forall ta, In ta tr -> exists v, snd (snd (snd ta)) = Some v) ->
  foldM (place_step fst pcol n) tr (b, cols) = Some (b', cols') ->
  foldM (place_step fst pval n) tr (b, map Some vals) = Some (b'', ov) ->
  exists vals', ov = map Some vals' /\
    foldM (place2_step n) tr (b, (cols, Some vals)) = Some (b', (cols', Some vals')).
Proof.
  revert b cols vals. induction tr as [|[t [c [i v]]] tr IH]; intros b cols vals Hv E1 E2; cbn [foldM] in *.
  - injection E1 as <- <-. injection E2 as <- <-. eauto.
  - destruct (Hv _ (or_introl eq_refl)) as (x & Ex). cbn [snd] in Ex. subst v.
    cbn [place_step place2_step fst snd] in *.
    destruct (get b (t * n + c)) as [k|]; [|discriminate].
    destruct (set b (t * n + c) (k - 1)) as [b1|]; [|discriminate]. cbn [set_val].
    rewrite set_map in E2. destruct (set vals (k - 1) x) as [vals1|]; [|discriminate].
    destruct (set cols (k - 1) i) as [cols1|]; [|discriminate]. cbn [option_map] in E2.
    apply IH; auto. intros ta Ha. apply Hv. cbn; auto.
Qed.

Lemma with_key_items c : with_key fst c (concat (map row_items (zrange 0 m))) =
  map (fun e => (c, (fst e + base, vopt (snd e)))) (column rows c).
Proof.
  unfold with_key, column. rewrite filter_concat, concat_map, !map_map. f_equal.
  apply map_ext. intros i. unfold row_items. rewrite filter_map_comm, map_map. cbn [item fst snd].
  apply map_ext_in. intros e He. apply filter_In in He as [_ He]. unfold item. f_equal. lia.
Qed.

Lemma sorted_items : sort_by_key fst n (concat (map row_items (zrange 0 m))) =
  flat (fun c => map (fun e => (c, (fst e + base, vopt (snd e)))) (column rows c)) n.
Proof. unfold sort_by_key. apply flat_ext. intros c _. apply with_key_items. Qed.

Notation trows := (transpose_rows n rows).

Lemma Zlen_trows : Zlen trows = n.
Proof. unfold transpose_rows. rewrite Zlen_map, Zlen_zrange. lia. Qed.

Lemma nthl_trows c : 0 <= c < n -> nthl trows c = column rows c.
Proof.
  intros Hc. apply nthl_get. unfold transpose_rows. rewrite get_map, get_zrange by lia. reflexivity.
Qed.

Lemma keys_below_trows c : 0 <= c <= n ->
  keys_below fst c (concat (map row_items (zrange 0 m))) = off (nthl trows) c.
Proof.
  intros [Hc Hcn]. revert Hcn. revert c Hc. apply (Z_ind0 (fun c => c <= n -> _ = off (nthl trows) c)).
  - intros _. rewrite off_0, keys_below_0; auto. intros x Hx. rewrite <- concat_items in Hx.
    apply in_concat in Hx as (t & Ht & Hx). pose proof (item_key_range t x Ht Hx). lia.
  - intros c Hc IH Hle. rewrite keys_below_S, IH, with_key_items, Zlen_map, off_S, nthl_trows by lia. auto.
Qed.

Lemma items_total : Zlen (concat (map row_items (zrange 0 m))) = off (nthl rows) m.
Proof.
  pose proof (Zlen_nonneg rows). rewrite (off_sum_rows 0 m) by lia. rewrite off_0. lia.
Qed.

Lemma trows_total : off (nthl trows) n = off (nthl rows) m.
Proof.
  rewrite <- items_total, <- keys_below_trows by lia. unfold keys_below. f_equal.
  assert (forall x, In x (concat (map row_items (zrange 0 m))) -> fst x < n) as Hall.
  { intros x Hx. rewrite <- concat_items in Hx. apply in_concat in Hx as (t & Ht & Hx).
    pose proof (item_key_range t x Ht Hx). lia. }
  revert Hall. generalize (concat (map row_items (zrange 0 m))). induction l as [|x l IH]; intros H; cbn; auto.
  specialize (H x (or_introl eq_refl)) as Hx. destruct (Z.ltb_spec (fst x) n); [|lia].
  f_equal. apply IH. intros; apply H; cbn; auto.
Qed.

Lemma threads_keys :
  threads_of (cnt_thread (fun k => k) n) (map (fun t => map fst (items_of t)) (zrange 0 T)) =
  threads_of (cnt_thread fst n) (map items_of (zrange 0 T)).
Proof.
  unfold threads_of. rewrite !Zlen_map. rewrite Zlen_zrange. apply map_ext_in. intros t Ht. apply In_zrange in Ht.
  rewrite (nthl_get (map (fun t => map fst (items_of t)) (zrange 0 T)) t (map fst (items_of t))) by
    (rewrite get_map, get_zrange by lia; reflexivity).
  rewrite (nthl_get (map items_of (zrange 0 T)) t (items_of t)) by
    (rewrite get_map, get_zrange by lia; reflexivity).
  unfold cnt_thread. now rewrite map_map.
Qed.

(** The row pointers, before the last element is stored. *)
Lemma base_fix sch b :
  0 <= base -> n + 1 <= Zlen b ->
  (forall c, 0 <= c < n -> get b c = Some (off (nthl trows) c)) ->
  exists b', (if 0 <? base
          then b <- par_any sch (fun i b => v <- get b i ;; set b i (v + base)) 0 n b ;;
               b0 <- get b 0 ;; assert! (b0 =? base) ;; Some b
          else Some b) = Some b' /\ Zlen b' = Zlen b /\
    (forall c, 0 <= c < n -> get b' c = Some (base + off (nthl trows) c)).
Proof.
  intros Hb Hl Hg. destruct (Z.ltb_spec 0 base).
  - destruct (par_any_write sch (fun i b => v <- get b i ;; set b i (v + base))
       (fun c => base + off (nthl trows) c) 0 n b) as (b' & E & L & G & _); try lia.
    + intros i w Hi _ Ei. rewrite Ei, Hg by lia. f_equal. lia.
    + rewrite E, G, off_0, Z.add_0_r, Z.eqb_refl by lia. eauto.
  - exists b. split; auto. split; auto. intros c Hc. rewrite Hg by auto. f_equal. lia.
Qed.

Lemma diag_scan (r : list (Z * V)) o i d :
  0 <= i < Zlen d ->
  exists d', foldM (fun (je : Z * (Z * V)) d => if fst (snd je) =? i then set d i (fst je + base) else Some d)
      (combine (zrange o (o + Zlen r)) r) d = Some d' /\ Zlen d' = Zlen d /\
    (forall q, q <> i -> get d' q = get d q) /\
    ((exists l1 v l2, r = l1 ++ (i, v) :: l2 /\ (forall w, ~ In (i, w) l2) /\ get d' i = Some (base + o + Zlen l1)) \/
     ((forall w, ~ In (i, w) r) /\ get d' i = get d i)).
Proof.
  revert o d. induction r as [|[c v] r IH]; intros o d Hi.
  - rewrite zrange_nil by (unfold Zlen; cbn; lia). exists d. cbn. auto 10.
  - pose proof (Zlen_nonneg r). rewrite zrange_cons by (rewrite Zlen_cons; lia). cbn [combine foldM fst snd].
    replace (o + Zlen ((c, v) :: r)) with (o + 1 + Zlen r) by (rewrite Zlen_cons; lia).
    destruct (Z.eqb_spec c i) as [->|Hne].
    + destruct (set_ok d i (o + base) Hi) as (d1 & E1). rewrite E1.
      destruct (IH (o + 1) d1) as (d' & E & L & G & D); [now rewrite (set_len _ _ _ _ E1)|].
      exists d'. split; auto. split; [now rewrite L, (set_len _ _ _ _ E1)|]. split.
      { intros q Hq. rewrite G by auto. apply (get_set_other _ _ _ _ _ E1); auto. }
      destruct D as [(l1 & w & l2 & -> & Hl2 & Hd)|[Hno Hd]]; left.
      * exists ((i, v) :: l1), w, l2. split; auto. split; auto. rewrite Hd, Zlen_cons. f_equal. lia.
      * exists [], v, r. split; auto. split; auto. rewrite Hd, (get_set_same _ _ _ _ E1).
        change (Zlen (@nil (Z * V))) with 0. f_equal. lia.
    + destruct (IH (o + 1) d Hi) as (d' & E & L & G & D). exists d'. split; auto. split; auto. split; auto.
      destruct D as [(l1 & w & l2 & -> & Hl2 & Hd)|[Hno Hd]].
      * left. exists ((c, v) :: l1), w, l2. split; auto. split; auto. rewrite Hd, Zlen_cons. f_equal. lia.
      * right. split; auto. intros w [Eq|Hw]; [congruence|]. now apply (Hno w).
Qed.
End Proof.

Lemma forZ_combine {A S} (l : list A) o (body : Z -> S -> option S) (g : Z * A -> S -> option S) s :
  (forall k e s, get l k = Some e -> body (o + k) s = g (o + k, e) s) ->
  forZ o (o + Zlen l) body s = foldM g (combine (zrange o (o + Zlen l)) l) s.
Proof.
  revert o s. induction l as [|a l IH]; intros o s H.
  - rewrite zrange_nil, forZ_nil; auto; unfold Zlen; cbn; lia.
  - pose proof (Zlen_nonneg l). rewrite forZ_cons by (rewrite Zlen_cons; lia).
    rewrite zrange_cons by (rewrite Zlen_cons; lia). cbn [combine foldM].
    specialize (H 0 a s (get_cons_0 _ _)) as Hx0. rewrite Z.add_0_r in Hx0. rewrite Hx0.
    destruct (g (o, a) s) as [s'|]; auto.
    replace (o + Zlen (a :: l)) with (o + 1 + Zlen l) by (rewrite Zlen_cons; lia).
    apply IH. intros k e s0 Ek. replace (o + 1 + k) with (o + (k + 1)) by lia. apply H.
    rewrite get_cons_S; auto. now apply get_Some_bounds in Ek.
Qed.

(** Pointers computed from any represented matrix. *)
Lemma diag_ok {V} sch base (rows : rows_t V) b cols d0 :
  (forall i, 0 <= i <= Zlen rows -> get b i = Some (base + off (nthl rows) i)) ->
  cols = colidx_of base rows -> Zlen d0 = Zlen rows ->
  exists d, par_any sch (tr_diag base b cols) 0 (Zlen rows) d0 = Some d /\ diag_pointers base rows d0 d.
Proof.
  intros Hb -> Hl. set (m := Zlen rows) in *.
  assert (Hrow : forall i d, 0 <= i < m -> tr_diag base b (colidx_of base rows) i d =
     foldM (fun (je : Z * (Z * V)) d => if fst (snd je) =? i then set d i (fst je + base) else Some d)
      (combine (zrange (off (nthl rows) i) (off (nthl rows) i + Zlen (nthl rows i))) (nthl rows i)) d).
  { intros i d Hi. unfold tr_diag. rewrite !Hb by lia.
    replace (base + off (nthl rows) i - base) with (off (nthl rows) i) by lia.
    replace (base + off (nthl rows) (i + 1) - base) with (off (nthl rows) i + Zlen (nthl rows i))
      by (rewrite off_S; lia).
    apply forZ_combine. intros k [c v] s E. rewrite (get_colidx_of base rows i k c v) by auto. cbn [fst snd].
    replace (c + base =? i + base) with (c =? i); auto. lia. }
  (* value of d[i] after its iteration, from the old value *)
  assert (Hval : forall i, 0 <= i < m -> exists x,
     (forall d, Zlen d = m -> get d i = get d0 i -> tr_diag base b (colidx_of base rows) i d = set d i x) /\
     ((exists l1 v l2, nthl rows i = l1 ++ (i, v) :: l2 /\ (forall w, ~ In (i, w) l2) /\
       x = base + off (nthl rows) i + Zlen l1) \/
     ((forall w, ~ In (i, w) (nthl rows i)) /\ Some x = get d0 i))).
  { intros i Hi.
    destruct (diag_scan base (nthl rows i) (off (nthl rows) i) i d0) as (d1 & E1 & L1 & G1 & D1); [lia|].
    destruct (get_in_range d1 i) as (x & Ex); [lia|]. exists x. split.
    - intros d Hd Hdi.
      destruct (diag_scan base (nthl rows i) (off (nthl rows) i) i d) as (d2 & E2 & L2 & G2 & D2); [lia|].
      rewrite Hrow by auto. rewrite E2.
      destruct (set_ok d i x) as (d3 & E3); [lia|]. rewrite E3. f_equal.
      apply list_ext; [rewrite (set_len _ _ _ _ E3); lia|]. intros q Hq.
      rewrite (get_set _ _ _ _ _ E3). destruct (Z.eqb_spec q i) as [->|]; [|now apply G2].
      rewrite <- Ex.
      destruct D1 as [(l1 & v & l2 & Q1 & Q2 & Q3)|[Q1 Q2]], D2 as [(l1' & v' & l2' & P1 & P2 & P3)|[P1 P2]].
      + rewrite Q3, P3. f_equal. f_equal.
        assert (forall (a b c d : list (Z * V)) v v', a ++ (i, v) :: b = c ++ (i, v') :: d ->
          (forall w, ~ In (i, w) b) -> (forall w, ~ In (i, w) d) -> Zlen a = Zlen c) as U.
        { clear. induction a as [|x a IH]; intros b c d v v' E Hb Hd.
          - destruct c as [|y c]; auto. cbn in E. injection E as <- ->. exfalso. apply (Hb v').
            apply in_or_app. cbn. auto.
          - destruct c as [|y c].
            + cbn in E. injection E as -> <-. exfalso. apply (Hd v). apply in_or_app. cbn; auto.
            + cbn in E. injection E as -> E. rewrite !Zlen_cons. f_equal. eauto. }
        apply (U l1' l2' l1 l2 v' v); auto. congruence.
      + exfalso. apply (P1 v). rewrite Q1. apply in_or_app. cbn; auto.
      + exfalso. apply (Q1 v'). rewrite P1. apply in_or_app. cbn; auto.
      + rewrite Q2, P2. auto.
    - destruct D1 as [(l1 & v & l2 & Q1 & Q2 & Q3)|[Q1 Q2]].
      + left. exists l1, v, l2. split; auto. split; auto. congruence.
      + right. split; auto. congruence. }
  assert (exists xs, Zlen xs = m /\ forall i, 0 <= i < m -> exists x, get xs i = Some x /\
     (forall d, Zlen d = m -> get d i = get d0 i -> tr_diag base b (colidx_of base rows) i d = set d i x) /\
     ((exists l1 v l2, nthl rows i = l1 ++ (i, v) :: l2 /\ (forall w, ~ In (i, w) l2) /\
       x = base + off (nthl rows) i + Zlen l1) \/
     ((forall w, ~ In (i, w) (nthl rows i)) /\ Some x = get d0 i))) as (xs & Lx & Hx).
  { assert (forall k, 0 <= k -> k <= m -> exists xs, Zlen xs = k /\ forall i, 0 <= i < k -> exists x, get xs i = Some x /\
     (forall d, Zlen d = m -> get d i = get d0 i -> tr_diag base b (colidx_of base rows) i d = set d i x) /\
     ((exists l1 v l2, nthl rows i = l1 ++ (i, v) :: l2 /\ (forall w, ~ In (i, w) l2) /\
       x = base + off (nthl rows) i + Zlen l1) \/
     ((forall w, ~ In (i, w) (nthl rows i)) /\ Some x = get d0 i))) as G; [|apply G; unfold m; pose proof (Zlen_nonneg rows); lia].
    apply (Z_ind0 (fun k => k <= m -> exists xs, Zlen xs = k /\ forall i, 0 <= i < k -> exists x, get xs i = Some x /\
     (forall d, Zlen d = m -> get d i = get d0 i -> tr_diag base b (colidx_of base rows) i d = set d i x) /\
     ((exists l1 v l2, nthl rows i = l1 ++ (i, v) :: l2 /\ (forall w, ~ In (i, w) l2) /\
       x = base + off (nthl rows) i + Zlen l1) \/
     ((forall w, ~ In (i, w) (nthl rows i)) /\ Some x = get d0 i)))).
    - intros _. exists []. split; auto. intros; lia.
    - intros k Hk IH Hle. destruct IH as (xs & Lx & Hx); [lia|].
      destruct (Hval k ltac:(lia)) as (x & X1 & X2). exists (xs ++ [x]).
      split; [rewrite Zlen_app, Lx; unfold Zlen; cbn; lia|].
      intros i Hi. destruct (Z.eq_dec i k) as [->|].
      + exists x. split; auto. rewrite get_app_r by lia. now rewrite Lx, Z.sub_diag.
      + destruct (Hx i ltac:(lia)) as (y & Ey & Y). exists y. split; auto. rewrite get_app_l; auto. lia. }
  destruct (par_any_write sch (tr_diag base b (colidx_of base rows))
     (fun i => match get xs i with Some x => x | None => 0 end) 0 m d0) as (d & E & L & G & _); try lia.
  - intros i w Hi Hw Hwi. destruct (Hx i Hi) as (x & Ex & X1 & _). rewrite Ex. apply X1; auto. lia.
  - exists d. split; auto. split; [lia|]. intros i Hi. fold m in Hi.
    destruct (Hx i Hi) as (x & Ex & _ & X2). specialize (G i Hi). rewrite Ex in G. rewrite G.
    destruct X2 as [(l1 & v & l2 & Q1 & Q2 & ->)|[Q1 Q2]]; [left|right]; eauto 8.
Qed.

Theorem transpose_ok {V} hasv base n (rows : rows_t V) (A : csr V) T sch j :
  rep hasv base n rows A -> rows_ok n rows -> 0 <= base -> 1 <= n -> 1 <= T ->
  tj_ok n T (Zlen (concat rows)) j ->
  exists AT, transpose A T sch j = Some AT /\
    rep hasv base (Zlen rows) (transpose_rows n rows) AT /\
    extptr AT = None /\ idiag AT = None /\ diag AT = None /\
    match diagptr A with
    | None => diagptr AT = None
    | Some _ => exists d, diagptr AT = Some d /\ diag_pointers base (transpose_rows n rows) (tj_diag j) d
    end.
Proof.
  intros HR Hok Hb Hn HT (J1 & J2 & J3 & J4). pose proof HR as (H1 & H2 & H3 & H4 & H5).
  pose proof (Zlen_nonneg rows) as Hm.
  unfold transpose, getBase, getNnz, getBase. rewrite H1, H2, H3, !get_rowptr_of, off_0, Z.add_0_r by lia.
  cbv zeta. destruct (Z.eqb_spec n 0); [lia|].
  rewrite (tr_keys_ok hasv base n rows A T HR Hok HT).
  rewrite (tr_items_ok hasv base n rows A T HR HT).
  rewrite threads_keys by auto.
  set (items := map (items_of hasv base rows A T) (zrange 0 T)).
  assert (Zlen items = T) as Hil by (unfold items; rewrite Zlen_map, Zlen_zrange; lia).
  assert (forall l x, In l items -> In x l -> 0 <= fst x < n) as Hkeys.
  { intros l x. apply (item_key_range hasv base n rows A T); auto. }
  assert (concat items = concat (map (row_items hasv base rows) (zrange 0 (Zlen rows)))) as Hcat
    by (apply (concat_items hasv base n rows A T); auto).
  assert (Zlen (concat items) = Zlen (concat rows)) as Htot.
  { rewrite Hcat, items_total, Zlen_concat. auto. }
  pose proof (merge_interleave (sch 0%nat) (threads_of (cnt_thread fst n) items)) as I1.
  pose proof (merge_interleave (sch 1%nat) (map (scan1_thread n) (zrange 0 T))) as I2.
  pose proof (merge_interleave (sch 2%nat) (map (scan3_thread n) (zrange 0 T))) as I3.
  pose proof (merge_interleave (sch 3%nat) (threads_of (fun t (l : list (Z * (Z * option V))) => place_thread t l) items)) as I4.
  destruct (counting_sort_ok fst n T Hn HT items Hil Hkeys (fun x => fst (snd x)) (tj_bucket j) (tj_cols j)
     _ _ _ _ ltac:(nia) ltac:(lia) I1 I2 I3 I4) as (b & cols & E1 & L1 & L2 & S1 & _ & S3 & _).
  unfold counting_sort in E1.
  destruct (counting n T _ _ _ (tj_bucket j)) as [b0|] eqn:E0; [|discriminate].
  assert (exists vals, par (sch 3%nat) (place2_step n)
     (threads_of (fun t (l : list (Z * (Z * option V))) => place_thread t l) items)
     (b0, (tj_cols j, match values A with Some _ => Some (tj_vals j) | None => None end))
     = Some (b, (cols, vals)) /\ vals = if hasv then Some (values_of (transpose_rows n rows)) else None) as (vals & E2 & Hvals).
  { rewrite H5. destruct hasv.
    - destruct (counting_sort_ok fst n T Hn HT items Hil Hkeys (fun x => snd (snd x)) (tj_bucket j) (map Some (tj_vals j))
       _ _ _ _ ltac:(nia) ltac:(rewrite Zlen_map; lia) I1 I2 I3 I4) as (b' & ov & E1' & L1' & L2' & S1' & _ & _).
      unfold counting_sort in E1'. rewrite E0 in E1'.
      destruct (place2_some n (merge (sch 3%nat) (threads_of (fun t l => place_thread t l) items)) b0 (tj_cols j) (tj_vals j) b cols b' ov) as (vals & Eov & Ep); auto.
      { intros ta Hta. apply In_merge in Hta as (l & Hl & Hta). unfold threads_of in Hl.
        apply in_map_iff in Hl as (t & <- & Ht). apply In_zrange in Ht.
        unfold place_thread in Hta. apply in_map_iff in Hta as (x & <- & Hx). apply in_rev in Hx. cbn [snd].
        assert (In x (concat items)) as Hx'.
        { apply in_concat. exists (nthl items t). split; auto. apply (get_In _ t). apply get_nthl. lia. }
        rewrite Hcat in Hx'. apply in_concat in Hx' as (l & Hl & Hx'). apply in_map_iff in Hl as (i & <- & _).
        apply in_map_iff in Hx' as (e & <- & _). cbn. eauto. }
      exists (Some vals). split; [exact Ep|]. f_equal.
      rewrite Htot, <- J3, <- (Zlen_map (@Some V)), <- L2', slice_full in S1'.
      rewrite Hcat, sorted_items, flat_map_f in S1'. rewrite Eov in S1'.
      assert (map (@Some V) vals = map Some (values_of (transpose_rows n rows))) as Eq.
      { rewrite S1'. unfold values_of. rewrite map_map. rewrite concat_flat, flat_map_f, Zlen_trows by auto.
        apply flat_ext. intros c Hc. rewrite map_map. cbn [snd]. unfold vopt.
        rewrite nthl_trows by auto. reflexivity. }
      clear - Eq. revert Eq. generalize (values_of (transpose_rows n rows)). induction vals as [|a l IH]; intros [|b l'] E; try discriminate; auto.
      cbn in E. injection E as -> E. f_equal. auto.
    - exists None. split; auto. apply place2_none. exact E1. }
  rewrite E2.
  assert (cols = colidx_of base (transpose_rows n rows)) as Hcols.
  { rewrite Htot, <- J2, <- L2, slice_full in S1. rewrite S1, Hcat, sorted_items, flat_map_f.
    unfold colidx_of. rewrite concat_flat, flat_map_f, Zlen_trows by auto.
    apply flat_ext. intros c Hc. rewrite map_map. cbn [fst snd]. rewrite nthl_trows by auto. reflexivity. }
  destruct (base_fix base n rows T Hn (sch 4%nat) b) as (b2 & E3 & L3 & G3); auto.
  { nia. }
  { intros c Hc. rewrite S3 by auto. rewrite Hcat. rewrite (keys_below_trows hasv base n rows A T); auto. lia. }
  rewrite E3.
  destruct (set_ok b2 n (base + off (nthl rows) (Zlen rows) - base + base)) as (b3 & E4); [nia|]. rewrite E4.
  pose proof (set_len _ _ _ _ E4) as L4. assert (n + 1 <= Zlen b3) as L5 by nia.
  assert (forall i, 0 <= i <= n -> get b3 i = Some (base + off (nthl (transpose_rows n rows)) i)) as G4.
  { intros i Hi. rewrite (get_set _ _ _ _ _ E4). destruct (Z.eqb_spec i n) as [->|].
    - rewrite (trows_total hasv base n rows A T) by auto. f_equal. lia.
    - apply G3. lia. }
  assert (slice b3 0 (n + 1) = rowptr_of base (transpose_rows n rows)) as Hrp.
  { apply list_ext.
    - rewrite Zlen_rowptr_of, Zlen_trows, Zlen_slice by (auto; lia). lia.
    - intros i Hi. rewrite Zlen_slice in Hi by lia.
      rewrite get_slice by lia. rewrite Z.add_0_l, G4 by lia.
      rewrite get_rowptr_of by (rewrite Zlen_trows by auto; lia). auto. }
  assert (forall d, rep hasv base (Zlen rows) (transpose_rows n rows)
    (mkCSR n (Zlen rows) (slice b3 0 (n + 1)) cols vals None None d None)) as Hrep.
  { intros d. split; [cbn; rewrite Zlen_trows; auto|]. split; auto. }
  destruct (diagptr A) as [d0|].
  - destruct (diag_ok (sch 5%nat) base (transpose_rows n rows) b3 cols (tj_diag j)) as (d & E5 & HD); auto.
    + intros i Hi. rewrite Zlen_trows in Hi by auto. auto.
    + rewrite Zlen_trows; auto.
    + rewrite Zlen_trows in E5 by auto. rewrite E5. eexists. split; [reflexivity|].
      split; auto. repeat split; auto. exists d. split; auto.
  - eexists. split; [reflexivity|]. split; auto.
Qed.

(** ** Consequences *)

Definition swap_entry {V} (x : Z * (Z * V)) : Z * (Z * V) :=
  let '(i, (c, v)) := x in (c, (i, v)).

(** Sorted by a key with ties in storage order: column [c] in terms of the
    entries. *)
Lemma column_entries {V} (rows : rows_t V) c :
  map (fun e => (c, e)) (column rows c) = map swap_entry (with_key (fun x => fst (snd x)) c (entries rows)).
Proof.
  unfold column, entries, with_key. rewrite filter_concat, !concat_map, !map_map. f_equal.
  apply map_ext. intros i. rewrite filter_map_comm, !map_map. cbn [fst snd].
  apply map_ext_in. intros [c' v] He. apply filter_In in He as [_ He]. cbn in *. repeat f_equal. lia.
Qed.

Theorem transpose_entries {V} n (rows : rows_t V) :
  0 <= n -> rows_ok n rows -> Permutation (entries (transpose_rows n rows)) (map swap_entry (entries rows)).
Proof.
  intros Hn Hok.
  assert (entries (transpose_rows n rows) = map swap_entry (sort_by_key (fun x => fst (snd x)) n (entries rows))) as ->.
  { unfold entries at 1, sort_by_key, flat. rewrite concat_map, map_map. f_equal.
    replace (Zlen (transpose_rows n rows)) with n by (unfold transpose_rows; rewrite Zlen_map, Zlen_zrange; lia).
    apply map_ext_in. intros c Hc. apply In_zrange in Hc. rewrite nthl_trows by auto. apply column_entries. }
  apply Permutation_map, sort_by_key_perm. intros [i [c v]] H. apply In_entries in H as [Hi He]. cbn.
  apply (Hok (nthl rows i) c v); auto. now apply nth_row_In.
Qed.

Lemma concat_sorted {V} (f : Z -> list (Z * V)) lo hi :
  (forall i e, In e (f i) -> fst e = i) -> row_sorted (concat (map f (zrange lo hi))).
Proof.
  intros H. unfold row_sorted, sortedZ. rewrite concat_map, map_map.
  destruct (Z_lt_ge_dec lo hi); [|rewrite zrange_nil by lia; constructor].
  remember (Z.to_nat (hi - lo)) as k eqn:Ek. revert lo Ek l.
  induction k as [|k IH]; intros lo Ek l; [lia|].
  rewrite zrange_cons by lia. cbn [map concat].
  assert (forall l1 l2, StronglySorted Z.le l1 -> StronglySorted Z.le l2 ->
     (forall a b, In a l1 -> In b l2 -> a <= b) -> StronglySorted Z.le (l1 ++ l2)) as App.
  { clear. induction l1 as [|a l1 IH]; intros l2 H1 H2 H3; cbn; auto.
    inversion H1 as [|? ? Hs Hf]; subst. constructor.
    - apply IH; auto. intros; apply H3; cbn; auto.
    - apply Forall_app. split; auto. apply Forall_forall. intros b Hb. apply H3; cbn; auto. }
  apply App.
  - assert (forall e, In e (f lo) -> fst e = lo) as Hl by (intros; now apply H).
    clear - Hl. induction (f lo) as [|e l IH]; cbn; [constructor|]. constructor.
    + apply IH. intros; apply Hl; cbn; auto.
    + apply Forall_forall. intros x Hx. apply in_map_iff in Hx as (e' & <- & He').
      rewrite (Hl e), (Hl e') by (cbn; auto). lia.
  - destruct (Z_lt_ge_dec (lo + 1) hi) as [Hlt|].
    + apply IH; auto. lia.
    + rewrite zrange_nil by lia. constructor.
  - intros a b Ha Hb. apply in_map_iff in Ha as (e & <- & He). apply H in He.
    apply in_concat in Hb as (x & Hx & Hb). apply in_map_iff in Hx as (i & <- & Hi). apply In_zrange in Hi.
    apply in_map_iff in Hb as (e' & <- & He'). apply H in He'. lia.
Qed.

Theorem transpose_sorted {V} n (rows : rows_t V) : rows_sorted (transpose_rows n rows).
Proof.
  intros r Hr. apply in_map_iff in Hr as (c & <- & _). unfold column. apply concat_sorted.
  intros i e He. apply in_map_iff in He as (e' & <- & _). auto.
Qed.

Lemma column_filter {V} (rows : rows_t V) c i : 0 <= i < Zlen rows ->
  filter (fun e => fst e =? i) (column rows c) =
  map (fun e => (i, snd e)) (filter (fun e => fst e =? c) (nthl rows i)).
Proof.
  intros Hi. unfold column. rewrite filter_concat, map_map.
  rewrite (map_ext_in _ (fun k => if k =? i then map (fun e => (i, snd e)) (filter (fun e => fst e =? c) (nthl rows i)) else [])).
  - change (flat (fun k => if k =? i then map (fun e => (i, snd e)) (filter (fun e => fst e =? c) (nthl rows i)) else []) (Zlen rows)
      = map (fun e => (i, snd e)) (filter (fun e => fst e =? c) (nthl rows i))).
    set (x := map _ (filter _ (nthl rows i))). clearbody x.
    assert (forall n, 0 <= n -> flat (fun k => if k =? i then x else []) n = if i <? n then x else []) as G.
    { apply (Z_ind0 (fun n => _ = if i <? n then x else [])).
      - rewrite flat_0. destruct (Z.ltb_spec i 0); auto. lia.
      - intros n Hn IH. rewrite flat_S, IH by lia.
        destruct (Z.ltb_spec i n), (Z.ltb_spec i (n + 1)), (Z.eqb_spec n i); try lia; auto using app_nil_r. }
    rewrite G by lia. destruct (Z.ltb_spec i (Zlen rows)); auto. lia.
  - intros k Hk. rewrite filter_map_comm. cbn [fst]. destruct (Z.eqb_spec k i) as [->|].
    + f_equal. clear. induction (filter (fun e => fst e =? c) (nthl rows i)) as [|e l IH]; cbn; auto. now rewrite IH.
    + replace (filter (fun _ => false) _) with (@nil (Z * V)); auto.
      clear. induction (filter (fun e => fst e =? c) (nthl rows k)); cbn; auto.
Qed.

(** Transposing twice sorts the rows by column, stably. *)
Theorem transpose_twice {V} n (rows : rows_t V) i : 0 <= n -> rows_ok n rows -> 0 <= i < Zlen rows ->
  nthl (transpose_rows (Zlen rows) (transpose_rows n rows)) i = sort_by_key fst n (nthl rows i).
Proof.
  intros Hn Hok Hi. rewrite nthl_trows by auto. unfold column at 1.
  replace (Zlen (transpose_rows n rows)) with n by (unfold transpose_rows; rewrite Zlen_map, Zlen_zrange; lia).
  unfold sort_by_key, flat. f_equal. apply map_ext_in. intros c Hc. apply In_zrange in Hc.
  rewrite nthl_trows, column_filter, map_map by auto. unfold with_key. cbn [snd].
  rewrite (map_ext_in _ (fun e => e)); [apply map_id|].
  intros [c' v] He. apply filter_In in He as [_ He]. cbn in *. f_equal. lia.
Qed.

Theorem transpose_involutive {V} n (rows : rows_t V) : 0 <= n -> rows_ok n rows -> rows_sorted rows ->
  transpose_rows (Zlen rows) (transpose_rows n rows) = rows.
Proof.
  intros Hn Hok Hs. pose proof (Zlen_nonneg rows).
  apply rows_ext.
  - unfold transpose_rows at 1. rewrite Zlen_map, Zlen_zrange. lia.
  - unfold transpose_rows at 1. rewrite Zlen_map, Zlen_zrange. intros i Hi.
    rewrite transpose_twice by (auto; lia). apply sort_by_key_sorted.
    + intros [c v] He. cbn. apply (Hok (nthl rows i) c v); auto. apply nth_row_In. lia.
    + apply Hs, nth_row_In. lia.
Qed.

Lemma transpose_rows_ok {V} n (rows : rows_t V) : rows_ok (Zlen rows) (transpose_rows n rows).
Proof.
  intros r c v Hr Hc. apply in_map_iff in Hr as (k & <- & _). unfold column in Hc.
  apply in_concat in Hc as (l & Hl & Hc). apply in_map_iff in Hl as (i & <- & Hi). apply In_zrange in Hi.
  apply in_map_iff in Hc as (e & E & _). injection E as <- _. auto.
Qed.

(** The arrays of the double transpose are those of the matrix. *)
Theorem transpose_transpose {V} hasv base n (rows : rows_t V) (A : csr V) T sch j T' sch' j' AT :
  rep hasv base n rows A -> rows_ok n rows -> rows_sorted rows -> 0 <= base -> 1 <= n -> 1 <= Zlen rows ->
  1 <= T -> tj_ok n T (Zlen (concat rows)) j ->
  1 <= T' -> tj_ok (Zlen rows) T' (Zlen (concat rows)) j' ->
  transpose A T sch j = Some AT ->
  exists ATT, transpose AT T' sch' j' = Some ATT /\
    cm ATT = cm A /\ cn ATT = cn A /\ rowptr ATT = rowptr A /\ colidx ATT = colidx A /\ values ATT = values A.
Proof.
  intros HR Hok Hs Hb Hn Hm HT HJ HT' HJ' E.
  destruct (transpose_ok hasv base n rows A T sch j HR Hok Hb Hn HT HJ) as (AT' & E' & HR' & _).
  assert (AT' = AT) by congruence. subst AT'.
  assert (Zlen (concat (transpose_rows n rows)) = Zlen (concat rows)) as Hz.
  { rewrite !Zlen_concat. rewrite Zlen_trows by auto. apply (trows_total hasv base n rows A T); auto. }
  destruct (transpose_ok hasv base (Zlen rows) (transpose_rows n rows) AT T' sch' j') as (ATT & E2 & HR2 & _); auto.
  { apply transpose_rows_ok. }
  { now rewrite Hz. }
  exists ATT. split; auto. rewrite transpose_involutive, Zlen_trows in HR2 by (auto; lia).
  destruct HR as (H1 & H2 & H3 & H4 & H5), HR2 as (R1 & R2 & R3 & R4 & R5). repeat split; congruence.
Qed.

(** A matrix without columns: the transpose has no row pointer array, so even
    its index base cannot be read. *)
Theorem transpose_no_columns {V} (A : csr V) T sch j b nnz :
  getBase A = Some b -> getNnz A = Some nnz -> cn A = 0 ->
  exists AT, transpose A T sch j = Some AT /\ rowptr AT = [] /\ getBase AT = None.
Proof.
  intros H1 H2 H3. unfold transpose. rewrite H1, H2, H3. cbn. eexists. split; [reflexivity|]. auto.
Qed.
