(** * Loop patterns shared by the CSR models.

    This file models no function by itself: searching loops with [break], loops
    over the entries of a row, row ranges per thread, and parallel loops that
    clear a shared flag. *)
From Verif Require Import Base Spec Interleave Partition PrefixSum Flat Csr Transpose.

(** ** Loops with [break] *)

(** First element satisfying [p]. *)
Fixpoint findM {A} (p : A -> option bool) (l : list A) : option (option A) :=
  match l with
  | [] => Some None
  | a :: r => b <- p a ;; if b then Some (Some a) else findM p r
  end.

(** Stops at the first failure. *)
Fixpoint allM {A} (p : A -> option bool) (l : list A) : option bool :=
  match l with
  | [] => Some true
  | a :: r => b <- p a ;; if b then allM p r else Some false
  end.

Lemma allM_ok {A} (p : A -> option bool) q l :
  (forall a, In a l -> p a = Some (q a)) -> allM p l = Some (forallb q l).
Proof.
  induction l as [|a l IH]; intros H; cbn; auto. rewrite H by (cbn; auto).
  destruct (q a); cbn; auto. apply IH. intros; apply H; cbn; auto.
Qed.

Lemma findM_list {A} (l : list A) o (p : Z -> option bool) (q : A -> bool) :
  (forall k e, get l k = Some e -> p (o + k) = Some (q e)) ->
  (exists l1 e l2, l = l1 ++ e :: l2 /\ (forall x, In x l1 -> q x = false) /\ q e = true /\
     findM p (zrange o (o + Zlen l)) = Some (Some (o + Zlen l1))) \/
  ((forall x, In x l -> q x = false) /\ findM p (zrange o (o + Zlen l)) = Some None).
Proof.
  revert o. induction l as [|a l IH]; intros o H.
  - right. split; [intros x []|]. now rewrite zrange_nil by (unfold Zlen; cbn; lia).
  - pose proof (Zlen_nonneg l). rewrite zrange_cons by (rewrite Zlen_cons; lia). cbn [findM].
    specialize (H 0 a (get_cons_0 _ _)) as Ha0. rewrite Z.add_0_r in Ha0. rewrite Ha0.
    destruct (q a) eqn:Eq.
    + left. exists [], a, l. split; auto. split; [intros x []|]. split; auto.
      change (Zlen (@nil A)) with 0. do 2 f_equal. lia.
    + replace (o + Zlen (a :: l)) with (o + 1 + Zlen l) by (rewrite Zlen_cons; lia).
      destruct (IH (o + 1)) as [(l1 & e & l2 & -> & H1 & H2 & H3)|[H1 H2]].
      * intros k e Ek. replace (o + 1 + k) with (o + (k + 1)) by lia. apply H.
        rewrite get_cons_S; auto. now apply get_Some_bounds in Ek.
      * left. exists (a :: l1), e, l2. split; auto. split; [intros x [<-|Hx]; auto|]. split; auto.
        rewrite H3, Zlen_cons. do 2 f_equal. lia.
      * right. split; auto. intros x [<-|Hx]; auto.
Qed.

(** ** Rows per thread *)

(** Rows [b, e) of each thread by getLoadBalancedPartition. *)
Definition lb_rows {V} (A : csr V) (T : Z) : option (list (list Z)) :=
  mapM (fun t => ' (b, e) <- load_balanced_partition (rowptr A) (cm A) T t ;; Some (zrange b e)) (zrange 0 T).
(** Likewise by getSimpleThreadPartition. *)
Definition simple_rows (m T : Z) : list (list Z) :=
  map (fun t => let '(b, e) := simple_partition m T t in zrange b e) (zrange 0 T).

Lemma lb_rows_ok {V} hasv base n rows (A : csr V) T : rep hasv base n rows A -> 1 <= T ->
  exists ts, lb_rows A T = Some ts /\ concat ts = zrange 0 (Zlen rows) /\ Zlen ts = T.
Proof.
  intros (H1 & H2 & H3 & H4 & H5) HT. pose proof (Zlen_nonneg rows).
  destruct (lb_boundary_spec (rowptr A) (cm A) T) as (B1 & B2 & B3 & B4 & B5); try lia.
  { rewrite H3, Zlen_rowptr_of. lia. }
  { rewrite H3. apply rowptr_of_monotone. }
  exists (map (fun t => zrange (lb_boundary (rowptr A) (cm A) T t) (lb_boundary (rowptr A) (cm A) T (t + 1))) (zrange 0 T)).
  split; [|split].
  - apply mapM_Some. intros t Ht. apply In_zrange in Ht. now rewrite B5 by auto.
  - rewrite (concat_zrange_tiling (lb_boundary (rowptr A) (cm A) T) T) by (auto; lia). now rewrite B1, B2, H1.
  - rewrite Zlen_map, Zlen_zrange. lia.
Qed.

Lemma simple_rows_ok m T : 0 <= m -> 1 <= T -> concat (simple_rows m T) = zrange 0 m.
Proof.
  intros Hm HT. unfold simple_rows.
  rewrite (map_ext_in _ (fun t => zrange (simple_boundary m T t) (simple_boundary m T (t + 1)))).
  - rewrite (concat_zrange_tiling (simple_boundary m T) T).
    + now rewrite simple_boundary_0, simple_boundary_last by auto.
    + lia.
    + intros; apply simple_boundary_mono; lia.
  - intros t Ht. apply In_zrange in Ht. now rewrite simple_partition_boundary by auto.
Qed.

(** ** Parallel search with a shared flag

    Every thread examines its rows in turn.  A failing row clears the shared
    flag; after each row the thread reads the flag and leaves its loop if it is
    cleared.  The examination of a row and the reading of the flag are separate
    actions; [broken] lists the threads that have left. *)
Inductive scan_act := ScanRow (i : Z) | ScanTest.
Definition scan_thread (t : Z) (rs : list Z) : list (Z * scan_act) :=
  concat (map (fun i => [(t, ScanRow i); (t, ScanTest)]) rs).
Definition scan_step (check : Z -> option bool) (a : Z * scan_act) (s : bool * list Z) : option (bool * list Z) :=
  let '(flag, broken) := s in
  if existsb (Z.eqb (fst a)) broken then Some s
  else match snd a with
       | ScanRow i => ok <- check i ;; Some (if ok then flag else false, broken)
       | ScanTest => Some (flag, if flag then broken else fst a :: broken)
       end.
Definition flag_scan (check : Z -> option bool) (sch : list nat) (ts : list (list Z)) : option bool :=
  ' (flag, _) <- par sch (scan_step check)
    (map (fun x => scan_thread (fst x) (snd x)) (combine (zrange 0 (Zlen ts)) ts)) (true, []) ;;
  Some flag.

Lemma scan_trace check ok tr : forall flag broken,
  (forall t i, In (t, ScanRow i) tr -> check i = Some (ok i)) ->
  (broken <> [] -> flag = false) ->
  exists flag' broken', foldM (scan_step check) tr (flag, broken) = Some (flag', broken') /\
    (flag' = true <-> flag = true /\ forall t i, In (t, ScanRow i) tr -> ok i = true).
Proof.
  induction tr as [|[t a] tr IH]; intros flag broken Hc Hb.
  - exists flag, broken. split; auto. split; [|tauto]. intros; split; auto.
  - cbn [foldM]. unfold scan_step at 1. cbn [fst snd].
    assert (Hc' : forall t i, In (t, ScanRow i) tr -> check i = Some (ok i)) by (intros; eapply Hc; cbn; eauto).
    destruct (existsb (Z.eqb t) broken) eqn:Eb.
    + assert (flag = false) as ->. { apply Hb. intros ->. discriminate. }
      destruct (IH false broken Hc' Hb) as (f' & b' & E & G). exists f', b'. split; auto. rewrite G. intuition congruence.
    + destruct a as [i|].
      * rewrite (Hc t i) by (cbn; auto). destruct (ok i) eqn:Eo.
        -- destruct (IH flag broken Hc' Hb) as (f' & b' & E & G). exists f', b'. split; auto. rewrite G.
           split; intros [H1 H2]; split; auto.
           ++ intros t' i' [E'|Hin]; [|eauto]. injection E' as <- <-. auto.
           ++ intros t' i' Hin. apply (H2 t'). cbn; auto.
        -- destruct (IH false broken Hc') as (f' & b' & E & G); auto. exists f', b'. split; auto. rewrite G.
           split; [intros [? ?]; discriminate|]. intros [H1 H2]. specialize (H2 t i (or_introl eq_refl)). congruence.
      * destruct (IH flag (if flag then broken else t :: broken) Hc') as (f' & b' & E & G).
        { destruct flag; auto. }
        exists f', b'. split; auto. rewrite G. split; intros [H1 H2]; split; auto.
        -- intros t' i' [E'|Hin]; [discriminate|eauto].
        -- intros t' i' Hin. apply (H2 t'). cbn; auto.
Qed.

Lemma In_scan_thread t rs t' i : In (t', ScanRow i) (scan_thread t rs) <-> t' = t /\ In i rs.
Proof.
  unfold scan_thread. rewrite in_concat. split.
  - intros (l & Hl & H). apply in_map_iff in Hl as (x & <- & Hx). cbn in H.
    destruct H as [H|[H|[]]]; [|discriminate]. injection H as <- <-. auto.
  - intros [-> Hi]. exists [(t, ScanRow i); (t, ScanTest)]. split; [|cbn; auto].
    apply (in_map (fun i => [(t, ScanRow i); (t, ScanTest)])). auto.
Qed.

Lemma In_combine_snd {A B} (l1 : list A) (l2 : list B) y : length l1 = length l2 ->
  In y l2 -> exists x, In (x, y) (combine l1 l2).
Proof.
  revert l2. induction l1 as [|a l1 IH]; intros [|b l2] L H; cbn in *; try lia; try tauto.
  destruct H as [->|H]; eauto. destruct (IH l2 ltac:(lia) H) as (x & Hx). eauto.
Qed.

Theorem flag_scan_ok check ok sch ts :
  (forall i, In i (concat ts) -> check i = Some (ok i)) ->
  flag_scan check sch ts = Some (forallb ok (concat ts)).
Proof.
  intros Hc. unfold flag_scan, par.
  set (tr := merge sch _).
  assert (Htr : forall i, (exists t, In (t, ScanRow i) tr) <-> In i (concat ts)).
  { intros i. unfold tr. split.
    - intros (t & H). apply In_merge in H as (th & Hth & H). apply in_map_iff in Hth as ([t' rs] & <- & Hx).
      apply In_scan_thread in H as [_ H]. apply in_combine_r in Hx. apply in_concat. eauto.
    - intros H. apply in_concat in H as (rs & Hrs & H).
      destruct (In_combine_snd (zrange 0 (Zlen ts)) ts rs) as (t & Ht); auto.
      { assert (Zlen (zrange 0 (Zlen ts)) = Zlen ts) as L
          by (rewrite Zlen_zrange; pose proof (Zlen_nonneg ts); lia). unfold Zlen in *. lia. }
      exists t. apply In_merge. exists (scan_thread t rs). split.
      + apply (in_map (fun x => scan_thread (fst x) (snd x)) _ (t, rs)). auto.
      + apply In_scan_thread. auto. }
  destruct (scan_trace check ok tr true []) as (f & b & E & G).
  - intros t i H. apply Hc, Htr. eauto.
  - congruence.
  - rewrite E. f_equal. destruct (forallb ok (concat ts)) eqn:F.
    + apply G. split; auto. rewrite forallb_forall in F. intros t i H. apply F, Htr. eauto.
    + destruct f; auto. destruct G as [G _]. destruct (G eq_refl) as [_ G'].
      rewrite <- F. symmetry. apply forallb_forall. intros i Hi. apply Htr in Hi as (t & H). eauto.
Qed.

(** ** Element-wise updates *)

Lemma par_any_nil {S} sch (f : Z -> S -> option S) lo hi s : hi <= lo -> par_any sch f lo hi s = Some s.
Proof.
  intros H. unfold par_any, par. rewrite zrange_nil by auto. cbn [map].
  pose proof (merge_perm sch (@nil (list Z))) as P. cbn [concat] in P.
  apply Permutation_sym, Permutation_nil in P. now rewrite P.
Qed.

Lemma par_map {A} sch (g : A -> A) w n : n = Zlen w ->
  par_any sch (fun i w => v <- get w i ;; set w i (g v)) 0 n w = Some (map g w).
Proof.
  intros ->. destruct w as [|d w0] eqn:Ew; [apply par_any_nil; unfold Zlen; cbn; lia|]. rewrite <- Ew. clear Ew w0.
  destruct (par_any_write sch (fun i w => v <- get w i ;; set w i (g v))
     (fun i => match get w i with Some v => g v | None => d end) 0 (Zlen w) w) as (w' & E & L & G & _).
  - lia.
  - lia.
  - intros i w' Hi _ Eg. rewrite Eg. destruct (get_in_range w i Hi) as (v & ->). auto.
  - rewrite E. f_equal. apply list_ext.
    + rewrite Zlen_map; auto.
    + intros i Hi. rewrite G, get_map by lia. destruct (get_in_range w i) as (v & Ev); [lia|]. now rewrite Ev.
Qed.

(** [dst[i] = src[i]] for all positions of [src]. *)
Lemma par_copy {A} sch (src dst : list A) n : n = Zlen src -> Zlen dst = n ->
  par_any sch (fun i w => v <- get src i ;; set w i v) 0 n dst = Some src.
Proof.
  intros -> Hd. destruct src as [|d src0] eqn:Ew.
  { destruct dst; [apply par_any_nil; unfold Zlen; cbn; lia|]. rewrite Zlen_cons in Hd. pose proof (Zlen_nonneg dst). change (Zlen (@nil A)) with 0 in Hd. lia. }
  rewrite <- Ew in *. clear Ew src0.
  destruct (par_any_write sch (fun i w => v <- get src i ;; set w i v)
     (fun i => match get src i with Some v => v | None => d end) 0 (Zlen src) dst) as (w' & E & L & G & _); try lia.
  - intros i w' Hi _ _. destruct (get_in_range src i Hi) as (v & ->). auto.
  - rewrite E. f_equal. apply list_ext; [lia|]. intros i Hi. rewrite G by lia.
    destruct (get_in_range src i) as (v & Ev); [lia|]. now rewrite Ev.
Qed.

Lemma finite_choice {A} (P : Z -> A -> Prop) lo hi :
  (forall i, lo <= i < hi -> exists v, P i v) ->
  exists vs, forall i, lo <= i < hi -> exists v, get vs (i - lo) = Some v /\ P i v.
Proof.
  intros H. destruct (Z_lt_ge_dec lo hi) as [Hl|]; [|exists []; intros; lia].
  replace hi with (lo + (hi - lo)) in * by lia. assert (0 <= hi - lo) as Hn by lia. revert Hn H. clear Hl.
  generalize (hi - lo). apply (Z_ind0 (fun n => (forall i, lo <= i < lo + n -> exists v, P i v) ->
    exists vs, forall i, lo <= i < lo + n -> exists v, get vs (i - lo) = Some v /\ P i v)).
  - intros _. exists []. intros; lia.
  - intros n Hn IH H. assert (exists vs, Zlen vs = n /\ forall i, lo <= i < lo + n -> exists v, get vs (i - lo) = Some v /\ P i v) as (vs & L & G).
    { destruct IH as (vs & G); [intros; apply H; lia|]. exists (slice vs 0 n).
      destruct (Z.eq_dec n 0) as [->|].
      - rewrite slice_nil by lia. split; auto. intros; lia.
      - assert (n <= Zlen vs). { destruct (G (lo + n - 1) ltac:(lia)) as (v & Ev & _). apply get_Some_bounds in Ev. lia. }
        rewrite Zlen_slice by lia. split; [lia|]. intros i Hi. destruct (G i Hi) as (v & Ev & Pv). exists v. split; auto.
        rewrite get_slice by lia. rewrite Z.add_0_l. auto. }
    destruct (H (lo + n) ltac:(lia)) as (v & Pv). exists (vs ++ [v]). intros i Hi.
    destruct (Z.eq_dec i (lo + n)) as [->|].
    + exists v. split; auto. rewrite get_app_r by lia. replace (lo + n - lo - Zlen vs) with 0 by lia. apply get_cons_0.
    + destruct (G i ltac:(lia)) as (v' & Ev & Pv'). exists v'. split; auto. rewrite get_app_l; auto.
      apply get_Some_bounds in Ev. lia.
Qed.

(** [par_any_write] when the stored value is known to exist only. *)
Lemma par_any_write_rel {X} sch (f : Z -> list X -> option (list X)) (Q : Z -> X -> Prop) lo hi w :
  0 <= lo -> hi <= Zlen w ->
  (forall i, lo <= i < hi -> exists v, Q i v /\
     forall w', Zlen w' = Zlen w -> get w' i = get w i -> f i w' = set w' i v) ->
  exists w', par_any sch f lo hi w = Some w' /\ Zlen w' = Zlen w /\
    (forall i, lo <= i < hi -> exists v, get w' i = Some v /\ Q i v) /\
    (forall i, ~ lo <= i < hi -> get w' i = get w i).
Proof.
  intros H0 H1 H. destruct (Z_lt_ge_dec lo hi) as [Hl|Hl].
  2: { exists w. rewrite par_any_nil by lia. repeat split; auto. intros; lia. }
  destruct w as [|d w0] eqn:Ew; [unfold Zlen in H1; cbn in H1; lia|]. rewrite <- Ew in *. clear Ew w0.
  destruct (finite_choice _ lo hi H) as (vs & Hv).
  destruct (par_any_write sch f (fun i => match get vs (i - lo) with Some v => v | None => d end) lo hi w) as (w' & E & L & G & G'); auto.
  - intros i w' Hi Hw Hg. destruct (Hv i Hi) as (v & -> & _ & F). auto.
  - exists w'. repeat split; auto. intros i Hi. rewrite G by auto. destruct (Hv i Hi) as (v & -> & Q' & _). eauto.
Qed.
