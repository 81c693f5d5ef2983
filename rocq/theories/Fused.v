(** * The wait lists of the fused Gauss-Seidel and SpMV schedule
    (LevelSchedule.cpp:1136-1275, gs_spmv_fused.cpp:31-34).

    No executor of the repository reads these lists.  Lists are per task as in
    [TaskGraph]; the final copy into parentsBuf is modelled on the flat buffer. *)
From Coq Require Import Permutation.
From Verif Require Import Base Interleave Spec Search Flat Csr CsrOps Transpose RowPar Exec Levels LevelsFacts LevelsMain Tasks LevelsCsr TaskGraph TaskGraphFacts TaskGraphLists TaskGraphMain TaskGraphCsr Sched SchedCases.

(** ** Model *)
(** :1153-1158: the thread of a task *)
Definition thread_of (thb : list Z) (v : Z) : option Z := u <- upper_bound thb 0 (Zlen thb) v ;; Some (u - 1).
(** :1146-1163 *)
Definition add_parent (thb : list Z) (task child : Z) (tp : list (list Z)) : option (list (list Z)) :=
  q <- get tp child ;;
  match rev q with
  | [] => set tp child [task]
  | b :: _ => t <- thread_of thb task ;; tPrev <- thread_of thb b ;; if t =? tPrev then Some tp else set tp child (q ++ [task])
  end.
(** :1143-1164 *)
Definition add_parents (thb : list Z) (nt : Z) (adjs : list (list Z)) : option (list (list Z)) :=
  foldM (fun task tp => adj <- get adjs task ;; foldM (add_parent thb task) adj tp) (zrange 0 nt) (map (fun _ => []) (zrange 0 nt)).
(** :1171-1200; [G] has the row pointers, columns and base *)
Definition min_parent (G : gr) (tb t2o ids : list Z) (lo hi task : Z) : option Z :=
  b <- get tb task ;; e <- get tb (task + 1) ;;
  foldM (fun i mn => row <- get t2o i ;; r <- get (g_row G) row ;; d <- get (g_dia G) row ;;
    foldM (fun j mn => c <- get (g_col G) (j - g_base G) ;; p <- get ids (c - g_base G) ;;
      Some (if (lo <=? p) && (p <? hi) && (p <? mn) then p else mn)) (zrange r d) mn) (zrange b e) task.
(** :1168-1204 *)
Definition add_own (G : gr) (T : Z) (sch : list nat) (thb tb t2o ids : list Z) (tp : list (list Z)) : option (list (list Z)) :=
  par_any sch (fun t tp => lo <- get thb t ;; hi <- get thb (t + 1) ;;
    foldM (fun task tp => mn <- min_parent G tb t2o ids lo hi task ;; q <- get tp task ;; set tp task (q ++ [mn])) (zrange lo hi) tp) 0 T tp.
(** :1216-1249 *)
Definition removable (thb : list Z) (adjs : list (list Z)) (l : list Z) (v : Z) : option bool :=
  t <- thread_of thb v ;; a <- get thb t ;;
  qs <- mapM (get adjs) l ;; Some (existsb (fun q => (a <=? q) && (q <=? v)) (concat qs)).
(** std::set_difference on sorted ranges *)
Fixpoint set_diff (fuel : nat) (l1 l2 : list Z) : list Z :=
  match fuel with
  | O => []
  | S fuel => match l1, l2 with
              | [], _ => [] | _, [] => l1
              | x :: r1, y :: r2 => if x <? y then x :: set_diff fuel r1 l2 else if y <? x then set_diff fuel l1 r2 else set_diff fuel r1 r2
              end
  end.
(** :1211-1258 *)
Definition reduce_parents (thb : list Z) (adjs : list (list Z)) (sch : list nat) (nt : Z) (tp : list (list Z)) : option (list (list Z)) :=
  par_any sch (fun u tp => q <- get tp u ;; let l := zsort q in
    rm <- keepM (fun v => b <- removable thb adjs l v ;; Some (negb b)) l ;;
    set tp u (set_diff (length l + length rm) l (zsort rm))) 0 nt tp.
(** :1269-1275: parents (as offsets into parentsBuf), nparents, parentsBuf *)
Definition copy_parents (invs tp : list (list Z)) (buf : list Z) : option (list Z * list Z * list Z) :=
  ' (ps, ns, buf', _) <- foldM (fun x s =>
      let '(ps, ns, buf, cnt) := s in let '(inv, l) := x in
      buf' <- foldM (fun kv buf => set buf (cnt + fst kv) (snd kv)) (combine (zrange 0 (Zlen l)) l) buf ;;
      Some (ps ++ [cnt], ns ++ [Zlen l], buf', cnt + Zlen inv)) (combine invs tp) ([], [], buf, 0) ;;
  Some (ps, ns, buf').

Section Build.
Variables (G : gr) (T nnz : Z) (tr : bool) (sch : nat -> list nat) (thb tb t2o jid : list Z) (jadj : list (list Z)).
(** The part of [taskGraph] before the construction of the fused schedule:
    origRowIdToTaskId, sizes, taskAdjacency, taskInvAdjacency, v1Boundaries. *)
Definition graph_lists : option (list Z * list Z * list (list Z) * list (list Z) * list Z) :=
  nt <- get thb T ;;
  ids <- task_ids (sch 0%nat) nt tb t2o jid ;;
  szs <- mapM (task_size G tb t2o) (zrange 0 nt) ;;
  let sizes := map fst szs in let caps := map snd szs in
  vb <- boundaries1 nnz (g_m G) T nt sizes ;;
  acts <- mapM (fun t => l <- owned_by thb T vb t ;; as_ <- mapM (graph_acts G tr tb thb t2o ids) l ;; Some (concat as_)) (zrange 0 T) ;;
  ' (adjs, inv0) <- par (sch 1%nat) (graph_step sizes caps) acts (jadj, map (fun _ => []) (zrange 0 nt)) ;;
  rs <- mapM (fun t => b <- get vb t ;; e <- get vb (t + 1) ;; Some (zrange b e)) (zrange 0 T) ;;
  invs <- par (sch 2%nat) (fun v w => q <- get w v ;; set w v (zsort q)) rs inv0 ;;
  Some (ids, sizes, adjs, invs, vb).
(** The lists tempParents and the result of copying them into parentsBuf, whose
    previous contents are [junk] (:1264). *)
Definition fused_lists (junk : Z -> list Z) : option (list (list Z) * (list Z * list Z * list Z)) :=
  nt <- get thb T ;; ' (ids, sizes, adjs, invs, _) <- graph_lists ;;
  tp0 <- add_parents thb nt adjs ;; tp1 <- add_own G T (sch 5%nat) thb tb t2o ids tp0 ;; tp <- reduce_parents thb adjs (sch 6%nat) nt tp1 ;;
  r <- copy_parents invs tp (junk (zsum sizes + 2 * nt)) ;; Some (tp, r).
End Build.
(** constructTaskGraph with fuseSpMV *)
Definition constructFused (G : gr) (T : Z) (bar agg tr : bool) (cost : Z -> Z) (w : world) (junk : Z -> list Z) :=
  ' (thb, tb, o2t, t2o) <- world_tasks G T bar agg cost w ;;
  e <- get (g_row G) (g_m G) ;; nt <- get thb T ;;
  fused_lists G T (e - g_base G) tr (w_s3 w) thb tb t2o (w_ids w) (w_adj w nt) junk.

(** [taskGraph] continues from [graph_lists]. *)
Lemma taskGraph_lists G T nnz tr sch thb tb t2o jid jadj jch S : taskGraph G T nnz tr sch thb tb t2o jid jadj jch = Some S ->
  exists r, graph_lists G T nnz tr sch thb tb t2o jid jadj = Some r.
Proof.
  unfold taskGraph, graph_lists. intros H.
  repeat match type of H with context [match ?x with _ => _ end] => destruct x; try discriminate; eauto end.
Qed.

(** ** Specification *)
(** The task [q] finds its list at the place recorded for it. *)
Definition reads_back (ps ns buf : list Z) (q : Z) (l : list Z) : Prop :=
  exists p, get ps q = Some p /\ get ns q = Some (Zlen l) /\ forall k x, get l k = Some x -> get buf (p + k) = Some x.

(** ** The copy *)
Lemma combine_snoc {A B} (l1 : list A) (l2 : list B) a b : length l1 = length l2 -> combine (l1 ++ [a]) (l2 ++ [b]) = combine l1 l2 ++ [(a, b)].
Proof. revert l2. induction l1; intros [|y l2] H; cbn in *; try discriminate; auto. f_equal. apply IHl1. lia. Qed.
Lemma copy_one (l : list Z) : forall cnt buf, 0 <= cnt -> cnt + Zlen l <= Zlen buf ->
  exists buf', foldM (fun kv buf => set buf (cnt + fst kv) (snd kv)) (combine (zrange 0 (Zlen l)) l) buf = Some buf' /\ Zlen buf' = Zlen buf /\
    (forall k x, get l k = Some x -> get buf' (cnt + k) = Some x) /\ (forall i, i < cnt \/ cnt + Zlen l <= i -> get buf' i = get buf i).
Proof.
  induction l as [|x l IH] using rev_ind; intros cnt buf Hc Hl.
  - exists buf. cbn. repeat split; auto. intros k x H. apply get_Some_bounds in H. change (Zlen (@nil Z)) with 0 in H. lia.
  - rewrite Zlen_app in *. change (Zlen [x]) with 1 in *. pose proof (Zlen_nonneg l).
    destruct (IH cnt buf Hc ltac:(lia)) as (b1 & R1 & L1 & S1 & F1).
    destruct (set_ok b1 (cnt + Zlen l) x ltac:(lia)) as (b2 & R2). exists b2.
    rewrite zrange_snoc by lia. rewrite combine_snoc by (pose proof (Zlen_zrange 0 (Zlen l)) as X; unfold Zlen in *; lia). rewrite foldM_app. replace (Zlen l + 1 - 1) with (Zlen l) by lia. rewrite R1. cbn [combine foldM fst snd]. rewrite R2.
    split; [reflexivity|]. split; [erewrite set_len by eassumption; lia|]. split.
    + intros k y H1. pose proof (get_Some_bounds _ _ _ H1) as Hb. rewrite Zlen_app in Hb. change (Zlen [x]) with 1 in Hb. destruct (Z.eq_dec k (Zlen l)) as [->|N].
      * rewrite get_app_r in H1 by lia. rewrite Z.sub_diag in H1. injection H1 as <-. eapply get_set_same; eauto.
      * rewrite get_app_l in H1 by lia. erewrite get_set_other by (eauto; lia). auto.
    + intros i Hi. erewrite get_set_other by (eauto; lia). apply F1. lia.
Qed.

(** When every list fits the space by which the position advances, every list is
    found again. *)
Lemma copy_fits (invs : list (list Z)) : forall tp buf, Zlen invs = Zlen tp -> zsum (map (fun l => Zlen l) invs) <= Zlen buf ->
  (forall q l inv, get tp q = Some l -> get invs q = Some inv -> Zlen l <= Zlen inv) ->
  exists ps ns buf', copy_parents invs tp buf = Some (ps, ns, buf') /\ Zlen ps = Zlen tp /\ Zlen ns = Zlen tp /\ forall q l, get tp q = Some l -> reads_back ps ns buf' q l.
Proof.
  intros tp buf H0 H1 H2. unfold copy_parents.
  enough (exists ps ns buf', foldM (fun x s =>
      let '(ps, ns, buf, cnt) := s in let '(inv, l) := x in
      buf' <- foldM (fun kv buf => set buf (cnt + fst kv) (snd kv)) (combine (zrange 0 (Zlen l)) l) buf ;;
      Some (ps ++ [cnt], ns ++ [Zlen l], buf', cnt + Zlen inv)) (combine invs tp) ([], [], buf, 0) = Some (ps, ns, buf', zsum (map (fun l => Zlen l) invs)) /\
      Zlen buf' = Zlen buf /\ Zlen ps = Zlen tp /\ Zlen ns = Zlen tp /\
      forall q l, get tp q = Some l -> exists p, get ps q = Some p /\ get ns q = Some (Zlen l) /\ p + Zlen l <= zsum (map (fun l => Zlen l) invs) /\ 0 <= p /\ forall k x, get l k = Some x -> get buf' (p + k) = Some x) as (ps & ns & buf' & E & L1 & L2 & L3 & F).
  { rewrite E. exists ps, ns, buf'. repeat split; auto. intros q l Hq. destruct (F q l Hq) as (p & P1 & P2 & _ & _ & P3). exists p. auto. }
  revert tp H0 H1 H2. induction invs as [|inv invs IH] using rev_ind; intros tp H0 H1 H2.
  - destruct tp; [|unfold Zlen in H0; cbn in H0; lia]. exists [], [], buf. cbn. repeat split; auto. intros q l H. apply get_Some_bounds in H. change (Zlen (@nil (list Z))) with 0 in H. lia.
  - destruct (exists_last (l := tp)) as (tp' & l & ->). { intros ->. rewrite Zlen_app in H0. change (Zlen [inv]) with 1 in H0. change (Zlen (@nil (list Z))) with 0 in H0. pose proof (Zlen_nonneg invs). lia. }
    rewrite !Zlen_app in H0. change (Zlen [inv]) with 1 in H0. change (Zlen [l]) with 1 in H0.
    rewrite map_app, zsum_app in *. change (zsum (map (fun l => Zlen l) [inv])) with (Zlen inv + 0) in *. pose proof (Zlen_nonneg inv).
    destruct (IH tp') as (ps & ns & b1 & E & L1 & L2 & L3 & F); [lia|lia| |].
    { intros q x y Hx Hy. apply (H2 q); rewrite get_app_l; auto; [apply get_Some_bounds in Hx|apply get_Some_bounds in Hy]; lia. }
    assert (Hl : Zlen l <= Zlen inv). { apply (H2 (Zlen tp')); rewrite get_app_r by lia; [rewrite Z.sub_diag|replace (Zlen tp' - Zlen invs) with 0 by lia]; reflexivity. }
    set (c := zsum (map (fun l => Zlen l) invs)) in *.
    assert (Hc : 0 <= c). { unfold c. clear. induction invs; cbn [map zsum fold_right]; [reflexivity|]. pose proof (Zlen_nonneg a). change (0 <= Zlen a + zsum (map (fun l => Zlen l) invs)). lia. }
    destruct (copy_one l c b1) as (b2 & R2 & L4 & S2 & F2); [lia|lia|].
    exists (ps ++ [c]), (ns ++ [Zlen l]), b2. rewrite combine_snoc by (unfold Zlen in H0; lia). rewrite foldM_app, E. cbn [foldM]. rewrite R2. replace (c + (Zlen inv + 0)) with (c + Zlen inv) by lia.
    rewrite !Zlen_app. change (Zlen [c]) with 1. change (Zlen [Zlen l]) with 1. change (Zlen [l]) with 1. repeat split; try lia.
    intros q x Hq. pose proof (get_Some_bounds _ _ _ Hq) as Hb. rewrite Zlen_app in Hb. change (Zlen [l]) with 1 in Hb. destruct (Z.eq_dec q (Zlen tp')) as [->|N].
    + rewrite get_app_r in Hq by lia. rewrite Z.sub_diag in Hq. injection Hq as <-. exists c. rewrite !get_app_r by lia. rewrite L2, L3, Z.sub_diag. repeat split; auto; lia.
    + rewrite get_app_l in Hq by lia. destruct (F q x Hq) as (p & P1 & P2 & P3 & P4 & P5). exists p. rewrite !get_app_l by lia. repeat split; auto; try lia.
      intros k y Hy. rewrite F2; [auto|]. apply get_Some_bounds in Hy. left. lia.
Qed.

(** ** Worked cases *)
(** Two rows without coupling on two threads: the lists of both tasks start at the
    same place and task 0 finds the list of task 1. *)
Definition two_rows : rows_t Z := [[(0, 5)]; [(1, 6)]].
Definition two_world : world := simple_world [[0]; [1]] 2 (fun k => repeat 1%nat k).
Lemma two_sched : sched_matrix true 0 2 two_rows two_rows (csr_of 0 2 two_rows) (dp_of 0 two_rows).
Proof. apply csr_of_sched; [reflexivity|]. intros r c v [<-|[<-|[]]] [E|[]]; injection E as <- _; cbn; lia. Qed.
Lemma two_args : sched_args 2 2 (fun _ => 1) two_world.
Proof. constructor; [lia|lia|]. apply simple_world_ok; [lia|]. split; [reflexivity|]. split; [reflexivity|]. intros t Ht. assert (t = 0 \/ t = 1) as [-> | ->] by lia; vm_compute; discriminate. Qed.
Lemma two_run tr : constructFused (graph_of (csr_of 0 2 two_rows) 0 (dp_of 0 two_rows)) 2 false false tr (fun _ => 1) two_world (fun n => map (fun _ => 77) (zrange 0 n)) =
  Some ([[0]; [1]], ([0; 0], [1; 1], [1; 77; 77; 77])).
Proof. destruct tr; vm_compute; reflexivity. Qed.
Lemma fused_refuted tr : exists (rows : rows_t Z) A dp T cost w junk tp ps ns buf, sched_matrix true 0 (Zlen rows) rows rows A dp /\ sched_args (Zlen rows) T cost w /\ (forall n, 0 <= n -> Zlen (junk n) = n) /\
  constructFused (graph_of A 0 dp) T false false tr cost w junk = Some (tp, (ps, ns, buf)) /\
  exists q l, get tp q = Some l /\ ~ reads_back ps ns buf q l.
Proof.
  exists two_rows, (csr_of 0 2 two_rows), (dp_of 0 two_rows), 2, (fun _ => 1), two_world, (fun n => map (fun _ => 77) (zrange 0 n)). eexists _, _, _, _.
  split; [exact two_sched|]. split; [exact two_args|]. split. { intros n Hn. rewrite Zlen_map, Zlen_zrange. lia. }
  split; [apply two_run|]. exists 0, [0]. split; [reflexivity|]. intros (p & P1 & _ & P3). injection P1 as <-. specialize (P3 0 0 eq_refl). discriminate.
Qed.
Lemma fits_case : copy_parents [[0; 1]; [0]; []] [[0]; [1]; []] [9; 9; 9; 9] = Some ([0; 2; 3], [1; 1; 0], [0; 9; 1; 9]).
Proof. reflexivity. Qed.
