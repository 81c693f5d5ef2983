(** * The task dependency graph (LevelSchedule.cpp:800-1131, 1388-1715, without fuseSpMV).

    Lists stored back to back in one buffer (taskAdjacency, taskInvAdjacency,
    children, parentsBuf) are modelled as one list per task with the capacity of its
    region; a store beyond the region is an error.  A fetch-and-add followed by the
    store into the slot it reserved is one step; the slots are not read before the
    next barrier.  The counters of type short are unbounded. *)
From Coq Require Import Permutation.
From Verif Require Import Base Interleave Spec Search Partition PrefixSum Flat Csr Transpose RowPar Exec Levels LevelsFacts LevelsMain Tasks LevelsCsr.

(** ** Model *)
(** :843-848 origRowIdToTaskId *)
Definition task_ids (sch : list nat) (nt : Z) (tb t2o junk : list Z) : option (list Z) :=
  par_any sch (fun q w => b <- get tb q ;; e <- get tb (q + 1) ;; foldM (fun p w => i <- get t2o p ;; set w i q) (zrange b e) w) 0 nt junk.

(** :936-942: size and invSize of a task *)
Definition task_size (G : gr) (tb t2o : list Z) (v : Z) : option (Z * Z) :=
  b <- get tb v ;; e <- get tb (v + 1) ;;
  l <- mapM (fun p => i <- get t2o p ;; r <- get (g_row G) i ;; d <- get (g_dia G) i ;; x <- get (g_ext G) i ;; Some (x - d - 1, d - r + 1)) (zrange b e) ;;
  Some (zsum (map fst l), zsum (map snd l)).

(** :929-931: the range of thread [t] in an even division of the tasks *)
Definition even (nt T t : Z) : Z := Z.min (t * ((nt + T - 1) / T)) nt.
(** Prefix sums of [l] from [a] on, without the total. *)
Definition presums (a : Z) (l : list Z) : list Z := removelast (psums a l).
(** :969-987 and 1389-1407: thread [t] takes the tasks between two boundaries.
    [sums] are the sums of the threads in the division [w], [rp] the row pointers. *)
Definition rebalance (nt T npt : Z) (w : Z -> Z) (sums rp : list Z) (start : Z -> option Z) : option (list Z) :=
  bs <- mapM (fun t => if t =? T - 1 then Some nt
        else u <- upper_bound sums 0 (T - 1) (npt * (t + 1)) ;; let bt := u - 1 in
             s <- get sums bt ;; a <- start bt ;;
             x <- upper_bound rp (w bt) (w (bt + 1)) (npt * (t + 1) - s + a) ;; Some (Z.max 0 (x - 1))) (zrange 0 T) ;;
  Some (0 :: bs).
(** :934-987: v1Boundaries; nnz >= m, so the division by 2 does not matter for its sign.
    taskAdjacency.rowptr is relative to the thread. *)
Definition boundaries1 (nnz m T nt : Z) (sizes : list Z) : option (list Z) :=
  let part t := slice sizes (even nt T t) (even nt T (t + 1)) in
  rebalance nt T (((nnz - m) / 2 + T - 1) / T) (even nt T) (psums 0 (map (fun t => zsum (part t)) (zrange 0 T)))
    (concat (map (fun t => presums 0 (part t)) (zrange 0 T))) (fun _ => Some 0).
(** :1004-1022, 1065, 1104, 1120-1123, 1389-1407: v1Boundaries2; taskAdjacency.rowptr
    is compact within the region of each thread. *)
Definition boundaries2 (T nt : Z) (sizes : list Z) (adjs : list (list Z)) (vb : list Z) : option (list Z) :=
  let lens := map (fun l => Zlen l) adjs in
  let w t := zget vb t in
  let ss := psums 0 (map (fun t => zsum (slice sizes (w t) (w (t + 1)))) (zrange 0 T)) in
  let rs := psums 0 (map (fun t => zsum (slice lens (w t) (w (t + 1)))) (zrange 0 T)) in
  rebalance nt T ((zsum lens + T - 1) / T) w rs (concat (map (fun t => presums (zget ss t) (slice lens (w t) (w (t + 1)))) (zrange 0 T))) (get ss).

(** :996-1002, 1029-1030 and 1421-1427, 1479-1480: the tasks of [vb, ve) with their threads. *)
Definition owned (thb : list Z) (T vb ve : Z) : option (list (Z * Z)) :=
  tb <- upper_bound thb 0 (Zlen thb) vb ;; te <- upper_bound thb 0 (Zlen thb) ve ;;
  l <- mapM (fun t => a <- get thb t ;; b <- get thb (t + 1) ;; Some (map (pair t) (zrange (Z.max a vb) (Z.min b ve))))
         (zrange (tb - 1) (Z.min (te - 1) (T - 1) + 1)) ;;
  Some (concat l).
Definition owned_by (thb : list Z) (T : Z) (vb : list Z) (tid : Z) : option (list (Z * Z)) :=
  b <- get vb tid ;; e <- get vb (tid + 1) ;; owned thb T b e.

(** :1071-1072: skip equal neighbours *)
Fixpoint dedup (old : Z) (l : list Z) : list Z := match l with [] => [] | v :: r => if v =? old then dedup old r else v :: dedup v r end.
(** :1033-1075: the tasks of other threads behind task [v1] of thread [t1] *)
Definition cross_list (G : gr) (tb thb t2o ids : list Z) (t1 v1 : Z) : option (list Z) :=
  a <- get thb t1 ;; z <- get thb (t1 + 1) ;; b <- get tb v1 ;; e <- get tb (v1 + 1) ;;
  ls <- mapM (fun p => i <- get t2o p ;; cs <- succs G i ;; mapM (get ids) cs) (zrange b e) ;;
  Some (dedup (-1) (zsort (filter (fun v => (v <? a) || (z <=? v)) (concat ls)))).
(** :1068-1095: the inverse edges (v2, v1) added for the list [adj] of task [v1] *)
Fixpoint inv_edges (tr added : bool) (v1 : Z) (adj : list Z) : list (Z * Z) :=
  match adj with
  | [] => if negb added && tr then [(v1 + 1, v1)] else []
  | v2 :: r => if negb added && tr && (v1 + 1 <=? v2) then (if v1 + 1 <? v2 then [(v1 + 1, v1)] else []) ++ (v2, v1) :: inv_edges tr true v1 r
               else (v2, v1) :: inv_edges tr added v1 r
  end.
(** A list of task [v1] is stored, or an inverse edge is added. *)
Definition graph_act : Type := (Z * list Z) + (Z * Z).
Definition store_list (sizes : list Z) (a : Z * list Z) (w : list (list Z)) : option (list (list Z)) :=
  c <- get sizes (fst a) ;; if Zlen (snd a) <=? c then set w (fst a) (snd a) else None.
Definition push (caps : list Z) (a : Z * Z) (w : list (list Z)) : option (list (list Z)) :=
  q <- get w (fst a) ;; c <- get caps (fst a) ;; if Zlen q <? c then set w (fst a) (q ++ [snd a]) else None.
Definition graph_step (sizes caps : list Z) (a : graph_act) (s : list (list Z) * list (list Z)) : option (list (list Z) * list (list Z)) :=
  match a with
  | inl x => w <- store_list sizes x (fst s) ;; Some (w, snd s)
  | inr x => w <- push caps x (snd s) ;; Some (fst s, w)
  end.
Definition graph_acts (G : gr) (tr : bool) (tb thb t2o ids : list Z) (tv : Z * Z) : option (list graph_act) :=
  let '(t1, v1) := tv in
  adj <- cross_list G tb thb t2o ids t1 v1 ;; z <- get thb (t1 + 1) ;;
  Some (inl (v1, adj) :: map inr (inv_edges tr (v1 =? z - 1) v1 adj)).

(** :1513-1538: the loop looking for a common element *)
Fixpoint common (fuel : nat) (l1 l2 : list Z) : bool :=
  match fuel with
  | O => false
  | S fuel => match l1, l2 with
              | x :: r1, y :: r2 => if x =? y then true else if x <? y then common fuel r1 l2 else common fuel l1 r2
              | _, _ => false
              end
  end.
Definition redundant (inv temp : list Z) : option bool :=
  i1 <- (if 0 <? Zlen temp then x <- get temp 0 ;; lower_bound inv 0 (Zlen inv) x else Some 0) ;;
  i2 <- (if i1 <? Zlen inv then x <- get inv i1 ;; lower_bound temp 0 (Zlen temp) x else Some 0) ;;
  Some (common (length inv + length temp) (slice inv i1 (Zlen inv)) (slice temp i2 (Zlen temp))).
(** :1484-1504 tempAdj *)
Definition temp_adj (adj : list Z) (j z : Z) : option (list Z) :=
  if j <? z - 1 then
    k <- lower_bound adj 0 (Zlen adj) (j + 1) ;;
    if match get adj k with Some x => x =? j + 1 | None => false end then Some adj
    else Some (slice adj 0 k ++ (j + 1) :: slice adj k (Zlen adj))
  else Some adj.
(** :1509-1545: the successors of [j] that are kept *)
Fixpoint keepM (f : Z -> option bool) (l : list Z) : option (list Z) :=
  match l with [] => Some [] | x :: r => b <- f x ;; r' <- keepM f r ;; Some (if b then r' else x :: r') end.
Definition kept (thb : list Z) (adjs invs : list (list Z)) (tv : Z * Z) : option (list Z) :=
  let '(t, j) := tv in
  adj <- get adjs j ;; z <- get thb (t + 1) ;; temp <- temp_adj adj j z ;;
  keepM (fun i => inv <- get invs i ;; redundant inv temp) adj.
(** :1483, 1540-1544: children[j] is stored, nparentsForward is counted. *)
Definition kept_acts (thb : list Z) (adjs invs : list (list Z)) (tv : Z * Z) : option (list ((Z * list Z) + Z)) :=
  l <- kept thb adjs invs tv ;; Some (inl (snd tv, l) :: map inr l).
Definition count_up (c : Z) (w : list Z) : option (list Z) := x <- get w c ;; set w c (x + 1).
Definition kept_step (sizes : list Z) (a : (Z * list Z) + Z) (s : list (list Z) * list Z) : option (list (list Z) * list Z) :=
  match a with
  | inl x => w <- store_list sizes x (fst s) ;; Some (w, snd s)
  | inr c => w <- count_up c (snd s) ;; Some (fst s, w)
  end.

Section Build.
Variables (G : gr) (T nnz : Z) (tr : bool) (sch : nat -> list nat).
(** The results of findLevels_ (:818). *)
Variables (thb tb t2o : list Z).
(** [jid], [jadj], [jch]: previous contents of origRowIdToTaskId, taskAdjacency, children. *)
Variables (jid : list Z) (jadj jch : list (list Z)).

Definition taskGraph : option schedule :=
  nt <- get thb T ;;
  ids <- task_ids (sch 0%nat) nt tb t2o jid ;;
  szs <- mapM (task_size G tb t2o) (zrange 0 nt) ;;
  let sizes := map fst szs in let caps := map snd szs in
  vb <- boundaries1 nnz (g_m G) T nt sizes ;;
  acts <- mapM (fun t => l <- owned_by thb T vb t ;; as_ <- mapM (graph_acts G tr tb thb t2o ids) l ;; Some (concat as_)) (zrange 0 T) ;;
  ' (adjs, inv0) <- par (sch 1%nat) (graph_step sizes caps) acts (jadj, map (fun _ => []) (zrange 0 nt)) ;;
  (* :1127-1131 *)
  rs <- mapM (fun t => b <- get vb t ;; e <- get vb (t + 1) ;; Some (zrange b e)) (zrange 0 T) ;;
  invs <- par (sch 2%nat) (fun v w => q <- get w v ;; set w v (zsort q)) rs inv0 ;;
  vb2 <- boundaries2 T nt sizes adjs vb ;;
  if tr then
    kacts <- mapM (fun t => l <- owned_by thb T vb2 t ;; as_ <- mapM (kept_acts thb adjs invs) l ;; Some (concat as_)) (zrange 0 T) ;;
    ' (ch, npf) <- par (sch 3%nat) (kept_step (map (fun l => Zlen l) adjs)) kacts (jch, map (fun _ => 0) (zrange 0 nt)) ;;
    (* :1604-1646; every iteration of the omp for may run in its own thread *)
    pf <- par (sch 4%nat) (push npf) (map (fun i => map (fun c => (c, i)) (nthl ch i)) (zrange 0 nt)) (map (fun _ => []) (zrange 0 nt)) ;;
    Some (mkSched nt tb thb npf (map (fun l => Zlen l) ch) pf ch)
  else (* :1676-1708 *)
    Some (mkSched nt tb thb (map (fun l => Zlen l) invs) (map (fun l => Zlen l) adjs) invs adjs).
End Build.
