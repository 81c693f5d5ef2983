(** * Parallel breadth-first search (reordering/RCM.cpp:285-478).

    The threads run in phases separated by barriers (Barrier.v).  In the phase that
    expands a level every thread goes through its part of the current queue and
    calls testAndSet (or get and set) for every neighbour; the steps interleave
    (BitVector.v).  What the winner of a node writes (the level, an element of its
    own queue and of its own rowptrs) goes with the step that sets the bit.  The
    queues and rowptrs of a thread (m elements each, at tid*m) are lists; adding to
    a full one is an error.  Other data are not written while they are read.
    Not modelled: the assertions (:361-363, :406, :442-457), int overflow. *)
From Coq Require Import Permutation.
From Verif Require Import Base Interleave Spec PermUtils Flat Csr CsrOps Search LevelsMain SplitLU RowPar P2P P2PProg Phased Transpose CsrTools BitVector Bfs.

(** ** Model *)
(** Prefix sums, :329-332. *)
Fixpoint psum (a : Z) (l : list Z) : list Z := match l with [] => [a] | x :: l => a :: psum (a + x) l end.

Section Model.
Context {V : Type}.
Variable A : csr V.
Variables (base T : Z) (setl outv : bool) (sc : option Z).

(** :350-353 and :366-377: where the part of thread [tid] begins.  [qs] are the
    queues of the level, [P] nnzPrefixSum, [rps] rowptrs, [share] nnzPerThread. *)
Definition pb_begin (qs rps : list (list Z)) (P : list Z) (share tid tEnd : Z) : option (Z * Z) :=
  if 0 =? tid then Some (0, 0)
  else
    r <- upper_bound P 0 (T + 1) (share * tid) ;;
    let t := r - 1 in
    if t =? T then q <- get qs (tEnd - 1) ;; Some (t, Zlen q)
    else q <- get qs t ;; rp <- get rps t ;; p <- get P t ;; k <- upper_bound rp 0 (Zlen q) (share * tid - p) ;; Some (t, k - 1).
(** :357-360 and :379-387 *)
Definition pb_end (qs rps : list (list Z)) (P : list Z) (share tid : Z) : option (Z * Z) :=
  r <- upper_bound P 0 (T + 1) (share * (tid + 1)) ;;
  let t := r - 1 in
  if t =? T then Some (t, 0)
  else q <- get qs t ;; rp <- get rps t ;; p <- get P t ;; k <- upper_bound rp 0 (Zlen q) (share * (tid + 1) - p) ;; Some (t, k - 1).
(** :401-405: the nodes expanded by thread [tid]. *)
Definition pb_nodes (qs : list (list Z)) (b e : Z * Z) : option (list Z) :=
  let '(tBegin, iBegin) := b in let '(tEnd, iEnd) := e in
  ls <- mapM (fun t =>
    hi <- (if t =? tEnd then Some iEnd else q <- get qs t ;; Some (Zlen q)) ;;
    mapM (fun i => q <- get qs t ;; get q i) (zrange (if t =? tBegin then iBegin else 0) hi)) (zrange tBegin (tEnd + 1)) ;;
  Some (concat ls).
(** :408-409 *)
Definition pb_row (u : Z) : option (list Z) :=
  b <- get (rowptr A) u ;; e <- get (rowptr A) (u + 1) ;; mapM (fun j => c <- get (colidx A) j ;; Some (c - base)) (zrange (b - base) (e - base)).
Definition pb_calls (qs rps : list (list Z)) (nz : list Z) (tid : Z) : option (list Z) :=
  let P := psum 0 nz in
  total <- get P T ;;
  let share := (total + T - 1) / T in
  e <- pb_end qs rps P share tid ;; b <- pb_begin qs rps P share tid (fst e) ;;
  us <- pb_nodes qs b e ;; vss <- mapM pb_row us ;; Some (concat vss).

(** :412-418, :424-430 *)
Definition pb_push (lev t v : Z) (x : list Z * list (list Z) * list (list Z)) : option (list Z * list (list Z) * list (list Z)) :=
  let '(levels, qs, rps) := x in
  levels' <- (if setl then set levels v lev else Some levels) ;;
  q <- get qs t ;; rp <- get rps t ;; last <- get rp (Zlen rp - 1) ;;
  b <- get (rowptr A) v ;; e <- get (rowptr A) (v + 1) ;;
  if (Zlen q <? cm A) && (Zlen rp <? cm A) then
    qs' <- set qs t (q ++ [v]) ;; rps' <- set rps t (rp ++ [last + e - b]) ;; Some (levels', qs', rps')
  else None.
Definition pb_ret (lev t v : Z) (won : bool) x := if won then pb_push lev t v x else Some x.
(** :395-438: levels, queues, rowptrs and the bit vector after level [lev]; the
    sums nnzPrefixSum[tid + 1] of the threads. *)
Definition pb_expand (sch : list nat) (lev : Z) (qs rps : list (list Z)) (nz bv levels : list Z) :
    option (list Z * list Z * list (list Z) * list (list Z) * list Z) :=
  calls <- mapM (pb_calls qs rps nz) (zrange 0 T) ;;
  ' (bv', _, (levels', qs', rps')) <- par sch (ts_step outv (pb_ret lev)) (ts_threads calls)
     (bv, repeat false (Z.to_nat T), (levels, repeat [] (Z.to_nat T), repeat [0] (Z.to_nat T))) ;;
  nz' <- mapM (fun t => rp <- get rps' t ;; get rp (Zlen rp - 1)) (zrange 0 T) ;;
  Some (bv', levels', qs', rps', nz').
(** :389-394; [pos] is *numOfVisited - qTailPrefixSum[nthreads]. *)
Definition pb_copy (sch : list nat) (qs : list (list Z)) (pos : Z) (vis : list Z) : option (list Z) :=
  if outv then
    let Q := psum 0 (map Zlen qs) in
    ts <- mapM (fun t => q <- get qs t ;; o <- get Q t ;; Some (combine (zrange (pos + o) (pos + o + Zlen q)) q)) (zrange 0 T) ;;
    par sch (fun '(p, v) w => set w p v) ts vis
  else Some vis.

Record pb_result := mkPB { pb_levels_n : Z; pb_bv : list Z; pb_levels : list Z; pb_vis : list Z; pb_nvis : Z; pb_width : Z; pb_last : list (list Z) }.
(** The loop :325-439.  [lev] is numLevels, [qs] the queues of this level, [prev]
    those of the level before.  [pb_last] of the result: the queues q[numLevels%2]
    left in aux. *)
Fixpoint pb_loop (fuel : nat) (sch : nat -> list nat) (lev : Z) (qs prev rps : list (list Z)) (nz bv levels vis : list Z) (nvis width : Z) : option pb_result :=
  match fuel with
  | O => None
  | S fuel =>
      total <- get (psum 0 (map Zlen qs)) T ;;
      let width := Z.max width total in
      let numLevels := match sc with Some w => if w <? total then -1 else lev + 1 | None => lev + 1 end in
      let nvis' := if outv then nvis + total else nvis in
      if (total =? 0) || (numLevels =? -1) then Some (mkPB numLevels bv levels vis nvis' width prev)
      else
        vis <- pb_copy (sch (2 * fuel)%nat) qs (nvis' - total) vis ;;
        ' (bv, levels, qs', rps', nz') <- pb_expand (sch (2 * fuel + 1)%nat) (lev + 1) qs rps nz bv levels ;;
        pb_loop fuel sch (lev + 1) qs' qs rps' nz' bv levels vis nvis' width
  end.
(** :286-460.  [junk] is what rowptrs of the other threads contain.  rowptrs has T*m
    elements, and element 1 is written (:307). *)
Definition bfs_par (sch : nat -> list nat) (source : Z) (levels bv vis : list Z) (width : Z) (junk : list (list Z)) : option pb_result :=
  levels <- (if setl then set levels source 0 else Some levels) ;;
  bv <- bv_set bv source ;;
  b <- get (rowptr A) source ;; e <- get (rowptr A) (source + 1) ;;
  if 2 <=? T * cm A then
    pb_loop (Z.to_nat (cm A) + 2) sch 0 ([source] :: repeat [] (Z.to_nat (T - 1))) (repeat [] (Z.to_nat T)) ([0; e - b] :: junk) ((e - b) :: repeat 0 (Z.to_nat (T - 1))) bv levels vis 0 width
  else None.
End Model.

(** ** Prefix sums *)
Lemma get_combine {B C} (l : list B) (r : list C) k x y : get (combine l r) k = Some (x, y) <-> get l k = Some x /\ get r k = Some y.
Proof.
  revert r k. induction l as [|a l IH]; intros r k.
  - split; [intros H; apply get_Some_bounds in H; change (Zlen (combine [] r)) with 0 in H; lia|]. intros (H & _). apply get_Some_bounds in H. change (Zlen (@nil B)) with 0 in H. lia.
  - destruct r as [|b r]; [split; [intros H; apply get_Some_bounds in H; change (Zlen (combine (a :: l) (@nil C))) with 0 in H; lia|intros (_ & H); apply get_Some_bounds in H; change (Zlen (@nil C)) with 0 in H; lia]|].
    cbn [combine]. destruct (Z_lt_ge_dec k 0) as [N|N]; [rewrite !get_out by lia; split; [discriminate|intros (H & _); discriminate]|]. destruct (Z.eq_dec k 0) as [->|P].
    + rewrite !get_cons_0. split; [intros H; injection H as -> ->; auto|intros (H1 & H2); congruence].
    + rewrite !get_cons_pos by lia. apply IH.
Qed.
Lemma Zlen_psum a l : Zlen (psum a l) = Zlen l + 1.
Proof. revert a. induction l as [|x l IH]; intros a; [reflexivity|]. cbn [psum]. rewrite !Zlen_cons, IH. lia. Qed.
Lemma psum_0 a l : get (psum a l) 0 = Some a.
Proof. destruct l; reflexivity. Qed.
Lemma psum_step a l i x : get l i = Some x -> exists p, get (psum a l) i = Some p /\ get (psum a l) (i + 1) = Some (p + x).
Proof.
  revert a i. induction l as [|y l IH]; intros a i H; [apply get_Some_bounds in H; change (Zlen (@nil Z)) with 0 in H; lia|]. pose proof (get_Some_bounds _ _ _ H) as B. cbn [psum]. destruct (Z.eq_dec i 0) as [->|N].
  - rewrite get_cons_0 in H. injection H as ->. exists a. split; auto. rewrite get_cons_S by lia. apply psum_0.
  - rewrite get_cons_pos in H by lia. destruct (IH (a + y) _ H) as (p & P1 & P2). exists p. rewrite get_cons_pos by lia. split; auto. rewrite get_cons_S by lia. replace (i - 1 + 1) with i in P2 by lia. auto.
Qed.
Lemma psum_last a l : get (psum a l) (Zlen l) = Some (a + zsum l).
Proof. revert a. induction l as [|x l IH]; intros a; [cbn; f_equal; lia|]. cbn [psum]. rewrite Zlen_cons. replace (1 + Zlen l) with (Zlen l + 1) by lia. rewrite get_cons_S by apply Zlen_nonneg. rewrite IH. f_equal. change (zsum (x :: l)) with (x + zsum l). lia. Qed.
Lemma psum_snoc a l x : psum a (l ++ [x]) = psum a l ++ [a + zsum l + x].
Proof. revert a. induction l as [|y l IH]; intros a; [cbn; do 3 f_equal; lia|]. cbn [psum app]. rewrite IH. do 2 f_equal. change (zsum (y :: l)) with (y + zsum l). f_equal. lia. Qed.
Lemma psum_mono a l : (forall x, In x l -> 0 <= x) -> monotone (psum a l).
Proof.
  intros H. assert (S : forall d i p q, 0 <= d -> get (psum a l) i = Some p -> get (psum a l) (i + d) = Some q -> p <= q).
  { intros d i p q Hd. revert q. pattern d. revert d Hd. apply Z_ind0; [intros q E1 E2; rewrite Z.add_0_r in E2; assert (p = q) by congruence; lia|]. intros d Hd IH q E1 E2. pose proof (get_Some_bounds _ _ _ E1) as B1. pose proof (get_Some_bounds _ _ _ E2) as B2. rewrite Zlen_psum in *.
    destruct (get_in_range l (i + d) ltac:(lia)) as (x & Ex). destruct (psum_step a l (i + d) x Ex) as (r & R1 & R2). replace (i + (d + 1)) with (i + d + 1) in E2 by lia. rewrite R2 in E2. injection E2 as <-. specialize (IH r E1 R1). specialize (H x (get_In _ _ _ Ex)). lia. }
  intros i j x y Hij E1 E2. apply (S (j - i) i); auto; [lia|]. replace (i + (j - i)) with j by lia. auto.
Qed.
Lemma psum_off {B} (qs : list (list B)) a t : 0 <= t <= Zlen qs -> get (psum a (map Zlen qs)) t = Some (a + off (nthl qs) t).
Proof.
  intros (H0 & H1). revert H1. pattern t. revert t H0. apply Z_ind0; [intros _; rewrite psum_0, off_0; f_equal; lia|]. intros t Ht IH H1. rewrite off_S by auto.
  destruct (psum_step a (map Zlen qs) t (Zlen (nthl qs t))) as (p & P1 & P2); [rewrite get_map, get_nthl by lia; reflexivity|]. rewrite P2. rewrite IH in P1 by lia. injection P1 as <-. f_equal. lia.
Qed.

(** ** The parts of the threads cover the level *)
Lemma mapM_slice {B} (q : list B) lo hi : 0 <= lo -> hi <= Zlen q \/ hi <= lo -> mapM (fun i => get q i) (zrange lo hi) = Some (slice q lo hi).
Proof.
  intros H0 H1. destruct (Z_lt_ge_dec lo hi) as [H|H]; [|rewrite zrange_nil, slice_nil by lia; reflexivity]. destruct H1 as [H1|H1]; [|lia].
  enough (G : forall d, 0 <= d -> d <= hi - lo -> mapM (fun i => get q i) (zrange (hi - d) hi) = Some (slice q (hi - d) hi)) by (specialize (G (hi - lo)); replace (hi - (hi - lo)) with lo in G by lia; apply G; lia).
  intros d Hd. pattern d. revert d Hd. apply Z_ind0; [intros _; rewrite zrange_nil, slice_nil by lia; reflexivity|]. intros d Hd IH L. rewrite zrange_cons by lia. cbn [mapM]. destruct (get_in_range q (hi - (d + 1)) ltac:(lia)) as (x & Ex). rewrite Ex. replace (hi - (d + 1) + 1) with (hi - d) by lia. rewrite IH by lia.
  rewrite (slice_cons q (hi - (d + 1)) hi x) by (auto; lia). replace (hi - (d + 1) + 1) with (hi - d) by lia. reflexivity.
Qed.

Section Tile.
Variables (T : Z) (deg : Z -> Z) (qs rps : list (list Z)) (nz : list Z).
Hypothesis HT : 1 <= T.
Hypothesis Hq : Zlen qs = T.
Hypothesis Hr : Zlen rps = T.
Hypothesis Hdeg : forall v, 0 <= deg v.
Hypothesis Hrp : forall t, 0 <= t < T -> nthl qs t <> [] -> nthl rps t = psum 0 (map deg (nthl qs t)).
Hypothesis Hnz : nz = map (fun t => zsum (map deg (nthl qs t))) (zrange 0 T).
Let P := psum 0 nz.
Let len t := Zlen (nthl qs t).

Lemma nz_len : Zlen nz = T. Proof. rewrite Hnz, Zlen_map, Zlen_zrange. lia. Qed.
Lemma nz_at t : 0 <= t < T -> get nz t = Some (zsum (map deg (nthl qs t))).
Proof. intros H. rewrite Hnz, get_map, get_zrange by lia. cbn [option_map]. now rewrite Z.add_0_l. Qed.
Lemma nz_nonneg x : In x nz -> 0 <= x.
Proof. rewrite Hnz. intros H. apply in_map_iff in H as (t & <- & _). apply zsum_map_nonneg. auto. Qed.
Lemma P_len : Zlen P = T + 1. Proof. unfold P. rewrite Zlen_psum, nz_len. lia. Qed.
Lemma P_last : get P T = Some (zsum nz). Proof. unfold P. rewrite <- nz_len at 1. rewrite psum_last. f_equal. Qed.

(** The thread and position found for the amount [x]. *)
Definition bound (x t i : Z) : Prop :=
  upper_bound P 0 (T + 1) x = Some (t + 1) /\ 0 <= t <= T /\ (zsum nz <= x <-> t = T) /\
  (t = T -> i = 0) /\ (t < T -> 0 <= i < len t /\ exists p, get P t = Some p /\ upper_bound (nthl rps t) 0 (len t) (x - p) = Some (i + 1)).
Lemma bound_ex x : 0 <= x -> exists t i, bound x t i.
Proof.
  intros Hx. destruct (upper_bound_safe P 0 (T + 1) x ltac:(lia) ltac:(rewrite P_len; lia)) as (r & E & R).
  assert (M : monotone P) by (apply psum_mono, nz_nonneg).
  destruct (upper_bound_spec _ _ _ _ _ E ltac:(lia) (monotone_monotone_on _ _ _ M)) as (_ & S1 & S2).
  assert (R1 : 1 <= r). { destruct (Z_lt_ge_dec 0 r) as [|Hn]; [lia|]. specialize (S2 0 0 ltac:(lia) (psum_0 0 nz)). lia. }
  assert (Ht : zsum nz <= x <-> r - 1 = T). { split; [|intros H; apply (S1 T _ ltac:(lia) P_last)]. intros H. destruct (Z.eq_dec (r - 1) T); auto. specialize (S2 T (zsum nz) ltac:(lia) P_last). lia. }
  destruct (Z.eq_dec (r - 1) T) as [ET|NT].
  { exists T, 0. split; [rewrite E; f_equal; lia|]. split; [lia|]. split; [rewrite Ht; lia|]. split; auto. lia. }
  set (t := r - 1) in *. assert (Bt : 0 <= t < T) by lia. destruct (psum_step 0 nz t _ (nz_at t Bt)) as (p & P1 & P2). fold P in P1, P2.
  assert (Hp : p <= x) by (apply (S1 t p); [lia|auto]). assert (Hp2 : x < p + zsum (map deg (nthl qs t))) by (apply (S2 (t + 1)); [lia|auto]).
  assert (Ne : nthl qs t <> []) by (intros Ne; rewrite Ne in Hp2; change (zsum (map deg [])) with 0 in Hp2; lia).
  pose proof (Hrp t Bt Ne) as Er. assert (Hlen : 1 <= len t) by (unfold len; destruct (nthl qs t) as [|a l]; [congruence|rewrite Zlen_cons; pose proof (Zlen_nonneg l); lia]).
  destruct (upper_bound_safe (nthl rps t) 0 (len t) (x - p) ltac:(lia) ltac:(rewrite Er, Zlen_psum, Zlen_map; unfold len; lia)) as (k & Ek & Rk).
  assert (Mr : monotone (nthl rps t)) by (rewrite Er; apply psum_mono; intros y Hy; apply in_map_iff in Hy as (w & <- & _); auto).
  destruct (upper_bound_spec _ _ _ _ _ Ek ltac:(lia) (monotone_monotone_on _ _ _ Mr)) as (_ & K1 & K2).
  assert (1 <= k). { destruct (Z_lt_ge_dec 0 k) as [|Hn]; [lia|]. specialize (K2 0 0 ltac:(lia)). rewrite Er, psum_0 in K2. specialize (K2 eq_refl). lia. }
  exists t, (k - 1). split; [rewrite E; f_equal; lia|]. split; [lia|]. split; auto. split; [lia|]. intros _. split; [lia|]. exists p. split; auto. rewrite Ek. f_equal. lia.
Qed.
Lemma bound_unique x t i t' i' : bound x t i -> bound x t' i' -> t = t' /\ i = i'.
Proof.
  intros (A1 & A2 & A3 & A4 & A5) (B1 & B2 & B3 & B4 & B5). rewrite A1 in B1. assert (t = t') by (injection B1; lia). subst t'. split; auto. destruct (Z.eq_dec t T) as [E|N]; [rewrite A4, B4 by auto; auto|].
  destruct (A5 ltac:(lia)) as (_ & p & G & U). destruct (B5 ltac:(lia)) as (_ & p' & G' & U'). rewrite G in G'. injection G' as <-. rewrite U in U'. injection U'. lia.
Qed.

Let share := (zsum nz + T - 1) / T.
Lemma share_nonneg : 0 <= share.
Proof. unfold share. apply Z.div_pos; [|lia]. pose proof (zsum_nonneg nz nz_nonneg). lia. Qed.
Lemma share_T : zsum nz <= share * T.
Proof. unfold share. pose proof (Z.div_mod (zsum nz + T - 1) T ltac:(lia)). pose proof (Z.mod_pos_bound (zsum nz + T - 1) T ltac:(lia)). lia. Qed.

Lemma get_qs t : 0 <= t < T -> get qs t = Some (nthl qs t). Proof. intros; apply get_nthl; lia. Qed.
Lemma get_rps t : 0 <= t < T -> get rps t = Some (nthl rps t). Proof. intros; apply get_nthl; lia. Qed.
Lemma end_ok tid t i : 0 <= tid < T -> bound (share * (tid + 1)) t i -> pb_end T qs rps P share tid = Some (t, i).
Proof.
  intros Ht (B1 & B2 & B3 & B4 & B5). unfold pb_end. rewrite B1. replace (t + 1 - 1) with t by lia. destruct (Z.eqb_spec t T) as [E|N]; [now rewrite B4 by auto|].
  destruct (B5 ltac:(lia)) as (_ & p & G & U). rewrite get_qs, get_rps, G by lia. fold (len t). rewrite U. do 2 f_equal. lia.
Qed.
Lemma begin_ok tid t i te : 1 <= tid < T -> bound (share * tid) t i -> 1 <= te <= T \/ t < T -> exists i', pb_begin T qs rps P share tid te = Some (t, i') /\ 0 <= i' /\ (t < T -> i' = i).
Proof.
  intros Ht (B1 & B2 & B3 & B4 & B5) He. unfold pb_begin. replace (0 =? tid) with false by lia. rewrite B1. replace (t + 1 - 1) with t by lia. destruct (Z.eqb_spec t T) as [E|N].
  - rewrite get_qs by lia. exists (len (te - 1)). split; auto. split; [apply Zlen_nonneg|lia].
  - destruct (B5 ltac:(lia)) as (B6 & p & G & U). rewrite get_qs, get_rps, G by lia. fold (len t). rewrite U. exists i. split; [do 2 f_equal; lia|]. split; [lia|auto].
Qed.

Definition lex_le (a b : Z * Z) : Prop := fst a < fst b \/ (fst a = fst b /\ snd a <= snd b).
Definition lex_lt (a b : Z * Z) : Prop := fst a < fst b \/ (fst a = fst b /\ snd a < snd b).
Lemma nodes_ok tb ib te ie : 0 <= tb -> 0 <= ib -> te <= T -> (te = T -> ie = 0) -> (te < T -> ie <= len te) ->
  exists us, pb_nodes qs (tb, ib) (te, ie) = Some us /\ (forall u, In u us -> exists t, 0 <= t < T /\ In u (nthl qs t)) /\
    forall t i u, 0 <= t < T -> get (nthl qs t) i = Some u -> lex_le (tb, ib) (t, i) -> lex_lt (t, i) (te, ie) -> In u us.
Proof.
  intros H1 H2 H3 H4 H5. unfold pb_nodes. set (lo := fun t => if t =? tb then ib else 0). set (hi := fun t => if t =? te then ie else len t).
  assert (Hout : nthl qs T = []) by (unfold nthl; rewrite get_out by (right; lia); auto).
  erewrite (mapM_Some _ (fun t => slice (nthl qs t) (lo t) (hi t))).
  - eexists. split; [reflexivity|]. split.
    + intros u Hu. apply in_concat in Hu as (l & Hl & Hu). apply in_map_iff in Hl as (t & <- & Ht). apply In_zrange in Ht. apply In_slice in Hu. exists t. split; auto. destruct (Z.eq_dec t T) as [->|]; [|lia]. rewrite Hout in Hu. contradiction.
    + intros t i u Ht G L1 L2. apply in_concat. exists (slice (nthl qs t) (lo t) (hi t)). pose proof (get_Some_bounds _ _ _ G) as B. fold (len t) in B. unfold lex_le in L1. unfold lex_lt in L2. cbn [fst snd] in *.
      assert (L : lo t <= i). { unfold lo. destruct (Z.eqb_spec t tb); lia. }
      assert (U : i < hi t). { unfold hi. destruct (Z.eqb_spec t te); lia. }
      split; [apply in_map_iff; exists t; split; auto; apply In_zrange; destruct L2; lia|]. apply (get_In _ (i - lo t)). rewrite get_slice; [replace (lo t + (i - lo t)) with i by lia; auto|unfold lo in *; destruct (Z.eqb_spec t tb); lia|lia].
  - intros t Ht. apply In_zrange in Ht. assert (L0 : 0 <= lo t) by (unfold lo; destruct (t =? tb); lia). fold (lo t).
    destruct (Z.eq_dec t T) as [->|N].
    + assert (te = T) by lia. replace (T =? te) with true by lia. rewrite Hout. rewrite zrange_nil by lia. unfold hi. replace (T =? te) with true by lia. rewrite slice_nil by lia. reflexivity.
    + rewrite get_qs by lia. replace (if t =? te then Some ie else Some (Zlen (nthl qs t))) with (Some (hi t)) by (unfold hi, len; destruct (t =? te); auto). apply mapM_slice; auto. left. fold (len t). unfold hi. destruct (Z.eqb_spec t te) as [->|]; [apply H5|]; lia.
Qed.
End Tile.

Lemma mapM_ex {A B} (f : A -> option B) l : (forall a, In a l -> exists b, f a = Some b) -> exists l', mapM f l = Some l'.
Proof.
  induction l as [|a l IH]; intros H; [now exists []|]. cbn [mapM]. destruct (H a (or_introl eq_refl)) as (b & ->). destruct IH as (l' & ->); [intros; apply H; now right|]. eauto.
Qed.
Lemma mapM_from {B} (f : Z -> option B) (L : list B) o : (forall k x, get L k = Some x -> f (o + k) = Some x) -> mapM f (zrange o (o + Zlen L)) = Some L.
Proof.
  revert o. induction L as [|x L IH]; intros o H; [change (Zlen (@nil B)) with 0; rewrite zrange_nil by lia; reflexivity|]. pose proof (Zlen_nonneg L). rewrite Zlen_cons, zrange_cons by lia. cbn [mapM]. pose proof (H 0 x (get_cons_0 _ _)) as H1. rewrite Z.add_0_r in H1. rewrite H1.
  replace (o + (1 + Zlen L)) with (o + 1 + Zlen L) by lia. rewrite IH; auto. intros k y G. pose proof (get_Some_bounds _ _ _ G). rewrite <- (H (k + 1) y) by (rewrite get_cons_S; auto; lia). f_equal. lia.
Qed.

Section Proof.
Context {V : Type}.
Variables (A : csr V) (hasv : bool) (base : Z) (rows : rows_t V).
Let m := Zlen rows.
Let adj := cols_of rows.
Let deg (u : Z) := Zlen (nthl rows u).
Hypothesis HR : rep hasv base m rows A.
Hypothesis HK : rows_ok m rows.

Lemma pb_row_ok u : 0 <= u < m -> pb_row A base u = Some (adj u).
Proof.
  intros Hu. unfold pb_row. rewrite (rep_rowptr _ _ _ _ _ _ HR), (rep_rowptr_S _ _ _ _ _ _ HR) by (fold m; lia).
  replace (base + off (nthl rows) u - base) with (off (nthl rows) u) by lia. replace (base + (off (nthl rows) u + Zlen (nthl rows u)) - base) with (off (nthl rows) u + Zlen (adj u)) by (unfold adj, cols_of; rewrite Zlen_map; lia).
  apply mapM_from. intros k x G. unfold adj, cols_of in G. rewrite get_map in G. destruct (get (nthl rows u) k) as [(c & w)|] eqn:E; [|discriminate]. cbn in G. injection G as <-. rewrite (rep_col _ _ _ _ _ _ _ _ _ HR Hu E). f_equal. lia.
Qed.
Lemma deg_nonneg v : 0 <= deg v. Proof. apply Zlen_nonneg. Qed.
Lemma deg_ptr v : 0 <= v < m -> exists b, get (rowptr A) v = Some b /\ get (rowptr A) (v + 1) = Some (b + deg v).
Proof. intros Hv. rewrite (rep_rowptr _ _ _ _ _ _ HR), (rep_rowptr_S _ _ _ _ _ _ HR) by (fold m; lia). eexists. split; [reflexivity|]. f_equal. unfold deg. lia. Qed.

Variables (T : Z) (setl outv : bool).
Hypothesis HT : 1 <= T.

(** What the queues and the sums of a level contain. *)
Definition level_arrays (qs rps : list (list Z)) (nz : list Z) : Prop :=
  Zlen qs = T /\ Zlen rps = T /\ (forall t v, In v (nthl qs t) -> 0 <= v < m) /\
  (forall t, 0 <= t < T -> nthl qs t <> [] -> nthl rps t = psum 0 (map deg (nthl qs t))) /\ nz = map (fun t => zsum (map deg (nthl qs t))) (zrange 0 T).

Lemma calls_ok qs rps nz : level_arrays qs rps nz -> exists calls, mapM (pb_calls A base T qs rps nz) (zrange 0 T) = Some calls /\ Zlen calls = T /\
  forall v, (exists t, 0 <= t < T /\ In v (nthl calls t)) <-> exists t u, 0 <= t < T /\ In u (nthl qs t) /\ In v (adj u).
Proof.
  intros (L1 & L2 & L3 & L4 & L5). set (P := psum 0 nz). set (share := (zsum nz + T - 1) / T).
  assert (SN : 0 <= share) by exact (share_nonneg T deg qs rps nz HT deg_nonneg L4 L5).
  pose proof (bound_ex T deg qs rps nz HT deg_nonneg L4 L5) as BX.
  assert (Each : forall tid, 0 <= tid < T -> exists b e us, pb_end T qs rps P share tid = Some e /\ pb_begin T qs rps P share tid (fst e) = Some b /\ pb_nodes qs b e = Some us /\
     bound T qs rps nz (share * (tid + 1)) (fst e) (snd e) /\ (if 0 =? tid then b = (0, 0) else exists i, bound T qs rps nz (share * tid) (fst b) i /\ (fst b < T -> snd b = i)) /\
     (forall u, In u us -> exists t, 0 <= t < T /\ In u (nthl qs t)) /\ forall t i u, 0 <= t < T -> get (nthl qs t) i = Some u -> lex_le b (t, i) -> lex_lt (t, i) e -> In u us).
  { intros tid Ht. destruct (BX (share * (tid + 1)) ltac:(nia)) as (te & ie & Be). pose proof (end_ok T deg qs rps nz HT L1 L2 deg_nonneg L4 tid te ie Ht Be) as Ee. fold share in Ee.
    pose proof Be as (E1 & E2 & E3 & E4 & E5).
    assert (Hn : forall tb ib, 0 <= tb -> 0 <= ib -> exists us, pb_nodes qs (tb, ib) (te, ie) = Some us /\ (forall u, In u us -> exists t, 0 <= t < T /\ In u (nthl qs t)) /\
       forall t i u, 0 <= t < T -> get (nthl qs t) i = Some u -> lex_le (tb, ib) (t, i) -> lex_lt (t, i) (te, ie) -> In u us).
    { intros tb ib H1 H2. apply (nodes_ok T deg qs rps nz HT L1 deg_nonneg L4); auto; [lia|]. intros H. destruct (E5 H) as (H3 & _). lia. }
    destruct (Z.eqb_spec 0 tid) as [E0|N0].
    - destruct (Hn 0 0 ltac:(lia) ltac:(lia)) as (us & N1 & N2 & N3). exists (0, 0), (te, ie), us. split; auto. split; [unfold pb_begin; replace (0 =? tid) with true by lia; auto|]. auto.
    - destruct (BX (share * tid) ltac:(nia)) as (tb & ib & Bb). pose proof Bb as (F1 & F2 & F3 & F4 & F5).
      destruct (begin_ok T deg qs rps nz HT L1 L2 deg_nonneg L4 tid tb ib te ltac:(lia) Bb) as (i' & G1 & G2 & G3).
      { destruct (Z.eq_dec tb T) as [Eb|]; [left|right; lia]. rewrite Eb in F3. assert (te = T) by (apply E3; enough (share * tid <= share * (tid + 1)) by lia; nia). lia. }
      fold share in G1. destruct (Hn tb i' ltac:(lia) G2) as (us & N1 & N2 & N3). exists (tb, i'), (te, ie), us. split; auto. split; auto. split; auto. split; auto. split; [exists ib; auto|auto]. }
  assert (Hcall : forall tid us b e, 0 <= tid < T -> pb_end T qs rps P share tid = Some e -> pb_begin T qs rps P share tid (fst e) = Some b -> pb_nodes qs b e = Some us -> (forall u, In u us -> exists t, 0 <= t < T /\ In u (nthl qs t)) ->
     pb_calls A base T qs rps nz tid = Some (flat_map adj us)).
  { intros tid us b e Ht E1 E2 E3 Hu. unfold pb_calls. rewrite (P_last T deg qs rps nz HT deg_nonneg L4 L5). fold share. fold P. rewrite E1, E2, E3. rewrite (mapM_Some _ adj), flat_map_concat_map; auto. intros u U. destruct (Hu u U) as (t & _ & H). apply pb_row_ok. eapply L3; eauto. }
  destruct (mapM_ex (pb_calls A base T qs rps nz) (zrange 0 T)) as (calls & Ec).
  { intros tid Ht. apply In_zrange in Ht. destruct (Each tid Ht) as (b & e & us & E1 & E2 & E3 & _ & _ & E4 & _). eexists. eapply Hcall; eauto. }
  exists calls. split; auto. assert (Lc : Zlen calls = T) by (apply mapM_length in Ec; unfold Zlen at 1; rewrite Ec; change (Zlen (zrange 0 T) = T); rewrite Zlen_zrange; lia). split; auto.
  assert (Hc : forall tid, 0 <= tid < T -> pb_calls A base T qs rps nz tid = Some (nthl calls tid)).
  { intros tid Ht. rewrite <- (mapM_get _ _ _ tid tid Ec) by (rewrite get_zrange by lia; f_equal; lia). apply get_nthl. lia. }
  intros v. split.
  - intros (tid & Ht & Hv). destruct (Each tid Ht) as (b & e & us & E1 & E2 & E3 & _ & _ & E4 & _). pose proof (Hcall tid us b e Ht E1 E2 E3 E4) as E. rewrite Hc in E by auto. injection E as E. rewrite E in Hv. apply in_flat_map in Hv as (u & Hu & Hv). destruct (E4 u Hu) as (t & B & H). eauto.
  - intros (t & u & Ht & Hu & Hv). destruct (In_get _ _ Hu) as (i & Bi & Gi).
    (* the first thread whose part ends behind the node *)
    assert (K : forall k, 0 <= k -> k <= T -> (exists tid, 0 <= tid < k /\ In v (nthl calls tid)) \/ forall tid, 0 <= tid < k -> forall te ie, bound T qs rps nz (share * (tid + 1)) te ie -> ~ lex_lt (t, i) (te, ie)).
    { intros k Hk. pattern k. revert k Hk. apply Z_ind0; [right; lia|]. intros k Hk IH Bk. destruct (IH ltac:(lia)) as [(tid & B & H)|IH']; [left; exists tid; split; [lia|auto]|]. clear IH.
      destruct (Each k ltac:(lia)) as (b & e & us & E1 & E2 & E3 & Be & Bb & E4 & E5).
      assert (D : {lex_lt (t, i) e} + {~ lex_lt (t, i) e}). { destruct e as (te & ie). unfold lex_lt. cbn [fst snd]. destruct (Z_lt_ge_dec t te); [left; lia|]. destruct (Z.eq_dec t te); [|right; lia]. destruct (Z_lt_ge_dec i ie); [left|right]; lia. }
      destruct D as [D|D].
      - left. exists k. split; [lia|]. pose proof (Hcall k us b e ltac:(lia) E1 E2 E3 E4) as E. rewrite Hc in E by lia. injection E as E. rewrite E. apply in_flat_map. exists u. split; auto. apply (E5 t i); auto.
        destruct (Z.eqb_spec 0 k) as [E0|N0]; [rewrite Bb; unfold lex_le; cbn [fst snd]; lia|]. destruct Bb as (ib & Bb & Hb). assert (Hb' : bound T qs rps nz (share * (k - 1 + 1)) (fst b) ib) by (replace (k - 1 + 1) with k by lia; auto).
        specialize (IH' (k - 1) ltac:(lia) _ _ Hb'). destruct Bb as (_ & Bb2 & _ & Bb4 & _). destruct b as (tb & i'). cbn [fst snd] in *. unfold lex_lt in IH'. unfold lex_le. cbn [fst snd] in *. assert (tb < T) by lia. specialize (Hb ltac:(lia)). lia.
      - right. intros tid Ht' te ie B. destruct (Z.eq_dec tid k) as [->|N]; [|apply (IH' tid); auto; lia]. destruct e as (te' & ie'). cbn [fst snd] in *. destruct (bound_unique T deg qs rps nz deg_nonneg L4 _ _ _ _ _ B Be) as (-> & ->). auto. }
    destruct (K T ltac:(lia) ltac:(lia)) as [(tid & B & H)|K']; [eauto|]. exfalso. destruct (Each (T - 1) ltac:(lia)) as (b & e & us & _ & _ & _ & Be & _). apply (K' (T - 1) ltac:(lia) _ _ Be).
    destruct Be as (_ & _ & B3 & _). assert (fst e = T). { apply B3. replace (T - 1 + 1) with T by lia. exact (share_T T deg qs rps nz HT deg_nonneg L4). } unfold lex_lt. cbn [fst]. lia.
Qed.

Lemma nthl_set {B} (l l' : list (list B)) t x t' : set l t x = Some l' -> nthl l' t' = if t' =? t then x else nthl l t'.
Proof. intros E. unfold nthl at 1. rewrite (get_set _ _ _ _ _ E). destruct (Z.eqb_spec t t'), (Z.eqb_spec t' t); try lia; auto. Qed.
Lemma push_ok lev t v levels qs rps : 0 <= t < T -> Zlen qs = T -> Zlen rps = T -> 0 <= v < m -> Zlen (nthl qs t) + 2 <= m -> nthl rps t = psum 0 (map deg (nthl qs t)) -> (setl = true -> Zlen levels = m) ->
  exists levels' qs' rps', pb_push A setl lev t v (levels, qs, rps) = Some (levels', qs', rps') /\ Zlen qs' = T /\ Zlen rps' = T /\
    (forall t', nthl qs' t' = if t' =? t then nthl qs t ++ [v] else nthl qs t') /\ (forall t', nthl rps' t' = if t' =? t then psum 0 (map deg (nthl qs t ++ [v])) else nthl rps t') /\
    Zlen levels' = Zlen levels /\ (setl = true -> get levels' v = Some lev) /\ (forall w, w <> v \/ setl = false -> get levels' w = get levels w).
Proof.
  intros Ht Lq Lr Hv Hc Er Hl. unfold pb_push. assert (exists levels', (if setl then set levels v lev else Some levels) = Some levels' /\ Zlen levels' = Zlen levels /\ (setl = true -> get levels' v = Some lev) /\ (forall w, w <> v \/ setl = false -> get levels' w = get levels w)) as (levels' & -> & H1 & H2 & H3).
  { destruct setl; [|exists levels; repeat split; auto; discriminate]. destruct (set_ok levels v lev ltac:(rewrite Hl by auto; lia)) as (l' & E). exists l'. split; auto. split; [apply (set_len _ _ _ _ E)|]. split; [intros _; apply (get_set_same _ _ _ _ E)|]. intros w [N|N]; [|discriminate]. apply (get_set_other _ _ _ _ _ E). auto. }
  rewrite !get_nthl by lia. rewrite Er. rewrite Zlen_psum, Zlen_map. pose proof (psum_last 0 (map deg (nthl qs t))) as PL. rewrite Zlen_map in PL. replace (Zlen (nthl qs t) + 1 - 1) with (Zlen (nthl qs t)) by lia. rewrite PL. destruct (deg_ptr v Hv) as (b & -> & ->).
  assert (Hm : cm A = m) by apply (proj1 HR). rewrite Hm. replace ((Zlen (nthl qs t) <? m) && (Zlen (nthl qs t) + 1 <? m)) with true by lia.
  destruct (set_ok qs t (nthl qs t ++ [v]) ltac:(lia)) as (qs' & E1). rewrite E1. replace (psum 0 (map deg (nthl qs t)) ++ [0 + zsum (map deg (nthl qs t)) + (b + deg v) - b]) with (psum 0 (map deg (nthl qs t ++ [v]))) by (rewrite map_app; cbn [map]; rewrite psum_snoc; do 2 f_equal; lia).
  destruct (set_ok rps t (psum 0 (map deg (nthl qs t ++ [v]))) ltac:(lia)) as (rps' & E2). rewrite E2. exists levels', qs', rps'. split; auto. split; [rewrite (set_len _ _ _ _ E1); auto|]. split; [rewrite (set_len _ _ _ _ E2); auto|]. split; [intros t'; apply (nthl_set _ _ _ _ _ E1)|]. split; [intros t'; apply (nthl_set _ _ _ _ _ E2)|]. auto.
Qed.

Lemma nthl_repeat {B} (l : list B) n t : 0 <= t < n -> nthl (repeat l (Z.to_nat n)) t = l.
Proof. intros H. unfold nthl. destruct (get_in_range (repeat l (Z.to_nat n)) t) as (x & E); [rewrite Zlen_repeat; lia|]. rewrite E. apply get_In, repeat_spec in E. auto. Qed.
Lemma nthl_out {B} (l : list (list B)) t : ~ 0 <= t < Zlen l -> nthl l t = [].
Proof. intros H. unfold nthl. rewrite get_out by lia. auto. Qed.

Variable s : Z.
Hypothesis Hs : 0 <= s < m.

(** [v] is in one of the queues. *)
Definition queued (qs : list (list Z)) (v : Z) : Prop := exists t, 0 <= t < T /\ In v (nthl qs t).
Lemma expand_ok sch lev qs rps nz bv levels : level_arrays qs rps nz -> m <= Zlen bv -> bit bv s = Some true -> (setl = true -> Zlen levels = m) ->
  exists bv' levels' qs' rps' nz', pb_expand A base T setl outv sch lev qs rps nz bv levels = Some (bv', levels', qs', rps', nz') /\ level_arrays qs' rps' nz' /\
    (forall t, NoDup (nthl qs' t)) /\ (outv = true -> forall t t' v, In v (nthl qs' t) -> In v (nthl qs' t') -> t = t') /\
    (forall v, queued qs' v <-> bit bv v = Some false /\ exists u, queued qs u /\ In v (adj u)) /\
    Zlen bv' = Zlen bv /\ (forall v, queued qs' v -> bit bv' v = Some true) /\ (forall v, ~ queued qs' v -> get bv' v = get bv v) /\
    Zlen levels' = Zlen levels /\ (setl = true -> forall v, queued qs' v -> get levels' v = Some lev) /\ (forall v, ~ queued qs' v \/ setl = false -> get levels' v = get levels v).
Proof.
  intros LA HN Hbs Hl. destruct (calls_ok _ _ _ LA) as (calls & Ec & Lc & Hc). unfold pb_expand. rewrite Ec.
  assert (Hrange : forall t v, In v (nthl calls t) -> 0 <= v < m).
  { intros t v Hv. assert (Bt : 0 <= t < T). { destruct (Z_lt_ge_dec t 0) as [|]; [rewrite nthl_out in Hv by lia; contradiction|]. destruct (Z_lt_ge_dec t T) as [|]; [lia|rewrite nthl_out in Hv by lia; contradiction]. }
    destruct (proj1 (Hc v) (ex_intro _ t (conj Bt Hv))) as (t' & u & _ & _ & H). now apply (adj_range rows HK) in H. }
  pose (J := fun (done : Z -> list Z) (pend : Z -> option Z) (bv1 : list Z) (x : list Z * list (list Z) * list (list Z)) => let '(levels1, qs1, rps1) := x in
     Zlen qs1 = T /\ Zlen rps1 = T /\ (forall t, NoDup (nthl qs1 t)) /\ (forall t, 0 <= t < T -> nthl rps1 t = psum 0 (map deg (nthl qs1 t))) /\
     (forall t v, In v (nthl qs1 t) -> bit bv1 v = Some true /\ bit bv v = Some false /\ In v (nthl calls t)) /\ (forall v, ~ queued qs1 v -> get bv1 v = get bv v) /\
     (forall t v, 0 <= t < T -> In v (done t) -> bit bv1 v = Some true) /\ (forall t v, 0 <= t < T -> pend t = Some v -> bit bv v = Some false /\ ~ In v (nthl qs1 t)) /\
     (outv = true -> forall t t' v, In v (nthl qs1 t) -> In v (nthl qs1 t') -> t = t') /\
     Zlen levels1 = Zlen levels /\ (setl = true -> forall v, queued qs1 v -> get levels1 v = Some lev) /\ (forall v, ~ queued qs1 v \/ setl = false -> get levels1 v = get levels v)).
  assert (QD : forall qs1 v, {queued qs1 v} + {~ queued qs1 v}).
  { intros qs1 v. unfold queued. destruct (in_dec Z.eq_dec v (concat (map (nthl qs1) (zrange 0 T)))) as [H|H]; [left|right].
    - apply in_concat in H as (l & Hl' & H). apply in_map_iff in Hl' as (t & <- & Ht). apply In_zrange in Ht. eauto.
    - intros (t & Ht & Hv). apply H. apply in_concat. exists (nthl qs1 t). split; auto. apply in_map. now apply In_zrange. }
  destruct (ts_rule outv (pb_ret A setl lev) calls (Zlen bv) J) with (sch := sch) (bv := bv) (regs := repeat false (Z.to_nat T)) (x := (levels, repeat (@nil Z) (Z.to_nat T), repeat [0] (Z.to_nat T)))
    as (bv' & regs' & ((levels' & qs') & rps') & done & pend & E & N1 & _ & JE & DE).
  - intros t v H. apply Hrange in H. lia.
  - (* lost *)
    intros done pend bv1 ((l1 & q1) & r1) t v rest Ht Hv Hp (I1 & I2 & I3 & I4 & I5 & I6 & I7 & I8 & I9 & I10 & I11 & I12) HL Hb. rewrite Lc in Ht. exists (l1, q1, r1). split; [reflexivity|]. repeat (split; [assumption|]). split; [|repeat (split; [assumption|]); assumption].
    intros t' w Ht' Hw. unfold put in Hw. destruct (t' =? t) eqn:Et; [|eauto]. apply in_app_or in Hw as [Hw|[<-|[]]]; auto. apply (I7 t); auto.
  - (* read *)
    intros done pend bv1 ((l1 & q1) & r1) t v rest Ht Hv Hp (I1 & I2 & I3 & I4 & I5 & I6 & I7 & I8 & I9 & I10 & I11 & I12) HL Hb. repeat (split; [assumption|]). split; [|repeat (split; [assumption|]); assumption].
    intros t' w Ht' Hw. unfold put in Hw. destruct (t' =? t) eqn:Et; [|eauto]. injection Hw as <-. split.
    + assert (NQ : ~ queued q1 v) by (intros (t2 & _ & H2); apply I5 in H2 as (H2 & _); congruence). unfold bit. rewrite <- (I6 v NQ). exact Hb.
    + intros H. apply I5 in H as (H & _). congruence.
  - (* set *)
    intros done pend bv1 ((l1 & q1) & r1) t v rest b bv2 Ht Hv Hp (I1 & I2 & I3 & I4 & I5 & I6 & I7 & I8 & I9 & I10 & I11 & I12) HL Hb U. rewrite Lc in Ht.
    destruct (I8 t v Ht Hp) as (P1 & P2). assert (Hcv : In v (nthl calls t)) by (rewrite Hv; apply in_or_app; right; now left). pose proof (Hrange t v Hcv) as Bv.
    assert (Hdone : forall t' w, 0 <= t' < T -> In w (put t (done t ++ [v]) done t') -> bit bv2 w = Some true).
    { intros t' w Ht' Hw. destruct (Z.eq_dec w v) as [->|Nw]; [apply U|]. rewrite (bit_other _ _ _ _ _ U Nw). unfold put in Hw. destruct (t' =? t) eqn:Et; [|eauto]. apply in_app_or in Hw as [Hw|[<-|[]]]; [apply (I7 t); auto|contradiction]. }
    assert (Hpend : forall q2, (forall t', nthl q2 t' = nthl q1 t' \/ (t' = t /\ nthl q2 t' = nthl q1 t' ++ [v])) -> forall t' w, 0 <= t' < T -> put t None pend t' = Some w -> bit bv w = Some false /\ ~ In w (nthl q2 t')).
    { intros q2 H2 t' w Ht' Hw. unfold put in Hw. destruct (t' =? t) eqn:Et; [discriminate|]. destruct (I8 t' w Ht' Hw) as (G1 & G2). split; auto. destruct (H2 t') as [->|(E' & _)]; auto. lia. }
    destruct (if outv then negb b else true) eqn:Ew.
    + (* won *)
      cbn [pb_ret]. assert (Nd : NoDup (nthl q1 t ++ [v])) by (apply NoDup_app2; [apply I3|constructor; [intros []|constructor]|intros x X1 [<-|[]]; auto]).
      assert (Cap : Zlen (nthl q1 t) + 2 <= m).
      { pose proof (NoDup_bounded m (s :: nthl q1 t ++ [v]) ltac:(lia)) as B. rewrite Zlen_cons, Zlen_app in B. change (Zlen [v]) with 1 in B. enough (1 + (Zlen (nthl q1 t) + 1) <= m) by lia. apply B.
        - constructor; auto. intros H. apply in_app_or in H as [H|[H|[]]]; [apply I5 in H as (_ & H & _); congruence|congruence].
        - intros i [<-|H]; auto. apply in_app_or in H as [H|[<-|[]]]; auto. apply I5 in H as (_ & _ & H). eauto. }
      destruct (push_ok lev t v l1 q1 r1 Ht I1 I2 Bv Cap (I4 t Ht) ltac:(intros X; rewrite I10; auto)) as (l2 & q2 & r2 & Ep & K1 & K2 & K3 & K4 & K5 & K6 & K7).
      exists (l2, q2, r2). split; auto. assert (Q2 : forall w, queued q2 w <-> queued q1 w \/ w = v).
      { intros w. unfold queued. split.
        - intros (t' & Ht' & H). rewrite K3 in H. destruct (t' =? t) eqn:Et; [|eauto]. apply in_app_or in H as [H|[<-|[]]]; eauto.
        - intros [ (t' & Ht' & H)| ->]; [exists t'|exists t]; (split; auto); rewrite K3; [destruct (t' =? t) eqn:Et; auto; apply in_or_app; left; replace t with t' by lia; auto|rewrite Z.eqb_refl; apply in_or_app; right; now left]. }
      split; auto. split; auto. split; [intros t'; rewrite K3; destruct (t' =? t); auto|].
      split; [intros t' Ht'; rewrite K3, K4; destruct (t' =? t); auto|].
      split; [|split; [|split; [exact Hdone|split; [|split; [|split; [|split]]]]]].
      * intros t' w H. rewrite K3 in H. destruct (Z.eq_dec w v) as [->|Nw].
        -- split; [apply U|]. split; auto. destruct (t' =? t) eqn:Et; [replace t' with t by lia; auto|]. apply I5 in H as (_ & _ & H). auto.
        -- rewrite (bit_other _ _ _ _ _ U Nw). destruct (t' =? t) eqn:Et; [|auto]. apply in_app_or in H as [H|[<-|[]]]; [|contradiction]. replace t' with t by lia. auto.
      * intros w H. destruct U as (_ & _ & U). rewrite U by (intros ->; apply H; apply Q2; auto). apply I6. intros H2. apply H. apply Q2. auto.
      * apply Hpend. intros t'. rewrite K3. destruct (t' =? t) eqn:Et; auto. right. split; [lia|]. do 2 f_equal. lia.
      * intros Ho t1 t2 w H1 H2. assert (NQ : ~ queued q1 v). { rewrite Ho in Ew. assert (b = false) by (destruct b; auto; discriminate). subst b. intros (t3 & _ & H3). apply I5 in H3 as (H3 & _). congruence. }
        assert (BT : forall t0 x, In x (nthl q1 t0) -> 0 <= t0 < T). { intros t0 x X. destruct (Z_lt_ge_dec t0 0) as [|]; [rewrite nthl_out in X by lia; contradiction|]. destruct (Z_lt_ge_dec t0 T); [lia|]. rewrite nthl_out in X by lia. contradiction. }
        rewrite K3 in H1, H2. destruct (t1 =? t) eqn:E1, (t2 =? t) eqn:E2; [lia| | |eauto].
        -- apply in_app_or in H1 as [H1|[<-|[]]]; [replace t1 with t by lia; apply (I9 Ho t t2 w H1 H2)|]. exfalso. apply NQ. exists t2. eauto.
        -- apply in_app_or in H2 as [H2|[<-|[]]]; [replace t2 with t by lia; apply (I9 Ho t1 t w H1 H2)|]. exfalso. apply NQ. exists t1. eauto.
      * lia.
      * intros Hsl w Hw. destruct (Z.eq_dec w v) as [->|Nw]; [auto|]. rewrite K7 by auto. apply I11; auto. apply Q2 in Hw as [|]; auto. contradiction.
      * intros w [Hw|Hw]; [|rewrite K7 by auto; auto]. rewrite K7 by (left; intros ->; apply Hw; apply Q2; auto). apply I12. left. intros H. apply Hw. apply Q2. auto.
    + (* not first *)
      exists (l1, q1, r1). split; [reflexivity|]. assert (outv = true /\ b = true) as (Ho & ->) by (destruct outv; [destruct b; auto; discriminate|discriminate]).
      assert (QB : forall w, bit bv1 w = Some true -> bit bv2 w = Some true) by (intros w H; destruct (Z.eq_dec w v) as [->|Nw]; [apply U|rewrite (bit_other _ _ _ _ _ U Nw); auto]).
      split; auto. split; auto. split; auto. split; auto. split; [intros t' w H; destruct (I5 t' w H) as (G1 & G2 & G3); auto|].
      assert (Qv : queued q1 v). { destruct (QD q1 v) as [|NQ]; auto. exfalso. pose proof (I6 v NQ) as G. unfold bit in Hb, P1. rewrite G in Hb. congruence. }
      split; [|split; [exact Hdone|split; [apply Hpend; auto|auto]]].
      intros w Hw. destruct U as (_ & _ & U). rewrite U by (intros ->; auto). auto.
  - reflexivity.
  - rewrite Zlen_repeat. lia.
  - (* start *)
    assert (Hq0 : forall t, nthl (repeat (@nil Z) (Z.to_nat T)) t = []) by (intros t; unfold nthl; destruct (get _ t) as [l|] eqn:G; auto; apply get_In, repeat_spec in G; auto).
    assert (NQ : forall v, ~ queued (repeat (@nil Z) (Z.to_nat T)) v) by (intros v (t & _ & H); rewrite Hq0 in H; contradiction).
    split; [rewrite Zlen_repeat; lia|]. split; [rewrite Zlen_repeat; lia|]. split; [intros t; rewrite Hq0; constructor|]. split; [intros t Ht; rewrite Hq0, nthl_repeat by auto; reflexivity|]. split; [intros t v H; rewrite Hq0 in H; contradiction|]. split; [auto|]. split; [intros t v _ []|]. split; [intros t v _ H; discriminate|]. split; [intros _ t t' v H; rewrite Hq0 in H; contradiction|]. split; auto. split; [intros _ v H; exfalso; apply (NQ v H)|auto].
  - rewrite E. destruct JE as (I1 & I2 & I3 & I4 & I5 & I6 & I7 & I8 & I9 & I10 & I11 & I12).
    assert (Q : forall v, queued qs' v <-> bit bv v = Some false /\ exists u, queued qs u /\ In v (adj u)).
    { intros v. split.
      - intros (t & Ht & Hv). destruct (I5 t v Hv) as (_ & G2 & G3). split; auto. destruct (proj1 (Hc v) (ex_intro _ t (conj Ht G3))) as (t' & u & Ht' & Hu & H). exists u. split; auto. exists t'. auto.
      - intros (Hb & u & (t & Ht & Hu) & Hv). destruct (proj2 (Hc v)) as (t' & Ht' & Hv'); [eauto|]. destruct (QD qs' v) as [|NQ]; auto. exfalso. rewrite Lc in DE. destruct (DE t' Ht') as (D1 & _). assert (B : bit bv' v = Some true) by (apply (I7 t'); auto; rewrite D1; auto). unfold bit in B, Hb. rewrite (I6 v NQ) in B. congruence. }
    assert (Hnz : mapM (fun t => rp <- get rps' t ;; get rp (Zlen rp - 1)) (zrange 0 T) = Some (map (fun t => zsum (map deg (nthl qs' t))) (zrange 0 T))).
    { apply mapM_Some. intros t Ht. apply In_zrange in Ht. rewrite get_nthl by lia. rewrite I4 by auto. rewrite Zlen_psum. replace (Zlen (map deg (nthl qs' t)) + 1 - 1) with (Zlen (map deg (nthl qs' t))) by lia. rewrite psum_last. f_equal. }
    rewrite Hnz. exists bv', levels', qs', rps', (map (fun t => zsum (map deg (nthl qs' t))) (zrange 0 T)). split; auto. split.
    { split; auto. split; auto. split; [intros t v H; apply I5 in H as (_ & _ & H); eauto|]. split; auto. }
    split; auto. split; auto. split; auto. split; auto. split; [intros v (t & _ & H); apply I5 in H; tauto|]. auto.
Qed.

Lemma copy_ok sch qs pos vis : Zlen qs = T -> 0 <= pos -> pos + Zlen (concat qs) <= Zlen vis -> outv = true ->
  exists vis', pb_copy T outv sch qs pos vis = Some vis' /\ Zlen vis' = Zlen vis /\ (forall i, 0 <= i < Zlen (concat qs) -> get vis' (pos + i) = get (concat qs) i) /\
    (forall k, k < pos \/ pos + Zlen (concat qs) <= k -> get vis' k = get vis k).
Proof.
  intros Lq Hp Hc ->. unfold pb_copy.
  rewrite (mapM_Some _ (fun t => combine (zrange (pos + off (nthl qs) t) (pos + off (nthl qs) t + Zlen (nthl qs t))) (nthl qs t))).
  2:{ intros t Ht. apply In_zrange in Ht. rewrite get_nthl, psum_off by lia. rewrite Z.add_0_l. reflexivity. }
  set (ts := map _ _). assert (Hin : forall p v, In (p, v) (merge sch ts) -> exists t k, 0 <= t < T /\ get (nthl qs t) k = Some v /\ p = pos + (off (nthl qs) t + k)).
  { intros p v H. apply In_merge in H as (l & Hl & H). unfold ts in Hl. apply in_map_iff in Hl as (t & <- & Ht). apply In_zrange in Ht. apply In_get in H as (k & Bk & Gk). pose proof (Zlen_nonneg (nthl qs t)).
    apply get_combine in Gk as (G1 & G2). pose proof (get_Some_bounds _ _ _ G2). rewrite get_zrange in G1 by lia. injection G1 as <-. exists t, k. split; auto. split; auto. lia. }
  assert (Hin' : forall t k v, 0 <= t < T -> get (nthl qs t) k = Some v -> In (pos + (off (nthl qs) t + k), v) (merge sch ts)).
  { intros t k v Ht G. pose proof (get_Some_bounds _ _ _ G). apply In_merge. eexists. split; [unfold ts; apply in_map; apply In_zrange; exact Ht|]. apply (get_In _ k). apply get_combine. split; auto. rewrite get_zrange by lia. f_equal. lia. }
  assert (Hflat : forall t k v, 0 <= t < T -> get (nthl qs t) k = Some v -> get (concat qs) (off (nthl qs) t + k) = Some v).
  { intros t k v Ht G. rewrite concat_flat, get_flat; auto; [lia|]. apply get_Some_bounds in G. auto. }
  unfold par. destruct (write_all (fun '(p, v) w => set w p v) fst snd (merge sch ts) vis) as (vis' & E & L & G1 & G2).
  - intros (p & v) w _ _. reflexivity.
  - intros (p & v) H. cbn [fst]. destruct (Hin p v H) as (t & k & Ht & G & ->). apply Hflat in G; auto. apply get_Some_bounds in G. lia.
  - intros (p & v) (p' & v') H H' E'. cbn [fst snd] in *. destruct (Hin p v H) as (t & k & Ht & G & ->). destruct (Hin p' v' H') as (t' & k' & Ht' & G' & ->). apply Hflat in G, G'; auto. replace (off (nthl qs) t' + k') with (off (nthl qs) t + k) in G' by lia. congruence.
  - exists vis'. split; auto. split; auto. split.
    + intros i Hi. assert (Hi' : 0 <= i < off (nthl qs) T) by (rewrite concat_flat, Lq, Zlen_flat in Hi by lia; auto). destruct (flat_locate (nthl qs) T i ltac:(lia) Hi') as (t & k & Ht & Hk & ->). destruct (get_in_range _ _ Hk) as (v & Gv). rewrite (Hflat t k v Ht Gv). apply (G1 _ (Hin' t k v Ht Gv)).
    + intros k Hk. apply G2. intros (p & v) H. cbn [fst]. destruct (Hin p v H) as (t & i & Ht & G & ->). apply Hflat in G; auto. apply get_Some_bounds in G. lia.
Qed.

(** The order in which nodes were visited. *)
Definition ord_inv (lev : Z) (ord : list Z) : Prop :=
  NoDup ord /\ (forall v, In v ord <-> exists k, dist adj s v k /\ k < lev) /\ (forall i j u v k k', i < j -> get ord i = Some u -> get ord j = Some v -> dist adj s u k -> dist adj s v k' -> k <= k').
Lemma ord_step lev ord cur : ord_inv lev ord -> NoDup cur -> (forall v, In v cur <-> dist adj s v lev) -> ord_inv (lev + 1) (ord ++ cur).
Proof.
  intros (I6 & I7 & I8) I1 I2. split; [|split].
  - apply NoDup_app2; auto. intros x H1 H2. apply I7 in H1 as (k & D & Hk). apply I2 in H2. pose proof (dist_unique _ _ _ _ _ D H2). lia.
  - intros v. rewrite in_app_iff, I7, I2. split; [intros [(k & D & Hk)|D]; eexists; split; eauto; lia|]. intros (k & D & Hk). destruct (Z.eq_dec k lev) as [->|]; auto. left. exists k. split; auto. lia.
  - intros i j u v k k' Hij Gi Gj Du Dv. pose proof (get_Some_bounds _ _ _ Gi) as Bi. pose proof (get_Some_bounds _ _ _ Gj) as Bj. rewrite Zlen_app in Bi, Bj. destruct (Z_lt_ge_dec j (Zlen ord)) as [Hj|Hj].
    + rewrite get_app_l in Gi, Gj by lia. apply (I8 i j u v k k'); auto.
    + rewrite get_app_r in Gj by lia. apply get_In in Gj. apply I2 in Gj. rewrite (dist_unique _ _ _ _ _ Dv Gj). destruct (Z_lt_ge_dec i (Zlen ord)) as [Hi|Hi].
      * rewrite get_app_l in Gi by lia. apply get_In in Gi. apply I7 in Gi as (k0 & D0 & Hk0). rewrite (dist_unique _ _ _ _ _ Du D0). lia.
      * rewrite get_app_r in Gi by lia. apply get_In in Gi. apply I2 in Gi. rewrite (dist_unique _ _ _ _ _ Du Gi). lia.
Qed.
Lemma dist_lt v k : dist adj s v k -> k < m.
Proof.
  intros D. pose proof (dist_nonneg _ _ _ _ D) as Hk. assert (G : forall j, 0 <= j -> j <= k + 1 -> exists l, Zlen l = j /\ NoDup l /\ forall x, In x l -> exists i, i < j /\ dist adj s x i).
  { intros j Hj. pattern j. revert j Hj. apply Z_ind0; [intros _; exists []; split; [reflexivity|]; split; [constructor|intros x []]|]. intros j Hj IH B. destruct (IH ltac:(lia)) as (l & L1 & L2 & L3). destruct (dist_all_smaller _ _ _ _ j D ltac:(lia)) as (w & Dw). exists (w :: l). rewrite Zlen_cons. split; [lia|]. split.
    - constructor; auto. intros H. apply L3 in H as (i & Hi & Di). pose proof (dist_unique _ _ _ _ _ Dw Di). lia.
    - intros x [<-|H]; [exists j; split; [lia|auto]|]. apply L3 in H as (i & Hi & Di). exists i. split; [lia|auto]. }
  destruct (G (k + 1) ltac:(lia) ltac:(lia)) as (l & L1 & L2 & L3). pose proof (NoDup_bounded m l ltac:(lia) L2) as B. enough (Zlen l <= m) by lia. apply B. intros i Hi. apply L3 in Hi as (j & _ & Dj). apply (reach_range rows HK s); auto. eapply dist_reach; eauto.
Qed.

Variables (sc : option Z) (bv0 levels0 vis0 : list Z).
Hypothesis HB : m <= Zlen bv0.
Hypothesis Hclear : forall v, reach adj s v -> bit bv0 v = Some false.
Hypothesis HL0 : setl = true -> Zlen levels0 = m.
(** There is room for the nodes that will be visited. *)
Hypothesis Hroom : outv = true -> forall l, NoDup l -> (forall v, In v l -> reach adj s v) -> Zlen l <= Zlen vis0.

Definition listed (ord vis : list Z) (nvis : Z) : Prop :=
  nvis = Zlen ord /\ Zlen vis = Zlen vis0 /\ (forall i, 0 <= i < Zlen ord -> get vis i = get ord i) /\ forall k, Zlen ord <= k -> get vis k = get vis0 k.
(** What a search that was not cut short gives. *)
Definition bfs_par_done (r : pb_result) (n : Z) : Prop :=
  bfs_depth adj s n /\ (forall v, reach adj s v -> bit (pb_bv r) v = Some true) /\ (setl = true -> bfs_levels adj s levels0 (pb_levels r)) /\
  (outv = true -> exists ord, bfs_order adj s ord /\ listed ord (pb_vis r) (pb_nvis r)) /\
  Zlen (pb_last r) = T /\ (forall t, NoDup (nthl (pb_last r) t)) /\ (forall v, queued (pb_last r) v <-> dist adj s v (n - 1)).
Definition bfs_par_spec (r : pb_result) : Prop :=
  Zlen (pb_bv r) = Zlen bv0 /\ Zlen (pb_levels r) = Zlen levels0 /\ Zlen (pb_vis r) = Zlen vis0 /\ (forall v, ~ reach adj s v -> get (pb_bv r) v = get bv0 v /\ get (pb_levels r) v = get levels0 v) /\ (setl = false -> pb_levels r = levels0) /\ (outv = false -> pb_vis r = vis0) /\
  ((exists n, pb_levels_n r = n + 1 /\ bfs_par_done r n) \/ (pb_levels_n r = -1 /\ sc <> None)).

(** The width counts a node once for every thread that queued it. *)
Definition bfs_par_width (width : Z) (r : pb_result) : Prop := pb_width r <= Z.max width (T * m) /\ (pb_levels_n r = -1 -> exists w, sc = Some w /\ w < T * m).

Definition pb_inv (lev : Z) (qs prev rps : list (list Z)) (nz bv levels vis : list Z) (nvis : Z) : Prop :=
  0 <= lev /\ level_arrays qs rps nz /\ (forall t, NoDup (nthl qs t)) /\ (outv = true -> NoDup (concat qs)) /\ (forall v, queued qs v <-> dist adj s v lev) /\
  Zlen bv = Zlen bv0 /\ (forall v k, dist adj s v k -> bit bv v = Some (k <=? lev)) /\ (forall v, ~ reach adj s v -> get bv v = get bv0 v) /\
  Zlen levels = Zlen levels0 /\ (setl = true -> forall v k, dist adj s v k -> k <= lev -> get levels v = Some k) /\ (forall v, ~ reach adj s v \/ setl = false -> get levels v = get levels0 v) /\
  (if outv then exists ord, ord_inv lev ord /\ listed ord vis nvis else vis = vis0) /\
  (lev <> 0 -> Zlen prev = T /\ (forall t, NoDup (nthl prev t)) /\ (forall v, queued prev v <-> dist adj s v (lev - 1)) /\ exists v, dist adj s v (lev - 1)).

Lemma queued_concat qs v : Zlen qs = T -> queued qs v <-> In v (concat qs).
Proof.
  intros L. unfold queued. rewrite in_concat. split.
  - intros (t & Ht & H). exists (nthl qs t). split; auto. apply nth_row_In'. lia.
  - intros (l & Hl & H). apply In_get in Hl as (t & Ht & G). exists t. rewrite (nthl_get _ _ _ G). split; auto. lia.
Qed.
Lemma NoDup_concat_q (qs : list (list Z)) : (forall t, NoDup (nthl qs t)) -> (forall t t' v, In v (nthl qs t) -> In v (nthl qs t') -> t = t') -> NoDup (concat qs).
Proof.
  induction qs as [|q qs IH]; intros H1 H2; [constructor|]. cbn [concat]. assert (Hn : forall t, 0 <= t -> nthl (q :: qs) (t + 1) = nthl qs t) by (intros t Ht; unfold nthl; now rewrite get_cons_S by auto).
  assert (Hneg : forall t, t < 0 -> nthl qs t = []) by (intros; apply nthl_out; lia).
  apply NoDup_app2.
  - apply (H1 0).
  - apply IH.
    + intros t. destruct (Z_lt_ge_dec t 0); [rewrite Hneg by auto; constructor|]. rewrite <- Hn by lia. apply H1.
    + intros t t' v A1 A2. destruct (Z_lt_ge_dec t 0); [rewrite Hneg in A1 by auto; contradiction|]. destruct (Z_lt_ge_dec t' 0); [rewrite Hneg in A2 by auto; contradiction|]. rewrite <- Hn in A1, A2 by lia. pose proof (H2 _ _ _ A1 A2). lia.
  - intros x X1 X2. apply in_concat in X2 as (l & Hl & X2). apply In_get in Hl as (t & Ht & G). rewrite <- (nthl_get _ _ _ G) in X2. rewrite <- Hn in X2 by lia. pose proof (H2 0 (t + 1) x X1 X2). lia.
Qed.

Lemma queues_len (qs : list (list Z)) : Zlen qs = T -> (forall t, NoDup (nthl qs t)) -> (forall t v, In v (nthl qs t) -> 0 <= v < m) -> Zlen (concat qs) <= T * m.
Proof.
  intros L N R. rewrite concat_flat, Zlen_flat, L by lia. assert (G : forall t, 0 <= t -> off (nthl qs) t <= t * m).
  { intros t Ht. pattern t. revert t Ht. apply Z_ind0; [rewrite off_0; lia|]. intros t Ht IH. rewrite off_S by lia. pose proof (NoDup_bounded m (nthl qs t) ltac:(lia) (N t) (R t)). lia. }
  apply G. lia.
Qed.
Lemma loop_ok fuel : forall sch lev qs prev rps nz bv levels vis nvis width, pb_inv lev qs prev rps nz bv levels vis nvis -> m + 1 < lev + Z.of_nat fuel ->
  exists r, pb_loop A base T setl outv sc fuel sch lev qs prev rps nz bv levels vis nvis width = Some r /\ bfs_par_spec r /\ bfs_par_width width r.
Proof.
  induction fuel as [|fuel IH]; intros sch lev qs prev rps nz bv levels vis nvis width HI HF.
  { exfalso. destruct HI as (I0 & _ & _ & _ & _ & _ & _ & _ & _ & _ & _ & _ & I13). destruct (I13 ltac:(lia)) as (_ & _ & _ & v & D). apply dist_lt in D. lia. }
  pose proof HI as (I0 & I1 & I2 & I3 & I4 & I5 & I6 & I7 & I8 & I9 & I10 & I11 & I12). pose proof I1 as (A1 & A2 & A3 & A4 & A5).
  cbn [pb_loop]. assert (Etot : get (psum 0 (map Zlen qs)) T = Some (Zlen (concat qs))).
  { rewrite psum_off by lia. rewrite concat_flat, Zlen_flat, A1 by lia. f_equal. }
  rewrite Etot. set (total := Zlen (concat qs)) in *. set (nl := match sc with Some w => if w <? total then -1 else lev + 1 | None => lev + 1 end).
  set (nvis' := if outv then nvis + total else nvis).
  assert (Hnl : (nl = lev + 1) \/ (nl = -1 /\ sc <> None)). { unfold nl. destruct sc as [w|]; auto. destruct (w <? total); auto. right. split; [auto|discriminate]. }
  assert (Vis : Zlen vis = Zlen vis0) by (destruct outv; [destruct I11 as (ord & _ & _ & L & _); auto|now rewrite I11]).
  assert (Tm : total <= T * m) by (apply queues_len; auto).
  destruct ((total =? 0) || (nl =? -1)) eqn:Estop.
  - eexists. split; [reflexivity|]. split; [|split; cbn [pb_width pb_levels_n]; [lia|intros En; unfold nl in En; destruct sc as [w|]; [exists w; split; auto; destruct (Z.ltb_spec w total); lia|lia]]]. split; [auto|]. cbn [pb_bv pb_levels pb_vis pb_levels_n pb_last pb_nvis]. split; [auto|]. split; auto. split; [intros v H; split; auto|]. split; [intros Hsl; apply list_ext; [lia|]; intros i Hi; apply I10; auto|]. split; [intros ->; auto|].
    destruct (Z.eq_dec nl (-1)) as [En|Nn].
    + right. split; auto. destruct Hnl as [Hnl|(_ & Hnl)]; [lia|auto].
    + left. assert (T0 : total = 0) by lia. exists lev. split; [lia|].
      assert (NQ : forall v, ~ queued qs v). { intros v H. rewrite queued_concat in H by auto. unfold total in T0. destruct (concat qs) as [|a l]; [contradiction|]. rewrite Zlen_cons in T0. pose proof (Zlen_nonneg l). lia. }
      assert (Hlt : forall v k, dist adj s v k -> k < lev). { intros v k D. destruct (Z_lt_ge_dec k lev) as [H|H]; auto. exfalso. destruct (dist_all_smaller _ _ _ _ lev D ltac:(lia)) as (w & Dw). apply I4 in Dw. apply (NQ w Dw). }
      assert (Nl : lev <> 0). { intros ->. apply (NQ s). apply I4. now apply dist_0. }
      destruct (I12 Nl) as (L1 & L2 & L3 & L4). unfold bfs_par_done. cbn [pb_bv pb_levels pb_vis pb_levels_n pb_last pb_nvis]. split; [split; auto|]. split; [|split; [|split; [|auto]]].
      * intros v R. destruct (reach_dist _ _ _ R) as (k & D). rewrite (I6 v k D). f_equal. specialize (Hlt v k D). lia.
      * intros Hsl. split; auto. split; [|auto]. intros v k D. apply (I9 Hsl v k D). specialize (Hlt v k D). lia.
      * intros Ho. unfold nvis'. rewrite Ho in I11 |- *. destruct I11 as (ord & (O1 & O2 & O3) & (V1 & V2 & V3 & V4)). exists ord. split; [|split; [lia|auto]]. split; auto. split; [|exact O3]. intros v. rewrite O2. split; [intros (k & D & _); eapply dist_reach; eauto|]. intros R. destruct (reach_dist _ _ _ R) as (k & D). eauto.
  - assert (Hnl' : nl = lev + 1) by lia. assert (Tpos : 0 < total) by (pose proof (Zlen_nonneg (concat qs)); fold total in H; lia).
    assert (exists w, queued qs w) as (w0 & Qw0). { unfold total in Tpos. destruct (concat qs) as [|a l] eqn:Eq; [change (Zlen (@nil Z)) with 0 in Tpos; lia|]. exists a. apply queued_concat; auto. rewrite Eq. now left. }
    assert (exists vis', pb_copy T outv (sch (2 * fuel)%nat) qs (nvis' - total) vis = Some vis' /\ (if outv then exists ord, ord_inv (lev + 1) ord /\ listed ord vis' nvis' else vis' = vis0)) as (vis' & Ev & Hv').
    { destruct (Bool.bool_dec outv true) as [Ho|Ho].
      - unfold nvis'. rewrite Ho in I11 |- *. destruct I11 as (ord & O & (V1 & V2 & V3 & V4)). pose proof (ord_step lev ord (concat qs) O (I3 Ho) ltac:(intros v; rewrite <- queued_concat by auto; apply I4)) as O'.
        replace (nvis + total - total) with nvis by lia. destruct (copy_ok (sch (2 * fuel)%nat) qs nvis vis A1) as (vis' & E & C1 & C2 & C3); auto.
        { rewrite V1. apply Zlen_nonneg. }
        { rewrite V1, V2. rewrite <- Zlen_app. apply Hroom; auto; [apply O'|]. intros v H. apply O' in H as (k & D & _). eapply dist_reach; eauto. }
        rewrite Ho in E. exists vis'. split; auto. exists (ord ++ concat qs). split; auto. split; [rewrite Zlen_app; fold total; lia|]. split; [lia|]. rewrite Zlen_app. fold total in C2, C3 |- *. split.
        + intros i Hi. destruct (Z_lt_ge_dec i (Zlen ord)) as [L|L]; [rewrite get_app_l by auto; rewrite C3 by lia; apply V3; lia|]. rewrite get_app_r by lia. rewrite <- C2 by lia. f_equal. lia.
        + intros k Hk. rewrite C3 by lia. apply V4. lia.
      - assert (Ho' : outv = false) by (destruct outv; congruence). unfold pb_copy. rewrite Ho' in *. eauto. }
    rewrite Ev. destruct (expand_ok (sch (2 * fuel + 1)%nat) (lev + 1) qs rps nz bv levels I1 ltac:(lia)) as (bv' & levels' & qs' & rps' & nz' & E & E1 & E2 & E3 & E4 & E5 & E6 & E7 & E8 & E9 & E10).
    { rewrite (I6 s 0) by (now apply dist_0). f_equal. lia. }
    { intros Hsl. rewrite I8. auto. }
    rewrite E. enough (HI' : pb_inv (lev + 1) qs' qs rps' nz' bv' levels' vis' nvis').
    { destruct (IH sch (lev + 1) qs' qs rps' nz' bv' levels' vis' nvis' (Z.max width total) HI' ltac:(lia)) as (r & Er & S1 & S2 & S3). exists r. split; auto. split; auto. split; auto. lia. }
    assert (Q' : forall v, queued qs' v <-> dist adj s v (lev + 1)).
    { intros v. rewrite E4. split.
      - intros (Hb & u & Hu & Hv). apply I4 in Hu. destruct (dist_step _ _ _ _ _ Hu Hv) as (k & D & Hk). rewrite (I6 v k D) in Hb. injection Hb as Hb. replace (lev + 1) with k by lia. auto.
      - intros D. split; [rewrite (I6 v _ D); f_equal; lia|]. destruct (dist_pred _ _ _ _ I0 D) as (u & Du & Hv). exists u. split; auto. now apply I4. }
    assert (Hdn : forall v, ~ reach adj s v -> ~ queued qs' v) by (intros v H1 H2; apply Q' in H2; apply H1; eapply dist_reach; eauto).
    split; [lia|]. split; auto. split; auto. split; [intros Ho; apply NoDup_concat_q; auto; apply E3; auto|]. split; auto. split; [lia|]. split; [|split; [|split; [|split; [|split; [|split; [exact Hv'|]]]]]].
    + intros v k D. destruct (Z.eq_dec k (lev + 1)) as [->|Nk]; [rewrite E6 by (now apply Q'); f_equal; lia|]. assert (NQ : ~ queued qs' v) by (rewrite Q'; intros D'; apply Nk; eapply dist_unique; eauto). unfold bit. rewrite E7 by auto. fold (bit bv v). rewrite (I6 v k D). f_equal. lia.
    + intros v H. rewrite E7; auto.
    + lia.
    + intros Hsl v k D Hk. destruct (Z.eq_dec k (lev + 1)) as [->|Nk]; [apply E9; auto; now apply Q'|]. rewrite E10 by (left; rewrite Q'; intros D'; apply Nk; eapply dist_unique; eauto). apply (I9 Hsl v k D). lia.
    + intros v H. rewrite E10 by (destruct H; auto). apply I10; auto.
    + intros _. replace (lev + 1 - 1) with lev by lia. split; auto. split; auto. split; auto. exists w0. now apply I4.
Qed.

Theorem bfs_par_full sch width junk : 2 <= T * m -> Zlen junk = T - 1 -> exists r, bfs_par A base T setl outv sc sch s levels0 bv0 vis0 width junk = Some r /\ bfs_par_spec r /\ bfs_par_width width r.
Proof.
  intros Hm Hj. unfold bfs_par.
  assert (exists levels1, (if setl then set levels0 s 0 else Some levels0) = Some levels1 /\ Zlen levels1 = Zlen levels0 /\ (setl = true -> get levels1 s = Some 0) /\ (forall w, w <> s \/ setl = false -> get levels1 w = get levels0 w)) as (levels1 & -> & H1 & H2 & H3).
  { destruct setl; [|exists levels0; repeat split; auto; discriminate]. destruct (set_ok levels0 s 0 ltac:(rewrite HL0 by auto; lia)) as (l' & E). exists l'. split; auto. split; [apply (set_len _ _ _ _ E)|]. split; [intros _; apply (get_set_same _ _ _ _ E)|]. intros w [N|N]; [|discriminate]. apply (get_set_other _ _ _ _ _ E). auto. }
  destruct (bv_set_ok bv0 s ltac:(lia)) as (bv1 & -> & U). destruct (deg_ptr s Hs) as (b & -> & ->). assert (Em : cm A = m) by apply (proj1 HR). rewrite Em. replace (2 <=? T * m) with true by lia. replace (b + deg s - b) with (deg s) by lia.
  apply loop_ok; [|lia].
  assert (R0 : reach adj s s) by (exists 0; constructor).
  assert (Eq : forall t, nthl ([s] :: repeat [] (Z.to_nat (T - 1))) t = if t =? 0 then [s] else []).
  { intros t. destruct (Z.eqb_spec t 0) as [->|N]; [reflexivity|]. destruct (Z_lt_ge_dec t 0); [apply nthl_out; lia|]. unfold nthl. rewrite get_cons_pos by lia. destruct (get _ (t - 1)) eqn:G; auto. apply get_In, repeat_spec in G. auto. }
  assert (Qs : forall v, queued ([s] :: repeat [] (Z.to_nat (T - 1))) v <-> v = s).
  { intros v. unfold queued. split; [intros (t & Ht & H); rewrite Eq in H; destruct (t =? 0); [destruct H as [<-|[]]; auto|contradiction]|]. intros ->. exists 0. split; [lia|]. now left. }
  split; [lia|]. split; [|split; [|split; [|split; [|split; [|split; [|split; [|split; [|split; [|split; [|split]]]]]]]]]].
  - split; [rewrite Zlen_cons, Zlen_repeat; lia|]. split; [rewrite Zlen_cons; lia|]. split; [intros t v H; rewrite Eq in H; destruct (t =? 0); [destruct H as [<-|[]]; auto|contradiction]|]. split.
    + intros t Ht Ne. rewrite Eq in *. destruct (Z.eqb_spec t 0) as [->|]; [change ([0; deg s] = [0; 0 + deg s]); do 2 f_equal; lia|congruence].
    + apply list_ext; [rewrite Zlen_cons, Zlen_repeat, Zlen_map, Zlen_zrange; lia|]. intros i Hi. rewrite Zlen_cons, Zlen_repeat in Hi. rewrite get_map, get_zrange by lia. cbn [option_map]. rewrite Z.add_0_l, Eq. destruct (Z.eqb_spec i 0) as [->|N]; [rewrite get_cons_0; cbn [map zsum fold_right]; f_equal; lia|].
      rewrite get_cons_pos by lia. destruct (get_in_range (repeat 0 (Z.to_nat (T - 1))) (i - 1)) as (x & Ex); [rewrite Zlen_repeat; lia|]. rewrite Ex. apply get_In, repeat_spec in Ex. now subst x.
  - intros t. rewrite Eq. destruct (t =? 0); [constructor; [intros []|constructor]|constructor].
  - intros _. cbn [concat]. replace (concat (repeat (@nil Z) (Z.to_nat (T - 1)))) with (@nil Z) by (clear; induction (Z.to_nat (T - 1)) as [|n IHn]; [reflexivity|exact IHn]). constructor; [intros []|constructor].
  - intros v. rewrite Qs. symmetry. apply dist_0.
  - apply U.
  - intros v k D. destruct (Z.eq_dec v s) as [->|N].
    + assert (k = 0) as -> by (eapply dist_unique; eauto; now apply dist_0). apply U.
    + rewrite (bit_other _ _ _ _ _ U N). rewrite Hclear by (eapply dist_reach; eauto). f_equal. destruct (Z.leb_spec k 0); auto. exfalso. apply N. pose proof (dist_nonneg _ _ _ _ D). replace k with 0 in D by lia. now apply dist_0 in D.
  - intros v H. destruct U as (_ & _ & U). apply U. intros ->. auto.
  - auto.
  - intros Hsl v k D Hk. pose proof (dist_nonneg _ _ _ _ D). assert (k = 0) by lia. subst k. apply dist_0 in D. subst v. auto.
  - intros v [H|H]; apply H3; auto. left. intros ->. auto.
  - destruct outv; [|auto]. exists []. split; [|split; [reflexivity|]]; [|split; auto; split; auto; intros i Hi; change (Zlen (@nil Z)) with 0 in Hi; lia]. split; [constructor|]. split.
    + intros v. split; [intros []|]. intros (k & D & Hk). apply dist_nonneg in D. lia.
    + intros i j u v k k' _ G. apply get_Some_bounds in G. change (Zlen (@nil Z)) with 0 in G. lia.
  - lia.
Qed.
Theorem bfs_par_ok sch width junk : 2 <= T * m -> Zlen junk = T - 1 -> exists r, bfs_par A base T setl outv sc sch s levels0 bv0 vis0 width junk = Some r /\ bfs_par_spec r.
Proof. intros H1 H2. destruct (bfs_par_full sch width junk H1 H2) as (r & E & S & _). eauto. Qed.
End Proof.
