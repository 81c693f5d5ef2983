(** * Breadth-first search of a bipartite graph and the ordering it gives
    (reordering/BFSBipartite.cpp:430-817).

    The rows of A are adjacent to its columns; AT holds the transpose.  The levels of
    a search alternate between rows and columns.  A level is divided among the
    threads and expanded as in RCM.cpp (ParBfs.v: the same code with another stride),
    so that part of the model is shared.
    The queues and rowptrs of a thread have max(m,n) elements, at tid*max(m,n); they
    are lists here and adding to a full one (writing into the part of the next
    thread, or behind the array for the last) is an error.
    Not modelled: bfs_serial (not called), the code in #if 0 (:11-428), the
    assertions in bfs (:630-632, :693-717) and the isPerm ones of bfsBipartite
    (:813-816), counters, int overflow. *)
From Coq Require Import Permutation.
From Verif Require Import Base Interleave Spec PermUtils Flat Csr CsrOps Search LevelsMain SplitLU RowPar P2P P2PProg Phased Transpose CsrTools Levels UnionFind Components BinIO LevelsCsr Laplacian BitVector Bfs ParBfs Rcm BfsPerm.

(** ** Model *)
Section Model.
Context {V : Type}.
Variables (base T mx : Z).

(** :678-682.  [nextA]: the matrix of the side [v] is on. *)
Definition bb_push (nextA : csr V) (t v : Z) (x : list (list Z) * list (list Z)) : option (list (list Z) * list (list Z)) :=
  let '(qs, rps) := x in
  q <- get qs t ;; rp <- get rps t ;; last <- get rp (Zlen rp - 1) ;;
  b <- get (rowptr nextA) v ;; e <- get (rowptr nextA) (v + 1) ;;
  if (Zlen q <? mx) && (Zlen rp <? mx) then
    qs' <- set qs t (q ++ [v]) ;; rps' <- set rps t (rp ++ [last + e - b]) ;; Some (qs', rps')
  else None.
Definition bb_ret (nextA : csr V) (t v : Z) (won : bool) x := if won then bb_push nextA t v x else Some x.
(** :617-656 (the parts of the threads) and :663-689. *)
Definition bb_expand (sch : list nat) (curA nextA : csr V) (qs rps : list (list Z)) (nz bv : list Z) :
    option (list Z * list (list Z) * list (list Z) * list Z) :=
  calls <- mapM (pb_calls curA base T qs rps nz) (zrange 0 T) ;;
  ' (bv', _, (qs', rps')) <- par sch (ts_step true (bb_ret nextA)) (ts_threads calls)
     (bv, repeat false (Z.to_nat T), (repeat [] (Z.to_nat T), repeat [0] (Z.to_nat T))) ;;
  nz' <- mapM (fun t => rp <- get rps' t ;; get rp (Zlen rp - 1)) (zrange 0 T) ;;
  Some (bv', qs', rps', nz').
(** The loop :584-690.  The first of each pair of arguments belongs to the side the
    current level is on: every level swaps them (:585-601).  The copy to visited
    (:658-661) is that of ParBfs. *)
Fixpoint bb_loop (fuel : nat) (sch : nat -> list nat) (curA nextA : csr V) (qs rps : list (list Z)) (nz bvc bvn visc visn : list Z) (nc nn : Z) :
    option (list Z * list Z * list Z * list Z * Z * Z) :=
  match fuel with
  | O => None
  | S fuel =>
      total <- get (psum 0 (map Zlen qs)) T ;;
      let nc := nc + total in
      if total =? 0 then Some (bvc, bvn, visc, visn, nc, nn)
      else
        visc <- pb_copy T true (sch (2 * fuel)%nat) qs (nc - total) visc ;;
        ' (bvn, qs', rps', nz') <- bb_expand (sch (2 * fuel + 1)%nat) curA nextA qs rps nz bvn ;;
        ' (bvn, bvc, visn, visc, nn, nc) <- bb_loop fuel sch nextA curA qs' rps' nz' bvn bvc visn visc nn nc ;;
        Some (bvc, bvn, visc, visn, nc, nn)
  end.
(** :542-720.  [junk] is what rowptrs of the other threads contain.  rowptrs has
    T*max(m,n) elements, and element 1 is written (:568). *)
Definition bb_bfs (sch : nat -> list nat) (A AT : csr V) (source : Z) (bv1 bv2 vis1 vis2 : list Z) (junk : list (list Z)) :
    option (list Z * list Z * list Z * list Z * Z * Z) :=
  bv1 <- bv_set bv1 source ;;
  b <- get (rowptr A) source ;; e <- get (rowptr A) (source + 1) ;;
  if 2 <=? T * mx then
    bb_loop (Z.to_nat (2 * mx) + 2) sch A AT ([source] :: repeat [] (Z.to_nat (T - 1))) ([0; e - b] :: junk) ((e - b) :: repeat 0 (Z.to_nat (T - 1))) bv1 bv2 vis1 vis2 0 0
  else None.

(** One search: schedules of the search and of the two index loops, and memory
    contents. *)
Definition bb_ex : Type := (nat -> list nat) * list nat * list nat * list (list Z).
Definition bb_state : Type := list Z * list Z * (list Z * list Z * Z) * (list Z * list Z * Z).
(** :738-769 for a row, :773-804 for a column with the two sides exchanged (there
    the first of the two index loops is that of the rows; they are independent). *)
Definition bb_step (ex : bb_ex) (A AT : csr V) (i : Z) (st : bb_state) : option bb_state :=
  let '(sch, sch1, sch2, junk) := ex in
  let '(bv1, bv2, (perm1, inv1, idx1), (perm2, inv2, idx2)) := st in
  b <- bv_get bv1 i ;;
  if b then Some st
  else
    e <- get (rowptr A) (i + 1) ;; b <- get (rowptr A) i ;;
    if e =? b then
      inv1 <- set inv1 idx1 i ;; perm1 <- set perm1 i idx1 ;;
      Some (bv1, bv2, (perm1, inv1, idx1 + 1), (perm2, inv2, idx2))
    else if (idx1 <=? Zlen inv1) && (idx2 <=? Zlen inv2) then
      ' (bv1, bv2, vis1, vis2, n1, n2) <- bb_bfs sch A AT i bv1 bv2 (slice inv1 idx1 (Zlen inv1)) (slice inv2 idx2 (Zlen inv2)) junk ;;
      let inv1 := slice inv1 0 idx1 ++ vis1 in
      let inv2 := slice inv2 0 idx2 ++ vis2 in
      perm1 <- par_any sch1 (bp_index1 inv1 idx1) 0 n1 perm1 ;;
      perm2 <- par_any sch2 (bp_index1 inv2 idx2) 0 n2 perm2 ;;
      Some (bv1, bv2, (perm1, inv1, idx1 + n1), (perm2, inv2, idx2 + n2))
    else None.
End Model.

Definition bb_swap (st : bb_state) : bb_state := let '(bv1, bv2, p1, p2) := st in (bv2, bv1, p2, p1).
(** :724-817.  [ex], [ex'] give the schedules for each row and for each column. *)
Definition bfsBipartite {V} (A AT : csr V) (T : Z) (bsch1 bsch2 : list nat) (bjunk1 bjunk2 : list Z) (ex ex' : Z -> bb_ex) (rperm rinv cperm cinv : list Z) :
    option (list Z * list Z * list Z * list Z) :=
  let mx := Z.max (cm A) (cn A) in
  bv1 <- bv_new bsch1 bjunk1 (cm A) ;;
  bv2 <- bv_new bsch2 bjunk2 (cn A) ;;
  base <- getBase A ;;
  st <- forZ 0 (cm A) (fun i => bb_step base T mx (ex i) A AT i) (bv1, bv2, (rperm, rinv, 0), (cperm, cinv, 0)) ;;
  baseT <- getBase AT ;;
  st <- forZ 0 (cn A) (fun i => bb_step baseT T mx (ex' i) AT A i) (bb_swap st) ;;
  let '(_, _, (cperm, cinv, ci), (rperm, rinv, ri)) := st in
  assert! ri =? cm A ;; assert! ci =? cn A ;;
  Some (rperm, rinv, cperm, cinv).

(** ** Specification *)
(** The nodes of the graph: row [v] is 2v, column [v] is 2v+1. *)
Definition row_node (v : Z) : Z := 2 * v.
Definition col_node (v : Z) : Z := 2 * v + 1.
Definition bi_adj {V W} (rows : rows_t V) (trows : rows_t W) (x : Z) : list Z :=
  if Z.even x then map col_node (cols_of rows (x / 2)) else map row_node (cols_of trows (x / 2)).
(** [trows] has the entries of the transpose of [rows]; values do not matter. *)
Definition transposed {V W} (rows : rows_t V) (trows : rows_t W) : Prop := forall r c, In c (cols_of rows r) <-> In r (cols_of trows c).
(** [l] lists what is reached from [s] among the nodes [node v], each once, by
    increasing distance. *)
Definition side_order (adj : Z -> list Z) (node : Z -> Z) (s : Z) (l : list Z) : Prop :=
  NoDup l /\ (forall v, In v l <-> reach adj s (node v)) /\
  forall i j u v k k', i < j -> get l i = Some u -> get l j = Some v -> dist adj s (node u) k -> dist adj s (node v) k' -> k <= k'.
(** A component: its smallest row, its rows and its columns in breadth-first order. *)
Definition bi_block (adj : Z -> list Z) (b : Z * list Z * list Z) : Prop :=
  let '(s, rs, cs) := b in side_order adj row_node (row_node s) rs /\ side_order adj col_node (row_node s) cs /\ forall r, In r rs -> s <= r.
Definition bi_result {V W} (rows : rows_t V) (trows : rows_t W) (rperm rinv cperm cinv : list Z) : Prop :=
  let adj := bi_adj rows trows in
  inverse_perms (Zlen rows) rperm rinv /\ inverse_perms (Zlen trows) cperm cinv /\
  exists blocks last, Forall (bi_block adj) blocks /\ ssortedZ (map (fun b => fst (fst b)) blocks) /\
    rinv = concat (map (fun b => snd (fst b)) blocks) /\ cinv = concat (map snd blocks) ++ last /\
    ssortedZ last /\ forall c, In c last -> cols_of trows c = [].
(** Row [r] contains every column. *)
Definition full_row {V} (n : Z) (rows : rows_t V) (r : Z) : Prop := forall c, 0 <= c < n -> In c (cols_of rows r).

(** ** One level *)
Lemma nth_out {B} (l : list (list B)) t : ~ 0 <= t < Zlen l -> nthl l t = [].
Proof. exact (nthl_out (V := Z) [] l t). Qed.
Lemma nth_set {B} (l l' : list (list B)) t x t' : set l t x = Some l' -> nthl l' t' = if t' =? t then x else nthl l t'.
Proof. exact (nthl_set (V := Z) [] l l' t x t'). Qed.
Lemma nth_repeat' {B} (l : list B) n t : 0 <= t < n -> nthl (repeat l (Z.to_nat n)) t = l.
Proof. exact (nthl_repeat (V := Z) [] l n t). Qed.
Lemma NoDup_queues (qs : list (list Z)) : (forall t, NoDup (nthl qs t)) -> (forall t t' v, In v (nthl qs t) -> In v (nthl qs t') -> t = t') -> NoDup (concat qs).
Proof.
  induction qs as [|q qs IH]; intros H1 H2; [constructor|]. cbn [concat]. assert (Hn : forall t, 0 <= t -> nthl (q :: qs) (t + 1) = nthl qs t) by (intros t Ht; unfold nthl; now rewrite get_cons_S by auto).
  assert (Hneg : forall t, t < 0 -> nthl qs t = []) by (intros; apply nth_out; lia).
  apply NoDup_app2.
  - apply (H1 0).
  - apply IH.
    + intros t. destruct (Z_lt_ge_dec t 0); [rewrite Hneg by auto; constructor|]. rewrite <- Hn by lia. apply H1.
    + intros t t' v A1 A2. destruct (Z_lt_ge_dec t 0); [rewrite Hneg in A1 by auto; contradiction|]. destruct (Z_lt_ge_dec t' 0); [rewrite Hneg in A2 by auto; contradiction|]. rewrite <- Hn in A1, A2 by lia. pose proof (H2 _ _ _ A1 A2). lia.
  - intros x X1 X2. apply in_concat in X2 as (l & Hl & X2). apply In_get in Hl as (t & Ht & G). rewrite <- (nthl_get _ _ _ G) in X2. rewrite <- Hn in X2 by lia. pose proof (H2 0 (t + 1) x X1 X2). lia.
Qed.

Section Expand.
Context {V : Type}.
Variables (A B : csr V) (hasv hasw : bool) (base m n T mx : Z) (rows rowsB : rows_t V).
Hypothesis Hm : m = Zlen rows.
Hypothesis Hn : n = Zlen rowsB.
Hypothesis HR : rep hasv base n rows A.
Hypothesis HRB : rep hasw base m rowsB B.
Hypothesis HK : rows_ok n rows.
Hypothesis HT : 1 <= T.
Let deg (u : Z) := Zlen (nthl rowsB u).

(** The same arrays as a square matrix. *)
Definition squared : csr V := mkCSR (cm A) (cm A) (rowptr A) (colidx A) (values A) (idiag A) (diag A) (diagptr A) (extptr A).
Lemma squared_rep : rep hasv base (Zlen rows) rows squared.
Proof. destruct HR as (H1 & H2 & H3 & H4 & H5). unfold rep, squared. cbn. repeat split; auto. Qed.
Lemma bi_range u v : In v (cols_of rows u) -> 0 <= u < m /\ 0 <= v < n.
Proof using Hm HK.
  clear Hn HT HR HRB deg. unfold cols_of. intros H. apply in_map_iff in H as ((c & w) & <- & H). cbn [fst]. assert (Hu : 0 <= u < m).
  { destruct (Z_le_dec 0 u) as [B1|B1]; [destruct (Z_lt_dec u m) as [B2|B2]; [auto|]|]; exfalso; rewrite nth_out in H by (rewrite <- Hm; lia); contradiction. }
  split; auto. apply (HK (nthl rows u) c w); auto. apply nth_row_In'. lia.
Qed.
Lemma bb_calls_ok qs rps nz : level_arrays rows T qs rps nz -> exists calls, mapM (pb_calls A base T qs rps nz) (zrange 0 T) = Some calls /\ Zlen calls = T /\
  forall v, (exists t, 0 <= t < T /\ In v (nthl calls t)) <-> exists t u, 0 <= t < T /\ In u (nthl qs t) /\ In v (cols_of rows u).
Proof. intros H. exact (calls_ok squared hasv base rows squared_rep T HT qs rps nz H). Qed.

Lemma bb_push_ok t v qs rps : 0 <= t < T -> Zlen qs = T -> Zlen rps = T -> 0 <= v < n -> Zlen (nthl qs t) + 2 <= mx -> nthl rps t = psum 0 (map deg (nthl qs t)) ->
  exists qs' rps', bb_push mx B t v (qs, rps) = Some (qs', rps') /\ Zlen qs' = T /\ Zlen rps' = T /\
    (forall t', nthl qs' t' = if t' =? t then nthl qs t ++ [v] else nthl qs t') /\ (forall t', nthl rps' t' = if t' =? t then psum 0 (map deg (nthl qs t ++ [v])) else nthl rps t').
Proof.
  intros Ht Lq Lr Hv Hc Er. unfold bb_push.
  rewrite !get_nthl by lia. rewrite Er. rewrite Zlen_psum, Zlen_map. pose proof (psum_last 0 (map deg (nthl qs t))) as PL. rewrite Zlen_map in PL. replace (Zlen (nthl qs t) + 1 - 1) with (Zlen (nthl qs t)) by lia. rewrite PL.
  rewrite (rep_rowptr _ _ _ _ _ _ HRB), (rep_rowptr_S _ _ _ _ _ _ HRB) by lia. replace ((Zlen (nthl qs t) <? mx) && (Zlen (nthl qs t) + 1 <? mx)) with true by lia.
  destruct (set_ok qs t (nthl qs t ++ [v]) ltac:(lia)) as (qs' & E1). rewrite E1.
  match goal with |- context [set rps t (?l ++ [?e])] => replace (l ++ [e]) with (psum 0 (map deg (nthl qs t ++ [v]))) by (rewrite map_app; cbn [map]; rewrite psum_snoc; do 2 f_equal; unfold deg at 2; lia) end.
  destruct (set_ok rps t (psum 0 (map deg (nthl qs t ++ [v]))) ltac:(lia)) as (rps' & E2). rewrite E2. exists qs', rps'. split; auto. split; [rewrite (set_len _ _ _ _ E1); auto|]. split; [rewrite (set_len _ _ _ _ E2); auto|]. split; [intros t'; apply (nth_set _ _ _ _ _ E1)|]. intros t'; apply (nth_set _ _ _ _ _ E2).
Qed.

Lemma bb_expand_ok sch qs rps nz bv : level_arrays rows T qs rps nz -> n <= Zlen bv ->
  (forall l, NoDup l -> (forall v, In v l -> bit bv v = Some false /\ exists u, queued T qs u /\ In v (cols_of rows u)) -> Zlen l + 1 <= mx) ->
  exists bv' qs' rps' nz', bb_expand base T mx sch A B qs rps nz bv = Some (bv', qs', rps', nz') /\ level_arrays rowsB T qs' rps' nz' /\
    (forall t, NoDup (nthl qs' t)) /\ (forall t t' v, In v (nthl qs' t) -> In v (nthl qs' t') -> t = t') /\
    (forall v, queued T qs' v <-> bit bv v = Some false /\ exists u, queued T qs u /\ In v (cols_of rows u)) /\
    Zlen bv' = Zlen bv /\ (forall v, queued T qs' v -> bit bv' v = Some true) /\ (forall v, ~ queued T qs' v -> get bv' v = get bv v).
Proof.
  intros LA HN HCap. destruct (bb_calls_ok _ _ _ LA) as (calls & Ec & Lc & Hc). unfold bb_expand. rewrite Ec.
  assert (BTc : forall t v, In v (nthl calls t) -> 0 <= t < T).
  { intros t v Hv. destruct (Z_lt_ge_dec t 0) as [|]; [rewrite nth_out in Hv by lia; contradiction|]. destruct (Z_lt_ge_dec t T) as [|]; [lia|rewrite nth_out in Hv by lia; contradiction]. }
  assert (Hfrom : forall t v, In v (nthl calls t) -> exists u, queued T qs u /\ In v (cols_of rows u)).
  { intros t v Hv. pose proof (BTc t v Hv) as Bt. destruct (proj1 (Hc v) (ex_intro _ t (conj Bt Hv))) as (t' & u & H1 & H2 & H). exists u. split; auto. exists t'. auto. }
  assert (Hrange : forall t v, In v (nthl calls t) -> 0 <= v < n).
  { intros t v Hv. destruct (Hfrom t v Hv) as (u & _ & H). now apply bi_range in H. }
  pose (J := fun (done : Z -> list Z) (pend : Z -> option Z) (bv1 : list Z) (x : list (list Z) * list (list Z)) => let '(qs1, rps1) := x in
     Zlen qs1 = T /\ Zlen rps1 = T /\ (forall t, NoDup (nthl qs1 t)) /\ (forall t, 0 <= t < T -> nthl rps1 t = psum 0 (map deg (nthl qs1 t))) /\
     (forall t v, In v (nthl qs1 t) -> bit bv1 v = Some true /\ bit bv v = Some false /\ In v (nthl calls t)) /\ (forall v, ~ queued T qs1 v -> get bv1 v = get bv v) /\
     (forall t v, 0 <= t < T -> In v (done t) -> bit bv1 v = Some true) /\ (forall t v, 0 <= t < T -> pend t = Some v -> bit bv v = Some false /\ ~ In v (nthl qs1 t)) /\
     (forall t t' v, In v (nthl qs1 t) -> In v (nthl qs1 t') -> t = t')).
  assert (QD : forall qs1 v, {queued T qs1 v} + {~ queued T qs1 v}).
  { intros qs1 v. unfold queued. destruct (in_dec Z.eq_dec v (concat (map (nthl qs1) (zrange 0 T)))) as [H|H]; [left|right].
    - apply in_concat in H as (l & Hl' & H). apply in_map_iff in Hl' as (t & <- & Ht). apply In_zrange in Ht. eauto.
    - intros (t & Ht & Hv). apply H. apply in_concat. exists (nthl qs1 t). split; auto. apply in_map. now apply In_zrange. }
  destruct (ts_rule true (bb_ret mx B) calls (Zlen bv) J) with (sch := sch) (bv := bv) (regs := repeat false (Z.to_nat T)) (x := (repeat (@nil Z) (Z.to_nat T), repeat [0] (Z.to_nat T)))
    as (bv' & regs' & (qs' & rps') & done & pend & E & N1 & _ & JE & DE).
  - intros t v H. apply Hrange in H. lia.
  - (* lost *)
    intros done pend bv1 (q1 & r1) t v rest Ht Hv Hp (I1 & I2 & I3 & I4 & I5 & I6 & I7 & I8 & I9) HL Hb. rewrite Lc in Ht. exists (q1, r1). split; [reflexivity|]. repeat (split; [assumption|]). split; [|repeat (split; [assumption|]); assumption].
    intros t' w Ht' Hw. unfold put in Hw. destruct (t' =? t) eqn:Et; [|eauto]. apply in_app_or in Hw as [Hw|[<-|[]]]; auto. apply (I7 t); auto.
  - (* read *)
    intros done pend bv1 (q1 & r1) t v rest Ht Hv Hp (I1 & I2 & I3 & I4 & I5 & I6 & I7 & I8 & I9) HL Hb. repeat (split; [assumption|]). split; [|assumption].
    intros t' w Ht' Hw. unfold put in Hw. destruct (t' =? t) eqn:Et; [|eauto]. injection Hw as <-. split.
    + assert (NQ : ~ queued T q1 v) by (intros (t2 & _ & H2); apply I5 in H2 as (H2 & _); congruence). unfold bit. rewrite <- (I6 v NQ). exact Hb.
    + intros H. apply I5 in H as (H & _). congruence.
  - (* set *)
    intros done pend bv1 (q1 & r1) t v rest b bv2 Ht Hv Hp (I1 & I2 & I3 & I4 & I5 & I6 & I7 & I8 & I9) HL Hb U. rewrite Lc in Ht.
    destruct (I8 t v Ht Hp) as (P1 & P2). assert (Hcv : In v (nthl calls t)) by (rewrite Hv; apply in_or_app; right; now left). pose proof (Hrange t v Hcv) as Bv.
    assert (Hdone : forall t' w, 0 <= t' < T -> In w (put t (done t ++ [v]) done t') -> bit bv2 w = Some true).
    { intros t' w Ht' Hw. destruct (Z.eq_dec w v) as [->|Nw]; [apply U|]. rewrite (bit_other _ _ _ _ _ U Nw). unfold put in Hw. destruct (t' =? t) eqn:Et; [|eauto]. apply in_app_or in Hw as [Hw|[<-|[]]]; [apply (I7 t); auto|contradiction]. }
    assert (Hpend : forall q2, (forall t', nthl q2 t' = nthl q1 t' \/ (t' = t /\ nthl q2 t' = nthl q1 t' ++ [v])) -> forall t' w, 0 <= t' < T -> put t None pend t' = Some w -> bit bv w = Some false /\ ~ In w (nthl q2 t')).
    { intros q2 H2 t' w Ht' Hw. unfold put in Hw. destruct (t' =? t) eqn:Et; [discriminate|]. destruct (I8 t' w Ht' Hw) as (G1 & G2). split; auto. destruct (H2 t') as [->|(E' & _)]; auto. lia. }
    destruct b; cbn [negb].
    + (* not first *)
      exists (q1, r1). split; [reflexivity|].
      assert (QB : forall w, bit bv1 w = Some true -> bit bv2 w = Some true) by (intros w H; destruct (Z.eq_dec w v) as [->|Nw]; [apply U|rewrite (bit_other _ _ _ _ _ U Nw); auto]).
      split; auto. split; auto. split; auto. split; auto. split; [intros t' w H; destruct (I5 t' w H) as (G1 & G2 & G3); auto|].
      assert (Qv : queued T q1 v). { destruct (QD q1 v) as [|NQ]; auto. exfalso. pose proof (I6 v NQ) as G. unfold bit in Hb, P1. rewrite G in Hb. congruence. }
      split; [|split; [exact Hdone|split; [apply Hpend; auto|auto]]].
      intros w Hw. destruct U as (_ & _ & U). rewrite U by (intros ->; auto). auto.
    + (* won *)
      cbn [bb_ret]. assert (Nd : NoDup (nthl q1 t ++ [v])) by (apply NoDup_app2; [apply I3|constructor; [intros []|constructor]|intros x X1 [<-|[]]; auto]).
      assert (Cap : Zlen (nthl q1 t) + 2 <= mx).
      { pose proof (HCap (nthl q1 t ++ [v]) Nd) as B1. rewrite Zlen_app in B1. change (Zlen [v]) with 1 in B1. enough (Zlen (nthl q1 t) + 1 + 1 <= mx) by lia. apply B1.
        intros w H. apply in_app_or in H as [H|[<-|[]]]; [destruct (I5 _ _ H) as (_ & G2 & G3)|]; split; eauto. }
      destruct (bb_push_ok t v q1 r1 Ht I1 I2 Bv Cap (I4 t Ht)) as (q2 & r2 & Ep & K1 & K2 & K3 & K4).
      exists (q2, r2). split; auto. assert (Q2 : forall w, queued T q2 w <-> queued T q1 w \/ w = v).
      { intros w. unfold queued. split.
        - intros (t' & Ht' & H). rewrite K3 in H. destruct (t' =? t) eqn:Et; [|eauto]. apply in_app_or in H as [H|[<-|[]]]; eauto.
        - intros [ (t' & Ht' & H)| ->]; [exists t'|exists t]; (split; auto); rewrite K3; [destruct (t' =? t) eqn:Et; auto; apply in_or_app; left; replace t with t' by lia; auto|rewrite Z.eqb_refl; apply in_or_app; right; now left]. }
      split; auto. split; auto. split; [intros t'; rewrite K3; destruct (t' =? t); auto|].
      split; [intros t' Ht'; rewrite K3, K4; destruct (t' =? t); auto|].
      split; [|split; [|split; [exact Hdone|split]]].
      * intros t' w H. rewrite K3 in H. destruct (Z.eq_dec w v) as [->|Nw].
        -- split; [apply U|]. split; auto. destruct (t' =? t) eqn:Et; [replace t' with t by lia; auto|]. apply I5 in H as (_ & _ & H). auto.
        -- rewrite (bit_other _ _ _ _ _ U Nw). destruct (t' =? t) eqn:Et; [|auto]. apply in_app_or in H as [H|[<-|[]]]; [|contradiction]. replace t' with t by lia. auto.
      * intros w H. destruct U as (_ & _ & U). rewrite U by (intros ->; apply H; apply Q2; auto). apply I6. intros H2. apply H. apply Q2. auto.
      * apply Hpend. intros t'. rewrite K3. destruct (t' =? t) eqn:Et; auto. right. split; [lia|]. do 2 f_equal. lia.
      * intros t1 t2 w H1 H2. assert (NQ : ~ queued T q1 v). { intros (t3 & _ & H3). apply I5 in H3 as (H3 & _). congruence. }
        assert (BT : forall t0 x, In x (nthl q1 t0) -> 0 <= t0 < T). { intros t0 x X. destruct (Z_lt_ge_dec t0 0) as [|]; [rewrite nth_out in X by lia; contradiction|]. destruct (Z_lt_ge_dec t0 T); [lia|]. rewrite nth_out in X by lia. contradiction. }
        rewrite K3 in H1, H2. destruct (t1 =? t) eqn:E1, (t2 =? t) eqn:E2; [lia| | |eauto].
        -- apply in_app_or in H1 as [H1|[<-|[]]]; [replace t1 with t by lia; apply (I9 t t2 w H1 H2)|]. exfalso. apply NQ. exists t2. eauto.
        -- apply in_app_or in H2 as [H2|[<-|[]]]; [replace t2 with t by lia; apply (I9 t1 t w H1 H2)|]. exfalso. apply NQ. exists t1. eauto.
  - reflexivity.
  - rewrite Zlen_repeat. lia.
  - (* start *)
    assert (Hq0 : forall t, nthl (repeat (@nil Z) (Z.to_nat T)) t = []) by (intros t; unfold nthl; destruct (get _ t) as [l|] eqn:G; auto; apply get_In, repeat_spec in G; auto).
    split; [rewrite Zlen_repeat; lia|]. split; [rewrite Zlen_repeat; lia|]. split; [intros t; rewrite Hq0; constructor|]. split; [intros t Ht; rewrite Hq0, nth_repeat' by auto; reflexivity|]. split; [intros t v H; rewrite Hq0 in H; contradiction|]. split; [auto|]. split; [intros t v _ []|]. split; [intros t v _ H; discriminate|]. intros t t' v H; rewrite Hq0 in H; contradiction.
  - rewrite E. destruct JE as (I1 & I2 & I3 & I4 & I5 & I6 & I7 & I8 & I9).
    assert (Q : forall v, queued T qs' v <-> bit bv v = Some false /\ exists u, queued T qs u /\ In v (cols_of rows u)).
    { intros v. split.
      - intros (t & Ht & Hv). destruct (I5 t v Hv) as (_ & G2 & G3). split; eauto.
      - intros (Hb & u & (t & Ht & Hu) & Hv). destruct (proj2 (Hc v)) as (t' & Ht' & Hv'); [eauto|]. destruct (QD qs' v) as [|NQ]; auto. exfalso. rewrite Lc in DE. destruct (DE t' Ht') as (D1 & _). assert (B1 : bit bv' v = Some true) by (apply (I7 t'); auto; rewrite D1; auto). unfold bit in B1, Hb. rewrite (I6 v NQ) in B1. congruence. }
    assert (Hnz : mapM (fun t => rp <- get rps' t ;; get rp (Zlen rp - 1)) (zrange 0 T) = Some (map (fun t => zsum (map deg (nthl qs' t))) (zrange 0 T))).
    { apply mapM_Some. intros t Ht. apply In_zrange in Ht. rewrite get_nthl by lia. rewrite I4 by auto. rewrite Zlen_psum. replace (Zlen (map deg (nthl qs' t)) + 1 - 1) with (Zlen (map deg (nthl qs' t))) by lia. rewrite psum_last. f_equal. }
    rewrite Hnz. exists bv', qs', rps', (map (fun t => zsum (map deg (nthl qs' t))) (zrange 0 T)). split; auto. split.
    { split; auto. split; auto. split; [intros t v H; apply I5 in H as (_ & _ & H); rewrite <- Hn; eauto|]. split; auto. }
    split; auto. split; auto. split; auto. split; auto. split; [intros v (t & _ & H); apply I5 in H; tauto|]. auto.
Qed.
End Expand.

(** ** One search *)
Lemma xorb_next c k : xorb c (Z.odd (k + 1)) = negb (xorb c (Z.odd k)).
Proof. rewrite Z.odd_add. change (Z.odd 1) with true. destruct c, (Z.odd k); reflexivity. Qed.
Definition enc (b : bool) (v : Z) : Z := if b then col_node v else row_node v.
Lemma enc_inj b v b' v' : enc b v = enc b' v' -> b = b' /\ v = v'.
Proof. unfold enc, col_node, row_node. destruct b, b'; intros H; split; try reflexivity; lia. Qed.
Lemma enc_surj x : exists b v, x = enc b v.
Proof. exists (Z.odd x), (x / 2). unfold enc, col_node, row_node. pose proof (Zdiv.Zmod_odd x). pose proof (Z.div_mod x 2 ltac:(lia)). destruct (Z.odd x); lia. Qed.

Section Search.
Context {V : Type}.
Variables (M : bool -> csr V) (hv : bool -> bool) (base T : Z) (R : bool -> rows_t V).
Let sz b := Zlen (R b).
Let mx := Z.max (sz false) (sz true).
Hypothesis HR : forall b, rep (hv b) base (sz (negb b)) (R b) (M b).
Hypothesis HK : forall b, rows_ok (sz (negb b)) (R b).
Hypothesis HT : 1 <= T.
Let adj := bi_adj (R false) (R true).

Lemma adj_enc b u : adj (enc b u) = map (enc (negb b)) (cols_of (R b) u).
Proof.
  unfold adj, bi_adj, enc, col_node, row_node. destruct b; cbn [negb].
  - replace (Z.even (2 * u + 1)) with false by (rewrite Z.even_add_mul_2 with (n := 1) (m := u) || (rewrite Z.add_comm, Z.even_add_mul_2; reflexivity); reflexivity).
    replace ((2 * u + 1) / 2) with u by (rewrite Z.mul_comm, Z.div_add_l by lia; change (1 / 2) with 0; lia). reflexivity.
  - replace (Z.even (2 * u)) with true by (now rewrite Z.even_mul). replace (2 * u / 2) with u by (rewrite Z.mul_comm, Z.div_mul by lia; auto). reflexivity.
Qed.
Lemma In_adj b u x : In x (adj (enc b u)) <-> exists v, x = enc (negb b) v /\ In v (cols_of (R b) u).
Proof. rewrite adj_enc, in_map_iff. split; intros (v & H1 & H2); exists v; auto. Qed.
Lemma In_adj' b u v : In (enc (negb b) v) (adj (enc b u)) <-> In v (cols_of (R b) u).
Proof. rewrite In_adj. split; [intros (w & E & H); apply enc_inj in E as (_ & ->); auto|eauto]. Qed.
Lemma col_range b u v : In v (cols_of (R b) u) -> 0 <= u < sz b /\ 0 <= v < sz (negb b).
Proof. exact (bi_range (sz b) (sz (negb b)) (R b) eq_refl (HK b) u v). Qed.

Variables (b0 : bool) (s : Z).
Hypothesis Hs : 0 <= s < sz b0.
Let src := enc b0 s.

Lemma walk_side k x : walk adj src k x -> exists v, x = enc (xorb b0 (Z.odd k)) v /\ 0 <= v < sz (xorb b0 (Z.odd k)).
Proof.
  induction 1 as [|k u v W (w & -> & Hw) Hv]; [exists s; change (Z.odd 0) with false; rewrite xorb_false_r; auto|].
  apply In_adj in Hv as (c & -> & Hc). exists c. apply walk_nonneg in W. replace (xorb b0 (Z.odd (k + 1))) with (negb (xorb b0 (Z.odd k))) by (rewrite Z.odd_add; change (Z.odd 1) with true; rewrite negb_xorb_r; destruct b0, (Z.odd k); reflexivity). split; auto. now apply col_range in Hc.
Qed.
Lemma dist_side x v k : dist adj src (enc x v) k -> x = xorb b0 (Z.odd k).
Proof. intros (W & _). destruct (walk_side _ _ W) as (w & E & _). now apply enc_inj in E as (E & _). Qed.
Lemma reach_side x v : reach adj src (enc x v) -> 0 <= v < sz x.
Proof. intros (k & W). destruct (walk_side _ _ W) as (w & E & H). apply enc_inj in E as (-> & ->). auto. Qed.
Lemma sz_mx x : sz x <= mx. Proof. unfold mx. destruct x; lia. Qed.
Lemma sz_nonneg x : 0 <= sz x. Proof. apply Zlen_nonneg. Qed.
Lemma bi_dist_lt x k : dist adj src x k -> k < 2 * mx.
Proof.
  intros D. pose proof (dist_nonneg _ _ _ _ D) as Hk. assert (G : forall j, 0 <= j -> j <= k + 1 -> exists l, Zlen l = j /\ NoDup l /\ forall x, In x l -> exists i, i < j /\ dist adj src x i).
  { intros j Hj. pattern j. revert j Hj. apply Z_ind0; [intros _; exists []; split; [reflexivity|]; split; [constructor|intros y []]|]. intros j Hj IH B. destruct (IH ltac:(lia)) as (l & L1 & L2 & L3). destruct (dist_all_smaller _ _ _ _ j D ltac:(lia)) as (w & Dw). exists (w :: l). rewrite Zlen_cons. split; [lia|]. split.
    - constructor; auto. intros H. apply L3 in H as (i & Hi & Di). pose proof (dist_unique _ _ _ _ _ Dw Di). lia.
    - intros y [<-|H]; [exists j; split; [lia|auto]|]. apply L3 in H as (i & Hi & Di). exists i. split; [lia|auto]. }
  destruct (G (k + 1) ltac:(lia) ltac:(lia)) as (l & L1 & L2 & L3). pose proof (sz_mx b0). pose proof (NoDup_bounded (2 * mx) l ltac:(lia) L2) as B. enough (Zlen l <= 2 * mx) by lia. apply B. intros i Hi. apply L3 in Hi as (j & _ & Dj).
  destruct (enc_surj i) as (b & v & ->). pose proof (reach_side b v (dist_reach _ _ _ _ Dj)). pose proof (sz_mx b). unfold enc, col_node, row_node. destruct b; lia.
Qed.

Hypothesis Hne : cols_of (R b0) s <> [].
Hypothesis Hfull : sz (negb b0) < sz b0 \/ ~ full_row (sz (negb b0)) (R b0) s.

(** A level leaves room for the last element of rowptrs. *)
Lemma level_cap k x l : 1 <= k -> NoDup l -> (forall v, In v l -> dist adj src (enc x v) k) -> Zlen l + 1 <= mx.
Proof.
  intros Hk N D. assert (Rg : forall v, In v l -> 0 <= v < sz x) by (intros v H; apply reach_side; eapply dist_reach; eauto).
  assert (Ext : forall c, 0 <= c < sz x -> ~ In c l -> Zlen l + 1 <= mx).
  { intros c Hc Nc. pose proof (NoDup_bounded (sz x) (c :: l) (sz_nonneg x)) as B. rewrite Zlen_cons in B. pose proof (sz_mx x). enough (1 + Zlen l <= sz x) by lia. apply B; [now constructor|]. intros i [<-|H1]; auto. }
  destruct (Bool.bool_dec x b0) as [->|Nx].
  { apply (Ext s Hs). intros H. apply D in H. fold src in H. assert (k = 0); [|lia]. eapply dist_unique; eauto. now apply dist_0. }
  assert (x = negb b0) by (destruct x, b0; auto; congruence). subst x.
  destruct Hfull as [Hlt|Hnf].
  { pose proof (NoDup_bounded (sz (negb b0)) l (sz_nonneg _) N Rg). pose proof (sz_mx b0). lia. }
  destruct (Z.eq_dec k 1) as [->|N1].
  - destruct (Forall_Exists_dec (fun c => In c (cols_of (R b0) s)) (fun c => in_dec Z.eq_dec c _) (zrange 0 (sz (negb b0)))) as [F|F].
    + exfalso. apply Hnf. intros c Hc. rewrite Forall_forall in F. apply F. now apply In_zrange.
    + apply Exists_exists in F as (c & Hc & Nc). apply In_zrange in Hc. apply (Ext c Hc). intros H. apply Nc. apply D in H. destruct (dist_pred adj src _ 0 ltac:(lia) H) as (u & Du & Hu). apply dist_0 in Du. subst u. unfold src in Hu. now apply In_adj' in Hu.
  - destruct (cols_of (R b0) s) as [|c cs] eqn:Ec; [congruence|]. assert (Hc : In c (cols_of (R b0) s)) by (rewrite Ec; now left). pose proof (col_range _ _ _ Hc) as (_ & Bc).
    apply (Ext c Bc). intros H. apply D in H. destruct (dist_step adj src src (enc (negb b0) c) 0) as (k' & D' & Hk'); [now apply dist_0|unfold src; now apply In_adj'|]. pose proof (dist_unique _ _ _ _ _ H D'). lia.
Qed.

(** Orders, one side at a time. *)
Definition sord (lev : Z) (x : bool) (ord : list Z) : Prop :=
  NoDup ord /\ (forall v, In v ord <-> exists k, dist adj src (enc x v) k /\ k < lev) /\
  (forall i j u v k k', i < j -> get ord i = Some u -> get ord j = Some v -> dist adj src (enc x u) k -> dist adj src (enc x v) k' -> k <= k').
Lemma sord_step lev x ord cur : sord lev x ord -> NoDup cur -> (forall v, In v cur <-> dist adj src (enc x v) lev) -> sord (lev + 1) x (ord ++ cur).
Proof.
  intros (I6 & I7 & I8) I1 I2. split; [|split].
  - apply NoDup_app2; auto. intros y H1 H2. apply I7 in H1 as (k & D & Hk). apply I2 in H2. pose proof (dist_unique _ _ _ _ _ D H2). lia.
  - intros v. rewrite in_app_iff, I7, I2. split; [intros [(k & D & Hk)|D]; eexists; split; eauto; lia|]. intros (k & D & Hk). destruct (Z.eq_dec k lev) as [->|]; auto. left. exists k. split; auto. lia.
  - intros i j u v k k' Hij Gi Gj Du Dv. pose proof (get_Some_bounds _ _ _ Gi) as Bi. pose proof (get_Some_bounds _ _ _ Gj) as Bj. rewrite Zlen_app in Bi, Bj. destruct (Z_lt_ge_dec j (Zlen ord)) as [Hj|Hj].
    + rewrite get_app_l in Gi, Gj by lia. apply (I8 i j u v k k'); auto.
    + rewrite get_app_r in Gj by lia. apply get_In in Gj. apply I2 in Gj. rewrite (dist_unique _ _ _ _ _ Dv Gj). destruct (Z_lt_ge_dec i (Zlen ord)) as [Hi|Hi].
      * rewrite get_app_l in Gi by lia. apply get_In in Gi. apply I7 in Gi as (k0 & D0 & Hk0). rewrite (dist_unique _ _ _ _ _ Du D0). lia.
      * rewrite get_app_r in Gi by lia. apply get_In in Gi. apply I2 in Gi. rewrite (dist_unique _ _ _ _ _ Du Gi). lia.
Qed.

Variables (bv0 vis0 : bool -> list Z).
Hypothesis HB : forall x, sz x <= Zlen (bv0 x).
Hypothesis Hclear : forall x v, reach adj src (enc x v) -> bit (bv0 x) v = Some false.
Hypothesis Hroom : forall x l, NoDup l -> (forall v, In v l -> reach adj src (enc x v)) -> Zlen l <= Zlen (vis0 x).

Definition blisted (x : bool) (ord vis : list Z) (nvis : Z) : Prop :=
  nvis = Zlen ord /\ Zlen vis = Zlen (vis0 x) /\ (forall i, 0 <= i < Zlen ord -> get vis i = get ord i) /\ forall k, Zlen ord <= k -> get vis k = get (vis0 x) k.
Definition bspec (bv vis : bool -> list Z) (nv : bool -> Z) : Prop :=
  (forall x, Zlen (bv x) = Zlen (bv0 x)) /\ (forall x v, reach adj src (enc x v) -> bit (bv x) v = Some true) /\ (forall x v, ~ reach adj src (enc x v) -> get (bv x) v = get (bv0 x) v) /\
  forall x, exists ord, side_order adj (enc x) src ord /\ blisted x ord (vis x) (nv x).
Definition binv (lev : Z) (b : bool) (qs rps : list (list Z)) (nz : list Z) (bv vis : bool -> list Z) (nv : bool -> Z) : Prop :=
  0 <= lev /\ b = xorb b0 (Z.odd lev) /\ level_arrays (R b) T qs rps nz /\ NoDup (concat qs) /\ (forall v, queued T qs v <-> dist adj src (enc b v) lev) /\
  (forall x, Zlen (bv x) = Zlen (bv0 x)) /\ (forall x v k, dist adj src (enc x v) k -> bit (bv x) v = Some (k <=? lev)) /\ (forall x v, ~ reach adj src (enc x v) -> get (bv x) v = get (bv0 x) v) /\
  (forall x, exists ord, sord lev x ord /\ blisted x ord (vis x) (nv x)) /\ (lev <> 0 -> exists y, dist adj src y (lev - 1)).

Lemma q_concat qs v : Zlen qs = T -> queued T qs v <-> In v (concat qs).
Proof.
  intros L. unfold queued. rewrite in_concat. split.
  - intros (t & Ht & H). exists (nthl qs t). split; auto. apply nth_row_In'. lia.
  - intros (l & Hl & H). apply In_get in Hl as (t & Ht & G). exists t. rewrite (nthl_get _ _ _ G). split; auto. lia.
Qed.

Definition upd {B} (b : bool) (y : B) (f : bool -> B) : bool -> B := fun x => if Bool.eqb x b then y else f x.
Lemma upd_same {B} b (y : B) f : upd b y f b = y. Proof. unfold upd. now rewrite Bool.eqb_reflx. Qed.
Lemma upd_neg {B} b (y : B) f : upd b y f (negb b) = f (negb b). Proof. unfold upd. now destruct b. Qed.
Lemma upd_neg' {B} b (y : B) f : upd (negb b) y f b = f b. Proof. unfold upd. now destruct b. Qed.
Lemma upd_cases {B} b (y : B) f x (P : bool -> B -> Prop) : P b y -> P (negb b) (f (negb b)) -> P x (upd b y f x).
Proof. intros. unfold upd. destruct x, b; auto. Qed.

Lemma bb_loop_ok fuel : forall sch lev b qs rps nz bv vis nv, binv lev b qs rps nz bv vis nv -> 2 * mx + 1 < lev + Z.of_nat fuel ->
  exists bv' vis' nv', bb_loop base T mx fuel sch (M b) (M (negb b)) qs rps nz (bv b) (bv (negb b)) (vis b) (vis (negb b)) (nv b) (nv (negb b)) =
     Some (bv' b, bv' (negb b), vis' b, vis' (negb b), nv' b, nv' (negb b)) /\ bspec bv' vis' nv'.
Proof.
  induction fuel as [|fuel IH]; intros sch lev b qs rps nz bv vis nv HI HF.
  { exfalso. pose proof (sz_mx b0). pose proof (sz_nonneg b0). destruct HI as (I0 & _ & _ & _ & _ & _ & _ & _ & _ & I9). destruct (I9 ltac:(lia)) as (v & D). apply bi_dist_lt in D. lia. }
  pose proof HI as (I0 & Ib & I1 & I2 & I4 & I5 & I6 & I7 & I8 & I9). pose proof I1 as (A1 & A2 & A3 & A4 & A5).
  cbn [bb_loop]. assert (Etot : get (psum 0 (map Zlen qs)) T = Some (Zlen (concat qs))).
  { rewrite psum_off by lia. rewrite concat_flat, Zlen_flat, A1 by lia. f_equal. }
  rewrite Etot. set (total := Zlen (concat qs)) in *. destruct (total =? 0) eqn:Estop.
  - exists bv, vis, nv. replace (nv b + total) with (nv b) by lia. split; [reflexivity|].
    assert (NQ : forall v, ~ queued T qs v). { intros v H. rewrite q_concat in H by auto. unfold total in Estop. destruct (concat qs) as [|a l]; [contradiction|]. rewrite Zlen_cons in Estop. pose proof (Zlen_nonneg l). lia. }
    assert (Hlt : forall y k, dist adj src y k -> k < lev).
    { intros y k D. destruct (Z_lt_ge_dec k lev) as [H|H]; auto. exfalso. destruct (dist_all_smaller _ _ _ _ lev D ltac:(lia)) as (w & Dw). destruct (enc_surj w) as (x & v & ->). pose proof (dist_side _ _ _ Dw) as Ex. rewrite <- Ib in Ex. subst x. apply I4 in Dw. apply (NQ v Dw). }
    split; auto. split; [|split; auto].
    + intros x v Rv. destruct (reach_dist _ _ _ Rv) as (k & D). rewrite (I6 x v k D). f_equal. specialize (Hlt _ k D). lia.
    + intros x. destruct (I8 x) as (ord & (O1 & O2 & O3) & L). exists ord. split; auto. split; auto. split; auto. intros v. rewrite O2. split; [intros (k & D & _); eapply dist_reach; eauto|]. intros Rv. destruct (reach_dist _ _ _ Rv) as (k & D). eauto.
  - assert (Tpos : 0 < total) by (pose proof (Zlen_nonneg (concat qs)); fold total in H; lia).
    assert (exists w, queued T qs w) as (w0 & Qw0). { unfold total in Tpos. destruct (concat qs) as [|a l] eqn:Eq; [change (Zlen (@nil Z)) with 0 in Tpos; lia|]. exists a. apply q_concat; auto. rewrite Eq. now left. }
    replace (nv b + total - total) with (nv b) by lia.
    assert (exists vis', pb_copy T true (sch (2 * fuel)%nat) qs (nv b) (vis b) = Some vis' /\ exists ord, sord (lev + 1) b ord /\ blisted b ord vis' (nv b + total)) as (vis' & Ev & Hv').
    { destruct (I8 b) as (ord & O & (V1 & V2 & V3 & V4)). pose proof (sord_step lev b ord (concat qs) O I2 ltac:(intros v; rewrite <- q_concat by auto; apply I4)) as O'.
      destruct (copy_ok (R b) T true HT (sch (2 * fuel)%nat) qs (nv b) (vis b) A1) as (vis' & E & C1 & C2 & C3); auto.
      { rewrite V1. apply Zlen_nonneg. }
      { rewrite V1, V2. rewrite <- Zlen_app. apply Hroom; auto; [apply O'|]. intros v H. apply O' in H as (k & D & _). eapply dist_reach; eauto. }
      exists vis'. split; auto. exists (ord ++ concat qs). split; auto. split; [rewrite Zlen_app; fold total; lia|]. split; [lia|]. rewrite Zlen_app. fold total in C2, C3 |- *. split.
      + intros i Hi. destruct (Z_lt_ge_dec i (Zlen ord)) as [L|L]; [rewrite get_app_l by auto; rewrite C3 by lia; apply V3; lia|]. rewrite get_app_r by lia. rewrite <- C2 by lia. f_equal. lia.
      + intros k Hk. rewrite C3 by lia. apply V4. lia. }
    rewrite Ev.
    assert (Hnew : forall v, bit (bv (negb b)) v = Some false /\ (exists u, queued T qs u /\ In v (cols_of (R b) u)) <-> dist adj src (enc (negb b) v) (lev + 1)).
    { intros v. split.
      - intros (Hb & u & Hu & Hv). apply I4 in Hu. apply In_adj' in Hv. destruct (dist_step _ _ _ _ _ Hu Hv) as (k & D & Hk). rewrite (I6 _ v k D) in Hb. injection Hb as Hb. replace (lev + 1) with k by lia. auto.
      - intros D. split; [rewrite (I6 _ v _ D); f_equal; lia|]. destruct (dist_pred _ _ _ _ I0 D) as (y & Du & Hv). destruct (enc_surj y) as (x & u & ->). pose proof (dist_side _ _ _ Du) as Ex. rewrite <- Ib in Ex. subst x. exists u. split; [now apply I4|]. now apply In_adj' in Hv. }
    destruct (bb_expand_ok (M b) (M (negb b)) (hv b) (hv (negb b)) base (sz b) (sz (negb b)) T mx (R b) (R (negb b)) eq_refl eq_refl (HR b)) with (sch := sch (2 * fuel + 1)%nat) (qs := qs) (rps := rps) (nz := nz) (bv := bv (negb b))
      as (bv' & qs' & rps' & nz' & E & E1 & E2 & E3 & E4 & E5 & E6 & E7); auto.
    { pose proof (HR (negb b)) as Hx. now rewrite negb_involutive in Hx. }
    { rewrite I5. apply HB. }
    { intros l Nl Hl. apply (level_cap (lev + 1) (negb b)); auto; [lia|]. intros v Hv. now apply Hnew, Hl. }
    rewrite E.
    assert (Q' : forall v, queued T qs' v <-> dist adj src (enc (negb b) v) (lev + 1)) by (intros v; rewrite E4; apply Hnew).
    assert (Par : negb b = xorb b0 (Z.odd (lev + 1))) by (rewrite xorb_next, <- Ib; reflexivity).
    destruct (IH sch (lev + 1) (negb b) qs' rps' nz' (upd (negb b) bv' bv) (upd b vis' vis) (upd b (nv b + total) nv)) as (bv2 & vis2 & nv2 & EL & Sp); [|lia|].
    { split; [lia|]. split; auto. split; auto. split; [apply NoDup_queues; auto|]. split; auto. split; [|split; [|split; [|split]]].
      + intros x. apply (upd_cases (negb b) bv' bv x (fun y r => Zlen r = Zlen (bv0 y))); [rewrite E5; auto|auto].
      + intros x. apply (upd_cases (negb b) bv' bv x (fun y r => forall v k, dist adj src (enc y v) k -> bit r v = Some (k <=? lev + 1))).
        * intros v k D. destruct (Z.eq_dec k (lev + 1)) as [->|Nk]; [rewrite E6 by (now apply Q'); f_equal; lia|]. assert (NQ : ~ queued T qs' v) by (rewrite Q'; intros D'; apply Nk; eapply dist_unique; eauto). unfold bit. rewrite E7 by auto. fold (bit (bv (negb b)) v). rewrite (I6 _ v k D). f_equal. lia.
        * rewrite negb_involutive. intros v k D. rewrite (I6 _ v k D). f_equal. pose proof (dist_side _ _ _ D) as Ex. assert (k <> lev + 1) by (intros ->; rewrite <- Par in Ex; destruct b; discriminate). lia.
      + intros x. apply (upd_cases (negb b) bv' bv x (fun y r => forall v, ~ reach adj src (enc y v) -> get r v = get (bv0 y) v)); [|auto]. intros v H. rewrite E7; auto. intros Q. apply H. apply Q' in Q. eapply dist_reach; eauto.
      + intros x. destruct (Bool.bool_dec x b) as [->|Nx]; [rewrite !upd_same; auto|]. assert (x = negb b) by (destruct x, b; auto; congruence). subst x. rewrite !upd_neg. destruct (I8 (negb b)) as (ord & (O1 & O2 & O3) & L). exists ord. split; auto. split; auto. split; auto. intros v. rewrite O2. split; intros (k & D & Hk); exists k; (split; [auto|]); [lia|].
        pose proof (dist_side _ _ _ D) as Ex. assert (k <> lev) by (intros ->; rewrite <- Ib in Ex; destruct b; discriminate). lia.
      + intros _. replace (lev + 1 - 1) with lev by lia. exists (enc b w0). now apply I4. }
    rewrite !negb_involutive, !upd_same, !upd_neg, !upd_neg' in EL. rewrite EL. exists bv2, vis2, nv2. auto.
Qed.

Theorem bb_bfs_ok sch junk : Zlen junk = T - 1 -> exists bv vis nv,
  bb_bfs base T mx sch (M b0) (M (negb b0)) s (bv0 b0) (bv0 (negb b0)) (vis0 b0) (vis0 (negb b0)) junk = Some (bv b0, bv (negb b0), vis b0, vis (negb b0), nv b0, nv (negb b0)) /\ bspec bv vis nv.
Proof.
  intros Hj. unfold bb_bfs.
  destruct (bv_set_ok (bv0 b0) s ltac:(specialize (HB b0); lia)) as (bv1 & -> & U). rewrite (rep_rowptr _ _ _ _ _ _ (HR b0)), (rep_rowptr_S _ _ _ _ _ _ (HR b0)) by (fold (sz b0); lia).
  set (deg := Zlen (nthl (R b0) s)). match goal with |- context [[0; ?e]] => replace e with deg by (unfold deg; lia) end.
  assert (Hmx : 2 <= mx). { assert (Hc : exists c, In c (cols_of (R b0) s)) by (destruct (cols_of (R b0) s) as [|c cs]; [congruence|exists c; now left]). destruct Hc as (c & Hc). pose proof (level_cap 1 (negb b0) [c] ltac:(lia) ltac:(constructor; [intros []|constructor])) as X. change (Zlen [c]) with 1 in X. enough (1 + 1 <= mx) by lia. apply X. intros v [<-|[]].
    destruct (dist_step adj src src (enc (negb b0) c) 0) as (k' & D' & Hk'); [now apply dist_0|unfold src; now apply In_adj'|]. pose proof (dist_nonneg _ _ _ _ D'). destruct (Z.eq_dec k' 0) as [->|]; [|replace 1 with k' by lia; auto]. apply dist_side in D'. change (Z.odd 0) with false in D'. rewrite xorb_false_r in D'. destruct (Bool.no_fixpoint_negb b0 D'). }
  replace (2 <=? T * mx) with true by nia.
  assert (R0 : reach adj src src) by (exists 0; constructor).
  assert (Eq : forall t, nthl ([s] :: repeat [] (Z.to_nat (T - 1))) t = if t =? 0 then [s] else []).
  { intros t. destruct (Z.eqb_spec t 0) as [->|N]; [reflexivity|]. destruct (Z_lt_ge_dec t 0); [apply nth_out; lia|]. unfold nthl. rewrite get_cons_pos by lia. destruct (get _ (t - 1)) eqn:G; auto. apply get_In, repeat_spec in G. auto. }
  assert (Qs : forall v, queued T ([s] :: repeat [] (Z.to_nat (T - 1))) v <-> v = s).
  { intros v. unfold queued. split; [intros (t & Ht & H); rewrite Eq in H; destruct (t =? 0); [destruct H as [<-|[]]; auto|contradiction]|]. intros ->. exists 0. split; [lia|]. now left. }
  destruct (bb_loop_ok (Z.to_nat (2 * mx) + 2) sch 0 b0 ([s] :: repeat [] (Z.to_nat (T - 1))) ([0; deg] :: junk) (deg :: repeat 0 (Z.to_nat (T - 1))) (upd b0 bv1 bv0) vis0 (fun _ => 0)) as (bv & vis & nv & E & Sp); [|lia|].
  2:{ rewrite upd_same, upd_neg in E. exists bv, vis, nv. auto. }
  split; [lia|]. split; [change (Z.odd 0) with false; now rewrite xorb_false_r|]. split; [|split; [|split; [|split; [|split; [|split; [|split]]]]]].
  - split; [rewrite Zlen_cons, Zlen_repeat; lia|]. split; [rewrite Zlen_cons; lia|]. split; [intros t v H; rewrite Eq in H; destruct (t =? 0); [destruct H as [<-|[]]; auto|contradiction]|]. split.
    + intros t Ht Ne. rewrite Eq in *. destruct (Z.eqb_spec t 0) as [->|]; [change ([0; deg] = [0; 0 + deg]); do 2 f_equal; lia|congruence].
    + apply list_ext; [rewrite Zlen_cons, Zlen_repeat, Zlen_map, Zlen_zrange; lia|]. intros i Hi. rewrite Zlen_cons, Zlen_repeat in Hi. rewrite get_map, get_zrange by lia. cbn [option_map]. rewrite Z.add_0_l, Eq. destruct (Z.eqb_spec i 0) as [->|N]; [rewrite get_cons_0; cbn [map zsum fold_right]; f_equal; unfold deg; lia|].
      rewrite get_cons_pos by lia. destruct (get_in_range (repeat 0 (Z.to_nat (T - 1))) (i - 1)) as (x & Ex); [rewrite Zlen_repeat; lia|]. rewrite Ex. apply get_In, repeat_spec in Ex. now subst x.
  - cbn [concat]. replace (concat (repeat (@nil Z) (Z.to_nat (T - 1)))) with (@nil Z) by (clear; induction (Z.to_nat (T - 1)) as [|n IHn]; [reflexivity|exact IHn]). constructor; [intros []|constructor].
  - intros v. rewrite Qs, dist_0. unfold src. split; [intros ->; auto|]. intros E. now apply enc_inj in E as (_ & ->).
  - intros x. apply (upd_cases b0 bv1 bv0 x (fun y r => Zlen r = Zlen (bv0 y))); auto. apply U.
  - intros x. apply (upd_cases b0 bv1 bv0 x (fun y r => forall v k, dist adj src (enc y v) k -> bit r v = Some (k <=? 0))).
    + intros v k D. destruct (Z.eq_dec v s) as [->|N].
      * assert (k = 0) as -> by (eapply dist_unique; eauto; now apply dist_0). apply U.
      * rewrite (bit_other _ _ _ _ _ U N). rewrite Hclear by (eapply dist_reach; eauto). f_equal. destruct (Z.leb_spec k 0); auto. exfalso. apply N. pose proof (dist_nonneg _ _ _ _ D). replace k with 0 in D by lia. apply dist_0 in D. now apply enc_inj in D as (_ & ->).
    + intros v k D. rewrite Hclear by (eapply dist_reach; eauto). f_equal. destruct (Z.leb_spec k 0); auto. exfalso. pose proof (dist_nonneg _ _ _ _ D). replace k with 0 in D by lia. apply dist_0 in D. apply enc_inj in D as (D & _). destruct (Bool.no_fixpoint_negb b0 D).
  - intros x. apply (upd_cases b0 bv1 bv0 x (fun y r => forall v, ~ reach adj src (enc y v) -> get r v = get (bv0 y) v)); auto. intros v H. destruct U as (_ & _ & U). apply U. intros ->. auto.
  - intros x. exists []. split; [|split; [reflexivity|]; split; auto; split; auto; intros i Hi; change (Zlen (@nil Z)) with 0 in Hi; lia]. split; [constructor|]. split.
    + intros v. split; [intros []|]. intros (k & D & Hk). apply dist_nonneg in D. lia.
    + intros i j u v k k' _ G. apply get_Some_bounds in G. change (Zlen (@nil Z)) with 0 in G. lia.
  - lia.
Qed.
End Search.

(** ** Laying out nodes *)
Section Laid.
Variable N : Z.
(** The nodes [l] have been given the positions 0, 1, ... *)
Definition laid (perm inv : list Z) (idx : Z) (l : list Z) : Prop :=
  Zlen perm = N /\ Zlen inv = N /\ idx = Zlen l /\ NoDup l /\ (forall v, In v l -> 0 <= v < N) /\ forall k v, get l k = Some v -> get inv k = Some v /\ get perm v = Some k.
Lemma laid_nil perm inv : Zlen perm = N -> Zlen inv = N -> laid perm inv 0 [].
Proof. intros H1 H2. split; auto. split; auto. split; [reflexivity|]. split; [constructor|]. split; [intros v []|]. intros k v G. apply get_Some_bounds in G. change (Zlen (@nil Z)) with 0 in G. lia. Qed.
Lemma laid_le perm inv idx l : laid perm inv idx l -> 0 <= idx <= N.
Proof. intros (L1 & L2 & -> & L4 & L5 & _). pose proof (Zlen_nonneg l). split; auto. apply NoDup_bounded; auto. pose proof (Zlen_nonneg perm). lia. Qed.
Lemma laid_one perm inv idx l i : laid perm inv idx l -> 0 <= i < N -> ~ In i l -> exists inv' perm', set inv idx i = Some inv' /\ set perm i idx = Some perm' /\ laid perm' inv' (idx + 1) (l ++ [i]).
Proof.
  intros (L1 & L2 & -> & L4 & L5 & L6) Hi Ni. assert (Hl : Zlen l < N).
  { pose proof (NoDup_bounded N (i :: l) ltac:(lia)) as B. rewrite Zlen_cons in B. enough (1 + Zlen l <= N) by lia. apply B; [now constructor|]. intros j [<-|H]; auto. }
  pose proof (Zlen_nonneg l). destruct (set_ok inv (Zlen l) i ltac:(lia)) as (inv' & E1). destruct (set_ok perm i (Zlen l) ltac:(lia)) as (perm' & E2). exists inv', perm'. split; auto. split; auto. split; [rewrite (set_len _ _ _ _ E2); auto|]. split; [rewrite (set_len _ _ _ _ E1); auto|]. split; [rewrite Zlen_app; reflexivity|]. split; [apply NoDup_app2; auto; [constructor; [intros []|constructor]|]; intros x X [<-|[]]; auto|]. split; [intros v H1; apply in_app_or in H1 as [H1|[<-|[]]]; auto|].
  intros k v G. apply get_snoc in G as [G|(-> & ->)]; [|split; [apply (get_set_same _ _ _ _ E1)|apply (get_set_same _ _ _ _ E2)]]. pose proof (get_Some_bounds _ _ _ G). destruct (L6 k v G). rewrite (get_set_other _ _ _ _ _ E1), (get_set_other _ _ _ _ _ E2) by (try lia; intros ->; apply Ni; eapply get_In; eauto). auto.
Qed.
Lemma laid_many sch perm inv idx l ord vis : laid perm inv idx l -> NoDup ord -> (forall v, In v ord -> 0 <= v < N /\ ~ In v l) ->
  Zlen vis = Zlen (slice inv idx (Zlen inv)) -> (forall i, 0 <= i < Zlen ord -> get vis i = get ord i) ->
  exists perm', par_any sch (bp_index1 (slice inv 0 idx ++ vis) idx) 0 (Zlen ord) perm = Some perm' /\ laid perm' (slice inv 0 idx ++ vis) (idx + Zlen ord) (l ++ ord).
Proof.
  intros HL No Ho Lv Gv. pose proof (laid_le _ _ _ _ HL) as Bi. destruct HL as (L1 & L2 & E & L4 & L5 & L6). rewrite Zlen_slice in Lv by lia. set (inv' := slice inv 0 idx ++ vis).
  assert (Li : Zlen (slice inv 0 idx) = idx) by (rewrite Zlen_slice; lia).
  assert (Gi : forall k v, get ord k = Some v -> get inv' (idx + k) = Some v). { intros k v G. pose proof (get_Some_bounds _ _ _ G). unfold inv'. rewrite get_app_r by lia. rewrite Li. replace (idx + k - idx) with k by lia. rewrite Gv; auto. }
  destruct (index_par N sch idx ord perm inv' L1 Gi No) as (perm' & Ep & P1 & P2 & P3); [intros v H; apply Ho; auto|]. exists perm'. split; auto. split; auto.
  split; [unfold inv'; rewrite Zlen_app; lia|]. split; [rewrite Zlen_app; lia|]. split; [apply NoDup_app2; auto; intros x X1 X2; now apply (Ho x X2)|]. split; [intros v H; apply in_app_or in H as [H|H]; [auto|now apply Ho]|].
  intros k v G. pose proof (get_Some_bounds _ _ _ G) as B. rewrite Zlen_app in B. destruct (Z_lt_ge_dec k (Zlen l)) as [Hk|Hk].
  - rewrite get_app_l in G by auto. destruct (L6 k v G) as (G1 & G2). split; [unfold inv'; rewrite get_app_l by lia; rewrite get_slice by lia; auto|]. rewrite P3; auto. intros H. apply Ho in H as (_ & H). apply H. eapply get_In; eauto.
  - rewrite get_app_r in G by lia. pose proof (Gi _ _ G) as G1. pose proof (P2 _ _ G) as G2. rewrite E in G1, G2. replace (Zlen l + (k - Zlen l)) with k in G1, G2 by lia. auto.
Qed.
Lemma laid_all perm inv idx l : laid perm inv idx l -> (forall v, 0 <= v < N -> In v l) -> idx = N /\ inv = l /\ inverse_perms N perm inv.
Proof.
  intros HL Hall. pose proof (laid_le _ _ _ _ HL) as Bi. destruct HL as (L1 & L2 & E & L4 & L5 & L6).
  assert (En : Zlen l = N). { transitivity (Zlen (zrange 0 N)); [|rewrite Zlen_zrange; lia]. unfold Zlen. f_equal. apply Permutation_length, NoDup_Permutation; auto; [apply NoDup_zrange|]. intros v. rewrite In_zrange. split; auto. }
  assert (inv = l). { apply list_ext; [lia|]. intros i Hi. destruct (get_in_range l i ltac:(lia)) as (v & G). rewrite G. now apply L6. }
  split; [lia|]. split; auto. split; auto. split; auto. split.
  - intros i Hi. apply Hall, In_get in Hi as (k & Bk & G). exists k. apply L6 in G. tauto.
  - intros k Hk. destruct (get_in_range l k ltac:(lia)) as (v & G). exists v. now apply L6.
Qed.
End Laid.

(** ** The whole function *)
Section Main.
Context {V : Type}.
Variables (A AT : csr V) (hv hw : bool) (base T : Z) (rows trows : rows_t V).
Let m := Zlen rows.
Let n := Zlen trows.
Hypothesis HA : rep hv base n rows A.
Hypothesis HAT : rep hw base m trows AT.
Hypothesis HK : rows_ok n rows.
Hypothesis HKT : rows_ok m trows.
Hypothesis Htr : transposed rows trows.
Hypothesis HT : 1 <= T.
Hypothesis HF : n < m \/ forall r, 0 <= r < m -> ~ full_row n rows r.
Let adj := bi_adj rows trows.
Let R (b : bool) := if b then trows else rows.
Let M (b : bool) := if b then AT else A.
Let mx := Z.max m n.

Lemma main_adj : adj = bi_adj (R false) (R true). Proof. reflexivity. Qed.
Lemma adj_side b u v : In (enc (negb b) v) (adj (enc b u)) <-> In v (cols_of (R b) u).
Proof. exact (In_adj' R b u v). Qed.
Lemma tr_side b u v : In v (cols_of (R b) u) <-> In u (cols_of (R (negb b)) v).
Proof. destruct b; cbn [R negb]; [symmetry|]; apply Htr. Qed.
Lemma adj_sym u v : In v (adj u) -> In u (adj v).
Proof.
  destruct (enc_surj u) as (b & x & ->). intros H. pose proof H as H'. change adj with (bi_adj (R false) (R true)) in H'. apply In_adj in H' as (y & -> & Hy).
  replace (enc b x) with (enc (negb (negb b)) x) by (now rewrite negb_involutive). apply adj_side. now apply tr_side in Hy.
Qed.
Lemma step_side b u y : In y (adj (enc b u)) -> exists v, y = enc (negb b) v /\ In v (cols_of (R b) u).
Proof. intros H. change adj with (bi_adj (R false) (R true)) in H. now apply In_adj. Qed.
(** Only an empty row is a component by itself. *)
Lemma empty_reach b u x : cols_of (R b) u = [] -> reach adj (enc b u) x -> x = enc b u.
Proof.
  intros E (k & W). induction W as [|k y z W IH H]; auto. rewrite IH in H. apply step_side in H as (v & _ & H). rewrite E in H. contradiction.
Qed.

Definition blk_nodes (b : bool) (blk : Z * list Z * list Z) : list Z := if b then snd blk else snd (fst blk).
Definition blk_root (blk : Z * list Z * list Z) : Z := fst (fst blk).
Definition listing (b : bool) (blocks : list (Z * list Z * list Z)) : list Z := concat (map (blk_nodes b) blocks).
Lemma placed_iff b blocks v : Forall (bi_block adj) blocks -> In v (listing b blocks) <-> exists blk, In blk blocks /\ reach adj (row_node (blk_root blk)) (enc b v).
Proof.
  intros F. unfold listing. rewrite in_concat, Forall_forall in *. split.
  - intros (l & Hl & Hv). apply in_map_iff in Hl as (((s & rs) & cs) & <- & Hb). exists (s, rs, cs). split; auto. destruct (F _ Hb) as ((_ & F1 & _) & (_ & F2 & _) & _). destruct b; [now apply F2|now apply F1].
  - intros (((s & rs) & cs) & Hb & Hr). exists (blk_nodes b (s, rs, cs)). split; [now apply in_map|]. destruct (F _ Hb) as ((_ & F1 & _) & (_ & F2 & _) & _). destruct b; [now apply F2|now apply F1].
Qed.
Lemma placed_closed b u c v blocks : Forall (bi_block adj) blocks -> reach adj (enc b u) (enc c v) -> In v (listing c blocks) -> In u (listing b blocks).
Proof. intros F Hr H. apply placed_iff in H as (blk & Hb & H); auto. apply placed_iff; auto. exists blk. split; auto. eapply reach_trans; eauto. apply reach_sym; auto. exact adj_sym. Qed.
Lemma listing_snoc b blocks blk : listing b (blocks ++ [blk]) = listing b blocks ++ blk_nodes b blk.
Proof. unfold listing. rewrite map_app, concat_app. cbn [map concat]. now rewrite app_nil_r. Qed.

Definition bits_ok (blocks : list (Z * list Z * list Z)) (bv1 bv2 : list Z) : Prop :=
  Zlen bv1 = m /\ Zlen bv2 = n /\
  (forall v, 0 <= v < m -> bit bv1 v = Some true -> In v (listing false blocks)) /\ (forall v, In v (listing false blocks) -> cols_of rows v <> [] -> bit bv1 v = Some true) /\
  (forall v, 0 <= v < n -> bit bv2 v = Some true -> In v (listing true blocks)) /\ (forall v, In v (listing true blocks) -> bit bv2 v = Some true).
Definition rows_inv (i : Z) (st : bb_state) : Prop :=
  exists blocks, let '(bv1, bv2, (rperm, rinv, ri), (cperm, cinv, ci)) := st in
    Forall (bi_block adj) blocks /\ ssortedZ (map blk_root blocks) /\ (forall s, In s (map blk_root blocks) -> s < i) /\ (forall v, 0 <= v < i -> In v (listing false blocks)) /\
    laid m rperm rinv ri (listing false blocks) /\ laid n cperm cinv ci (listing true blocks) /\ bits_ok blocks bv1 bv2.

Lemma bit_cases bv v : 0 <= v < Zlen bv -> bit bv v = Some true \/ bit bv v = Some false.
Proof. intros H. destruct (bit_ex bv v H) as ([|] & E); auto. Qed.

Lemma row_step ex i st : 0 <= i < m -> Zlen (snd ex) = T - 1 -> rows_inv i st -> exists st', bb_step base T mx ex A AT i st = Some st' /\ rows_inv (i + 1) st'.
Proof.
  intros Hi Hj (blocks & HI). destruct ex as (((sch & sch1) & sch2) & junk). cbn [snd] in Hj. destruct st as (((bv1 & bv2) & ((rperm & rinv) & ri)) & ((cperm & cinv) & ci)).
  destruct HI as (I1 & I2 & I3 & I4 & I5 & I6 & (B1 & B2 & B3 & B4 & B5 & B6)). unfold bb_step. rewrite bv_get_bit.
  destruct (bit_cases bv1 i ltac:(lia)) as [Eb|Eb]; rewrite Eb.
  { eexists. split; [reflexivity|]. exists blocks. split; auto. split; auto. split; [intros s Hs; specialize (I3 s Hs); lia|]. split; [|repeat (split; [assumption|]); repeat split; auto]. intros v Hv. destruct (Z.eq_dec v i) as [->|]; [apply B3; auto|apply I4; lia]. }
  rewrite (rep_rowptr_S _ _ _ _ _ _ HA), (rep_rowptr _ _ _ _ _ _ HA) by (fold m; lia).
  (* i is new *)
  assert (New : ~ In i (listing false blocks)).
  { intros H. assert (E : cols_of rows i = []). { destruct (cols_of rows i) eqn:E; auto. exfalso. rewrite B4 in Eb; auto; [discriminate|congruence]. }
    apply placed_iff in H as (blk & Hb & Hr); auto. apply reach_sym in Hr; [|exact adj_sym]. apply (empty_reach false i) in Hr; [|exact E]. change (enc false i) with (row_node i) in Hr. unfold row_node in Hr. assert (Hx : In (blk_root blk) (map blk_root blocks)) by now apply in_map. specialize (I3 _ Hx). lia. }
  assert (NewR : forall b v, reach adj (enc false i) (enc b v) -> ~ In v (listing b blocks)) by (intros b v Hr H; apply New; eapply placed_closed; eauto).
  assert (Srt : ssortedZ (map blk_root blocks ++ [i])) by (apply ssorted_app; auto; [constructor; constructor|]; intros x y Hx [<-|[]]; auto).
  assert (Finish : forall rs cs bv1' bv2' rperm' rinv' ri' cperm' cinv' ci', bi_block adj (i, rs, cs) -> laid m rperm' rinv' ri' (listing false blocks ++ rs) -> laid n cperm' cinv' ci' (listing true blocks ++ cs) ->
     bits_ok (blocks ++ [(i, rs, cs)]) bv1' bv2' -> rows_inv (i + 1) (bv1', bv2', (rperm', rinv', ri'), (cperm', cinv', ci'))).
  { intros rs cs bv1' bv2' rperm' rinv' ri' cperm' cinv' ci' Hb L1 L2 Hbits. exists (blocks ++ [(i, rs, cs)]). rewrite map_app, !listing_snoc. cbn [map blk_nodes fst snd]. split; [apply Forall_app; auto|]. split; auto. split; [intros s Hs; apply in_app_or in Hs as [Hs|[<-|[]]]; [specialize (I3 s Hs); lia|change (i < i + 1); lia]|].
    split; [|auto]. intros v Hv. apply in_or_app. destruct (Z.eq_dec v i) as [->|]; [right; apply Hb; exists 0; constructor|left; apply I4; lia]. }
  destruct (Z.eqb_spec (base + (off (nthl rows) i + Zlen (nthl rows i))) (base + off (nthl rows) i)) as [E0|N0].
  - (* an empty row *)
    assert (Ec : cols_of rows i = []). { unfold cols_of. destruct (nthl rows i) as [|e l]; auto. rewrite Zlen_cons in E0. pose proof (Zlen_nonneg l). lia. }
    destruct (laid_one m rperm rinv ri _ i I5 Hi New) as (rinv' & rperm' & -> & -> & L'). eexists. split; [reflexivity|]. apply (Finish [i] []); auto; [|rewrite app_nil_r; auto|].
    + assert (Rr : forall v, In v [i] <-> reach adj (row_node i) (row_node v)).
      { intros v. split; [intros [<-|[]]; exists 0; constructor|]. intros Hr. apply (empty_reach false i) in Hr; [|exact Ec]. left. change (enc false i) with (row_node i) in Hr. unfold row_node in Hr. lia. }
      split; [|split].
      * split; [constructor; [intros []|constructor]|]. split; auto. intros a b u v k k' Hab Ga Gb. apply get_Some_bounds in Ga, Gb. change (Zlen [i]) with 1 in *. lia.
      * split; [constructor|]. split; [|intros a b u v k k' Hab Ga; apply get_Some_bounds in Ga; change (Zlen (@nil Z)) with 0 in Ga; lia]. intros v. split; [intros []|]. intros Hr. apply (empty_reach false i) in Hr; [|exact Ec]. change (enc false i) with (row_node i) in Hr. unfold row_node, col_node in Hr. lia.
      * intros r [<-|[]]. lia.
    + split; auto. split; auto. rewrite !listing_snoc. cbn [blk_nodes fst snd]. rewrite app_nil_r. split; [intros v Hv Ev; apply in_or_app; left; auto|]. split; [|auto]. intros v Hv Ev. apply in_app_or in Hv as [Hv|[<-|[]]]; [auto|congruence].
  - (* a search *)
    assert (Ec : cols_of rows i <> []). { unfold cols_of. destruct (nthl rows i) as [|e l]; [change (Zlen (@nil (Z * V))) with 0 in N0; lia|discriminate]. }
    pose proof (laid_le _ _ _ _ _ I5) as W1. pose proof (laid_le _ _ _ _ _ I6) as W2. pose proof I5 as (_ & Lr & Er & _). pose proof I6 as (_ & Lc & Ecc & _). replace ((ri <=? Zlen rinv) && (ci <=? Zlen cinv)) with true by lia.
    pose (bv0 := fun b : bool => if b then bv2 else bv1). pose (vis0 := fun b : bool => if b then slice cinv ci (Zlen cinv) else slice rinv ri (Zlen rinv)).
    assert (Hclear : forall x v, reach adj (enc false i) (enc x v) -> bit (bv0 x) v = Some false).
    { intros x v Hr. pose proof (NewR x v Hr) as Nv. assert (Bv : 0 <= v < Zlen (R x)) by (apply (reach_side R (fun b => match b with true => HKT | false => HK end) false i Hi x v Hr)). destruct x; cbn [R bv0] in *; [destruct (bit_cases bv2 v ltac:(fold n in Bv; lia)) as [Z1|Z1]|destruct (bit_cases bv1 v ltac:(fold m in Bv; lia)) as [Z1|Z1]]; auto; exfalso; apply Nv; auto. }
    destruct (bb_bfs_ok M (fun b => if b then hw else hv) base T R) with (b0 := false) (s := i) (bv0 := bv0) (vis0 := vis0) (sch := sch) (junk := junk) as (bv & vis & nv & E & S1 & S2 & S3 & S4); auto.
    { intros [|]; auto. }
    { intros [|]; auto. }
    { cbn [R negb]. fold m n. destruct HF as [|H]; auto. }
    { intros [|]; cbn [R bv0]; fold m n; lia. }
    { intros x l Nl Hl. assert (Hb : forall v, In v l -> 0 <= v < Zlen (R x) /\ ~ In v (listing x blocks)).
      { intros v Hv. specialize (Hl v Hv). split; [apply (reach_side R (fun b => match b with true => HKT | false => HK end) false i Hi x v Hl)|]. apply NewR; auto. }
      assert (Hx : Zlen (listing x blocks) + Zlen l <= Zlen (R x)).
      { rewrite <- Zlen_app. apply NoDup_bounded; [apply Zlen_nonneg| |].
        - apply NoDup_app2; auto; [destruct x; [destruct I6 as (_ & _ & _ & X & _)|destruct I5 as (_ & _ & _ & X & _)]; exact X|]. intros y Y1 Y2. now apply (Hb y Y2).
        - intros v Hv. apply in_app_or in Hv as [Hv|Hv]; [|now apply Hb]. destruct x; [destruct I6 as (_ & _ & _ & _ & X & _)|destruct I5 as (_ & _ & _ & _ & X & _)]; exact (X v Hv). }
      destruct x; cbn [R vis0] in *; rewrite Zlen_slice by lia; fold m n in Hx; lia. }
    cbn [negb M R bv0 vis0] in E. fold m n in E. fold mx in E. rewrite E.
    destruct (S4 false) as (ordr & O1 & (V1 & V2 & V3 & V4)). destruct (S4 true) as (ordc & O2 & (U1 & U2 & U3 & U4)). cbn [vis0] in V2, U2.
    assert (Hr : forall x l, side_order adj (enc x) (enc false i) l -> forall v, In v l -> 0 <= v < Zlen (R x) /\ ~ In v (listing x blocks)).
    { intros x l (_ & X & _) v Hv. apply X in Hv. split; [apply (reach_side R (fun b => match b with true => HKT | false => HK end) false i Hi x v Hv)|now apply NewR]. }
    destruct (laid_many m sch1 rperm rinv ri _ ordr (vis false) I5 (proj1 O1) (Hr false ordr O1) V2 V3) as (rperm' & P1 & L1). rewrite <- V1 in P1, L1. rewrite P1.
    destruct (laid_many n sch2 cperm cinv ci _ ordc (vis true) I6 (proj1 O2) (Hr true ordc O2) U2 U3) as (cperm' & P2 & L2). rewrite <- U1 in P2, L2. rewrite P2.
    eexists. split; [reflexivity|]. apply (Finish ordr ordc); auto.
    + split; [exact O1|]. split; [exact O2|]. intros r Hr'. destruct (Hr false ordr O1 r Hr') as (Q1 & Q2). destruct (Z_lt_ge_dec r i) as [H|H]; [|lia]. exfalso. apply Q2, I4. lia.
    + split; [rewrite S1; auto|]. split; [rewrite S1; auto|]. rewrite !listing_snoc. cbn [blk_nodes fst snd].
      assert (K : forall x l, side_order adj (enc x) (enc false i) l -> forall v, (In v l -> bit (bv x) v = Some true) /\ (~ In v l -> bit (bv x) v = bit (bv0 x) v)).
      { intros x l (_ & X & _) v. split; intros H; [apply S2, X; auto|]. unfold bit. rewrite S3; auto. intros Y. apply H, X; auto. }
      split; [|split; [|split]].
      * intros v Hv Ev. apply in_or_app. destruct (in_dec Z.eq_dec v ordr) as [H|H]; auto. left. apply B3; auto. rewrite <- Ev. symmetry. now apply (K false ordr O1).
      * intros v Hv Ev. destruct (in_dec Z.eq_dec v ordr) as [H|H]; [now apply (K false ordr O1)|]. apply in_app_or in Hv as [Hv|Hv]; [|contradiction]. rewrite (proj2 (K false ordr O1 v) H). now apply B4.
      * intros v Hv Ev. apply in_or_app. destruct (in_dec Z.eq_dec v ordc) as [H|H]; auto. left. apply B5; auto. rewrite <- Ev. symmetry. now apply (K true ordc O2).
      * intros v Hv. destruct (in_dec Z.eq_dec v ordc) as [H|H]; [now apply (K true ordc O2)|]. apply in_app_or in Hv as [Hv|Hv]; [|contradiction]. rewrite (proj2 (K true ordc O2 v) H). now apply B6.
Qed.

Theorem bfsBipartite_ok bsch1 bsch2 bjunk1 bjunk2 ex ex' rperm rinv cperm cinv :
  Zlen bjunk1 = m -> Zlen bjunk2 = n -> (forall i, Zlen (snd (ex i)) = T - 1) -> Zlen rperm = m -> Zlen rinv = m -> Zlen cperm = n -> Zlen cinv = n ->
  exists rperm' rinv' cperm' cinv', bfsBipartite A AT T bsch1 bsch2 bjunk1 bjunk2 ex ex' rperm rinv cperm cinv = Some (rperm', rinv', cperm', cinv') /\ bi_result rows trows rperm' rinv' cperm' cinv'.
Proof.
  intros J1 J2 Jx L1 L2 L3 L4. unfold bfsBipartite. pose proof HA as (Em & En & _). fold m in Em. rewrite Em, En. assert (Hm : 0 <= m) by apply Zlen_nonneg. assert (Hn : 0 <= n) by apply Zlen_nonneg. fold mx.
  destruct (bv_new_ok bsch1 bjunk1 m Hm J1) as (bv1 & -> & X1 & X2). destruct (bv_new_ok bsch2 bjunk2 n Hn J2) as (bv2 & -> & Y1 & Y2).
  rewrite (rep_base _ _ _ _ _ HA).
  destruct (forZ_rule rows_inv 0 m (fun i => bb_step base T mx (ex i) A AT i) (bv1, bv2, (rperm, rinv, 0), (cperm, cinv, 0)) Hm) as (st & -> & (blocks & HI)).
  { exists []. split; [constructor|]. split; [constructor|]. split; [intros s []|]. split; [lia|]. split; [now apply laid_nil|]. split; [now apply laid_nil|]. split; auto. split; auto. split; [intros v Hv; rewrite X2 by auto; discriminate|]. split; [intros v []|]. split; [intros v Hv; rewrite Y2 by auto; discriminate|intros v []]. }
  { intros i st Hi HI. apply row_step; auto. }
  rewrite (rep_base _ _ _ _ _ HAT). destruct st as (((bv1' & bv2') & ((rperm' & rinv') & ri)) & ((cperm' & cinv') & ci)). destruct HI as (I1 & I2 & I3 & I4 & I5 & I6 & (B1 & B2 & B3 & B4 & B5 & B6)). cbv beta iota delta [bb_swap].
  destruct (forZ_rule (S := bb_state) (fun i st => exists cperm cinv ci last, st = (bv2', bv1', (cperm, cinv, ci), (rperm', rinv', ri)) /\ laid n cperm cinv ci (listing true blocks ++ last) /\ ssortedZ last /\ (forall c, In c last -> c < i /\ cols_of trows c = []) /\ forall c, 0 <= c < i -> In c (listing true blocks ++ last))
     0 n (fun i => bb_step base T mx (ex' i) AT A i) (bv2', bv1', (cperm', cinv', ci), (rperm', rinv', ri)) Hn) as (st & -> & (cperm2 & cinv2 & ci2 & last & -> & K1 & K2 & K3 & K4)).
  { exists cperm', cinv', ci, []. split; auto. rewrite app_nil_r. split; auto. split; [constructor|]. split; [intros c []|lia]. }
  { intros i st Hi (cp & cv & cx & last & -> & K1 & K2 & K3 & K4). unfold bb_step. destruct (ex' i) as (((s1 & s2) & s3) & jk). rewrite bv_get_bit. destruct (bit_cases bv2' i ltac:(lia)) as [Eb|Eb]; rewrite Eb.
    - eexists. split; [reflexivity|]. exists cp, cv, cx, last. split; auto. split; auto. split; auto. split; [intros c Hc; destruct (K3 c Hc); split; auto; lia|]. intros c Hc. destruct (Z.eq_dec c i) as [->|]; [apply in_or_app; left; apply B5; auto|apply K4; lia].
    - rewrite (rep_rowptr_S _ _ _ _ _ _ HAT), (rep_rowptr _ _ _ _ _ _ HAT) by (fold n; lia).
      assert (New : ~ In i (listing true blocks)) by (intros H; rewrite B6 in Eb by auto; discriminate).
      assert (Ec : cols_of trows i = []).
      { destruct (cols_of trows i) as [|r l] eqn:E; auto. exfalso. assert (Hr : In r (cols_of trows i)) by (rewrite E; now left). apply New. destruct (bi_range n m trows eq_refl HKT i r Hr) as (_ & Br). apply (placed_closed true i false r); auto. exists (0 + 1). econstructor; [constructor|]. change (enc false r) with (enc (negb true) r). now apply adj_side. }
      unfold cols_of in Ec. assert (Ez : Zlen (nthl trows i) = 0) by (destruct (nthl trows i); [reflexivity|discriminate]). rewrite Ez. replace (base + (off (nthl trows) i + 0) =? base + off (nthl trows) i) with true by lia.
      destruct (laid_one n cp cv cx _ i K1 Hi) as (cv' & cp' & -> & -> & L'). { intros H. apply in_app_or in H as [H|H]; [auto|]. destruct (K3 i H). lia. }
      eexists. split; [reflexivity|]. exists cp', cv', (cx + 1), (last ++ [i]). split; auto. split; [now rewrite app_assoc|]. split; [apply ssorted_app; auto; [constructor; constructor|]; intros x y Hx [<-|[]]; now apply K3|]. split.
      + intros c Hc. apply in_app_or in Hc as [Hc|[<-|[]]]; [destruct (K3 c Hc); split; auto; lia|]. split; [lia|auto].
      + intros c Hc. rewrite app_assoc. apply in_or_app. destruct (Z.eq_dec c i) as [->|]; [right; now left|left; apply K4; lia]. }
  destruct (laid_all m rperm' rinv' ri _ I5 I4) as (-> & E1 & P1). destruct (laid_all n cperm2 cinv2 ci2 _ K1 K4) as (-> & E2 & P2). rewrite !Z.eqb_refl.
  exists rperm', rinv', cperm2, cinv2. split; auto. split; auto. split; auto. exists blocks, last. split; auto. split; auto. split; auto. split; auto. split; auto. intros c Hc. now apply K3.
Qed.
End Main.

(** ** Worked case and refutation *)
(** Rows 0 and 3 share column 3, row 1 is empty, columns 2 and 4 are empty. *)
Definition bi_case : rows_t Z := [[(1, 5); (3, 6)]; []; [(0, 7)]; [(3, 8)]].
Definition bi_case_t : rows_t Z := [[(2, 7)]; [(0, 5)]; []; [(0, 6); (3, 8)]; []].
Lemma transposed_check {V W} (rows : rows_t V) (trows : rows_t W) :
  forallb (fun r => forallb (fun c => existsb (Z.eqb r) (cols_of trows c)) (cols_of rows r)) (zrange 0 (Zlen rows)) = true ->
  forallb (fun c => forallb (fun r => existsb (Z.eqb c) (cols_of rows r)) (cols_of trows c)) (zrange 0 (Zlen trows)) = true -> transposed rows trows.
Proof.
  assert (G : forall X Y (a : rows_t X) (b : rows_t Y), forallb (fun r => forallb (fun c => existsb (Z.eqb r) (cols_of b c)) (cols_of a r)) (zrange 0 (Zlen a)) = true -> forall r c, In c (cols_of a r) -> In r (cols_of b c)).
  { intros X Y a b H r c Hc. rewrite forallb_forall in H. assert (Br : 0 <= r < Zlen a). { destruct (Z_le_dec 0 r); [destruct (Z_lt_dec r (Zlen a)); [auto|]|]; exfalso; unfold cols_of in Hc; rewrite nth_out in Hc by lia; contradiction. }
    specialize (H r ltac:(now apply In_zrange)). rewrite forallb_forall in H. specialize (H c Hc). apply existsb_exists in H as (y & Hy & E). replace r with y by lia. auto. }
  intros H1 H2 r c. split; [now apply G|now apply G].
Qed.
Lemma rows_ok_check {V} n (rows : rows_t V) : forallb (fun r => forallb (fun e => (0 <=? fst e) && (fst e <? n)) r) rows = true -> rows_ok n rows.
Proof. intros H r c v Hr Hc. rewrite forallb_forall in H. specialize (H r Hr). rewrite forallb_forall in H. specialize (H (c, v) Hc). cbn [fst] in H. lia. Qed.
Lemma bi_case_hyps : rep true 1 (Zlen bi_case_t) bi_case (csr_of 1 5 bi_case) /\ rep true 1 (Zlen bi_case) bi_case_t (csr_of 1 4 bi_case_t) /\ rows_ok (Zlen bi_case_t) bi_case /\ rows_ok (Zlen bi_case) bi_case_t /\ transposed bi_case bi_case_t /\
  (Zlen bi_case_t < Zlen bi_case \/ forall r, 0 <= r < Zlen bi_case -> ~ full_row (Zlen bi_case_t) bi_case r).
Proof.
  split; [apply csr_of_rep|]. split; [apply csr_of_rep|]. split; [apply rows_ok_check; reflexivity|]. split; [apply rows_ok_check; reflexivity|]. split; [apply transposed_check; reflexivity|].
  right. intros r Hr F. change (Zlen bi_case) with 4 in Hr. change (Zlen bi_case_t) with 5 in F. specialize (F 2 ltac:(lia)). assert (r = 0 \/ r = 1 \/ r = 2 \/ r = 3) as [ -> | [ -> | [ -> | -> ]]] by lia; cbn in F; repeat (destruct F as [F|F]; [discriminate|]); contradiction.
Qed.
Definition bi_ex (i : Z) : bb_ex := (fun k => if Nat.even k then [1; 0]%nat else [1; 1; 0; 1; 0]%nat, [2; 0]%nat, [1]%nat, [[7; 7]]).
Lemma bi_case_run : bfsBipartite (csr_of 1 5 bi_case) (csr_of 1 4 bi_case_t) 2 [2; 0]%nat [1]%nat [9; 9; 9; 9] [9; 9; 9; 9; 9] bi_ex bi_ex [8; 8; 8; 8] [8; 8; 8; 8] [8; 8; 8; 8; 8] [8; 8; 8; 8; 8] =
  Some ([0; 2; 3; 1], [0; 3; 1; 2], [2; 0; 3; 1; 4], [1; 3; 0; 2; 4]).
Proof. vm_compute. reflexivity. Qed.
(** A full row: with one thread, rowptrs is written behind its end. *)
Definition bi_full : rows_t Z := [[(0, 1); (1, 2)]; [(0, 3); (1, 4)]].
Definition bi_full_t : rows_t Z := [[(0, 1); (1, 3)]; [(0, 2); (1, 4)]].
Lemma bi_full_run : bfsBipartite (csr_of 0 2 bi_full) (csr_of 0 2 bi_full_t) 1 [] [] [0; 0] [0; 0] (fun _ => (fun _ => [], [], [], [])) (fun _ => (fun _ => [], [], [], [])) [0; 0] [0; 0] [0; 0] [0; 0] = None.
Proof. vm_compute. reflexivity. Qed.
Theorem bi_full_witness : exists (A AT : csr Z) rows trows bsch1 bsch2 bjunk1 bjunk2 ex ex' rperm rinv cperm cinv,
  rep true 0 2 rows A /\ rep true 0 2 trows AT /\ rows_ok 2 rows /\ rows_ok 2 trows /\ transposed rows trows /\ Zlen rows = 2 /\ Zlen trows = 2 /\
  Zlen bjunk1 = 2 /\ Zlen bjunk2 = 2 /\ (forall i, Zlen (snd (ex i)) = 0) /\ Zlen rperm = 2 /\ Zlen rinv = 2 /\ Zlen cperm = 2 /\ Zlen cinv = 2 /\
  bfsBipartite A AT 1 bsch1 bsch2 bjunk1 bjunk2 ex ex' rperm rinv cperm cinv = None.
Proof.
  exists (csr_of 0 2 bi_full), (csr_of 0 2 bi_full_t), bi_full, bi_full_t, [], [], [0; 0], [0; 0], (fun _ => (fun _ => [], [], [], [])), (fun _ => (fun _ => [], [], [], [])), [0; 0], [0; 0], [0; 0], [0; 0].
  split; [apply csr_of_rep|]. split; [apply csr_of_rep|]. split; [apply rows_ok_check; reflexivity|]. split; [apply rows_ok_check; reflexivity|]. split; [apply transposed_check; reflexivity|].
  repeat (split; [reflexivity|]). exact bi_full_run.
Qed.
