(** * Breadth-first ordering (reordering/RCM.cpp:970-1117).

    Modelled: the whole function, in either index base, for any number of threads
    and any threshold between the serial and the parallel search (PAR_THR in the
    code).  findConnectedComponentsWithBitVector is an argument, a function of the
    bit vector; BfsPermWhole.v puts the one of ComponentsBv.v there.  The [omp for] at :1023 is
    outside any parallel region: the loop runs on one thread.
    Not modelled: the assertion :976, counters, time measurement. *)
From Coq Require Import Permutation Relations.
From Verif Require Import Base Interleave Spec PermUtils Flat Csr CsrOps Levels LevelsMain SplitLU RowPar Transpose CsrTools UnionFind Components BinIO LevelsCsr BitVector Bfs ParBfs Rcm.

(** ** Cuthill-McKee orders are breadth-first orders *)
Section CmBfs.
Variables (adj : Z -> list Z) (deg : Z -> Z) (s : Z).

Definition cm_mono (o : list Z) : Prop := forall i j u v k k', i < j -> get o i = Some u -> get o j = Some v -> dist adj s u k -> dist adj s v k' -> k <= k'.
Lemma cm_levels d o : cm_run adj deg s d o -> cm_mono o /\
  forall u l, get o d = Some u -> dist adj s u l -> (forall v k, In v o -> dist adj s v k -> k <= l + 1) /\ (forall v k, dist adj s v k -> k <= l -> In v o).
Proof.
  induction 1 as [|d o u ch H (M & IH) Hu N C B].
  - split; [intros i j u v k k' Hij Gi Gj; apply get_Some_bounds in Gi; apply get_Some_bounds in Gj; change (Zlen [s]) with 1 in *; lia|].
    intros u l E D. injection E as <-. assert (l = 0) as -> by (eapply dist_unique; eauto; now apply dist_0). split.
    + intros v k [<-|[]] D'. rewrite (dist_unique _ _ _ _ _ D' D). lia.
    + intros v k D' Hk. pose proof (dist_nonneg _ _ _ _ D'). replace k with 0 in D' by lia. apply dist_0 in D'. now left.
  - destruct (cm_facts _ _ _ _ _ H) as (F1 & F2 & F3 & F4 & F5). destruct (reach_dist _ _ _ (F4 u (get_In _ _ _ Hu))) as (l & Dl). destruct (IH u l Hu Dl) as (U1 & U2).
    assert (HC : forall v, In v ch -> dist adj s v (l + 1)).
    { intros v Hv. apply C in Hv as (Hv & No). destruct (dist_step _ _ _ _ _ Dl Hv) as (k & D & Hk). destruct (Z.eq_dec k (l + 1)) as [<-|]; auto. exfalso. apply No. apply (U2 v k); auto. lia. }
    assert (HM : cm_mono (o ++ ch)).
    { intros i j a b k k' Hij Gi Gj Da Db. destruct (Z_lt_ge_dec j (Zlen o)) as [Hj|Hj].
      - pose proof (get_Some_bounds _ _ _ Gi). rewrite get_app_l in Gi, Gj by lia. exact (M i j a b k k' Hij Gi Gj Da Db).
      - pose proof (get_Some_bounds _ _ _ Gi). pose proof (get_Some_bounds _ _ _ Gj). rewrite get_app_r in Gj by lia. apply get_In in Gj. apply HC in Gj. rewrite (dist_unique _ _ _ _ _ Db Gj). destruct (Z_lt_ge_dec i (Zlen o)) as [Hi|Hi].
        + rewrite get_app_l in Gi by lia. apply get_In in Gi. eapply U1; eauto.
        + rewrite get_app_r in Gi by lia. apply get_In in Gi. apply HC in Gi. rewrite (dist_unique _ _ _ _ _ Da Gi). lia. }
    split; auto. intros u' l' E' D'. pose proof (get_Some_bounds _ _ _ Hu) as Bu.
    assert (Hl : l <= l'). { apply (HM d (d + 1) u u' l l'); auto; [lia|]. rewrite get_app_l by lia. auto. }
    assert (Hl' : l' <= l + 1). { apply get_In in E'. apply in_app_or in E' as [E'|E']; [eapply U1; eauto|]. apply HC in E'. rewrite (dist_unique _ _ _ _ _ D' E'). lia. }
    split.
    + intros v k Hv D. apply in_app_or in Hv as [Hv|Hv]; [pose proof (U1 v k Hv D); lia|]. rewrite (dist_unique _ _ _ _ _ D (HC v Hv)). lia.
    + intros v k D Hk. destruct (Z_le_gt_dec k l) as [Hkl|Hkl]; [apply in_or_app; left; eapply U2; eauto|]. assert (k = l + 1) by lia. subst k. assert (l' = l + 1) by lia. subst l'.
      destruct (dist_pred adj s v l (dist_nonneg _ _ _ _ Dl) D) as (w & Dw & Hw).
      assert (Iw : In w o) by (apply (U2 w l); auto; lia). apply In_get in Iw as (i & Hi & Gi). destruct (Z_lt_ge_dec i (d + 1)) as [Hid|Hid].
      * destruct (cm_facts adj deg s (d + 1) (o ++ ch)) as (_ & _ & _ & _ & X); [econstructor; eauto|]. apply (X i w v); auto. rewrite get_app_l by lia. auto.
      * exfalso. destruct (Z.eq_dec i (d + 1)) as [->|Ni].
        -- rewrite get_app_l in E' by lia. assert (u' = w) by congruence. subst u'. pose proof (dist_unique _ _ _ _ _ D' Dw). lia.
        -- assert (l + 1 <= l); [|lia]. apply (HM (d + 1) i u' w); auto; [lia|]. rewrite get_app_l by lia. auto.
Qed.
Theorem cm_order_bfs o : cm_order adj deg s o -> bfs_order adj s o.
Proof.
  intros H. destruct (cm_order_reach _ _ _ _ H) as (N & _ & R). destruct (cm_levels _ _ H) as (M & _). split; auto.
Qed.
End CmBfs.

(** ** Model *)
(** Writing the list [l] into [w] from position [p] on. *)
Definition bp_write (p : Z) (l w : list Z) : option (list Z) := foldM (fun '(k, v) w => set w (p + k) v) (combine (zrange 0 (Zlen l)) l) w.

Section Model.
Context {V : Type}.
Variable A : csr V.
Variables (base T thr : Z).

(** perm[inversePerm[offset + i]] = offset + i (:995, :1075, :1105) *)
Definition bp_index1 (inv : list Z) (offset i : Z) (perm : list Z) : option (list Z) := v <- get inv (offset + i) ;; set perm v (offset + i).

(** :1031-1067, the nodes to place for a singleton or a pair; None: neither. *)
Definition bp_short (i : Z) : option (option (list Z)) :=
  b <- get (rowptr A) i ;; e <- get (rowptr A) (i + 1) ;;
  if e =? b then Some (Some [i])
  else if e =? b + 1 then
    u' <- get (colidx A) (b - base) ;; let u := u' - base in
    if u =? i then Some (Some [i])
    else ub <- get (rowptr A) u ;; ue <- get (rowptr A) (u + 1) ;;
         if ue =? ub + 1 then w <- get (colidx A) (ub - base) ;; Some (if w - base =? i then Some [i; u] else None)
         else Some None
  else if e =? b + 2 then
    c0 <- get (colidx A) (b - base) ;; c1 <- get (colidx A) (b + 1 - base) ;;
    let u := if c0 - base =? i then c1 - base else if c1 - base =? i then c0 - base else -1 in
    if u =? -1 then Some None
    else ub <- get (rowptr A) u ;; ue <- get (rowptr A) (u + 1) ;;
         if ue =? ub + 2 then
           w0 <- get (colidx A) (ub - base) ;; w1 <- get (colidx A) (ub + 1 - base) ;;
           Some (if ((w0 - base =? u) && (w1 - base =? i)) || ((w1 - base =? u) && (w0 - base =? i)) then Some [i; u] else None)
         else Some None
  else Some None.

(** :1024-1077, one small component.  [nf] is nNodesinFirstComp. *)
Definition bp_small (cc : cc_result) (nf : Z) (bv : list Z) (c : Z) (s : list Z * list Z * list Z) : option (list Z * list Z * list Z) :=
  let '(levels, perm, inv) := s in
  i <- get (cc_roots cc) c ;; start <- get (cc_starts cc) c ;; size <- get (cc_sizes cc) c ;;
  let offset := start + nf in
  if thr <=? size then Some s
  else b <- bv_get bv i ;;
    if b then Some s
    else
      sc <- bp_short i ;;
      match sc with
      | Some ns =>
          inv <- bp_write offset ns inv ;;
          perm <- foldM (fun '(k, v) perm => set perm v (offset + k)) (combine (zrange 0 (Zlen ns)) ns) perm ;;
          Some (levels, perm, inv)
      | None =>
          comp <- mapM (fun k => get (cc_nodes cc) (start + k)) (zrange 0 size) ;;
          levels <- foldM (fun v levels => set levels v (-1)) comp levels ;;
          ' (_, levels, vis) <- bfs_serial A base i levels ;;
          inv <- bp_write offset vis inv ;;
          perm <- forZ 0 size (bp_index1 inv offset) perm ;;
          Some (levels, perm, inv)
      end.

(** :1086-1107, one large component; the search writes to inversePerm + offset.
    [sch], [isch]: schedules of the search and of the loop :1104; [junk]: what the
    arrays of aux contain. *)
Definition bp_large (cc : cc_result) (nf : Z) (sch : nat -> list nat) (isch : list nat) (junk : list (list Z)) (c : Z) (s : list Z * list Z * list Z) : option (list Z * list Z * list Z) :=
  let '(bv, perm, inv) := s in
  i <- get (cc_roots cc) c ;; start <- get (cc_starts cc) c ;; size <- get (cc_sizes cc) c ;;
  let offset := start + nf in
  if size <? thr then Some s
  else b <- bv_get bv i ;;
    if b then Some s
    else
      if (0 <=? offset) && (offset <=? Zlen inv) then
        r <- bfs_par A base T false true None sch i [] bv (slice inv offset (Zlen inv)) 0 junk ;;
        let inv := slice inv 0 offset ++ pb_vis r in
        perm <- par_any isch (bp_index1 inv offset) 0 size perm ;;
        Some (pb_bv r, perm, inv)
      else None.
End Model.

(** :978-991, the first search.  [sch (-1)], [junk (-1)]: its schedules and what
    the arrays of aux contain. *)
Definition first_search {V} (A : csr V) (T : Z) (bsch : list nat) (bjunk : list Z) (sch : Z -> nat -> list nat) (junk : Z -> list (list Z)) (inv : list Z) : option pb_result :=
  base <- getBase A ;;
  bv <- bv_new bsch bjunk (cm A) ;;
  bfs_par A base T false true None (sch (-1)) 0 [] bv inv 0 (junk (-1)).
(** :970-1117.  [sch], [isch] and [junk] give, for the first search (-1) and for each
    component, schedules and memory contents; [comps] is
    findConnectedComponentsWithBitVector. *)
Definition getBFSPermutation {V} (A : csr V) (T thr : Z) (bsch : list nat) (bjunk : list Z) (sch : Z -> nat -> list nat) (isch : Z -> list nat) (junk : Z -> list (list Z))
  (comps : list Z -> option cc_result) (levels perm inv : list Z) : option (list Z * list Z) :=
  if cm A =? cn A then
    r <- first_search A T bsch bjunk sch junk inv ;;
    let nf := pb_nvis r in let inv := pb_vis r in
    perm <- par_any (isch (-1)) (bp_index1 inv 0) 0 nf perm ;;
    if nf =? cm A then Some (perm, inv)
    else
      cc <- comps (pb_bv r) ;;
      base <- getBase A ;;
      ' (_, perm, inv) <- forZ 0 (cc_n cc) (bp_small A base thr cc nf (pb_bv r)) (levels, perm, inv) ;;
      ' (_, perm, inv) <- forZ 0 (cc_n cc) (fun c => bp_large A base T thr cc nf (sch c) (isch c) (junk c) c) (pb_bv r, perm, inv) ;;
      Some (perm, inv)
  else None.

(** ** Specification *)
(** The result: [roots] are the smallest nodes of the components, in increasing
    order; the new order is breadth-first from them, component by component. *)
Definition bfs_result {V} (rows : rows_t V) (perm inv : list Z) : Prop :=
  let adj := cols_of rows in
  inverse_perms (Zlen rows) perm inv /\
  exists roots orders, ssortedZ roots /\ (forall s v, In s roots -> reach adj s v -> s <= v) /\
    Forall2 (bfs_order adj) roots orders /\ inv = concat orders.

(** ** Proofs *)
Lemma bp_write_ok p l w : 0 <= p -> p + Zlen l <= Zlen w -> exists w', bp_write p l w = Some w' /\ Zlen w' = Zlen w /\
  (forall k v, get l k = Some v -> get w' (p + k) = Some v) /\ (forall q, q < p \/ p + Zlen l <= q -> get w' q = get w q).
Proof.
  intros Hp HL. unfold bp_write.
  assert (G : forall (l : list Z) a (w : list Z), 0 <= a -> p + a + Zlen l <= Zlen w -> exists w', foldM (fun '(k, v) w => set w (p + k) v) (combine (zrange a (a + Zlen l)) l) w = Some w' /\ Zlen w' = Zlen w /\
    (forall k v, get l k = Some v -> get w' (p + a + k) = Some v) /\ (forall q, q < p + a \/ p + a + Zlen l <= q -> get w' q = get w q)).
  { clear l w HL. induction l as [|x l IH]; intros a w Ha HL.
    - change (Zlen (@nil Z)) with 0. rewrite zrange_nil by lia. exists w. split; [reflexivity|]. split; auto. split; auto. intros k v E. apply get_Some_bounds in E. change (Zlen (@nil Z)) with 0 in E. lia.
    - rewrite Zlen_cons in *. pose proof (Zlen_nonneg l). rewrite zrange_cons by lia. cbn [combine foldM]. destruct (set_ok w (p + a) x ltac:(lia)) as (w1 & E1). rewrite E1. pose proof (set_len _ _ _ _ E1) as L1. destruct (IH (a + 1) w1) as (w' & E & L & G1 & G2); [lia|lia|]. replace (a + (1 + Zlen l)) with (a + 1 + Zlen l) by lia. exists w'. split; auto. split; [lia|]. split.
      + intros k v Ek. pose proof (get_Some_bounds _ _ _ Ek). destruct (Z.eq_dec k 0) as [->|N].
        * rewrite get_cons_0 in Ek. injection Ek as ->. rewrite Z.add_0_r, G2 by lia. apply (get_set_same _ _ _ _ E1).
        * rewrite get_cons_pos in Ek by lia. apply G1 in Ek. rewrite <- Ek. f_equal. lia.
      + intros q Hq. rewrite G2 by lia. apply (get_set_other _ _ _ _ _ E1). lia. }
  destruct (G l 0 w ltac:(lia) ltac:(lia)) as (w' & E & L & G1 & G2). rewrite Z.add_0_l in E. exists w'. split; auto. split; auto. split; [|intros q Hq; apply G2; lia]. intros k v Ek. apply G1 in Ek. rewrite <- Ek. f_equal. lia.
Qed.

Section Place.
Variable m : Z.
(** The nodes [o] are placed from [offset] on, the rest is as in [perm0], [inv0]. *)
Definition fplaced (offset : Z) (perm0 inv0 o perm inv : list Z) : Prop :=
  Zlen perm = m /\ Zlen inv = m /\
  (forall k v, get o k = Some v -> get inv (offset + k) = Some v /\ get perm v = Some (offset + k)) /\
  (forall p, p < offset \/ offset + Zlen o <= p -> get inv p = get inv0 p) /\ (forall v, ~ In v o -> get perm v = get perm0 v).

(** perm after any order of the assignments *)
Lemma index_order offset (o perm inv is : list Z) : Zlen perm = m -> (forall k v, get o k = Some v -> get inv (offset + k) = Some v) -> NoDup o -> (forall v, In v o -> 0 <= v < m) ->
  NoDup is -> (forall i, In i is <-> 0 <= i < Zlen o) ->
  exists perm', foldM (bp_index1 inv offset) is perm = Some perm' /\ Zlen perm' = m /\ (forall k v, get o k = Some v -> get perm' v = Some (offset + k)) /\ (forall v, ~ In v o -> get perm' v = get perm v).
Proof.
  intros Lp Hi N Ho Ni His.
  destruct (order_inv (fun done p => Zlen p = m /\ (forall k v, In k done -> get o k = Some v -> get p v = Some (offset + k)) /\ (forall v, ~ In v o -> get p v = get perm v)) (bp_index1 inv offset) is perm) as (p' & done & E & (I1 & I2 & I3) & Hd); auto.
  - split; auto. split; auto. intros k v [].
  - intros done i p Hi' Nd Hd (I1 & I2 & I3). unfold bp_index1. apply His in Hi'. destruct (get_in_range o i Hi') as (v & Ev). rewrite (Hi i v Ev). destruct (set_ok p v (offset + i)) as (p' & E'); [rewrite I1; apply Ho; eapply get_In; eauto|]. rewrite E'. exists p'. split; auto. split; [rewrite (set_len _ _ _ _ E'); auto|]. split.
    + intros k w Hk Ek. destruct (Z.eq_dec w v) as [->|Nw].
      * pose proof (NoDup_get_inj _ _ _ _ N Ek Ev). subst k. apply (get_set_same _ _ _ _ E').
      * rewrite (get_set_other _ _ _ _ _ E') by auto. destruct Hk as [<-|Hk]; [congruence|]. now apply I2.
    + intros w Hw. rewrite (get_set_other _ _ _ _ _ E'); auto. intros ->. apply Hw. eapply get_In; eauto.
  - exists p'. split; auto. split; auto. split; auto. intros k v Ek. apply I2; auto. apply Hd, His. eapply get_Some_bounds; eauto.
Qed.
Lemma index_par sch offset o perm inv : Zlen perm = m -> (forall k v, get o k = Some v -> get inv (offset + k) = Some v) -> NoDup o -> (forall v, In v o -> 0 <= v < m) ->
  exists perm', par_any sch (bp_index1 inv offset) 0 (Zlen o) perm = Some perm' /\ Zlen perm' = m /\ (forall k v, get o k = Some v -> get perm' v = Some (offset + k)) /\ (forall v, ~ In v o -> get perm' v = get perm v).
Proof.
  intros. unfold par_any, par. assert (P : Permutation (merge sch (map (fun i => [i]) (zrange 0 (Zlen o)))) (zrange 0 (Zlen o))) by (rewrite merge_perm, concat_singletons; reflexivity).
  apply index_order; auto; [eapply Permutation_NoDup; [apply Permutation_sym; eauto|apply NoDup_zrange]|]. intros i. rewrite <- In_zrange. split; apply Permutation_in; auto. now apply Permutation_sym.
Qed.
Lemma index_seq offset o perm inv : Zlen perm = m -> (forall k v, get o k = Some v -> get inv (offset + k) = Some v) -> NoDup o -> (forall v, In v o -> 0 <= v < m) ->
  exists perm', forZ 0 (Zlen o) (bp_index1 inv offset) perm = Some perm' /\ Zlen perm' = m /\ (forall k v, get o k = Some v -> get perm' v = Some (offset + k)) /\ (forall v, ~ In v o -> get perm' v = get perm v).
Proof. intros. unfold forZ. apply index_order; auto; [apply NoDup_zrange|]. intros i. apply In_zrange. Qed.
Lemma index_list offset o perm : Zlen perm = m -> NoDup o -> (forall v, In v o -> 0 <= v < m) ->
  exists perm', foldM (fun '(k, v) perm => set perm v (offset + k)) (combine (zrange 0 (Zlen o)) o) perm = Some perm' /\ Zlen perm' = m /\ (forall k v, get o k = Some v -> get perm' v = Some (offset + k)) /\ (forall v, ~ In v o -> get perm' v = get perm v).
Proof.
  intros Lp N Ho.
  destruct (order_inv (fun done p => Zlen p = m /\ (forall k v, In (k, v) done -> get p v = Some (offset + k)) /\ (forall v, ~ In v o -> get p v = get perm v)) (fun '(k, v) perm => set perm v (offset + k)) (combine (zrange 0 (Zlen o)) o) perm) as (p' & done & E & (I1 & I2 & I3) & Hd).
  - apply NoDup_from_get. intros i j (k & v) Ei Ej. apply get_combine in Ei as (Ei & Ei'). apply get_combine in Ej as (Ej & Ej'). eapply NoDup_get_inj; eauto.
  - split; auto. split; auto. intros k v [].
  - intros done (k & v) p Hi Nd Hd (I1 & I2 & I3). assert (Hk : forall k v, In (k, v) (combine (zrange 0 (Zlen o)) o) -> get o k = Some v).
    { intros k' v' H. apply In_get in H as (q & Hq & H). apply get_combine in H as (H1 & H2). rewrite get_zrange in H1 by (pose proof (get_Some_bounds _ _ _ H2); lia). injection H1 as H1. replace k' with q by lia. auto. }
    pose proof (Hk k v Hi) as Ek. destruct (set_ok p v (offset + k)) as (p' & E'); [rewrite I1; apply Ho; eapply get_In; eauto|]. exists p'. split; auto. split; [rewrite (set_len _ _ _ _ E'); auto|]. split.
    + intros k' w Hw. destruct (Z.eq_dec w v) as [->|Nw].
      * assert (get o k' = Some v) as Ek' by (destruct Hw as [Hw|Hw]; [injection Hw as <-; auto|apply Hk; now apply Hd]). pose proof (NoDup_get_inj _ _ _ _ N Ek Ek'). subst k'. apply (get_set_same _ _ _ _ E').
      * rewrite (get_set_other _ _ _ _ _ E') by auto. destruct Hw as [Hw|Hw]; [congruence|]. now apply I2.
    + intros w Hw. rewrite (get_set_other _ _ _ _ _ E'); auto. intros ->. apply Hw. eapply get_In; eauto.
  - exists p'. split; auto. split; auto. split; auto. intros k v Ek. apply I2. apply Hd. apply (get_In _ k). apply get_combine. pose proof (get_Some_bounds _ _ _ Ek). rewrite get_zrange by lia. split; auto.
Qed.
End Place.

(** *** Blocks *)
Section Blocks.
Variables (m : Z) (adj : Z -> list Z) (rs : list Z) (gs : list (list Z)).
Let G := nthl gs.
Let K := Zlen gs.
Hypothesis HLr : Zlen rs = K.
Hypothesis HN : NoDup (flat G K).
Hypothesis HI : forall v, In v (flat G K) <-> 0 <= v < m.
Hypothesis Hm : 0 <= m.
Hypothesis HG : forall c s, get rs c = Some s -> 0 <= s < m /\ forall v, In v (G c) <-> reach adj s v.

Lemma bk_K : 0 <= K.
Proof using. apply Zlen_nonneg. Qed.
Lemma bk_total : off G K = m.
Proof using HN HI Hm. clear HG HLr adj rs.
  rewrite <- Zlen_flat by apply bk_K. transitivity (Zlen (zrange 0 m)); [|rewrite Zlen_zrange; lia]. unfold Zlen. f_equal. apply Permutation_length. apply NoDup_Permutation; auto; [apply NoDup_zrange|]. intros v. rewrite HI, In_zrange. reflexivity.
Qed.
Lemma bk_disj c c' v : 0 <= c < K -> 0 <= c' < K -> In v (G c) -> In v (G c') -> c = c'.
Proof using HN. clear HG HLr HI Hm adj rs m.
  intros Hc Hc' H H'. apply In_get in H as (k & Hk & E). apply In_get in H' as (k' & Hk' & E'). rewrite <- (get_flat G K) in E, E' by auto. pose proof (NoDup_get_inj _ _ _ _ HN E E') as X. apply off_unique in X; try lia.
Qed.
Lemma bk_NoDup c : 0 <= c < K -> NoDup (G c).
Proof using HN. clear HG HLr HI Hm adj rs m.
  intros Hc. apply NoDup_from_get. intros i j v Ei Ej. pose proof (get_Some_bounds _ _ _ Ei). pose proof (get_Some_bounds _ _ _ Ej). rewrite <- (get_flat G K) in Ei, Ej by auto. pose proof (NoDup_get_inj _ _ _ _ HN Ei Ej). lia.
Qed.
Lemma bk_off c : 0 <= c < K -> 0 <= off G c /\ off G c + Zlen (G c) <= m.
Proof using HN HI Hm. clear HG HLr adj rs. intros Hc. split; [apply off_nonneg|]. rewrite <- off_S, <- bk_total by lia. apply off_mono. lia. Qed.
Lemma bk_len c s o : 0 <= c < K -> get rs c = Some s -> bfs_order adj s o -> Zlen o = Zlen (G c) /\ forall v, In v o <-> In v (G c).
Proof using HN HG. clear HLr HI Hm.
  intros Hc E (N & R & _). destruct (HG c s E) as (_ & X). assert (Y : forall v, In v o <-> In v (G c)) by (intros v; now rewrite R, X). split; auto. apply Zlen_same; auto. now apply bk_NoDup.
Qed.

Definition blocks_done (D : Z -> Prop) (pm iv : list Z) : Prop := Zlen pm = m /\ Zlen iv = m /\
  forall c s, D c -> get rs c = Some s -> exists o, bfs_order adj s o /\ forall k v, get o k = Some v -> get iv (off G c + k) = Some v /\ get pm v = Some (off G c + k).
Lemma blocks_step D c s o pm iv pm' iv' : blocks_done D pm iv -> get rs c = Some s -> bfs_order adj s o -> fplaced m (off G c) pm iv o pm' iv' -> blocks_done (fun c' => c' = c \/ D c') pm' iv'.
Proof using HLr HN HG. clear HI Hm.
  intros (L1 & L2 & HD) Es Ho (P1 & P2 & P3 & P4 & P5). split; auto. split; auto. assert (Hc : 0 <= c < K) by (rewrite <- HLr; eapply get_Some_bounds; eauto). intros c' s' Hc' Es'. destruct (Z.eq_dec c' c) as [->|Ncc]; [replace s' with s by congruence; eauto|]. destruct Hc' as [|Hc']; [congruence|].
  assert (Hc'' : 0 <= c' < K) by (rewrite <- HLr; eapply get_Some_bounds; eauto). destruct (HD c' s' Hc' Es') as (o' & Ho' & O2). exists o'. split; auto. intros k v Ek. destruct (O2 k v Ek) as (Q1 & Q2).
  destruct (bk_len c s o Hc Es Ho) as (Lo & Io). destruct (bk_len c' s' o' Hc'' Es' Ho') as (Lo' & Io'). pose proof (get_Some_bounds _ _ _ Ek) as Bk. split.
  - rewrite P4; auto. rewrite Lo, <- off_S by lia. destruct (Z_lt_ge_dec c c') as [H|H].
    + right. pose proof (off_mono G (c + 1) c' ltac:(lia)). lia.
    + left. pose proof (off_mono G (c' + 1) c ltac:(lia)) as X. rewrite off_S in X by lia. lia.
  - rewrite P5; auto. intros Hv. apply Ncc. symmetry. apply (bk_disj c c' v); auto; [now apply Io|]. apply Io'. eapply get_In; eauto.
Qed.
Lemma blocks_weaken (D D' : Z -> Prop) pm iv : (forall c, 0 <= c < K -> D' c -> D c) -> blocks_done D pm iv -> blocks_done D' pm iv.
Proof. intros H (L1 & L2 & HD). split; auto. split; auto. intros c s Hc E. apply HD; auto. apply H; auto. rewrite <- HLr. eapply get_Some_bounds; eauto. Qed.
Lemma blocks_all pm iv : blocks_done (fun _ => True) pm iv -> inverse_perms m pm iv /\ exists orders, Forall2 (bfs_order adj) rs orders /\ iv = concat orders.
Proof.
  intros (L1 & L2 & HD). pose proof bk_K as K0.
  assert (HO : forall c, 0 <= c < K -> exists s o, get rs c = Some s /\ bfs_order adj s o /\ Zlen o = Zlen (G c) /\ (forall v, In v o <-> In v (G c)) /\ forall k v, get o k = Some v -> get iv (off G c + k) = Some v /\ get pm v = Some (off G c + k)).
  { intros c Hc. destruct (get_in_range rs c ltac:(lia)) as (s & Es). destruct (HD c s I Es) as (o & O1 & O2). destruct (bk_len c s o Hc Es O1). eauto 10. }
  assert (HP : forall v, 0 <= v < m -> exists p, get pm v = Some p /\ get iv p = Some v).
  { intros v Hv. apply HI, In_get in Hv as (p & Hp & Ep). rewrite Zlen_flat in Hp by lia. destruct (flat_locate G K p K0 Hp) as (c & k & Hc & Hk & ->). rewrite get_flat in Ep by auto. destruct (HO c Hc) as (s & o & _ & _ & _ & X & O2). assert (Hv : In v o) by (apply X; eapply get_In; eauto). apply In_get in Hv as (j & Hj & Ej). destruct (O2 j v Ej). eauto. }
  assert (HQ : forall p, 0 <= p < m -> exists v, get iv p = Some v /\ get pm v = Some p).
  { intros p Hp. destruct (flat_locate G K p K0 ltac:(rewrite bk_total; lia)) as (c & k & Hc & Hk & ->). destruct (HO c Hc) as (s & o & _ & _ & Lo & X & O2). destruct (get_in_range o k ltac:(lia)) as (v & Ev). destruct (O2 k v Ev) as (Q1 & Q2). eauto. }
  split; [split; [exact L1|split; [exact L2|split; [exact HP|exact HQ]]]|].
  assert (HF : forall n, 0 <= n -> n <= K -> exists orders, Zlen orders = n /\ forall c o, get orders c = Some o -> exists s, get rs c = Some s /\ bfs_order adj s o /\ Zlen o = Zlen (G c) /\ forall k v, get o k = Some v -> get iv (off G c + k) = Some v).
  { intros n Hn. pattern n. revert n Hn. apply Z_ind0; [intros _; exists []; split; [reflexivity|]; intros c o X; apply get_Some_bounds in X; change (Zlen (@nil (list Z))) with 0 in X; lia|].
    intros n Hn IH Hn1. destruct IH as (os & Lo & Ho); [lia|]. destruct (HO n ltac:(lia)) as (s & o & X1 & X2 & X3 & _ & X4). exists (os ++ [o]). rewrite Zlen_app. change (Zlen [o]) with 1. split; [lia|]. intros c o' Ec. pose proof (get_Some_bounds _ _ _ Ec) as B. rewrite Zlen_app in B. change (Zlen [o]) with 1 in B. destruct (Z_lt_ge_dec c (Zlen os)) as [H|H]; [rewrite get_app_l in Ec by lia; auto|]. assert (c = n) by lia. subst c. rewrite get_app_r in Ec by lia. replace (n - Zlen os) with 0 in Ec by lia. injection Ec as <-. exists s. split; auto. split; auto. split; auto. intros k v Ek. now apply X4. }
  destruct (HF K K0 ltac:(lia)) as (orders & Lo & Ho). exists orders. split.
  - apply Forall2_get; [lia|]. intros c s o Es Eo. destruct (Ho c o Eo) as (s' & X1 & X2 & _). replace s with s' by congruence. exact X2.
  - assert (Og' : forall c, 0 <= c -> c <= K -> off (nthl orders) c = off G c).
    { intros c Hc. pattern c. revert c Hc. apply Z_ind0; [intros; now rewrite !off_0|]. intros c Hc IH Hc1. rewrite !off_S, IH by lia. f_equal. destruct (get_in_range orders c ltac:(lia)) as (o & Eo). rewrite (nthl_get _ _ _ Eo). now destruct (Ho c o Eo) as (s & _ & _ & X & _). }
    assert (Lc : Zlen (concat orders) = m) by (rewrite concat_flat, Zlen_flat, Lo, Og' by lia; exact bk_total).
    apply list_ext; [lia|]. intros p Hp. rewrite concat_flat, Lo. destruct (flat_locate G K p K0 ltac:(rewrite bk_total; lia)) as (c & k & Hc & Hk & Ep). rewrite Ep. rewrite <- (Og' c) by lia.
    destruct (get_in_range orders c ltac:(lia)) as (o & Eo). destruct (Ho c o Eo) as (s & _ & _ & X & O2). rewrite get_flat by (rewrite ?(nthl_get _ _ _ Eo); lia). rewrite (nthl_get _ _ _ Eo). destruct (get_in_range o k ltac:(lia)) as (v & Ev). rewrite Ev, Og' by lia. now apply O2.
Qed.
End Blocks.

(** *** One component *)
Section Proof.
Context {V : Type}.
Variables (A : csr V) (hasv : bool) (base : Z) (rows : rows_t V).
Let m := Zlen rows.
Hypothesis HR : rep hasv base m rows A.
Hypothesis HK : rows_ok m rows.
Let adj := cols_of rows.
Hypothesis ND : forall u, NoDup (adj u).

Lemma shift_rowptr k : get (rowptr A) k = option_map (fun x => base + x) (get (rowptr (csr_of 0 m rows)) k).
Proof.
  pose proof HR as (_ & _ & -> & _). cbn [csr_of rowptr]. unfold rowptr_of. rewrite !get_map. destruct (get (zrange 0 (Zlen rows + 1)) k); [|reflexivity]. cbn [option_map]. now rewrite Z.add_0_l.
Qed.
Lemma shift_colidx k : get (colidx A) k = option_map (fun x => x + base) (get (colidx (csr_of 0 m rows)) k).
Proof.
  pose proof HR as (_ & _ & _ & -> & _). cbn [csr_of colidx]. unfold colidx_of. rewrite !get_map. destruct (get (concat rows) k); [|reflexivity]. cbn [option_map]. now rewrite Z.add_0_r.
Qed.
Lemma bp_short_shift i : bp_short A base i = rcm_short (csr_of 0 m rows) i.
Proof.
  unfold bp_short, rcm_short. set (A0 := csr_of 0 m rows). rewrite !shift_rowptr. fold A0. destruct (get (rowptr A0) i) as [b|]; [|reflexivity]. destruct (get (rowptr A0) (i + 1)) as [e|]; [|reflexivity]. cbn [option_map].
  replace (base + e =? base + b) with (e =? b) by lia. replace (base + e =? base + b + 1) with (e =? b + 1) by lia. replace (base + e =? base + b + 2) with (e =? b + 2) by lia.
  replace (base + b - base) with b by lia. replace (base + b + 1 - base) with (b + 1) by lia. destruct (e =? b); [reflexivity|]. destruct (e =? b + 1).
  - rewrite shift_colidx. fold A0. destruct (get (colidx A0) b) as [u|]; [|reflexivity]. cbn [option_map]. replace (u + base - base) with u by lia. destruct (u =? i); [reflexivity|]. rewrite !shift_rowptr. fold A0. destruct (get (rowptr A0) u) as [ub|]; [|reflexivity]. destruct (get (rowptr A0) (u + 1)) as [ue|]; [|reflexivity]. cbn [option_map].
    replace (base + ue =? base + ub + 1) with (ue =? ub + 1) by lia. destruct (ue =? ub + 1); [|reflexivity]. replace (base + ub - base) with ub by lia. rewrite shift_colidx. fold A0. destruct (get (colidx A0) ub) as [w|]; [|reflexivity]. cbn [option_map]. now replace (w + base - base) with w by lia.
  - destruct (e =? b + 2); [|reflexivity]. rewrite !shift_colidx. fold A0. destruct (get (colidx A0) b) as [c0|]; [|reflexivity]. destruct (get (colidx A0) (b + 1)) as [c1|]; [|reflexivity]. cbn [option_map]. replace (c0 + base - base) with c0 by lia. replace (c1 + base - base) with c1 by lia. cbv zeta. set (u := if c0 =? i then c1 else if c1 =? i then c0 else -1). destruct (u =? -1); [reflexivity|].
    rewrite !shift_rowptr. fold A0. destruct (get (rowptr A0) u) as [ub|]; [|reflexivity]. destruct (get (rowptr A0) (u + 1)) as [ue|]; [|reflexivity]. cbn [option_map]. replace (base + ue =? base + ub + 2) with (ue =? ub + 2) by lia. destruct (ue =? ub + 2); [|reflexivity]. replace (base + ub - base) with ub by lia. replace (base + ub + 1 - base) with (ub + 1) by lia.
    rewrite !shift_colidx. fold A0. destruct (get (colidx A0) ub) as [w0|]; [|reflexivity]. destruct (get (colidx A0) (ub + 1)) as [w1|]; [|reflexivity]. cbn [option_map]. replace (w0 + base - base) with w0 by lia. now replace (w1 + base - base) with w1 by lia.
Qed.
Lemma bp_short_ok i : 0 <= i < m -> exists sc, bp_short A base i = Some sc /\ match sc with Some ns => bfs_order adj i ns | None => True end.
Proof.
  intros Hi. rewrite bp_short_shift. destruct (short_ok (csr_of 0 m rows) true rows (csr_of_rep 0 m rows) HK i Hi ND) as (sc & E & H). exists sc. split; auto. destruct sc; auto. eapply cm_order_bfs; eauto.
Qed.

Section Component.
Variables (thr T : Z) (cc : cc_result) (nf c s start : Z) (g : list Z).
Hypothesis E1 : get (cc_roots cc) c = Some s.
Hypothesis E2 : get (cc_starts cc) c = Some start.
Hypothesis E3 : get (cc_sizes cc) c = Some (Zlen g).
Hypothesis Hs : 0 <= s < m.
Hypothesis Hg : forall v, In v g <-> reach adj s v.
Hypothesis Ng : NoDup g.
Hypothesis Ho : 0 <= start + nf /\ start + nf + Zlen g <= m.

Lemma bp_range v : reach adj s v -> 0 <= v < m.
Proof using HK Hs. exact (reach_range rows HK s v Hs). Qed.
Lemma bp_len o : bfs_order adj s o -> Zlen o = Zlen g.
Proof using Hg Ng. intros (N & R & _). apply Zlen_same; auto. intros v. now rewrite R, Hg. Qed.

Lemma bp_small_ok bv levels perm inv : Zlen g < thr -> bit bv s = Some false -> (forall k, 0 <= k < Zlen g -> get (cc_nodes cc) (start + k) = get g k) -> Zlen levels = m -> Zlen perm = m -> Zlen inv = m ->
  exists levels' perm' inv' o, bp_small A base thr cc nf bv c (levels, perm, inv) = Some (levels', perm', inv') /\ Zlen levels' = m /\ bfs_order adj s o /\ fplaced m (start + nf) perm inv o perm' inv'.
Proof.
  intros Hsz Hb E4 L Lp Li. unfold bp_small. rewrite E1, E2, E3. replace (thr <=? Zlen g) with false by lia. rewrite bv_get_bit, Hb.
  destruct (bp_short_ok s Hs) as (sc & Es & Hsc). rewrite Es. destruct sc as [ns|].
  - pose proof (bp_len ns Hsc) as Ln. pose proof Hsc as (N & R & _). destruct (bp_write_ok (start + nf) ns inv) as (inv' & W1 & W2 & W3 & W4); try lia. rewrite W1.
    destruct (index_list m (start + nf) ns perm Lp N) as (perm' & P1 & P2 & P3 & P4); [intros v Hv; apply bp_range; now apply R|]. rewrite P1. exists levels, perm', inv', ns. do 3 (split; [now auto|]). split; auto. split; [lia|]. split; [split; auto|]. split; auto.
  - replace (mapM (fun k => get (cc_nodes cc) (start + k)) (zrange 0 (Zlen g))) with (Some g).
    2:{ symmetry. rewrite (mapM_Some _ (fun k => match get g k with Some v => v | None => 0 end)).
      * f_equal. apply list_ext; [rewrite Zlen_map, Zlen_zrange; pose proof (Zlen_nonneg g); lia|]. intros k Hk. rewrite Zlen_map, Zlen_zrange in Hk. rewrite get_map, get_zrange by lia. cbn [option_map]. rewrite Z.add_0_l. destruct (get_in_range g k ltac:(lia)) as (v & ->). reflexivity.
      * intros k Hk. apply In_zrange in Hk. rewrite E4 by lia. destruct (get_in_range g k ltac:(lia)) as (v & ->). reflexivity. }
    destruct (mark_all rows g levels L) as (l1 & M1 & M2 & M3); [intros v Hv; apply bp_range; now apply Hg|]. rewrite M1.
    destruct (bfs_serial_ok A hasv base rows HR HK s l1 Hs M2) as (n & l2 & vis & B1 & _ & (B2 & _) & B3); [intros v Hv; apply M3; now apply Hg|]. rewrite B1.
    pose proof (bp_len vis B3) as Ln. pose proof B3 as (N & R & _). destruct (bp_write_ok (start + nf) vis inv) as (inv' & W1 & W2 & W3 & W4); try lia. rewrite W1. rewrite <- Ln.
    destruct (index_seq m (start + nf) vis perm inv' Lp W3 N) as (perm' & P1 & P2 & P3 & P4); [intros v Hv; apply bp_range; now apply R|]. rewrite P1. exists l2, perm', inv', vis. split; auto. split; [fold m in M2; lia|]. split; auto. split; auto. split; [lia|]. split; [split; auto|]. split; auto.
Qed.

Lemma bp_large_ok sch isch junk bv perm inv : thr <= Zlen g -> 1 <= T -> 2 <= T * m -> Zlen junk = T - 1 -> Zlen bv = m -> (forall v, reach adj s v -> bit bv v = Some false) -> Zlen perm = m -> Zlen inv = m ->
  exists bv' perm' inv' o, bp_large A base T thr cc nf sch isch junk c (bv, perm, inv) = Some (bv', perm', inv') /\ Zlen bv' = m /\ (forall v, ~ reach adj s v -> bit bv' v = bit bv v) /\ bfs_order adj s o /\ fplaced m (start + nf) perm inv o perm' inv'.
Proof using HR HK E1 E2 E3 Hs Hg Ng Ho. clear ND.
  intros Hsz HT HTm Lj Lb Hb Lp Li. unfold bp_large. rewrite E1, E2, E3. replace (Zlen g <? thr) with false by lia. rewrite bv_get_bit, (Hb s) by (exists 0; constructor). pose proof (Zlen_nonneg g). replace ((0 <=? start + nf) && (start + nf <=? Zlen inv)) with true by lia.
  assert (Lv : Zlen (slice inv (start + nf) (Zlen inv)) = Zlen inv - (start + nf)) by (apply Zlen_slice; lia).
  destruct (bfs_par_ok A hasv base rows HR HK T false true HT s Hs None bv [] (slice inv (start + nf) (Zlen inv))) with (sch := sch) (width := 0) (junk := junk) as (r & Er & S1 & S2 & S3 & S4 & S5 & S6 & S7); auto; [fold m; lia|discriminate| |].
  { intros _ l Nl Hl. rewrite Lv. assert (Zlen l <= Zlen g); [|lia]. unfold Zlen. apply inj_le. apply NoDup_incl_length; auto. intros v Hv. apply Hg. now apply Hl. }
  rewrite Er. destruct S7 as [(n & _ & S7)|(_ & X)]; [|congruence]. destruct S7 as (_ & _ & _ & Q & _). destruct (Q eq_refl) as (ord & O1 & O2 & O3 & O4 & O5). pose proof (bp_len ord O1) as Ln. pose proof O1 as (N & R & _).
  assert (L0 : Zlen (slice inv 0 (start + nf)) = start + nf) by (rewrite Zlen_slice; lia). set (inv' := slice inv 0 (start + nf) ++ pb_vis r) in *.
  assert (I1 : forall k v, get ord k = Some v -> get inv' (start + nf + k) = Some v). { intros k v Ek. pose proof (get_Some_bounds _ _ _ Ek). unfold inv'. rewrite get_app_r by lia. rewrite L0. replace (start + nf + k - (start + nf)) with k by lia. rewrite O4 by lia. auto. }
  destruct (index_par m isch (start + nf) ord perm inv' Lp I1 N) as (perm' & P1 & P2 & P3 & P4); [intros v Hv; apply bp_range; now apply R|]. rewrite <- Ln, P1. exists (pb_bv r), perm', inv', ord. split; auto. split; [lia|]. split.
  { intros v Hv. unfold bit. destruct (S4 v Hv) as (-> & _). reflexivity. }
  split; auto. split; auto. split; [unfold inv'; rewrite Zlen_app; lia|]. split; [intros k v Ek; split; auto|]. split; auto.
  intros p Hp. unfold inv'. destruct (Z_lt_ge_dec p 0) as [Hn|Hn]; [rewrite !get_out; auto; lia|]. destruct (Z_lt_ge_dec p (start + nf)) as [Hq|Hq].
  - rewrite get_app_l by lia. rewrite get_slice by lia. f_equal; lia.
  - rewrite get_app_r by lia. rewrite L0, O5 by lia. destruct (Z_lt_ge_dec p m) as [Hpm|Hpm]; [rewrite get_slice by lia; f_equal; lia|]. rewrite !get_out by lia. reflexivity.
Qed.
End Component.
End Proof.

(** *** The whole function *)
Lemma nthl_cons {B} (x : list B) ls c : 0 <= c -> nthl (x :: ls) (c + 1) = nthl ls c.
Proof. intros H. unfold nthl. now rewrite get_cons_S. Qed.
Lemma off_cons {B} (x : list B) ls c : 0 <= c -> off (nthl (x :: ls)) (c + 1) = Zlen x + off (nthl ls) c.
Proof.
  intros H. pattern c. revert c H. apply Z_ind0.
  - rewrite off_S by lia. rewrite !off_0. change (nthl (x :: ls) 0) with x. lia.
  - intros c Hc IH. rewrite off_S, IH, nthl_cons, (off_S _ c) by lia. lia.
Qed.

Section Total.
Context {V : Type}.
Variables (A : csr V) (hasv : bool) (base : Z) (rows : rows_t V).
Let m := Zlen rows.
Hypothesis HR : rep hasv base m rows A.
Hypothesis HK : rows_ok m rows.
Let adj := cols_of rows.
Hypothesis HSym : symmetric_adj adj.
Hypothesis ND : forall u, NoDup (adj u).
Variables (T thr : Z) (bsch : list nat) (bjunk : list Z) (sch : Z -> nat -> list nat) (isch : Z -> list nat) (junk : Z -> list (list Z)) (comps : list Z -> option cc_result) (levels perm inv : list Z).
Hypothesis HT : 1 <= T.
Hypothesis Hm : 1 <= m.
Hypothesis HTm : 2 <= T * m.
Hypothesis Lb : Zlen bjunk = m.
Hypothesis Lj : forall c, Zlen (junk c) = T - 1.
Hypothesis Ll : Zlen levels = m.
Hypothesis Lp : Zlen perm = m.
Hypothesis Li : Zlen inv = m.

(** What the first search leaves: the component of node 0 is visited and marked. *)
Lemma first_ok : exists r ord, first_search A T bsch bjunk sch junk inv = Some r /\ Zlen (pb_bv r) = m /\ Zlen (pb_vis r) = m /\
  (forall v, 0 <= v < m -> (bit (pb_bv r) v = Some false <-> ~ reach adj 0 v)) /\
  NoDup ord /\ (forall v, In v ord <-> reach adj 0 v) /\ bfs_order adj 0 ord /\ pb_nvis r = Zlen ord /\
  (forall k, 0 <= k < Zlen ord -> get (pb_vis r) k = get ord k) /\ (forall k, ~ 0 <= k < Zlen ord -> get (pb_vis r) k = get inv k).
Proof.
  unfold first_search. pose proof HR as (Hcm & Hcn & _). rewrite Hcm, (rep_base _ _ _ _ _ HR). fold m.
  destruct (bv_new_ok bsch bjunk m ltac:(lia) Lb) as (bv & Ebv & Lbv & Cbv). rewrite Ebv.
  assert (Rg0 : forall s v, 0 <= s < m -> reach adj s v -> 0 <= v < m) by (intros s v Hs; exact (reach_range rows HK s v Hs)).
  destruct (bfs_par_ok A hasv base rows HR HK T false true HT 0 ltac:(fold m; lia) None bv [] inv) with (sch := sch (-1)) (width := 0) (junk := junk (-1)) as (r & Er & S1 & S2 & S3 & S4 & S5 & S6 & S7); auto; [fold m; lia|intros v Hv; apply Cbv; apply (Rg0 0); auto; lia|discriminate| |].
  { intros _ l Nl Hl. rewrite Li. apply NoDup_bounded; auto; [lia|]. intros v Hv. apply (Rg0 0); auto. lia. }
  destruct S7 as [(n & _ & S7)|(_ & X)]; [|congruence]. destruct S7 as (_ & Sb & _ & Q & _). destruct (Q eq_refl) as (ord & O1 & O2 & O3 & O4 & O5). pose proof O1 as (No & Ro & _). change (cols_of rows) with adj in Ro, O1, S4.
  exists r, ord. rewrite Er. split; auto. split; [lia|]. split; [lia|]. split; [|split; [auto|]; split; [auto|]; split; [auto|]; split; [auto|]; split; [auto|]; intros k Hk; destruct (Z_lt_ge_dec k 0); [rewrite !get_out by lia; auto|apply O5; lia]].
  intros v Hv. destruct (in_dec Z.eq_dec v ord) as [H|H]; rewrite Ro in H.
  - rewrite (Sb v H). split; [discriminate|tauto].
  - split; auto. intros _. unfold bit. destruct (S4 v H) as (-> & _). now apply Cbv.
Qed.

Hypothesis HL : forall r, first_search A T bsch bjunk sch junk inv = Some r ->
  (forall v, 0 <= v < m -> reach adj 0 v) \/ exists cc, comps (pb_bv r) = Some cc /\ rest_listing m (fun v => ~ reach adj 0 v) (connected (edges_of rows)) cc.

Theorem bfs_perm_ok : exists perm' inv', getBFSPermutation A T thr bsch bjunk sch isch junk comps levels perm inv = Some (perm', inv') /\ bfs_result rows perm' inv'.
Proof.
  unfold getBFSPermutation. pose proof HR as (Hcm & Hcn & _). rewrite Hcm, Hcn. fold m. rewrite Z.eqb_refl.
  assert (Rg0 : forall s v, 0 <= s < m -> reach adj s v -> 0 <= v < m) by (intros s v Hs; exact (reach_range rows HK s v Hs)).
  destruct first_ok as (r & ord & Er & Sb1 & Sv & Scl & No & Ro & O1 & O2 & O4 & O5). specialize (HL r Er). rewrite Er, O2.
  assert (I1 : forall k v, get ord k = Some v -> get (pb_vis r) (0 + k) = Some v). { intros k v Ek. pose proof (get_Some_bounds _ _ _ Ek). rewrite Z.add_0_l, O4 by lia. auto. }
  destruct (index_par m (isch (-1)) 0 ord perm (pb_vis r) Lp I1 No) as (pm & P1 & P2 & P3 & P4); [intros v Hv; apply (Rg0 0); [lia|now apply Ro]|]. rewrite P1.
  assert (FP : fplaced m 0 perm inv ord pm (pb_vis r)). { split; auto. split; [lia|]. split; [split; auto|]. split; auto. intros p Hp. apply O5. lia. }
  assert (Rr : reach adj 0 0) by (exists 0; constructor).
  destruct (Zlen ord =? m) eqn:En.
  - apply Z.eqb_eq in En. exists pm, (pb_vis r). split; auto.
    assert (HI : forall v, In v (flat (nthl [ord]) (Zlen [ord])) <-> 0 <= v < m).
    { intros v. rewrite <- concat_flat. cbn [concat]. rewrite app_nil_r. split; [intros Hv; apply (Rg0 0); [lia|now apply Ro]|]. intros Hv.
      assert (Pm : forall x, In x (zrange 0 m) -> In x ord). { apply NoDup_length_incl; auto; [|intros x Hx; apply In_zrange; apply (Rg0 0); [lia|now apply Ro]]. apply Nat2Z.inj_le. fold (Zlen (zrange 0 m)) (Zlen ord). rewrite Zlen_zrange. lia. }
      apply Pm. now apply In_zrange. }
    assert (HG : forall c s, get [0] c = Some s -> 0 <= s < m /\ forall v, In v (nthl [ord] c) <-> reach adj s v).
    { intros c s E. pose proof (get_Some_bounds _ _ _ E) as B. change (Zlen [0]) with 1 in B. assert (c = 0) by lia. subst c. injection E as <-. split; [lia|]. intros v. change (nthl [ord] 0) with ord. apply Ro. }
    destruct (blocks_all m adj [0] [ord] eq_refl) with (pm := pm) (iv := pb_vis r) as (Hinv & orders & F & Ec); auto; [rewrite <- concat_flat; cbn [concat]; now rewrite app_nil_r|lia| |].
    + apply (blocks_weaken m adj [0] [ord] eq_refl (fun c => c = 0 \/ False)); [change (Zlen [ord]) with 1; intros; lia|]. apply (blocks_step m adj [0] [ord] eq_refl) with (s := 0) (o := ord) (pm := perm) (iv := inv); auto.
      * rewrite <- concat_flat. cbn [concat]. now rewrite app_nil_r.
      * split; auto. split; auto. intros c s [].
    + split; auto. exists [0], orders. split; [constructor; constructor|]. split; auto. intros s v [<-|[]] Hv. apply Rg0 in Hv; lia.
  - apply Z.eqb_neq in En. destruct HL as [HL'|(cc & Ecc & HL')].
    { exfalso. apply En. transitivity (Zlen (zrange 0 m)); [|rewrite Zlen_zrange; lia]. apply Zlen_same; auto; [apply NoDup_zrange|]. intros v. rewrite In_zrange, Ro. split; auto. apply Rg0. lia. }
    rewrite Ecc, (rep_base _ _ _ _ _ HR). destruct HL' as (gs & L1 & L2 & L3 & L4 & L5 & L6 & L7 & L8 & L9 & L10). set (K := cc_n cc) in *. assert (K0 : 0 <= K) by (rewrite <- L1; apply Zlen_nonneg).
    set (G := nthl gs). set (G' := nthl (ord :: gs)). set (rs := 0 :: cc_roots cc).
    assert (Lr : Zlen (cc_roots cc) = K) by (rewrite <- L1, <- (Zlen_map Some), L5, Zlen_map; reflexivity).
    assert (HLr : Zlen rs = Zlen (ord :: gs)) by (unfold rs; rewrite !Zlen_cons; lia).
    assert (HN : NoDup (flat G' (Zlen (ord :: gs)))). { unfold G'. rewrite <- concat_flat. cbn [concat]. apply NoDup_app2; auto. intros x H1 H2. apply L9 in H2 as (_ & H2). apply H2. now apply Ro. }
    assert (HI : forall v, In v (flat G' (Zlen (ord :: gs))) <-> 0 <= v < m).
    { intros v. unfold G'. rewrite <- concat_flat. cbn [concat]. rewrite in_app_iff, L9. split; [intros [H|(H & _)]; auto; apply (Rg0 0); [lia|now apply Ro]|]. intros Hv. destruct (in_dec Z.eq_dec v ord) as [H|H]; auto. right. split; auto. now rewrite <- Ro. }
    rewrite concat_flat, L1 in L2, L8, L9. fold G in L2, L8, L9.
    assert (Dj : forall c c' v, 0 <= c < K -> 0 <= c' < K -> In v (G c) -> In v (G c') -> c = c').
    { intros c c' v Hc Hc' H H'. apply (bk_disj gs) with (v := v); rewrite ?L1; auto. }
    assert (In_G : forall c v, 0 <= c < K -> In v (G c) -> 0 <= v < m /\ ~ reach adj 0 v). { intros c v Hc Hv. apply L9. apply In_get in Hv as (k & Hk & E). apply (get_In _ (off G c + k)). now rewrite get_flat. }
    assert (Rt : forall c s, get (cc_roots cc) c = Some s -> get (G c) 0 = Some s).
    { intros c s E. pose proof (get_Some_bounds _ _ _ E) as B. assert (X : get (map Some (cc_roots cc)) c = get (map (@hd_error Z) gs) c) by now rewrite L5. rewrite !get_map in X. rewrite (get_nthl gs c) in X by lia. fold (G c) in X. rewrite E in X. cbn [option_map] in X. injection X as X. destruct (G c); [discriminate X|]. injection X as ->. reflexivity. }
    assert (RG : forall c s, get (cc_roots cc) c = Some s -> 0 <= s < m /\ forall v, In v (G c) <-> reach adj s v).
    { intros c s Es. pose proof (Rt c s Es) as E. assert (Hc : 0 <= c < K) by (rewrite <- Lr; eapply get_Some_bounds; eauto). destruct (In_G c s Hc (get_In _ _ _ E)) as (Hs & Hns). split; auto. intros v. change adj with (cols_of rows). rewrite <- (connected_reach rows s v HSym). split.
      - intros Hv. destruct (In_G c v Hc Hv) as (Bv & Nv). apply L10; auto. exists (G c). split; [apply (get_In _ c); apply get_nthl; lia|]. split; auto. eapply get_In; eauto.
      - intros Hv. pose proof Hv as Hv'. apply (connected_reach rows s v HSym) in Hv'. assert (Bv : 0 <= v < m) by (apply (Rg0 s); auto). assert (Nv : ~ reach adj 0 v). { intros X. apply Hns. eapply reach_trans; eauto. apply reach_sym; auto. } apply L10 in Hv as (g & Hg & Hsg & Hvg); auto. apply In_get in Hg as (c' & Hc' & Ec'). assert (g = G c') by (symmetry; now apply nthl_get). subst g. assert (c = c') as ->; auto. apply (Dj c c' s); auto; [lia|]. eapply get_In; eauto. }
    assert (HG : forall c s, get rs c = Some s -> 0 <= s < m /\ forall v, In v (G' c) <-> reach adj s v).
    { intros c s E. pose proof (get_Some_bounds _ _ _ E) as B. destruct (Z.eq_dec c 0) as [->|Nc].
      - injection E as <-. split; [lia|]. intros v. apply Ro.
      - unfold rs in E. rewrite get_cons_pos in E by lia. replace c with (c - 1 + 1) by lia. unfold G'. rewrite nthl_cons by lia. now apply RG. }
    assert (Og : forall c, 0 <= c -> off G' (c + 1) = off G c + Zlen ord) by (intros c Hc; unfold G', G; rewrite off_cons by lia; lia).
    assert (Sz : forall c, 0 <= c < K -> exists s, get (cc_roots cc) c = Some s /\ get rs (c + 1) = Some s /\ get (cc_sizes cc) c = Some (Zlen (G c)) /\ get (cc_starts cc) c = Some (off G c)).
    { intros c Hc. destruct (get_in_range (cc_roots cc) c ltac:(lia)) as (s & Es). exists s. split; auto. split; [unfold rs; rewrite get_cons_S by lia; auto|]. split; [rewrite L3, get_map, get_nthl by lia; reflexivity|]. rewrite L4 by auto. rewrite L3, zsum_lens by lia. reflexivity. }
    assert (Kc : Zlen (ord :: gs) = K + 1) by (rewrite Zlen_cons; lia).
    assert (Of : forall c, 0 <= c < K -> 0 <= off G c + Zlen ord /\ off G c + Zlen ord + Zlen (G c) <= m).
    { intros c Hc. rewrite <- Og by lia. pose proof (bk_off m (ord :: gs) HN HI ltac:(lia) (c + 1) ltac:(lia)) as X. rewrite nthl_cons in X by lia. exact X. }
    assert (Ng : forall c, 0 <= c < K -> NoDup (G c)). { intros c Hc. apply (bk_NoDup gs); rewrite ?L1; auto. }
    assert (D0 : blocks_done m adj rs (ord :: gs) (fun c => c = 0) pm (pb_vis r)).
    { apply (blocks_weaken m adj rs (ord :: gs) HLr (fun c => c = 0 \/ False)); [auto|]. apply (blocks_step m adj rs (ord :: gs) HLr HN HG) with (s := 0) (o := ord) (pm := perm) (iv := inv); auto. split; auto. split; auto. intros c s []. }
    assert (Cb : forall c v, 0 <= c < K -> In v (G c) -> bit (pb_bv r) v = Some false). { intros c v Hc Hv. destruct (In_G c v Hc Hv) as (Bv & Nv). now apply Scl. }
    (* small components *)
    destruct (forZ_rule (fun i '(lv, pm, iv) => Zlen lv = m /\ blocks_done m adj rs (ord :: gs) (fun c' => c' = 0 \/ c' <= i /\ Zlen (G' c') < thr) pm iv) 0 K (bp_small A base thr cc (Zlen ord) (pb_bv r)) (levels, pm, pb_vis r)) as (((lv & pm1) & iv1) & E1 & Llv & D1); auto.
    { split; auto. apply (blocks_weaken m adj rs (ord :: gs) HLr (fun c => c = 0)); auto. intros c Hc [->|(H & _)]; lia. }
    { intros c ((lv & pm1) & iv1) Hc (Hlv & HD). destruct (Sz c Hc) as (s & X1 & X2 & X3 & X4). destruct (RG c s X1) as (Hs & Xg). destruct (Z_lt_ge_dec (Zlen (G c)) thr) as [Hsm|Hsm].
      - pose proof HD as (Lpm & Liv & _). destruct (bp_small_ok A hasv base rows HR HK ND thr cc (Zlen ord) c s (off G c) (G c) X1 X4 X3 Hs Xg (Ng c Hc) (Of c Hc) (pb_bv r) lv pm1 iv1) as (lv' & pm' & iv' & o & Y1 & Y2 & Y3 & Y4); auto; [apply (Cb c); auto; apply Xg; exists 0; constructor|intros k Hk; rewrite L2; [now apply get_flat|]|].
        { pose proof (off_nonneg G c). pose proof (off_mono G (c + 1) K ltac:(lia)) as OM. rewrite off_S in OM by lia. rewrite Zlen_flat; lia. }
        exists (lv', pm', iv'). split; auto. split; auto. apply (blocks_weaken m adj rs (ord :: gs) HLr (fun c' => c' = c + 1 \/ (c' = 0 \/ c' <= c /\ Zlen (G' c') < thr))); [intros c' Hc' [->|(Z1 & Z2)]; [auto|]; destruct (Z.eq_dec c' (c + 1)); auto; right; right; split; [lia|auto]|].
        apply (blocks_step m adj rs (ord :: gs) HLr HN HG) with (s := s) (o := o) (pm := pm1) (iv := iv1); auto. fold G'. rewrite Og by lia. exact Y4.
      - exists (lv, pm1, iv1). unfold bp_small. rewrite X1, X4, X3. replace (thr <=? Zlen (G c)) with true by lia. split; auto. split; auto. apply (blocks_weaken m adj rs (ord :: gs) HLr (fun c' => c' = 0 \/ c' <= c /\ Zlen (G' c') < thr)); auto. intros c' Hc' [->|(Z1 & Z2)]; auto. right. split; auto. destruct (Z.eq_dec c' (c + 1)) as [->|]; [|lia]. exfalso. unfold G' in Z2. rewrite nthl_cons in Z2 by lia. fold G in Z2. lia. }
    rewrite E1.
    (* large components *)
    destruct (forZ_rule (fun i '(bv, pm, iv) => Zlen bv = m /\ (forall c v, i <= c < K -> In v (G c) -> bit bv v = Some false) /\ blocks_done m adj rs (ord :: gs) (fun c' => c' <= i \/ Zlen (G' c') < thr) pm iv) 0 K
      (fun c => bp_large A base T thr cc (Zlen ord) (sch c) (isch c) (junk c) c) (pb_bv r, pm1, iv1)) as (((bv2 & pm2) & iv2) & E2 & Lbv2 & _ & D2); auto.
    { split; [lia|]. split; auto. apply (blocks_weaken m adj rs (ord :: gs) HLr (fun c' => c' = 0 \/ c' <= K /\ Zlen (G' c') < thr)); auto. rewrite Kc. intros c Hc [H|H]; [left; lia|right; split; auto; lia]. }
    { intros c ((bv2 & pm2) & iv2) Hc (Hbv & HC & HD). destruct (Sz c Hc) as (s & X1 & X2 & X3 & X4). destruct (RG c s X1) as (Hs & Xg). destruct (Z_lt_ge_dec (Zlen (G c)) thr) as [Hsm|Hsm].
      - exists (bv2, pm2, iv2). unfold bp_large. rewrite X1, X4, X3. replace (Zlen (G c) <? thr) with true by lia. split; auto. split; auto. split; [intros c' v Hc'; apply HC; lia|]. apply (blocks_weaken m adj rs (ord :: gs) HLr (fun c' => c' <= c \/ Zlen (G' c') < thr)); auto. intros c' Hc' [Z1|Z2]; auto. destruct (Z.eq_dec c' (c + 1)) as [->|]; [|lia]. right. unfold G'. rewrite nthl_cons by lia. fold G. lia.
      - pose proof HD as (Lpm & Liv & _). destruct (bp_large_ok A hasv base rows HR HK thr T cc (Zlen ord) c s (off G c) (G c) X1 X4 X3 Hs Xg (Ng c Hc) (Of c Hc) (sch c) (isch c) (junk c) bv2 pm2 iv2) as (bv' & pm' & iv' & o & Y1 & Y2 & Y2' & Y3 & Y4); auto; [lia|intros v Hv; apply (HC c); [lia|now apply Xg]|].
        exists (bv', pm', iv'). split; auto. split; auto. split.
        + intros c' v Hc' Hv. rewrite Y2'; [apply (HC c'); auto; lia|]. intros Rv. apply Xg in Rv. assert (c = c') by (apply (Dj c c' v); auto; lia). lia.
        + apply (blocks_weaken m adj rs (ord :: gs) HLr (fun c' => c' = c + 1 \/ (c' <= c \/ Zlen (G' c') < thr))); [intros c' Hc' [Z1|Z2]; [destruct (Z.eq_dec c' (c + 1)); auto; right; left; lia|auto]|].
          apply (blocks_step m adj rs (ord :: gs) HLr HN HG) with (s := s) (o := o) (pm := pm2) (iv := iv2); auto. fold G'. rewrite Og by lia. exact Y4. }
    rewrite E2. exists pm2, iv2. split; auto.
    destruct (blocks_all m adj rs (ord :: gs) HLr HN HI ltac:(lia) HG pm2 iv2) as (Hinv & orders & F & Ec). { apply (blocks_weaken m adj rs (ord :: gs) HLr (fun c' => c' <= K \/ Zlen (G' c') < thr)); auto. rewrite Kc. intros c Hc _. left. lia. }
    split; auto. exists rs, orders. split; [|split; [|split; auto]].
    + constructor; auto. apply Forall_forall. intros x Hx. apply In_get in Hx as (c & Hc & E). rewrite Lr in Hc. pose proof (Rt c x E) as E'. destruct (In_G c x Hc (get_In _ _ _ E')) as (Bx & Nx). destruct (Z.eq_dec x 0) as [->|]; [contradiction|lia].
    + intros s v [<-|Hs] Hv; [apply Rg0 in Hv; lia|]. apply In_get in Hs as (c & Hc & E). rewrite Lr in Hc. pose proof (Rt c s E) as E'. destruct (RG c s E) as (_ & Xg). apply Xg in Hv. assert (SG : ssortedZ (G c)) by (apply L7, (get_In _ c), get_nthl; lia). destruct (G c) as [|a l]; [contradiction|]. injection E' as ->. inversion SG as [|a' l' _ HF]. destruct Hv as [->|Hv]; [lia|]. rewrite Forall_forall in HF. specialize (HF v Hv). lia.
Qed.
End Total.

(** ** Worked cases *)
(** The matrix of Rcm.v, 1-based, three threads.  Components 0-3-5-6, 1, 2-7, 4;
    with threshold 2 the pair 2-7 is searched in parallel. *)
Definition bp_case_cc : cc_result := mkCC 3 [1; 2; 4] [1; 2; 1] [0; 1; 3; 99] [1; 2; 7; 4; 99; 99; 99; 99].
Definition bp_case_sch (k : nat) : list nat := [2; 0; 1; 1; 0; 2; 2; k]%nat.
Definition pb_case (setl outv : bool) (sc : option Z) : option pb_result :=
  bfs_par rcm_case_A 1 3 setl outv sc bp_case_sch 6 (repeat (-1) 8) (repeat 0 8) (repeat 77 8) 0 [[]; []].
Lemma pb_case_result : pb_case true true None = Some (mkPB 5 [1; 0; 0; 1; 0; 1; 1; 0] [2; -1; -1; 1; -1; 3; 0; -1] [6; 3; 0; 5; 77; 77; 77; 77] 4 1 [[]; []; [5]]).
Proof. vm_compute. reflexivity. Qed.
Lemma pb_case_short : pb_case false false (Some 0) = Some (mkPB (-1) [0; 0; 0; 0; 0; 0; 1; 0] (repeat (-1) 8) (repeat 77 8) 0 1 [[]; []; []]).
Proof. vm_compute. reflexivity. Qed.
Definition bp_case (thr : Z) : option (list Z * list Z) :=
  getBFSPermutation rcm_case_A 3 thr [] (repeat 5 8) (fun _ => bp_case_sch) (fun _ => [2; 1]%nat) (fun _ => [[]; []]) (fun _ => Some bp_case_cc) (repeat 55 8) (repeat 66 8) (repeat 77 8).
Lemma bp_case_result : bp_case 2 = Some ([0; 4; 5; 1; 7; 2; 3; 6], [0; 3; 5; 6; 1; 2; 7; 4]).
Proof. vm_compute. reflexivity. Qed.

(** Reachability decided by a closed set. *)
Lemma reach_in (adj : Z -> list Z) s g : In s g -> forallb (fun u => forallb (fun v => existsb (Z.eqb v) g) (adj u)) g = true -> forall v, reach adj s v -> In v g.
Proof.
  intros Hs H v (k & W). induction W as [|k u v W IH Hv]; auto. rewrite forallb_forall in H. specialize (H u IH). rewrite forallb_forall in H. specialize (H v Hv). apply existsb_exists in H as (x & Hx & E). apply Z.eqb_eq in E. now subst.
Qed.
Lemma bp_case_listing : rest_listing 8 (fun v => ~ reach (cols_of rcm_case) 0 v) (connected (edges_of rcm_case)) bp_case_cc.
Proof.
  assert (HSym : symmetric_adj (cols_of rcm_case)) by apply rcm_case_hyps.
  assert (R0 : forall v, reach (cols_of rcm_case) 0 v <-> In v [0; 3; 5; 6]).
  { intros v. split; [apply reach_in; [now left|reflexivity]|]. assert (S : forall u w k, walk (cols_of rcm_case) 0 k u -> In w (cols_of rcm_case u) -> walk (cols_of rcm_case) 0 (k + 1) w) by (intros; econstructor; eauto).
    assert (W0 : walk (cols_of rcm_case) 0 0 0) by constructor. assert (W3 : walk (cols_of rcm_case) 0 1 3) by (apply (S 0 3 0 W0); vm_compute; tauto). assert (W5 : walk (cols_of rcm_case) 0 1 5) by (apply (S 0 5 0 W0); vm_compute; tauto). assert (W6 : walk (cols_of rcm_case) 0 2 6) by (apply (S 3 6 1 W3); vm_compute; tauto).
    intros [<-|[<-|[<-|[<-|[]]]]]; eexists; eauto. }
  exists [[1]; [2; 7]; [4]]. split; [reflexivity|]. split; [intros k Hk; change (Zlen (concat [[1]; [2; 7]; [4]])) with 4 in Hk; assert (H : k = 0 \/ k = 1 \/ k = 2 \/ k = 3) by lia; destruct H as [->|[->|[->| ->]]]; reflexivity|]. split; [reflexivity|].
  split; [intros c Hc; change (cc_n bp_case_cc) with 3 in Hc; assert (H : c = 0 \/ c = 1 \/ c = 2) by lia; destruct H as [->|[->| ->]]; reflexivity|]. split; [reflexivity|].
  split; [repeat constructor|]. split; [intros g [<-|[<-|[<-|[]]]]; repeat constructor|]. split; [repeat constructor; cbn; lia|]. split.
  - intros v. rewrite R0. cbn [concat app In]. lia.
  - intros x y Hx Hy Nx Ny. rewrite R0 in Nx, Ny. rewrite (connected_reach rcm_case x y HSym).
    assert (C : forall z, 0 <= z < 8 -> ~ In z [0; 3; 5; 6] -> z = 1 \/ z = 2 \/ z = 7 \/ z = 4) by (intros z H1 H2; cbn [In] in H2; lia).
    assert (Z27 : reach (cols_of rcm_case) 2 7) by (exists (0 + 1); econstructor; [constructor|]; vm_compute; tauto).
    assert (Rf : forall z, reach (cols_of rcm_case) z z) by (intros z; exists 0; constructor). split.
    + intros R. destruct (C x Hx Nx) as [->|[->|[->| ->]]].
      * apply (reach_in _ 1 [1]) in R; [|now left|reflexivity]. exists [1]. cbn in *. tauto.
      * apply (reach_in _ 2 [2; 7]) in R; [|now left|reflexivity]. exists [2; 7]. cbn in *. tauto.
      * apply (reach_in _ 7 [2; 7]) in R; [|right; now left|reflexivity]. exists [2; 7]. cbn in *. tauto.
      * apply (reach_in _ 4 [4]) in R; [|now left|reflexivity]. exists [4]. cbn in *. tauto.
    + intros (g & Hg & Gx & Gy). destruct Hg as [<-|[<-|[<-|[]]]]; cbn in Gx, Gy.
      * replace x with 1 by lia. replace y with 1 by lia. auto.
      * destruct Gx as [<-|[<-|[]]], Gy as [<-|[<-|[]]]; auto. now apply reach_sym.
      * replace x with 4 by lia. replace y with 4 by lia. auto.
Qed.
Lemma pb_case_hyps : forall v, reach (cols_of rcm_case) 6 v -> bit (repeat 0 8) v = Some false.
Proof.
  intros v R. apply (reach_in _ 6 [0; 3; 5; 6]) in R; [|cbn; auto|reflexivity]. destruct R as [<-|[<-|[<-|[<-|[]]]]]; reflexivity.
Qed.

(** One node and one thread: the scratch array has one element, the second is
    written. *)
Theorem one_node_overrun {V} (A : csr V) base setl outv sc sch levels bv vis width : cm A = 1 -> bfs_par A base 1 setl outv sc sch 0 levels bv vis width [] = None.
Proof.
  intros E. unfold bfs_par. rewrite E. change (2 <=? 1 * 1) with false. destruct (if setl then set levels 0 0 else Some levels); [|reflexivity]. destruct (bv_set bv 0); [|reflexivity]. destruct (get (rowptr A) 0); [|reflexivity]. now destruct (get (rowptr A) (0 + 1)).
Qed.
Definition one_node : rows_t Z := [[(0, 1)]].
Lemma one_node_witness : rep true 0 (Zlen one_node) one_node (csr_of 0 1 one_node) /\ rows_ok (Zlen one_node) one_node /\ symmetric_adj (cols_of one_node) /\ (forall u, NoDup (cols_of one_node u)) /\
  forall thr bsch bjunk sch isch junk cc levels perm inv, junk (-1) = [] -> getBFSPermutation (csr_of 0 1 one_node) 1 thr bsch bjunk sch isch junk cc levels perm inv = None.
Proof.
  split; [apply csr_of_rep|]. split; [intros r c v [<-|[]] [H|[]]; injection H as <- <-; change (Zlen one_node) with 1; lia|]. split; [apply adj_check; reflexivity|]. split.
  - intros u. unfold cols_of, nthl. destruct (get one_node u) as [r|] eqn:E; [|constructor]. apply get_In in E. destruct E as [<-|[]]. repeat constructor. intros [].
  - intros thr bsch bjunk sch isch junk cc levels perm inv Ej. unfold getBFSPermutation, first_search. change (cm (csr_of 0 1 one_node) =? cn (csr_of 0 1 one_node)) with true. cbv iota. change (getBase (csr_of 0 1 one_node)) with (Some 0). cbv iota beta. destruct (bv_new _ _ _); [|reflexivity]. rewrite Ej, one_node_overrun; reflexivity.
Qed.
