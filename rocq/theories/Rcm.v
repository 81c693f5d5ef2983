(** * Reverse Cuthill-McKee ordering (reordering/RCM.cpp:661-968).

    Modelled: the matrix in 0-based form (the function converts it at :670 and back
    at :965), the phase over the components with fewer than PAR_THR nodes
    (:716-838).  The iterations over the components are atomic and run in any
    order, each on any thread: two components share no node, so two iterations
    write to different elements of [levels], [perm] and [inversePerm], and each
    thread has its own part of the two scratch arrays (checked).  std::sort is any
    function returning its input ordered by degree.
    Not here: the components with at least PAR_THR nodes (:840-939; they are left
    alone here, RcmLarge.v has them).  Not modelled: time measurement, the assertion :667. *)
From Coq Require Import Permutation Relations.
From Verif Require Import Base Interleave Spec PermUtils Flat Csr CsrOps Levels LevelsMain SplitLU Transpose RowPar UnionFind Components BinIO LevelsCsr Bfs.

(** ** Model *)

(** RCM.cpp:57 *)
Definition PAR_THR : Z := 65536.

Section Model.
Context {V : Type}.
Variable A : csr V.
Variable T : Z.
(** The sort of :808. *)
Variable srt : list Z -> list Z.

(** inversePerm[m - pos - 1] = v and perm[v] = m - pos - 1. *)
Definition rcm_place (pos v : Z) (s : list Z * list Z) : option (list Z * list Z) :=
  let '(perm, inv) := s in
  inv <- set inv (cm A - pos - 1) v ;; perm <- set perm v (cm A - pos - 1) ;; Some (perm, inv).

(** :733-769, the nodes to place for a singleton or a pair; None: neither. *)
Definition rcm_short (i : Z) : option (option (list Z)) :=
  b <- get (rowptr A) i ;; e <- get (rowptr A) (i + 1) ;;
  if e =? b then Some (Some [i])
  else if e =? b + 1 then
    u <- get (colidx A) b ;;
    if u =? i then Some (Some [i])
    else ub <- get (rowptr A) u ;; ue <- get (rowptr A) (u + 1) ;;
         if ue =? ub + 1 then w <- get (colidx A) ub ;; Some (if w =? i then Some [i; u] else None)
         else Some None
  else if e =? b + 2 then
    c0 <- get (colidx A) b ;; c1 <- get (colidx A) (b + 1) ;;
    let u := if c0 =? i then c1 else if c1 =? i then c0 else -1 in
    if u =? -1 then Some None
    else ub <- get (rowptr A) u ;; ue <- get (rowptr A) (u + 1) ;;
         if ue =? ub + 2 then
           w0 <- get (colidx A) ub ;; w1 <- get (colidx A) (ub + 1) ;;
           Some (if ((w0 =? u) && (w1 =? i)) || ((w1 =? u) && (w0 =? i)) then Some [i; u] else None)
         else Some None
  else Some None.

(** The serial branch of prefixSumOfLevels (:142-161) for thread [tid], whose part
    of prefixSum_array (:694) starts at tid*(PAR_THR + 1) (:721). *)
Definition rcm_prefix (tid : Z) (levels : list Z) (numLevels : Z) (comp : list Z) : option (list Z) :=
  if (numLevels + 1 <=? PAR_THR + 1) && (tid * (PAR_THR + 1) + numLevels + 1 <=? Z.max (T * PAR_THR) (cm A) + 1) then
    ps <- foldM (fun v ps => x <- get levels v ;; p <- get ps (x + 1) ;; set ps (x + 1) (p + 1)) comp (repeat 0 (Z.to_nat (numLevels + 1))) ;;
    forZ 0 numLevels (fun l ps => p <- get ps l ;; q <- get ps (l + 1) ;; set ps (l + 1) (q + p)) ps
  else None.

(** :798-806.  The children array of a thread has PAR_THR elements (:720). *)
Definition rcm_children (l u : Z) (levels : list Z) : option (list Z * list Z) :=
  b <- get (rowptr A) u ;; e <- get (rowptr A) (u + 1) ;;
  forZ b e (fun j '(ch, levels) =>
    v <- get (colidx A) j ;; x <- get levels v ;;
    if x =? l + 1 then if Zlen ch <? PAR_THR then levels' <- set levels v (-1) ;; Some (ch ++ [v], levels') else None
    else Some (ch, levels)) ([], levels).
(** :795-817, one iteration of the while loop; the state is w, levels, perm,
    inversePerm. *)
Definition rcm_node (l r : Z) (s : Z * list Z * list Z * list Z) : option (Z * list Z * list Z * list Z) :=
  let '(w, levels, perm, inv) := s in
  u <- get inv (cm A - r - 1) ;;
  ' (ch, levels) <- rcm_children l u levels ;;
  let c := srt ch in
  ' (perm, inv) <- foldM (fun '(i, v) s => rcm_place (w + i) v s) (combine (zrange 0 (Zlen c)) c) (perm, inv) ;;
  Some (w + Zlen ch, levels, perm, inv).
(** :792-818.  The while loop ends only if it starts at or below its end. *)
Definition rcm_level (offset : Z) (ps : list Z) (l : Z) (s : list Z * list Z * list Z) : option (list Z * list Z * list Z) :=
  let '(levels, perm, inv) := s in
  b <- get ps l ;; e <- get ps (l + 1) ;;
  if b <=? e then
    ' (_, levels, perm, inv) <- forZ (b + offset) (e + offset) (rcm_node l) (e + offset, levels, perm, inv) ;;
    Some (levels, perm, inv)
  else None.

(** :725-821, component [c] on thread [tid]. *)
Definition rcm_comp (cc : cc_result) (tid c : Z) (s : list Z * list Z * list Z) : option (list Z * list Z * list Z) :=
  let '(levels, perm, inv) := s in
  i <- get (cc_roots cc) c ;; offset <- get (cc_starts cc) c ;; size <- get (cc_sizes cc) c ;;
  if PAR_THR <=? size then Some s
  else
    sc <- rcm_short i ;;
    match sc with
    | Some ns =>
        ' (perm, inv) <- foldM (fun '(k, v) s => rcm_place (offset + k) v s) (combine (zrange 0 (Zlen ns)) ns) (perm, inv) ;;
        Some (levels, perm, inv)
    | None =>
        comp <- mapM (fun k => get (cc_nodes cc) (offset + k)) (zrange 0 size) ;;
        levels <- foldM (fun v levels => set levels v (-1)) comp levels ;;
        ' (numLevels, levels, _) <- bfs_serial A 0 i levels ;;
        ps <- rcm_prefix tid levels numLevels comp ;;
        ' (perm, inv) <- rcm_place offset i (perm, inv) ;;
        forZ 0 numLevels (rcm_level offset ps) (levels, perm, inv)
    end.

(** :716-838; [who c] is the thread that handles component [c]. *)
Definition rcm_small (cc : cc_result) (who : Z -> Z) (sch : list nat) (s : list Z * list Z * list Z) : option (list Z * list Z * list Z) :=
  par_any sch (fun c => rcm_comp cc (who c) c) 0 (cc_n cc) s.
End Model.

(** :661-968 when no component has PAR_THR nodes or more (then :840-939 does
    nothing).  [levels], [perm], [inv] are the previous contents of the arrays. *)
Definition getRCMPermutation {V} (A : csr V) (T : Z) (srt : list Z -> list Z) (s1 s2 : nat -> list nat) (us cs : list Z) (csch : nat -> list nat) (j : cc_junk)
  (who : Z -> Z) (sch : list nat) (levels perm inv : list Z) : option (csr V * list Z * list Z) :=
  if cm A =? cn A then
    base <- getBase A ;;
    A0 <- make0Based A s1 ;;
    ' (_, _, cc) <- cc_run A0 T us cs csch j ;;
    ' (_, perm, inv) <- rcm_small A0 T srt cc who sch (levels, perm, inv) ;;
    A1 <- (if 1 =? base then make1Based A0 s2 else Some A0) ;;
    Some (A1, perm, inv)
  else None.

(** ** Specification *)

Definition by_degree (deg : Z -> Z) (l : list Z) : Prop := Sorted.StronglySorted (fun a b => deg a <= deg b) l.
(** Cuthill-McKee from [s]: [o] are the nodes placed so far, the first [d] of them
    have been expanded.  Expanding a node appends its neighbours that are not
    placed yet, by increasing degree. *)
Inductive cm_run (adj : Z -> list Z) (deg : Z -> Z) (s : Z) : Z -> list Z -> Prop :=
| cm_start : cm_run adj deg s 0 [s]
| cm_expand : forall d o u ch, cm_run adj deg s d o -> get o d = Some u ->
    NoDup ch -> (forall v, In v ch <-> In v (adj u) /\ ~ In v o) -> by_degree deg ch ->
    cm_run adj deg s (d + 1) (o ++ ch).
Definition cm_order (adj : Z -> list Z) (deg : Z -> Z) (s : Z) (o : list Z) : Prop := cm_run adj deg s (Zlen o) o.
Definition degree {V} (rows : rows_t V) (u : Z) : Z := Zlen (nthl rows u).
(** std::sort with the degree comparator: the same nodes by increasing degree. *)
Definition sorts_by (deg : Z -> Z) (srt : list Z -> list Z) : Prop := forall l, Permutation l (srt l) /\ by_degree deg (srt l).

(** ** The specification describes an enumeration of what is reachable *)

Lemma cm_facts adj deg s d o : cm_run adj deg s d o ->
  0 <= d <= Zlen o /\ NoDup o /\ get o 0 = Some s /\ (forall v, In v o -> reach adj s v) /\ (forall i u v, i < d -> get o i = Some u -> In v (adj u) -> In v o).
Proof.
  induction 1 as [|d o u ch H (I1 & I2 & I3 & I4 & I5) Hu N C B].
  - split; [change (Zlen [s]) with 1; lia|]. split; [constructor; [intros []|constructor]|]. split; [reflexivity|]. split; [intros v [<-|[]]; exists 0; constructor|]. intros i u v Hi G. apply get_Some_bounds in G. lia.
  - pose proof (get_Some_bounds _ _ _ Hu). rewrite Zlen_app. pose proof (Zlen_nonneg ch). split; [lia|]. split; [apply NoDup_app2; auto; intros x H2 H3; apply C in H3; tauto|]. split; [rewrite get_app_l by lia; auto|]. split.
    + intros v Hv. apply in_app_or in Hv as [Hv|Hv]; auto. apply C in Hv as (Hv & _). destruct (I4 u (get_In _ _ _ Hu)) as (k & W). exists (k + 1). econstructor; eauto.
    + intros i w v Hi G Hv. rewrite get_app_l in G by lia. apply in_or_app. destruct (Z.eq_dec i d) as [->|].
      * rewrite Hu in G. injection G as <-. destruct (in_dec Z.eq_dec v o); auto. right. now apply C.
      * left. apply (I5 i w v); auto. lia.
Qed.
Lemma cm_order_reach adj deg s o : cm_order adj deg s o -> NoDup o /\ get o 0 = Some s /\ forall v, In v o <-> reach adj s v.
Proof.
  intros H. destruct (cm_facts _ _ _ _ _ H) as (I1 & I2 & I3 & I4 & I5). split; auto. split; auto. intros v. split; auto. intros (k & W). induction W as [|k u v W IH Hv]; [eapply get_In; eauto|].
  apply In_get in IH as (i & Hi & G). apply (I5 i u v); auto. lia.
Qed.

(** ** Proof: one component *)
Section Proof.
Context {V : Type}.
Variables (A : csr V) (hasv : bool) (rows : rows_t V).
Let m := Zlen rows.
Hypothesis HR : rep hasv 0 m rows A.
Hypothesis HK : rows_ok m rows.
Let adj := cols_of rows.
Let deg := degree rows.
Variable srt : list Z -> list Z.
Hypothesis HS : sorts_by deg srt.

Lemma rcm_m : cm A = m.
Proof. exact (proj1 HR). Qed.

(** The nodes [o] are placed from [offset] on, the rest is as in [perm0], [inv0]. *)
Definition placed (offset : Z) (perm0 inv0 o : list Z) (s : list Z * list Z) : Prop :=
  let '(perm, inv) := s in
  Zlen perm = m /\ Zlen inv = m /\
  (forall k v, get o k = Some v -> get inv (m - (offset + k) - 1) = Some v /\ get perm v = Some (m - (offset + k) - 1)) /\
  (forall p, p < m - (offset + Zlen o) \/ m - offset <= p -> get inv p = get inv0 p) /\ (forall v, ~ In v o -> get perm v = get perm0 v).

Lemma place_ok offset perm0 inv0 o s v : placed offset perm0 inv0 o s -> 0 <= offset -> offset + Zlen o < m -> 0 <= v < m -> ~ In v o ->
  exists s', rcm_place A (offset + Zlen o) v s = Some s' /\ placed offset perm0 inv0 (o ++ [v]) s'.
Proof.
  destruct s as (perm & inv). intros (L1 & L2 & P1 & P2 & P3) H0 H1 Hv Nv. unfold rcm_place. rewrite rcm_m. pose proof (Zlen_nonneg o) as Ho.
  destruct (set_ok inv (m - (offset + Zlen o) - 1) v ltac:(lia)) as (inv' & E1). destruct (set_ok perm v (m - (offset + Zlen o) - 1) ltac:(lia)) as (perm' & E2). rewrite E1, E2. eexists. split; [reflexivity|].
  split; [rewrite (set_len _ _ _ _ E2); auto|]. split; [rewrite (set_len _ _ _ _ E1); auto|]. split; [|split].
  - intros k x G. destruct (Z_lt_ge_dec k (Zlen o)) as [H|H].
    + rewrite get_app_l in G by lia. destruct (P1 k x G) as (Q1 & Q2). pose proof (get_Some_bounds _ _ _ G). split.
      * rewrite (get_set_other _ _ _ _ _ E1) by lia. auto.
      * rewrite (get_set_other _ _ _ _ _ E2); auto. intros ->. apply Nv. eapply get_In; eauto.
    + pose proof (get_Some_bounds _ _ _ G) as B. rewrite Zlen_app in B. change (Zlen [v]) with 1 in B. assert (k = Zlen o) by lia. subst k. rewrite get_app_r, Z.sub_diag in G by lia. injection G as <-. split; [apply (get_set_same _ _ _ _ E1)|apply (get_set_same _ _ _ _ E2)].
  - intros p Hp. rewrite Zlen_app in Hp. change (Zlen [v]) with 1 in Hp. rewrite (get_set_other _ _ _ _ _ E1) by lia. apply P2. lia.
  - intros x Hx. rewrite (get_set_other _ _ _ _ _ E2); [apply P3; intros H; apply Hx; apply in_or_app; auto|]. intros ->. apply Hx, in_or_app. right. now left.
Qed.
Lemma place_all offset perm0 inv0 c : forall k w o s, placed offset perm0 inv0 o s -> 0 <= offset -> w + k = offset + Zlen o -> offset + Zlen o + Zlen c <= m -> (forall v, In v c -> 0 <= v < m) -> NoDup (o ++ c) ->
  exists s', foldM (fun '(i, v) s => rcm_place A (w + i) v s) (combine (zrange k (k + Zlen c)) c) s = Some s' /\ placed offset perm0 inv0 (o ++ c) s'.
Proof.
  induction c as [|v c IH]; intros k w o s HP H0 Hw Hm Hv N.
  - rewrite app_nil_r. change (Zlen (@nil Z)) with 0. rewrite zrange_nil by lia. cbn. eauto.
  - rewrite Zlen_cons in *. pose proof (Zlen_nonneg c). rewrite zrange_cons by lia. cbn [combine foldM]. rewrite Hw.
    assert (Nv : ~ In v o). { apply NoDup_remove_2 in N. intros H1. apply N. apply in_or_app. auto. }
    destruct (place_ok _ _ _ _ _ v HP H0 ltac:(lia) (Hv v (or_introl eq_refl)) Nv) as (s1 & E1 & P1). rewrite E1.
    replace (k + (1 + Zlen c)) with (k + 1 + Zlen c) by lia. replace (o ++ v :: c) with ((o ++ [v]) ++ c) by (now rewrite <- app_assoc).
    apply IH; auto; rewrite ?Zlen_app; change (Zlen [v]) with 1; try lia; [intros; apply Hv; now right|]. rewrite <- app_assoc. exact N.
Qed.

(** *** Children *)
Lemma children_ok g l u levels : 0 <= l -> 0 <= u < m -> Zlen levels = m -> (forall v, In v (adj u) -> In v g) -> Zlen g < PAR_THR ->
  exists ch levels', rcm_children A l u levels = Some (ch, levels') /\ Zlen levels' = m /\ NoDup ch /\
    (forall v, In v ch <-> In v (adj u) /\ get levels v = Some (l + 1)) /\ (forall v, In v ch -> get levels' v = Some (-1)) /\ (forall v, ~ In v ch -> get levels' v = get levels v).
Proof.
  intros Hl Hu L Hg Hc. unfold rcm_children. rewrite (rep_rowptr _ _ _ _ _ _ HR), (rep_rowptr_S _ _ _ _ _ _ HR) by (fold m; lia). rewrite !Z.add_0_l.
  rewrite (forZ_list (nthl rows u) (off (nthl rows) u) _ (fun e '(ch, levels) => x <- get levels (fst e) ;;
    if x =? l + 1 then if Zlen ch <? PAR_THR then levels' <- set levels (fst e) (-1) ;; Some (ch ++ [fst e], levels') else None else Some (ch, levels))).
  2:{ intros k (c & x) (ch & lv) Hk. rewrite (rep_col _ _ _ _ _ _ _ _ _ HR Hu Hk). cbn [fst]. now rewrite Z.add_0_r. }
  assert (HB : forall e, In e (nthl rows u) -> In (fst e) g /\ 0 <= fst e < m). { intros e He. assert (H : In (fst e) (adj u)) by (unfold adj, cols_of; now apply in_map). split; auto. now apply (adj_range rows HK) in H. }
  change (adj u) with (map fst (nthl rows u)). clear Hg.
  assert (G : forall es ch0 lv0, (forall e, In e es -> In (fst e) g /\ 0 <= fst e < m) -> Zlen lv0 = m -> NoDup ch0 -> (forall v, In v ch0 -> In v g /\ get lv0 v = Some (-1)) ->
    exists ch lv, foldM (fun (e : Z * V) '(ch, levels) => x <- get levels (fst e) ;;
      if x =? l + 1 then if Zlen ch <? PAR_THR then levels' <- set levels (fst e) (-1) ;; Some (ch ++ [fst e], levels') else None else Some (ch, levels)) es (ch0, lv0) = Some (ch0 ++ ch, lv) /\
      Zlen lv = m /\ NoDup (ch0 ++ ch) /\ (forall v, In v ch <-> In v (map fst es) /\ get lv0 v = Some (l + 1)) /\ (forall v, In v (ch0 ++ ch) -> get lv v = Some (-1)) /\ (forall v, ~ In v (ch0 ++ ch) -> get lv v = get lv0 v)).
  { induction es as [|e es IH]; intros ch0 lv0 He L0 N0 H0.
    - exists [], lv0. rewrite app_nil_r. cbn [foldM]. split; auto. split; auto. split; auto. split; [cbn; tauto|]. split; [intros; now apply H0|auto].
    - cbn [foldM]. destruct (He e (or_introl eq_refl)) as (He1 & He2). destruct (get_in_range lv0 (fst e) ltac:(lia)) as (x & Ex). rewrite Ex. destruct (x =? l + 1) eqn:Exl.
      + apply Z.eqb_eq in Exl. subst x. assert (Ne : ~ In (fst e) ch0). { intros H. apply H0 in H as (_ & H). rewrite Ex in H. injection H. lia. }
        assert (C : Zlen ch0 < PAR_THR). { enough (Zlen ch0 <= Zlen g) by lia. unfold Zlen. apply inj_le. apply NoDup_incl_length; auto. intros y Hy. now apply H0. }
        replace (Zlen ch0 <? PAR_THR) with true by lia. destruct (set_ok lv0 (fst e) (-1) ltac:(lia)) as (lv1 & E1). rewrite E1.
        destruct (IH (ch0 ++ [fst e]) lv1) as (ch & lv & F & Lv & Nv & I1 & I2 & I3).
        * intros; apply He; now right.
        * rewrite (set_len _ _ _ _ E1). auto.
        * apply NoDup_app2; auto; [constructor; [intros []|constructor]|]. intros y Hy [<-|[]]. auto.
        * intros v Hv. apply in_app_or in Hv as [Hv|[<-|[]]]; [|split; auto; apply (get_set_same _ _ _ _ E1)]. destruct (H0 v Hv). split; auto. rewrite (get_set_other _ _ _ _ _ E1); auto. intros ->. auto.
        * exists (fst e :: ch), lv. rewrite <- app_assoc in F, Nv, I2, I3. cbn [app] in F, Nv, I2, I3. split; auto. split; auto. split; auto. split; [|split; auto].
          -- intros v. cbn [map]. split.
             ++ intros [<-|Hv]; [split; [now left|auto]|]. apply I1 in Hv as (V1 & V2). split; [now right|]. rewrite (get_set_other _ _ _ _ _ E1) in V2; auto. intros ->. rewrite (get_set_same _ _ _ _ E1) in V2. injection V2. lia.
             ++ intros (Hv & V2). destruct (Z.eq_dec v (fst e)) as [->|Nve]; [now left|]. right. apply I1. rewrite (get_set_other _ _ _ _ _ E1) by auto. split; auto. destruct Hv; [congruence|auto].
          -- intros v Hv. rewrite I3 by auto. apply (get_set_other _ _ _ _ _ E1). intros ->. apply Hv, in_or_app. right. now left.
      + destruct (IH ch0 lv0) as (ch & lv & F & Lv & Nv & I1 & I2 & I3); auto; [intros; apply He; now right|]. exists ch, lv. split; auto. split; auto. split; auto. split; [|split; auto].
        intros v. rewrite I1. cbn [map]. split; intros (H1 & H2); split; auto; [now right|]. destruct H1 as [<-|]; auto. rewrite Ex in H2. injection H2. lia. }
  destruct (G (nthl rows u) [] levels) as (ch & lv & F & Lv & Nv & I1 & I2 & I3); auto; [constructor|intros v []|]. exists ch, lv. split; auto.
Qed.

(** *** Placement *)
Section Component.
Variables (s offset : Z) (g perm0 inv0 : list Z).
Hypothesis Hs : 0 <= s < m.
Hypothesis Hg : forall v, In v g <-> reach adj s v.
Hypothesis Ng : NoDup g.
Hypothesis Hsize : Zlen g < PAR_THR.
Hypothesis Hoff : 0 <= offset /\ offset + Zlen g <= m.

Lemma g_range v : In v g -> 0 <= v < m.
Proof. intros H. apply Hg in H. exact (reach_range rows HK s v Hs H). Qed.
Lemma g_adj u v : In u g -> In v (adj u) -> In v g.
Proof. rewrite !Hg. intros (k & W) H. exists (k + 1). econstructor; eauto. Qed.
Lemma incl_len o : NoDup o -> (forall v, In v o -> In v g) -> Zlen o <= Zlen g.
Proof. intros N H. unfold Zlen. apply inj_le. now apply NoDup_incl_length. Qed.

Definition lev_inv (o levels : list Z) : Prop := Zlen levels = m /\
  (forall v k, dist adj s v k -> ~ In v o -> get levels v = Some k) /\ (forall v, In v o -> exists x, get levels v = Some x /\ x <= 0).

Lemma node_ok l d o u levels p : 0 <= l -> cm_run adj deg s d o -> lev_inv o levels -> placed offset perm0 inv0 o p -> get o d = Some u -> dist adj s u l ->
  (forall v k, dist adj s v k -> k <= l -> In v o) ->
  exists ch levels' p', rcm_node A srt l (offset + d) (offset + Zlen o, levels, fst p, snd p) = Some (offset + Zlen (o ++ ch), levels', fst p', snd p') /\
    cm_run adj deg s (d + 1) (o ++ ch) /\ lev_inv (o ++ ch) levels' /\ placed offset perm0 inv0 (o ++ ch) p' /\ forall v, In v ch -> dist adj s v (l + 1).
Proof.
  intros Hl HC (L1 & L2 & L3) HP Hu Du Hall. destruct p as (perm & inv). cbn [fst snd]. unfold rcm_node. rewrite rcm_m.
  pose proof HP as (_ & _ & P1 & _). destruct (P1 d u Hu) as (P1u & _). rewrite P1u.
  assert (Ru : In u g) by (apply Hg; eapply dist_reach; eauto).
  destruct (children_ok g l u levels Hl (g_range u Ru) L1 (fun v => g_adj u v Ru) Hsize) as (ch & lv & E & Lv & N & I1 & I2 & I3). rewrite E.
  assert (HD : forall v, In v (adj u) -> ~ In v o -> dist adj s v (l + 1)).
  { intros v Hv No. destruct (dist_step _ _ _ _ _ Du Hv) as (k & D & Hk). destruct (Z.eq_dec k (l + 1)) as [<-|]; auto. exfalso. apply No. apply (Hall v k); auto. lia. }
  assert (HI : forall v, In v ch <-> In v (adj u) /\ ~ In v o).
  { intros v. rewrite I1. split; intros (H1 & H2); (split; [exact H1|]).
    - intros Ho. destruct (L3 v Ho) as (x & Ex & Hx). rewrite H2 in Ex. injection Ex. lia.
    - apply L2; auto. }
  destruct (HS ch) as (SP & SD). remember (srt ch) as c eqn:Ec. clear Ec. assert (Lc : Zlen c = Zlen ch) by (unfold Zlen; now rewrite (Permutation_length SP)).
  assert (HIc : forall v, In v c <-> In v (adj u) /\ ~ In v o) by (intros v; rewrite <- HI; split; apply Permutation_in; [now apply Permutation_sym|auto]).
  assert (Nc : NoDup c) by (eapply Permutation_NoDup; eauto).
  assert (HC' : cm_run adj deg s (d + 1) (o ++ c)) by (eapply cm_expand; eauto).
  destruct (cm_facts _ _ _ _ _ HC') as (_ & Noc & _ & Roc & _).
  assert (Hlen : Zlen (o ++ c) <= Zlen g) by (apply incl_len; auto; intros; now apply Hg, Roc).
  rewrite Zlen_app in Hlen. rewrite <- Lc.
  destruct (place_all offset perm0 inv0 c 0 (offset + Zlen o) o (perm, inv) HP ltac:(lia) ltac:(lia) ltac:(lia)) as (p' & F & P'); auto.
  { intros v Hv. apply g_range, Hg, Roc, in_or_app. auto. }
  rewrite Z.add_0_l in F. rewrite F. destruct p' as (perm' & inv'). exists c, lv, (perm', inv'). cbn [fst snd]. rewrite Zlen_app, Z.add_assoc. split; auto. split; auto. split; [|split; auto; intros v Hv; apply HIc in Hv as (H1 & H2); auto].
  assert (Icc : forall v, In v c <-> In v ch) by (intros v; now rewrite HIc, HI).
  split; auto. split.
  - intros v k D No. rewrite I3; [|rewrite <- Icc; intros H; apply No, in_or_app; auto]. apply L2; auto. intros H. apply No, in_or_app. auto.
  - intros v Hv. destruct (in_dec Z.eq_dec v ch) as [H|H]; [exists (-1); split; [auto|lia]|]. rewrite I3 by auto. apply L3. apply in_app_or in Hv as [Hv|Hv]; auto. now apply Icc in Hv.
Qed.

Definition below (l : Z) (o : list Z) : Prop := forall v, In v o <-> exists k, dist adj s v k /\ k <= l.
(** [cnt l]: the number of nodes at a distance less than [l]. *)
Definition counts (ps : list Z) : Prop := forall l o x, get ps l = Some x -> NoDup o -> (forall v, In v o <-> exists k, dist adj s v k /\ k < l) -> Zlen o = x.

(** At the start of level [l]. *)
Definition level_inv (l : Z) (st : list Z * list Z * list Z) : Prop :=
  let '(levels, perm, inv) := st in
  exists o d, cm_run adj deg s d o /\ below l o /\ (forall i u, get o i = Some u -> if i <? d then exists k, dist adj s u k /\ k < l else dist adj s u l) /\ lev_inv o levels /\ placed offset perm0 inv0 o (perm, inv).

Lemma level_ok n ps l st : counts ps -> Zlen ps = n + 1 -> 0 <= l < n -> level_inv l st -> exists st', rcm_level A srt offset ps l st = Some st' /\ level_inv (l + 1) st'.
Proof.
  intros HC Lp Hl. destruct st as ((levels & perm) & inv). intros (o & d & I1 & I2 & I3 & I4 & I5). unfold rcm_level.
  destruct (get_in_range ps l ltac:(lia)) as (b & Eb). destruct (get_in_range ps (l + 1) ltac:(lia)) as (e & Ee). rewrite Eb, Ee.
  destruct (cm_facts _ _ _ _ _ I1) as (F1 & F2 & F3 & F4 & F5).
  assert (He : e = Zlen o). { symmetry. apply (HC (l + 1) o); auto. intros v. rewrite (I2 v). split; intros (k & D & H); exists k; split; auto; lia. }
  assert (Hb : b = d). { transitivity (Zlen (slice o 0 d)); [|rewrite Zlen_slice by lia; lia]. symmetry. apply (HC l (slice o 0 d)); auto.
    - apply NoDup_from_get. intros i j v Gi Gj. pose proof (get_Some_bounds _ _ _ Gi) as Bi. pose proof (get_Some_bounds _ _ _ Gj) as Bj. rewrite Zlen_slice in Bi, Bj by lia. rewrite get_slice in Gi, Gj by lia. pose proof (NoDup_get_inj _ _ _ _ F2 Gi Gj). lia.
    - intros v. split.
      + intros Hv. apply In_get in Hv as (i & Hi & G). rewrite Zlen_slice in Hi by lia. rewrite get_slice in G by lia. specialize (I3 _ _ G). now replace (0 + i <? d) with true in I3 by lia.
      + intros (k & D & Hk). assert (Ho : In v o) by (apply I2; exists k; split; auto; lia). apply In_get in Ho as (i & Hi & G). specialize (I3 _ _ G). destruct (Z.ltb_spec i d).
        * apply (get_In _ i). rewrite get_slice by lia. exact G.
        * pose proof (dist_unique _ _ _ _ _ D I3). lia. }
  subst b e. replace (d <=? Zlen o) with true by lia.
  destruct (forZ_rule (fun r '(w, lv, pm, iv) => exists new, w = offset + Zlen (o ++ new) /\ cm_run adj deg s (r - offset) (o ++ new) /\ lev_inv (o ++ new) lv /\ placed offset perm0 inv0 (o ++ new) (pm, iv) /\ forall v, In v new -> dist adj s v (l + 1))
    (d + offset) (Zlen o + offset) (rcm_node A srt l) (Zlen o + offset, levels, perm, inv)) as ((((w & lv) & pm) & iv) & E & new & J1 & J2 & J3 & J4 & J5); try lia.
  - exists []. rewrite app_nil_r. split; [lia|]. split; [now replace (d + offset - offset) with d by lia|]. split; auto. split; auto. intros v [].
  - intros r (((w & lv) & pm) & iv) Hr (new & J1 & J2 & J3 & J4 & J5). destruct (get_in_range o (r - offset) ltac:(lia)) as (u & Eu).
    assert (Gu : get (o ++ new) (r - offset) = Some u) by (rewrite get_app_l by lia; auto).
    assert (Du : dist adj s u l). { specialize (I3 _ _ Eu). now replace (r - offset <? d) with false in I3 by lia. }
    destruct (node_ok l (r - offset) (o ++ new) u lv (pm, iv)) as (ch & lv' & (pm' & iv') & E' & K1 & K2 & K3 & K4); auto; try lia.
    { intros v k D Hk. apply in_or_app. left. apply I2. eauto. }
    cbn [fst snd] in E'. replace (offset + (r - offset)) with r in E' by lia. subst w. eexists. split; [exact E'|]. exists (new ++ ch). rewrite app_assoc. replace (r + 1 - offset) with (r - offset + 1) by lia. split; auto. split; auto. split; auto. split; auto. intros v Hv. apply in_app_or in Hv as [Hv|Hv]; auto.
  - rewrite E. eexists. split; [reflexivity|]. exists (o ++ new), (Zlen o). replace (Zlen o + offset - offset) with (Zlen o) in J2 by lia. split; auto. split; [|split; [|split; auto]].
    + intros v. split.
      * intros Hv. apply in_app_or in Hv as [Hv|Hv]; [apply I2 in Hv as (k & D & Hk); exists k; split; auto; lia|]. exists (l + 1). split; auto. lia.
      * intros (k & D & Hk). destruct (Z.eq_dec k (l + 1)) as [->|Nk]; [|apply in_or_app; left; apply I2; exists k; split; auto; lia].
        destruct (dist_pred _ _ _ _ (proj1 Hl) D) as (u & Du & Hv). assert (Ho : In u o) by (apply I2; exists l; split; auto; lia). apply In_get in Ho as (i & Hi & G).
        destruct (cm_facts _ _ _ _ _ J2) as (_ & _ & _ & _ & F5'). apply (F5' i u v); auto; [lia|]. rewrite get_app_l by lia. auto.
    + intros i u G. destruct (Z.ltb_spec i (Zlen o)).
      * rewrite get_app_l in G by lia. apply get_In in G. apply I2 in G as (k & D & Hk). exists k. split; auto. lia.
      * rewrite get_app_r in G by lia. apply get_In in G. auto.
Qed.

(** *** The prefix sums *)
Lemma prefix_ok T tid levels n : bfs_depth adj s n -> Zlen levels = m -> (forall v k, dist adj s v k -> get levels v = Some k) ->
  0 <= tid < T -> Zlen g + T <= PAR_THR \/ T * (PAR_THR + 1) <= m + 1 ->
  exists ps, rcm_prefix A T tid levels (n + 1) g = Some ps /\ Zlen ps = n + 2 /\ counts ps.
Proof.
  intros (Hn1 & Hn2) L HL Ht Hfit. unfold rcm_prefix. rewrite rcm_m.
  assert (Hn0 : 0 < n). { destruct Hn1 as (v & D). apply dist_nonneg in D. lia. }
  assert (Hng : n <= Zlen g).
  { (* one node per distance *)
    assert (H : forall k, 0 <= k -> k <= n -> exists o, NoDup o /\ Zlen o = k /\ forall v, In v o -> exists j, dist adj s v j /\ j < k).
    { intros k Hk. pattern k. revert k Hk. apply Z_ind0; [intros _; exists []; split; [constructor|]; split; [reflexivity|intros v []]|].
      intros k Hk IH Hk1. destruct IH as (o & No & Lo & Ho); [lia|]. destruct Hn1 as (v & D). destruct (dist_all_smaller _ _ _ _ k D ltac:(lia)) as (w & Dw). exists (w :: o). split; [constructor; auto; intros Hw; apply Ho in Hw as (j & Dj & Hj); pose proof (dist_unique _ _ _ _ _ Dw Dj); lia|]. rewrite Zlen_cons. split; [lia|].
      intros x [<-|Hx]; [exists k; split; auto; lia|]. apply Ho in Hx as (j & Dj & Hj). exists j. split; auto. lia. }
    destruct (H n ltac:(lia) ltac:(lia)) as (o & No & Lo & Ho). rewrite <- Lo. apply incl_len; auto. intros v Hv. apply Ho in Hv as (j & D & _). apply Hg. eapply dist_reach; eauto. }
  assert (Hg1 : forall v, In v g -> exists k, dist adj s v k /\ get levels v = Some k /\ 0 <= k < n). { intros v Hv. apply Hg, reach_dist in Hv as (k & D). exists k. split; auto. split; auto. split; [now apply dist_nonneg in D|eauto]. }
  replace (n + 1 + 1 <=? PAR_THR + 1) with true by lia.
  assert (HT : tid * (PAR_THR + 1) <= (T - 1) * (PAR_THR + 1)) by (apply Z.mul_le_mono_nonneg_r; unfold PAR_THR; lia).
  replace (tid * (PAR_THR + 1) + (n + 1) + 1 <=? Z.max (T * PAR_THR) m + 1) with true by (symmetry; apply Z.leb_le; unfold PAR_THR in *; lia). cbn [andb].
  set (lv := fun v => match get levels v with Some x => x | None => 0 end).
  assert (G1 : forall l ps f, (forall v, In v l -> In v g) -> Zlen ps = n + 2 -> (forall x, 0 <= x < n + 2 -> get ps x = Some (f x)) ->
    exists ps', foldM (fun v ps => x <- get levels v ;; p <- get ps (x + 1) ;; set ps (x + 1) (p + 1)) l ps = Some ps' /\ Zlen ps' = n + 2 /\ forall x, 0 <= x < n + 2 -> get ps' x = Some (f x + Zlen (filter (fun v => lv v + 1 =? x) l))).
  { induction l as [|v l IH]; intros ps f Hl Lp Hp.
    - exists ps. split; auto. split; auto. intros x Hx. rewrite Hp by auto. f_equal. cbn [filter]. change (Zlen (@nil Z)) with 0. lia.
    - cbn [foldM]. destruct (Hg1 v (Hl v (or_introl eq_refl))) as (k & D & E & Hk). rewrite E, Hp by lia. destruct (set_ok ps (k + 1) (f (k + 1) + 1) ltac:(lia)) as (ps1 & E1). rewrite E1.
      destruct (IH ps1 (fun x => if x =? k + 1 then f x + 1 else f x)) as (ps' & F & L' & P').
      + intros; apply Hl; now right.
      + rewrite (set_len _ _ _ _ E1). auto.
      + intros x Hx. rewrite (get_set _ _ _ _ _ E1). destruct (x =? k + 1) eqn:X; [apply Z.eqb_eq in X; now subst x|auto].
      + exists ps'. split; auto. split; auto. intros x Hx. rewrite P' by auto. f_equal. cbn [filter]. unfold lv at 2. rewrite E. rewrite (Z.eqb_sym (k + 1) x). destruct (x =? k + 1); rewrite ?Zlen_cons; lia. }
  destruct (G1 g (repeat 0 (Z.to_nat (n + 1 + 1))) (fun _ => 0)) as (ps1 & E1 & L1 & P1); auto.
  { rewrite Zlen_repeat. lia. }
  { intros x Hx. unfold get. replace (x <? 0) with false by lia. apply nth_error_repeat. lia. }
  rewrite E1.
  set (cnt := fun x => Zlen (filter (fun v => lv v <? x) g)).
  destruct (forZ_rule (fun l ps => Zlen ps = n + 2 /\ forall x, 0 <= x < n + 2 -> get ps x = Some (if x <=? l then cnt x else Zlen (filter (fun v => lv v + 1 =? x) g))) 0 (n + 1)
    (fun l ps => p <- get ps l ;; q <- get ps (l + 1) ;; set ps (l + 1) (q + p)) ps1) as (ps2 & E2 & L2 & P2); try lia.
  - split; auto. intros x Hx. rewrite P1 by auto. rewrite Z.add_0_l. destruct (Z.leb_spec x 0); auto. replace x with 0 by lia. unfold cnt. f_equal. apply Zlen_same; try (now apply NoDup_filter).
    intros v. rewrite !filter_In. split; intros (H1 & H2); exfalso; destruct (Hg1 v H1) as (k & D & E & Hk); unfold lv in H2; rewrite E in H2; lia.
  - intros l ps Hl (Lp & Pp). rewrite !Pp by lia. replace (l <=? l) with true by lia. replace (l + 1 <=? l) with false by lia.
    destruct (set_ok ps (l + 1) (Zlen (filter (fun v => lv v + 1 =? l + 1) g) + cnt l) ltac:(lia)) as (ps' & E'). exists ps'. split; auto. split; [rewrite (set_len _ _ _ _ E'); auto|].
    intros x Hx. rewrite (get_set _ _ _ _ _ E'). destruct (x =? l + 1) eqn:X.
    + apply Z.eqb_eq in X. subst x. rewrite Z.leb_refl. f_equal. unfold cnt. rewrite (Zlen_filter_split (fun v => lv v <? l + 1) (fun v => lv v + 1 =? l + 1) (fun v => lv v <? l)); [lia|]. intros v _. lia.
    + rewrite Pp by auto. apply Z.eqb_neq in X. destruct (Z.leb_spec x l), (Z.leb_spec x (l + 1)); auto; lia.
  - exists ps2. split; auto. split; auto. intros l o x G No Ho. pose proof (get_Some_bounds _ _ _ G) as B. rewrite P2 in G by lia. replace (l <=? n + 1) with true in G by lia. injection G as <-. unfold cnt. apply Zlen_same; auto; [now apply NoDup_filter|].
    intros v. rewrite Ho, filter_In. split.
    + intros (k & D & Hk). split; [apply Hg; eapply dist_reach; eauto|]. unfold lv. rewrite (HL v k D). lia.
    + intros (H1 & H2). destruct (Hg1 v H1) as (k & D & E & Hk). exists k. split; auto. unfold lv in H2. rewrite E in H2. lia.
Qed.

Lemma mark_all c levels : Zlen levels = m -> (forall v, In v c -> 0 <= v < m) ->
  exists levels', foldM (fun v levels => set levels v (-1)) c levels = Some levels' /\ Zlen levels' = m /\ forall v, In v c -> get levels' v = Some (-1).
Proof.
  intros L. assert (G : forall c levels, Zlen levels = m -> (forall v, In v c -> 0 <= v < m) -> exists levels', foldM (fun v levels => set levels v (-1)) c levels = Some levels' /\ Zlen levels' = m /\ forall v, In v c \/ get levels v = Some (-1) -> get levels' v = Some (-1)).
  { clear. induction c as [|x c IH]; intros levels L Hc; [exists levels; split; auto; split; auto; intros v [[]|H]; auto|]. cbn [foldM]. destruct (set_ok levels x (-1)) as (l1 & E1); [rewrite L; apply Hc; now left|]. rewrite E1.
    destruct (IH l1) as (l2 & E2 & L2 & P2); [rewrite (set_len _ _ _ _ E1); auto|intros; apply Hc; now right|]. exists l2. split; auto. split; auto. intros v Hv. apply P2. destruct (Z.eq_dec v x) as [->|N]; [right; apply (get_set_same _ _ _ _ E1)|]. rewrite (get_set_other _ _ _ _ _ E1) by auto. destruct Hv as [[|]|]; auto. congruence. }
  intros Hc. destruct (G c levels L Hc) as (l' & E & L' & P). eauto 8.
Qed.

(** :771-818 *)
Lemma search_ok T tid levels perm inv : perm = perm0 -> inv = inv0 -> Zlen levels = m -> Zlen perm = m -> Zlen inv = m -> 0 <= tid < T -> Zlen g + T <= PAR_THR \/ T * (PAR_THR + 1) <= m + 1 ->
  exists levels' perm' inv' o,
    (levels <- foldM (fun v levels => set levels v (-1)) g levels ;;
     ' (numLevels, levels, _) <- bfs_serial A 0 s levels ;;
     ps <- rcm_prefix A T tid levels numLevels g ;;
     ' (perm, inv) <- rcm_place A offset s (perm, inv) ;;
     forZ 0 numLevels (rcm_level A srt offset ps) (levels, perm, inv)) = Some (levels', perm', inv') /\
    Zlen levels' = m /\ cm_order adj deg s o /\ placed offset perm0 inv0 o (perm', inv').
Proof.
  intros -> -> L Lp Li Ht Hfit. destruct (mark_all g levels L g_range) as (l1 & E1 & L1 & P1). rewrite E1.
  destruct (bfs_serial_ok A hasv 0 rows HR HK s l1 Hs L1) as (n & l2 & vis & E2 & Dn & (B1 & B2 & B3) & _); [intros v Hv; apply P1; now apply Hg|]. rewrite E2.
  destruct (prefix_ok T tid l2 n Dn) as (ps & E3 & L3 & P3); auto; [congruence|]. rewrite E3.
  assert (Sg : In s g) by (apply Hg; exists 0; constructor).
  assert (H1 : 1 <= Zlen g). { destruct g; [contradiction|]. rewrite Zlen_cons. pose proof (Zlen_nonneg l). lia. }
  destruct (place_ok offset perm0 inv0 [] (perm0, inv0) s) as ((p1 & i1) & E4 & P4); auto; try lia; [|change (Zlen (@nil Z)) with 0; lia|].
  { split; auto. split; auto. split; [intros k v G; apply get_Some_bounds in G; change (Zlen (@nil Z)) with 0 in G; lia|]. split; auto. }
  change (Zlen (@nil Z)) with 0 in E4. rewrite Z.add_0_r in E4. rewrite E4.
  assert (Hn0 : 0 < n). { destruct Dn as ((v & D) & _). apply dist_nonneg in D. lia. }
  destruct (forZ_rule level_inv 0 (n + 1) (rcm_level A srt offset ps) (l2, p1, i1)) as (((l3 & p3) & i3) & E5 & o & d & I1 & I2 & I3 & I4 & I5); try lia.
  - exists [s], 0. split; [constructor|]. split; [|split; [|split; auto]].
    + intros v. split; [intros [<-|[]]; exists 0; split; [now apply dist_0|lia]|]. intros (k & D & Hk). pose proof (dist_nonneg _ _ _ _ D). replace k with 0 in D by lia. apply dist_0 in D. now left.
    + intros i u G. pose proof (get_Some_bounds _ _ _ G) as B. change (Zlen [s]) with 1 in B. replace i with 0 in * by lia. injection G as <-. change (0 <? 0) with false. cbv iota. now apply dist_0.
    + split; [congruence|]. split; [intros v k D _; auto|]. intros v [<-|[]]. exists 0. split; [|lia]. apply B2. now apply dist_0.
  - intros l st Hl HI. apply (level_ok (n + 1) ps l st); auto. lia.
  - rewrite E5. exists l3, p3, i3, o. split; auto. split; [apply I4|]. split; [|exact I5].
    unfold cm_order. replace (Zlen o) with d; auto. destruct (cm_facts _ _ _ _ _ I1) as (F & _). destruct (Z.eq_dec d (Zlen o)) as [|Nd]; auto. exfalso.
    destruct (get_in_range o d ltac:(lia)) as (u & G). specialize (I3 _ _ G). rewrite Z.ltb_irrefl in I3. apply Dn in I3. lia.
Qed.
End Component.

(** *** Short circuits *)
Lemma row_len1 u b : 0 <= u < m -> get (rowptr A) u = Some b -> get (rowptr A) (u + 1) = Some (b + 1) -> exists w, adj u = [w] /\ get (colidx A) b = Some w.
Proof.
  intros Hu. rewrite (rep_rowptr_S _ _ _ _ _ _ HR), (rep_rowptr _ _ _ _ _ _ HR) by (fold m; lia). rewrite !Z.add_0_l. intros E1 E2. injection E1 as <-. injection E2 as E2. assert (L : Zlen (nthl rows u) = 1) by lia.
  unfold adj, cols_of. pose proof (rep_col hasv 0 m rows A u 0) as C. destruct (nthl rows u) as [|(w & x) [|e l]] eqn:En; rewrite ?Zlen_cons in L; [discriminate L| |pose proof (Zlen_nonneg l); lia].
  exists w. split; auto. specialize (C w x HR Hu eq_refl). now rewrite (Z.add_0_r w), Z.add_0_r in C.
Qed.
Lemma row_len2 u b : 0 <= u < m -> get (rowptr A) u = Some b -> get (rowptr A) (u + 1) = Some (b + 2) -> exists w0 w1, adj u = [w0; w1] /\ get (colidx A) b = Some w0 /\ get (colidx A) (b + 1) = Some w1.
Proof.
  intros Hu. rewrite (rep_rowptr_S _ _ _ _ _ _ HR), (rep_rowptr _ _ _ _ _ _ HR) by (fold m; lia). rewrite !Z.add_0_l. intros E1 E2. injection E1 as <-. injection E2 as E2. assert (L : Zlen (nthl rows u) = 2) by lia.
  unfold adj, cols_of. pose proof (rep_col hasv 0 m rows A u 0) as C0. pose proof (rep_col hasv 0 m rows A u 1) as C1. destruct (nthl rows u) as [|(w & x) [|(w' & x') [|e l]]] eqn:En; rewrite ?Zlen_cons in L; [discriminate L|discriminate L| |pose proof (Zlen_nonneg l); lia].
  exists w, w'. split; auto. specialize (C0 w x HR Hu eq_refl). specialize (C1 w' x' HR Hu eq_refl). rewrite (Z.add_0_r w), Z.add_0_r in C0. rewrite (Z.add_0_r w') in C1. auto.
Qed.
Lemma row_len0 u b : 0 <= u < m -> get (rowptr A) u = Some b -> get (rowptr A) (u + 1) = Some b -> adj u = [].
Proof.
  intros Hu. rewrite (rep_rowptr_S _ _ _ _ _ _ HR), (rep_rowptr _ _ _ _ _ _ HR) by (fold m; lia). rewrite !Z.add_0_l. intros E1 E2. injection E1 as <-. injection E2 as E2. unfold adj, cols_of. destruct (nthl rows u) as [|e l]; auto. rewrite Zlen_cons in E2. pose proof (Zlen_nonneg l). lia.
Qed.
Lemma cm_single i : (forall v, In v (adj i) -> v = i) -> cm_order adj deg i [i].
Proof.
  intros H. change (cm_run adj deg i (0 + 1) ([i] ++ [])). eapply cm_expand; [constructor|reflexivity|constructor| |constructor]. intros v. split; [intros []|]. intros (H1 & H2). apply H2. left. symmetry. auto.
Qed.
Lemma cm_pair i u : u <> i -> In u (adj i) -> (forall v, In v (adj i) -> v = i \/ v = u) -> (forall v, In v (adj u) -> v = i \/ v = u) -> cm_order adj deg i [i; u].
Proof.
  intros N H H1 H2. change (cm_run adj deg i (1 + 1) ([i; u] ++ [])). eapply (cm_expand _ _ _ _ _ u); [|reflexivity|constructor| |constructor].
  - change (cm_run adj deg i (0 + 1) ([i] ++ [u])). eapply cm_expand; [constructor|reflexivity|constructor; [intros []|constructor]| |constructor; constructor]. intros v. cbn. split; [intros [<-|[]]; split; auto; intros [|[]]; auto|]. intros (H3 & H4). destruct (H1 v H3); subst; auto.
  - intros v. split; [intros []|]. intros (H3 & H4). apply H4. destruct (H2 v H3); subst; cbn; auto.
Qed.
Lemma short_ok i : 0 <= i < m -> (forall u, NoDup (adj u)) -> exists sc, rcm_short A i = Some sc /\ match sc with Some ns => cm_order adj deg i ns | None => True end.
Proof.
  intros Hi ND. unfold rcm_short. assert (GR : forall u, 0 <= u < m -> exists b e, get (rowptr A) u = Some b /\ get (rowptr A) (u + 1) = Some e).
  { intros u Hu. rewrite (rep_rowptr_S _ _ _ _ _ _ HR), (rep_rowptr _ _ _ _ _ _ HR) by (fold m; lia). eauto. }
  assert (AR : forall u v, In v (adj u) -> 0 <= v < m) by (intros u v H; now apply (adj_range rows HK) in H).
  destruct (GR i Hi) as (b & e & Eb & Ee). rewrite Eb, Ee. destruct (e =? b) eqn:C0.
  { apply Z.eqb_eq in C0. subst e. eexists. split; [reflexivity|]. apply cm_single. rewrite (row_len0 i b Hi Eb Ee). intros v []. }
  destruct (e =? b + 1) eqn:C1.
  { apply Z.eqb_eq in C1. subst e. destruct (row_len1 i b Hi Eb Ee) as (u & Eu & Gu). rewrite Gu. destruct (u =? i) eqn:Cu.
    { apply Z.eqb_eq in Cu. subst u. eexists. split; [reflexivity|]. apply cm_single. rewrite Eu. intros v [|[]]; auto. }
    apply Z.eqb_neq in Cu. assert (Hu : 0 <= u < m) by (apply (AR i); rewrite Eu; now left). destruct (GR u Hu) as (ub & ue & Eub & Eue). rewrite Eub, Eue. destruct (ue =? ub + 1) eqn:C2; [|eexists; split; [reflexivity|exact I]].
    apply Z.eqb_eq in C2. subst ue. destruct (row_len1 u ub Hu Eub Eue) as (w & Ew & Gw). rewrite Gw. eexists. split; [reflexivity|]. destruct (w =? i) eqn:Cw; [|exact I]. apply Z.eqb_eq in Cw. subst w.
    apply cm_pair; auto; rewrite ?Eu, ?Ew; [now left| |]; intros v [<-|[]]; auto. }
  destruct (e =? b + 2) eqn:C2; [|eexists; split; [reflexivity|exact I]].
  apply Z.eqb_eq in C2. subst e. destruct (row_len2 i b Hi Eb Ee) as (c0 & c1 & Ei & G0 & G1). rewrite G0, G1. cbv zeta. set (u := if c0 =? i then c1 else if c1 =? i then c0 else -1).
  destruct (u =? -1) eqn:Cu; [eexists; split; [reflexivity|exact I]|]. apply Z.eqb_neq in Cu.
  assert (Nc : c0 <> c1). { pose proof (ND i) as N. rewrite Ei in N. inversion N as [|x l N1 N2]. intros ->. apply N1. now left. }
  assert (Hiu : (c0 = i /\ c1 = u \/ c1 = i /\ c0 = u) /\ u <> i).
  { subst u. destruct (c0 =? i) eqn:X0; [apply Z.eqb_eq in X0; split; [now left|congruence]|]. destruct (c1 =? i) eqn:X1; [|lia]. apply Z.eqb_eq in X1. split; [now right|congruence]. }
  destruct Hiu as (Hiu & Nu). clearbody u.
  assert (Hu : 0 <= u < m) by (apply (AR i); rewrite Ei; cbn; destruct Hiu as [(_ & ->)|(_ & ->)]; auto). destruct (GR u Hu) as (ub & ue & Eub & Eue). rewrite Eub, Eue. destruct (ue =? ub + 2) eqn:C3; [|eexists; split; [reflexivity|exact I]].
  apply Z.eqb_eq in C3. subst ue. destruct (row_len2 u ub Hu Eub Eue) as (w0 & w1 & Ew & Gw0 & Gw1). rewrite Gw0, Gw1. eexists. split; [reflexivity|].
  destruct (((w0 =? u) && (w1 =? i)) || ((w1 =? u) && (w0 =? i))) eqn:Cw; [|exact I].
  apply cm_pair; auto; rewrite ?Ei, ?Ew.
  - destruct Hiu as [(_ & ->)|(_ & ->)]; cbn; auto.
  - intros v [<-|[<-|[]]]; lia.
  - intros v [<-|[<-|[]]]; lia.
Qed.

(** *** All components *)
Hypothesis ND : forall u, NoDup (adj u).
Lemma comp_ok T cc tid c s offset g levels perm inv :
  get (cc_roots cc) c = Some s -> get (cc_starts cc) c = Some offset -> get (cc_sizes cc) c = Some (Zlen g) -> (forall k, 0 <= k < Zlen g -> get (cc_nodes cc) (offset + k) = get g k) ->
  0 <= s < m -> (forall v, In v g <-> reach adj s v) -> NoDup g -> Zlen g < PAR_THR -> 0 <= offset /\ offset + Zlen g <= m ->
  Zlen levels = m -> Zlen perm = m -> Zlen inv = m -> 0 <= tid < T -> Zlen g + T <= PAR_THR \/ T * (PAR_THR + 1) <= m + 1 ->
  exists levels' perm' inv' o, rcm_comp A T srt cc tid c (levels, perm, inv) = Some (levels', perm', inv') /\ Zlen levels' = m /\ cm_order adj deg s o /\ placed offset perm inv o (perm', inv').
Proof.
  intros E1 E2 E3 E4 Hs Hg Ng Hsz Ho L Lp Li Ht Hf. unfold rcm_comp. rewrite E1, E2, E3. replace (PAR_THR <=? Zlen g) with false by lia.
  destruct (short_ok s Hs ND) as (sc & Es & Hsc). rewrite Es. destruct sc as [ns|].
  - destruct (cm_order_reach _ _ _ _ Hsc) as (N & _ & R). assert (Ln : Zlen ns = Zlen g) by (apply Zlen_same; auto; intros v; now rewrite R, Hg).
    destruct (place_all offset perm inv ns 0 offset [] (perm, inv)) as ((p' & i') & E & P); auto; change (Zlen (@nil Z)) with 0; try lia.
    + split; auto. split; auto. split; [intros k v G; apply get_Some_bounds in G; change (Zlen (@nil Z)) with 0 in G; lia|]. split; auto.
    + intros v Hv. apply R in Hv. exact (reach_range rows HK s v Hs Hv).
    + rewrite Z.add_0_l in E. rewrite E. exists levels, p', i', ns. auto.
  - replace (mapM (fun k => get (cc_nodes cc) (offset + k)) (zrange 0 (Zlen g))) with (Some g).
    + apply (search_ok s offset g perm inv); auto.
    + symmetry. rewrite (mapM_Some _ (fun k => match get g k with Some v => v | None => 0 end)).
      * f_equal. apply list_ext; [rewrite Zlen_map, Zlen_zrange; pose proof (Zlen_nonneg g); lia|]. intros k Hk. rewrite Zlen_map, Zlen_zrange in Hk. rewrite get_map, get_zrange by lia. cbn [option_map]. rewrite Z.add_0_l. destruct (get_in_range g k ltac:(lia)) as (v & ->). reflexivity.
      * intros k Hk. apply In_zrange in Hk. rewrite E4 by lia. destruct (get_in_range g k ltac:(lia)) as (v & ->). reflexivity.
Qed.
End Proof.

(** ** Components *)
Lemma walk_cons adj x y k v : In y (adj x) -> walk adj y k v -> walk adj x (k + 1) v.
Proof. intros H. induction 1 as [|k u v W IH Hv]; [change (walk adj x (0 + 1) y); econstructor; eauto; constructor|econstructor; eauto]. Qed.
Lemma reach_trans adj x y z : reach adj x y -> reach adj y z -> reach adj x z.
Proof. intros (k & W) (k' & W'). induction W' as [|k' u v W' (j & IH) Hv]; [now exists k|]. exists (j + 1). econstructor; eauto. Qed.
Lemma reach_sym adj x y : (forall u v, In v (adj u) -> In u (adj v)) -> reach adj x y -> reach adj y x.
Proof. intros HS (k & W). induction W as [|k u v W (j & IH) Hv]; [exists 0; constructor|]. exists (j + 1). eapply walk_cons; eauto. Qed.
Lemma In_edges {V} (rows : rows_t V) x y : In (x, y) (edges_of rows) <-> In y (cols_of rows x).
Proof.
  unfold edges_of, cols_of. rewrite in_concat. split.
  - intros (l & Hl & H). apply in_map_iff in Hl as (i & <- & Hi). apply in_map_iff in H as (e & E & He). injection E as -> <-. now apply in_map.
  - intros H. exists (map (fun e => (x, fst e)) (nthl rows x)). split; [|apply in_map_iff in H as (e & <- & He); now apply (in_map (fun e => (x, fst e)))].
    apply (in_map (fun i => map (fun e => (i, fst e)) (nthl rows i))). apply In_zrange. apply in_map_iff in H as (e & _ & He). unfold nthl in He. destruct (get rows x) eqn:E; [|contradiction]. now apply get_Some_bounds in E.
Qed.
Lemma connected_reach {V} (rows : rows_t V) x y : (forall u v, In v (cols_of rows u) -> In u (cols_of rows v)) -> connected (edges_of rows) x y <-> reach (cols_of rows) x y.
Proof.
  intros HS. split.
  - intros H. induction H as [x y H|x|x y H IH|x y z H1 IH1 H2 IH2].
    + exists (0 + 1). econstructor; [constructor|]. now apply In_edges.
    + exists 0. constructor.
    + now apply reach_sym.
    + eapply reach_trans; eauto.
  - intros (k & W). induction W as [|k u v W IH Hv]; [apply rst_refl|]. eapply rst_trans; eauto. apply rst_step. now apply In_edges.
Qed.

Lemma zsum_lens {B} (ls : list (list B)) i : 0 <= i -> i <= Zlen ls -> zsum (slice (map Zlen ls) 0 i) = off (nthl ls) i.
Proof.
  intros Hi. pattern i. revert i Hi. apply Z_ind0; [intros; rewrite off_0; reflexivity|]. intros i Hi IH HL. rewrite off_S by lia.
  rewrite (slice_snoc (map Zlen ls) 0 i (Zlen (nthl ls i))); [|lia|rewrite get_map, get_nthl by lia; reflexivity].
  rewrite zsum_app, IH by lia. change (zsum [Zlen (nthl ls i)]) with (Zlen (nthl ls i) + 0). lia.
Qed.
Lemma Forall2_get {B C} (R : B -> C -> Prop) l l' : Zlen l = Zlen l' -> (forall i x y, get l i = Some x -> get l' i = Some y -> R x y) -> Forall2 R l l'.
Proof.
  revert l'. induction l as [|x l IH]; intros [|y l'] L H; [constructor| | |]; rewrite ?Zlen_cons in L; change (Zlen (@nil B)) with 0 in *; change (Zlen (@nil C)) with 0 in *; try (pose proof (Zlen_nonneg l); lia); try (pose proof (Zlen_nonneg l'); lia).
  constructor; [apply (H 0); reflexivity|]. apply IH; [lia|]. intros i a b Ha Hb. pose proof (get_Some_bounds _ _ _ Ha). apply (H (i + 1)); rewrite get_cons_S by lia; auto.
Qed.
Lemma get_rev {B} (l : list B) i : 0 <= i < Zlen l -> get (rev l) i = get l (Zlen l - i - 1).
Proof.
  revert i. induction l as [|x l IH]; intros i Hi; [change (Zlen (@nil B)) with 0 in Hi; lia|]. cbn [rev]. rewrite Zlen_cons in *. destruct (Z.eq_dec i (Zlen l)) as [->|N].
  - rewrite get_app_r by (rewrite Zlen_rev; lia). rewrite Zlen_rev, Z.sub_diag. replace (1 + Zlen l - Zlen l - 1) with 0 by lia. reflexivity.
  - rewrite get_app_l by (rewrite Zlen_rev; lia). rewrite IH by lia. rewrite get_cons_pos by lia. f_equal. lia.
Qed.

(** ** The theorem *)
(** The result: [roots] are the smallest nodes of the components, in increasing
    order, the new order is Cuthill-McKee component by component, reversed. *)
Definition rcm_result {V} (rows : rows_t V) (perm inv : list Z) : Prop :=
  let adj := cols_of rows in
  inverse_perms (Zlen rows) perm inv /\
  exists roots orders, ssortedZ roots /\ (forall s v, In s roots -> reach adj s v -> s <= v) /\
    Forall2 (cm_order adj (degree rows)) roots orders /\ inv = rev (concat orders).
(** The scratch memory of T threads suffices. *)
Definition small_components (adj : Z -> list Z) (m T : Z) : Prop :=
  forall s o, 0 <= s < m -> NoDup o -> (forall v, In v o -> reach adj s v) -> Zlen o < PAR_THR /\ (Zlen o + T <= PAR_THR \/ T * (PAR_THR + 1) <= m + 1).
Definition symmetric_adj (adj : Z -> list Z) : Prop := forall u v, In v (adj u) -> In u (adj v).

Section Total.
Context {V : Type}.
Variables (A : csr V) (hasv : bool) (rows : rows_t V).
Let m := Zlen rows.
Hypothesis HR : rep hasv 0 m rows A.
Hypothesis HK : rows_ok m rows.
Let adj := cols_of rows.
Let deg := degree rows.
Hypothesis HSym : symmetric_adj adj.
Hypothesis ND : forall u, NoDup (adj u).
Variables (T : Z) (srt : list Z -> list Z).
Hypothesis HS : sorts_by deg srt.
Hypothesis Hsmall : small_components adj m T.
Variable cc : cc_result.
Hypothesis HL : component_listing m (connected (edges_of rows)) cc.
Variables (who : Z -> Z) (levels perm inv : list Z).
Hypothesis Hwho : forall c, 0 <= c < cc_n cc -> 0 <= who c < T.
Hypothesis Ll : Zlen levels = m.
Hypothesis Lp : Zlen perm = m.
Hypothesis Li : Zlen inv = m.

Theorem rcm_small_ok sch : exists levels' perm' inv', rcm_small A T srt cc who sch (levels, perm, inv) = Some (levels', perm', inv') /\ rcm_result rows perm' inv'.
Proof.
  destruct HL as (gs & L1 & L2 & L3 & L4 & L5 & L6 & L7 & L8 & L9). set (K := cc_n cc) in *. set (G := nthl gs).
  assert (K0 : 0 <= K) by (rewrite <- L1; apply Zlen_nonneg).
  rewrite concat_flat, L1 in L2. fold G in L2.
  assert (Nn : NoDup (flat G K)) by (rewrite <- L2; eapply is_perm_NoDup; eauto).
  assert (Lm : off G K = m). { rewrite <- Zlen_flat, <- L2 by lia. unfold Zlen. rewrite (Permutation_length L8). fold (Zlen (zrange 0 m)). rewrite Zlen_zrange. pose proof (Zlen_nonneg rows). fold m in H. lia. }
  assert (In_g : forall v, 0 <= v < m <-> exists c k, 0 <= c < K /\ 0 <= k < Zlen (G c) /\ get (G c) k = Some v).
  { intros v. rewrite <- In_zrange. split.
    - intros Hv. apply (Permutation_in _ (Permutation_sym L8)) in Hv. rewrite L2 in Hv. apply In_get in Hv as (p & Hp & Ep). rewrite Zlen_flat in Hp by lia. destruct (flat_locate G K p K0 Hp) as (c & k & Hc & Hk & ->). rewrite get_flat in Ep by auto. eauto.
    - intros (c & k & Hc & Hk & E). apply (Permutation_in _ L8). rewrite L2. apply (get_In _ (off G c + k)). now rewrite get_flat. }
  assert (Dj : forall c c' v, 0 <= c < K -> 0 <= c' < K -> In v (G c) -> In v (G c') -> c = c').
  { intros c c' v Hc Hc' H H'. apply In_get in H as (k & Hk & E). apply In_get in H' as (k' & Hk' & E'). rewrite <- (get_flat G K) in E, E' by auto. pose proof (NoDup_get_inj _ _ _ _ Nn E E') as X. apply off_unique in X; try lia. }
  assert (Og : forall c, 0 <= c < K -> 0 <= off G c /\ off G c + Zlen (G c) <= m). { intros c Hc. split; [apply off_nonneg|]. rewrite <- off_S, <- Lm by lia. apply off_mono. lia. }
  assert (Ng : forall c, 0 <= c < K -> NoDup (G c)). { intros c Hc. apply NoDup_from_get. intros i j v Ei Ej. pose proof (get_Some_bounds _ _ _ Ei). pose proof (get_Some_bounds _ _ _ Ej). rewrite <- (get_flat G K) in Ei, Ej by auto. pose proof (NoDup_get_inj _ _ _ _ Nn Ei Ej). lia. }
  assert (Rt : forall c, 0 <= c < K -> exists s, get (cc_roots cc) c = Some s /\ get (G c) 0 = Some s).
  { intros c Hc. assert (X : get (map Some (cc_roots cc)) c = get (map (@hd_error Z) gs) c) by now rewrite L5. rewrite !get_map in X. rewrite (get_nthl gs c) in X by lia. fold (G c) in X. cbn [option_map] in X. destruct (get (cc_roots cc) c) as [s|]; [|discriminate X]. exists s. split; auto. injection X as X. destruct (G c); [discriminate X|]. injection X as ->. reflexivity. }
  assert (Rg : forall c s, 0 <= c < K -> get (G c) 0 = Some s -> 0 <= s < m /\ forall v, In v (G c) <-> reach adj s v).
  { intros c s Hc E. assert (Hs : 0 <= s < m) by (apply In_g; exists c, 0; split; auto; split; auto; apply get_Some_bounds in E; lia). split; auto. intros v. change adj with (cols_of rows). rewrite <- (connected_reach rows s v HSym). split.
    - intros Hv. assert (Bv : 0 <= v < m) by (apply In_g; apply In_get in Hv as (k & Hk & Ek); eauto). apply L9; auto. exists (G c). split; [apply (get_In _ c); apply get_nthl; lia|]. split; auto. eapply get_In; eauto.
    - intros Hv. assert (Bv : 0 <= v < m) by (apply (reach_range rows HK s v Hs), (connected_reach rows s v HSym); auto). apply L9 in Hv as (g & Hg & Hsg & Hvg); auto. apply In_get in Hg as (c' & Hc' & Ec'). assert (g = G c') by (symmetry; now apply nthl_get). subst g. assert (c = c') as ->; auto. apply (Dj c c' s); auto; [lia|]. eapply get_In; eauto. }
  assert (Sz : forall c, 0 <= c < K -> get (cc_sizes cc) c = Some (Zlen (G c)) /\ get (cc_starts cc) c = Some (off G c)).
  { intros c Hc. split; [rewrite L3, get_map, get_nthl by lia; reflexivity|]. rewrite L4 by auto. rewrite L3, zsum_lens by lia. reflexivity. }
  unfold rcm_small.
  destruct (par_any_inv (fun done '(lv, pm, iv) => Zlen lv = m /\ Zlen pm = m /\ Zlen iv = m /\ forall c s, In c done -> get (G c) 0 = Some s -> exists o, cm_order adj deg s o /\ forall k v, get o k = Some v -> get iv (m - (off G c + k) - 1) = Some v /\ get pm v = Some (m - (off G c + k) - 1))
    sch (fun c => rcm_comp A T srt cc (who c) c) 0 K (levels, perm, inv)) as (((lv & pm) & iv) & done & E & (I1 & I2 & I3 & I4) & Hd).
  - split; auto. split; auto. split; auto. intros c s [].
  - intros done c ((lv & pm) & iv) Hc Nc Hdone (I1 & I2 & I3 & I4). destruct (Rt c Hc) as (s & E1 & E2). destruct (Rg c s Hc E2) as (Hs & HG). destruct (Sz c Hc) as (E3 & E4).
    destruct (Hsmall s (G c) Hs (Ng c Hc)) as (F1 & F2); [intros v Hv; now apply HG|].
    destruct (comp_ok A hasv rows HR HK srt HS ND T cc (who c) c s (off G c) (G c) lv pm iv) as (lv' & pm' & iv' & o & E & L' & HO & HP); auto.
    { intros k Hk. rewrite L2. now apply get_flat. }
    exists (lv', pm', iv'). split; auto. destruct HP as (P1 & P2 & P3 & P4 & P5). fold m in P1, P2, P3, P4. split; auto. split; auto. split; auto.
    intros c' s' [<-|Hc'] E'; [replace s' with s in * by congruence; eauto|].
    assert (Hc'' : 0 <= c' < K) by auto. assert (Ncc : c <> c') by (intros ->; auto). destruct (I4 c' s' Hc' E') as (o' & O1 & O2). exists o'. split; auto. intros k v Ek. destruct (O2 k v Ek) as (Q1 & Q2). destruct (cm_order_reach _ _ _ _ HO) as (No & _ & Ro). destruct (cm_order_reach _ _ _ _ O1) as (No' & _ & Ro').
    destruct (Rg c' s' Hc'' E') as (Hs' & HG').
    assert (Lo : Zlen o = Zlen (G c)) by (apply Zlen_same; auto; intros x; now rewrite Ro, HG). assert (Lo' : Zlen o' = Zlen (G c')) by (apply Zlen_same; auto; intros x; now rewrite Ro', HG'). pose proof (get_Some_bounds _ _ _ Ek) as Bk. split.
    + rewrite P4; auto. rewrite Lo, <- off_S by lia. destruct (Z_lt_ge_dec c c') as [H|H].
      * left. pose proof (off_mono G (c + 1) c' ltac:(lia)). lia.
      * right. pose proof (off_mono G (c' + 1) c ltac:(lia)) as X. rewrite off_S in X by lia. lia.
    + rewrite P5; auto. intros Hv. apply Ncc. apply (Dj c c' v); auto; [now apply HG, Ro|]. apply HG', Ro'. eapply get_In; eauto.
  - exists lv, pm, iv. split; auto.
    assert (HO : forall c, 0 <= c < K -> exists s o, get (cc_roots cc) c = Some s /\ cm_order adj deg s o /\ Zlen o = Zlen (G c) /\ (forall v, In v o <-> In v (G c)) /\ forall k v, get o k = Some v -> get iv (m - (off G c + k) - 1) = Some v /\ get pm v = Some (m - (off G c + k) - 1)).
    { intros c Hc. destruct (Rt c Hc) as (s & E1 & E2). destruct (Rg c s Hc E2) as (Hs & HG). destruct (I4 c s) as (o & O1 & O2); auto; [now apply Hd|]. destruct (cm_order_reach _ _ _ _ O1) as (No & _ & Ro). exists s, o. split; auto. split; auto. assert (X : forall v, In v o <-> In v (G c)) by (intros v; now rewrite Ro, HG). split; [now apply Zlen_same; auto|]. split; auto. }
    assert (HP : forall v, 0 <= v < m -> exists p, get pm v = Some p /\ get iv p = Some v).
    { intros v Hv. apply In_g in Hv as (c & k & Hc & Hk & Ek). destruct (HO c Hc) as (s & o & _ & _ & _ & X & O2). assert (Hv : In v o) by (apply X; eapply get_In; eauto). apply In_get in Hv as (j & Hj & Ej). destruct (O2 j v Ej). eauto. }
    assert (HQ : forall p, 0 <= p < m -> exists v, get iv p = Some v /\ get pm v = Some p).
    { intros p Hp. destruct (flat_locate G K (m - p - 1) K0 ltac:(lia)) as (c & k & Hc & Hk & Ep). destruct (HO c Hc) as (s & o & _ & _ & Lo & X & O2). destruct (get_in_range o k ltac:(lia)) as (v & Ev). destruct (O2 k v Ev) as (Q1 & Q2). replace (m - (off G c + k) - 1) with p in * by lia. eauto. }
    split; [split; [exact I2|split; [exact I3|split; [exact HP|exact HQ]]]|].
    assert (HF : exists orders, Zlen orders = K /\ forall c o, get orders c = Some o -> exists s, get (cc_roots cc) c = Some s /\ cm_order adj deg s o /\ Zlen o = Zlen (G c) /\ forall k v, get o k = Some v -> get iv (m - (off G c + k) - 1) = Some v).
    { assert (X : forall n, 0 <= n -> n <= K -> exists orders, Zlen orders = n /\ forall c o, get orders c = Some o -> exists s, get (cc_roots cc) c = Some s /\ cm_order adj deg s o /\ Zlen o = Zlen (G c) /\ forall k v, get o k = Some v -> get iv (m - (off G c + k) - 1) = Some v).
      { intros n Hn. pattern n. revert n Hn. apply Z_ind0; [intros _; exists []; split; [reflexivity|]; intros c o X; apply get_Some_bounds in X; change (Zlen (@nil (list Z))) with 0 in X; lia|].
        intros n Hn IH Hn1. destruct IH as (os & Lo & Ho); [lia|]. destruct (HO n ltac:(lia)) as (s & o & X1 & X2 & X3 & _ & X4). exists (os ++ [o]). rewrite Zlen_app. change (Zlen [o]) with 1. split; [lia|]. intros c o' Ec. pose proof (get_Some_bounds _ _ _ Ec) as B. rewrite Zlen_app in B. change (Zlen [o]) with 1 in B. destruct (Z_lt_ge_dec c (Zlen os)) as [H|H]; [rewrite get_app_l in Ec by lia; auto|]. assert (c = n) by lia. subst c. rewrite get_app_r in Ec by lia. replace (n - Zlen os) with 0 in Ec by lia. injection Ec as <-. exists s. split; auto. split; auto. split; auto. intros k v Ek. now apply X4. }
      apply (X K); lia. }
    destruct HF as (orders & Lo & Ho). exists (cc_roots cc), orders. split; auto. split; [|split].
    + intros s v Hs Hv. apply In_get in Hs as (c & Hc & Ec). assert (Lr : Zlen (cc_roots cc) = K). { rewrite <- L1, <- (Zlen_map Some), L5, Zlen_map. reflexivity. } destruct (Rt c ltac:(lia)) as (s' & X1 & X2). assert (s' = s) by congruence. subst s'. destruct (Rg c s ltac:(lia) X2) as (_ & HG). apply HG in Hv. assert (SG : ssortedZ (G c)) by (apply L7, (get_In _ c), get_nthl; lia). destruct (G c) as [|a l]; [contradiction|]. injection X2 as ->. inversion SG as [|a' l' _ HF]. destruct Hv as [->|Hv]; [lia|]. rewrite Forall_forall in HF. specialize (HF v Hv). lia.
    + apply Forall2_get; [rewrite Lo, <- L1, <- (Zlen_map Some), L5, Zlen_map; reflexivity|]. intros c s o Es Eo. destruct (Ho c o Eo) as (s' & X1 & X2 & _). replace s with s' by congruence. exact X2.
    + assert (Og' : forall c, 0 <= c -> c <= K -> off (nthl orders) c = off G c).
      { intros c Hc. pattern c. revert c Hc. apply Z_ind0; [intros; now rewrite !off_0|]. intros c Hc IH Hc1. rewrite !off_S, IH by lia. f_equal. destruct (get_in_range orders c ltac:(lia)) as (o & Eo). rewrite (nthl_get _ _ _ Eo). now destruct (Ho c o Eo) as (s & _ & _ & X & _). }
      assert (Lc : Zlen (concat orders) = m) by (rewrite concat_flat, Zlen_flat, Lo, Og' by lia; exact Lm).
      apply list_ext; [rewrite Zlen_rev; lia|]. intros p Hp. rewrite get_rev by lia. rewrite Lc, concat_flat, Lo. destruct (flat_locate G K (m - p - 1) K0 ltac:(lia)) as (c & k & Hc & Hk & Ep). rewrite Ep. rewrite <- (Og' c) by lia.
      destruct (get_in_range orders c ltac:(lia)) as (o & Eo). destruct (Ho c o Eo) as (s & _ & _ & X & O2). rewrite get_flat by (rewrite ?(nthl_get _ _ _ Eo); lia). rewrite (nthl_get _ _ _ Eo). destruct (get_in_range o k ltac:(lia)) as (v & Ev). rewrite Ev. pose proof (O2 k v Ev) as Q. replace (m - (off G c + k) - 1) with p in Q by lia. exact Q.
Qed.
End Total.

(** ** The whole function *)
Section Whole.
Context {V : Type}.
Variables (A : csr V) (hasv : bool) (base : Z) (rows : rows_t V).
Let m := Zlen rows.
Hypothesis HR : rep hasv base m rows A.
Hypothesis HB : base = 0 \/ base = 1.
Hypothesis HD : diagptr_len A.
Hypothesis HK : rows_ok m rows.
Hypothesis HSym : symmetric_adj (cols_of rows).
Hypothesis ND : forall u, NoDup (cols_of rows u).
Variables (T : Z) (srt : list Z -> list Z).
Hypothesis HS : sorts_by (degree rows) srt.
Hypothesis Hsmall : small_components (cols_of rows) m T.
Variables (who : Z -> Z) (levels perm inv : list Z).
Hypothesis Hwho : forall c, 0 <= who c < T.
Hypothesis Ll : Zlen levels = m.
Hypothesis Lp : Zlen perm = m.
Hypothesis Li : Zlen inv = m.

Lemma zero_based s1 : exists A0, make0Based A s1 = Some A0 /\ rep hasv 0 m rows A0 /\ forall s2, (if 1 =? base then make1Based A0 s2 else Some A0) = Some A.
Proof.
  destruct HB as [->| ->].
  - exists A. unfold make0Based. rewrite (rep_base _ _ _ _ _ HR). auto.
  - destruct (make0_ok _ _ _ _ s1 HR HD) as (A0 & E & R0 & _). exists A0. split; auto. split; auto. intros s2. change (1 =? 1) with true. cbv iota. eapply make0_make1; eauto.
Qed.
Theorem rcm_listed s1 s2 us cs csch j sch A0 u c cc : make0Based A s1 = Some A0 -> cc_run A0 T us cs csch j = Some (u, c, cc) -> component_listing m (connected (edges_of rows)) cc ->
  exists perm' inv', getRCMPermutation A T srt s1 s2 us cs csch j who sch levels perm inv = Some (A, perm', inv') /\ rcm_result rows perm' inv'.
Proof.
  intros E0 Ec HL. unfold getRCMPermutation. pose proof HR as (Hm & Hn & _). rewrite Hm, Hn. fold m. rewrite Z.eqb_refl, (rep_base _ _ _ _ _ HR). destruct (zero_based s1) as (A0' & E0' & R0 & E1). assert (A0' = A0) by congruence. subst A0'. rewrite E0, Ec.
  destruct (rcm_small_ok A0 hasv rows R0 HK HSym ND T srt HS Hsmall cc HL who levels perm inv (fun c _ => Hwho c) Ll Lp Li sch) as (l' & p' & i' & E & HRes). rewrite E, E1. eauto.
Qed.
End Whole.

(** With one thread the components are exact (C29). *)
Theorem rcm_one_thread {V} (A : csr V) hasv base (rows : rows_t V) srt levels perm inv s1 s2 us cs csch j sch A0 work u c :
  rep hasv base (Zlen rows) rows A -> base = 0 \/ base = 1 -> diagptr_len A -> rows_ok (Zlen rows) rows -> 1 <= Zlen rows ->
  symmetric_adj (cols_of rows) -> (forall u, NoDup (cols_of rows u)) -> sorts_by (degree rows) srt -> small_components (cols_of rows) (Zlen rows) 1 ->
  Zlen levels = Zlen rows -> Zlen perm = Zlen rows -> Zlen inv = Zlen rows -> junk_ok (Zlen rows) 1 j ->
  make0Based A s1 = Some A0 -> mapM (cc_work A0 0 1) (zrange 0 1) = Some work -> union_run (Zlen rows) work us = Some u -> all_done u -> compress_run (Zlen rows) 1 (fst u) cs = Some c -> call_done c ->
  exists perm' inv', getRCMPermutation A 1 srt s1 s2 us cs csch j (fun _ => 0) sch levels perm inv = Some (A, perm', inv') /\ rcm_result rows perm' inv'.
Proof.
  intros HR HB HD HK H1 HSym ND HS Hsm Ll Lp Li HJ E0 Ew Eu Du Ec Dc. destruct (zero_based A hasv base rows HR HB HD s1) as (A0' & E0' & R0 & _). assert (A0' = A0) by congruence. subst A0'. pose proof (proj1 R0) as Hm.
  destruct (cc_one_thread hasv 0 rows A0 us cs csch j work u c R0 HK H1 HJ Ew ltac:(now rewrite Hm) Du ltac:(now rewrite Hm) Dc) as (res & Er & HL).
  eapply rcm_listed; eauto. intros _. lia.
Qed.

(** ** A long path
    The areas of prefixSum_array are PAR_THR + 1 elements apart, the array has room
    for PAR_THR elements per thread (:694, :721). *)
Definition path_row (m i : Z) : list (Z * Z) := (if 0 <? i then [(i - 1, 0)] else []) ++ (if i + 1 <? m then [(i + 1, 0)] else []).
Definition path_rows (m : Z) : rows_t Z := map (path_row m) (zrange 0 m).
Section Path.
Variable m : Z.
Hypothesis Hm : 3 <= m.
Let rows := path_rows m.
Let adj := cols_of rows.
Lemma path_len : Zlen rows = m.
Proof. unfold rows, path_rows. rewrite Zlen_map, Zlen_zrange. lia. Qed.
Lemma path_nth i : 0 <= i < m -> nthl rows i = path_row m i.
Proof. intros Hi. apply nthl_get. unfold rows, path_rows. rewrite get_map, get_zrange by lia. reflexivity. Qed.
Lemma path_adj u v : In v (adj u) <-> 0 <= u < m /\ 0 <= v < m /\ (v = u - 1 \/ v = u + 1).
Proof.
  unfold adj, cols_of. destruct (Z_lt_ge_dec u 0) as [H|H]; [unfold nthl; rewrite get_out by lia; split; [intros []|lia]|]. destruct (Z_lt_ge_dec u m) as [H'|H']; [|unfold nthl; rewrite get_out by (rewrite path_len; lia); split; [intros []|lia]].
  rewrite path_nth by lia. unfold path_row. rewrite map_app, in_app_iff. destruct (Z.ltb_spec 0 u), (Z.ltb_spec (u + 1) m); cbn [map fst In]; lia.
Qed.
Lemma path_rows_ok : rows_ok m rows.
Proof.
  intros r c v Hr Hc. unfold rows, path_rows in Hr. apply in_map_iff in Hr as (i & <- & Hi). apply In_zrange in Hi. assert (H : In c (adj i)) by (unfold adj, cols_of; rewrite path_nth by lia; now apply (in_map fst) in Hc). apply path_adj in H. lia.
Qed.
Lemma path_walk k v : walk adj 0 k v -> v <= k.
Proof. induction 1 as [|k u v W IH Hv]; [lia|]. apply path_adj in Hv. lia. Qed.
Lemma path_dist v : 0 <= v < m -> dist adj 0 v v.
Proof.
  intros Hv. split; [|intros k W; now apply path_walk in W]. destruct Hv as (H0 & H1). revert H1. pattern v. revert v H0. apply Z_ind0; [intros; constructor|]. intros v Hv IH Hv1. econstructor; [apply IH; lia|]. apply path_adj. lia.
Qed.
Lemma path_reach v : reach adj 0 v <-> 0 <= v < m.
Proof.
  split; [|intros Hv; exists v; now apply path_dist]. intros (k & W). inversion W as [|k0 u w H1 H2 H3]; [lia|]. apply path_adj in H2. lia.
Qed.
Lemma path_depth n : bfs_depth adj 0 n -> n = m.
Proof.
  intros ((v & D) & H). pose proof (dist_reach _ _ _ _ D) as R. apply path_reach in R. pose proof (dist_unique _ _ _ _ _ D (path_dist v R)). pose proof (H (m - 1) (m - 1) (path_dist (m - 1) ltac:(lia))). lia.
Qed.
Lemma path_sym : symmetric_adj adj.
Proof. intros u v. rewrite !path_adj. lia. Qed.
Lemma path_NoDup u : NoDup (adj u).
Proof.
  destruct (in_dec Z.eq_dec u (zrange 0 m)) as [H|H].
  - apply In_zrange in H. unfold adj, cols_of. rewrite path_nth by lia. unfold path_row. destruct (Z.ltb_spec 0 u), (Z.ltb_spec (u + 1) m); cbn [app map fst]; repeat constructor; cbn [In]; try tauto; lia.
  - unfold adj, cols_of, nthl. rewrite get_out; [constructor|]. rewrite path_len. rewrite In_zrange in H. lia.
Qed.
Definition path_cc : cc_result := mkCC 1 [0] [m] [0] (zrange 0 m).
Lemma path_listing : component_listing m (connected (edges_of rows)) path_cc.
Proof.
  exists [zrange 0 m]. cbn [cc_n cc_nodes cc_sizes cc_starts cc_roots path_cc]. split; [reflexivity|]. split; [cbn [concat]; now rewrite app_nil_r|]. split; [cbn [map]; rewrite Zlen_zrange; f_equal; lia|]. split; [intros c Hc; replace c with 0 by lia; reflexivity|]. split; [cbn [map]; now rewrite zrange_cons by lia|]. split; [repeat constructor|]. split; [intros g [<-|[]]; apply ssorted_zrange|]. split; [apply Permutation_refl|].
  intros x y Hx Hy. split; [|].
  - intros _. exists (zrange 0 m). split; [now left|]. split; now apply In_zrange.
  - intros _. assert (forall z, 0 <= z < m -> connected (edges_of rows) 0 z) as C by (intros z Hz; apply (connected_reach rows 0 z path_sym); now apply path_reach). eapply rst_trans; [apply rst_sym; apply C|apply C]; auto.
Qed.
Theorem path_overrun (A : csr Z) T srt levels perm inv sch : rep true 0 m rows A -> 1 <= T -> m < PAR_THR -> Z.max (T * PAR_THR) m < (T - 1) * (PAR_THR + 1) + m + 1 ->
  Zlen levels = m -> rcm_small A T srt path_cc (fun _ => T - 1) sch (levels, perm, inv) = None.
Proof.
  intros HR HT H1 H2 L. unfold rcm_small, par_any. change (zrange 0 (cc_n path_cc)) with [0]. cbn [map].
  assert (E : rcm_comp A T srt path_cc (T - 1) 0 (levels, perm, inv) = None).
  { unfold rcm_comp. change (get (cc_roots path_cc) 0) with (Some 0). change (get (cc_starts path_cc) 0) with (Some 0). change (get (cc_sizes path_cc) 0) with (Some m). cbv beta iota. replace (PAR_THR <=? m) with false by lia.
    pose proof path_len as PL. pose proof HR as HR'. rewrite <- PL in HR'. pose proof path_rows_ok as HK. assert (HK' : rows_ok (Zlen rows) rows) by (rewrite PL; exact HK).
    replace (rcm_short A 0) with (Some (@None (list Z))).
    2:{ assert (N0 : nthl rows 0 = [(1, 0)]) by (rewrite path_nth by lia; unfold path_row; replace (0 + 1 <? m) with true by lia; reflexivity).
        assert (N1 : nthl rows 1 = [(0, 0); (2, 0)]) by (rewrite path_nth by lia; unfold path_row; replace (1 + 1 <? m) with true by lia; reflexivity).
        assert (O1 : off (nthl rows) 1 = 1) by (change 1 with (0 + 1) at 1; rewrite off_S, off_0, N0 by lia; reflexivity).
        assert (O2 : off (nthl rows) 2 = 3) by (change 2 with (1 + 1) at 1; rewrite off_S, O1, N1 by lia; reflexivity).
        assert (G0 : get (rowptr A) 0 = Some 0) by (rewrite (rep_rowptr _ _ _ _ _ 0 HR'), off_0 by lia; reflexivity).
        assert (G1 : get (rowptr A) 1 = Some 1) by (rewrite (rep_rowptr _ _ _ _ _ 1 HR'), O1 by lia; reflexivity).
        assert (G2 : get (rowptr A) 2 = Some 3) by (rewrite (rep_rowptr _ _ _ _ _ 2 HR'), O2 by lia; reflexivity).
        pose proof (rep_col true 0 (Zlen rows) rows A 0 0 1 0 HR' ltac:(lia)) as C0. rewrite N0, off_0 in C0. specialize (C0 eq_refl). change (get (colidx A) 0 = Some 1) in C0.
        unfold rcm_short. change (0 + 1) with 1. rewrite G0, G1. change (1 =? 0) with false. change (1 =? 1) with true. cbv iota. rewrite C0. change (1 =? 0) with false. cbv iota. change (1 + 1) with 2. rewrite G1, G2. reflexivity. }
    cbv beta iota. replace (mapM (fun k => get (cc_nodes path_cc) (0 + k)) (zrange 0 m)) with (Some (zrange 0 m)).
    2:{ symmetry. rewrite (mapM_Some _ (fun k => k)); [now rewrite map_id|]. intros k Hk. apply In_zrange in Hk. cbn [cc_nodes path_cc]. rewrite get_zrange by lia. reflexivity. }
    destruct (mark_all rows (zrange 0 m) levels) as (l1 & E1 & L1 & P1); [now rewrite PL|intros v Hv; apply In_zrange in Hv; now rewrite PL|]. rewrite E1.
    destruct (bfs_serial_ok A true 0 rows HR' HK' 0 l1 ltac:(lia) L1) as (n & l2 & vis & E2 & Dn & _); [intros v Hv; apply P1, In_zrange; now apply path_reach|]. rewrite E2. apply path_depth in Dn. subst n.
    unfold rcm_prefix. pose proof (proj1 HR) as Cm. rewrite Cm, PL. replace ((T - 1) * (PAR_THR + 1) + (m + 1) + 1 <=? Z.max (T * PAR_THR) m + 1) with false by lia. rewrite andb_false_r. reflexivity. }
  unfold par. assert (HM : merge sch [[0]] = [0]) by (apply Permutation_length_1_inv, Permutation_sym, (merge_perm sch [[0]])). rewrite HM. cbn [foldM]. now rewrite E.
Qed.
End Path.

(** ** A worked case: four components, among them an isolated node, a node with
    only its diagonal and a pair. *)
Fixpoint dinsert (deg : Z -> Z) (x : Z) (l : list Z) : list Z := match l with [] => [x] | y :: r => if deg x <=? deg y then x :: l else y :: dinsert deg x r end.
Definition dsort (deg : Z -> Z) (l : list Z) : list Z := fold_right (dinsert deg) [] l.
Lemma dinsert_perm deg x l : Permutation (x :: l) (dinsert deg x l).
Proof. induction l as [|y l IH]; cbn [dinsert]; [apply Permutation_refl|]. destruct (deg x <=? deg y); [apply Permutation_refl|]. eapply perm_trans; [apply perm_swap|]. now constructor. Qed.
Lemma dinsert_sorted deg x l : by_degree deg l -> by_degree deg (dinsert deg x l).
Proof.
  induction 1 as [|y l HS IH HF]; cbn [dinsert]; [repeat constructor|]. destruct (Z.leb_spec (deg x) (deg y)) as [H|H].
  - constructor; [constructor; auto|]. constructor; auto. rewrite Forall_forall in *. intros z Hz. specialize (HF z Hz). lia.
  - constructor; auto. rewrite Forall_forall in *. intros z Hz. apply (Permutation_in _ (Permutation_sym (dinsert_perm deg x l))) in Hz as [<-|Hz]; [lia|auto].
Qed.
Lemma dsort_sorts deg : sorts_by deg (dsort deg).
Proof.
  intros l. induction l as [|x l (IH1 & IH2)]; [split; constructor|]. cbn [dsort fold_right]. fold (dsort deg l). split; [|now apply dinsert_sorted]. eapply perm_trans; [apply perm_skip, IH1|apply dinsert_perm].
Qed.
Definition rcm_case : rows_t Z := map (map (fun c => (c, c))) [[0; 3; 5]; [1]; [2; 7]; [0; 3; 6]; []; [0; 5]; [3; 6]; [2; 7]].
Definition rcm_case_A : csr Z := mkCSR 8 8 [1; 4; 5; 7; 10; 10; 12; 14; 16] [1; 4; 6; 2; 3; 8; 1; 4; 7; 1; 6; 4; 7; 3; 8] (Some [0; 3; 5; 1; 2; 7; 0; 3; 6; 0; 5; 3; 6; 2; 7]) None None None None.
Definition rcm_case_run : option (csr Z * list Z * list Z) :=
  getRCMPermutation rcm_case_A 1 (dsort (degree rcm_case)) (fun _ => []) (fun _ => []) (repeat 0 300) (repeat 0 200) (fun _ => []) (junk77 1 8) (fun _ => 0) [3%nat; 2%nat] (repeat 55 8) (repeat 66 8) (repeat 77 8).
Lemma rcm_case_result : rcm_case_run = Some (rcm_case_A, [7; 3; 2; 5; 0; 6; 4; 1], [4; 7; 2; 1; 6; 3; 5; 0]).
Proof. vm_compute. reflexivity. Qed.
Lemma rcm_case_rep : rep true 1 8 rcm_case rcm_case_A.
Proof. repeat split. Qed.
Lemma small_if {V} (rows : rows_t V) T : rows_ok (Zlen rows) rows -> 1 <= T -> Zlen rows + T <= PAR_THR -> small_components (cols_of rows) (Zlen rows) T.
Proof.
  intros HK HT H s o Hs N Ho. assert (Zlen o <= Zlen rows); [|lia]. apply NoDup_bounded; auto; [lia|]. intros v Hv. apply (reach_range rows HK s v Hs). auto.
Qed.
Lemma adj_check {V} (rows : rows_t V) : forallb (fun u => forallb (fun v => existsb (Z.eqb u) (cols_of rows v)) (cols_of rows u)) (zrange 0 (Zlen rows)) = true -> symmetric_adj (cols_of rows).
Proof.
  intros H u v Hv. rewrite forallb_forall in H. assert (Hu : In u (zrange 0 (Zlen rows))).
  { apply In_zrange. unfold cols_of, nthl in Hv. destruct (get rows u) eqn:E; [|contradiction]. now apply get_Some_bounds in E. }
  specialize (H u Hu). rewrite forallb_forall in H. specialize (H v Hv). apply existsb_exists in H as (x & Hx & E). apply Z.eqb_eq in E. now subst x.
Qed.
Lemma rcm_case_hyps : rep true 1 (Zlen rcm_case) rcm_case rcm_case_A /\ diagptr_len rcm_case_A /\ rows_ok (Zlen rcm_case) rcm_case /\ symmetric_adj (cols_of rcm_case) /\ (forall u, NoDup (cols_of rcm_case u)) /\
  sorts_by (degree rcm_case) (dsort (degree rcm_case)) /\ small_components (cols_of rcm_case) (Zlen rcm_case) 1.
Proof.
  assert (HK : rows_ok (Zlen rcm_case) rcm_case). { intros r c v Hr Hc. change (Zlen rcm_case) with 8. cbn in Hr. repeat (destruct Hr as [<-|Hr]; [cbn in Hc; repeat (destruct Hc as [Hc|Hc]; [injection Hc as <- <-; lia|]); contradiction|]). contradiction. }
  split; [exact rcm_case_rep|]. split; [discriminate|]. split; [exact HK|]. split; [apply adj_check; reflexivity|]. split; [|split; [apply dsort_sorts|apply small_if; auto; [lia|change (Zlen rcm_case) with 8; unfold PAR_THR; lia]]].
  intros u. unfold cols_of, nthl. destruct (get rcm_case u) as [r|] eqn:E; [|constructor]. apply get_In in E. cbn in E. repeat (destruct E as [<-|E]; [cbn; repeat constructor; cbn; lia|]). contradiction.
Qed.

(** A serial search on the same matrix, 1-based, from node 6. *)
Lemma bfs_case : bfs_serial rcm_case_A 1 6 (repeat (-1) 8) = Some (5, [2; -1; -1; 1; -1; 3; 0; -1], [6; 3; 0; 5]).
Proof. vm_compute. reflexivity. Qed.
Lemma path_overrun_witness : exists m T (A : csr Z), rep true 0 m (path_rows m) A /\ rows_ok m (path_rows m) /\ symmetric_adj (cols_of (path_rows m)) /\ (forall u, NoDup (cols_of (path_rows m) u)) /\ m < PAR_THR /\
  component_listing m (connected (edges_of (path_rows m))) (path_cc m) /\
  forall srt levels perm inv sch, Zlen levels = m -> rcm_small A T srt (path_cc m) (fun _ => T - 1) sch (levels, perm, inv) = None.
Proof.
  exists 65535, 2, (csr_of 0 65535 (path_rows 65535)).
  assert (H : rep true 0 65535 (path_rows 65535) (csr_of 0 65535 (path_rows 65535))) by apply csr_of_rep.
  split; [exact H|]. split; [apply path_rows_ok; lia|]. split; [apply path_sym; lia|]. split; [intros u; apply path_NoDup; lia|]. split; [unfold PAR_THR; lia|]. split; [apply path_listing; lia|].
  intros srt levels perm inv sch L. apply path_overrun; auto; unfold PAR_THR; lia.
Qed.
