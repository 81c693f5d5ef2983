(** * Choosing the source of a large component (reordering/RCM.cpp:480-646).

    The parallel search is ParBfs.v.  The arrays of aux (queues, rowptrs) are
    represented by what a search leaves in them.  [candidates] (m elements) is the
    list of its first nCandidates elements; more than m of them is an error.
    Simplified: :608-613 reads the whole row of [u] where the code stops at the
    first hit (nothing is written).  Not modelled: printing, int overflow. *)
From Coq Require Import Permutation.
From Verif Require Import Base Interleave Spec PermUtils Flat Csr CsrOps Levels LevelsMain RowPar Transpose LevelsCsr BitVector Bfs ParBfs Rcm.

(** ** Model *)
Definition INT_MAX : Z := 2147483647.
Definition INT_MIN : Z := -2147483648.

Section Model.
Context {V : Type}.
Variable A : csr V.
Variable T : Z.

Definition sel_deg (u : Z) : option Z := b <- get (rowptr A) u ;; e <- get (rowptr A) (u + 1) ;; Some (e - b).

(** getMinDegreeNode, :488-527; [who i] is the thread that looks at element [i].
    First the minima of the threads (:500-511), then their minimum (:516-523). *)
Definition min_degree (who : Z -> Z) (nodes : list Z) : option Z :=
  loc <- mapM (fun t => foldM (fun i '(mn, ix) => u <- get nodes i ;; d <- sel_deg u ;; Some (if d <? mn then (d, u) else (mn, ix)))
                              (filter (fun i => who i =? t) (zrange 0 (Zlen nodes))) (INT_MAX, -1)) (zrange 0 T) ;;
  Some (snd (fold_left (fun '(gm, gi) '(lm, li) => if lm <? gm then (lm, li) else (gm, gi)) loc (INT_MAX, -1))).

(** initializeBitVector, :545-554. *)
Definition init_bits (sch : list nat) (nodes bv : list Z) : option (list Z) :=
  par_any sch (fun i bv => u <- get nodes i ;; if (0 <=? u) && (u <? cm A) then bv_clear bv u else None) 0 (Zlen nodes) bv.

(** :577-584 *)
Definition sel_gather (last : list (list Z)) : option (list Z) := if Zlen (concat last) <=? cm A then Some (concat last) else None.
(** :591-597; [k] is j + 1. *)
Fixpoint sel_insert (k : nat) (c degree : Z) (cand : list Z) : option (list Z) :=
  match k with
  | O => set cand 0 c
  | S j => x <- get cand (Z.of_nat j) ;; d <- sel_deg x ;;
           if degree <? d then cand <- set cand (Z.of_nat j + 1) x ;; sel_insert j c degree cand else set cand (Z.of_nat j + 1) c
  end.
(** :587-598 *)
Definition sel_sort (cand : list Z) : option (list Z) :=
  forZ 1 (Zlen cand) (fun i cand => c <- get cand i ;; d <- sel_deg c ;; sel_insert (Z.to_nat i) c d cand) cand.
(** :601-619 *)
Definition sel_pick (cand : list Z) : option (Z * list Z) :=
  forZ 1 (Zlen cand) (fun i '(outIdx, cand) =>
    if outIdx <? 5 then
      u <- get cand i ;; chosen <- mapM (fun k => get cand k) (zrange 0 outIdx) ;; row <- pb_row A 0 u ;;
      if existsb (fun v => existsb (Z.eqb v) chosen) (u :: row) then Some (outIdx, cand)
      else cand <- set cand outIdx u ;; Some (outIdx + 1, cand)
    else Some (outIdx, cand)) (1, cand).

(** What happens in a search: the interleavings of initializeBitVector and of the
    search, the old contents of rowptrs. *)
Definition sel_exec : Type := list nat * (nat -> list nat) * list (list Z).
(** :622-642.  The result: bits, the new source (if :634 is reached), e. *)
Fixpoint sel_trials (nodes : list Z) (ex : nat -> sel_exec) (diameter : Z) (cands bv : list Z) (minWidth e : Z) : option (list Z * option Z * Z) :=
  match cands with
  | [] => Some (bv, None, e)
  | c :: cands =>
      let '(isch, sch, junk) := ex (length cands) in
      bv <- init_bits isch nodes bv ;;
      r <- bfs_par A 0 T false false (Some minWidth) sch c [] bv [] INT_MIN junk ;;
      if pb_levels_n r =? -1 then sel_trials nodes ex diameter cands (pb_bv r) minWidth e
      else if (diameter <? pb_levels_n r) && (pb_width r <? minWidth) then Some (pb_bv r, Some c, -1)
      else if pb_width r <? minWidth then sel_trials nodes ex diameter cands (pb_bv r) (pb_width r) c
      else sel_trials nodes ex diameter cands (pb_bv r) minWidth e
  end.
(** :572-643 *)
Fixpoint sel_loop (fuel : nat) (nodes : list Z) (ex : nat -> sel_exec * (nat -> sel_exec)) (first : bool) (s : Z) (bv : list Z) : option (Z * list Z) :=
  match fuel with
  | O => None
  | S fuel =>
      let '((isch, sch, junk), ex') := ex fuel in
      bv <- (if first then Some bv else init_bits isch nodes bv) ;;
      r <- bfs_par A 0 T false false None sch s [] bv [] 0 junk ;;
      cand <- sel_gather (pb_last r) ;;
      cand <- sel_sort cand ;;
      ' (nc, cand) <- sel_pick cand ;;
      cands <- mapM (fun i => get cand i) (zrange 0 nc) ;;
      ' (bv, s', e) <- sel_trials nodes ex' (pb_levels_n r) cands (pb_bv r) INT_MAX (-1) ;;
      match s' with
      | Some s' => sel_loop fuel nodes ex false s' bv
      | None => if e =? -1 then sel_loop fuel nodes ex false s bv else Some (s, bv)
      end
  end.
(** selectSourcesWithPseudoDiameter, :561-646: the source and the bit vector.  The
    number of iterations is not bounded in the code; the bound here is never hit. *)
Definition selectSources (who : Z -> Z) (ex : nat -> sel_exec * (nat -> sel_exec)) (nodes bv : list Z) : option (Z * list Z) :=
  s <- min_degree who nodes ;; sel_loop (Z.to_nat (cm A) + 1) nodes ex true s bv.
End Model.

(** ** Specification *)
(** A node [e] as far from [s] as possible has the same eccentricity, which is the
    distance of the two. *)
Definition pseudo_peripheral (adj : Z -> list Z) (s : Z) : Prop := exists e n, bfs_depth adj s n /\ dist adj s e (n - 1) /\ bfs_depth adj e n.
(** The array [candidates] suffices for the last level of a search from a node of
    [g], each node of it queued by every thread. *)
Definition cand_room (adj : Z -> list Z) (m T : Z) (g : list Z) : Prop :=
  T = 1 \/ forall s n l, In s g -> bfs_depth adj s n -> NoDup l -> (forall v, In v l -> dist adj s v (n - 1)) -> T * Zlen l <= m.

(** ** Proof *)
Lemma dist_sym adj s v k : symmetric_adj adj -> dist adj s v k -> dist adj v s k.
Proof.
  intros HS. assert (W : forall x k y, walk adj x k y -> walk adj y k x).
  { intros x j y W. induction W as [|j u v' W IH Hv]; [constructor|]. eapply walk_cons; eauto. }
  intros (D1 & D2). split; auto.
Qed.

Section Proof.
Context {V : Type}.
Variables (A : csr V) (hasv : bool) (rows : rows_t V).
Let m := Zlen rows.
Let adj := cols_of rows.
Hypothesis HR : rep hasv 0 m rows A.
Hypothesis HK : rows_ok m rows.
Hypothesis HSym : symmetric_adj adj.
Variable T : Z.
Hypothesis HT : 1 <= T.
Hypothesis Hbig : T * m < INT_MAX.

Lemma sel_deg_ok u : 0 <= u < m -> sel_deg A u = Some (degree rows u).
Proof. intros Hu. unfold sel_deg. destruct (deg_ptr A hasv 0 rows HR u Hu) as (b & -> & ->). f_equal. unfold degree. lia. Qed.

(** *** The node of minimal degree *)
Variable g : list Z.
Hypothesis Hrange : forall v, In v g -> 0 <= v < m.
Hypothesis Hmax : forall u, In u g -> degree rows u < INT_MAX.

Definition min_of (l : list Z) (p : Z * Z) : Prop :=
  fst p <= INT_MAX /\ (forall u, In u l -> fst p <= degree rows u) /\ (fst p < INT_MAX -> In (snd p) l /\ fst p = degree rows (snd p)).
Lemma min_degree_ok who : (forall i, 0 <= who i < T) -> g <> [] -> exists s, min_degree A T who g = Some s /\ In s g /\ forall u, In u g -> degree rows s <= degree rows u.
Proof.
  intros Hw Ne. unfold min_degree.
  set (F := fun i '(mn, ix) => u <- get g i ;; d <- sel_deg A u ;; Some (if d <? mn then (d, u) else (mn, ix))).
  assert (Hloc : forall is ns p0 l0, mapM (fun i => get g i) is = Some ns -> min_of l0 p0 -> exists p, foldM F is p0 = Some p /\ min_of (l0 ++ ns) p).
  { induction is as [|i is IH]; intros ns p0 l0 E H0; cbn [mapM foldM] in *; [injection E as <-; exists p0; now rewrite app_nil_r|].
    destruct (get g i) as [u|] eqn:Gu; [|discriminate]. destruct (mapM (fun i => get g i) is) as [ns'|] eqn:E'; [|discriminate]. injection E as <-.
    destruct p0 as (mn & ix). unfold F at 1. rewrite Gu. pose proof (get_In _ _ _ Gu) as Iu. rewrite sel_deg_ok by auto. destruct H0 as (H1 & H2 & H3). cbn [fst snd] in *.
    destruct (IH ns' (if degree rows u <? mn then (degree rows u, u) else (mn, ix)) (l0 ++ [u]) eq_refl) as (p & Ep & Hp).
    - specialize (Hmax u Iu). destruct (Z.ltb_spec (degree rows u) mn) as [L|L]; split; cbn [fst snd]; try lia; split.
      + intros w Hw'. apply in_app_or in Hw' as [Hw'|[<-|[]]]; [specialize (H2 w Hw'); lia|lia].
      + intros _. split; auto. apply in_or_app. right. now left.
      + intros w Hw'. apply in_app_or in Hw' as [Hw'|[<-|[]]]; [auto|lia].
      + intros Hlt. destruct (H3 Hlt). split; auto. apply in_or_app. now left.
    - exists p. split; auto. now rewrite <- app_assoc in Hp. }
  assert (Hmin0 : min_of [] (INT_MAX, -1)) by (split; cbn [fst]; [lia|split; [intros u []|lia]]).
  assert (Hth : forall t, exists ns p, mapM (fun i => get g i) (filter (fun i => who i =? t) (zrange 0 (Zlen g))) = Some ns /\ foldM F (filter (fun i => who i =? t) (zrange 0 (Zlen g))) (INT_MAX, -1) = Some p /\ min_of ns p).
  { intros t. destruct (mapM_ex (fun i => get g i) (filter (fun i => who i =? t) (zrange 0 (Zlen g)))) as (ns & En).
    { intros i Hi. apply filter_In in Hi as (Hi & _). apply In_zrange in Hi. destruct (get_in_range g i Hi) as (x & ->). eauto. }
    destruct (Hloc _ ns _ [] En Hmin0) as (p & Ep & Hp). eauto. }
  destruct (mapM_ex (fun t => foldM F (filter (fun i => who i =? t) (zrange 0 (Zlen g))) (INT_MAX, -1)) (zrange 0 T)) as (loc & El); [intros t _; destruct (Hth t) as (ns & p & _ & -> & _); eauto|].
  fold F. rewrite El. eexists. split; [reflexivity|].
  set (H := fun '(gm, gi) '(lm, li) => if lm <? gm then (lm, li) else (gm, gi) : Z * Z).
  (* the minimum over the threads *)
  assert (Hglob : forall loc p0 l0, (forall p, In p loc -> exists ns, min_of ns p /\ forall u, In u ns -> In u g) -> min_of l0 p0 -> (forall u, In u l0 -> In u g) ->
     fst (fold_left H loc p0) <= INT_MAX /\ fst (fold_left H loc p0) <= fst p0 /\ (forall p, In p loc -> fst (fold_left H loc p0) <= fst p) /\
     (fst (fold_left H loc p0) < INT_MAX -> In (snd (fold_left H loc p0)) g /\ fst (fold_left H loc p0) = degree rows (snd (fold_left H loc p0)))).
  { clear loc El. induction loc as [|p loc IH]; intros p0 l0 Hl H0 S0; cbn [fold_left].
    - destruct H0 as (H1 & H2 & H3). split; auto. split; [lia|]. split; [intros p []|]. intros Hlt. destruct (H3 Hlt). auto.
    - destruct (Hl p (or_introl eq_refl)) as (ns & Hp & Sp). destruct p0 as (gm & gi), p as (lm & li). cbn [H fst] in *. destruct (Z.ltb_spec lm gm) as [L|L].
      + destruct (IH (lm, li) ns (fun p Hp => Hl p (or_intror Hp)) Hp Sp) as (I1 & I2 & I3 & I4). cbn [fst] in I2. split; auto. split; [lia|]. split; [|auto]. intros q [<-|Hq]; [cbn [fst]; lia|auto].
      + destruct (IH (gm, gi) l0 (fun p Hp => Hl p (or_intror Hp)) H0 S0) as (I1 & I2 & I3 & I4). cbn [fst] in I2. split; auto. split; [lia|]. split; [|auto]. intros q [<-|Hq]; [cbn [fst]; lia|auto]. }
  assert (Hns : forall t ns u, mapM (fun i => get g i) (filter (fun i => who i =? t) (zrange 0 (Zlen g))) = Some ns -> In u ns -> In u g).
  { intros t ns u En Hu. apply In_get in Hu as (k & Bk & Gk). pose proof (mapM_length _ _ _ En) as Lm. destruct (get_in_range (filter (fun i => who i =? t) (zrange 0 (Zlen g))) k) as (i & Gi); [unfold Zlen in *; lia|]. pose proof (mapM_get _ _ _ _ _ En Gi) as X. cbv beta in X. rewrite Gk in X. symmetry in X. eapply get_In; eauto. }
  destruct (Hglob loc (INT_MAX, -1) []) as (G1 & G2 & G3 & G4); auto.
  { intros p Hp. apply In_get in Hp as (t & Bt & Gt). pose proof (mapM_length _ _ _ El) as Lm. destruct (get_in_range (zrange 0 T) t) as (t' & Gt'); [unfold Zlen in *; lia|]. pose proof (mapM_get _ _ _ _ _ El Gt') as X. cbv beta in X. rewrite Gt in X. destruct (Hth t') as (ns & p' & En & Ep & Hp'). rewrite Ep in X. injection X as <-. exists ns. split; auto. intros u. now apply (Hns t'). }
  { intros u []. }
  assert (Hall : forall u, In u g -> fst (fold_left H loc (INT_MAX, -1)) <= degree rows u).
  { intros u Hu. apply In_get in Hu as (i & Bi & Gi). specialize (Hw i). destruct (Hth (who i)) as (ns & p & En & Ep & Hp).
    assert (Gp : get loc (who i) = Some p). { rewrite (mapM_get _ _ _ (who i) (who i) El) by (rewrite get_zrange by lia; f_equal; lia). cbv beta. exact Ep. }
    assert (Iu : In u ns). { assert (Ii : In i (filter (fun j => who j =? who i) (zrange 0 (Zlen g)))) by (apply filter_In; split; [now apply In_zrange|lia]). apply In_get in Ii as (k & Bk & Gk). pose proof (mapM_get _ _ _ _ _ En Gk) as X. cbv beta in X. rewrite Gi in X. eapply get_In; eauto. }
    specialize (G3 p (get_In _ _ _ Gp)). destruct Hp as (_ & Hp & _). specialize (Hp u Iu). lia. }
  destruct g as [|u0 g'] eqn:Eg; [congruence|]. assert (Hu0 : In u0 (u0 :: g')) by now left.
  pose proof (Hall u0 Hu0) as Hlt. specialize (Hmax u0 Hu0). destruct (G4 ltac:(lia)) as (G5 & G6). split; auto. intros u Hu. rewrite <- G6. auto.
Qed.

(** *** The searches *)
Hypothesis Hg : forall s v, In s g -> (In v g <-> reach adj s v).
Hypothesis Hm2 : 2 <= T * m.
Definition same_out (bv bv' : list Z) : Prop := Zlen bv' = Zlen bv /\ forall v, ~ In v g -> get bv' v = get bv v.
Definition all_clear (bv : list Z) : Prop := forall v, In v g -> bit bv v = Some false.
Lemma same_refl bv : same_out bv bv. Proof. split; auto. Qed.
Lemma same_trans a b c : same_out a b -> same_out b c -> same_out a c.
Proof. intros (A1 & A2) (B1 & B2). split; [lia|]. intros v Hv. rewrite B2, A2; auto. Qed.

Lemma init_bits_ok sch bv : m <= Zlen bv -> exists bv', init_bits A sch g bv = Some bv' /\ same_out bv bv' /\ all_clear bv'.
Proof.
  intros HB. unfold init_bits. assert (Em : cm A = m) by apply (proj1 HR).
  destruct (par_any_inv (fun done b => same_out bv b /\ forall i v, In i done -> get g i = Some v -> bit b v = Some false) sch
    (fun i bv => u <- get g i ;; if (0 <=? u) && (u <? cm A) then bv_clear bv u else None) 0 (Zlen g) bv) as (bv' & done & E & (S & C) & Hd).
  - split; [apply same_refl|]. intros i v [].
  - intros done i b Hi _ _ (S & C). destruct (get_in_range g i Hi) as (u & Gu). rewrite Gu. pose proof (Hrange u (get_In _ _ _ Gu)) as Bu. rewrite Em. replace ((0 <=? u) && (u <? m)) with true by lia.
    destruct (bv_clear_ok b u ltac:(destruct S; lia)) as (b' & E & U). exists b'. split; auto. destruct U as (U1 & U2 & U3). split.
    + apply (same_trans _ b); auto. split; auto. intros v Hv. apply U3. intros ->. apply Hv. eapply get_In; eauto.
    + intros j v [<-|Hj] Gv; [assert (u = v) by congruence; now subst|]. destruct (Z.eq_dec v u) as [->|N]; auto. unfold bit. rewrite U3 by auto. exact (C j v Hj Gv).
  - exists bv'. split; auto. split; auto. intros v Hv. apply In_get in Hv as (i & Bi & Gi). apply (C i v); auto. now apply Hd.
Qed.

Lemma sel_search sc sch s bv width junk : In s g -> m <= Zlen bv -> all_clear bv -> Zlen junk = T - 1 ->
  exists r, bfs_par A 0 T false false sc sch s [] bv [] width junk = Some r /\ same_out bv (pb_bv r) /\ bfs_par_width rows T sc width r /\
    ((exists n, pb_levels_n r = n + 1 /\ 1 <= n <= m /\ bfs_depth adj s n /\ Zlen (pb_last r) = T /\ (forall t, NoDup (nthl (pb_last r) t)) /\ forall v, queued T (pb_last r) v <-> dist adj s v (n - 1)) \/ pb_levels_n r = -1 /\ sc <> None).
Proof.
  intros Hs HB HC HJ. destruct (bfs_par_full A hasv 0 rows HR HK T false false HT s (Hrange s Hs) sc bv [] []) with (sch := sch) (width := width) (junk := junk) as (r & E & (S1 & S2 & S3 & S4 & S5 & S6 & S7) & W); auto.
  - intros v Hv. apply HC. now apply (Hg s v).
  - intros H; discriminate H.
  - intros H; discriminate H.
  - exists r. split; auto. split; [split; auto; intros v Hv; apply S4; intros R; apply Hv; now apply (Hg s v)|]. split; auto. destruct S7 as [(n & En & D & _ & _ & _ & L1 & L2 & L3)|S7]; [left|now right].
    exists n. split; auto. split; [|auto]. destruct D as ((v & Dv) & Dn). pose proof (dist_nonneg _ _ _ _ Dv). pose proof (dist_lt rows HK s (Hrange s Hs) _ _ Dv) as Bm. fold m in Bm. lia.
Qed.

Lemma bfs_depth_unique s n n' : bfs_depth adj s n -> bfs_depth adj s n' -> n = n'.
Proof. intros ((v & D) & H) ((v' & D') & H'). specialize (H v' _ D'). specialize (H' v _ D). lia. Qed.
Lemma depth_ex s : In s g -> exists n, bfs_depth adj s n.
Proof.
  intros Hs. destruct (bv_new_ok [] (repeat 0 (Z.to_nat m)) m) as (bv & _ & L & C); [apply Zlen_nonneg|rewrite Zlen_repeat; pose proof (Zlen_nonneg rows) as Zr; fold m in Zr; lia|].
  destruct (sel_search None (fun _ => []) s bv 0 (repeat [] (Z.to_nat (T - 1))) Hs) as (r & _ & _ & _ & [(n & _ & _ & D & _)|(_ & X)]); [lia| |rewrite Zlen_repeat; lia|eauto|congruence].
  intros v Hv. apply C. auto.
Qed.

(** *** The candidates *)
(** [cand'] is [cand] with elements moved or repeated. *)
Definition drawn (cand cand' : list Z) : Prop := Zlen cand' = Zlen cand /\ forall v, In v cand' -> In v cand.
Lemma In_set (l l' : list Z) i x v : set l i x = Some l' -> In v l' -> v = x \/ In v l.
Proof.
  intros E H. apply In_get in H as (k & Bk & Gk). destruct (Z.eq_dec k i) as [->|N]; [rewrite (get_set_same _ _ _ _ E) in Gk; injection Gk; auto|]. rewrite (get_set_other _ _ _ _ _ E) in Gk by auto. right. eapply get_In; eauto.
Qed.
Lemma sel_insert_ok cand0 k c d : forall cand, Z.of_nat k < Zlen cand -> (forall v, In v cand0 -> 0 <= v < m) -> In c cand0 -> drawn cand0 cand -> exists cand', sel_insert A k c d cand = Some cand' /\ drawn cand0 cand'.
Proof.
  induction k as [|j IH]; intros cand Hk HG Hc HD; cbn [sel_insert].
  - destruct (set_ok cand 0 c ltac:(lia)) as (c' & E). exists c'. split; auto. destruct HD as (D1 & D2). split; [rewrite (set_len _ _ _ _ E); auto|]. intros v Hv. apply (In_set _ _ _ _ _ E) in Hv as [->|Hv]; auto.
  - destruct (get_in_range cand (Z.of_nat j) ltac:(lia)) as (x & Gx). rewrite Gx. destruct HD as (D1 & D2). pose proof (D2 x (get_In _ _ _ Gx)) as Ix. rewrite sel_deg_ok by auto.
    assert (HS : forall y, In y cand0 -> exists c', set cand (Z.of_nat j + 1) y = Some c' /\ drawn cand0 c').
    { intros y Iy. destruct (set_ok cand (Z.of_nat j + 1) y ltac:(lia)) as (c' & E). exists c'. split; auto. split; [rewrite (set_len _ _ _ _ E); auto|]. intros v Hv. apply (In_set _ _ _ _ _ E) in Hv as [->|Hv]; auto. }
    destruct (d <? degree rows x); [|now apply HS]. destruct (HS x Ix) as (c' & E & HD'). rewrite E. apply IH; auto. destruct HD' as (D1' & _). lia.
Qed.
Lemma sel_sort_ok cand : (forall v, In v cand -> 0 <= v < m) -> exists cand', sel_sort A cand = Some cand' /\ drawn cand cand'.
Proof.
  intros HG. unfold sel_sort. destruct (Z_le_gt_dec 1 (Zlen cand)) as [H1|H1]; [|rewrite forZ_nil by lia; exists cand; split; auto; split; auto].
  apply (forZ_rule (fun _ c => drawn cand c)); auto; [split; auto|]. intros i c Hi HD. pose proof HD as (D1 & D2). destruct (get_in_range c i ltac:(lia)) as (x & Gx). rewrite Gx. pose proof (D2 x (get_In _ _ _ Gx)) as Ix. rewrite sel_deg_ok by auto. apply sel_insert_ok; auto. lia.
Qed.
Lemma sel_pick_ok cand : 1 <= Zlen cand -> (forall v, In v cand -> 0 <= v < m) -> exists nc cand', sel_pick A cand = Some (nc, cand') /\ drawn cand cand' /\ 1 <= nc <= Zlen cand.
Proof.
  intros H1 HG. unfold sel_pick.
  destruct (forZ_rule (S := Z * list Z) (fun i '(o, c) => drawn cand c /\ 1 <= o <= i) 1 (Zlen cand) (fun i '(outIdx, cand) =>
    if outIdx <? 5 then
      u <- get cand i ;; chosen <- mapM (fun k => get cand k) (zrange 0 outIdx) ;; row <- pb_row A 0 u ;;
      if existsb (fun v => existsb (Z.eqb v) chosen) (u :: row) then Some (outIdx, cand)
      else cand <- set cand outIdx u ;; Some (outIdx + 1, cand)
    else Some (outIdx, cand)) (1, cand) H1) as ((o & c) & E & HD & Ho).
  - split; [split; auto|lia].
  - intros i (o & c) Hi (HD & Ho). pose proof HD as (D1 & D2). destruct (o <? 5); [|exists (o, c); split; auto; split; auto; lia].
    destruct (get_in_range c i ltac:(lia)) as (u & Gu). rewrite Gu. pose proof (HG u (D2 u (get_In _ _ _ Gu))) as Bu. rewrite mapM_slice by lia. rewrite (pb_row_ok A hasv 0 rows HR u Bu).
    destruct (existsb _ _); [exists (o, c); split; auto; split; auto; lia|]. destruct (set_ok c o u ltac:(lia)) as (c' & E). rewrite E. exists (o + 1, c'). split; auto. split; [|lia]. split; [rewrite (set_len _ _ _ _ E); auto|]. intros v Hv. apply (In_set _ _ _ _ _ E) in Hv as [->|Hv]; auto. apply D2. eapply get_In; eauto.
  - exists o, c. auto.
Qed.

Lemma queued_in qs v : Zlen qs = T -> queued T qs v <-> In v (concat qs).
Proof.
  intros L. unfold queued. rewrite in_concat. split.
  - intros (t & Ht & H). exists (nthl qs t). split; auto. apply nth_row_In'. lia.
  - intros (l & Hl & H). apply In_get in Hl as (t & Ht & G). exists t. rewrite (nthl_get _ _ _ G). split; auto. lia.
Qed.
(** Some queue is the longest. *)
Lemma longest_queue (last : list (list Z)) : (forall t, NoDup (nthl last t)) -> exists q, NoDup q /\ (forall v, In v q -> In v (concat last)) /\ forall t, Zlen (nthl last t) <= Zlen q.
Proof.
  intros N. assert (G : forall k, 0 <= k -> k <= Zlen last -> exists q, NoDup q /\ (forall v, In v q -> In v (concat last)) /\ forall t, t < k -> Zlen (nthl last t) <= Zlen q).
  { intros k Hk. pattern k. revert k Hk. apply Z_ind0; [intros _; exists []; split; [apply NoDup_nil|]; split; [intros v []|]; intros t Ht; rewrite (nthl_out rows) by lia; reflexivity|].
    intros k Hk IH B. destruct (IH ltac:(lia)) as (q & Q1 & Q2 & Q3). destruct (Z_le_gt_dec (Zlen (nthl last k)) (Zlen q)) as [H|H].
    - exists q. split; auto. split; auto. intros t Ht. destruct (Z.eq_dec t k) as [->|]; auto. apply Q3. lia.
    - exists (nthl last k). split; auto. split; [intros v Hv; apply in_concat; exists (nthl last k); split; auto; apply nth_row_In'; lia|]. intros t Ht. destruct (Z.eq_dec t k) as [->|]; [lia|]. specialize (Q3 t ltac:(lia)). lia. }
  destruct (G (Zlen last) (Zlen_nonneg _) ltac:(lia)) as (q & Q1 & Q2 & Q3). exists q. split; auto. split; auto. intros t. destruct (Z_lt_ge_dec t (Zlen last)); auto. rewrite (nthl_out rows) by lia. apply Zlen_nonneg.
Qed.

(** *** The loops *)
Variable bv0 : list Z.
Hypothesis HB0 : m <= Zlen bv0.
Definition exec_ok (x : sel_exec) : Prop := Zlen (snd x) = T - 1.

(** From [s], whose last level is at distance [n - 1]: either a node of the last level
    with a larger eccentricity, or one whose eccentricity is not larger. *)
Lemma sel_trials_ok ex s n : (forall k, exec_ok (ex k)) -> In s g -> forall cands bv minWidth e,
  same_out bv0 bv -> (forall c, In c cands -> dist adj s c (n - 1)) ->
  (if e =? -1 then cands <> [] /\ minWidth = INT_MAX else dist adj s e (n - 1) /\ exists n', bfs_depth adj e n' /\ n' <= n) ->
  exists bv' s' e', sel_trials A T g ex (n + 1) cands bv minWidth e = Some (bv', s', e') /\ same_out bv0 bv' /\
    match s' with
    | Some c => In c g /\ exists n', bfs_depth adj c n' /\ n < n' <= m
    | None => e' <> -1 /\ dist adj s e' (n - 1) /\ exists n', bfs_depth adj e' n' /\ n' <= n
    end.
Proof.
  intros HX Hs. induction cands as [|c cands IH]; intros bv minWidth e HS HC HE; cbn [sel_trials].
  - exists bv, None, e. split; auto. split; auto. destruct (Z.eqb_spec e (-1)); [destruct HE as (HE & _); congruence|]. tauto.
  - pose proof (HX (length cands)) as Hx. destruct (ex (length cands)) as ((isch & sch) & junk). cbn [exec_ok snd] in Hx.
    destruct (init_bits_ok isch bv ltac:(destruct HS; lia)) as (bv1 & E1 & S1 & C1). rewrite E1. pose proof (same_trans _ _ _ HS S1) as HS1.
    assert (Ic : In c g) by (apply (Hg s c Hs); eapply dist_reach; apply HC; now left).
    destruct (sel_search (Some minWidth) sch c bv1 INT_MIN junk Ic ltac:(destruct HS1; lia) C1 Hx) as (r & Er & S2 & (W1 & W2) & Hr). rewrite Er. pose proof (same_trans _ _ _ HS1 S2) as HS2. fold m in W1, W2.
    assert (HC' : forall c', In c' cands -> dist adj s c' (n - 1)) by (intros; apply HC; now right).
    assert (Hrange_c : 0 <= c) by (specialize (Hrange c Ic); lia).
    destruct (Z.eqb_spec (pb_levels_n r) (-1)) as [En|En].
    + apply IH; auto. destruct (Z.eqb_spec e (-1)) as [Ee|]; auto. exfalso. destruct HE as (_ & ->). destruct (W2 En) as (w & Ew & Hw). injection Ew as <-. lia.
    + destruct Hr as [(n' & Hn & Bn & D & _)|(Hr & _)]; [|congruence]. destruct ((n + 1 <? pb_levels_n r) && (pb_width r <? minWidth)) eqn:Ec.
      * exists (pb_bv r), (Some c), (-1). split; auto. split; auto. split; auto. exists n'. split; auto. lia.
      * destruct (Z.ltb_spec (pb_width r) minWidth) as [Lw|Lw].
        -- apply IH; auto. replace (c =? -1) with false by lia. split; [apply HC; now left|]. exists n'. split; auto. lia.
        -- apply IH; auto. destruct (Z.eqb_spec e (-1)) as [Ee|]; auto. exfalso. destruct HE as (_ & ->). unfold INT_MIN in W1. lia.
Qed.

Hypothesis Hroom : cand_room adj m T g.
Lemma sel_gather_ok s n last : In s g -> bfs_depth adj s n -> Zlen last = T -> (forall t, NoDup (nthl last t)) -> (forall v, queued T last v <-> dist adj s v (n - 1)) ->
  sel_gather A last = Some (concat last) /\ 1 <= Zlen (concat last) /\ forall v, In v (concat last) -> dist adj s v (n - 1).
Proof.
  intros Hs Hd L N Q. unfold sel_gather. rewrite (proj1 HR : cm A = m).
  assert (HQ : forall v, In v (concat last) <-> dist adj s v (n - 1)). { intros v. rewrite <- Q. symmetry. apply queued_in. auto. }
  assert (Len : Zlen (concat last) <= m).
  { destruct Hroom as [->|HR2].
    - destruct last as [|q [|q2 last]]; try (change (Zlen (@nil (list Z))) with 0 in L; lia); [|rewrite !Zlen_cons in L; pose proof (Zlen_nonneg last); lia]. cbn [concat] in *. rewrite app_nil_r in *. apply (NoDup_bounded m); [apply Zlen_nonneg|apply (N 0)|]. intros v Hv. apply HQ in Hv. apply Hrange, (Hg s v Hs). eapply dist_reach; eauto.
    - destruct (longest_queue last) as (q & Hq1 & Hq2 & Hq3); auto. rewrite concat_flat, Zlen_flat, L by lia.
      assert (G : forall t, 0 <= t -> t <= T -> off (nthl last) t <= t * Zlen q).
      { intros t Ht. pattern t. revert t Ht. apply Z_ind0; [rewrite off_0; lia|]. intros t Ht IH B. rewrite off_S by lia. specialize (IH ltac:(lia)). enough (Zlen (nthl last t) <= Zlen q) by lia. apply Hq3. }
      specialize (G T ltac:(lia) ltac:(lia)). enough (T * Zlen q <= m) by lia. apply (HR2 s n); auto. intros v Hv. apply HQ. eapply Hq2; eauto. }
  replace (Zlen (concat last) <=? m) with true by lia. split; auto. split; [|intros v; apply HQ].
  destruct Hd as ((v & D) & _). apply HQ in D. destruct (concat last) as [|a l]; [contradiction|]. rewrite Zlen_cons. pose proof (Zlen_nonneg l). lia.
Qed.

Lemma sel_loop_ok fuel : forall ex first s n bv, (forall k, exec_ok (fst (ex k)) /\ forall j, exec_ok (snd (ex k) j)) -> In s g -> bfs_depth adj s n -> m < n + Z.of_nat fuel ->
  same_out bv0 bv -> (first = true -> all_clear bv) ->
  exists s' bv', sel_loop A T fuel g ex first s bv = Some (s', bv') /\ In s' g /\ pseudo_peripheral adj s' /\ same_out bv0 bv'.
Proof.
  induction fuel as [|fuel IH]; intros ex first s n bv HX Hs Hd HF HS HC.
  { exfalso. destruct Hd as ((v & Dv) & _). pose proof (dist_lt rows HK s (Hrange s Hs) _ _ Dv) as Bm. fold m in Bm. lia. }
  cbn [sel_loop]. pose proof (HX fuel) as (HX1 & HX2). destruct (ex fuel) as (((isch & sch) & junk) & ex'). cbn [fst snd] in HX1, HX2. unfold exec_ok in HX1. cbn [snd] in HX1.
  assert (exists bv1, (if first then Some bv else init_bits A isch g bv) = Some bv1 /\ same_out bv0 bv1 /\ all_clear bv1) as (bv1 & E1 & S1 & C1).
  { destruct first; [exists bv; auto|]. destruct (init_bits_ok isch bv ltac:(destruct HS; lia)) as (bv1 & E1 & S1 & C1). exists bv1. split; auto. split; auto. eapply same_trans; eauto. }
  rewrite E1. destruct (sel_search None sch s bv1 0 junk Hs ltac:(destruct S1; lia) C1 HX1) as (r & Er & S2 & _ & Hr). rewrite Er. pose proof (same_trans _ _ _ S1 S2) as HS2.
  destruct Hr as [(n0 & Hn & Bn & D & L1 & L2 & L3)|(_ & Hr)]; [|congruence]. assert (n0 = n) by (eapply bfs_depth_unique; eauto). subst n0.
  destruct (sel_gather_ok s n (pb_last r) Hs D L1 L2 L3) as (G1 & G2 & G3). rewrite G1.
  assert (Grange : forall v, In v (concat (pb_last r)) -> 0 <= v < m) by (intros v Hv; apply Hrange, (Hg s v Hs); eapply dist_reach; eauto).
  destruct (sel_sort_ok _ Grange) as (c1 & Ec1 & (D1 & D2)). rewrite Ec1. destruct (sel_pick_ok c1) as (nc & c2 & Ec2 & (F1 & F2) & Bnc); [lia|auto|]. rewrite Ec2. rewrite mapM_slice by lia.
  destruct (sel_trials_ok ex' s n HX2 Hs (slice c2 0 nc) (pb_bv r) INT_MAX (-1) HS2) as (bv2 & s' & e' & E2 & S3 & H3).
  - intros c Hc. apply In_slice in Hc. auto.
  - change (-1 =? -1) with true. cbv iota. split; auto. intros Hn0. assert (X : Zlen (slice c2 0 nc) = 0) by now rewrite Hn0. rewrite Zlen_slice in X by lia. lia.
  - rewrite Hn, E2. destruct s' as [s'|].
    + destruct H3 as (Hs' & n' & Hn' & Bn'). apply (IH ex false s' n'); auto; [lia|discriminate].
    + destruct H3 as (Ne & De & n' & Hn' & Bn'). replace (e' =? -1) with false by lia. exists s, bv2. split; auto. split; auto. split; auto. exists e', n. split; auto. split; auto.
      enough (n' = n) by (subst n'; auto). pose proof (dist_sym adj s e' (n - 1) HSym De) as De'. destruct Hn' as (_ & Hn'). specialize (Hn' s (n - 1) De'). lia.
Qed.
Theorem selectSources_ok who ex : (forall i, 0 <= who i < T) -> g <> [] -> (forall k, exec_ok (fst (ex k)) /\ forall j, exec_ok (snd (ex k) j)) -> all_clear bv0 ->
  exists s bv, selectSources A T who ex g bv0 = Some (s, bv) /\ In s g /\ pseudo_peripheral adj s /\ same_out bv0 bv.
Proof.
  intros Hw Ne HX HC. unfold selectSources. destruct (min_degree_ok who Hw Ne) as (s & E & Hs & _). rewrite E. rewrite (proj1 HR : cm A = m).
  destruct (depth_ex s Hs) as (n & Hn). apply (sel_loop_ok _ ex true s n bv0); auto; [|apply same_refl]. destruct Hn as ((v & Dv) & _). pose proof (dist_nonneg _ _ _ _ Dv). pose proof (Zlen_nonneg rows). fold m in H0. lia.
Qed.
End Proof.

(** ** Worked cases *)
(** On a path the source is one of its two ends. *)
Section Path.
Variable m : Z.
Hypothesis Hm : 3 <= m.
Let adj := cols_of (path_rows m).
Lemma path_walk_abs s k v : walk adj s k v -> Z.abs (v - s) <= k.
Proof. induction 1 as [|k u v W IH Hv]; [lia|]. apply path_adj in Hv; lia. Qed.
Lemma path_walk_up s k : 0 <= s -> 0 <= k -> s + k < m -> walk adj s k (s + k).
Proof.
  intros Hs Hk. pattern k. revert k Hk. apply Z_ind0; [intros; replace (s + 0) with s by lia; constructor|].
  intros k Hk IH H. econstructor; [apply IH; lia|]. apply path_adj; lia.
Qed.
Lemma path_walk_down s k : s < m -> 0 <= k -> 0 <= s - k -> walk adj s k (s - k).
Proof.
  intros Hs Hk. pattern k. revert k Hk. apply Z_ind0; [intros; replace (s - 0) with s by lia; constructor|].
  intros k Hk IH H. econstructor; [apply IH; lia|]. apply path_adj; lia.
Qed.
Lemma path_dist_any s v : 0 <= s < m -> 0 <= v < m -> dist adj s v (Z.abs (v - s)).
Proof.
  intros Hs Hv. split; [|intros k W; now apply path_walk_abs]. destruct (Z_le_gt_dec s v) as [H|H].
  - pose proof (path_walk_up s (v - s) ltac:(lia) ltac:(lia) ltac:(lia)) as W. replace (s + (v - s)) with v in W by lia. now replace (Z.abs (v - s)) with (v - s) by lia.
  - pose proof (path_walk_down s (s - v) ltac:(lia) ltac:(lia) ltac:(lia)) as W. replace (s - (s - v)) with v in W by lia. now replace (Z.abs (v - s)) with (s - v) by lia.
Qed.
Lemma path_reach_any s v : 0 <= s < m -> reach adj s v <-> 0 <= v < m.
Proof.
  intros Hs. split; [|intros Hv; eapply dist_reach, path_dist_any; auto]. intros (k & W). inversion W as [|k0 u w H1 H2 H3]; [lia|]. apply path_adj in H2; lia.
Qed.
Lemma path_dist_inv s v k : 0 <= s < m -> dist adj s v k -> 0 <= v < m /\ k = Z.abs (v - s).
Proof.
  intros Hs D. assert (0 <= v < m) as Hv by (apply (path_reach_any s v Hs); eapply dist_reach; eauto). split; auto. eapply dist_unique; eauto. now apply path_dist_any.
Qed.
Lemma path_room T : 1 <= T -> 2 * T <= m -> cand_room adj m T (zrange 0 m).
Proof.
  intros HT H2. right. intros s n l Hs _ N HL. apply In_zrange in Hs.
  enough (Zlen l <= 2) by nia.
  assert (H : forall v, In v l -> v = s - (n - 1) \/ v = s + (n - 1)) by (intros v Hv; apply HL in Hv; apply path_dist_inv in Hv; lia).
  pose proof (NoDup_incl_length N (l' := [s - (n - 1); s + (n - 1)])) as B. unfold Zlen. cbn [length] in B. assert ((length l <= 2)%nat); [apply B; intros v Hv; apply H in Hv; cbn [In]; lia|lia].
Qed.
Lemma path_ends s : 0 <= s < m -> pseudo_peripheral adj s -> s = 0 \/ s = m - 1.
Proof.
  intros Hs (e & n & D1 & De & D2). apply path_dist_inv in De as (He & Hn); auto.
  destruct D1 as (_ & B1), D2 as (_ & B2).
  pose proof (B1 0 _ (path_dist_any s 0 Hs ltac:(lia))). pose proof (B1 (m - 1) _ (path_dist_any s (m - 1) Hs ltac:(lia))).
  pose proof (B2 0 _ (path_dist_any e 0 He ltac:(lia))). pose proof (B2 (m - 1) _ (path_dist_any e (m - 1) He ltac:(lia))). lia.
Qed.
Lemma path_degree u : degree (path_rows m) u <= 2.
Proof.
  unfold degree, cols_of, nthl. destruct (get (path_rows m) u) as [r|] eqn:E; [|cbn; lia]. apply get_In in E. unfold path_rows in E. apply in_map_iff in E as (i & <- & _). unfold path_row. destruct (0 <? i), (i + 1 <? m); cbn; lia.
Qed.
Theorem path_source (A : csr Z) T who ex bv0 : rep true 0 m (path_rows m) A -> 1 <= T -> 2 * T <= m -> T * m < INT_MAX -> (forall i, 0 <= who i < T) ->
  (forall k, exec_ok T (fst (ex k)) /\ forall j, exec_ok T (snd (ex k) j)) -> m <= Zlen bv0 -> (forall v, 0 <= v < m -> bit bv0 v = Some false) ->
  exists s bv, selectSources A T who ex (zrange 0 m) bv0 = Some (s, bv) /\ (s = 0 \/ s = m - 1).
Proof.
  intros HR HT H2 HB Hw HX HL HC. pose proof (path_len m ltac:(lia)) as PL.
  destruct (selectSources_ok A true (path_rows m)) with (T := T) (g := zrange 0 m) (bv0 := bv0) (who := who) (ex := ex) as (s & bv & E & Hs & Hp & _); rewrite ?PL; auto.
  - apply path_rows_ok; lia.
  - apply path_sym; lia.
  - intros v. rewrite In_zrange. lia.
  - intros u _. pose proof (path_degree u). unfold INT_MAX. lia.
  - intros s v Hs. apply In_zrange in Hs. rewrite In_zrange. symmetry. now apply path_reach_any.
  - nia.
  - now apply path_room.
  - intros H. assert (X : In 0 (zrange 0 m)) by (apply In_zrange; lia). rewrite H in X. contradiction.
  - intros v Hv. apply HC. now apply In_zrange in Hv.
  - apply In_zrange in Hs. exists s, bv. split; auto. now apply path_ends.
Qed.
End Path.

(** The last level from node 0 has three nodes; each of the three threads queues all
    of them and candidates, of seven elements, receives nine. *)
Definition sel_case : rows_t Z := map (map (fun c => (c, c))) [[1; 2; 3]; [0; 4; 5; 6]; [0; 4; 5; 6]; [0; 4; 5; 6]; [1; 2; 3]; [1; 2; 3]; [1; 2; 3]].
Definition sel_case_run (sch : nat -> list nat) : option (Z * list Z) :=
  selectSources (csr_of 0 7 sel_case) 3 (fun _ => 0) (fun _ => ([], sch, [[]; []], fun _ => ([], sch, [[]; []]))) (zrange 0 7) (repeat 0 7).
Lemma sel_case_serial : sel_case_run (fun _ => []) = Some (0, repeat 1 7).
Proof. vm_compute. reflexivity. Qed.
Lemma sel_case_overrun : sel_case_run (fun _ => concat (repeat [0; 1; 2]%nat 20)) = None.
Proof. vm_compute. reflexivity. Qed.
Definition sel_case2 : rows_t Z := map (map (fun c => (c, c))) [[1; 2]; [0; 3]; [0; 3; 4]; [1; 2]; [2; 5]; [4]].
Definition sel_case2_run (sch : nat -> list nat) : option (Z * list Z) :=
  selectSources (csr_of 0 6 sel_case2) 2 (fun i => i mod 2) (fun _ => ([1; 0]%nat, sch, [[]], fun _ => ([0; 1]%nat, sch, [[]]))) (zrange 0 6) (repeat 0 6).
Lemma sel_case2_result : sel_case2_run (fun _ => concat (repeat [0; 1]%nat 20)) = Some (5, repeat 1 6).
Proof. vm_compute. reflexivity. Qed.
