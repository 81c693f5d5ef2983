(** * Serial breadth-first search (reordering/RCM.cpp:205-273).

    Not modelled: the assertion at :242.  The two queues of a thread (m elements
    each, at tid*m) are lists; adding to a full one is an error. *)
From Coq Require Import Permutation.
From Verif Require Import Base Interleave Spec PermUtils Flat Csr CsrOps LevelsMain SplitLU.

(** ** Model *)
Section Model.
Context {V : Type}.
Variable A : csr V.
Variable base : Z.

(** :246-251 *)
Definition bfs_push (lev v : Z) (s : list Z * list Z) : option (list Z * list Z) :=
  let '(levels, q) := s in
  x <- get levels v ;;
  if -1 =? x then levels' <- set levels v lev ;; if Zlen q <? cm A then Some (levels', q ++ [v]) else None
  else Some s.
(** :244-252 *)
Definition bfs_node (lev u : Z) (s : list Z * list Z) : option (list Z * list Z) :=
  b <- get (rowptr A) u ;; e <- get (rowptr A) (u + 1) ;;
  forZ (b - base) (e - base) (fun j s => c <- get (colidx A) j ;; bfs_push lev (c - base) s) s.
(** The loop :227-256.  [lev] is numLevels, [cur] the queue of this level,
    [visited] what was copied so far (:229-233). *)
Fixpoint bfs_loop (fuel : nat) (lev : Z) (cur levels visited : list Z) : option (Z * list Z * list Z) :=
  match fuel with
  | O => None
  | S fuel =>
      match cur with
      | [] => Some (lev + 1, levels, visited)
      | _ => ' (levels', q) <- foldM (bfs_node (lev + 1)) cur (levels, []) ;; bfs_loop fuel (lev + 1) q levels' (visited ++ cur)
      end
  end.
(** RCM.cpp:210-259: numLevels, levels and visited. *)
Definition bfs_serial (source : Z) (levels : list Z) : option (Z * list Z * list Z) :=
  levels' <- set levels source 0 ;;
  if 1 <=? cm A then bfs_loop (Z.to_nat (cm A) + 2) 0 [source] levels' [] else None.
End Model.

(** ** Specification *)
(** [walk adj s k v]: a path with [k] edges from [s] to [v]. *)
Inductive walk (adj : Z -> list Z) (s : Z) : Z -> Z -> Prop :=
| walk_0 : walk adj s 0 s
| walk_S : forall k u v, walk adj s k u -> In v (adj u) -> walk adj s (k + 1) v.
Definition reach (adj : Z -> list Z) (s v : Z) : Prop := exists k, walk adj s k v.
Definition dist (adj : Z -> list Z) (s v k : Z) : Prop := walk adj s k v /\ forall k', walk adj s k' v -> k <= k'.
Definition cols_of {V} (rows : rows_t V) (u : Z) : list Z := map fst (nthl rows u).
(** [l] lists the nodes reachable from [s], each once, by increasing distance. *)
Definition bfs_order (adj : Z -> list Z) (s : Z) (l : list Z) : Prop :=
  NoDup l /\ (forall v, In v l <-> reach adj s v) /\ forall i j u v k k', i < j -> get l i = Some u -> get l j = Some v -> dist adj s u k -> dist adj s v k' -> k <= k'.
(** [ls] are the distances: right for the reachable nodes, as before for the others. *)
Definition bfs_levels (adj : Z -> list Z) (s : Z) (old ls : list Z) : Prop :=
  Zlen ls = Zlen old /\ (forall v k, dist adj s v k -> get ls v = Some k) /\ forall v, ~ reach adj s v -> get ls v = get old v.
(** The largest distance is [n - 1]. *)
Definition bfs_depth (adj : Z -> list Z) (s n : Z) : Prop := (exists v, dist adj s v (n - 1)) /\ forall v k, dist adj s v k -> k < n.

(** ** Proof *)
Lemma walk_nonneg adj s k v : walk adj s k v -> 0 <= k.
Proof. induction 1; lia. Qed.
Lemma dist_unique adj s v k k' : dist adj s v k -> dist adj s v k' -> k = k'.
Proof. intros (A1 & A2) (B1 & B2). apply A2 in B1. apply B2 in A1. lia. Qed.
Fixpoint walks (adj : Z -> list Z) (s : Z) (n : nat) : list Z := match n with O => [s] | S n => flat_map adj (walks adj s n) end.
Lemma In_walks adj s n v : In v (walks adj s n) <-> walk adj s (Z.of_nat n) v.
Proof.
  revert v. induction n as [|n IH]; intros v.
  - cbn. split; [intros [->|[]]; constructor|]. intros H. inversion H as [|k u w H1 H2 H3]; auto. apply walk_nonneg in H1. lia.
  - cbn [walks]. rewrite in_flat_map. split.
    + intros (u & Hu & Hv). replace (Z.of_nat (S n)) with (Z.of_nat n + 1) by lia. econstructor; eauto. now apply IH.
    + intros H. inversion H as [E|k u w H1 H2 H3]; try lia. exists u. split; auto. apply IH. replace (Z.of_nat n) with k by lia. auto.
Qed.
Lemma walk_dec adj s k v : {walk adj s k v} + {~ walk adj s k v}.
Proof.
  destruct (Z_lt_ge_dec k 0) as [H|H]; [right; intros W; apply walk_nonneg in W; lia|].
  destruct (in_dec Z.eq_dec v (walks adj s (Z.to_nat k))) as [H1|H1]; [left|right; intros W; apply H1]; [apply In_walks in H1; now rewrite Z2Nat.id in H1 by lia|]. apply In_walks. now rewrite Z2Nat.id by lia.
Qed.
Lemma walk_min adj s n v : (exists k, k < n /\ dist adj s v k) \/ forall k, k < n -> ~ walk adj s k v.
Proof.
  destruct (Z_lt_ge_dec n 0) as [H|H]; [right; intros k Hk W; apply walk_nonneg in W; lia|]. assert (0 <= n) as Hn by lia. clear H. pattern n. revert n Hn. apply Z_ind0.
  - right. intros k Hk W. apply walk_nonneg in W. lia.
  - intros n Hn [(k & Hk & D)|IH]; [left; exists k; split; [lia|auto]|]. destruct (walk_dec adj s n v) as [W|W].
    + left. exists n. split; [lia|]. split; auto. intros k' W'. destruct (Z_lt_ge_dec k' n) as [H|H]; [|lia]. exfalso. eapply IH; eauto.
    + right. intros k Hk W'. destruct (Z.eq_dec k n) as [->|]; auto. apply (IH k); auto. lia.
Qed.
Lemma reach_dist adj s v : reach adj s v -> exists k, dist adj s v k.
Proof. intros (k & W). destruct (walk_min adj s (k + 1) v) as [(k' & _ & D)|H]; eauto. exfalso. apply (H k); auto. lia. Qed.
Lemma dist_reach adj s v k : dist adj s v k -> reach adj s v.
Proof. intros (W & _). now exists k. Qed.
Lemma dist_0 adj s v : dist adj s v 0 <-> v = s.
Proof.
  split; [intros (W & _)|intros ->; split; [constructor|intros k' W; apply walk_nonneg in W; lia]].
  inversion W as [|k u w H1 H2 H3]; auto. apply walk_nonneg in H1. lia.
Qed.
Lemma dist_nonneg adj s v k : dist adj s v k -> 0 <= k.
Proof. intros (W & _). now apply walk_nonneg in W. Qed.
(** One step. *)
Lemma dist_step adj s u v k : dist adj s u k -> In v (adj u) -> exists k', dist adj s v k' /\ k' <= k + 1.
Proof. intros (W & _) H. destruct (walk_min adj s (k + 2) v) as [(k' & L & D)|N]; [exists k'; split; auto; lia|]. exfalso. apply (N (k + 1)); [lia|]. econstructor; eauto. Qed.
(** A node at distance [k+1] has a neighbour at distance [k]. *)
Lemma dist_pred adj s v k : 0 <= k -> dist adj s v (k + 1) -> exists u, dist adj s u k /\ In v (adj u).
Proof.
  intros Hk (W & M). inversion W as [E|k0 u w H1 H2 H3]; try lia. assert (k0 = k) by lia. subst k0. exists u. split; auto. split; auto. intros k' W'.
  assert (k + 1 <= k' + 1); [|lia]. apply M. econstructor; eauto.
Qed.
Lemma dist_all_smaller adj s v k j : dist adj s v k -> 0 <= j <= k -> exists u, dist adj s u j.
Proof.
  intros D. pose proof (dist_nonneg _ _ _ _ D) as Hk. revert v D. pattern k. revert k Hk. apply Z_ind0.
  - intros v D Hj. replace j with 0 by lia. eauto.
  - intros k Hk IH v D Hj. destruct (Z.eq_dec j (k + 1)) as [->|]; eauto. destruct (dist_pred _ _ _ _ Hk D) as (u & Du & _). apply (IH u Du). lia.
Qed.

Section Proof.
Context {V : Type}.
Variables (A : csr V) (hasv : bool) (base : Z) (rows : rows_t V).
Let m := Zlen rows.
Hypothesis HR : rep hasv base m rows A.
Hypothesis HK : rows_ok m rows.
Let adj := cols_of rows.

Lemma adj_range u v : In v (adj u) -> 0 <= u < m /\ 0 <= v < m.
Proof.
  unfold adj, cols_of. intros H. apply in_map_iff in H as ((c & x) & <- & H). cbn [fst]. unfold nthl in H. destruct (get rows u) as [r|] eqn:E; [|contradiction]. pose proof (get_Some_bounds _ _ _ E). split; auto. eapply HK; eauto. eapply get_In; eauto.
Qed.
Lemma bfs_node_adj lev u s : 0 <= u < m -> bfs_node A base lev u s = foldM (bfs_push A lev) (adj u) s.
Proof.
  intros Hu. unfold bfs_node. rewrite (rep_rowptr _ _ _ _ _ _ HR), (rep_rowptr_S _ _ _ _ _ _ HR) by (fold m; lia).
  replace (base + off (nthl rows) u - base) with (off (nthl rows) u) by lia. replace (base + (off (nthl rows) u + Zlen (nthl rows u)) - base) with (off (nthl rows) u + Zlen (nthl rows u)) by lia.
  unfold adj, cols_of. rewrite (forZ_list (nthl rows u) (off (nthl rows) u) _ (fun e s => bfs_push A lev (fst e) s)).
  - clear. revert s. induction (nthl rows u) as [|e l IH]; intros s; [reflexivity|]. cbn [map foldM]. destruct (bfs_push A lev (fst e) s); auto.
  - intros k (c & v) s' Hk. rewrite (rep_col _ _ _ _ _ _ _ _ _ HR Hu Hk). cbn [fst]. f_equal. lia.
Qed.
Lemma expand_adj lev cur s : (forall u, In u cur -> 0 <= u < m) -> foldM (bfs_node A base lev) cur s = foldM (bfs_push A lev) (flat_map adj cur) s.
Proof.
  revert s. induction cur as [|u cur IH]; intros s H; [reflexivity|]. cbn [foldM flat_map]. rewrite foldM_app. rewrite bfs_node_adj by (apply H; now left). destruct (foldM (bfs_push A lev) (adj u) s); auto. apply IH. intros; apply H; now right.
Qed.

Lemma push_all lev vs : 0 <= lev -> (forall v, In v vs -> 0 <= v < m) -> forall levels q, Zlen levels = m -> NoDup q -> (forall x, In x q -> 0 <= x < m /\ get levels x = Some lev) ->
  exists levels' new, foldM (bfs_push A lev) vs (levels, q) = Some (levels', q ++ new) /\ Zlen levels' = m /\ NoDup (q ++ new) /\
    (forall x, In x new <-> In x vs /\ get levels x = Some (-1)) /\ (forall x, In x new -> get levels' x = Some lev) /\ (forall x, ~ In x new -> get levels' x = get levels x).
Proof.
  intros Hl. induction vs as [|v vs IH]; intros Hv levels q L N Q.
  - exists levels, []. cbn [foldM]. rewrite app_nil_r. split; auto. split; auto. split; auto. split; [cbn; tauto|]. split; [intros x []|auto].
  - cbn [foldM]. unfold bfs_push at 1. destruct (get_in_range levels v) as (x & Ex); [rewrite L; apply Hv; now left|]. rewrite Ex. destruct (-1 =? x) eqn:E.
    + apply Z.eqb_eq in E. subst x. assert (Bv : 0 <= v < m) by (apply Hv; now left). destruct (set_ok levels v lev ltac:(lia)) as (l1 & E1). rewrite E1.
      assert (Nv : ~ In v q) by (intros H; apply Q in H as (_ & H); rewrite Ex in H; injection H; lia).
      assert (N1 : NoDup (q ++ [v])). { apply NoDup_app2; auto; [constructor; [intros []|constructor]|]. intros y H1 [<-|[]]. auto. }
      assert (C : Zlen q < m). { pose proof (NoDup_bounded m (q ++ [v]) ltac:(lia) N1) as B. rewrite Zlen_app in B. change (Zlen [v]) with 1 in B. enough (Zlen q + 1 <= m) by lia. apply B. intros i Hi. apply in_app_or in Hi as [Hi|[<-|[]]]; [apply Q; auto|auto]. }
      destruct HR as (Hm & _). rewrite Hm. fold m. replace (Zlen q <? m) with true by lia.
      destruct (IH (fun y H => Hv y (or_intror H)) l1 (q ++ [v])) as (l2 & new & F & L2 & N2 & I2 & S2 & O2); auto.
      * rewrite (set_len _ _ _ _ E1). auto.
      * intros y Hy. apply in_app_or in Hy as [Hy|[<-|[]]]; [|split; auto; apply (get_set_same _ _ _ _ E1)]. destruct (Q y Hy) as (Q1 & Q2). split; auto. rewrite (get_set_other _ _ _ _ _ E1); auto. intros ->. auto.
      * exists l2, (v :: new). rewrite <- app_assoc in F, N2. cbn [app] in F, N2. split; auto. split; auto. split; auto.
        assert (Nn : ~ In v new). { intros H. apply I2 in H as (_ & H). rewrite (get_set_same _ _ _ _ E1) in H. injection H. lia. }
        split; [|split].
        -- intros y. split.
           ++ intros [<-|Hy]; [split; [now left|auto]|]. apply I2 in Hy as (Y1 & Y2). split; [now right|]. rewrite (get_set_other _ _ _ _ _ E1) in Y2; auto. intros ->. rewrite (get_set_same _ _ _ _ E1) in Y2. injection Y2. lia.
           ++ intros (Hy & Y2). destruct (Z.eq_dec y v) as [->|Ny]; [now left|]. right. apply I2. rewrite (get_set_other _ _ _ _ _ E1) by auto. split; auto. destruct Hy as [->|]; congruence.
        -- intros y [<-|Hy]; [|auto]. rewrite O2 by auto. apply (get_set_same _ _ _ _ E1).
        -- intros y Hy. rewrite O2 by (intros H; apply Hy; now right). apply (get_set_other _ _ _ _ _ E1). intros ->. apply Hy. now left.
    + destruct (IH (fun y H => Hv y (or_intror H)) levels q L N Q) as (l2 & new & F & L2 & N2 & I2 & S2 & O2). exists l2, new. split; auto. split; auto. split; auto. split; [|auto].
      intros y. rewrite I2. split; intros (H1 & H2); split; auto; [now right|]. destruct H1 as [<-|]; auto. rewrite Ex in H2. injection H2. lia.
Qed.

Lemma reach_range s v : 0 <= s < m -> reach adj s v -> 0 <= v < m.
Proof. intros H (k & W). inversion W as [|k0 u w H1 H2 H3]; [now subst v|]. now apply adj_range in H2. Qed.
(** The state at the start of level [lev]. *)
Variables (s : Z) (levels0 : list Z).
Hypothesis Hs : 0 <= s < m.
Hypothesis HL0 : Zlen levels0 = m.
Hypothesis Hun : forall v, reach adj s v -> get levels0 v = Some (-1).


Definition bfs_inv (lev : Z) (cur levels visited : list Z) : Prop :=
  0 <= lev /\ NoDup cur /\ (forall v, In v cur <-> dist adj s v lev) /\ Zlen levels = m /\
  (forall v k, dist adj s v k -> get levels v = Some (if k <=? lev then k else -1)) /\ (forall v, ~ reach adj s v -> get levels v = get levels0 v) /\
  NoDup visited /\ (forall v, In v visited <-> exists k, dist adj s v k /\ k < lev) /\
  (forall i j u v k k', i < j -> get visited i = Some u -> get visited j = Some v -> dist adj s u k -> dist adj s v k' -> k <= k').

Lemma bfs_expand lev cur levels visited : bfs_inv lev cur levels visited ->
  exists levels' q, foldM (bfs_node A base (lev + 1)) cur (levels, []) = Some (levels', q) /\ bfs_inv (lev + 1) q levels' (visited ++ cur).
Proof.
  intros (I0 & I1 & I2 & I3 & I4 & I5 & I6 & I7 & I8).
  assert (Hc : forall u, In u cur -> 0 <= u < m) by (intros u Hu; apply I2 in Hu; apply dist_reach in Hu; now apply (reach_range s)).
  rewrite expand_adj by auto. destruct (push_all (lev + 1) (flat_map adj cur) ltac:(lia)) with (levels := levels) (q := @nil Z) as (l' & new & E & L' & N' & In' & S' & O'); auto.
  { intros v Hv. apply in_flat_map in Hv as (u & _ & Hv). now apply adj_range in Hv. }
  { constructor. } { intros x []. }
  cbn [app] in *. exists l', new. split; auto.
  assert (HN : forall v, In v new <-> dist adj s v (lev + 1)).
  { intros v. rewrite In'. split.
    - intros (H1 & H2). apply in_flat_map in H1 as (u & Hu & Hv). apply I2 in Hu. destruct (dist_step _ _ _ _ _ Hu Hv) as (k & D & Hk). pose proof (I4 v k D) as G. rewrite H2 in G. destruct (Z.leb_spec k lev); [injection G as G; apply dist_nonneg in D; lia|]. replace (lev + 1) with k by lia. auto.
    - intros D. split; [|rewrite (I4 v _ D); replace (lev + 1 <=? lev) with false by lia; auto]. destruct (dist_pred _ _ _ _ I0 D) as (u & Du & Hv). apply in_flat_map. exists u. split; auto. now apply I2. }
  split; [lia|]. split; auto. split; [exact HN|]. split; auto. split; [|split; [|split; [|split]]].
  - intros v k D. destruct (Z.eq_dec k (lev + 1)) as [->|Nk]; [rewrite S' by (now apply HN); now rewrite Z.leb_refl|]. rewrite O', (I4 v k D).
    + destruct (Z.leb_spec k lev), (Z.leb_spec k (lev + 1)); auto; lia.
    + rewrite HN. intros D'. apply Nk. eapply dist_unique; eauto.
  - intros v H. rewrite O'; auto. rewrite HN. intros D. apply H. eapply dist_reach; eauto.
  - apply NoDup_app2; auto. intros x H1 H2. apply I7 in H1 as (k & D & Hk). apply I2 in H2. pose proof (dist_unique _ _ _ _ _ D H2). lia.
  - intros v. rewrite in_app_iff, I7, I2. split; [intros [(k & D & Hk)|D]; eexists; split; eauto; lia|]. intros (k & D & Hk). destruct (Z.eq_dec k lev) as [->|]; auto. left. exists k. split; auto. lia.
  - intros i j u v k k' Hij Gi Gj Du Dv. pose proof (get_Some_bounds _ _ _ Gi) as Bi. pose proof (get_Some_bounds _ _ _ Gj) as Bj. rewrite Zlen_app in Bi, Bj. destruct (Z_lt_ge_dec j (Zlen visited)) as [Hj|Hj].
    + rewrite get_app_l in Gi, Gj by lia. apply (I8 i j u v k k'); auto.
    + rewrite get_app_r in Gj by lia. apply get_In in Gj. apply I2 in Gj. rewrite (dist_unique _ _ _ _ _ Dv Gj). destruct (Z_lt_ge_dec i (Zlen visited)) as [Hi|Hi].
      * rewrite get_app_l in Gi by lia. apply get_In in Gi. apply I7 in Gi as (k0 & D0 & Hk0). rewrite (dist_unique _ _ _ _ _ Du D0). lia.
      * rewrite get_app_r in Gi by lia. apply get_In in Gi. apply I2 in Gi. rewrite (dist_unique _ _ _ _ _ Du Gi). lia.
Qed.

Lemma bfs_loop_ok fuel : forall lev cur levels visited, bfs_inv lev cur levels visited -> (lev = 0 -> cur = [s]) -> (lev <> 0 -> exists v, dist adj s v (lev - 1)) -> m - Zlen visited + 1 < Z.of_nat fuel ->
  exists n levels' vis, bfs_loop A base fuel lev cur levels visited = Some (n + 1, levels', vis) /\ bfs_depth adj s n /\ bfs_levels adj s levels0 levels' /\ bfs_order adj s vis.
Proof.
  induction fuel as [|fuel IH]; intros lev cur levels visited HI H0 Hd HF.
  { exfalso. destruct HI as (_ & _ & _ & _ & _ & _ & I6 & I7 & _). pose proof (NoDup_bounded m visited ltac:(lia) I6) as B. enough (Zlen visited <= m) by lia. apply B. intros i Hi. apply I7 in Hi as (k & D & _). apply (reach_range s); auto. eapply dist_reach; eauto. }
  cbn [bfs_loop]. destruct cur as [|u cur].
  - destruct HI as (I0 & I1 & I2 & I3 & I4 & I5 & I6 & I7 & I8).
    assert (Hlt : forall v k, dist adj s v k -> k < lev). { intros v k D. destruct (Z_lt_ge_dec k lev) as [H|H]; auto. exfalso. destruct (dist_all_smaller _ _ _ _ lev D ltac:(lia)) as (w & Dw). now apply I2 in Dw. }
    exists lev, levels, visited. split; auto. split; [split; [apply Hd; intros E; specialize (H0 E); discriminate|auto]|]. split; [split; [lia|]; split; [intros v k D; rewrite (I4 v k D); pose proof (Hlt v k D); now replace (k <=? lev) with true by lia|auto]|].
    split; auto. split; [|exact I8]. intros v. rewrite I7. split; [intros (k & D & _); eapply dist_reach; eauto|]. intros R. destruct (reach_dist _ _ _ R) as (k & D). eauto.
  - destruct (bfs_expand _ _ _ _ HI) as (l' & q & E & HI'). rewrite E. assert (Hu : dist adj s u lev) by (destruct HI as (_ & _ & I2 & _); apply I2; now left).
    destruct HI as (I0 & _). apply IH; auto; [lia|intros _; exists u; replace (lev + 1 - 1) with lev by lia; auto|]. rewrite Zlen_app, Zlen_cons. pose proof (Zlen_nonneg cur). lia.
Qed.

Theorem bfs_serial_ok : exists n levels vis, bfs_serial A base s levels0 = Some (n + 1, levels, vis) /\ bfs_depth adj s n /\ bfs_levels adj s levels0 levels /\ bfs_order adj s vis.
Proof.
  unfold bfs_serial. destruct (set_ok levels0 s 0 ltac:(lia)) as (l1 & E1). rewrite E1. assert (Hm := proj1 HR). rewrite Hm. fold m. replace (1 <=? m) with true by lia. apply bfs_loop_ok; auto; [|lia|change (Zlen (@nil Z)) with 0; lia].
  split; [lia|]. split; [constructor; [intros []|constructor]|]. split; [intros v; rewrite dist_0; cbn; intuition|]. split; [rewrite (set_len _ _ _ _ E1); auto|]. split; [|split; [|split; [|split]]].
  - intros v k D. destruct (Z.eq_dec v s) as [->|N].
    + assert (k = 0) as -> by (eapply dist_unique; eauto; now apply dist_0). rewrite (get_set_same _ _ _ _ E1). reflexivity.
    + rewrite (get_set_other _ _ _ _ _ E1) by auto. rewrite Hun by (eapply dist_reach; eauto). destruct (Z.leb_spec k 0); auto. exfalso. apply N. pose proof (dist_nonneg _ _ _ _ D). replace k with 0 in D by lia. now apply dist_0 in D.
  - intros v H1. apply (get_set_other _ _ _ _ _ E1). intros ->. apply H1. exists 0. constructor.
  - constructor.
  - intros v. split; [intros []|]. intros (k & D & Hk). apply dist_nonneg in D. lia.
  - intros i j u v k k' _ G. apply get_Some_bounds in G. change (Zlen (@nil Z)) with 0 in G. lia.
Qed.
End Proof.
