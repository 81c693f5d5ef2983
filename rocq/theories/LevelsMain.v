(** * The levels found are the depths of the dependencies. *)
From Coq Require Import Permutation.
From Verif Require Import Base Interleave Spec Search Partition PrefixSum Flat Csr Transpose RowPar Ilu Levels LevelsFacts.

Lemma get_map_inv {A B} (f : A -> B) l i y : get (map f l) i = Some y -> exists x, get l i = Some x /\ y = f x.
Proof. rewrite get_map. destruct (get l i) as [x|]; [|discriminate]. intros E. injection E as <-. eauto. Qed.
Lemma nthl_In {A} (ls : list (list A)) x : In x (concat ls) <-> exists l, 0 <= l < Zlen ls /\ In x (nthl ls l).
Proof.
  rewrite in_concat. split.
  - intros (r & Hr & Hx). apply In_get in Hr as (l & Hl & Gl). exists l. split; auto. now rewrite (nthl_get _ _ _ Gl).
  - intros (l & Hl & Hx). exists (nthl ls l). split; auto. eapply get_In, get_nthl; auto.
Qed.
Lemma nthl_app_l {A} (a b : list (list A)) i : i < Zlen a -> nthl (a ++ b) i = nthl a i.
Proof. intros H. unfold nthl. destruct (Z_lt_le_dec i 0); [rewrite !get_out; auto|]. now rewrite get_app_l. Qed.
Lemma nthl_app_r {A} (a : list (list A)) b : nthl (a ++ [b]) (Zlen a) = b.
Proof. unfold nthl. rewrite get_app_r by lia. replace (Zlen a - Zlen a) with 0 by lia. now rewrite get_cons_0. Qed.
Lemma off_ext {A} (f g : Z -> list A) n : (forall i, 0 <= i < n -> f i = g i) -> off f n = off g n.
Proof. intros H. apply before_ext. intros i Hi. now rewrite H. Qed.
Lemma NoDup_app3 {A} (a b : list A) : NoDup a -> NoDup b -> (forall x, In x a -> ~ In x b) -> NoDup (a ++ b).
Proof.
  induction a as [|x a IH]; intros Na Nb D; auto. cbn [app]. inversion_clear Na as [|? ? Nx Na']. constructor.
  - rewrite in_app_iff. intros [H|H]; [auto|]. apply (D x); cbn; auto.
  - apply IH; auto. intros y Hy. apply D. cbn; auto.
Qed.

Lemma level_sets_NoDup m lev ls : level_sets m lev ls -> NoDup (concat ls).
Proof.
  intros H. rewrite concat_flat. assert (forall n, 0 <= n -> n <= Zlen ls -> NoDup (flat (nthl ls) n) /\ forall i, In i (flat (nthl ls) n) -> lev i < n) as G.
  { intros n Hn. pattern n. revert n Hn. apply Z_ind0. { intros _. rewrite flat_0. split; [constructor|intros i []]. }
    intros n Hn IH Hl. destruct IH as (IH1 & IH2); [lia|]. destruct (H n ltac:(lia)) as (N & M). rewrite flat_S by lia. split.
    - apply NoDup_app3; auto. intros i Hi Hi'. apply IH2 in Hi. apply M in Hi'. lia.
    - intros i Hi. apply in_app_iff in Hi as [Hi|Hi]; [apply IH2 in Hi; lia|apply M in Hi; lia]. }
  apply G; [apply Zlen_nonneg|lia].
Qed.
Lemma NoDup_bounded m l : 0 <= m -> NoDup l -> (forall i, In i l -> 0 <= i < m) -> Zlen l <= m.
Proof.
  intros Hm N H. assert (length l <= length (zrange 0 m))%nat. { apply NoDup_incl_length; auto. intros i Hi. apply In_zrange. auto. }
  pose proof (Zlen_zrange 0 m) as Z. unfold Zlen in *. lia.
Qed.
Lemma level_sets_len m lev ls : 0 <= m -> level_sets m lev ls -> Zlen (concat ls) <= m.
Proof.
  intros Hm H. apply NoDup_bounded; auto. { eapply level_sets_NoDup; eauto. }
  intros i Hi. apply nthl_In in Hi as (l & Hl & Hi). now apply H in Hi.
Qed.
Lemma level_sets_full m lev ls : 0 <= m -> level_sets m lev ls -> (forall i, 0 <= i < m -> 0 <= lev i < Zlen ls) -> Zlen (concat ls) = m.
Proof.
  intros Hm H Hall. transitivity (Zlen (zrange 0 m)); [|rewrite Zlen_zrange; lia]. apply Zlen_same. { eapply level_sets_NoDup; eauto. } { apply NoDup_zrange. }
  intros i. rewrite nthl_In, In_zrange. split.
  - intros (l & Hl & Hi). now apply H in Hi.
  - intros Hi. exists (lev i). split; [auto|]. apply H; auto.
Qed.
Lemma level_sets_snoc m lev ls L : level_sets m lev ls -> NoDup L -> (forall i, In i L <-> 0 <= i < m /\ lev i = Zlen ls) -> level_sets m lev (ls ++ [L]).
Proof.
  intros H N M l Hl. rewrite Zlen_app, Zlen_cons in Hl. change (Zlen (@nil (list Z))) with 0 in Hl. destruct (Z_lt_le_dec l (Zlen ls)) as [H1|H1].
  - rewrite nthl_app_l by auto. apply H. lia.
  - assert (l = Zlen ls) by lia. subst l. rewrite nthl_app_r. auto.
Qed.
Lemma nonempty_count {A} (ls : list (list A)) : (forall l, 0 <= l < Zlen ls -> nthl ls l <> []) -> Zlen ls <= Zlen (concat ls).
Proof.
  intros H. rewrite concat_flat, Zlen_flat by apply Zlen_nonneg. assert (forall n, 0 <= n -> n <= Zlen ls -> n <= off (nthl ls) n) as G.
  { intros n Hn. pattern n. revert n Hn. apply Z_ind0. { rewrite off_0. lia. }
    intros n Hn IH Hl. rewrite off_S by lia. specialize (H n ltac:(lia)). destruct (nthl ls n) as [|x r] eqn:E; [congruence|]. rewrite Zlen_cons. pose proof (Zlen_nonneg r). lia. }
  apply G; [apply Zlen_nonneg|lia].
Qed.

(** Every acyclic dependency relation has a depth. *)
Lemma depth_exists m lo : (forall i j, 0 <= j < m -> In i (lo j) -> 0 <= i < j) -> exists lev, is_depth m lo lev.
Proof.
  intros H. destruct (Z_lt_le_dec m 0) as [Hm|Hm]. { exists (fun _ => 0). intros j Hj. lia. }
  assert (forall k, 0 <= k -> k <= m -> exists lev, is_depth k lo lev) as G; [|apply G; lia].
  intros k Hk. pattern k. revert k Hk. apply Z_ind0. { intros _. exists (fun _ => 0). intros j Hj. lia. }
  intros k Hk IH Hkm. destruct IH as (lev & IH); [lia|].
  assert (exists d, 0 <= d /\ (forall i, In i (lo k) -> lev i < d) /\ (0 < d -> exists i, In i (lo k) /\ lev i = d - 1)) as (d & D1 & D2 & D3).
  { assert (Hb : forall i, In i (lo k) -> 0 <= i < k) by (intros i Hi; apply (H i k); auto; lia). clear H. induction (lo k) as [|a l IHl].
    - exists 0. split; [lia|]. split; [intros i []|lia].
    - destruct IHl as (d & D1 & D2 & D3). { intros; apply Hb; cbn; auto. } pose proof (IH a (Hb a (or_introl eq_refl))) as (La & _).
      exists (Z.max d (lev a + 1)). split; [lia|]. split.
      + intros i [<-|Hi]; [lia|]. specialize (D2 i Hi). lia.
      + intros _. destruct (Z_le_gt_dec d (lev a + 1)). * exists a. split; [cbn; auto|lia]. * destruct D3 as (i & Hi & Ei); [lia|]. exists i. split; [cbn; auto|lia]. }
  exists (fun i => if i =? k then d else lev i). intros j Hj. destruct (Z.eqb_spec j k) as [->|Nj].
  - split; auto. split.
    + intros i Hi. pose proof (H i k ltac:(lia) Hi). replace (i =? k) with false by lia. auto.
    + intros Hd. destruct (D3 Hd) as (i & Hi & Ei). exists i. split; auto. pose proof (H i k ltac:(lia) Hi). replace (i =? k) with false by lia. auto.
  - destruct (IH j ltac:(lia)) as (A1 & A2 & A3). split; auto. split.
    + intros i Hi. pose proof (H i j ltac:(lia) Hi). replace (i =? k) with false by lia. auto.
    + intros Hd. destruct (A3 Hd) as (i & Hi & Ei). exists i. split; auto. pose proof (H i j ltac:(lia) Hi). replace (i =? k) with false by lia. auto.
Qed.
Lemma depth_unique m lo lev lev' : (forall i j, 0 <= j < m -> In i (lo j) -> 0 <= i < j) -> is_depth m lo lev -> is_depth m lo lev' -> forall j, 0 <= j < m -> lev j = lev' j.
Proof.
  intros H A B. assert (forall n, 0 <= n -> forall j, 0 <= j < n -> j < m -> lev j = lev' j) as G.
  { intros n Hn. pattern n. revert n Hn. apply Z_ind0; [intros; lia|]. intros n Hn IH j Hj Hm.
    destruct (A j ltac:(lia)) as (A1 & A2 & A3), (B j ltac:(lia)) as (B1 & B2 & B3).
    assert (E : forall i, In i (lo j) -> lev i = lev' i). { intros i Hi. pose proof (H i j ltac:(lia) Hi). apply IH; lia. }
    destruct (Z_lt_le_dec (lev j) (lev' j)) as [L|L].
    - destruct B3 as (i & Hi & Ei); [lia|]. specialize (A2 i Hi). rewrite (E i Hi) in A2. lia.
    - destruct (Z_lt_le_dec (lev' j) (lev j)) as [L'|L']; [|lia]. destruct A3 as (i & Hi & Ei); [lia|]. specialize (B2 i Hi). rewrite <- (E i Hi) in B2. lia. }
  intros j Hj. apply (G m); lia.
Qed.

Section Main.
Variables (G : gr) (lo up : Z -> list Z) (lev : Z -> Z) (T : Z).
Hypothesis HP : pattern_ok G lo up.
Hypothesis HL : is_depth (g_m G) lo lev.
Hypothesis HT : 1 <= T.
Let m := g_m G.
Notation cap := (share m T).
Let rem k x := Zlen (filter (fun i => k <=? lev i) (lo x)).

Record Inv (k : Z) (s : lstate) (ls : list (list Z)) : Prop := {
  i_k : Zlen ls = k;
  i_ls : level_sets m lev ls;
  i_ne : forall l, 0 <= l < k -> nthl ls l <> [];
  i_T : Zlen (l_qs s) = T;
  i_nd : NoDup (concat (l_qs s));
  i_q : forall i, In i (concat (l_qs s)) <-> 0 <= i < m /\ lev i = k;
  i_np : forall x, 0 <= x < m -> get (l_np s) x = Some (rem k x);
  i_rl : Zlen (l_rev s) = m;
  i_end : l_end s = Zlen (concat ls);
  i_rev : forall p, 0 <= p < l_end s -> get (l_rev s) p = get (concat ls) p;
  i_ser : l_ser s = true -> forall p, 0 <= p < Zlen (concat (l_qs s)) -> get (l_rev s) (l_end s + p) = get (concat (l_qs s)) p;
  i_lev : l_lev s = map (off (nthl ls)) (zrange 0 (k + 1)) }.

Lemma m_nonneg : 0 <= m.
Proof. apply (po_m _ _ _ HP). Qed.

(** How often the counter of [x] is decremented while level [k] is processed. *)
Lemma edge_count k L x : NoDup L -> (forall i, In i L <-> 0 <= i < m /\ lev i = k) -> 0 <= x < m ->
  cnt x (concat (map up L)) = Zlen (filter (fun i => lev i =? k) (lo x)).
Proof.
  intros N M Hx. rewrite cnt_concat_map by (intros i Hi; apply (po_nup _ _ _ HP); apply M in Hi; apply Hi). apply Zlen_same.
  - now apply NoDup_filter. - apply NoDup_filter, (po_nlo _ _ _ HP). auto.
  - intros i. rewrite !filter_In, M. destruct (in_dec Z.eq_dec x (up i)) as [Hi|Hi].
    + split; [intros ((A & B) & _)|intros (A & B)].
      * split; [|lia]. apply (po_sym _ _ _ HP) in Hi; auto.
      * pose proof (po_lt _ _ _ HP _ _ Hx A). split; [|reflexivity]. split; lia.
    + split; [intros (_ & B); discriminate|]. intros (A & B). exfalso. apply Hi. apply (po_sym _ _ _ HP); auto. pose proof (po_lt _ _ _ HP _ _ Hx A). unfold m in *. lia.
Qed.
Lemma rem_split k x : rem k x = Zlen (filter (fun i => lev i =? k) (lo x)) + rem (k + 1) x.
Proof. unfold rem. apply Zlen_filter_split. intros i _. lia. Qed.
Lemma rem_nonneg k x : 0 <= rem k x.
Proof. apply Zlen_nonneg. Qed.
(** The rows whose counter reaches zero are those of the next level. *)
Lemma next_level k x : 0 <= k -> 0 <= x < m -> (0 < rem k x /\ Zlen (filter (fun i => lev i =? k) (lo x)) = rem k x <-> lev x = k + 1).
Proof.
  intros Hk Hx. pose proof (rem_split k x) as S. pose proof (HL x Hx) as (L0 & L1 & L2). split.
  - intros (A & B). assert (E0 : rem (k + 1) x = 0) by lia. assert (E1 : 0 < Zlen (filter (fun i => lev i =? k) (lo x))) by lia.
    destruct (filter (fun i => lev i =? k) (lo x)) as [|i r] eqn:F; [change (Zlen (@nil Z)) with 0 in E1; lia|].
    assert (Hi : In i (lo x) /\ (lev i =? k) = true). { apply (filter_In (fun i => lev i =? k)). rewrite F. cbn; auto. } destruct Hi as (Hi & Ei). pose proof (L1 i Hi).
    destruct (Z.eq_dec (lev x) (k + 1)); auto. destruct (L2 ltac:(lia)) as (j & Hj & Ej).
    unfold rem in E0. assert (In j (filter (fun i => k + 1 <=? lev i) (lo x))) as Hf. { apply filter_In. split; auto. lia. }
    destruct (filter (fun i => k + 1 <=? lev i) (lo x)); [destruct Hf|]. rewrite Zlen_cons in E0. pose proof (Zlen_nonneg l). lia.
  - intros E. assert (E0 : rem (k + 1) x = 0).
    { unfold rem. destruct (filter (fun i => k + 1 <=? lev i) (lo x)) as [|i r] eqn:F; [reflexivity|]. assert (Hi : In i (lo x) /\ (k + 1 <=? lev i) = true). { apply (filter_In (fun i => k + 1 <=? lev i)). rewrite F. cbn; auto. }
      destruct Hi as (Hi & Ei). specialize (L1 i Hi). lia. }
    split; [|lia]. rewrite S. destruct (L2 ltac:(lia)) as (j & Hj & Ej). assert (In j (filter (fun i => lev i =? k) (lo x))) as Hf. { apply filter_In. split; auto. lia. }
    destruct (filter (fun i => lev i =? k) (lo x)); [destruct Hf|]. rewrite Zlen_cons. pose proof (Zlen_nonneg l). pose proof (rem_nonneg (k + 1) x). lia.
Qed.
Lemma level_count k L : 0 <= k -> NoDup L -> (forall i, In i L <-> 0 <= i < m /\ lev i = k) ->
  Zlen (filter (fun x => (0 <? rem k x) && (cnt x (concat (map up L)) =? rem k x)) (zrange 0 m)) = Zlen (filter (fun x => lev x =? k + 1) (zrange 0 m)).
Proof.
  intros Hk N M. f_equal. apply filter_ext_in. intros x Hx. apply In_zrange in Hx. rewrite (edge_count k L x N M Hx). pose proof (next_level k x Hk Hx). lia.
Qed.

Lemma end_level k s ls : Inv k s ls -> concat (l_qs s) = [] -> forall i, 0 <= i < m -> 0 <= lev i < k.
Proof.
  intros I E. assert (Hk : 0 <= k) by (rewrite <- (i_k _ _ _ I); apply Zlen_nonneg). assert (forall n, 0 <= n -> forall i, 0 <= i < m -> lev i = k + n -> False) as Hn.
  { intros n Hn. pattern n. revert n Hn. apply Z_ind0.
    - intros i Hi El. assert (In i (concat (l_qs s))) as H. { apply (i_q _ _ _ I). split; auto. lia. } rewrite E in H. destruct H.
    - intros n Hn IH i Hi El. destruct (HL i Hi) as (_ & L1 & L2). destruct (L2 ltac:(lia)) as (j & Hj & Ej). pose proof (po_lt _ _ _ HP _ _ Hi Hj). apply (IH j); [fold m in Hi; lia|lia]. }
  intros i Hi. destruct (HL i Hi) as (L0 & _). split; auto. destruct (Z_lt_le_dec (lev i) k); auto. exfalso. apply (Hn (lev i - k) ltac:(lia) i Hi). lia.
Qed.

Lemma mapM_inside L ss : (forall i, In i L -> 0 <= i < m) -> mapM (succs G) L = Some ss -> inside m (concat ss) = concat (map up L).
Proof.
  revert ss. induction L as [|i L IH]; intros ss H E; cbn [mapM] in E. { injection E as <-. reflexivity. }
  destruct (degree_ok G lo up HP i (H i (or_introl eq_refl))) as (cs & Es & _ & Ei). rewrite Es in E. destruct (mapM (succs G) L) as [ss'|]; [|discriminate]. injection E as <-.
  cbn [map concat]. unfold inside in *. rewrite filter_app. f_equal; [exact Ei|]. apply IH; auto. intros; apply H; cbn; auto.
Qed.
Lemma mapM_succs L : (forall i, In i L -> 0 <= i < m) -> exists ss, mapM (succs G) L = Some ss /\ inside m (concat ss) = concat (map up L).
Proof.
  intros H. destruct (mapM_each (succs G) L) as (ss & E & _). { intros i Hi. destruct (degree_ok G lo up HP i (H i Hi)) as (cs & -> & _). eauto. }
  exists ss. split; auto. now apply mapM_inside.
Qed.
Lemma mapM_get_list {A} (w L : list A) b : (forall p, 0 <= p < Zlen L -> get w (b + p) = get L p) -> mapM (get w) (zrange b (b + Zlen L)) = Some L.
Proof.
  intros H. rewrite (mapM_list L b (get w) (fun x => x)). { now rewrite map_id. }
  intros k e Ge. rewrite H; auto. eapply get_Some_bounds; eauto.
Qed.

Lemma concat_empty n : concat (empty_queues n) = [].
Proof. unfold empty_queues. induction (zrange 0 n) as [|a l IH]; auto. Qed.
Lemma len_empty n : 0 <= n -> Zlen (empty_queues n) = n.
Proof. intros H. unfold empty_queues. rewrite Zlen_map, Zlen_zrange; lia. Qed.

(** The edges handed to the threads are those of the level. *)
Lemma par_edges_ok b0 qs rv k : Zlen qs = T -> NoDup (concat qs) -> (forall i, In i (concat qs) <-> 0 <= i < m /\ lev i = k) ->
  (forall p, 0 <= p < Zlen (concat qs) -> get rv (b0 + p) = get (concat qs) p) ->
  exists nnzp es, nnzPre G T qs = Some nnzp /\ mapM (par_edges G T b0 qs nnzp rv) (zrange 0 T) = Some es /\
    map snd (concat es) = concat (map up (concat qs)) /\ forall a, In a (concat es) -> 0 <= fst a < T.
Proof.
  intros Hq N M Hrv. set (deg := fun i => match degree G i with Some d => d | None => 0 end).
  assert (Hd : forall i, In i (concat qs) -> degree G i = Some (deg i) /\ 0 <= deg i).
  { intros i Hi. apply M in Hi as (Hi & _). unfold deg. destruct (degree_ok G lo up HP i Hi) as (cs & _ & -> & _). split; auto. apply Zlen_nonneg. }
  destruct (trav_range_ok G T qs deg HT Hq Hd) as (B & B0 & BT & Bm & Bb & HB).
  eexists. rewrite (nnzPre_ok G T qs deg Hq Hd). set (L := concat qs) in *. rewrite (Zlen_concat_off qs T Hq) in BT, Bb. fold L in BT, Bb.
  set (row := fun q => match get L (q - b0) with Some r => r | None => 0 end).
  assert (Hrow : forall q, b0 <= q < b0 + Zlen L -> get rv q = Some (row q) /\ In (row q) L).
  { intros q Hq'. destruct (@get_in_range _ L (q - b0)) as (r & Gr); [lia|]. unfold row. rewrite Gr. replace q with (b0 + (q - b0)) at 1 by lia. rewrite Hrv by lia. split; auto. eapply get_In; eauto. }
  assert (E : forall tid, In tid (zrange 0 T) -> par_edges G T b0 qs (psums 0 (map (fun t => zsum (map deg (nthl qs t))) (zrange 0 T))) rv tid
     = Some (map (pair tid) (concat (map up (map row (zrange (b0 + B tid) (b0 + B (tid + 1)))))))).
  { intros tid Ht. apply In_zrange in Ht. unfold par_edges. rewrite (HB tid) by lia. pose proof (Bb tid ltac:(lia)). pose proof (Bb (tid + 1) ltac:(lia)).
    assert (Hz : forall q, In q (zrange (b0 + B tid) (b0 + B (tid + 1))) -> b0 <= q < b0 + Zlen L). { intros q Hq'. apply In_zrange in Hq'. lia. }
    rewrite (mapM_Some _ row) by (intros q Hq'; now apply Hrow, Hz).
    destruct (mapM_succs (map row (zrange (b0 + B tid) (b0 + B (tid + 1))))) as (ss & Es & Ei).
    { intros i Hi. apply in_map_iff in Hi as (q & <- & Hq'). apply M. now apply Hrow, Hz. }
    rewrite Es. fold m. rewrite Ei. reflexivity. }
  rewrite (mapM_Some _ _ _ E). eexists. split; [reflexivity|]. split; [reflexivity|]. split.
  - assert (map row (zrange b0 (b0 + Zlen L)) = L) as HrowL.
    { apply list_ext. { rewrite Zlen_map, Zlen_zrange. pose proof (Zlen_nonneg L). lia. } intros i Hi. rewrite Zlen_map, Zlen_zrange in Hi.
      rewrite get_map, get_zrange by lia. cbn. unfold row. replace (b0 + i - b0) with i by lia. destruct (@get_in_range _ L i) as (r & ->); [lia|]. reflexivity. }
    transitivity (concat (map up (map row (zrange (b0 + B 0) (b0 + B T))))); [|rewrite B0, BT, Z.add_0_r, HrowL; reflexivity]. rewrite <- (concat_zrange_tiling (fun t => b0 + B t) T); [|lia|intros t Ht; specialize (Bm t Ht); lia].
    clear. induction (zrange 0 T) as [|t l IH]; [reflexivity|]. cbn [map concat]. rewrite !map_app, concat_app, IH. f_equal. rewrite map_map. cbn [snd]. apply map_id.
  - intros a Ha. apply in_concat in Ha as (l & Hl & Ha). apply in_map_iff in Hl as (tid & <- & Ht). apply in_map_iff in Ha as (x & <- & _). apply In_zrange in Ht. cbn. lia.
Qed.

Lemma levs_snoc k (ls : list (list Z)) (L : list Z) : Zlen ls = k -> map (off (nthl ls)) (zrange 0 (k + 1)) ++ [Zlen (concat ls) + Zlen L] = map (off (nthl (ls ++ [L]))) (zrange 0 (k + 1 + 1)).
Proof.
  intros E. assert (0 <= k) by (subst k; apply Zlen_nonneg). rewrite (zrange_snoc 0 (k + 1)) by lia. rewrite map_app. f_equal.
  - apply map_ext_in. intros i Hi. apply In_zrange in Hi. apply off_ext. intros j Hj. symmetry. apply nthl_app_l. lia.
  - cbn [map]. f_equal. rewrite off_S by lia. rewrite <- E, nthl_app_r. f_equal. rewrite concat_flat, Zlen_flat by apply Zlen_nonneg. apply off_ext. intros i Hi. symmetry. apply nthl_app_l. lia.
Qed.

Lemma share_pos : 2 <= cap.
Proof. unfold share. pose proof (Z.div_le_mono T (Z.max T (m + T - 1)) T ltac:(lia) ltac:(lia)) as H. rewrite Z.div_same in H by lia. lia. Qed.

Lemma round_ok sch k s ls : Inv k s ls ->
  (concat (l_qs s) = [] /\ round G T sch s = Some None) \/
  (concat (l_qs s) <> [] /\
   (round G T sch s = None \/ exists s', round G T sch s = Some (Some s') /\ Inv (k + 1) s' (ls ++ [concat (l_qs s)])) /\
   (Zlen (filter (fun x => lev x =? k + 1) (zrange 0 m)) < cap -> round G T sch s <> None)).
Proof.
  intros I. destruct I as [Ik Ils Ine IT Ind Iq Inp Irl Iend Irev Iser Ilev]. set (L := concat (l_qs s)) in *. pose proof m_nonneg as Hm.
  assert (Hk : 0 <= k) by (subst k; apply Zlen_nonneg).
  unfold round. rewrite (Zlen_concat_off (l_qs s) T IT). fold L. pose proof (Zlen_nonneg L) as HL0.
  destruct (Z.eqb_spec (Zlen L) 0) as [E0|N0].
  { left. split; auto. destruct L; auto. rewrite Zlen_cons in E0. pose proof (Zlen_nonneg L). lia. }
  right. split. { intros E. rewrite E in N0. apply N0. reflexivity. }
  assert (Hls : level_sets m lev (ls ++ [L])). { apply level_sets_snoc; auto. intros i. rewrite Iq, Ik. tauto. }
  assert (Hend : l_end s + Zlen L = Zlen (concat (ls ++ [L]))). { rewrite concat_app, Zlen_app. cbn [concat]. rewrite app_nil_r. lia. }
  assert (Hend0 : 0 <= l_end s) by (rewrite Iend; apply Zlen_nonneg).
  assert (Hne : forall l, 0 <= l < k + 1 -> nthl (ls ++ [L]) l <> []).
  { intros l Hl. destruct (Z_lt_le_dec l k). - rewrite nthl_app_l by lia. apply Ine. lia. - assert (l = Zlen ls) by lia. subst l. rewrite nthl_app_r. intros E. rewrite E in N0. apply N0. reflexivity. }
  assert (Hlv : l_lev s ++ [l_end s + Zlen L] = map (off (nthl (ls ++ [L]))) (zrange 0 (k + 1 + 1))). { rewrite Ilev, Iend. now apply levs_snoc. }
  assert (HlenE : l_end s + Zlen L <= m). { rewrite Hend. now apply (level_sets_len m lev). }
  (* reversePerm after the copy *)
  assert (exists rv, (if l_ser s then Some (l_rev s)
           else mv <- mapM (copy_moves T (l_end s) (l_qs s)) (zrange 0 T) ;; par (sch 0%nat) (fun a w => set w (fst a) (snd a)) mv (l_rev s)) = Some rv /\ Zlen rv = m /\
      (forall p, 0 <= p < Zlen L -> get rv (l_end s + p) = get L p) /\ (forall p, 0 <= p < l_end s -> get rv p = get (concat ls) p)) as (rv & Erv & Lrv & R1 & R2).
  { destruct (l_ser s) eqn:Es.
    - exists (l_rev s). auto.
    - destruct (copy_ok T (l_end s) (l_qs s) HT IT) as (mv & -> & Hc). destruct (Hc (sch 0%nat) (l_rev s)) as (w' & Ew & Lw & W1 & W2); auto.
      { rewrite (Zlen_concat_off _ T IT). fold L. lia. } rewrite (Zlen_concat_off _ T IT) in W1. fold L in W1. exists w'. rewrite Ew. split; auto. split; [lia|]. split; auto.
      intros p Hp. rewrite W2 by lia. now apply Irev. }
  assert (R3 : forall p, 0 <= p < l_end s + Zlen L -> get rv p = get (concat (ls ++ [L])) p).
  { intros p Hp. rewrite concat_app. cbn [concat]. rewrite app_nil_r. destruct (Z_lt_le_dec p (l_end s)).
    - rewrite get_app_l by lia. apply R2. lia. - rewrite get_app_r by lia. rewrite <- Iend. replace p with (l_end s + (p - l_end s)) at 1 by lia. apply R1. lia. }
  rewrite Erv. clear Erv.
  assert (HLm : forall i, In i L -> 0 <= i < m) by (intros i Hi; now apply Iq in Hi).
  assert (Hcl : forall x, In x (concat (map up L)) -> 0 <= x < m).
  { intros x Hx. apply in_concat in Hx as (l & Hl & Hx). apply in_map_iff in Hl as (i & <- & Hi). eapply (po_up _ _ _ HP); eauto. }
  assert (Hcnt : forall x, 0 <= x < m -> cnt x (concat (map up L)) <= rem k x). { intros x Hx. rewrite (edge_count k L x) by auto. pose proof (rem_split k x). pose proof (rem_nonneg (k + 1) x). lia. }
  assert (Hrem : forall x, 0 <= x < m -> rem k x - cnt x (concat (map up L)) = rem (k + 1) x). { intros x Hx. rewrite (edge_count k L x) by auto. pose proof (rem_split k x). lia. }
  assert (Hnew : forall x, 0 <= x < m /\ 0 < rem k x /\ cnt x (concat (map up L)) = rem k x <-> 0 <= x < m /\ lev x = k + 1).
  { intros x. split; intros (Hx & H); (split; [auto|]); rewrite (edge_count k L x) in * by auto; pose proof (next_level k x Hk Hx); tauto. }
  assert (Hcnt' : forall x, cnt x (concat (map up L)) <= rem k x).
  { intros x. destruct (Z_lt_le_dec x 0); [rewrite cnt_notin; [apply rem_nonneg|intros H; apply Hcl in H; lia]|]. destruct (Z_lt_le_dec x m); [apply Hcnt; lia|rewrite cnt_notin; [apply rem_nonneg|intros H; apply Hcl in H; lia]]. }
  pose proof (level_count k L Hk Ind Iq) as Hlc. destruct (mapM_succs L HLm) as (ss & Ess & Ein).
  destruct (Zlen L <? (if l_ser s then 128 else 64)).
  - rewrite (mapM_get_list rv L (l_end s) R1), Ess. fold m. rewrite Ein.
    assert (Hnx : Zlen (filter (fun x => lev x =? k + 1) (zrange 0 m)) + (l_end s + Zlen L) <= m).
    { assert (Hls2 : level_sets m lev ((ls ++ [L]) ++ [filter (fun x => lev x =? k + 1) (zrange 0 m)])).
      { apply level_sets_snoc; auto. { apply NoDup_filter, NoDup_zrange. } intros i. rewrite filter_In, In_zrange, Zlen_app, Ik. change (Zlen [L]) with 1. split; intros (A & B); split; auto; lia. }
      apply (level_sets_len m lev) in Hls2; auto. rewrite concat_app, Zlen_app in Hls2. cbn [concat] in Hls2. rewrite app_nil_r in Hls2. lia. }
    destruct (serial_fold G lo up HP (concat (map up L)) (Z.max T (m + T - 1) * 2) (l_end s + Zlen L) (l_np s) rv 0 (rem k)) as (np' & rv' & k' & new & F & A1 & A2 & A3 & A4 & A5 & A6 & A7 & A8); auto; try lia.
    { fold m. rewrite Hlc, Lrv. lia. } { fold m. rewrite Hlc. lia. }
    rewrite F. cbn [fst snd].
    replace k' with (Zlen new) by lia. rewrite (mapM_get_list rv' new).
    2: { intros p Hp. rewrite <- A8 by auto. f_equal. lia. }
    split; [|discriminate]. right. eexists. split; [reflexivity|]. assert (Ec : concat (new :: empty_queues (T - 1)) = new) by (cbn [concat]; rewrite concat_empty; apply app_nil_r).
    constructor; cbn [l_np l_rev l_lev l_qs l_ser l_end]; rewrite ?Ec; auto.
    + rewrite Zlen_app, Ik. reflexivity.
    + rewrite Zlen_cons, len_empty; lia.
    + intros i. rewrite A6. apply Hnew.
    + intros x Hx. rewrite A3 by auto. f_equal. auto.
    + lia.
    + intros p Hp. rewrite A7 by lia. now apply R3.
    + intros _ p Hp. rewrite <- A8 by auto. f_equal. lia.
  - destruct (par_edges_ok (l_end s) (l_qs s) rv k IT Ind Iq R1) as (nnzp & es & -> & -> & Hsnd & Hfst).
    unfold par. pose proof (merge_perm (sch 1%nat) es) as Pm.
    assert (Hc2 : forall x, cnt x (map snd (merge (sch 1%nat) es)) = cnt x (concat (map up L))). { intros x. rewrite (cnt_perm _ _ _ (Permutation_map snd Pm)), Hsnd. reflexivity. }
    destruct (edges_fold G lo up T HP (merge (sch 1%nat) es) (l_np s) (empty_queues T) (rem k)) as (F1 & F2); auto.
    { intros a Ha. apply (Permutation_in a Pm) in Ha. rewrite len_empty by lia. split; [|auto]. apply Hcl. fold L in Hsnd. rewrite <- Hsnd. now apply in_map. }
    { intros x. now rewrite Hc2. }
    fold m in F1, F2 |- *.
    destruct (foldM (edge_step G cap) (merge (sch 1%nat) es) (l_np s, empty_queues T)) as [(np', qs')|] eqn:F.
    + destruct (F1 np' qs' eq_refl) as (A1 & A2 & A3 & new & A4 & A5 & A6). rewrite concat_empty in A4. cbn [app] in A4. split; [|discriminate]. right. eexists. split; [reflexivity|].
      constructor; cbn [l_np l_rev l_lev l_qs l_ser l_end]; auto.
      * rewrite Zlen_app, Ik. reflexivity.
      * rewrite A2, len_empty; lia.
      * eapply Permutation_NoDup; [symmetry; exact A4|auto].
      * intros i. rewrite <- Hnew. rewrite <- Hc2, <- A6. split; apply Permutation_in; [|symmetry]; auto.
      * intros x Hx. rewrite A3 by auto. f_equal. rewrite Hc2. auto.
      * discriminate.
    + split; auto. intros Hcap. exfalso. destruct F2 as (z & Ez); [|discriminate]. rewrite concat_empty. change (Zlen (@nil Z)) with 0. erewrite filter_ext; [rewrite Hlc; lia|]. intros x. cbn beta. now rewrite Hc2.
Qed.

Lemma rounds_ok sch fuel : forall k s ls, Inv k s ls -> m + 1 < k + Z.of_nat fuel ->
  (forall s', rounds fuel G T sch s = Some s' -> exists k' ls', Inv k' s' ls' /\ concat (l_qs s') = []) /\
  ((forall l, 0 < l -> Zlen (filter (fun x => lev x =? l) (zrange 0 m)) < cap) -> exists s', rounds fuel G T sch s = Some s').
Proof.
  induction fuel as [|fuel IH]; intros k s ls I Hf.
  { exfalso. pose proof (nonempty_count ls) as H. rewrite (i_k _ _ _ I) in H. specialize (H (i_ne _ _ _ I)). pose proof (level_sets_len m lev ls m_nonneg (i_ls _ _ _ I)). lia. }
  cbn [rounds]. destruct (round_ok (sch fuel) k s ls I) as [(E & ->)|(N & [E|(s1 & E & I1)] & D)].
  - split; [|eauto]. intros s' Es. injection Es as <-. eauto.
  - rewrite E. split; [discriminate|]. intros H. exfalso. apply D; auto. apply H. rewrite <- (i_k _ _ _ I). pose proof (Zlen_nonneg ls). lia.
  - rewrite E. apply (IH (k + 1) s1 _ I1). lia.
Qed.

Lemma len_nil_iff x : 0 <= x < m -> (Zlen (lo x) = 0 <-> lev x = 0).
Proof.
  intros Hx. destruct (HL x Hx) as (L0 & L1 & L2). split; intros E.
  - destruct (Z.eq_dec (lev x) 0); auto. destruct (L2 ltac:(lia)) as (i & Hi & _). destruct (lo x) as [|j l]; [destruct Hi|rewrite Zlen_cons in E; pose proof (Zlen_nonneg l); lia].
  - pose proof (po_lt _ _ _ HP) as Hlt. destruct (lo x) as [|i l] eqn:El; [reflexivity|]. exfalso. pose proof (L1 i (or_introl eq_refl)) as H.
    assert (Hi : 0 <= i < x). { apply Hlt; auto. rewrite El. cbn; auto. } destruct (HL i) as (H0 & _); [fold m; lia|]. lia.
Qed.

(** The initial queues. *)
Lemma init_fold l : forall np qs, NoDup (map snd l) -> Zlen np = m -> (forall a, In a l -> 0 <= snd a < m /\ 0 <= fst a < Zlen qs) ->
  (forall np' qs', foldM (init_step G cap) l (np, qs) = Some (np', qs') ->
    Zlen np' = m /\ Zlen qs' = Zlen qs /\ (forall x, In x (map snd l) -> get np' x = Some (Zlen (lo x))) /\ (forall x, ~ In x (map snd l) -> get np' x = get np x) /\
    Permutation (concat qs') (concat qs ++ filter (fun x => Zlen (lo x) =? 0) (map snd l))) /\
  ((forall t, 0 <= t < Zlen qs -> Zlen (nthl qs t) + Zlen (filter (fun a => fst a =? t) l) < cap) -> exists s, foldM (init_step G cap) l (np, qs) = Some s).
Proof.
  induction l as [|(t, x) l IH]; intros np qs N Lnp Hl.
  - cbn [foldM map filter]. split; [|eauto]. intros np' qs' E. injection E as <- <-. rewrite app_nil_r. repeat split; auto. intros x [].
  - destruct (Hl (t, x) (or_introl eq_refl)) as (Hx & Ht). cbn [fst snd] in Hx, Ht. cbn [foldM init_step map filter snd fst] in *.
    inversion_clear N as [|? ? Nx N']. destruct (po_low _ _ _ HP x Hx) as (r & d & e & cs & -> & -> & _ & Ed & _). rewrite Ed.
    destruct (set_ok np x (Zlen (lo x))) as (np1 & E1); [lia|]. rewrite E1. pose proof (set_len _ _ _ _ E1) as L1.
    assert (Hg : forall np', (forall y, In y (map snd l) -> get np' y = Some (Zlen (lo y))) -> (forall y, ~ In y (map snd l) -> get np' y = get np1 y) ->
       (forall y, x = y \/ In y (map snd l) -> get np' y = Some (Zlen (lo y))) /\ (forall y, ~ (x = y \/ In y (map snd l)) -> get np' y = get np y)).
    { intros np' A B. split.
      - intros y [<-|Hy]; [rewrite B by auto; eapply get_set_same; eauto|auto].
      - intros y Hy. rewrite B by tauto. eapply get_set_other; eauto. }
    destruct (Z.eqb_spec (Zlen (lo x)) 0) as [E|NE].
    + split.
      * intros np' qs' EF. destruct (enqueue G cap t x qs) as [qs1|] eqn:EQ; [|discriminate]. destruct (enqueue_inv _ _ _ _ _ _ EQ) as (LQ & PQ).
        destruct (IH np1 qs1 N' ltac:(lia)) as (IH1 & _). { intros a Ha. rewrite LQ. apply Hl. cbn; auto. }
        destruct (IH1 np' qs' EF) as (A1 & A2 & A3 & A4 & A5). destruct (Hg np' A3 A4) as (B1 & B2). repeat split; auto; [lia|].
        rewrite A5, PQ, <- app_assoc. reflexivity.
      * intros Hb. assert (EQ : exists qs1, enqueue G cap t x qs = Some qs1 /\ forall u, 0 <= u < Zlen qs -> Zlen (nthl qs1 u) = Zlen (nthl qs u) + if t =? u then 1 else 0).
        { unfold enqueue. rewrite (get_nthl qs t Ht). destruct (degree_ok G lo up HP x Hx) as (cs' & _ & -> & _). specialize (Hb t Ht). rewrite Z.eqb_refl, Zlen_cons in Hb.
          pose proof (Zlen_nonneg (filter (fun a : Z * Z => fst a =? t) l)). replace (Zlen (nthl qs t) + 1 <? cap) with true by (fold m in Hb |- *; lia).
          destruct (set_ok qs t (nthl qs t ++ [x]) Ht) as (qs1 & ES). exists qs1. split; auto. intros u Hu. destruct (Z.eqb_spec t u) as [<-|Nu].
          - rewrite (nthl_get _ _ _ (get_set_same _ _ _ _ ES)), Zlen_app. reflexivity.
          - unfold nthl. rewrite (get_set_other _ _ _ _ _ ES) by auto. lia. }
        destruct EQ as (qs1 & EQ & Hu). rewrite EQ. destruct (enqueue_inv _ _ _ _ _ _ EQ) as (LQ & PQ).
        destruct (IH np1 qs1 N' ltac:(lia)) as (_ & IH2). { intros a Ha. rewrite LQ. apply Hl. cbn; auto. }
        apply IH2. intros u Hu'. rewrite LQ in Hu'. rewrite Hu by auto. specialize (Hb u Hu'). destruct (t =? u); rewrite ?Zlen_cons in Hb; lia.
    + destruct (IH np1 qs N' ltac:(lia)) as (IH1 & IH2). { intros a Ha. apply Hl. cbn; auto. } split.
      * intros np' qs' EF. destruct (IH1 np' qs' EF) as (A1 & A2 & A3 & A4 & A5). destruct (Hg np' A3 A4) as (B1 & B2). repeat split; auto.
      * intros Hb. apply IH2. intros u Hu. specialize (Hb u Hu). destruct (t =? u); rewrite ?Zlen_cons in Hb; lia.
Qed.
Lemma chunk_share : (m + T - 1) / T < cap.
Proof.
  pose proof m_nonneg. unfold share. pose proof (Z.div_le_mono T (Z.max T (m + T - 1)) T ltac:(lia) ltac:(lia)) as H1. rewrite Z.div_same in H1 by lia.
  pose proof (Z.div_le_mono (m + T - 1) (Z.max T (m + T - 1)) T ltac:(lia) ltac:(lia)). lia.
Qed.

Theorem findLevels_ok chunks sch0 sch np rv :
  Zlen chunks = T -> Permutation (concat chunks) (zrange 0 m) -> (forall t, 0 <= t < T -> Zlen (nthl chunks t) <= (m + T - 1) / T) -> Zlen np = m -> Zlen rv = m ->
  (forall rv' lv, findLevels G T chunks sch0 sch np rv = Some (rv', lv) ->
    exists ls, level_sets m lev ls /\ (forall i, 0 <= i < m -> 0 <= lev i < Zlen ls) /\ (forall l, 0 <= l < Zlen ls -> nthl ls l <> []) /\
      rv' = concat ls /\ lv = map (off (nthl ls)) (zrange 0 (Zlen ls + 1))) /\
  ((forall l, 0 < l -> Zlen (filter (fun x => lev x =? l) (zrange 0 m)) < cap) -> exists r, findLevels G T chunks sch0 sch np rv = Some r).
Proof.
  intros Lc Pc Bc Ln Lr. unfold findLevels, par. fold m. set (ts := map (fun t => map (pair t) (nthl chunks t)) (zrange 0 T)). pose proof m_nonneg as Hm.
  pose proof (merge_perm sch0 ts) as Pm.
  assert (Ecs : map snd (concat ts) = concat chunks).
  { rewrite (concat_flat chunks), Lc. unfold ts, flat. clear. induction (zrange 0 T) as [|t l IH]; [reflexivity|]. cbn [map concat]. rewrite map_app, IH. f_equal. rewrite map_map. apply map_id. }
  assert (Ps : Permutation (map snd (merge sch0 ts)) (zrange 0 m)). { rewrite (Permutation_map snd Pm), Ecs. exact Pc. }
  assert (Hin : forall a, In a (merge sch0 ts) -> 0 <= snd a < m /\ 0 <= fst a < T).
  { intros a Ha. split.
    - apply In_zrange. eapply Permutation_in; [exact Ps|]. now apply in_map.
    - apply (Permutation_in a Pm) in Ha. apply in_concat in Ha as (l & Hl & Ha). apply in_map_iff in Hl as (t & <- & Ht). apply in_map_iff in Ha as (y & <- & _). apply In_zrange in Ht. cbn. lia. }
  destruct (init_fold (merge sch0 ts) np (empty_queues T)) as (F1 & F2); auto.
  { eapply Permutation_NoDup; [symmetry; exact Ps|apply NoDup_zrange]. } { rewrite len_empty by lia. auto. }
  assert (HI : forall np' qs, foldM (init_step G cap) (merge sch0 ts) (np, empty_queues T) = Some (np', qs) -> Inv 0 (mkL np' rv [0] qs false 0) []).
  { intros np' qs E. destruct (F1 np' qs E) as (A1 & A2 & A3 & A4 & A5). rewrite concat_empty in A5. cbn [app] in A5.
    assert (Hq : forall i, In i (concat qs) <-> 0 <= i < m /\ lev i = 0).
    { intros i. transitivity (In i (filter (fun x => Zlen (lo x) =? 0) (zrange 0 m))).
      - assert (Permutation (concat qs) (filter (fun x => Zlen (lo x) =? 0) (zrange 0 m))) as P'.
        { rewrite A5. clear - Ps. induction Ps; cbn [filter]; auto. - destruct (Zlen (lo x) =? 0); auto. - destruct (Zlen (lo x) =? 0), (Zlen (lo y) =? 0); auto. apply perm_swap. - etransitivity; eauto. }
        split; apply Permutation_in; [|symmetry]; auto.
      - rewrite filter_In, In_zrange. split; intros (A & B); (split; [auto|]); pose proof (len_nil_iff i A); lia. }
    constructor; cbn [l_np l_rev l_lev l_qs l_ser l_end]; auto; try reflexivity.
    - intros l Hl. change (Zlen (@nil (list Z))) with 0 in Hl. lia.
    - intros l Hl. lia.
    - rewrite A2, len_empty; lia.
    - eapply Permutation_NoDup; [symmetry; exact A5|]. apply NoDup_filter. eapply Permutation_NoDup; [symmetry; exact Ps|apply NoDup_zrange].
    - intros x Hx. rewrite A3. { f_equal. unfold rem. f_equal. symmetry. apply forallb_filter_id || idtac.
        assert (Hall : forall i, In i (lo x) -> 0 <= lev i). { intros i Hi. pose proof (po_lt _ _ _ HP _ _ Hx Hi). destruct (HL i) as (H0 & _); [fold m; lia|auto]. }
        clear - Hall. induction (lo x) as [|i l IH]; auto. cbn [filter]. pose proof (Hall i (or_introl eq_refl)). replace (0 <=? lev i) with true by lia. f_equal. apply IH. intros; apply Hall; cbn; auto. }
      eapply Permutation_in; [symmetry; exact Ps|]. apply In_zrange. lia.
    - intros p Hp. lia.
    - discriminate. }
  destruct (foldM (init_step G cap) (merge sch0 ts) (np, empty_queues T)) as [(np', qs)|] eqn:E.
  - specialize (HI np' qs eq_refl). destruct (rounds_ok sch (S (Z.to_nat (m + 1))) 0 _ _ HI) as (R1 & R2); [lia|]. split.
    + intros rv' lv ER. destruct (rounds (S (Z.to_nat (m + 1))) G T sch (mkL np' rv [0] qs false 0)) as [s|] eqn:Es; [|discriminate]. injection ER as <- <-.
      destruct (R1 s eq_refl) as (k' & ls & I & Eq). pose proof (end_level _ _ _ I Eq) as Hall. destruct I as [Ik Ils Ine IT Ind Iq Inp Irl Iend Irev Iser Ilev]. subst k'.
      pose proof (level_sets_full m lev ls Hm Ils Hall) as Hf. exists ls. split; auto. split; auto. split; auto. split; auto.
      apply list_ext; [lia|]. intros i Hi. apply Irev. lia.
    + intros H. destruct (R2 H) as (s' & ->). eauto.
  - split; [discriminate|]. intros _. exfalso. destruct F2 as (z & Ez); [|discriminate]. rewrite len_empty by lia. intros t Ht.
    assert (E0 : nthl (empty_queues T) t = []). { unfold nthl, empty_queues. rewrite get_map, get_zrange by lia. reflexivity. } rewrite E0. change (Zlen (@nil Z)) with 0.
    assert (Zlen (filter (fun a => fst a =? t) (merge sch0 ts)) = Zlen (nthl chunks t)) as ->; [|pose proof (Bc t Ht); pose proof chunk_share; lia].
    assert (Zlen (filter (fun a : Z * Z => fst a =? t) (merge sch0 ts)) = Zlen (filter (fun a : Z * Z => fst a =? t) (concat ts))) as ->.
    { clear - Pm. induction Pm; cbn [filter]; auto. - destruct (fst x =? t); rewrite ?Zlen_cons; lia. - destruct (fst x =? t), (fst y =? t); rewrite ?Zlen_cons; lia. - lia. }
    unfold ts. clear - Ht. assert (forall n, 0 <= n -> Zlen (filter (fun a : Z * Z => fst a =? t) (concat (map (fun t => map (pair t) (nthl chunks t)) (zrange 0 n)))) = if t <? n then Zlen (nthl chunks t) else 0) as H.
    { intros n Hn. pattern n. revert n Hn. apply Z_ind0. { rewrite zrange_nil by lia. replace (t <? 0) with false by lia. reflexivity. }
      intros n Hn IH. rewrite zrange_snoc by lia. rewrite map_app, concat_app, filter_app, Zlen_app, IH. cbn [map concat]. rewrite app_nil_r.
      assert (forall l : list Z, Zlen (filter (fun a : Z * Z => fst a =? t) (map (pair n) l)) = if n =? t then Zlen l else 0) as ->.
      { intros l. induction l as [|a l IHl]; cbn [map filter fst]. { now destruct (n =? t). } destruct (n =? t); rewrite ?Zlen_cons, IHl; reflexivity. }
      destruct (Z.eqb_spec n t) as [->|]; [replace (t <? t) with false by lia; replace (t <? t + 1) with true by lia; lia|].
      destruct (t <? n) eqn:?, (t <? n + 1) eqn:?; lia. }
    rewrite H by lia. replace (t <? T) with true by lia. reflexivity.
Qed.
End Main.
