(** * The whole of getRCMPermutation (reordering/RCM.cpp:661-968).

    The model is in RcmLarge.v.  Here: the components handled one after the other,
    the whole function, the ring that meets the hypotheses at every size, the path
    that overruns the scratch memory. *)
From Coq Require Import Permutation Relations.
From Verif Require Import Base Interleave Spec PermUtils Partition Flat Csr CsrOps Levels LevelsMain SplitLU Transpose RowPar UnionFind Components BinIO LevelsCsr BitVector Bfs ParBfs Rcm BfsPerm UnionFresh RcmPipe RcmSource RcmLarge.

(** ** Specification *)
(** Where the order of a component starts: at its smallest node, or, for a large
    component, at a pseudo-peripheral node if asked for. *)
Definition rcm_source (adj : Z -> list Z) (pd : bool) (root src : Z) : Prop :=
  reach adj root src /\
  forall o, NoDup o -> (forall v, In v o <-> reach adj root v) -> if (PAR_THR <=? Zlen o) && pd then pseudo_peripheral adj src else src = root.
Definition rcm_result_from {V} (rows : rows_t V) (pd : bool) (perm inv : list Z) : Prop :=
  let adj := cols_of rows in
  inverse_perms (Zlen rows) perm inv /\
  exists roots sources orders, ssortedZ roots /\ (forall s v, In s roots -> reach adj s v -> s <= v) /\ Forall2 (rcm_source adj pd) roots sources /\
    Forall2 (cm_order adj (degree rows)) sources orders /\ inv = rev (concat orders).
(** The scratch memory suffices. *)
Definition rcm_room (adj : Z -> list Z) (m T : Z) (pd : bool) : Prop :=
  forall s o, 0 <= s < m -> NoDup o -> (forall v, In v o <-> reach adj s v) ->
    if Zlen o <? PAR_THR then Zlen o + T <= PAR_THR \/ T * (PAR_THR + 1) <= m + 1
    else (forall n, bfs_depth adj s n -> n < m) /\ (pd = true -> cand_room adj m T o).

Section Total.
Context {V : Type}.
Variables (A : csr V) (hasv : bool) (rows : rows_t V).
Let m := Zlen rows.
Hypothesis HR : rep hasv 0 m rows A.
Hypothesis HK : rows_ok m rows.
Let adj := cols_of rows.
Let deg := degree rows.
Hypothesis HSym : symmetric_adj adj.
Hypothesis ND : forall u, NoDup (adj u).
Variables (T : Z) (srt : list Z -> list Z) (pd : bool).
Hypothesis HT : 1 <= T.
Hypothesis Hbig : T * m < INT_MAX.
Hypothesis HS : sorts_by deg srt.
Hypothesis Hroom : rcm_room adj m T pd.
Variable cc : cc_result.
Let K := cc_n cc.

Definition parts (G : Z -> list Z) : Prop :=
  0 <= K /\ off G K = m /\ (forall v, 0 <= v < m <-> exists c k, 0 <= c < K /\ 0 <= k < Zlen (G c) /\ get (G c) k = Some v) /\
  (forall c c' v, 0 <= c < K -> 0 <= c' < K -> In v (G c) -> In v (G c') -> c = c') /\
  (forall c, 0 <= c < K -> NoDup (G c)) /\ (forall c, 0 <= c < K -> ssortedZ (G c)) /\
  (forall c, 0 <= c < K -> exists s, get (cc_roots cc) c = Some s /\ get (G c) 0 = Some s) /\
  (forall c s, 0 <= c < K -> In s (G c) -> 0 <= s < m /\ forall v, In v (G c) <-> reach adj s v) /\
  (forall c, 0 <= c < K -> get (cc_sizes cc) c = Some (Zlen (G c)) /\ get (cc_starts cc) c = Some (off G c)) /\
  (forall c k, 0 <= c < K -> 0 <= k < Zlen (G c) -> get (cc_nodes cc) (off G c + k) = get (G c) k) /\
  ssortedZ (cc_roots cc) /\ Zlen (cc_roots cc) = K.
Lemma listing_parts : component_listing m (connected (edges_of rows)) cc -> exists G, parts G.
Proof.
  intros (gs & L1 & L2 & L3 & L4 & L5 & L6 & L7 & L8 & L9). fold K in L1, L4. set (G := nthl gs). exists G.
  assert (K0 : 0 <= K) by (rewrite <- L1; apply Zlen_nonneg).
  rewrite concat_flat, L1 in L2. fold G in L2.
  assert (Nn : NoDup (flat G K)) by (rewrite <- L2; eapply is_perm_NoDup; eauto).
  assert (Lm : off G K = m). { rewrite <- Zlen_flat, <- L2 by lia. unfold Zlen. rewrite (Permutation_length L8). fold (Zlen (zrange 0 m)). rewrite Zlen_zrange. pose proof (Zlen_nonneg rows). fold m in H. lia. }
  assert (In_g : forall v, 0 <= v < m <-> exists c k, 0 <= c < K /\ 0 <= k < Zlen (G c) /\ get (G c) k = Some v).
  { intros v. rewrite <- In_zrange. split.
    - intros Hv. apply (Permutation_in _ (Permutation_sym L8)) in Hv. rewrite L2 in Hv. apply In_get in Hv as (p & Hp & Ep). rewrite Zlen_flat in Hp by lia. destruct (flat_locate G K p K0 Hp) as (c & k & Hc & Hk & ->). rewrite get_flat in Ep by auto. eauto.
    - intros (c & k & Hc & Hk & E). apply (Permutation_in _ L8). rewrite L2. apply (get_In _ (off G c + k)). now rewrite get_flat. }
  assert (Dj : forall c c' v, 0 <= c < K -> 0 <= c' < K -> In v (G c) -> In v (G c') -> c = c').
  { intros c c' v Hc Hc' H H'. apply In_get in H as (k & Hk & E). apply In_get in H' as (k' & Hk' & E'). rewrite <- (get_flat G K) in E, E' by auto. pose proof (NoDup_get_inj _ _ _ _ Nn E E') as X. apply off_unique in X; try lia. }
  split; auto. split; auto. split; auto. split; auto. split; [|split; [|split; [|split; [|split; [|split; [|split; [|]]]]]]].
  - intros c Hc. apply NoDup_from_get. intros i j v Ei Ej. pose proof (get_Some_bounds _ _ _ Ei). pose proof (get_Some_bounds _ _ _ Ej). rewrite <- (get_flat G K) in Ei, Ej by auto. pose proof (NoDup_get_inj _ _ _ _ Nn Ei Ej). lia.
  - intros c Hc. apply L7, (get_In _ c), get_nthl. lia.
  - intros c Hc. assert (X : get (map Some (cc_roots cc)) c = get (map (@hd_error Z) gs) c) by now rewrite L5. rewrite !get_map in X. rewrite (get_nthl gs c) in X by lia. fold (G c) in X. cbn [option_map] in X. destruct (get (cc_roots cc) c) as [s|]; [|discriminate X]. exists s. split; auto. injection X as X. destruct (G c); [discriminate X|]. injection X as ->. reflexivity.
  - intros c s Hc Es. assert (Hs : 0 <= s < m) by (apply In_g; apply In_get in Es as (k & Hk & Ek); eauto). split; auto. intros v. change adj with (cols_of rows). rewrite <- (connected_reach rows s v HSym). split.
    + intros Hv. assert (Bv : 0 <= v < m) by (apply In_g; apply In_get in Hv as (k & Hk & Ek); eauto). apply L9; auto. exists (G c). split; [apply (get_In _ c); apply get_nthl; lia|]. auto.
    + intros Hv. assert (Bv : 0 <= v < m) by (apply (reach_range rows HK s v Hs), (connected_reach rows s v HSym); auto). apply L9 in Hv as (g & Hg & Hsg & Hvg); auto. apply In_get in Hg as (c' & Hc' & Ec'). assert (g = G c') by (symmetry; now apply nthl_get). subst g. assert (c = c') as ->; auto. apply (Dj c c' s); auto. lia.
  - intros c Hc. split; [rewrite L3, get_map, get_nthl by lia; reflexivity|]. rewrite L4 by auto. rewrite L3, zsum_lens by lia. reflexivity.
  - intros c k Hc Hk. rewrite L2. now apply get_flat.
  - auto.
  - rewrite <- L1, <- (Zlen_map Some), L5, Zlen_map. reflexivity.
Qed.

Variable G : Z -> list Z.
Hypothesis HP : parts G.
Definition srcR (c s : Z) : Prop := In s (G c) /\ if (PAR_THR <=? Zlen (G c)) && pd then pseudo_peripheral adj s else get (G c) 0 = Some s.
(** The components [P] are placed. *)
Definition placedR (P : Z -> Prop) (pm iv : list Z) : Prop :=
  Zlen pm = m /\ Zlen iv = m /\ forall c, 0 <= c < K -> P c -> exists s o, srcR c s /\ cm_order adj deg s o /\
    forall k v, get o k = Some v -> get iv (m - (off G c + k) - 1) = Some v /\ get pm v = Some (m - (off G c + k) - 1).
Lemma placedR_imp (P Q : Z -> Prop) pm iv : (forall c, 0 <= c < K -> Q c -> P c) -> placedR P pm iv -> placedR Q pm iv.
Proof. intros H (L1 & L2 & F). split; auto. Qed.
Lemma order_len c s o : 0 <= c < K -> In s (G c) -> cm_order adj deg s o -> Zlen o = Zlen (G c) /\ forall v, In v o <-> In v (G c).
Proof.
  intros Hc Hs Ho. destruct HP as (_ & _ & _ & _ & Ng & _ & _ & Rg & _). destruct (Rg c s Hc Hs) as (_ & HG). destruct (cm_order_reach _ _ _ _ Ho) as (No & _ & Ro). assert (X : forall v, In v o <-> In v (G c)) by (intros v; now rewrite Ro, HG). split; auto. apply Zlen_same; auto.
Qed.
Lemma placedR_step (P : Z -> Prop) pm iv c s o pm' iv' : 0 <= c < K -> placedR P pm iv -> srcR c s -> cm_order adj deg s o -> placed rows (off G c) pm iv o (pm', iv') -> placedR (fun c' => P c' \/ c' = c) pm' iv'.
Proof.
  intros Hc (L1 & L2 & F) Hs HO (P1 & P2 & P3 & P4 & P5). fold m in P1, P2, P3, P4. split; auto. split; auto.
  intros c' Hc' HPc. destruct (Z.eq_dec c' c) as [->|N]; [exists s, o; auto|]. destruct HPc as [HPc|]; [|contradiction]. destruct (F c' Hc' HPc) as (s' & o' & S' & O' & Q). exists s', o'. split; auto. split; auto. intros k v Ek. destruct (Q k v Ek) as (Q1 & Q2). pose proof (get_Some_bounds _ _ _ Ek) as Bk.
  destruct (order_len c s o Hc (proj1 Hs) HO) as (Lo & Io). destruct (order_len c' s' o' Hc' (proj1 S') O') as (Lo' & Io'). split.
  - rewrite P4; auto. rewrite Lo, <- off_S by lia. destruct (Z_lt_ge_dec c c') as [H|H].
    + left. pose proof (off_mono G (c + 1) c' ltac:(lia)). lia.
    + right. pose proof (off_mono G (c' + 1) c ltac:(lia)) as X. rewrite off_S in X by lia. lia.
  - rewrite P5; auto. intros Hv. apply N. destruct HP as (_ & _ & _ & Dj & _). apply (Dj c' c v); auto; [|now apply Io]. apply Io'. eapply get_In; eauto.
Qed.
Lemma placedR_all pm iv : placedR (fun _ => True) pm iv -> rcm_result_from rows pd pm iv.
Proof.
  intros (I2 & I3 & F). pose proof HP as (K0 & Lm & In_g & Dj & Ng & Sg & Rt & Rg & Sz & Nd & Rs & Lr).
  assert (HO : forall c, 0 <= c < K -> exists so : Z * list Z, srcR c (fst so) /\ cm_order adj deg (fst so) (snd so) /\ Zlen (snd so) = Zlen (G c) /\ (forall v, In v (snd so) <-> In v (G c)) /\ forall k v, get (snd so) k = Some v -> get iv (m - (off G c + k) - 1) = Some v /\ get pm v = Some (m - (off G c + k) - 1)).
  { intros c Hc. destruct (F c Hc I) as (s & o & S & O & Q). exists (s, o). cbn [fst snd]. destruct (order_len c s o Hc (proj1 S) O) as (Lo & Io). auto. }
  split; [split; [exact I2|split; [exact I3|split]]|].
  - intros v Hv. apply In_g in Hv as (c & k & Hc & Hk & Ek). destruct (HO c Hc) as ((s & o) & _ & _ & _ & X & O2). cbn [fst snd] in *. assert (Hv : In v o) by (apply X; eapply get_In; eauto). apply In_get in Hv as (j & Hj & Ej). destruct (O2 j v Ej). eauto.
  - intros p Hp. destruct (flat_locate G K (m - p - 1) K0 ltac:(fold m in Hp; lia)) as (c & k & Hc & Hk & Ep). destruct (HO c Hc) as ((s & o) & _ & _ & Lo & X & O2). cbn [fst snd] in *. destruct (get_in_range o k ltac:(lia)) as (v & Ev). destruct (O2 k v Ev) as (Q1 & Q2). replace (m - (off G c + k) - 1) with p in * by lia. eauto.
  - assert (HF : forall n, 0 <= n -> n <= K -> exists L : list (Z * list Z), Zlen L = n /\ forall c so, get L c = Some so -> srcR c (fst so) /\ cm_order adj deg (fst so) (snd so) /\ Zlen (snd so) = Zlen (G c) /\ forall k v, get (snd so) k = Some v -> get iv (m - (off G c + k) - 1) = Some v).
    { intros n Hn. pattern n. revert n Hn. apply Z_ind0; [intros _; exists []; split; [reflexivity|]; intros c o X; apply get_Some_bounds in X; change (Zlen (@nil (Z * list Z))) with 0 in X; lia|].
      intros n Hn IH Hn1. destruct IH as (os & Lo & Ho); [lia|]. destruct (HO n ltac:(lia)) as (so & X1 & X2 & X3 & _ & X4). exists (os ++ [so]). rewrite Zlen_app. change (Zlen [so]) with 1. split; [lia|]. intros c o' Ec. apply get_snoc in Ec as [Ec|(-> & ->)]; auto. rewrite Lo. split; auto. split; auto. split; auto. intros k v Ek. now apply X4. }
    destruct (HF K K0 ltac:(lia)) as (L & LL & HL). exists (cc_roots cc), (map fst L), (map snd L). split; auto. split; [|split; [|split]].
    + intros s v Hs Hv. apply In_get in Hs as (c & Hc & Ec). destruct (Rt c ltac:(lia)) as (s' & X1 & X2). assert (s' = s) by congruence. subst s'. destruct (Rg c s ltac:(lia) (get_In _ _ _ X2)) as (_ & HG). apply HG in Hv. specialize (Sg c ltac:(lia)). destruct (G c) as [|a l]; [contradiction|]. injection X2 as ->. inversion Sg as [|a' l' _ HFo]. destruct Hv as [->|Hv]; [lia|]. rewrite Forall_forall in HFo. specialize (HFo v Hv). lia.
    + apply Forall2_get; [rewrite Zlen_map; lia|]. intros c root src Er Es. rewrite get_map in Es. destruct (get L c) as [so|] eqn:El; [|discriminate]. injection Es as <-. destruct (HL c so El) as ((S1 & S2) & _). pose proof (get_Some_bounds _ _ _ El) as Bc. destruct (Rt c ltac:(lia)) as (r & X1 & X2). assert (r = root) by congruence. subst r. destruct (Rg c root ltac:(lia) (get_In _ _ _ X2)) as (_ & HG). split; [now apply HG|].
      intros o No Ho. assert (Lo : Zlen o = Zlen (G c)) by (apply Zlen_same; auto; [apply Ng; lia|]; intros v; now rewrite Ho, HG). rewrite Lo. destruct ((PAR_THR <=? Zlen (G c)) && pd); auto. congruence.
    + apply Forall2_get; [now rewrite !Zlen_map|]. intros c s o Es Eo. rewrite get_map in Es. rewrite get_map in Eo. destruct (get L c) as [so|] eqn:El; [|discriminate]. injection Es as <-. injection Eo as <-. apply (HL c so El).
    + assert (Lo : Zlen (map snd L) = K) by (rewrite Zlen_map; lia). assert (Ho : forall c o, get (map snd L) c = Some o -> Zlen o = Zlen (G c) /\ forall k v, get o k = Some v -> get iv (m - (off G c + k) - 1) = Some v).
      { intros c o Eo. rewrite get_map in Eo. destruct (get L c) as [so|] eqn:El; [|discriminate]. injection Eo as <-. destruct (HL c so El) as (_ & _ & X & Y). auto. }
      assert (Og' : forall c, 0 <= c -> c <= K -> off (nthl (map snd L)) c = off G c).
      { intros c Hc. pattern c. revert c Hc. apply Z_ind0; [intros; now rewrite !off_0|]. intros c Hc IH Hc1. rewrite !off_S, IH by lia. f_equal. destruct (get_in_range (map snd L) c ltac:(lia)) as (o & Eo). rewrite (nthl_get _ _ _ Eo). now apply Ho. }
      assert (Lc : Zlen (concat (map snd L)) = m) by (rewrite concat_flat, Zlen_flat, Lo, Og' by lia; exact Lm).
      apply list_ext; [rewrite Zlen_rev; lia|]. intros p Hp. rewrite get_rev by lia. rewrite Lc, concat_flat, Lo. destruct (flat_locate G K (m - p - 1) K0 ltac:(lia)) as (c & k & Hc & Hk & Ep). rewrite Ep. rewrite <- (Og' c) by lia.
      destruct (get_in_range (map snd L) c ltac:(lia)) as (o & Eo). destruct (Ho c o Eo) as (X & O2). rewrite get_flat by (rewrite ?(nthl_get _ _ _ Eo); lia). rewrite (nthl_get _ _ _ Eo). destruct (get_in_range o k ltac:(lia)) as (v & Ev). rewrite Ev. pose proof (O2 k v Ev) as Q. replace (m - (off G c + k) - 1) with p in Q by lia. exact Q.
Qed.

(** The small components. *)
Lemma small_phase who sch levels perm inv : (forall c, 0 <= who c < T) -> Zlen levels = m -> Zlen perm = m -> Zlen inv = m ->
  exists levels' perm' inv', rcm_small A T srt cc who sch (levels, perm, inv) = Some (levels', perm', inv') /\ Zlen levels' = m /\ placedR (fun c => Zlen (G c) < PAR_THR) perm' inv'.
Proof.
  intros Hwho Ll Lp Li. pose proof HP as (K0 & Lm & In_g & Dj & Ng & Sg & Rt & Rg & Sz & Nd & Rs & Lr). unfold rcm_small. fold K.
  destruct (par_any_inv (fun done '(lv, pm, iv) => Zlen lv = m /\ placedR (fun c => In c done /\ Zlen (G c) < PAR_THR) pm iv) sch (fun c => rcm_comp A T srt cc (who c) c) 0 K (levels, perm, inv)) as (((lv & pm) & iv) & done & E & (I1 & I2) & Hd).
  - split; auto. split; auto. split; auto. intros c _ ([] & _).
  - intros done c ((lv & pm) & iv) Hc Nc Hdone (I1 & I2). destruct (Rt c Hc) as (s & E1 & E2). pose proof (get_In _ _ _ E2) as Is. destruct (Rg c s Hc Is) as (Hs & HG). destruct (Sz c Hc) as (E3 & E4).
    destruct (Z_lt_ge_dec (Zlen (G c)) PAR_THR) as [Hsm|Hlg].
    + pose proof (Hroom s (G c) Hs (Ng c Hc) HG) as Hr. replace (Zlen (G c) <? PAR_THR) with true in Hr by lia. pose proof I2 as (Lpm & Liv & _).
      assert (Og : 0 <= off G c /\ off G c + Zlen (G c) <= m). { split; [apply off_nonneg|]. rewrite <- off_S, <- Lm by lia. apply off_mono. lia. }
      destruct (comp_ok A hasv rows HR HK srt HS ND T cc (who c) c s (off G c) (G c) lv pm iv) as (lv' & pm' & iv' & o & E & L' & HO & HPl); auto.
      exists (lv', pm', iv'). split; auto. split; auto. assert (Sr : srcR c s). { split; auto. replace (PAR_THR <=? Zlen (G c)) with false by lia. exact E2. }
      eapply placedR_imp; [|eapply placedR_step; eauto]. cbv beta. intros c' _ ([<-|H] & H'); auto.
    + exists (lv, pm, iv). split; [unfold rcm_comp; rewrite E1, E4, E3; replace (PAR_THR <=? Zlen (G c)) with true by lia; reflexivity|]. split; auto. eapply placedR_imp; [|exact I2]. cbv beta. intros c' _ ([<-|H] & H'); auto. lia.
  - exists lv, pm, iv. split; auto. split; auto. eapply placedR_imp; [|exact I2]. cbv beta. intros c Hc H. split; auto. now apply Hd.
Qed.

(** The large components. *)
Variable mx : Z.
Hypothesis Hmx : forall u, Zlen (adj u) <= mx.
Definition large_inv (c : Z) (s : lg_mem) : Prop :=
  lg_ok rows s /\ placedR (fun c' => Zlen (G c') < PAR_THR \/ c' < c) (lg_perm s) (lg_inv s) /\ forall c', c <= c' < K -> all_clear (G c') (lg_bv s).
Lemma large_skip ex c s : 0 <= c < K -> Zlen (G c) < PAR_THR -> large_inv c s -> large_step A T srt pd mx cc ex c (Finished s) = Some (Finished s) /\ large_inv (c + 1) s.
Proof.
  intros Hc Hsm (I1 & I2 & I3). pose proof HP as (K0 & Lm & In_g & Dj & Ng & Sg & Rt & Rg & Sz & Nd & Rs & Lr). destruct (Rt c Hc) as (s0 & E1 & E2). destruct (Sz c Hc) as (E3 & E4). split.
  - unfold large_step. rewrite E1, E4, E3. now replace (Zlen (G c) <? PAR_THR) with true by lia.
  - split; auto. split; [|intros c' Hc'; apply I3; lia]. eapply placedR_imp; [|exact I2]. cbv beta. intros c' Hc' [H|H]; auto. destruct (Z.eq_dec c' c) as [->|]; [auto|]. right. lia.
Qed.
Lemma large_enter c s : 0 <= c < K -> PAR_THR <= Zlen (G c) -> large_inv c s -> exists root,
  (forall ex, large_step A T srt pd mx cc ex c (Finished s) = large_comp A T srt pd mx (ex c) root (off G c) (G c) s) /\
  (forall x, lx_ok T x -> exists r, large_comp A T srt pd mx x root (off G c) (G c) s = Some r /\ forall s', r = Finished s' -> large_inv (c + 1) s') /\
  (forall x f, lx_ok T x -> (forall k, 0 <= f k < T) -> (forall t k, 0 <= t < T -> exists j, (k <= j)%nat /\ f j = t) ->
    exists k s', large_comp A T srt pd mx (with_sched x (map f (seq 0 k))) root (off G c) (G c) s = Some (Finished s') /\ large_inv (c + 1) s').
Proof.
  intros Hc Hlg (I1 & I2 & I3). pose proof HP as (K0 & Lm & In_g & Dj & Ng & Sg & Rt & Rg & Sz & Nd & Rs & Lr). destruct (Rt c Hc) as (root & E1 & E2). destruct (Sz c Hc) as (E3 & E4). exists root.
  assert (Og : 0 <= off G c /\ off G c + Zlen (G c) <= m). { split; [apply off_nonneg|]. rewrite <- off_S, <- Lm by lia. apply off_mono. lia. }
  assert (Hm2 : 2 <= T * m) by (unfold PAR_THR in Hlg; nia).
  assert (Hrm : forall a, In a (G c) -> (forall n, bfs_depth adj a n -> n < m) /\ (pd = true -> cand_room adj m T (G c))).
  { intros a Ha. destruct (Rg c a Hc Ha) as (Ba & Ga). pose proof (Hroom a (G c) Ba (Ng c Hc) Ga) as X. replace (Zlen (G c) <? PAR_THR) with false in X by lia. exact X. }
  pose proof (get_In _ _ _ E2) as Hroot.
  assert (Step : forall s', large_done rows pd root (off G c) (G c) s s' -> large_inv (c + 1) s').
  { intros s' (D1 & D2 & src & o & (D3 & D4) & D5 & D6). split; auto. split.
    - eapply placedR_imp; [|apply (placedR_step _ _ _ c src o _ _ Hc I2); [|exact D5|exact D6]].
      + cbv beta. intros c' _ [H|H]; auto. destruct (Z.eq_dec c' c) as [->|]; auto. left. right. lia.
      + split; auto. replace (PAR_THR <=? Zlen (G c)) with true by lia. cbn [andb]. destruct pd; auto. now rewrite D4.
    - intros c' Hc' v Hv. unfold bit. rewrite (proj2 D2); [apply (I3 c'); auto; lia|]. intros Hv'. pose proof (Dj c c' v Hc ltac:(lia) Hv' Hv). lia. }
  split.
  { intros ex. unfold large_step. rewrite E1, E4, E3. replace (Zlen (G c) <? PAR_THR) with false by lia.
    replace (mapM (fun k => get (cc_nodes cc) (off G c + k)) (zrange 0 (Zlen (G c)))) with (Some (G c)); auto. symmetry. apply (mapM_from (fun k => get (cc_nodes cc) (off G c + k)) (G c) 0). intros k x Gk. rewrite Z.add_0_l. rewrite Nd; auto. now apply get_Some_bounds in Gk. }
  split.
  - intros x Hx. destruct (large_comp_ok A hasv rows HR HK HSym ND T srt pd HT Hbig Hm2 HS mx Hmx root (off G c) (G c) s) with (x := x) as (r & Er & Hr); auto; try (intros a n Ha Hn; now apply (Hrm a Ha)); try (intros a v Ha; now apply (Rg c a Hc Ha)); try (intros v Hv; now apply (Rg c v Hc Hv)).
    + apply I3. lia.
    + now apply (Hrm root).
    + exists r. split; auto.
  - intros x f Hx F1 F2. destruct (large_comp_fair A hasv rows HR HK HSym ND T srt pd HT Hbig Hm2 HS mx Hmx root (off G c) (G c) s) with (x := x) (f := f) as (k & s' & Er & Hr); auto; try (intros a n Ha Hn; now apply (Hrm a Ha)); try (intros a v Ha; now apply (Rg c a Hc Ha)); try (intros v Hv; now apply (Rg c v Hc Hv)).
    + apply I3. lia.
    + now apply (Hrm root).
    + exists k, s'. auto.
Qed.
Lemma large_phase ex s : (forall c, lx_ok T (ex c)) -> large_inv 0 s -> exists r, rcm_large A T srt pd mx cc ex s = Some r /\ forall s', r = Finished s' -> large_inv K s'.
Proof.
  intros HX Hi. unfold rcm_large. fold K. destruct (forZ_rule (fun c r => forall s', r = Finished s' -> large_inv c s') 0 K (large_step A T srt pd mx cc ex) (Finished s)) as (r & E & Hr); [exact (proj1 HP)| | |].
  - intros s' H. injection H as <-. auto.
  - intros c [s1|] Hc I1; [|exists Waiting; split; [reflexivity|discriminate]]. specialize (I1 s1 eq_refl). destruct (Z_lt_ge_dec (Zlen (G c)) PAR_THR) as [H|H].
    + destruct (large_skip ex c s1 Hc H I1) as (E & I2). eexists. split; [exact E|]. intros s' Es. injection Es as <-. auto.
    + destruct (large_enter c s1 Hc ltac:(lia) I1) as (root & E & H1 & _). rewrite E. apply H1. auto.
  - eauto.
Qed.
Lemma large_phase_fair ex f s : (forall c, lx_ok T (ex c)) -> (forall c k, 0 <= f c k < T) -> (forall c t k, 0 <= t < T -> exists j, (k <= j)%nat /\ f c j = t) -> large_inv 0 s ->
  exists ks s', rcm_large A T srt pd mx cc (fun c : Z => with_sched (ex c) (map (f c) (seq 0 (ks c)))) s = Some (Finished s') /\ large_inv K s'.
Proof.
  intros HX F1 F2 Hi. unfold rcm_large. fold K.
  assert (H : forall c, 0 <= c -> c <= K -> exists (ks : Z -> nat) s', forZ 0 c (large_step A T srt pd mx cc (fun c => with_sched (ex c) (map (f c) (seq 0 (ks c))))) (Finished s) = Some (Finished s') /\ large_inv c s').
  { intros c Hc. pattern c. revert c Hc. apply Z_ind0; [intros _; exists (fun _ => O), s; split; auto; now rewrite forZ_nil by lia|]. intros c Hc IH Hc1. destruct IH as (ks & s1 & E1 & I1); [lia|].
    destruct (Z_lt_ge_dec (Zlen (G c)) PAR_THR) as [Hl|Hl].
    - destruct (large_skip (fun c => with_sched (ex c) (map (f c) (seq 0 (ks c)))) c s1 ltac:(lia) Hl I1) as (E & I2). exists ks, s1. rewrite forZ_snoc, E1 by lia. auto.
    - destruct (large_enter c s1 ltac:(lia) ltac:(lia) I1) as (root & E3 & _ & H2). destruct (H2 (ex c) (f c) (HX c) (F1 c) (F2 c)) as (k & s' & E2 & I2).
      exists (fun c' => if c' =? c then k else ks c'), s'. rewrite forZ_snoc by lia. rewrite (forZ_ext 0 c _ (large_step A T srt pd mx cc (fun c => with_sched (ex c) (map (f c) (seq 0 (ks c)))))).
      + rewrite E1, E3. cbv beta. rewrite Z.eqb_refl. auto.
      + intros c' st Hc'. unfold large_step. replace (c' =? c) with false by lia. reflexivity. }
  destruct (H K (proj1 HP)) as (ks & s' & E & I'); [lia|]. eauto.
Qed.
End Total.

(** ** The whole function *)
Lemma max_degree_ok {V} (A : csr V) hasv (rows : rows_t V) : rep hasv 0 (Zlen rows) rows A -> exists mx, max_degree A = Some mx /\ forall u, Zlen (cols_of rows u) <= mx.
Proof.
  intros HR. unfold max_degree. rewrite (proj1 HR : cm A = Zlen rows).
  destruct (forZ_rule (fun i mx => 0 <= mx /\ forall u, 0 <= u < i -> Zlen (cols_of rows u) <= mx) 0 (Zlen rows) (fun i mx => d <- sel_deg A i ;; Some (Z.max mx d)) 0) as (mx & E & H0 & H); [apply Zlen_nonneg| | |].
  - split; [lia|]. intros u Hu. lia.
  - intros i mx Hi (H0 & H). rewrite (sel_deg_ok A hasv rows HR i Hi). eexists. split; [reflexivity|]. split; [lia|]. intros u Hu. destruct (Z.eq_dec u i) as [->|]; [unfold degree, cols_of; rewrite Zlen_map; lia|]. specialize (H u ltac:(lia)). lia.
  - exists mx. split; auto. intros u. destruct (Z_lt_ge_dec u 0) as [Hu|Hu]; [unfold cols_of, nthl; rewrite get_out by lia; exact H0|]. destruct (Z_lt_ge_dec u (Zlen rows)) as [Hu'|Hu']; [apply H; lia|unfold cols_of, nthl; rewrite get_out by lia; exact H0].
Qed.

Section Whole.
Context {V : Type}.
Variables (A : csr V) (hasv : bool) (base : Z) (rows : rows_t V).
Let m := Zlen rows.
Hypothesis HR : rep hasv base m rows A.
Hypothesis HB : base = 0 \/ base = 1.
Hypothesis HD : diagptr_len A.
Hypothesis HK : rows_ok m rows.
Hypothesis HSym : symmetric_adj (cols_of rows).
Hypothesis ND : forall u, NoDup (cols_of rows u).
Variables (T : Z) (srt : list Z -> list Z) (pd : bool).
Hypothesis HT : 1 <= T.
Hypothesis Hbig : T * m < INT_MAX.
Hypothesis HS : sorts_by (degree rows) srt.
Hypothesis Hroom : rcm_room (cols_of rows) m T pd.
Variables (who : Z -> Z) (bj levels perm inv ps wo : list Z).
Hypothesis Hwho : forall c, 0 <= who c < T.
Hypothesis Lb : Zlen bj = m.
Hypothesis Ll : Zlen levels = m.
Hypothesis Lp : Zlen perm = m.
Hypothesis Li : Zlen inv = m.
Hypothesis Lps : Zlen ps = Z.max (T * PAR_THR) m + 1.
Hypothesis Lw : Zlen wo = m + 1.
Variables (s1 s2 : nat -> list nat) (us cs : list Z) (csch : nat -> list nat) (j : cc_junk) (bsch sch : list nat).
Variables (A0 : csr V) (u : ustate) (c : cstate) (cc : cc_result).
Hypothesis E0 : make0Based A s1 = Some A0.
Hypothesis Ec : cc_run A0 T us cs csch j = Some (u, c, cc).
Hypothesis HL : component_listing m (connected (edges_of rows)) cc.

Lemma getRCM_enter : exists mx s G, parts rows cc G /\ (forall u, Zlen (cols_of rows u) <= mx) /\ large_inv rows pd cc G 0 s /\ rep hasv 0 m rows A0 /\
  forall ex, getRCM A T srt pd s1 s2 us cs csch j bsch bj who sch ex levels perm inv ps wo =
    (r <- rcm_large A0 T srt pd mx cc ex s ;; Some (match r with Waiting => Waiting | Finished s => Finished (A, lg_perm s, lg_inv s) end)).
Proof.
  destruct (zero_based A hasv base rows HR HB HD s1) as (A0' & E0' & R0 & E1). assert (A0' = A0) by congruence. subst A0'.
  destruct (max_degree_ok A0 hasv rows R0) as (mx & Em & Hmx). destruct (bv_new_ok bsch bj m ltac:(apply Zlen_nonneg) Lb) as (bv & Eb & Lbv & Hbv).
  destruct (listing_parts rows HK HSym ND T HT cc HL) as (G & HP).
  destruct (small_phase A0 hasv rows R0 HK ND T srt pd HS Hroom cc G HP who sch levels perm inv Hwho Ll Lp Li) as (l' & p' & i' & Es & Ll' & HPl).
  exists mx, (mkLM l' p' i' bv ps wo), G. split; auto. split; auto. split; [|split; auto].
  - split; [|split].
    + unfold lg_ok. cbn [lg_levels lg_perm lg_inv lg_bv lg_ps lg_wo]. destruct HPl as (L1 & L2 & _). fold m in L1, L2, Ll' |- *. split; auto. split; auto. split; auto. split; [lia|]. split; auto. lia.
    + cbn [lg_perm lg_inv]. eapply placedR_imp; [|exact HPl]. cbv beta. intros c' Hc' [H|H]; auto. lia.
    + intros c' Hc' v Hv. cbn [lg_bv]. apply Hbv. destruct HP as (_ & _ & _ & _ & _ & _ & _ & Rg & _). now apply (Rg c' v).
  - intros ex. unfold getRCM. pose proof HR as (Hm & Hn & _). rewrite Hm, Hn. fold m. rewrite Z.eqb_refl, (rep_base _ _ _ _ _ HR), E0, Em. rewrite (proj1 R0 : cm A0 = m), Eb, Ec, Es. destruct (rcm_large _ _ _ _ _ _ _ _) as [[s|]|]; auto. now rewrite E1.
Qed.
Theorem getRCM_listed ex : (forall c, lx_ok T (ex c)) -> exists r, getRCM A T srt pd s1 s2 us cs csch j bsch bj who sch ex levels perm inv ps wo = Some r /\
  forall A' perm' inv', r = Finished (A', perm', inv') -> A' = A /\ rcm_result_from rows pd perm' inv'.
Proof.
  intros HX. destruct getRCM_enter as (mx & s & G & HP & Hmx & HI & R0 & E). rewrite E.
  destruct (large_phase A0 hasv rows R0 HK HSym ND T srt pd HT Hbig HS Hroom cc G HP mx Hmx ex s HX HI) as (r & Er & Hr). rewrite Er. eexists. split; [reflexivity|]. intros A' p' i' H. destruct r as [s'|]; [|discriminate]. injection H as <- <- <-. split; auto. destruct (Hr s' eq_refl) as (_ & I2 & _).
  apply (placedR_all rows ND pd cc G HP). eapply placedR_imp; [|exact I2]. cbv beta. intros c' Hc' _. right. lia.
Qed.
Theorem getRCM_fair ex f : (forall c, lx_ok T (ex c)) -> (forall c k, 0 <= f c k < T) -> (forall c t k, 0 <= t < T -> exists j, (k <= j)%nat /\ f c j = t) ->
  exists ks perm' inv', getRCM A T srt pd s1 s2 us cs csch j bsch bj who sch (fun c : Z => with_sched (ex c) (map (f c) (seq 0 (ks c)))) levels perm inv ps wo = Some (Finished (A, perm', inv')) /\ rcm_result_from rows pd perm' inv'.
Proof.
  intros HX F1 F2. destruct getRCM_enter as (mx & s & G & HP & Hmx & HI & R0 & E).
  destruct (large_phase_fair A0 hasv rows R0 HK HSym ND T srt pd HT Hbig HS Hroom cc G HP mx Hmx ex f s HX F1 F2 HI) as (ks & s' & Er & _ & I2 & _). exists ks, (lg_perm s'), (lg_inv s'). rewrite E, Er. split; auto.
  apply (placedR_all rows ND pd cc G HP). eapply placedR_imp; [|exact I2]. cbv beta. intros c' Hc' _. right. lia.
Qed.
End Whole.

(** With one thread the components are exact (C29). *)
Theorem getRCM_one_thread {V} (A : csr V) hasv base (rows : rows_t V) srt pd bj levels perm inv ps wo s1 s2 us cs csch j bsch sch A0 work u c ex :
  rep hasv base (Zlen rows) rows A -> base = 0 \/ base = 1 -> diagptr_len A -> rows_ok (Zlen rows) rows -> 1 <= Zlen rows < INT_MAX ->
  symmetric_adj (cols_of rows) -> (forall u, NoDup (cols_of rows u)) -> sorts_by (degree rows) srt -> rcm_room (cols_of rows) (Zlen rows) 1 pd ->
  Zlen bj = Zlen rows -> Zlen levels = Zlen rows -> Zlen perm = Zlen rows -> Zlen inv = Zlen rows -> Zlen ps = Z.max PAR_THR (Zlen rows) + 1 -> Zlen wo = Zlen rows + 1 -> junk_ok (Zlen rows) 1 j ->
  make0Based A s1 = Some A0 -> mapM (cc_work A0 0 1) (zrange 0 1) = Some work -> union_run (Zlen rows) work us = Some u -> all_done u -> compress_run (Zlen rows) 1 (fst u) cs = Some c -> call_done c ->
  (forall c, lx_ok 1 (ex c)) ->
  exists ks perm' inv', getRCM A 1 srt pd s1 s2 us cs csch j bsch bj (fun _ => 0) sch (fun c : Z => with_sched (ex c) (map (fun _ : nat => 0) (seq 0 (ks c)))) levels perm inv ps wo = Some (Finished (A, perm', inv')) /\ rcm_result_from rows pd perm' inv'.
Proof.
  intros HR HB HD HK H1 HSym ND HS Hrm Lb Ll Lp Li Lps Lw HJ E0 Ew Eu Du Ec Dc HX. destruct (zero_based A hasv base rows HR HB HD s1) as (A0' & E0' & R0 & _). assert (A0' = A0) by congruence. subst A0'. pose proof (proj1 R0) as Hm.
  destruct (cc_one_thread hasv 0 rows A0 us cs csch j work u c R0 HK ltac:(lia) HJ Ew ltac:(now rewrite Hm) Du ltac:(now rewrite Hm) Dc) as (res & Er & HL).
  destruct (getRCM_fair A hasv base rows HR HB HD HK HSym ND 1 srt pd ltac:(lia) ltac:(lia) HS Hrm (fun _ => 0) bj levels perm inv ps wo) with (s1 := s1) (s2 := s2) (us := us) (cs := cs) (csch := csch) (j := j) (bsch := bsch) (sch := sch) (A0 := A0) (u := u) (c := c) (cc := res) (ex := ex) (f := fun (_ : Z) (_ : nat) => 0) as (ks & p' & i' & E & Hres); auto; try lia; [intros; exists k; split; lia|]. exists ks, p', i'. auto.
Qed.

(** They are exact with several threads too if the plain stores of the union use
    current values. *)
Theorem rcm_fresh {V} (A : csr V) hasv base (rows : rows_t V) T srt who levels perm inv s1 s2 us cs csch j sch A0 work u c :
  rep hasv base (Zlen rows) rows A -> base = 0 \/ base = 1 -> diagptr_len A -> rows_ok (Zlen rows) rows -> 1 <= Zlen rows ->
  symmetric_adj (cols_of rows) -> (forall u, NoDup (cols_of rows u)) -> 1 <= T -> sorts_by (degree rows) srt -> small_components (cols_of rows) (Zlen rows) T ->
  (forall c, 0 <= who c < T) -> Zlen levels = Zlen rows -> Zlen perm = Zlen rows -> Zlen inv = Zlen rows -> junk_ok (Zlen rows) T j ->
  make0Based A s1 = Some A0 -> mapM (cc_work A0 0 T) (zrange 0 T) = Some work -> union_run (Zlen rows) work us = Some u -> all_done u -> fresh_run us (uinit (Zlen rows) work) ->
  compress_run (Zlen rows) T (fst u) cs = Some c -> call_done c ->
  exists perm' inv', getRCMPermutation A T srt s1 s2 us cs csch j who sch levels perm inv = Some (A, perm', inv') /\ rcm_result rows perm' inv'.
Proof.
  intros HR HB HD HK H1 HSym ND HT HS Hsm Hwho Ll Lp Li HJ E0 Ew Eu Du Fu Ec Dc. destruct (zero_based A hasv base rows HR HB HD s1) as (A0' & E0' & R0 & _). assert (A0' = A0) by congruence. subst A0'. pose proof (proj1 R0) as Hm.
  destruct (cc_fresh hasv 0 rows A0 T us cs csch j work u c R0 HK H1 HT HJ Ew ltac:(now rewrite Hm) Du ltac:(now rewrite Hm) ltac:(now rewrite Hm) Dc) as (res & Er & HL).
  eapply rcm_listed; eauto.
Qed.
Theorem getRCM_fresh {V} (A : csr V) hasv base (rows : rows_t V) T srt pd who bj levels perm inv ps wo s1 s2 us cs csch j bsch sch A0 work u c ex f :
  rep hasv base (Zlen rows) rows A -> base = 0 \/ base = 1 -> diagptr_len A -> rows_ok (Zlen rows) rows -> 1 <= Zlen rows ->
  symmetric_adj (cols_of rows) -> (forall u, NoDup (cols_of rows u)) -> 1 <= T -> T * Zlen rows < INT_MAX -> sorts_by (degree rows) srt -> rcm_room (cols_of rows) (Zlen rows) T pd ->
  (forall c, 0 <= who c < T) -> Zlen bj = Zlen rows -> Zlen levels = Zlen rows -> Zlen perm = Zlen rows -> Zlen inv = Zlen rows -> Zlen ps = Z.max (T * PAR_THR) (Zlen rows) + 1 -> Zlen wo = Zlen rows + 1 -> junk_ok (Zlen rows) T j ->
  make0Based A s1 = Some A0 -> mapM (cc_work A0 0 T) (zrange 0 T) = Some work -> union_run (Zlen rows) work us = Some u -> all_done u -> fresh_run us (uinit (Zlen rows) work) ->
  compress_run (Zlen rows) T (fst u) cs = Some c -> call_done c ->
  (forall c, lx_ok T (ex c)) -> (forall c k, 0 <= f c k < T) -> (forall c t k, 0 <= t < T -> exists j, (k <= j)%nat /\ f c j = t) ->
  exists ks perm' inv', getRCM A T srt pd s1 s2 us cs csch j bsch bj who sch (fun c : Z => with_sched (ex c) (map (f c) (seq 0 (ks c)))) levels perm inv ps wo = Some (Finished (A, perm', inv')) /\ rcm_result_from rows pd perm' inv'.
Proof.
  intros HR HB HD HK H1 HSym ND HT HTm HS Hrm Hwho Lb Ll Lp Li Lps Lw HJ E0 Ew Eu Du Fu Ec Dc HX Hf1 Hf2. destruct (zero_based A hasv base rows HR HB HD s1) as (A0' & E0' & R0 & _). assert (A0' = A0) by congruence. subst A0'. pose proof (proj1 R0) as Hm.
  destruct (cc_fresh hasv 0 rows A0 T us cs csch j work u c R0 HK H1 HT HJ Ew ltac:(now rewrite Hm) Du ltac:(now rewrite Hm) ltac:(now rewrite Hm) Dc) as (res & Er & HL).
  apply (getRCM_fair A hasv base rows HR HB HD HK HSym ND T srt pd HT HTm HS Hrm who bj levels perm inv ps wo) with (A0 := A0) (u := u) (c := c) (cc := res); auto.
Qed.

(** ** A ring of nodes
    It meets the hypotheses at every size: half of the nodes are as many levels, and
    a level has at most two nodes. *)
Definition ring_row (m i : Z) : list (Z * Z) := [(if i =? 0 then m - 1 else i - 1, 0); (if i =? m - 1 then 0 else i + 1, 0)].
Definition ring_rows (m : Z) : rows_t Z := map (ring_row m) (zrange 0 m).
Definition ring_dist (m s v : Z) : Z := Z.min (Z.abs (v - s)) (m - Z.abs (v - s)).
Section Ring.
Variable m : Z.
Hypothesis Hm : 3 <= m.
Let rows := ring_rows m.
Let adj := cols_of rows.
Lemma ring_len : Zlen rows = m.
Proof. unfold rows, ring_rows. rewrite Zlen_map, Zlen_zrange. lia. Qed.
Lemma ring_nth i : 0 <= i < m -> nthl rows i = ring_row m i.
Proof. intros Hi. apply nthl_get. unfold rows, ring_rows. rewrite get_map, get_zrange by lia. reflexivity. Qed.
Lemma ring_adj u v : In v (adj u) <-> 0 <= u < m /\ 0 <= v < m /\ (v = u - 1 \/ v = u + 1 \/ u = 0 /\ v = m - 1 \/ u = m - 1 /\ v = 0).
Proof.
  unfold adj, cols_of. destruct (Z_lt_ge_dec u 0) as [H|H]; [unfold nthl; rewrite get_out by lia; split; [intros []|lia]|]. destruct (Z_lt_ge_dec u m) as [H'|H']; [|unfold nthl; rewrite get_out by (rewrite ring_len; lia); split; [intros []|lia]].
  rewrite ring_nth by lia. unfold ring_row. destruct (Z.eqb_spec u 0), (Z.eqb_spec u (m - 1)); cbn [map fst In]; lia.
Qed.
Lemma ring_rows_ok : rows_ok m rows.
Proof.
  intros r c v Hr Hc. unfold rows, ring_rows in Hr. apply in_map_iff in Hr as (i & <- & Hi). apply In_zrange in Hi. assert (H : In c (adj i)) by (unfold adj, cols_of; rewrite ring_nth by lia; now apply (in_map fst) in Hc). apply ring_adj in H. lia.
Qed.
Lemma ring_sym : symmetric_adj adj.
Proof. intros u v. rewrite !ring_adj. lia. Qed.
Lemma ring_NoDup u : NoDup (adj u).
Proof.
  destruct (in_dec Z.eq_dec u (zrange 0 m)) as [H|H].
  - apply In_zrange in H. unfold adj, cols_of. rewrite ring_nth by lia. unfold ring_row. destruct (Z.eqb_spec u 0), (Z.eqb_spec u (m - 1)); cbn [map fst]; repeat constructor; cbn [In]; try tauto; lia.
  - unfold adj, cols_of, nthl. rewrite get_out; [constructor|]. rewrite ring_len. rewrite In_zrange in H. lia.
Qed.
Lemma ring_walk_lower s k v : 0 <= s < m -> walk adj s k v -> ring_dist m s v <= k.
Proof. intros Hs. unfold ring_dist. induction 1 as [|k u v W IH Hv]; [lia|]. apply ring_adj in Hv. lia. Qed.
Lemma ring_walk s : 0 <= s < m -> forall k, 0 <= k -> forall v, 0 <= v < m -> ring_dist m s v = k -> walk adj s k v.
Proof.
  intros Hs k Hk. pattern k. revert k Hk. apply Z_ind0; unfold ring_dist.
  - intros v Hv E. replace v with s by lia. constructor.
  - intros k Hk IH v Hv E.
    assert (exists u, 0 <= u < m /\ Z.min (Z.abs (u - s)) (m - Z.abs (u - s)) = k /\ In v (adj u)) as (u & Hu & Eu & Hv').
    { destruct (Z_lt_ge_dec s v) as [H|H].
      - destruct (Z_le_gt_dec (v - s) (m - (v - s))) as [H'|H']; [exists (v - 1)|destruct (Z.eq_dec v (m - 1)) as [->|]; [exists 0|exists (v + 1)]]; rewrite ring_adj; lia.
      - destruct (Z_le_gt_dec (s - v) (m - (s - v))) as [H'|H']; [exists (v + 1)|destruct (Z.eq_dec v 0) as [->|]; [exists (m - 1)|exists (v - 1)]]; rewrite ring_adj; lia. }
    econstructor; [apply (IH u Hu Eu)|exact Hv'].
Qed.
Lemma ring_dist_ok s v : 0 <= s < m -> 0 <= v < m -> dist adj s v (ring_dist m s v).
Proof. intros Hs Hv. split; [apply ring_walk; auto; unfold ring_dist; lia|intros k; now apply ring_walk_lower]. Qed.
Lemma ring_reach s v : 0 <= s < m -> reach adj s v <-> 0 <= v < m.
Proof.
  intros Hs. split; [|intros Hv; eapply dist_reach, ring_dist_ok; auto]. intros (k & W). inversion W as [|k0 u w H1 H2 H3]; [lia|]. apply ring_adj in H2; lia.
Qed.
Lemma ring_dist_inv s v k : 0 <= s < m -> dist adj s v k -> 0 <= v < m /\ k = ring_dist m s v.
Proof.
  intros Hs D. assert (0 <= v < m) as Hv by (apply (ring_reach s v Hs); eapply dist_reach; eauto). split; auto. eapply dist_unique; eauto. now apply ring_dist_ok.
Qed.
Lemma ring_depth s n : 0 <= s < m -> bfs_depth adj s n -> n < m.
Proof. intros Hs ((v & D) & _). apply ring_dist_inv in D as (Hv & E); auto. unfold ring_dist in E. lia. Qed.
Lemma ring_room T pd : 1 <= T -> PAR_THR <= m -> 2 * T <= m -> rcm_room adj m T pd.
Proof.
  intros HT Hp H2 s o Hs N Ho. assert (E : Zlen o = m).
  { assert (H : Permutation o (zrange 0 m)). { apply NoDup_Permutation; auto; [apply NoDup_zrange|]. intros v. rewrite Ho, In_zrange. now apply ring_reach. } unfold Zlen. rewrite (Permutation_length H). change (Zlen (zrange 0 m) = m). rewrite Zlen_zrange. lia. }
  rewrite E. replace (m <? PAR_THR) with false by lia. split; [intros n; now apply ring_depth|]. intros _. right. intros a n l Ha _ Nl Hl.
  apply Ho in Ha. apply ring_reach in Ha; auto. enough (Zlen l <= 2) by nia. set (k := n - 1) in *.
  assert (H : forall v, In v l -> v = (if a - k <? 0 then a - k + m else a - k) \/ v = (if a + k <? m then a + k else a + k - m)).
  { intros v Hv. apply Hl in Hv. apply ring_dist_inv in Hv as (Hv & Ek); auto. unfold ring_dist in Ek. destruct (Z.ltb_spec (a - k) 0), (Z.ltb_spec (a + k) m); lia. }
  pose proof (NoDup_incl_length Nl (l' := [(if a - k <? 0 then a - k + m else a - k); (if a + k <? m then a + k else a + k - m)])) as B. unfold Zlen. cbn [length] in B. assert ((length l <= 2)%nat); [apply B; intros v Hv; apply H in Hv; cbn [In]; intuition|lia].
Qed.
End Ring.
Lemma ring_witness m T pd : PAR_THR <= m -> 1 <= T -> 2 * T <= m ->
  rep true 0 (Zlen (ring_rows m)) (ring_rows m) (csr_of 0 m (ring_rows m)) /\ diagptr_len (csr_of 0 m (ring_rows m)) /\ rows_ok (Zlen (ring_rows m)) (ring_rows m) /\ symmetric_adj (cols_of (ring_rows m)) /\ (forall u, NoDup (cols_of (ring_rows m) u)) /\
  sorts_by (degree (ring_rows m)) (dsort (degree (ring_rows m))) /\ rcm_room (cols_of (ring_rows m)) (Zlen (ring_rows m)) T pd.
Proof.
  intros Hp HT H2. assert (Hm : 3 <= m) by (unfold PAR_THR in Hp; lia). rewrite ring_len by auto. split; [apply csr_of_rep; lia|]. split; [discriminate|]. split; [now apply ring_rows_ok|]. split; [now apply ring_sym|]. split; [now apply ring_NoDup|]. split; [apply dsort_sorts|now apply ring_room].
Qed.

(** ** A long path
    Its search from an end has as many levels as there are nodes; write_offset, of
    m + 1 elements (:693), is written behind its end. *)
Theorem path_large_overrun m (A : csr Z) T srt x mx s : PAR_THR <= m -> 1 <= T -> T * m < INT_MAX -> m + 1 <= T * PAR_THR -> rep true 0 m (path_rows m) A -> lx_ok T x -> (forall u, Zlen (cols_of (path_rows m) u) <= mx) ->
  Zlen (lg_levels s) = m -> Zlen (lg_perm s) = m -> Zlen (lg_inv s) = m -> Zlen (lg_bv s) = m -> all_clear (zrange 0 m) (lg_bv s) -> Zlen (lg_ps s) = Z.max (T * PAR_THR) m + 1 -> Zlen (lg_wo s) = m + 1 ->
  large_comp A T srt false mx x 0 0 (zrange 0 m) s = None.
Proof.
  intros Hp HT Hbig H2 HR HX Hmx L1 L2 L3 L4 HC L5 L6. assert (Hm : 3 <= m) by (unfold PAR_THR in Hp; lia). pose proof (path_len m ltac:(lia)) as PL.
  destruct (large_setup A true (path_rows m)) with (T := T) (srt := srt) (pd := false) (mx := mx) (i := 0) (offset := 0) (g := zrange 0 m) (s := s) (x := x) as (src & n & levels & bv & ps & E & (S1 & S2) & D & HL & Lps & _); rewrite ?PL; auto.
  - now apply path_rows_ok.
  - now apply path_sym.
  - now apply path_NoDup.
  - nia.
  - apply In_zrange. lia.
  - intros v Hv. now apply In_zrange in Hv.
  - intros a v Ha. apply In_zrange in Ha. rewrite In_zrange. symmetry. now apply path_reach_any.
  - apply NoDup_zrange.
  - rewrite Zlen_zrange. lia.
  - unfold lg_ok. rewrite PL. lia.
  - discriminate.
  - intros a n Ha (Dn & _). destruct Dn as (v & Dv). apply In_zrange in Ha. apply path_dist_inv in Dv; auto. lia.
  - assert (Ex : x = with_sched x (lx_sched x)) by (destruct x; reflexivity). rewrite Ex, E. subst src. pose proof (path_depth m Hm (n - 1) D) as En.
    rewrite (pl_place_overrun A (path_rows m) (path_NoDup m ltac:(lia)) srt 0 n T 0 mx (zrange 0 m)); auto; try lia. intros v. rewrite In_zrange, path_reach by lia. lia.
Qed.

Theorem path_whole_overrun m (A : csr Z) T srt s1 s2 us cs csch j bsch bj who sch ex levels perm inv ps wo A0 u c :
  PAR_THR <= m -> 1 <= T -> T * m < INT_MAX -> m + 1 <= T * PAR_THR -> rep true 0 m (path_rows m) A -> diagptr_len A -> (forall c, lx_ok T (ex c)) ->
  Zlen bj = m -> Zlen levels = m -> Zlen perm = m -> Zlen inv = m -> Zlen ps = Z.max (T * PAR_THR) m + 1 -> Zlen wo = m + 1 ->
  make0Based A s1 = Some A0 -> cc_run A0 T us cs csch j = Some (u, c, path_cc m) ->
  getRCM A T srt false s1 s2 us cs csch j bsch bj who sch ex levels perm inv ps wo = None.
Proof.
  intros Hp HT Hbig H2 HR HD HX Lb Ll Lpm Li Lps Lw E0 Ec. assert (Hm : 3 <= m) by (unfold PAR_THR in Hp; lia). pose proof (path_len m ltac:(lia)) as PL.
  assert (HR' : rep true 0 (Zlen (path_rows m)) (path_rows m) A) by (rewrite PL; exact HR). destruct (zero_based A true 0 (path_rows m) HR' (or_introl eq_refl) HD s1) as (A0' & E0' & R0 & _). assert (A0' = A0) by congruence. subst A0'.
  destruct (max_degree_ok A0 true (path_rows m) R0) as (mx & Em & Hmx). destruct (bv_new_ok bsch bj m ltac:(lia) Lb) as (bv & Eb & Lbv & Hbv).
  unfold getRCM. pose proof HR as (Hc & Hn & _). rewrite Hc, Hn, PL, Z.eqb_refl, (rep_base _ _ _ _ _ HR'), E0, Em. rewrite (proj1 R0 : cm A0 = Zlen (path_rows m)), PL, Eb, Ec.
  assert (Es : rcm_small A0 T srt (path_cc m) who sch (levels, perm, inv) = Some (levels, perm, inv)).
  { unfold rcm_small, par_any. change (zrange 0 (cc_n (path_cc m))) with [0]. cbn [map]. unfold par. assert (HM : merge sch [[0]] = [0]) by (apply Permutation_length_1_inv, Permutation_sym, (merge_perm sch [[0]])). rewrite HM. cbn [foldM]. unfold rcm_comp. change (get (cc_roots (path_cc m)) 0) with (Some 0). change (get (cc_starts (path_cc m)) 0) with (Some 0). change (get (cc_sizes (path_cc m)) 0) with (Some m). cbv beta iota. now replace (PAR_THR <=? m) with true by lia. }
  rewrite Es. unfold rcm_large. change (cc_n (path_cc m)) with 1. rewrite (forZ_cons 0 1) by lia. unfold large_step at 1. change (get (cc_roots (path_cc m)) 0) with (Some 0). change (get (cc_starts (path_cc m)) 0) with (Some 0). change (get (cc_sizes (path_cc m)) 0) with (Some m). cbv beta iota. replace (m <? PAR_THR) with false by lia.
  replace (mapM (fun k => get (cc_nodes (path_cc m)) (0 + k)) (zrange 0 m)) with (Some (zrange 0 m)).
  2:{ symmetry. rewrite (mapM_Some _ (fun k => k)); [now rewrite map_id|]. intros k Hk. apply In_zrange in Hk. cbn [cc_nodes path_cc]. rewrite get_zrange by lia. reflexivity. }
  rewrite PL in R0. rewrite (path_large_overrun m A0 T srt (ex 0) mx); auto. intros v Hv. cbn [lg_bv]. apply Hbv. now apply In_zrange in Hv.
Qed.
