(** * Correctness of the level construction. *)
From Coq Require Import Permutation.
From Verif Require Import Base Interleave Spec Search Partition PrefixSum Flat Csr Transpose RowPar Ilu Levels.

Lemma mapM_each {A B} (f : A -> option B) l : (forall a, In a l -> exists b, f a = Some b) ->
  exists bs, mapM f l = Some bs /\ forall x, In x bs <-> exists a, In a l /\ f a = Some x.
Proof.
  induction l as [|a l IH]; intros H; cbn [mapM].
  - exists []. split; auto. intros x. split; [intros []|intros (? & [] & _)].
  - destruct (H a (or_introl eq_refl)) as (b & Hb). rewrite Hb. destruct IH as (bs & -> & IH). { intros; apply H; cbn; auto. }
    exists (b :: bs). split; auto. intros x. cbn [In]. rewrite IH. split.
    + intros [<-|(a' & Ha & Hx)]; eauto.
    + intros (a' & [<-|Ha] & Hx); [left; congruence|right; eauto].
Qed.
Lemma mapM_members {A B} (f : A -> option (list B)) (Q : A -> B -> Prop) l : (forall a, In a l -> exists b, f a = Some b /\ forall x, In x b <-> Q a x) ->
  exists bs, mapM f l = Some bs /\ forall x, In x (concat bs) <-> exists a, In a l /\ Q a x.
Proof.
  intros H. destruct (mapM_each f l) as (bs & E & Hb). { intros a Ha. destruct (H a Ha) as (b & E & _). eauto. }
  exists bs. split; auto. intros x. rewrite in_concat. split.
  - intros (b & Hb1 & Hx). apply Hb in Hb1 as (a & Ha & Ea). exists a. split; auto. destruct (H a Ha) as (b' & Eb & Hq). rewrite Ea in Eb. injection Eb as <-. now apply Hq.
  - intros (a & Ha & Hq). destruct (H a Ha) as (b & Eb & Hb'). exists b. split; [apply Hb; eauto|now apply Hb'].
Qed.

Lemma get_concat {A} (qs : list (list A)) t k : 0 <= t < Zlen qs -> 0 <= k < Zlen (nthl qs t) -> get (concat qs) (off (nthl qs) t + k) = get (nthl qs t) k.
Proof. intros Ht Hk. rewrite concat_flat. apply get_flat; auto. Qed.

Lemma qpre_get T qs t : 0 <= t <= T -> get (qpre T qs) t = Some (off (nthl qs) t).
Proof. intros H. unfold qpre. rewrite get_map, get_zrange by lia. reflexivity. Qed.
Lemma qpre_len T qs : 0 <= T -> Zlen (qpre T qs) = T + 1.
Proof. intros H. unfold qpre. rewrite Zlen_map, Zlen_zrange; lia. Qed.
Lemma qpre_inv T qs i v : 0 <= T -> get (qpre T qs) i = Some v -> 0 <= i <= T /\ v = off (nthl qs) i.
Proof.
  intros HT H. pose proof (get_Some_bounds _ _ _ H) as B. rewrite qpre_len in B by auto. split; [lia|]. rewrite qpre_get in H by lia. congruence.
Qed.
Lemma qpre_mono T qs : 0 <= T -> monotone (qpre T qs).
Proof. intros HT i j a b Hij Ha Hb. apply qpre_inv in Ha as (_ & ->); auto. apply qpre_inv in Hb as (_ & ->); auto. now apply off_mono. Qed.

(** The copy of the queues to reversePerm. *)
Section Copy.
Variables (T b0 : Z) (qs : list (list Z)).
Hypotheses (HT : 1 <= T) (Hq : Zlen qs = T).
Let P := off (nthl qs).
Let N := P T.
Let per := (N + T - 1) / T.
Lemma per_ok : 0 <= N /\ 0 <= per /\ N <= per * T.
Proof.
  assert (0 <= N) by apply off_nonneg. split; auto. subst per. split; [apply Z.div_pos; lia|].
  pose proof (Z.div_mod (N + T - 1) T ltac:(lia)). pose proof (Z.mod_pos_bound (N + T - 1) T ltac:(lia)). nia.
Qed.
Lemma copy_moves_ok tid : 0 <= tid < T -> exists mv, copy_moves T b0 qs tid = Some mv /\
  forall a, In a mv <-> exists p, fst a = b0 + p /\ per * tid <= p < per * (tid + 1) /\ get (concat qs) p = Some (snd a).
Proof.
  intros Ht. destruct per_ok as (HN & Hper & HNT). unfold copy_moves. fold P. fold N. fold per.
  set (x := per * tid). set (y := per * (tid + 1)). assert (Hxy : 0 <= x <= y) by (subst x y; nia).
  replace (Z.min (b0 + x) (b0 + N)) with (b0 + Z.min x N) by lia.
  replace (Z.min (b0 + Z.min x N + per) (b0 + N)) with (b0 + Z.min y N) by (subst x y; lia).
  assert (Lq : Zlen (qpre T qs) = T + 1) by (apply qpre_len; lia). assert (Mq : forall a b, monotone_on (qpre T qs) a b). { intros. apply monotone_monotone_on, qpre_mono. lia. }
  destruct (upper_bound_safe (qpre T qs) 0 (T + 1) x) as (tb & Etb & _); [lia|lia|]. destruct (upper_bound_safe (qpre T qs) 0 (T + 1) y) as (te & Ete & _); [lia|lia|].
  rewrite Etb, Ete. apply upper_bound_spec in Etb as (B1 & B2 & B3); [|lia|auto]. apply upper_bound_spec in Ete as (E1 & E2 & E3); [|lia|auto].
  assert (B2' : forall i, 0 <= i < tb -> P i <= x) by (intros i Hi; eapply B2; [|apply qpre_get]; lia).
  assert (B3' : forall i, tb <= i <= T -> x < P i) by (intros i Hi; eapply B3; [|apply qpre_get]; lia).
  assert (E2' : forall i, 0 <= i < te -> P i <= y) by (intros i Hi; eapply E2; [|apply qpre_get]; lia).
  assert (E3' : forall i, te <= i <= T -> y < P i) by (intros i Hi; eapply E3; [|apply qpre_get]; lia).
  assert (Htb : 1 <= tb). { destruct (Z_lt_le_dec tb 1); [|lia]. specialize (B3' 0 ltac:(lia)). unfold P in B3'. rewrite off_0 in B3'. lia. }
  destruct (mapM_members (fun t => let p := P t in let b := Z.max 0 (b0 + Z.min x N - b0 - p) in let e := Z.min (Zlen (nthl qs t)) (b0 + Z.min y N - b0 - p) in
         if e <? b then None else mapM (fun k => v <- get (nthl qs t) k ;; Some (b0 + p + k, v)) (zrange b e))
       (fun t a => exists k, 0 <= k < Zlen (nthl qs t) /\ x <= P t + k < y /\ get (nthl qs t) k = Some (snd a) /\ fst a = b0 + (P t + k))
       (zrange (tb - 1) (Z.min (te - 1) (T - 1) + 1))) as (l & El & Hl).
  - intros t Hti. apply In_zrange in Hti. cbv zeta.
    assert (PS : P (t + 1) = P t + Zlen (nthl qs t)) by (apply off_S; lia). assert (Pt : P t <= N) by (apply off_mono; lia). assert (PS' : P (t + 1) <= N) by (apply off_mono; lia).
    assert (x < P (t + 1)) by (apply B3'; lia). assert (P t <= y) by (apply E2'; lia).
    assert (0 <= P t) by apply off_nonneg.
    pose proof (Zlen_nonneg (nthl qs t)).
    replace (Z.min (Zlen (nthl qs t)) (b0 + Z.min y N - b0 - P t) <? Z.max 0 (b0 + Z.min x N - b0 - P t)) with false by lia.
    destruct (mapM_each (fun k => v <- get (nthl qs t) k ;; Some (b0 + P t + k, v)) (zrange (Z.max 0 (b0 + Z.min x N - b0 - P t)) (Z.min (Zlen (nthl qs t)) (b0 + Z.min y N - b0 - P t)))) as (r & Er & Hr).
    { intros k Hk. apply In_zrange in Hk. destruct (@get_in_range _ (nthl qs t) k) as (v & ->); [lia|]. eauto. }
    exists r. split; auto. intros (q, v). rewrite Hr. cbn [fst snd]. split.
    + intros (k & Hk & E). apply In_zrange in Hk. destruct (get (nthl qs t) k) eqn:Ek; [|discriminate]. injection E as <- <-. exists k. repeat split; auto; lia.
    + intros (k & Hk & Hk2 & Ek & ->). exists k. split; [apply In_zrange; lia|]. rewrite Ek. f_equal. f_equal. lia.
  - cbv zeta in El. rewrite El. exists (concat l). split; auto. intros a. rewrite Hl. split.
    + intros (t & Hti & k & Hk & Hk2 & Ek & ->). apply In_zrange in Hti. exists (P t + k). split; auto. split; auto. unfold P. rewrite get_concat; auto. lia.
    + intros (p & Ep & Hp & Gp). pose proof (get_Some_bounds _ _ _ Gp) as Bp. rewrite <- (Zlen_concat_off qs T Hq) in Bp. change (0 <= p < N) in Bp.
      destruct (flat_locate (nthl qs) T p) as (t & k & Ht' & Hk & ->); [lia|exact Bp|]. fold P in Ep, Hp, Gp, Bp. exists t. split.
      * apply In_zrange. assert (PS : P (t + 1) = P t + Zlen (nthl qs t)) by (apply off_S; lia). split.
        { destruct (Z_lt_le_dec t (tb - 1)); [|lia]. specialize (B2' (t + 1) ltac:(lia)). lia. }
        { destruct (Z_lt_le_dec t te); [lia|]. specialize (E3' t ltac:(lia)). lia. }
      * exists k. unfold P in Gp at 1. rewrite get_concat in Gp by lia. auto.
Qed.
Lemma copy_ok : exists mv, mapM (copy_moves T b0 qs) (zrange 0 T) = Some mv /\
  forall sch w, 0 <= b0 -> b0 + N <= Zlen w -> exists w', par sch (fun a w => set w (fst a) (snd a)) mv w = Some w' /\ Zlen w' = Zlen w /\
    (forall p, 0 <= p < N -> get w' (b0 + p) = get (concat qs) p) /\ (forall p, p < b0 \/ b0 + N <= p -> get w' p = get w p).
Proof.
  destruct per_ok as (HN & Hper & HNT).
  destruct (mapM_members (copy_moves T b0 qs) (fun tid a => exists p, fst a = b0 + p /\ per * tid <= p < per * (tid + 1) /\ get (concat qs) p = Some (snd a)) (zrange 0 T)) as (mv & Emv & Hmv).
  { intros tid Ht. apply In_zrange in Ht. now apply copy_moves_ok. }
  exists mv. split; auto. intros sch w Hb Hw.
  assert (Hin : forall a, In a (merge sch mv) -> exists p, 0 <= p < N /\ fst a = b0 + p /\ get (concat qs) p = Some (snd a)).
  { intros a Ha. apply In_merge in Ha. rewrite <- in_concat in Ha. apply Hmv in Ha as (tid & _ & p & E & _ & Gp). exists p. split; auto. pose proof (get_Some_bounds _ _ _ Gp) as B. rewrite <- (Zlen_concat_off qs T Hq) in B. exact B. }
  unfold par. destruct (write_all (fun a w => set w (fst a) (snd a)) fst snd (merge sch mv) w) as (w' & E & L & W1 & W2).
  - auto. - intros a Ha. destruct (Hin a Ha) as (p & Hp & -> & _). lia.
  - intros a b Ha Hb' E. destruct (Hin a Ha) as (p & Hp & Ea & Ga), (Hin b Hb') as (p' & Hp' & Eb & Gb). assert (p = p') by lia. subst p'. congruence.
  - exists w'. split; auto. split; auto. split.
    + intros p Hp. destruct (@get_in_range _ (concat qs) p) as (v & Gv). { rewrite <- (Zlen_concat_off qs T Hq). exact Hp. }
      assert (Hpp : 0 < per) by nia. pose proof (Z.div_mod p per ltac:(lia)) as D. pose proof (Z.mod_pos_bound p per ltac:(lia)) as D2.
      rewrite Gv. apply (W1 (b0 + p, v)). apply In_merge. rewrite <- in_concat. apply Hmv. exists (p / per). split.
      * apply In_zrange. split; [apply Z.div_pos; lia|]. apply Z.div_lt_upper_bound; lia.
      * exists p. split; auto. split; [lia|]. exact Gv.
    + intros p Hp. apply W2. intros a Ha. destruct (Hin a Ha) as (p' & Hp' & -> & _). lia.
Qed.
End Copy.

(** Prefix sums. *)
Lemma psums_len l : forall a, Zlen (psums a l) = Zlen l + 1.
Proof. induction l as [|d l IH]; intros a; cbn [psums]; [reflexivity|]. rewrite Zlen_cons, IH, Zlen_cons. lia. Qed.
Lemma psums_0 l a : get (psums a l) 0 = Some a.
Proof. destruct l; cbn [psums]; apply get_cons_0. Qed.
Lemma psums_last l : forall a, get (psums a l) (Zlen l) = Some (a + zsum l).
Proof.
  induction l as [|d l IH]; intros a; cbn [psums]. { change (Zlen (@nil Z)) with 0. rewrite get_cons_0. f_equal. change (zsum []) with 0. lia. }
  rewrite Zlen_cons. pose proof (Zlen_nonneg l). rewrite get_cons_pos by lia. match goal with |- get _ ?i = _ => replace i with (Zlen l) by lia end. rewrite IH. f_equal. change (zsum (d :: l)) with (d + zsum l). lia.
Qed.
Lemma psums_ge l : (forall d, In d l -> 0 <= d) -> forall a v, In v (psums a l) -> a <= v.
Proof.
  induction l as [|d l IH]; intros H a v Hv; cbn [psums In] in Hv. { destruct Hv as [->|[]]; lia. }
  destruct Hv as [->|Hv]; [lia|]. apply IH in Hv; [|intros; apply H; cbn; auto]. specialize (H d (or_introl eq_refl)). lia.
Qed.
Lemma psums_mono l : (forall d, In d l -> 0 <= d) -> forall a, monotone (psums a l).
Proof.
  induction l as [|d l IH]; intros H a i j x y Hij Hx Hy.
  - pose proof (get_Some_bounds _ _ _ Hx) as B. pose proof (get_Some_bounds _ _ _ Hy) as B'. change (Zlen (psums a [])) with 1 in B, B'. assert (i = 0) by lia. assert (j = 0) by lia. subst. congruence || (rewrite Hx in Hy; injection Hy as ->; lia).
  - pose proof (get_Some_bounds _ _ _ Hx) as B. destruct (Z.eq_dec i 0) as [->|N].
    + rewrite psums_0 in Hx. injection Hx as <-. apply get_In in Hy. eapply psums_ge; [|exact Hy]. exact H.
    + cbn [psums] in Hx, Hy. rewrite get_cons_pos in Hx, Hy by lia. eapply (IH (fun z Hz => H z (or_intror Hz)) _ (i - 1) (j - 1)); eauto. lia.
Qed.
Lemma psums_mapM (f : Z -> option Z) q ds : mapM f q = Some ds -> Zlen ds = Zlen q.
Proof. intros E. unfold Zlen. now rewrite (mapM_length _ _ _ E). Qed.

Section Ranges.
Variables (G : gr) (T : Z) (qs : list (list Z)) (deg : Z -> Z).
Hypotheses (HT : 1 <= T) (Hq : Zlen qs = T).
Hypothesis Hd : forall i, In i (concat qs) -> degree G i = Some (deg i) /\ 0 <= deg i.
Let P := off (nthl qs).
Let N := P T.
Let wt t := zsum (map deg (nthl qs t)).
Let nnzp := psums 0 (map wt (zrange 0 T)).
Lemma In_nthl i t : 0 <= t < T -> In i (nthl qs t) -> In i (concat qs).
Proof. intros Ht Hi. apply in_concat. exists (nthl qs t). split; auto. eapply get_In, get_nthl. lia. Qed.
Lemma degs_ok t : 0 <= t < T -> mapM (degree G) (nthl qs t) = Some (map deg (nthl qs t)).
Proof. intros Ht. apply mapM_Some. intros i Hi. apply Hd. now apply In_nthl with t. Qed.
Lemma nnzPre_ok : nnzPre G T qs = Some nnzp.
Proof.
  unfold nnzPre. rewrite (mapM_Some _ wt). { reflexivity. }
  intros t Ht. apply In_zrange in Ht. rewrite degs_ok by lia. reflexivity.
Qed.
Lemma wt_nonneg t : 0 <= t < T -> 0 <= wt t.
Proof. intros Ht. apply zsum_map_nonneg. intros i Hi. apply Hd. now apply In_nthl with t. Qed.
Lemma nnzp_len : Zlen nnzp = T + 1.
Proof. unfold nnzp. rewrite psums_len, Zlen_map, Zlen_zrange; lia. Qed.
Lemma nnzp_mono : monotone nnzp.
Proof. apply psums_mono. intros d Hd'. apply in_map_iff in Hd' as (t & <- & Ht). apply In_zrange in Ht. apply wt_nonneg. lia. Qed.
Lemma psums_S l : forall a k v d, get (psums a l) k = Some v -> get l k = Some d -> get (psums a l) (k + 1) = Some (v + d).
Proof.
  induction l as [|c l IH]; intros a k v d Hv Hl. { apply get_Some_bounds in Hl. change (Zlen (@nil Z)) with 0 in Hl. lia. }
  pose proof (get_Some_bounds _ _ _ Hl) as B. cbn [psums] in *. rewrite (get_cons_pos _ _ (k + 1)) by lia. replace (k + 1 - 1) with k by lia.
  destruct (Z.eq_dec k 0) as [->|Nk].
  - rewrite get_cons_0 in Hv, Hl. injection Hv as ->. injection Hl as ->. apply psums_0.
  - rewrite get_cons_pos in Hv, Hl by lia. replace k with (k - 1 + 1) by lia. eapply IH; eauto.
Qed.
Lemma nnzp_S t v : 0 <= t < T -> get nnzp t = Some v -> get nnzp (t + 1) = Some (v + wt t).
Proof. intros Ht Hv. unfold nnzp in *. eapply psums_S; eauto. rewrite get_map, get_zrange by lia. reflexivity. Qed.

(** What the split point at nonzero [x] is. *)
Lemma split_cases x : 0 <= x -> exists t r, split_at G T qs nnzp x = Some r /\ upper_bound nnzp 0 (T + 1) x = Some (t + 1) /\ 0 <= t <= T /\
  (t = T -> r = N) /\
  (t < T -> exists v u, get nnzp t = Some v /\ upper_bound (psums 0 (map deg (nthl qs t))) 0 (Zlen (nthl qs t)) (x - v) = Some (u + 1) /\ 0 <= u < Zlen (nthl qs t) /\ r = P t + u).
Proof.
  intros Hx. unfold split_at. destruct (upper_bound_safe nnzp 0 (T + 1) x) as (tb & E & _); [lia|rewrite nnzp_len; lia|]. rewrite E.
  pose proof E as E'. apply upper_bound_spec in E' as (B1 & B2 & B3); [|lia|apply monotone_monotone_on, nnzp_mono].
  assert (Htb : 1 <= tb). { destruct (Z_lt_le_dec tb 1); [|lia]. specialize (B3 0 0 ltac:(lia) (psums_0 _ _)). lia. }
  exists (tb - 1). destruct (Z.eqb_spec (tb - 1) T) as [Et|Nt].
  - exists N. split; auto. split; [f_equal; lia|]. split; [lia|]. split; auto. lia.
  - unfold rowPtrs. rewrite degs_ok by lia. destruct (@get_in_range _ nnzp (tb - 1)) as (v & Gv); [rewrite nnzp_len; lia|]. rewrite Gv.
    assert (v <= x) by (eapply B2; eauto; lia). pose proof (nnzp_S (tb - 1) v ltac:(lia) Gv) as GS. replace (tb - 1 + 1) with tb in GS by lia.
    assert (Hw : x < v + wt (tb - 1)) by (eapply B3; eauto; lia).
    set (rp := psums 0 (map deg (nthl qs (tb - 1)))). assert (Lrp : Zlen rp = Zlen (nthl qs (tb - 1)) + 1) by (unfold rp; now rewrite psums_len, Zlen_map).
    destruct (upper_bound_safe rp 0 (Zlen (nthl qs (tb - 1))) (x - v)) as (u & Eu & _); [pose proof (Zlen_nonneg (nthl qs (tb - 1))); lia|lia|]. rewrite Eu.
    pose proof Eu as Eu'. apply upper_bound_spec in Eu' as (U1 & U2 & U3); [|apply Zlen_nonneg|].
    2: { apply monotone_monotone_on, psums_mono. intros d Hd'. apply in_map_iff in Hd' as (i & <- & Hi). apply Hd. eapply In_nthl; eauto. lia. }
    assert (Hlen : 0 < Zlen (nthl qs (tb - 1))).
    { pose proof (Zlen_nonneg (nthl qs (tb - 1))). destruct (Z.eq_dec (Zlen (nthl qs (tb - 1))) 0) as [E0|]; [|lia].
      unfold wt in Hw. destruct (nthl qs (tb - 1)); [cbn in Hw; lia|rewrite Zlen_cons in E0; pose proof (Zlen_nonneg l); lia]. }
    assert (1 <= u). { destruct (Z_lt_le_dec u 1); [|lia]. assert (u = 0) by lia. subst u. specialize (U3 0 0 ltac:(lia) (psums_0 _ _)). lia. }
    exists (u - 1 + P (tb - 1)). split; auto. split; [f_equal; lia|]. split; [lia|]. split; [lia|]. intros _. exists v, (u - 1). split; auto. split; [rewrite Eu; f_equal; lia|]. split; lia.
Qed.
Lemma split_mono x y r s : 0 <= x <= y -> split_at G T qs nnzp x = Some r -> split_at G T qs nnzp y = Some s -> 0 <= r <= s /\ s <= N.
Proof.
  intros Hxy Er Es. destruct (split_cases x ltac:(lia)) as (t & r' & E1 & U1 & Ht & A1 & A2). rewrite Er in E1. injection E1 as <-.
  destruct (split_cases y ltac:(lia)) as (t' & s' & E2 & U2 & Ht' & B1 & B2). rewrite Es in E2. injection E2 as <-.
  assert (Htt : t <= t'). { assert (t + 1 <= t' + 1); [|lia]. eapply (upper_bound_mono nnzp 0 (T + 1) x y); eauto; try lia; try (rewrite nnzp_len; lia). apply monotone_monotone_on, nnzp_mono. }
  assert (PS : forall t, 0 <= t -> P (t + 1) = P t + Zlen (nthl qs t)) by (intros; apply off_S; auto).
  assert (Hr : P t <= r /\ (t < T -> r < P (t + 1)) /\ 0 <= P t).
  { split; [|split; [|apply off_nonneg]]. - destruct (Z.eq_dec t T) as [->|]; [rewrite A1 by auto; apply Z.le_refl|]. destruct A2 as (v & u & _ & _ & Hu & ->); lia.
    - intros H. destruct A2 as (v & u & _ & _ & Hu & ->); [lia|]. rewrite PS by lia. lia. }
  assert (Hs : P t' <= s /\ s <= N).
  { destruct (Z.eq_dec t' T) as [->|]. - rewrite B1 by auto. split; apply Z.le_refl.
    - destruct B2 as (v & u & _ & _ & Hu & ->); [lia|]. split; [lia|]. assert (P (t' + 1) <= N) by (apply off_mono; lia). rewrite PS in H by lia. lia. }
  destruct (Z.eq_dec t t') as [->|Nt].
  - destruct (Z.eq_dec t' T) as [->|NT']; [rewrite A1, B1 by auto; split; [|lia]; split; [apply off_nonneg|lia]|].
    destruct A2 as (v & u & Gv & Uu & Hu & ->); [lia|]. destruct B2 as (v' & u' & Gv' & Uu' & Hu' & ->); [lia|]. rewrite Gv in Gv'. injection Gv' as <-.
    assert (u + 1 <= u' + 1); [|lia]. eapply (upper_bound_mono (psums 0 (map deg (nthl qs t'))) 0 (Zlen (nthl qs t')) (x - v) (y - v)); eauto.
    all: try lia. all: try (rewrite psums_len, Zlen_map; lia).
    apply monotone_monotone_on, psums_mono. intros d Hd'. apply in_map_iff in Hd' as (i & <- & Hi). apply Hd. eapply In_nthl; eauto. lia.
  - assert (P (t + 1) <= P t') by (apply off_mono; lia). destruct Hr as (Hr & Hr2 & Hr3). specialize (Hr2 ltac:(lia)). lia.
Qed.
Lemma trav_range_ok : exists B, B 0 = 0 /\ B T = N /\ (forall t, 0 <= t < T -> B t <= B (t + 1)) /\ (forall t, 0 <= t <= T -> 0 <= B t <= N) /\ forall tid, 0 <= tid < T -> trav_range G T qs nnzp tid = Some (B tid, B (tid + 1)).
Proof.
  set (W := zsum (map wt (zrange 0 T))). assert (GW : get nnzp T = Some W).
  { unfold nnzp. replace T with (Zlen (map wt (zrange 0 T))) at 2 by (rewrite Zlen_map, Zlen_zrange; lia). rewrite psums_last. reflexivity. }
  assert (HW : 0 <= W). { apply zsum_map_nonneg. intros t Ht. apply In_zrange in Ht. apply wt_nonneg. lia. }
  set (per := (W + T - 1) / T). assert (Hper : 0 <= per) by (apply Z.div_pos; lia).
  assert (HperT : W <= per * T). { unfold per. pose proof (Z.div_mod (W + T - 1) T ltac:(lia)). pose proof (Z.mod_pos_bound (W + T - 1) T ltac:(lia)). nia. }
  set (B := fun t => if t =? 0 then 0 else match split_at G T qs nnzp (per * t) with Some v => v | None => 0 end).
  assert (HB : forall t, 1 <= t <= T -> split_at G T qs nnzp (per * t) = Some (B t)).
  { intros t Ht. unfold B. replace (t =? 0) with false by lia. destruct (split_cases (per * t) ltac:(nia)) as (? & r & -> & _). reflexivity. }
  assert (B0 : B 0 = 0) by reflexivity.
  assert (BT : B T = N).
  { destruct (split_cases (per * T) ltac:(lia)) as (t & r & E & U & Ht & E1 & _). rewrite (HB T ltac:(lia)) in E. injection E as ->. apply E1.
    apply upper_bound_spec in U as (_ & _ & U3); [|lia|apply monotone_monotone_on, nnzp_mono].
    destruct (Z.eq_dec t T); auto. specialize (U3 T W ltac:(lia) GW). lia. }
  assert (Bm : forall t, 0 <= t < T -> B t <= B (t + 1)).
  { intros t Ht. destruct (Z.eq_dec t 0) as [->|].
    - rewrite B0. pose proof (split_mono (per * (0 + 1)) (per * (0 + 1)) _ _ ltac:(nia) (HB (0 + 1) ltac:(lia)) (HB (0 + 1) ltac:(lia))). lia.
    - eapply (split_mono (per * t) (per * (t + 1))); [nia| |]; apply HB; lia. }
  exists B. split; auto. split; auto. split; auto. split.
  - intros t Ht. destruct (Z.eq_dec t 0) as [->|]. { rewrite B0. split; [lia|apply off_nonneg]. }
    pose proof (split_mono (per * t) (per * t) _ _ ltac:(nia) (HB t ltac:(lia)) (HB t ltac:(lia))). lia.
  - intros tid Ht. unfold trav_range. rewrite GW. fold per. rewrite (HB (tid + 1)) by lia.
    destruct (Z.eqb_spec tid 0) as [->|]; [rewrite B0; reflexivity|]. rewrite HB by lia. reflexivity.
Qed.
End Ranges.
