(** * Facts about the steps of the task graph construction. *)
From Coq Require Import Permutation.
From Verif Require Import Base Interleave Spec Search Partition PrefixSum Flat Csr Transpose RowPar Exec Ilu Levels LevelsFacts LevelsMain Tasks LevelsCsr TaskGraph.

(** ** Load balancing *)
Lemma even_0 nt T : 0 <= nt -> even nt T 0 = 0.
Proof. unfold even. lia. Qed.
Lemma even_T nt T : 0 <= nt -> 1 <= T -> even nt T T = nt.
Proof. intros Hn HT. unfold even. pose proof (Z.div_mod (nt + T - 1) T ltac:(lia)). pose proof (Z.mod_pos_bound (nt + T - 1) T ltac:(lia)). lia. Qed.
Lemma even_mono nt T t t' : 0 <= nt -> 1 <= T -> 0 <= t <= t' -> even nt T t <= even nt T t'.
Proof. intros Hn HT Ht. unfold even. assert (0 <= (nt + T - 1) / T) by (apply Z.div_pos; lia). nia. Qed.
Lemma even_le nt T t : even nt T t <= nt.
Proof. unfold even. lia. Qed.

Section Rebalance.
Variables (nt T npt : Z) (w : Z -> Z) (sums rp : list Z) (start : Z -> option Z).
Hypotheses (HT : 1 <= T) (Hn : 0 <= npt) (Hnt : 0 <= nt).
Hypothesis Hw0 : 0 <= w 0.
Hypothesis Hw : forall t, 0 <= t < T -> w t <= w (t + 1).
Hypothesis HwT : w T <= nt.
Hypothesis Hs : Zlen sums = T + 1.
Hypothesis Hs0 : get sums 0 = Some 0.
Hypothesis Hsm : monotone sums.
Hypothesis Hrp : w T <= Zlen rp.
Hypothesis Hrm : forall b, 0 <= b < T -> monotone_on rp (w b) (w (b + 1)).
Hypothesis Hst : forall b, 0 <= b < T -> exists a, start b = Some a.
Lemma w_mono a b : 0 <= a <= b -> b <= T -> w a <= w b.
Proof.
  intros Ha. pose (d := b - a). replace b with (a + d) by (unfold d; lia). assert (Hd : 0 <= d) by (unfold d; lia). clearbody d. revert d Hd. apply (Z_ind0 (fun d => a + d <= T -> w a <= w (a + d))).
  - intros _. rewrite Z.add_0_r. lia.
  - intros d Hd IH H. specialize (Hw (a + d) ltac:(lia)). rewrite Z.add_assoc. specialize (IH ltac:(lia)). lia.
Qed.
Let bnd t := if t =? T - 1 then Some nt
        else u <- upper_bound sums 0 (T - 1) (npt * (t + 1)) ;; let bt := u - 1 in
             s <- get sums bt ;; a <- start bt ;;
             x <- upper_bound rp (w bt) (w (bt + 1)) (npt * (t + 1) - s + a) ;; Some (Z.max 0 (x - 1)).
Lemma bnd_ok t : 0 <= t < T - 1 -> exists u s a x, upper_bound sums 0 (T - 1) (npt * (t + 1)) = Some u /\ 1 <= u <= T - 1 /\ get sums (u - 1) = Some s /\ start (u - 1) = Some a /\
   upper_bound rp (w (u - 1)) (w u) (npt * (t + 1) - s + a) = Some x /\ w (u - 1) <= x <= w u /\ bnd t = Some (Z.max 0 (x - 1)).
Proof.
  intros Ht. destruct (upper_bound_safe sums 0 (T - 1) (npt * (t + 1))) as (u & Eu & Bu); [lia|lia|].
  destruct (upper_bound_spec _ _ _ _ _ Eu ltac:(lia) (monotone_monotone_on _ _ _ Hsm)) as (_ & _ & U).
  assert (1 <= u). { destruct (Z_lt_ge_dec 0 u); [lia|]. specialize (U 0 0 ltac:(lia) Hs0). nia. }
  destruct (@get_in_range _ sums (u - 1)) as (s & Gs); [lia|]. destruct (Hst (u - 1)) as (a & Ga); [lia|].
  destruct (upper_bound_safe rp (w (u - 1)) (w u) (npt * (t + 1) - s + a)) as (x & Ex & Bx).
  { pose proof (w_mono 0 (u - 1) ltac:(lia) ltac:(lia)). pose proof (w_mono (u - 1) u ltac:(lia) ltac:(lia)). lia. }
  { pose proof (w_mono u T ltac:(lia) ltac:(lia)). lia. }
  exists u, s, a, x. repeat split; auto; try lia. unfold bnd. replace (t =? T - 1) with false by lia. rewrite Eu. cbv zeta. rewrite Gs, Ga. replace (u - 1 + 1) with u by lia. now rewrite Ex.
Qed.
Lemma bnd_range t : 0 <= t < T -> exists v, bnd t = Some v /\ 0 <= v <= nt.
Proof.
  intros Ht. destruct (Z.eq_dec t (T - 1)) as [->|N].
  - exists nt. split; [|lia]. unfold bnd. now rewrite Z.eqb_refl.
  - destruct (bnd_ok t ltac:(lia)) as (u & s & a & x & _ & Bu & _ & _ & _ & Bx & E). exists (Z.max 0 (x - 1)). split; auto. pose proof (w_mono u T ltac:(lia) ltac:(lia)). lia.
Qed.
Lemma bnd_mono t t' v v' : 0 <= t <= t' -> t' < T -> bnd t = Some v -> bnd t' = Some v' -> v <= v'.
Proof.
  intros Ht Ht' E E'. destruct (Z.eq_dec t' (T - 1)) as [->|N'].
  - unfold bnd in E'. rewrite Z.eqb_refl in E'. injection E' as <-. destruct (bnd_range t ltac:(lia)) as (v0 & E0 & B). rewrite E in E0. injection E0 as <-. lia.
  - destruct (bnd_ok t ltac:(lia)) as (u & s & a & x & Eu & Bu & Gs & Ga & Ex & Bx & E1). destruct (bnd_ok t' ltac:(lia)) as (u' & s' & a' & x' & Eu' & Bu' & Gs' & Ga' & Ex' & Bx' & E1').
    rewrite E in E1. injection E1 as ->. rewrite E' in E1'. injection E1' as ->.
    assert (u <= u') by (eapply (upper_bound_mono sums 0 (T - 1) (npt * (t + 1)) (npt * (t' + 1))); eauto using monotone_monotone_on; try lia; nia).
    destruct (Z.eq_dec u u') as [<-|Nu].
    + assert (s = s') by congruence. assert (a = a') by congruence. subst s' a'.
      assert (x <= x'); [|lia]. pose proof (w_mono 0 (u - 1) ltac:(lia) ltac:(lia)). pose proof (w_mono (u - 1) u ltac:(lia) ltac:(lia)). pose proof (w_mono u T ltac:(lia) ltac:(lia)).
      eapply (upper_bound_mono rp (w (u - 1)) (w u)); eauto; try lia; try nia. pose proof (Hrm (u - 1) ltac:(lia)) as Hr. now replace (u - 1 + 1) with u in Hr by lia.
    + pose proof (w_mono u (u' - 1) ltac:(lia) ltac:(lia)). lia.
Qed.
Theorem rebalance_ok : exists vb, rebalance nt T npt w sums rp start = Some vb /\ bounds T nt vb.
Proof.
  unfold rebalance. fold bnd. set (f := fun t => match bnd t with Some v => v | None => 0 end).
  rewrite (mapM_Some _ f). 2: { intros t Ht. apply In_zrange in Ht. destruct (bnd_range t Ht) as (v & E & _). unfold f. now rewrite E. }
  exists (0 :: map f (zrange 0 T)). split; auto.
  assert (G : forall t, 0 <= t < T -> get (0 :: map f (zrange 0 T)) (t + 1) = Some (f t)).
  { intros t Ht. rewrite get_cons_pos by lia. replace (t + 1 - 1) with t by lia. rewrite get_map, get_zrange by lia. reflexivity. }
  assert (F : forall t, 0 <= t < T -> bnd t = Some (f t) /\ 0 <= f t <= nt). { intros t Ht. destruct (bnd_range t Ht) as (v & E & B). unfold f. rewrite E. auto. }
  split. { rewrite Zlen_cons, Zlen_map, Zlen_zrange. lia. } split; [reflexivity|]. split.
  { replace T with (T - 1 + 1) at 2 by lia. rewrite G by lia. f_equal. destruct (F (T - 1)) as (E & _); [lia|]. unfold bnd in E. rewrite Z.eqb_refl in E. congruence. }
  intros i j a b Hij Ha Hb. pose proof (get_Some_bounds _ _ _ Hb) as Bj. pose proof (get_Some_bounds _ _ _ Ha) as Bi. rewrite Zlen_cons, Zlen_map, Zlen_zrange in Bj.
  destruct (Z.eq_dec j 0) as [->|Nj]. { assert (i = 0) as -> by lia. rewrite Ha in Hb. injection Hb as ->. lia. }
  replace j with (j - 1 + 1) in Hb by lia. rewrite G in Hb by lia. injection Hb as <-.
  destruct (Z.eq_dec i 0) as [->|Ni]. { rewrite get_cons_0 in Ha. injection Ha as <-. apply F. lia. }
  replace i with (i - 1 + 1) in Ha by lia. rewrite G in Ha by lia. injection Ha as <-. eapply (bnd_mono (i - 1) (j - 1)); try lia; apply F; lia.
Qed.
End Rebalance.

(** [presums] within one division, joined. *)
Lemma presums_len a l : Zlen (presums a l) = Zlen l.
Proof. unfold presums. destruct (psums a l) as [|x r] eqn:E. { pose proof (psums_len l a) as H. rewrite E in H. change (Zlen (@nil Z)) with 0 in H. pose proof (Zlen_nonneg l). lia. }
  pose proof (psums_len l a) as H. rewrite E in H. rewrite (app_removelast_last 0) in H by discriminate. rewrite Zlen_app in H. change (Zlen [_]) with 1 in H. lia. Qed.
Lemma presums_get a l k : 0 <= k < Zlen l -> get (presums a l) k = get (psums a l) k.
Proof.
  intros Hk. unfold presums. destruct (psums a l) as [|x r] eqn:E. { reflexivity. }
  assert (N : x :: r <> []) by discriminate. rewrite (app_removelast_last 0 N) at 2. rewrite get_app_l; auto. pose proof (presums_len a l) as H. unfold presums in H. rewrite E in H. lia.
Qed.
Lemma presums_mono a l : (forall x, In x l -> 0 <= x) -> monotone (presums a l).
Proof.
  intros H i j x y Hij Gi Gj. pose proof (get_Some_bounds _ _ _ Gi) as Bi. pose proof (get_Some_bounds _ _ _ Gj) as Bj. rewrite presums_len in Bi, Bj.
  rewrite presums_get in Gi, Gj by lia. eapply psums_mono; eauto.
Qed.
Lemma concat_presums_mono (f : Z -> list Z) (st : Z -> Z) n b : 0 <= b < n -> (forall t x, In x (f t) -> 0 <= x) ->
  monotone_on (concat (map (fun t => presums (st t) (f t)) (zrange 0 n))) (off f b) (off f (b + 1)).
Proof.
  intros Hb Hp i j x y Hi Hj Gi Gj. set (g := fun t => presums (st t) (f t)) in *. rewrite off_S in Hj by lia.
  assert (O : off f b = off g b) by (apply before_ext; intros k _; unfold g; now rewrite presums_len).
  assert (E : forall i, off f b <= i < off f b + Zlen (f b) -> get (concat (map g (zrange 0 n))) i = get (g b) (i - off f b)).
  { intros k Hk. pose proof (get_flat g n b (k - off f b)) as F. rewrite <- O in F. replace (off f b + (k - off f b)) with k in F by lia. apply F; auto. unfold g. rewrite presums_len. lia. }
  rewrite E in Gi, Gj by lia. eapply (presums_mono (st b) (f b) (Hp b)); eauto. lia.
Qed.
Lemma psums_mono' l a : (forall x, In x l -> 0 <= x) -> monotone (psums a l).
Proof. intros H. apply psums_mono; auto. Qed.
Lemma off_slices (l : list Z) (w : Z -> Z) n t : 0 <= t <= n -> w 0 = 0 -> (forall t, 0 <= t < n -> w t <= w (t + 1)) -> w n <= Zlen l -> off (fun t => slice l (w t) (w (t + 1))) t = w t.
Proof.
  intros Ht W0 W HL. destruct Ht as (H0 & Hn). revert t H0 Hn.
  assert (M : forall b, 0 <= b -> forall a, 0 <= a <= b -> b <= n -> w a <= w b).
  { apply (Z_ind0 (fun b => forall a, 0 <= a <= b -> b <= n -> w a <= w b)). { intros a Ha _. assert (a = 0) as -> by lia. lia. } intros b Hb IH a Ha Hbn. destruct (Z.eq_dec a (b + 1)) as [->|N]; [lia|]. specialize (IH a ltac:(lia) ltac:(lia)). specialize (W b ltac:(lia)). lia. }
  apply (Z_ind0 (fun t => t <= n -> off (fun t => slice l (w t) (w (t + 1))) t = w t)). { intros _. now rewrite off_0. }
  intros t Ht IH Hn. rewrite off_S, IH by lia. pose proof (W t ltac:(lia)). pose proof (M (t + 1) ltac:(lia) 0 ltac:(lia) ltac:(lia)). pose proof (M t ltac:(lia) 0 ltac:(lia) ltac:(lia)). pose proof (M n ltac:(lia) (t + 1) ltac:(lia) ltac:(lia)).
  rewrite Zlen_slice by lia. lia.
Qed.
Lemma In_slice {A} (l : list A) b e x : In x (slice l b e) -> In x l.
Proof. intros H. apply In_get in H as (i & Hi & Gi). unfold slice in Gi. assert (H : In x (firstn (Z.to_nat (e - b)) (skipn (Z.to_nat b) l))) by (eapply get_In; eauto). rewrite <- (firstn_skipn (Z.to_nat b) l). apply in_or_app. right. rewrite <- (firstn_skipn (Z.to_nat (e - b)) (skipn (Z.to_nat b) l)). apply in_or_app. now left. Qed.
Lemma zsum_nonneg' l : (forall x, In x l -> 0 <= x) -> 0 <= zsum l.
Proof. induction l as [|a l IH]; intros H; [unfold zsum; cbn; lia|]. change (zsum (a :: l)) with (a + zsum l). specialize (H a (or_introl eq_refl)) as Ha. assert (0 <= zsum l) by (apply IH; intros; apply H; cbn; auto). lia. Qed.

Theorem boundaries1_ok nnz m T nt sizes : 1 <= T -> Zlen sizes = nt -> (forall x, In x sizes -> 0 <= x) -> m <= nnz ->
  exists vb, boundaries1 nnz m T nt sizes = Some vb /\ bounds T nt vb.
Proof.
  intros HT Hl Hp Hnm. pose proof (Zlen_nonneg sizes) as Hnt. rewrite Hl in Hnt. unfold boundaries1.
  set (part := fun t => slice sizes (even nt T t) (even nt T (t + 1))).
  assert (HP : forall t x, In x (part t) -> 0 <= x) by (intros t x Hx; apply Hp; eapply In_slice; eauto).
  assert (HO : forall t, 0 <= t <= T -> off part t = even nt T t).
  { intros t Ht. apply (off_slices sizes (even nt T) T t Ht); rewrite ?even_0, ?even_T by lia; auto; [|lia]. intros k Hk. apply even_mono; lia. }
  apply rebalance_ok; auto; rewrite ?even_0, ?even_T by lia; try lia.
  - intros t Ht. apply even_mono; lia.
  - rewrite psums_len, Zlen_map, Zlen_zrange. lia.
  - apply psums_0.
  - apply psums_mono'. intros d Hd. apply in_map_iff in Hd as (t & <- & _). apply zsum_nonneg'. apply (HP t).
  - rewrite <- (Zlen_concat_off _ _ eq_refl), Zlen_map, Zlen_zrange. replace (Z.max 0 (T - 0)) with T by lia.
    transitivity (off part T). { rewrite HO, even_T by lia. lia. } apply Z.eq_le_incl. apply before_ext. intros k Hk. rewrite nthl_map_zrange by lia. now rewrite presums_len.
  - intros b Hb. rewrite <- !HO by lia. apply (concat_presums_mono part (fun _ => 0)); auto.
  - eauto.
Qed.

Lemma bounds_zget n k b : bounds n k b -> 0 <= n -> (forall t, 0 <= t <= n -> get b t = Some (zget b t)) /\ zget b 0 = 0 /\ zget b n = k /\ forall t t', 0 <= t <= t' -> t' <= n -> zget b t <= zget b t'.
Proof.
  intros (L & G0 & Gn & M) Hn. assert (G : forall t, 0 <= t <= n -> get b t = Some (zget b t)) by (intros; apply zget_ok; lia). split; auto. unfold zget at 1 2. rewrite G0, Gn. split; auto. split; auto.
  intros t t' Ht Ht'. apply (M t t'); [lia| |]; apply G; lia.
Qed.
Theorem boundaries2_ok T nt sizes adjs vb : 1 <= T -> Zlen sizes = nt -> Zlen adjs = nt -> (forall x, In x sizes -> 0 <= x) -> bounds T nt vb ->
  exists vb2, boundaries2 T nt sizes adjs vb = Some vb2 /\ bounds T nt vb2.
Proof.
  intros HT Hl Hla Hp HB. pose proof (Zlen_nonneg sizes) as Hnt. rewrite Hl in Hnt. destruct (bounds_zget _ _ _ HB ltac:(lia)) as (G & W0 & WT & WM). unfold boundaries2.
  set (lens := map (fun l => Zlen l) adjs). assert (Ll : Zlen lens = nt) by (unfold lens; now rewrite Zlen_map).
  assert (Hpl : forall x, In x lens -> 0 <= x). { intros x Hx. apply in_map_iff in Hx as (l & <- & _). apply Zlen_nonneg. }
  set (part := fun t => slice lens (zget vb t) (zget vb (t + 1))). set (w := fun t => zget vb t).
  assert (HP : forall t x, In x (part t) -> 0 <= x) by (intros t x Hx; apply Hpl; eapply In_slice; eauto).
  assert (HO : forall t, 0 <= t <= T -> off part t = zget vb t).
  { intros t Ht. apply (off_slices lens (fun t => zget vb t) T t Ht); auto; [|lia]. intros k Hk. apply WM; lia. }
  apply rebalance_ok; auto; unfold w; rewrite ?W0, ?WT; try lia.
  - pose proof (zsum_nonneg' lens Hpl). apply Z.div_pos; lia.
  - intros t Ht. apply WM; lia.
  - rewrite psums_len, Zlen_map, Zlen_zrange. lia.
  - apply psums_0.
  - apply psums_mono'. intros d Hd. apply in_map_iff in Hd as (t & <- & _). apply zsum_nonneg'. apply (HP t).
  - rewrite <- (Zlen_concat_off _ _ eq_refl), Zlen_map, Zlen_zrange. replace (Z.max 0 (T - 0)) with T by lia.
    transitivity (off part T). { rewrite HO by lia. lia. } apply Z.eq_le_incl. apply before_ext. intros k Hk. rewrite nthl_map_zrange by lia. now rewrite presums_len.
  - intros b Hb. rewrite <- !HO by lia. apply (concat_presums_mono part); auto.
  - intros b Hb. apply get_in_range. rewrite psums_len, Zlen_map, Zlen_zrange. lia.
Qed.

(** ** The owners of tasks *)
Definition owner (thb : list Z) (T v : Z) : Z := zfind (fun t => (zget thb t <=? v) && (v <? zget thb (t + 1))) T.
Section Owner.
Variables (T nt : Z) (thb : list Z).
Hypothesis HT : 1 <= T.
Hypothesis HB : bounds T nt thb.
Let o t := zget thb t.
Lemma owner_exists v : 0 <= v < nt -> exists t, 0 <= t < T /\ o t <= v < o (t + 1).
Proof.
  intros Hv. destruct (bounds_zget _ _ _ HB ltac:(lia)) as (G & W0 & WT & WM). fold (o 0) in W0. fold (o T) in WT.
  assert (H : forall n, 0 <= n -> n <= T -> v < o n -> exists t, 0 <= t < n /\ o t <= v < o (t + 1)).
  { apply (Z_ind0 (fun n => n <= T -> v < o n -> exists t, 0 <= t < n /\ o t <= v < o (t + 1))). { intros _ H. lia. } intros n Hn IH HnT H. destruct (Z_lt_ge_dec v (o n)) as [L|L].
    - destruct (IH ltac:(lia) L) as (t & A & B). exists t. split; [lia|auto].
    - exists n. split; [lia|lia]. }
  apply H; lia.
Qed.
Lemma owner_ok v : 0 <= v < nt -> 0 <= owner thb T v < T /\ o (owner thb T v) <= v < o (owner thb T v + 1).
Proof. intros Hv. destruct (owner_exists v Hv) as (t & Ht & B). unfold owner. destruct (zfind_ok (fun t => (o t <=? v) && (v <? o (t + 1))) T t Ht) as (A & C); [lia|]. split; auto. unfold o in *. lia. Qed.
Lemma owner_unique v t : 0 <= t < T -> o t <= v < o (t + 1) -> owner thb T v = t.
Proof.
  intros Ht Hv. destruct (bounds_zget _ _ _ HB ltac:(lia)) as (G & W0 & WT & WM). fold (o 0) in W0. fold (o T) in WT.
  assert (0 <= v < nt). { pose proof (WM 0 t ltac:(lia) ltac:(lia)). pose proof (WM (t + 1) T ltac:(lia) ltac:(lia)). unfold o in *. lia. }
  destruct (owner_ok v) as (A & B); auto. destruct (Z.lt_trichotomy (owner thb T v) t) as [L|[E|L]]; auto; exfalso.
  - pose proof (WM (owner thb T v + 1) t ltac:(lia) ltac:(lia)). unfold o in *. lia.
  - pose proof (WM (t + 1) (owner thb T v) ltac:(lia) ltac:(lia)). unfold o in *. lia.
Qed.
Theorem owned_ok vb ve : 0 <= vb <= ve -> ve <= nt -> owned thb T vb ve = Some (map (fun v => (owner thb T v, v)) (zrange vb ve)).
Proof.
  intros Hv He. destruct (bounds_zget _ _ _ HB ltac:(lia)) as (G & W0 & WT & WM). destruct HB as (L & _ & _ & M). unfold owned. rewrite L.
  destruct (upper_bound_safe thb 0 (T + 1) vb) as (a & Ea & Ba); [lia|lia|]. destruct (upper_bound_safe thb 0 (T + 1) ve) as (b & Eb & Bb); [lia|lia|]. rewrite Ea, Eb.
  destruct (upper_bound_spec _ _ _ _ _ Ea ltac:(lia) (monotone_monotone_on _ _ _ M)) as (_ & A1 & A2).
  destruct (upper_bound_spec _ _ _ _ _ Eb ltac:(lia) (monotone_monotone_on _ _ _ M)) as (_ & B1 & B2).
  assert (1 <= a). { destruct (Z_lt_ge_dec 0 a); [lia|]. specialize (A2 0 (o 0) ltac:(lia) (G 0 ltac:(lia))). unfold o in *. lia. }
  assert (a <= b) by (eapply (upper_bound_mono thb 0 (T + 1) vb ve); eauto using monotone_monotone_on; lia).
  set (hi := Z.min (b - 1) (T - 1) + 1).
  rewrite (mapM_Some _ (fun t => map (fun v => (owner thb T v, v)) (zrange (Z.max (o t) vb) (Z.min (o (t + 1)) ve)))).
  2: { intros t Ht. apply In_zrange in Ht. unfold hi in Ht. rewrite !G by lia. f_equal. apply map_ext_in. intros v Hvv. apply In_zrange in Hvv. f_equal. symmetry. apply owner_unique; unfold o in *; lia. }
  f_equal. set (c := fun t => Z.max vb (Z.min ve (o t))).
  assert (Ho : forall t, 0 <= t < T -> o t <= o (t + 1)) by (intros t Ht; apply WM; lia).
  assert (Ec : forall t, 0 <= t < T -> zrange (Z.max (o t) vb) (Z.min (o (t + 1)) ve) = zrange (c t) (c (t + 1))).
  { intros t Ht. specialize (Ho t Ht). unfold c. destruct (Z_lt_ge_dec (Z.max (o t) vb) (Z.min (o (t + 1)) ve)). { f_equal; lia. } rewrite !zrange_nil by lia. reflexivity. }
  assert (Ca : c (a - 1) = vb). { unfold c. specialize (A1 (a - 1) (o (a - 1)) ltac:(lia) (G (a - 1) ltac:(lia))). lia. }
  destruct (Z_le_gt_dec (a - 1) hi) as [Hle|Hgt].
  - assert (Ch : c hi = ve). { unfold c. destruct (Z_le_gt_dec T b) as [HbT|HbT].
      - replace hi with T by (unfold hi; lia). unfold o. rewrite WT. lia.
      - replace hi with b by (unfold hi; lia). specialize (B2 b (o b) ltac:(lia) (G b ltac:(lia))). lia. }
    replace (zrange vb ve) with (zrange (c (a - 1)) (c hi)) by (now rewrite Ca, Ch). clear Ch.
    assert (Hd : forall d, 0 <= d -> a - 1 + d <= hi -> c (a - 1) <= c (a - 1 + d) /\ concat (map (fun t => map (fun v => (owner thb T v, v)) (zrange (Z.max (o t) vb) (Z.min (o (t + 1)) ve))) (zrange (a - 1) (a - 1 + d))) = map (fun v => (owner thb T v, v)) (zrange (c (a - 1)) (c (a - 1 + d)))).
    { apply (Z_ind0 (fun d => a - 1 + d <= hi -> c (a - 1) <= c (a - 1 + d) /\ concat (map (fun t => map (fun v => (owner thb T v, v)) (zrange (Z.max (o t) vb) (Z.min (o (t + 1)) ve))) (zrange (a - 1) (a - 1 + d))) = map (fun v => (owner thb T v, v)) (zrange (c (a - 1)) (c (a - 1 + d))))).
      { intros _. rewrite Z.add_0_r. split; [lia|]. rewrite !zrange_nil by lia. reflexivity. }
      intros d Hd IH Hdh. destruct (IH ltac:(lia)) as (IH1 & IH2). assert (Ht : 0 <= a - 1 + d < T) by (unfold hi in Hdh; lia). specialize (Ho (a - 1 + d) Ht).
      assert (Hc : c (a - 1 + d) <= c (a - 1 + d + 1)) by (unfold c; lia).
      rewrite Z.add_assoc. split; [lia|]. rewrite (zrange_snoc (a - 1)) by lia. rewrite map_app, concat_app, IH2. cbn [map concat]. rewrite app_nil_r, Ec by lia. rewrite <- map_app. f_equal. symmetry. apply zrange_app; lia. }
    destruct (Hd (hi - (a - 1)) ltac:(lia) ltac:(lia)) as (_ & Hd2). now replace (a - 1 + (hi - (a - 1))) with hi in Hd2 by lia.
  - rewrite (zrange_nil (a - 1)) by lia. rewrite (zrange_nil vb); [reflexivity|]. assert (a = T + 1) by (unfold hi in Hgt; lia). specialize (A1 T (o T) ltac:(lia) (G T ltac:(lia))). unfold o in *. lia.
Qed.
Theorem owned_by_ok vb t : bounds T nt vb -> 0 <= t < T -> owned_by thb T vb t = Some (map (fun v => (owner thb T v, v)) (zrange (zget vb t) (zget vb (t + 1)))).
Proof.
  intros HV Ht. destruct (bounds_zget _ _ _ HV ltac:(lia)) as (G & W0 & WT & WM). unfold owned_by. rewrite !G by lia. apply owned_ok.
  - pose proof (WM 0 t ltac:(lia) ltac:(lia)). pose proof (WM t (t + 1) ltac:(lia) ltac:(lia)). lia.
  - pose proof (WM (t + 1) T ltac:(lia) ltac:(lia)). lia.
Qed.
Lemma ranges_concat vb : bounds T nt vb -> concat (map (fun t => zrange (zget vb t) (zget vb (t + 1))) (zrange 0 T)) = zrange 0 nt.
Proof.
  intros HV. destruct (bounds_zget _ _ _ HV ltac:(lia)) as (G & W0 & WT & WM). rewrite (concat_zrange_tiling (fun t => zget vb t)); [|lia|intros; apply WM; lia]. now rewrite W0, WT.
Qed.
End Owner.
