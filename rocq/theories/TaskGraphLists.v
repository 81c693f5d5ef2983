(** * Lemmas about the list operations of the task graph construction. *)
From Coq Require Import Permutation.
From Verif Require Import Base Interleave Spec Search Partition PrefixSum Flat Csr Transpose RowPar Exec Levels LevelsFacts LevelsMain Tasks LevelsCsr TaskGraph TaskGraphFacts.

(** ** Sorted lists as filters *)
Lemma filter_zrange_mono p a b : monotone (filter p (zrange a b)).
Proof.
  destruct (Z_lt_ge_dec a b) as [L|L]; [|rewrite zrange_nil by lia; intros i j x y _ H; unfold get in H; destruct (i <? 0); [discriminate|]; cbn in H; destruct (Z.to_nat i); discriminate].
  assert (H : forall n, 0 <= n -> monotone (filter p (zrange (b - n) b))).
  { apply Z_ind0. { rewrite zrange_nil by lia. cbn [filter]. apply Sorted_mono. exact I. }
    intros n Hn IH. rewrite zrange_cons by lia. replace (b - (n + 1) + 1) with (b - n) by lia. cbn [filter]. destruct (p (b - (n + 1))); auto. apply Sorted_mono. split; auto.
    intros y Hy. apply filter_In in Hy as (Hy & _). apply In_zrange in Hy. lia. }
  replace a with (b - (b - a)) by lia. apply H. lia.
Qed.
Lemma filter_zrange_NoDup p a b : NoDup (filter p (zrange a b)).
Proof. apply NoDup_filter, NoDup_zrange. Qed.
Lemma sorted_filter n p l : monotone l -> NoDup l -> (forall i, In i l <-> 0 <= i < n /\ p i = true) -> l = filter p (zrange 0 n).
Proof.
  intros M N H. apply mono_unique; auto. { apply filter_zrange_mono. }
  apply NoDup_Permutation; auto. { apply filter_zrange_NoDup. } intros i. rewrite H, filter_In, In_zrange. tauto.
Qed.

Lemma dedup_In old l x : monotone l -> (forall y, In y l -> old <= y) -> (In x (dedup old l) <-> In x l /\ x <> old).
Proof.
  revert old. induction l as [|v r IH]; intros old M H; cbn [dedup In]; [tauto|]. apply Sorted_mono in M as (M1 & M2).
  destruct (v =? old) eqn:E.
  - rewrite IH; auto. 2: { intros y Hy. apply H. now right. } split; [tauto|]. intros ([->|Hx] & N); [lia|tauto].
  - cbn [In]. rewrite IH; auto. pose proof (H v (or_introl eq_refl)). split.
    + intros [->|(A & B)]; [split; [auto|lia]|]. specialize (M1 x A). split; [auto|lia].
    + intros ([->|A] & B); auto. destruct (Z.eq_dec x v); auto.
Qed.
Lemma dedup_sorted old l : monotone l -> (forall y, In y l -> old <= y) -> monotone (dedup old l) /\ NoDup (dedup old l).
Proof.
  revert old. induction l as [|v r IH]; intros old M H; cbn [dedup]. { split; [apply Sorted_mono; exact I|constructor]. }
  apply Sorted_mono in M as (M1 & M2). destruct (v =? old) eqn:E. { apply IH; auto. intros y Hy. apply H. now right. }
  destruct (IH v M2 M1) as (A & B). split.
  - apply Sorted_mono. split; auto. intros y Hy. apply dedup_In in Hy as (Hy & _); auto.
  - constructor; auto. intros Hv. apply dedup_In in Hv as (_ & Hv); auto.
Qed.
Definition memb (x : Z) (l : list Z) : bool := existsb (Z.eqb x) l.
Lemma memb_In x l : memb x l = true <-> In x l.
Proof. unfold memb. rewrite existsb_exists. split; [intros (y & Hy & E)|intros H; exists x; split; auto; lia]. replace x with y by lia. auto. Qed.
Lemma dedup_zsort n l : (forall x, In x l -> 0 <= x < n) -> dedup (-1) (zsort l) = filter (fun x => memb x l) (zrange 0 n).
Proof.
  intros H. assert (Hs : forall y, In y (zsort l) <-> In y l). { intros y. split; apply Permutation_in; [|apply Permutation_sym]; apply zsort_perm. }
  assert (Hb : forall y, In y (zsort l) -> -1 <= y). { intros y Hy. apply Hs in Hy. apply H in Hy. lia. }
  destruct (dedup_sorted (-1) (zsort l)) as (A & B); auto using zsort_mono. apply sorted_filter; auto.
  intros i. rewrite dedup_In, Hs, memb_In; auto using zsort_mono. split; [intros (C & _); auto|intros (C & D); split; auto; lia].
Qed.
Lemma zsort_filter n p l : NoDup l -> (forall i, In i l <-> 0 <= i < n /\ p i = true) -> zsort l = filter p (zrange 0 n).
Proof. apply zsort_level. Qed.

Lemma dedup_len old l : Zlen (dedup old l) <= Zlen l.
Proof. revert old. induction l as [|v r IH]; intros old; cbn [dedup]; [lia|]. destruct (v =? old); rewrite ?Zlen_cons; [specialize (IH old)|specialize (IH v)]; rewrite ?Zlen_cons; lia. Qed.
Lemma Zlen_perm {A} (l l' : list A) : Permutation l l' -> Zlen l = Zlen l'.
Proof. intros P. unfold Zlen. now rewrite (Permutation_length P). Qed.
Lemma Zlen_filter_le {A} (p : A -> bool) l : Zlen (filter p l) <= Zlen l.
Proof. induction l as [|x l IH]; cbn [filter]; [lia|]. destruct (p x); rewrite ?Zlen_cons; lia. Qed.

(** ** Common elements of sorted lists *)
Lemma common_ok fuel l1 l2 : monotone l1 -> monotone l2 -> (length l1 + length l2 <= fuel)%nat -> (common fuel l1 l2 = true <-> exists x, In x l1 /\ In x l2).
Proof.
  revert l1 l2. induction fuel as [|fuel IH]; intros l1 l2 M1 M2 L; cbn [common].
  { destruct l1; [|cbn in L; lia]. split; [discriminate|]. intros (x & [] & _). }
  destruct l1 as [|x r1]. { split; [discriminate|]. intros (? & [] & _). } destruct l2 as [|y r2]. { split; [discriminate|]. intros (? & _ & []). }
  pose proof M1 as M1'. pose proof M2 as M2'. apply Sorted_mono in M1' as (A1 & A2), M2' as (B1 & B2). cbn [length] in L.
  destruct (x =? y) eqn:E. { split; auto. intros _. exists x. cbn. replace y with x by lia. auto. }
  destruct (x <? y) eqn:F.
  - rewrite IH; [|auto|auto|cbn [length]; lia]. split.
    + intros (z & H1 & H2). exists z. cbn [In] in *. auto.
    + intros (z & [<-|H1] & H2); [|exists z; auto]. exfalso. destruct H2 as [H2|H2]; [lia|]. specialize (B1 _ H2). lia.
  - rewrite IH; [|auto|auto|cbn [length]; lia]. split.
    + intros (z & H1 & H2). exists z. cbn [In] in *. auto.
    + intros (z & H1 & [<-|H2]); [|exists z; auto]. exfalso. destruct H1 as [H1|H1]; [lia|]. specialize (A1 _ H1). lia.
Qed.
Lemma monotone_slice l b : 0 <= b <= Zlen l -> monotone l -> monotone (slice l b (Zlen l)).
Proof.
  intros Hb M i j x y Hij Gi Gj. pose proof (get_Some_bounds _ _ _ Gi). pose proof (get_Some_bounds _ _ _ Gj). rewrite Zlen_slice in * by lia. rewrite get_slice in Gi, Gj by lia. apply (M (b + i) (b + j)); auto. lia.
Qed.
Lemma In_slice_iff {A} (l : list A) b x : 0 <= b <= Zlen l -> (In x (slice l b (Zlen l)) <-> exists i, b <= i < Zlen l /\ get l i = Some x).
Proof.
  intros Hb. split.
  - intros H. apply In_get in H as (i & Hi & G). rewrite Zlen_slice in Hi by lia. rewrite get_slice in G by lia. exists (b + i). split; auto. lia.
  - intros (i & Hi & G). apply (get_In _ (i - b)). rewrite get_slice by lia. now replace (b + (i - b)) with i by lia.
Qed.
Theorem redundant_ok inv temp : monotone inv -> monotone temp -> exists b, redundant inv temp = Some b /\ (b = true <-> exists x, In x inv /\ In x temp).
Proof.
  intros M1 M2. unfold redundant. pose proof (Zlen_nonneg inv) as L1. pose proof (Zlen_nonneg temp) as L2.
  assert (H1 : exists i1, (if 0 <? Zlen temp then x <- get temp 0 ;; lower_bound inv 0 (Zlen inv) x else Some 0) = Some i1 /\ 0 <= i1 <= Zlen inv /\ forall i x, 0 <= i < i1 -> get inv i = Some x -> ~ In x temp).
  { destruct (0 <? Zlen temp) eqn:E; [|exists 0; repeat split; auto; lia]. destruct (@get_in_range _ temp 0) as (x & Gx); [lia|]. rewrite Gx.
    destruct (lower_bound_safe inv 0 (Zlen inv) x) as (i1 & E1 & B1); [lia|lia|]. exists i1. rewrite E1. split; auto. split; auto. intros i y Hi Gi Hy.
    destruct (lower_bound_spec _ _ _ _ _ E1 ltac:(lia) (monotone_monotone_on _ _ _ M1)) as (_ & S & _). specialize (S i y Hi Gi). apply In_get in Hy as (k & Hk & Gk).
    pose proof (M2 0 k x y ltac:(lia) Gx Gk). lia. }
  destruct H1 as (i1 & -> & B1 & N1). 
  assert (H2 : exists i2, (if i1 <? Zlen inv then x <- get inv i1 ;; lower_bound temp 0 (Zlen temp) x else Some 0) = Some i2 /\ 0 <= i2 <= Zlen temp /\ forall i x k, 0 <= i < i2 -> get temp i = Some x -> i1 <= k -> get inv k <> Some x).
  { destruct (i1 <? Zlen inv) eqn:E; [|exists 0; repeat split; auto; lia]. destruct (@get_in_range _ inv i1) as (x & Gx); [lia|]. rewrite Gx.
    destruct (lower_bound_safe temp 0 (Zlen temp) x) as (i2 & E1 & B2); [lia|lia|]. exists i2. rewrite E1. split; auto. split; auto. intros i y k Hi Gi Hk Gk.
    destruct (lower_bound_spec _ _ _ _ _ E1 ltac:(lia) (monotone_monotone_on _ _ _ M2)) as (_ & S & _). specialize (S i y Hi Gi). pose proof (M1 i1 k x y ltac:(lia) Gx Gk). lia. }
  destruct H2 as (i2 & -> & B2 & N2). eexists. split; [reflexivity|]. rewrite common_ok; auto using monotone_slice.
  - split.
    + intros (x & A & B). exists x. split; eapply In_slice; eauto.
    + intros (x & A & B). exists x. rewrite !In_slice_iff by lia. apply In_get in A as (i & Hi & Gi), B as (k & Hk & Gk).
      assert (i1 <= i). { destruct (Z_le_gt_dec i1 i); auto. exfalso. apply (N1 i x); auto; [lia|]. eapply get_In; eauto. }
      split. { exists i. split; auto. lia. } exists k. split; auto. destruct (Z_le_gt_dec i2 k); [lia|]. exfalso. apply (N2 k x i); auto; lia.
  - pose proof (Zlen_slice inv i1 (Zlen inv) ltac:(lia) ltac:(lia)). pose proof (Zlen_slice temp i2 (Zlen temp) ltac:(lia) ltac:(lia)). unfold Zlen in *. lia.
Qed.

(** ** tempAdj *)
Lemma lower_bound_split a b x : (forall y, In y a -> y < x) -> (forall y, In y b -> x <= y) -> lower_bound (a ++ b) 0 (Zlen (a ++ b)) x = Some (Zlen a).
Proof.
  intros Ha Hb. pose proof (Zlen_nonneg a). pose proof (Zlen_nonneg b). pose proof (Zlen_app a b) as La. 
  assert (P : forall i y, get (a ++ b) i = Some y -> (i < Zlen a -> y < x) /\ (Zlen a <= i -> x <= y)).
  { intros i y G. pose proof (get_Some_bounds _ _ _ G). split; intros Hi.
    - rewrite get_app_l in G by lia. apply Ha. eapply get_In; eauto.
    - rewrite get_app_r in G by lia. apply Hb. eapply get_In; eauto. }
  assert (G : exists r, lower_bound (a ++ b) 0 (Zlen (a ++ b)) x = Some r /\ 0 <= r <= Zlen (a ++ b) /\ (forall i y, 0 <= i < r -> get (a ++ b) i = Some y -> y < x) /\ (forall i y, r <= i < Zlen (a ++ b) -> get (a ++ b) i = Some y -> x <= y)).
  { destruct (lower_bound_safe (a ++ b) 0 (Zlen (a ++ b)) x) as (r & E & B); try lia. exists r. split; auto.
    unfold lower_bound in E. apply partition_point_spec in E as (_ & C & D); [|lia|].
    - split; auto. split; intros i y Hi Gi; [specialize (C i y Hi Gi)|specialize (D i y Hi Gi)]; cbn beta in *; lia.
    - intros i j u v Hij Hj Gi Gj Hv. destruct (P _ _ Gi) as (P1 & P2), (P _ _ Gj) as (P3 & P4). destruct (Z_lt_ge_dec i (Zlen a)); [specialize (P1 ltac:(lia)); lia|]. specialize (P4 ltac:(lia)). lia. }
  destruct G as (r & E & B & C & D). rewrite E. f_equal. destruct (Z.lt_trichotomy r (Zlen a)) as [L|[L|L]]; auto; exfalso.
  - destruct (@get_in_range _ (a ++ b) r) as (y & Gy); [lia|]. specialize (D r y ltac:(lia) Gy). destruct (P _ _ Gy) as (Q & _). specialize (Q ltac:(lia)). lia.
  - destruct (@get_in_range _ (a ++ b) (Zlen a)) as (y & Gy); [lia|]. specialize (C (Zlen a) y ltac:(lia) Gy). destruct (P _ _ Gy) as (_ & Q). specialize (Q ltac:(lia)). lia.
Qed.
Lemma slice_app_l {A} (a b : list A) : slice (a ++ b) 0 (Zlen a) = a.
Proof. unfold slice, Zlen. rewrite Z.sub_0_r, Nat2Z.id. cbn [Z.to_nat skipn]. rewrite firstn_app, Nat.sub_diag, firstn_all. cbn [firstn]. apply app_nil_r. Qed.
Lemma slice_app_r {A} (a b : list A) : slice (a ++ b) (Zlen a) (Zlen (a ++ b)) = b.
Proof.
  unfold slice. rewrite Zlen_app. replace (Zlen a + Zlen b - Zlen a) with (Zlen b) by lia. unfold Zlen. rewrite !Nat2Z.id, skipn_app, Nat.sub_diag, skipn_all. cbn [skipn app]. apply firstn_all.
Qed.
Lemma filter_ext_in' {A} (p q : A -> bool) l : (forall x, In x l -> p x = q x) -> filter p l = filter q l.
Proof. apply filter_ext_in. Qed.
Theorem temp_adj_ok p n j z : 0 <= j -> (j < z - 1 -> j + 1 < n) ->
  temp_adj (filter p (zrange 0 n)) j z = Some (filter (fun x => p x || ((x =? j + 1) && (j <? z - 1))) (zrange 0 n)).
Proof.
  intros Hj Hz. unfold temp_adj. destruct (j <? z - 1) eqn:E.
  2: { f_equal. apply filter_ext_in'. intros x _. now rewrite andb_false_r, orb_false_r. }
  specialize (Hz ltac:(lia)). set (q := fun x => p x || ((x =? j + 1) && true)).
  rewrite (zrange_app 0 (j + 1) n) by lia. rewrite !filter_app. rewrite (zrange_cons (j + 1) n) by lia.
  set (a := filter p (zrange 0 (j + 1))). set (c := filter p (zrange (j + 1 + 1) n)).
  assert (Ha : filter q (zrange 0 (j + 1)) = a). { apply filter_ext_in'. intros x Hx. apply In_zrange in Hx. unfold q. replace (x =? j + 1) with false by lia. now rewrite orb_false_r. }
  assert (Hc : filter q (zrange (j + 1 + 1) n) = c). { apply filter_ext_in'. intros x Hx. apply In_zrange in Hx. unfold q. replace (x =? j + 1) with false by lia. now rewrite orb_false_r. }
  assert (Hq : q (j + 1) = true). { unfold q. rewrite Z.eqb_refl. apply orb_true_r. }
  rewrite Ha. cbn [filter]. rewrite Hc, Hq. fold c.
  assert (La : forall y, In y a -> y < j + 1). { intros y Hy. apply filter_In in Hy as (Hy & _). apply In_zrange in Hy. lia. }
  assert (Lc : forall y, In y c -> j + 1 < y). { intros y Hy. apply filter_In in Hy as (Hy & _). apply In_zrange in Hy. lia. }
  destruct (p (j + 1)) eqn:P.
  - rewrite lower_bound_split; auto. 2: { intros y [<-|Hy]; [lia|]. specialize (Lc y Hy). lia. }
    rewrite get_app_r, Z.sub_diag by lia. change (get (j + 1 :: c) 0) with (Some (j + 1)). cbv iota beta. now rewrite Z.eqb_refl.
  - rewrite lower_bound_split; auto. 2: { intros y Hy. specialize (Lc y Hy). lia. }
    rewrite get_app_r, Z.sub_diag by lia. rewrite slice_app_l, slice_app_r. destruct c as [|y c]; auto. change (get (y :: c) 0) with (Some y). cbv iota beta. specialize (Lc y (or_introl eq_refl)). now replace (y =? j + 1) with false by lia.
Qed.
Lemma keepM_ok f g l : (forall x, In x l -> f x = Some (g x)) -> keepM f l = Some (filter (fun x => negb (g x)) l).
Proof. induction l as [|x l IH]; intros H; cbn [keepM filter]; auto. rewrite H by (now left). rewrite IH by (intros; apply H; now right). destruct (g x); reflexivity. Qed.

(** ** Folds over tagged actions *)
Definition lefts {A B} (l : list (A + B)) : list A := flat_map (fun x => match x with inl a => [a] | inr _ => [] end) l.
Definition rights {A B} (l : list (A + B)) : list B := flat_map (fun x => match x with inl _ => [] | inr b => [b] end) l.
Lemma In_lefts {A B} (l : list (A + B)) a : In a (lefts l) <-> In (inl a) l.
Proof. unfold lefts. rewrite in_flat_map. split. - intros ([x|x] & H & E); cbn in E; [destruct E as [<-|[]]; auto|destruct E]. - intros H. exists (inl a). cbn. auto. Qed.
Lemma rights_app {A B} (l l' : list (A + B)) : rights (l ++ l') = rights l ++ rights l'.
Proof. apply flat_map_app. Qed.
Lemma rights_concat {A B} (ls : list (list (A + B))) : rights (concat ls) = concat (map rights ls).
Proof. induction ls as [|l ls IH]; auto. cbn [concat map]. now rewrite rights_app, IH. Qed.
Lemma rights_map {A B} (l : list B) : rights (map (@inr A B) l) = l.
Proof. induction l as [|b l IH]; auto. cbn [map]. change (rights (inr b :: map (@inr A B) l)) with (b :: rights (map (@inr A B) l)). now rewrite IH. Qed.
Lemma rights_perm {A B} (l l' : list (A + B)) : Permutation l l' -> Permutation (rights l) (rights l').
Proof. apply Permutation_flat_map. Qed.
Lemma foldM_sum {A B S1 S2} (f : A -> S1 -> option S1) (g : B -> S2 -> option S2) (h : A + B -> S1 * S2 -> option (S1 * S2)) l :
  (forall a s, h (inl a) s = (w <- f a (fst s) ;; Some (w, snd s))) -> (forall b s, h (inr b) s = (w <- g b (snd s) ;; Some (fst s, w))) ->
  forall s1 s2 s1' s2', foldM f (lefts l) s1 = Some s1' -> foldM g (rights l) s2 = Some s2' -> foldM h l (s1, s2) = Some (s1', s2').
Proof.
  intros Hf Hg. induction l as [|[a|b] l IH]; intros s1 s2 s1' s2' E1 E2.
  - cbn in *. congruence.
  - change (lefts (inl a :: l)) with (a :: lefts l) in E1. change (rights (inl a :: l)) with (rights l) in E2. cbn [foldM] in *. rewrite Hf. cbn [fst snd]. destruct (f a s1); [|discriminate]. cbn in *. apply IH; auto.
  - change (lefts (inr b :: l)) with (lefts l) in E1. change (rights (inr b :: l)) with (b :: rights l) in E2. cbn [foldM] in *. rewrite Hg. cbn [fst snd]. destruct (g b s2); [|discriminate]. cbn in *. apply IH; auto.
Qed.

(** ** Appending to one of several lists *)
Definition at_ (v : Z) (l : list (Z * Z)) : list Z := map snd (filter (fun a => fst a =? v) l).
Lemma at_cons v a l : at_ v (a :: l) = (if fst a =? v then [snd a] else []) ++ at_ v l.
Proof. unfold at_. cbn [filter]. now destruct (fst a =? v). Qed.
Theorem push_all caps l w : Zlen caps = Zlen w -> (forall a, In a l -> 0 <= fst a < Zlen w) ->
  (forall v, 0 <= v < Zlen w -> Zlen (nthl w v) + Zlen (at_ v l) <= zget caps v) ->
  exists w', foldM (push caps) l w = Some w' /\ Zlen w' = Zlen w /\ forall v, 0 <= v < Zlen w -> nthl w' v = nthl w v ++ at_ v l.
Proof.
  revert w. induction l as [|a l IH]; intros w Hc Ha Hv.
  - exists w. cbn [foldM]. repeat split; auto. intros v _. unfold at_. cbn. now rewrite app_nil_r.
  - cbn [foldM]. specialize (Ha a (or_introl eq_refl)) as Ha0. unfold push at 1. rewrite (get_nthl w) by lia. rewrite (zget_ok caps) by lia.
    specialize (Hv (fst a) Ha0) as Hv0. rewrite at_cons, Z.eqb_refl, Zlen_app in Hv0. change (Zlen [snd a]) with 1 in Hv0. pose proof (Zlen_nonneg (at_ (fst a) l)).
    replace (Zlen (nthl w (fst a)) <? zget caps (fst a)) with true by lia.
    destruct (set_ok w (fst a) (nthl w (fst a) ++ [snd a])) as (w1 & E1); [lia|]. rewrite E1. pose proof (set_len _ _ _ _ E1) as L1.
    assert (N : forall v, 0 <= v < Zlen w -> nthl w1 v = nthl w v ++ if fst a =? v then [snd a] else []).
    { intros v Hvv. unfold nthl. destruct (fst a =? v) eqn:E.
      - replace v with (fst a) by lia. rewrite (get_set_same _ _ _ _ E1), (get_nthl w) by lia. reflexivity.
      - rewrite (get_set_other _ _ _ _ _ E1) by lia. now rewrite app_nil_r. }
    destruct (IH w1) as (w' & E' & L' & H').
    { lia. } { intros b Hb. rewrite L1. apply Ha. now right. }
    { intros v Hvv. rewrite L1 in Hvv. specialize (Hv v Hvv). rewrite at_cons, Zlen_app in Hv. rewrite N, Zlen_app by auto. lia. }
    exists w'. split; auto. split; [lia|]. intros v Hvv. rewrite H', N, at_cons by lia. now rewrite app_assoc.
Qed.
Lemma nthl_nils n v : nthl (map (fun _ : Z => @nil Z) (zrange 0 n)) v = [].
Proof. unfold nthl. rewrite get_map. now destruct (get (zrange 0 n) v). Qed.

(** ** The edges of all tasks *)
Definition pairs_of (f : Z -> list Z) (n : Z) : list (Z * Z) := concat (map (fun v => map (fun a => (a, v)) (f v)) (zrange 0 n)).
Lemma In_pairs f n a v : In (a, v) (pairs_of f n) <-> 0 <= v < n /\ In a (f v).
Proof.
  unfold pairs_of. rewrite in_concat. split.
  - intros (l & Hl & H). apply in_map_iff in Hl as (u & <- & Hu). apply in_map_iff in H as (b & E & Hb). injection E as -> ->. apply In_zrange in Hu. auto.
  - intros (Hv & Ha). exists (map (fun a => (a, v)) (f v)). split; [apply in_map_iff; exists v; split; auto; now apply In_zrange|]. apply in_map_iff. eauto.
Qed.
Lemma NoDup_concat_map {A B} (f : A -> list B) l : NoDup l -> (forall x, In x l -> NoDup (f x)) -> (forall x y b, In x l -> In y l -> In b (f x) -> In b (f y) -> x = y) -> NoDup (concat (map f l)).
Proof.
  induction l as [|x l IH]; intros N H D; cbn [map concat]; [constructor|]. inversion N; subst. apply NoDup_app3.
  - apply H. now left.
  - apply IH; auto. { intros; apply H; now right. } intros y z b Hy Hz. apply D; now right.
  - intros b Hb Hc. apply in_concat in Hc as (r & Hr & Hc). apply in_map_iff in Hr as (y & <- & Hy). assert (x = y) by (apply (D x y b); cbn; auto). subst. auto.
Qed.
Lemma NoDup_pairs f n : (forall v, 0 <= v < n -> NoDup (f v)) -> NoDup (pairs_of f n).
Proof.
  intros H. apply NoDup_concat_map; [apply NoDup_zrange| |].
  - intros v Hv. apply In_zrange in Hv. apply NoDup_map_in; auto. intros x y _ _ E. now injection E.
  - intros x y b _ _ Hx Hy. apply in_map_iff in Hx as (p & <- & _), Hy as (q & E & _). now injection E.
Qed.
Lemma In_at v x l : In x (at_ v l) <-> In (v, x) l.
Proof.
  unfold at_. rewrite in_map_iff. split.
  - intros ((a & b) & <- & H). apply filter_In in H as (H & E). cbn in *. replace v with a by lia. auto.
  - intros H. exists (v, x). split; auto. apply filter_In. split; auto. cbn. apply Z.eqb_refl.
Qed.
Lemma NoDup_at v l : NoDup l -> NoDup (at_ v l).
Proof.
  intros N. unfold at_. apply NoDup_map_in; [|now apply NoDup_filter]. intros (a & b) (c & d) H H' E. apply filter_In in H as (_ & H), H' as (_ & H'). cbn in *. subst. f_equal. lia.
Qed.
Lemma at_perm v l l' : Permutation l l' -> Permutation (at_ v l) (at_ v l').
Proof.
  intros P. unfold at_. apply Permutation_map. induction P; cbn [filter]; auto.
  - destruct (fst x =? v); auto.
  - destruct (fst x =? v), (fst y =? v); auto. apply perm_swap.
  - etransitivity; eauto.
Qed.
Lemma Zlen_at_cnt v l : Zlen (at_ v l) = cnt v (map fst l).
Proof. unfold at_, cnt. rewrite Zlen_map. induction l as [|a l IH]; auto. cbn [filter map]. rewrite (Z.eqb_sym v). destruct (fst a =? v); rewrite ?Zlen_cons; lia. Qed.
Lemma fst_pairs f n : map fst (pairs_of f n) = concat (map f (zrange 0 n)).
Proof. unfold pairs_of. rewrite concat_map, map_map. f_equal. apply map_ext. intros v. rewrite map_map. cbn. apply map_id. Qed.

Lemma inv_edges_perm tr added v adj : ~ In (v + 1) adj -> Permutation (inv_edges tr added v adj) (map (fun a => (a, v)) (if tr && negb added then v + 1 :: adj else adj)).
Proof.
  revert added. induction adj as [|x adj IH]; intros added N; cbn [inv_edges].
  - destruct tr, added; cbn; auto.
  - assert (N' : ~ In (v + 1) adj) by (intros H; apply N; now right). assert (Nx : x <> v + 1) by (intros ->; apply N; now left).
    destruct tr, added; cbn [negb andb] in *.
    + constructor. apply IH; auto.
    + destruct (v + 1 <=? x) eqn:L.
      * replace (v + 1 <? x) with true by lia. cbn [app map]. constructor. constructor. apply (IH true N').
      * cbn [map]. etransitivity; [apply perm_skip, (IH false N')|]. cbn [map]. apply perm_swap.
    + constructor. apply IH; auto.
    + constructor. apply (IH false N').
Qed.

Theorem count_all l w : (forall c, In c l -> 0 <= c < Zlen w) ->
  exists w', foldM count_up l w = Some w' /\ Zlen w' = Zlen w /\ forall c, 0 <= c < Zlen w -> zget w' c = zget w c + cnt c l.
Proof.
  revert w. induction l as [|a l IH]; intros w H.
  - exists w. repeat split; auto. intros c _. unfold cnt. cbn. lia.
  - cbn [foldM]. specialize (H a (or_introl eq_refl)) as Ha. unfold count_up at 1. rewrite (zget_ok w) by lia. destruct (set_ok w a (zget w a + 1)) as (w1 & E); [lia|]. rewrite E. pose proof (set_len _ _ _ _ E) as L.
    destruct (IH w1) as (w' & E' & L' & H'). { intros c Hc. rewrite L. apply H. now right. }
    exists w'. split; auto. split; [lia|]. intros c Hc. rewrite H', cnt_cons by lia. destruct (c =? a) eqn:C.
    + replace c with a by lia. unfold zget at 1. rewrite (get_set_same _ _ _ _ E). lia.
    + unfold zget at 1. rewrite (get_set_other _ _ _ _ _ E) by lia. fold (zget w c). lia.
Qed.
