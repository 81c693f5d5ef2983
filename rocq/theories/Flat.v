(** * Flat arrays made of consecutive segments.

    Facts about arrays such as [colidx] of a CSR matrix: segment [i] has
    [Zlen (f i)] elements and starts at the sum of the lengths before it.
    No code is modelled here. *)
From Verif Require Import Base Spec PrefixSum.

Lemma Z_ind0 (P : Z -> Prop) :
  P 0 -> (forall k, 0 <= k -> P k -> P (k + 1)) -> forall n, 0 <= n -> P n.
Proof. intros H0 HS n Hn. apply natlike_ind; auto. Qed.

Lemma before_ext x y n : (forall i, 0 <= i < n -> x i = y i) -> before x n = before y n.
Proof.
  intros H. unfold before. f_equal. apply map_ext_in. intros a Ha. apply H. now apply In_zrange.
Qed.

Lemma before_neg x n : n <= 0 -> before x n = 0.
Proof. intros. unfold before. now rewrite zrange_nil by lia. Qed.

Lemma before_app x a b : 0 <= a <= b -> before x b = before x a + zsum (map x (zrange a b)).
Proof.
  intros H. unfold before. rewrite (zrange_app 0 a b) by lia. now rewrite map_app, zsum_app.
Qed.

Lemma zsum_map_nonneg {A} (x : A -> Z) l : (forall a, In a l -> 0 <= x a) -> 0 <= zsum (map x l).
Proof.
  intros H. apply zsum_nonneg. intros v Hv. apply in_map_iff in Hv as (a & <- & Ha). auto.
Qed.

Lemma before_mono x a b :
  (forall i, 0 <= i < b -> 0 <= x i) -> a <= b -> before x a <= before x b.
Proof.
  intros Hx Hab. destruct (Z_lt_ge_dec a 0).
  - rewrite (before_neg x a) by lia. unfold before. apply zsum_map_nonneg.
    intros i Hi. apply In_zrange in Hi. apply Hx; lia.
  - rewrite (before_app x a b) by lia.
    assert (0 <= zsum (map x (zrange a b))); [|lia].
    apply zsum_map_nonneg. intros i Hi. apply In_zrange in Hi. apply Hx; lia.
Qed.

Lemma before_nonneg x b : (forall i, 0 <= i < b -> 0 <= x i) -> 0 <= before x b.
Proof.
  intros Hx. destruct (Z_lt_ge_dec b 0).
  - now rewrite before_neg by lia.
  - rewrite <- (before_0 x). apply before_mono; auto; lia.
Qed.

Lemma before_const c n : 0 <= n -> before (fun _ => c) n = c * n.
Proof.
  revert n. apply Z_ind0.
  - rewrite before_0. lia.
  - intros k Hk IH. rewrite before_S by lia. rewrite IH by lia. lia.
Qed.

Lemma before_plus x y n : before (fun i => x i + y i) n = before x n + before y n.
Proof.
  destruct (Z_lt_ge_dec n 0); [rewrite !before_neg by lia; lia|].
  pattern n. apply Z_ind0; try lia.
  - now rewrite !before_0.
  - intros k Hk IH. rewrite !before_S by lia. lia.
Qed.

(** Two-level sums: [i = c*T + t]. *)
Lemma before_nested x K T : 0 <= K -> 1 <= T ->
  before x (K * T) = before (fun c => before (fun t => x (c * T + t)) T) K.
Proof.
  intros HK HT. pattern K. apply Z_ind0; try lia.
  - now rewrite Z.mul_0_l, !before_0.
  - intros k Hk IH. rewrite before_S by lia. rewrite <- IH.
    rewrite (before_app x (k * T) ((k + 1) * T)) by nia. f_equal.
    unfold before.
    replace (zrange (k * T) ((k + 1) * T)) with (map (fun t => k * T + t) (zrange 0 T)).
    + now rewrite map_map.
    + apply list_ext.
      * rewrite Zlen_map, !Zlen_zrange. nia.
      * intros i Hi. rewrite Zlen_map, Zlen_zrange in Hi.
        rewrite get_map, !get_zrange by nia. cbn. f_equal; lia.
Qed.

(** Exchange of summation. *)
Lemma before_swap x K T :
  before (fun c => before (fun t => x c t) T) K = before (fun t => before (fun c => x c t) K) T.
Proof.
  destruct (Z_lt_ge_dec K 0).
  - rewrite before_neg by lia. symmetry.
    rewrite (before_ext _ (fun _ => 0)) by (intros; now rewrite before_neg by lia).
    destruct (Z_lt_ge_dec T 0); [now rewrite before_neg by lia|]. rewrite before_const; lia.
  - pattern K. apply Z_ind0; try lia.
    + rewrite before_0. rewrite (before_ext _ (fun _ => 0)) by (intros; now rewrite before_0).
      destruct (Z_lt_ge_dec T 0); [now rewrite before_neg by lia|]. rewrite before_const; lia.
    + intros k Hk IH. rewrite before_S by lia. rewrite IH.
      rewrite <- before_plus. apply before_ext. intros. now rewrite before_S by lia.
Qed.

(** The segment a position lies in. *)
Lemma before_locate x n o :
  0 <= n -> (forall i, 0 <= i < n -> 0 <= x i) -> 0 <= o < before x n ->
  exists i k, 0 <= i < n /\ 0 <= k < x i /\ o = before x i + k.
Proof.
  intros Hn. revert o. revert n Hn.
  apply (Z_ind0 (fun n => forall o, (forall i, 0 <= i < n -> 0 <= x i) -> 0 <= o < before x n ->
    exists i k, 0 <= i < n /\ 0 <= k < x i /\ o = before x i + k)).
  - intros o _ Ho. rewrite before_0 in Ho. lia.
  - intros j Hj IH o Hx Ho. rewrite before_S in Ho by lia.
    destruct (Z_lt_ge_dec o (before x j)).
    + destruct (IH o) as (i & k & Hi & Hk & E); [intros; apply Hx; lia|lia|].
      exists i, k. repeat split; auto; lia.
    + exists j, (o - before x j). repeat split; lia.
Qed.

(** Segments do not overlap. *)
Lemma before_unique x n i k i' k' :
  (forall j, 0 <= j < n -> 0 <= x j) ->
  0 <= i < n -> 0 <= i' < n -> 0 <= k < x i -> 0 <= k' < x i' ->
  before x i + k = before x i' + k' -> i = i' /\ k = k'.
Proof.
  intros Hx Hi Hi' Hk Hk' E.
  destruct (Ztrichotomy i i') as [L|[->|L]].
  - pose proof (before_mono x (i + 1) i') as M. rewrite before_S in M by lia.
    assert (before x i + x i <= before x i') by (apply M; [intros; apply Hx; lia|lia]). lia.
  - lia.
  - pose proof (before_mono x (i' + 1) i) as M. rewrite before_S in M by lia.
    assert (before x i' + x i' <= before x i) by (apply M; [intros; apply Hx; lia|lia]). lia.
Qed.

(** ** Concatenation of segments *)
Definition flat {A} (f : Z -> list A) (n : Z) : list A := concat (map f (zrange 0 n)).
Definition off {A} (f : Z -> list A) (i : Z) : Z := before (fun j => Zlen (f j)) i.

Lemma flat_0 {A} (f : Z -> list A) : flat f 0 = [].
Proof. reflexivity. Qed.

Lemma flat_S {A} (f : Z -> list A) n : 0 <= n -> flat f (n + 1) = flat f n ++ f n.
Proof.
  intros. unfold flat. rewrite zrange_snoc by auto. rewrite map_app, concat_app. cbn.
  now rewrite app_nil_r.
Qed.

Lemma flat_ext {A} (f g : Z -> list A) n : (forall i, 0 <= i < n -> f i = g i) -> flat f n = flat g n.
Proof.
  intros H. unfold flat. f_equal. apply map_ext_in. intros a Ha. apply H. now apply In_zrange.
Qed.

Lemma off_0 {A} (f : Z -> list A) : off f 0 = 0.
Proof. apply before_0. Qed.

Lemma off_S {A} (f : Z -> list A) i : 0 <= i -> off f (i + 1) = off f i + Zlen (f i).
Proof. intros. unfold off. now rewrite before_S. Qed.

Lemma off_mono {A} (f : Z -> list A) a b : a <= b -> off f a <= off f b.
Proof. intros. apply before_mono; auto. intros; apply Zlen_nonneg. Qed.

Lemma off_nonneg {A} (f : Z -> list A) a : 0 <= off f a.
Proof. apply before_nonneg. intros; apply Zlen_nonneg. Qed.

Lemma Zlen_flat {A} (f : Z -> list A) n : 0 <= n -> Zlen (flat f n) = off f n.
Proof.
  revert n. apply Z_ind0.
  - now rewrite off_0.
  - intros k Hk IH. rewrite flat_S, off_S, Zlen_app by lia. rewrite IH; auto.
Qed.

Lemma get_flat {A} (f : Z -> list A) n i k :
  0 <= i < n -> 0 <= k < Zlen (f i) -> get (flat f n) (off f i + k) = get (f i) k.
Proof.
  intros Hi Hk.
  assert (forall d, 0 <= d -> get (flat f (i + 1 + d)) (off f i + k) = get (f i) k) as G.
  { intros d Hd. pattern d. apply Z_ind0; auto.
    - rewrite Z.add_0_r, flat_S by lia.
      rewrite get_app_r by (rewrite Zlen_flat by lia; lia).
      rewrite Zlen_flat by lia. f_equal. lia.
    - intros e He IH. replace (i + 1 + (e + 1)) with (i + 1 + e + 1) by lia.
      rewrite flat_S by lia. rewrite get_app_l; auto.
      rewrite Zlen_flat by lia. pose proof (off_mono f (i + 1) (i + 1 + e)).
      rewrite off_S in * by lia. lia. }
  replace n with (i + 1 + (n - i - 1)) by lia. apply G. lia.
Qed.

Lemma flat_locate {A} (f : Z -> list A) n o :
  0 <= n -> 0 <= o < off f n ->
  exists i k, 0 <= i < n /\ 0 <= k < Zlen (f i) /\ o = off f i + k.
Proof. intros Hn Ho. apply before_locate; auto. intros; apply Zlen_nonneg. Qed.

Lemma off_unique {A} (f : Z -> list A) i k i' k' :
  0 <= i -> 0 <= i' -> 0 <= k < Zlen (f i) -> 0 <= k' < Zlen (f i') ->
  off f i + k = off f i' + k' -> i = i' /\ k = k'.
Proof.
  intros Hi Hi' Hk Hk' E.
  apply (before_unique (fun j => Zlen (f j)) (Z.max i i' + 1)); auto; try lia.
  intros; apply Zlen_nonneg.
Qed.

(** A list that agrees with every segment is the concatenation. *)
Lemma flat_intro {A} (f : Z -> list A) n l :
  0 <= n -> Zlen l = off f n ->
  (forall i k, 0 <= i < n -> 0 <= k < Zlen (f i) -> get l (off f i + k) = get (f i) k) ->
  l = flat f n.
Proof.
  intros Hn Hl H. apply list_ext.
  - now rewrite Zlen_flat.
  - intros o Ho. destruct (flat_locate f n o Hn) as (i & k & Hi & Hk & ->); [lia|].
    rewrite H, get_flat; auto.
Qed.

Lemma slice_flat {A} (f : Z -> list A) n i :
  0 <= i < n -> slice (flat f n) (off f i) (off f (i + 1)) = f i.
Proof.
  intros Hi. pose proof (off_nonneg f i). pose proof (off_mono f i (i + 1)).
  pose proof (off_mono f (i + 1) n). rewrite off_S in * by lia.
  apply list_ext.
  - rewrite Zlen_slice; [lia|lia|rewrite Zlen_flat by lia; lia].
  - intros k Hk. rewrite Zlen_slice in Hk by (try rewrite Zlen_flat by lia; lia).
    rewrite get_slice by lia. apply get_flat; auto. lia.
Qed.

Lemma flat_map_f {A B} (g : A -> B) (f : Z -> list A) n :
  map g (flat f n) = flat (fun i => map g (f i)) n.
Proof. unfold flat. now rewrite concat_map, map_map. Qed.

Lemma flat_nested {A} (f : Z -> list A) K T : 0 <= K -> 1 <= T ->
  flat f (K * T) = flat (fun c => flat (fun t => f (c * T + t)) T) K.
Proof.
  intros HK HT. pattern K. apply Z_ind0; [reflexivity| |lia].
  - intros k Hk IH. rewrite flat_S by lia. rewrite <- IH.
    unfold flat. rewrite (zrange_app 0 (k * T) ((k + 1) * T)) by nia.
    rewrite map_app, concat_app. f_equal. f_equal.
    replace (zrange (k * T) ((k + 1) * T)) with (map (fun t => k * T + t) (zrange 0 T)).
    + now rewrite map_map.
    + apply list_ext.
      * rewrite Zlen_map, !Zlen_zrange. nia.
      * intros i Hi. rewrite Zlen_map, Zlen_zrange in Hi.
        rewrite get_map, !get_zrange by nia. cbn. f_equal; lia.
Qed.

(** The rows of a list as segments. *)
Definition nthl {A} (l : list (list A)) (i : Z) : list A :=
  match get l i with Some r => r | None => [] end.

Lemma nthl_get {A} (l : list (list A)) i r : get l i = Some r -> nthl l i = r.
Proof. unfold nthl. now intros ->. Qed.

Lemma get_nthl {A} (l : list (list A)) i : 0 <= i < Zlen l -> get l i = Some (nthl l i).
Proof. intros H. unfold nthl. destruct (get_in_range l i H) as (r & ->). auto. Qed.

Lemma map_get_zrange {A B} (l : list A) (g : option A -> B) :
  map (fun i => g (get l i)) (zrange 0 (Zlen l)) = map (fun a => g (Some a)) l.
Proof.
  apply list_ext.
  - rewrite !Zlen_map, Zlen_zrange. pose proof (Zlen_nonneg l). lia.
  - intros i Hi. rewrite Zlen_map, Zlen_zrange in Hi. pose proof (Zlen_nonneg l).
    rewrite !get_map, get_zrange by lia. cbn. destruct (get_in_range l i) as (a & Ea); [lia|].
    now rewrite Ea.
Qed.

Lemma concat_flat {A} (l : list (list A)) : concat l = flat (nthl l) (Zlen l).
Proof.
  unfold flat, nthl.
  rewrite (map_get_zrange l (fun o => match o with Some r => r | None => [] end)).
  now rewrite map_id.
Qed.

Lemma filter_flat {A} (p : A -> bool) (f : Z -> list A) n :
  filter p (flat f n) = flat (fun i => filter p (f i)) n.
Proof.
  unfold flat. induction (zrange 0 n) as [|i l IH]; cbn; auto.
  rewrite filter_app. now rewrite IH.
Qed.

Example flat_case : flat (nthl [[1;2];[];[3]]) 3 = [1;2;3].
Proof. reflexivity. Qed.
