(** * Checked arrays, loops and the undefined-behaviour monad.

    This file models no SpMP code by itself.  It fixes the meaning of C
    arrays, loops and undefined behaviour used by all model files.

    - An array is a list; indices are integers ([Z]).
    - A computation is an [option]: [None] is undefined behaviour (an access
      outside an array, a NULL dereference) or a failing assertion. *)
From Coq Require Export List ZArith Lia Bool Arith Permutation Sorted.
From Coq Require Export ZifyBool ZifyNat.
Export ListNotations.
#[global] Open Scope Z_scope.

Notation "x <- e ;; k" :=
  (match e with Some x => k | None => None end)
  (at level 61, e at next level, right associativity).
Notation "' p <- e ;; k" :=
  (match e with Some p => k | None => None end)
  (at level 61, p pattern, e at next level, right associativity).

(** [assert(b)] *)
Notation "'assert!' b ;; k" := (if b then k else None)
  (at level 61, b at next level, right associativity).

Definition Zlen {A} (l : list A) : Z := Z.of_nat (length l).

(** Checked load [l[i]]. *)
Definition get {A} (l : list A) (i : Z) : option A :=
  if i <? 0 then None else nth_error l (Z.to_nat i).

Fixpoint upd {A} (l : list A) (n : nat) (v : A) : list A :=
  match l, n with
  | [], _ => []
  | _ :: r, O => v :: r
  | x :: r, S k => x :: upd r k v
  end.

(** Checked store [l[i] = v]. *)
Definition set {A} (l : list A) (i : Z) (v : A) : option (list A) :=
  if (0 <=? i) && (i <? Zlen l) then Some (upd l (Z.to_nat i) v) else None.

(** Loops: [foldM f l s] runs the body [f] for the elements of [l] in order. *)
Fixpoint foldM {A S} (f : A -> S -> option S) (l : list A) (s : S) : option S :=
  match l with
  | [] => Some s
  | a :: r => s' <- f a s ;; foldM f r s'
  end.

Fixpoint mapM {A B} (f : A -> option B) (l : list A) : option (list B) :=
  match l with
  | [] => Some []
  | a :: r => b <- f a ;; bs <- mapM f r ;; Some (b :: bs)
  end.

(** The integers lo, lo+1, ..., hi-1. *)
Definition zrange (lo hi : Z) : list Z :=
  map (fun k => lo + Z.of_nat k) (seq 0 (Z.to_nat (hi - lo))).

(** [for (i = lo; i < hi; ++i) s = f(i, s)] *)
Definition forZ {S} (lo hi : Z) (f : Z -> S -> option S) (s : S) : option S :=
  foldM f (zrange lo hi) s.

(** [for (i = hi; i >= lo; --i) s = f(i, s)] *)
Definition forZdown {S} (hi lo : Z) (f : Z -> S -> option S) (s : S) : option S :=
  foldM f (rev (zrange lo (hi + 1))) s.

Definition zseq (n : Z) : list Z := zrange 0 n.

(** ** Lemmas *)

Lemma Zlen_nonneg {A} (l : list A) : 0 <= Zlen l.
Proof. unfold Zlen; lia. Qed.

Lemma Zlen_nil {A} : Zlen (@nil A) = 0.
Proof. reflexivity. Qed.

Lemma Zlen_cons {A} (a : A) l : Zlen (a :: l) = 1 + Zlen l.
Proof. unfold Zlen; cbn [length]; lia. Qed.

Lemma Zlen_app {A} (l r : list A) : Zlen (l ++ r) = Zlen l + Zlen r.
Proof. unfold Zlen; rewrite app_length; lia. Qed.

Lemma Zlen_map {A B} (f : A -> B) l : Zlen (map f l) = Zlen l.
Proof. unfold Zlen; now rewrite map_length. Qed.

Lemma Zlen_rev {A} (l : list A) : Zlen (rev l) = Zlen l.
Proof. unfold Zlen; now rewrite rev_length. Qed.

Lemma Zlen_repeat {A} (a : A) n : Zlen (repeat a n) = Z.of_nat n.
Proof. unfold Zlen; now rewrite repeat_length. Qed.

Lemma upd_length {A} (l : list A) n v : length (upd l n v) = length l.
Proof. revert n; induction l; destruct n; cbn; auto. Qed.

Lemma get_nat {A} (l : list A) (n : nat) : get l (Z.of_nat n) = nth_error l n.
Proof.
  unfold get. destruct (Z.ltb_spec (Z.of_nat n) 0); [lia|].
  now rewrite Nat2Z.id.
Qed.

Lemma get_Some_bounds {A} (l : list A) i v : get l i = Some v -> 0 <= i < Zlen l.
Proof.
  unfold get, Zlen. destruct (Z.ltb_spec i 0); [discriminate|].
  intros H1. assert (nth_error l (Z.to_nat i) <> None) as H2 by congruence.
  apply nth_error_Some in H2. lia.
Qed.

Lemma get_in_range {A} (l : list A) i : 0 <= i < Zlen l -> exists v, get l i = Some v.
Proof.
  unfold get, Zlen. intros H. destruct (Z.ltb_spec i 0); [lia|].
  destruct (nth_error l (Z.to_nat i)) eqn:E; eauto.
  apply nth_error_None in E. lia.
Qed.

Lemma get_None_iff {A} (l : list A) i : get l i = None <-> (i < 0 \/ Zlen l <= i).
Proof.
  split.
  - intros H. destruct (Z_lt_ge_dec i 0); [now left|].
    destruct (Z_lt_ge_dec i (Zlen l)); [|lia].
    destruct (@get_in_range _ l i) as [v Hv]; [lia|congruence].
  - intros H. destruct (get l i) eqn:E; auto.
    apply get_Some_bounds in E. lia.
Qed.

Lemma get_out {A} (l : list A) i : i < 0 \/ Zlen l <= i -> get l i = None.
Proof. apply get_None_iff. Qed.

Lemma get_In {A} (l : list A) i v : get l i = Some v -> In v l.
Proof.
  unfold get. destruct (i <? 0); [discriminate|]. apply nth_error_In.
Qed.

Lemma In_get {A} (l : list A) v : In v l -> exists i, 0 <= i < Zlen l /\ get l i = Some v.
Proof.
  intros H. apply In_nth_error in H as [n Hn].
  exists (Z.of_nat n). rewrite get_nat. split; auto.
  assert (nth_error l n <> None) as H2 by congruence.
  apply nth_error_Some in H2. unfold Zlen. lia.
Qed.

Lemma get_cons_0 {A} (a : A) l : get (a :: l) 0 = Some a.
Proof. reflexivity. Qed.

Lemma get_cons_S {A} (a : A) l i : 0 <= i -> get (a :: l) (i + 1) = get l i.
Proof.
  intros H. unfold get.
  destruct (Z.ltb_spec (i + 1) 0), (Z.ltb_spec i 0); try lia.
  replace (Z.to_nat (i + 1)) with (S (Z.to_nat i)) by lia. reflexivity.
Qed.

Lemma get_cons_pos {A} (a : A) l i : 0 < i -> get (a :: l) i = get l (i - 1).
Proof.
  intros H. replace i with ((i - 1) + 1) at 1 by lia. apply get_cons_S. lia.
Qed.

Lemma get_app_l {A} (l r : list A) i : i < Zlen l -> get (l ++ r) i = get l i.
Proof.
  intros H. unfold get, Zlen in *. destruct (Z.ltb_spec i 0); auto.
  apply nth_error_app1. lia.
Qed.

Lemma get_app_r {A} (l r : list A) i : Zlen l <= i -> get (l ++ r) i = get r (i - Zlen l).
Proof.
  intros H. unfold get, Zlen in *.
  destruct (Z.ltb_spec i 0), (Z.ltb_spec (i - Z.of_nat (length l)) 0); try lia.
  rewrite nth_error_app2 by lia. f_equal. lia.
Qed.

Lemma get_map {A B} (f : A -> B) l i : get (map f l) i = option_map f (get l i).
Proof.
  unfold get. destruct (i <? 0); auto. apply nth_error_map.
Qed.

Lemma nth_error_upd {A} (l : list A) n k v :
  nth_error (upd l n v) k =
  if Nat.eqb k n then (if Nat.ltb n (length l) then Some v else None) else nth_error l k.
Proof.
  revert n k; induction l as [|a l IH]; intros n k; cbn [upd length].
  - destruct (Nat.eqb_spec k n).
    + destruct (Nat.ltb_spec n 0); [lia|]. now destruct k.
    + now destruct k.
  - destruct n, k; cbn; auto. rewrite IH.
    destruct (Nat.eqb_spec k n); auto.
Qed.

Lemma set_Some {A} (l : list A) i v :
  0 <= i < Zlen l -> set l i v = Some (upd l (Z.to_nat i) v).
Proof.
  intros H. unfold set.
  destruct (Z.leb_spec 0 i), (Z.ltb_spec i (Zlen l)); auto; lia.
Qed.

Lemma set_Some_inv {A} (l l' : list A) i v :
  set l i v = Some l' -> 0 <= i < Zlen l /\ l' = upd l (Z.to_nat i) v.
Proof.
  unfold set.
  destruct (Z.leb_spec 0 i), (Z.ltb_spec i (Zlen l)); cbn; try discriminate.
  intros E; injection E as <-. split; [lia|auto].
Qed.

Lemma set_ok {A} (l : list A) i v :
  0 <= i < Zlen l -> exists l', set l i v = Some l'.
Proof. intros; rewrite set_Some; eauto. Qed.

Lemma set_len {A} (l l' : list A) i v : set l i v = Some l' -> Zlen l' = Zlen l.
Proof.
  intros H. apply set_Some_inv in H as [_ ->]. unfold Zlen. now rewrite upd_length.
Qed.

Lemma get_set {A} (l l' : list A) i v k :
  set l i v = Some l' -> get l' k = if k =? i then Some v else get l k.
Proof.
  intros H. apply set_Some_inv in H as [Hb ->]. unfold get, Zlen in *.
  destruct (Z.ltb_spec k 0).
  - destruct (Z.eqb_spec k i); [lia|auto].
  - rewrite nth_error_upd.
    destruct (Nat.eqb_spec (Z.to_nat k) (Z.to_nat i)), (Z.eqb_spec k i); try lia; auto.
    destruct (Nat.ltb_spec (Z.to_nat i) (length l)); [auto|lia].
Qed.

Lemma get_set_same {A} (l l' : list A) i v : set l i v = Some l' -> get l' i = Some v.
Proof. intros H. rewrite (get_set _ _ _ _ _ H). now rewrite Z.eqb_refl. Qed.

Lemma get_set_other {A} (l l' : list A) i v k :
  set l i v = Some l' -> k <> i -> get l' k = get l k.
Proof.
  intros H Hk. rewrite (get_set _ _ _ _ _ H).
  destruct (Z.eqb_spec k i); [lia|auto].
Qed.

Lemma list_ext {A} (a b : list A) :
  Zlen a = Zlen b -> (forall i, 0 <= i < Zlen a -> get a i = get b i) -> a = b.
Proof.
  intros Hl H.
  assert (forall n, nth_error a n = nth_error b n) as Hn.
  { intros n. destruct (Nat.lt_ge_cases n (length a)) as [Hlt|Hge].
    - rewrite <- !get_nat. apply H. unfold Zlen in *; lia.
    - rewrite (proj2 (nth_error_None a n)) by lia.
      symmetry; apply nth_error_None. unfold Zlen in *; lia. }
  clear H. revert b Hl Hn. induction a as [|x a IH]; intros [|y b] Hl Hn; auto.
  - rewrite Zlen_nil, Zlen_cons in Hl. pose proof (Zlen_nonneg b); lia.
  - rewrite Zlen_nil, Zlen_cons in Hl. pose proof (Zlen_nonneg a); lia.
  - pose proof (Hn 0%nat) as H0; cbn in H0. injection H0 as ->.
    f_equal. apply IH.
    + rewrite !Zlen_cons in Hl; lia.
    + intros n. apply (Hn (S n)).
Qed.

(** ** Ranges *)

Lemma zrange_nil lo hi : hi <= lo -> zrange lo hi = [].
Proof.
  intros H. unfold zrange. replace (Z.to_nat (hi - lo)) with 0%nat by lia. reflexivity.
Qed.

Lemma zrange_cons lo hi : lo < hi -> zrange lo hi = lo :: zrange (lo + 1) hi.
Proof.
  intros H. unfold zrange.
  replace (Z.to_nat (hi - lo)) with (S (Z.to_nat (hi - (lo + 1)))) by lia.
  cbn [seq map]. f_equal; [lia|].
  rewrite <- seq_shift, map_map. apply map_ext. intros; lia.
Qed.

Lemma In_zrange lo hi x : In x (zrange lo hi) <-> lo <= x < hi.
Proof.
  unfold zrange. rewrite in_map_iff. split.
  - intros (k & <- & Hk). apply in_seq in Hk. lia.
  - intros H. exists (Z.to_nat (x - lo)). split; [lia|]. apply in_seq. lia.
Qed.

Lemma zrange_app lo mid hi :
  lo <= mid <= hi -> zrange lo hi = zrange lo mid ++ zrange mid hi.
Proof.
  intros H. remember (Z.to_nat (mid - lo)) as n eqn:En.
  revert lo H En. induction n as [|n IH]; intros lo H En.
  - replace mid with lo by lia. now rewrite (zrange_nil lo lo) by lia.
  - rewrite (zrange_cons lo hi), (zrange_cons lo mid) by lia. cbn. f_equal.
    apply IH; lia.
Qed.

Lemma zrange_snoc lo hi : lo <= hi -> zrange lo (hi + 1) = zrange lo hi ++ [hi].
Proof.
  intros H. rewrite (zrange_app lo hi (hi + 1)) by lia.
  rewrite (zrange_cons hi), (zrange_nil (hi + 1)) by lia. reflexivity.
Qed.

Lemma Zlen_zrange lo hi : Zlen (zrange lo hi) = Z.max 0 (hi - lo).
Proof. unfold Zlen, zrange. rewrite map_length, seq_length. lia. Qed.

Lemma get_zrange lo hi i : 0 <= i < hi - lo -> get (zrange lo hi) i = Some (lo + i).
Proof.
  intros H. unfold get, zrange. destruct (Z.ltb_spec i 0); [lia|].
  rewrite nth_error_map.
  replace (nth_error (seq 0 (Z.to_nat (hi - lo))) (Z.to_nat i))
    with (Some (Z.to_nat i)).
  - cbn. f_equal; lia.
  - symmetry. rewrite (nth_error_nth' _ 0%nat).
    + f_equal. rewrite seq_nth; lia.
    + rewrite seq_length; lia.
Qed.

Lemma NoDup_zrange lo hi : NoDup (zrange lo hi).
Proof.
  unfold zrange. apply FinFun.Injective_map_NoDup.
  - intros a b; lia.
  - apply seq_NoDup.
Qed.

(** ** Loops *)

Lemma foldM_app {A S} (f : A -> S -> option S) l1 l2 s :
  foldM f (l1 ++ l2) s = (s' <- foldM f l1 s ;; foldM f l2 s').
Proof.
  revert s; induction l1 as [|a l IH]; intros s; cbn; auto.
  destruct (f a s); auto.
Qed.

Lemma foldM_ext {A S} (f g : A -> S -> option S) l s :
  (forall a s, In a l -> f a s = g a s) -> foldM f l s = foldM g l s.
Proof.
  revert s; induction l as [|a l IH]; intros s H; cbn; auto.
  rewrite H by (cbn; auto). destruct (g a s); auto.
  apply IH. intros; apply H; cbn; auto.
Qed.

Lemma foldM_inv {A S} (P : S -> Prop) (f : A -> S -> option S) l s s' :
  (forall a s s', In a l -> P s -> f a s = Some s' -> P s') ->
  P s -> foldM f l s = Some s' -> P s'.
Proof.
  revert s; induction l as [|a l IH]; intros s H HP; cbn.
  - intros E; injection E as <-; auto.
  - destruct (f a s) eqn:E; [|discriminate]. apply IH.
    + intros; eapply H; eauto; cbn; auto.
    + eapply H; eauto; cbn; auto.
Qed.

(** Total-correctness rule for counting loops. *)
Lemma forZ_rule {S} (I : Z -> S -> Prop) lo hi f s :
  lo <= hi ->
  I lo s ->
  (forall i s, lo <= i < hi -> I i s -> exists s', f i s = Some s' /\ I (i + 1) s') ->
  exists s', forZ lo hi f s = Some s' /\ I hi s'.
Proof.
  intros Hle HI Hstep. unfold forZ.
  remember (Z.to_nat (hi - lo)) as n eqn:En.
  assert (forall k lo', Z.of_nat k = hi - lo' -> lo <= lo' <= hi ->
          forall s, I lo' s -> exists s', foldM f (zrange lo' hi) s = Some s' /\ I hi s') as G.
  { induction k as [|k IH]; intros lo' Hk Hb s0 Hs0.
    - replace lo' with hi in * by lia. rewrite zrange_nil by lia. cbn. eauto.
    - rewrite zrange_cons by lia. cbn.
      destruct (Hstep lo' s0) as (s1 & E & H1); [lia|auto|]. rewrite E.
      apply IH; auto; lia. }
  apply (G n lo); auto; lia.
Qed.

Lemma forZdown_rule {S} (I : Z -> S -> Prop) hi lo f s :
  lo <= hi + 1 ->
  I (hi + 1) s ->
  (forall i s, lo <= i <= hi -> I (i + 1) s -> exists s', f i s = Some s' /\ I i s') ->
  exists s', forZdown hi lo f s = Some s' /\ I lo s'.
Proof.
  intros Hle HI Hstep. unfold forZdown.
  remember (Z.to_nat (hi + 1 - lo)) as n eqn:En.
  assert (forall k hi', Z.of_nat k = hi' - lo -> lo <= hi' <= hi + 1 ->
          forall s, I hi' s ->
          exists s', foldM f (rev (zrange lo hi')) s = Some s' /\ I lo s') as G.
  { induction k as [|k IH]; intros hi' Hk Hb s0 Hs0.
    - replace hi' with lo in * by lia. rewrite zrange_nil by lia. cbn. eauto.
    - replace hi' with ((hi' - 1) + 1) by lia. rewrite zrange_snoc by lia.
      rewrite rev_app_distr. cbn.
      destruct (Hstep (hi' - 1) s0) as (s1 & E & H1); [lia| |].
      + replace (hi' - 1 + 1) with hi' by lia. auto.
      + rewrite E. apply IH; auto; lia. }
  apply (G n (hi + 1)); auto; lia.
Qed.

Lemma forZ_nil {S} lo hi (f : Z -> S -> option S) s : hi <= lo -> forZ lo hi f s = Some s.
Proof. intros; unfold forZ; now rewrite zrange_nil. Qed.

Lemma forZ_split {S} lo mid hi (f : Z -> S -> option S) s :
  lo <= mid <= hi -> forZ lo hi f s = (s' <- forZ lo mid f s ;; forZ mid hi f s').
Proof. intros; unfold forZ. rewrite (zrange_app lo mid hi) by auto. apply foldM_app. Qed.

Lemma forZ_cons {S} lo hi (f : Z -> S -> option S) s :
  lo < hi -> forZ lo hi f s = (s' <- f lo s ;; forZ (lo + 1) hi f s').
Proof. intros; unfold forZ. rewrite zrange_cons by auto. reflexivity. Qed.

Lemma forZ_snoc {S} lo hi (f : Z -> S -> option S) s :
  lo <= hi -> forZ lo (hi + 1) f s = (s' <- forZ lo hi f s ;; f hi s').
Proof.
  intros; unfold forZ. rewrite zrange_snoc by auto. rewrite foldM_app.
  destruct (foldM f (zrange lo hi) s); auto. cbn. now destruct (f hi s0).
Qed.

Lemma forZ_ext {S} lo hi (f g : Z -> S -> option S) s :
  (forall i s, lo <= i < hi -> f i s = g i s) -> forZ lo hi f s = forZ lo hi g s.
Proof.
  intros H. apply foldM_ext. intros a s0 Ha. apply H. now apply In_zrange.
Qed.

(** ** mapM *)

Lemma mapM_Some {A B} (f : A -> option B) (g : A -> B) l :
  (forall a, In a l -> f a = Some (g a)) -> mapM f l = Some (map g l).
Proof.
  induction l as [|a l IH]; intros H; cbn; auto.
  rewrite H by (cbn; auto). rewrite IH; auto. intros; apply H; cbn; auto.
Qed.

Lemma mapM_length {A B} (f : A -> option B) l l' :
  mapM f l = Some l' -> length l' = length l.
Proof.
  revert l'; induction l as [|a l IH]; intros l'; cbn.
  - intros E; injection E as <-; auto.
  - destruct (f a); [|discriminate]. destruct (mapM f l); [|discriminate].
    intros E; injection E as <-. cbn. f_equal; auto.
Qed.

Lemma mapM_get {A B} (f : A -> option B) l l' i a :
  mapM f l = Some l' -> get l i = Some a -> get l' i = f a.
Proof.
  unfold get. destruct (i <? 0); [discriminate|].
  generalize (Z.to_nat i) as n. intros n. revert l' n.
  induction l as [|x l IH]; intros l' n; cbn.
  - now destruct n.
  - destruct (f x) eqn:E; [|discriminate]. destruct (mapM f l) eqn:E2; [|discriminate].
    intros H; injection H as <-. destruct n; cbn.
    + intros H; injection H as <-. auto.
    + apply IH; auto.
Qed.

(** ** Slices *)

(** Elements [lo, hi) of [l]. *)
Definition slice {A} (l : list A) (lo hi : Z) : list A :=
  firstn (Z.to_nat (hi - lo)) (skipn (Z.to_nat lo) l).

Lemma Zlen_slice {A} (l : list A) lo hi :
  0 <= lo <= hi -> hi <= Zlen l -> Zlen (slice l lo hi) = hi - lo.
Proof.
  intros H1 H2. unfold slice, Zlen in *. rewrite firstn_length, skipn_length. lia.
Qed.

Lemma nth_error_skipn' {A} (l : list A) n k :
  nth_error (skipn n l) k = nth_error l (n + k).
Proof.
  revert l; induction n as [|n IH]; intros l; cbn; auto.
  destruct l; cbn; auto. now destruct k.
Qed.

Lemma nth_error_firstn' {A} (l : list A) n k :
  (k < n)%nat -> nth_error (firstn n l) k = nth_error l k.
Proof.
  revert l k; induction n as [|n IH]; intros l k H; [lia|].
  destruct l; cbn; [now destruct k|]. destruct k; cbn; auto. apply IH; lia.
Qed.

Lemma get_slice {A} (l : list A) lo hi i :
  0 <= lo -> 0 <= i < hi - lo -> get (slice l lo hi) i = get l (lo + i).
Proof.
  intros H1 H2. unfold slice, get.
  destruct (Z.ltb_spec i 0), (Z.ltb_spec (lo + i) 0); try lia.
  rewrite nth_error_firstn' by lia. rewrite nth_error_skipn'. f_equal. lia.
Qed.

Lemma slice_nil {A} (l : list A) lo hi : hi <= lo -> slice l lo hi = [].
Proof. intros. unfold slice. replace (Z.to_nat (hi - lo)) with 0%nat by lia. reflexivity. Qed.

Lemma slice_app {A} (l : list A) lo mid hi :
  0 <= lo <= mid -> mid <= hi -> hi <= Zlen l ->
  slice l lo hi = slice l lo mid ++ slice l mid hi.
Proof.
  intros H1 H2 H3. apply list_ext.
  - rewrite Zlen_app, !Zlen_slice by lia. lia.
  - intros i Hi. rewrite Zlen_slice in Hi by lia.
    rewrite get_slice by lia.
    destruct (Z_lt_ge_dec i (mid - lo)).
    + rewrite get_app_l by (rewrite Zlen_slice; lia). rewrite get_slice by lia. auto.
    + rewrite get_app_r by (rewrite Zlen_slice; lia). rewrite Zlen_slice by lia.
      rewrite get_slice by lia. f_equal. lia.
Qed.

Lemma slice_full {A} (l : list A) : slice l 0 (Zlen l) = l.
Proof.
  unfold slice, Zlen. cbn [Z.to_nat skipn]. rewrite Z.sub_0_r, Nat2Z.id.
  cbn. apply firstn_all.
Qed.

Lemma slice_cons {A} (l : list A) lo hi a :
  get l lo = Some a -> lo < hi -> hi <= Zlen l ->
  slice l lo hi = a :: slice l (lo + 1) hi.
Proof.
  intros Ha Hlt Hle. pose proof (get_Some_bounds _ _ _ Ha).
  apply list_ext.
  - rewrite Zlen_cons, !Zlen_slice by lia. lia.
  - intros i Hi. rewrite Zlen_slice in Hi by lia. rewrite get_slice by lia.
    destruct (Z.eq_dec i 0) as [->|].
    + rewrite Z.add_0_r, get_cons_0. auto.
    + rewrite get_cons_pos by lia. rewrite get_slice by lia. f_equal; lia.
Qed.

Lemma slice_map {A B} (f : A -> B) l lo hi : slice (map f l) lo hi = map f (slice l lo hi).
Proof. unfold slice. now rewrite skipn_map, firstn_map. Qed.

Lemma In_slice {A} (l : list A) lo hi x : In x (slice l lo hi) -> In x l.
Proof.
  unfold slice. intros H. rewrite <- (firstn_skipn (Z.to_nat lo) l).
  apply in_or_app. right.
  rewrite <- (firstn_skipn (Z.to_nat (hi - lo)) (skipn (Z.to_nat lo) l)).
  apply in_or_app. now left.
Qed.

(** ** Tilings: consecutive ranges glue together *)

Lemma concat_zrange_tiling (b : Z -> Z) (T : Z) :
  0 <= T ->
  (forall t, 0 <= t < T -> b t <= b (t + 1)) ->
  concat (map (fun t => zrange (b t) (b (t + 1))) (zrange 0 T)) = zrange (b 0) (b T).
Proof.
  intros HT Hmono.
  assert (forall k, (Z.of_nat k <= T) ->
    b 0 <= b (Z.of_nat k) /\
    concat (map (fun t => zrange (b t) (b (t + 1))) (zrange 0 (Z.of_nat k)))
    = zrange (b 0) (b (Z.of_nat k))) as G.
  { induction k as [|k IH]; intros Hk.
    - cbn [Z.of_nat]. rewrite (zrange_nil 0 0), (zrange_nil (b 0) (b 0)) by lia.
      cbn. split; [lia|auto].
    - destruct IH as [IH1 IH2]; [lia|].
      pose proof (Hmono (Z.of_nat k)) as Hm.
      replace (Z.of_nat (S k)) with (Z.of_nat k + 1) by lia.
      split; [lia|].
      rewrite zrange_snoc by lia. rewrite map_app, concat_app, IH2. cbn.
      rewrite app_nil_r. symmetry. apply zrange_app. lia. }
  specialize (G (Z.to_nat T)). rewrite Z2Nat.id in G by lia. apply G. lia.
Qed.

(** ** Sums *)

Definition zsum (l : list Z) : Z := fold_right Z.add 0 l.

Lemma zsum_app l r : zsum (l ++ r) = zsum l + zsum r.
Proof. unfold zsum. induction l as [|a l IH]; cbn [fold_right app]; lia. Qed.

Lemma zsum_perm l r : Permutation l r -> zsum l = zsum r.
Proof. induction 1; unfold zsum in *; cbn [fold_right]; lia. Qed.

Lemma zsum_nonneg l : (forall x, In x l -> 0 <= x) -> 0 <= zsum l.
Proof.
  unfold zsum. induction l as [|a l IH]; intros H; cbn [fold_right]; [lia|].
  pose proof (H a (or_introl eq_refl)).
  assert (0 <= fold_right Z.add 0 l); [|lia].
  apply IH. intros; apply H; cbn; auto.
Qed.
