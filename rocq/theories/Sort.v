(** * The quicksort of matrix rows (/repo/COO.cpp:76-98).

    [qsort(idx, w, left, right)] sorts [idx[left..right]] in place and moves the
    elements of [w] along.  The recursion of the code is modelled with a fuel
    argument; running out of fuel is [None], so that the theorems, which say
    that the run is [Some] for a fuel equal to the length of the range, include
    termination. *)
From Verif Require Import Base Spec Transpose.
From Coq Require Import Permutation.

(** std::swap(a[i], a[j]) *)
Definition swap {A} (l : list A) (i j : Z) : option (list A) :=
  x <- get l i ;; y <- get l j ;; l <- set l i y ;; set l j x.

Section Model.
Context {W : Type}.

(** swap(idx[i], idx[j]); swap(w[i], w[j]) *)
Definition swap2 (i j : Z) (s : list Z * list W) : option (list Z * list W) :=
  let (idx, w) := s in
  idx <- swap idx i j ;; w <- swap w i j ;; Some (idx, w).

(** COO.cpp:85-91, one iteration; the state also holds [last]. *)
Definition part_step (left i : Z) (st : Z * (list Z * list W)) : option (Z * (list Z * list W)) :=
  let (last, s) := st in
  a <- get (fst s) i ;;
  p <- get (fst s) left ;;
  if a <? p then s <- swap2 (last + 1) i s ;; Some (last + 1, s) else Some (last, s).

(** COO.cpp:76-98 *)
Fixpoint qsort (fuel : nat) (s : list Z * list W) (left right : Z) : option (list Z * list W) :=
  if left >=? right then Some s else
  match fuel with
  | O => None
  | S fuel =>
      s <- swap2 left (left + Z.quot (right - left) 2) s ;;
      ' (last, s) <- forZ (left + 1) (right + 1) (part_step left) (left, s) ;;
      s <- swap2 left last s ;;
      s <- qsort fuel s left (last - 1) ;;
      qsort fuel s (last + 1) right
  end.
End Model.

(** ** Specification side *)

(** Elements [lo, hi) of the two arrays, as pairs. *)
Definition pairs_in {W} (s : list Z * list W) (lo hi : Z) : list (Z * W) :=
  slice (combine (fst s) (snd s)) lo hi.

(** ** The same on one array of pairs *)

Lemma swap_ok {A} (l : list A) i j : 0 <= i < Zlen l -> 0 <= j < Zlen l ->
  exists l', swap l i j = Some l' /\ Zlen l' = Zlen l /\ Permutation l l' /\
    get l' i = get l j /\ get l' j = get l i /\
    (forall k, k <> i -> k <> j -> get l' k = get l k).
Proof.
  intros Hi Hj. unfold swap.
  destruct (get_in_range l i Hi) as (x & Ex). destruct (get_in_range l j Hj) as (y & Ey). rewrite Ex, Ey.
  destruct (set_ok l i y Hi) as (l1 & E1). rewrite E1. pose proof (set_len _ _ _ _ E1) as L1.
  destruct (set_ok l1 j x) as (l2 & E2); [lia|]. rewrite E2. pose proof (set_len _ _ _ _ E2) as L2.
  exists l2. split; auto. split; [lia|].
  assert (G : forall k, get l2 k = if k =? j then Some x else if k =? i then Some y else get l k).
  { intros k. rewrite (get_set _ _ _ _ _ E2), (get_set _ _ _ _ _ E1). reflexivity. }
  split.
  - (* by a bijection of positions *)
    destruct (Z.eq_dec i j) as [->|Hne].
    + replace l2 with l; [apply Permutation_refl|]. apply list_ext; [lia|]. intros k Hk. rewrite G.
      destruct (Z.eqb_spec k j) as [->|]; congruence.
    + assert (W : forall a b u v, a < b -> 0 <= a -> b < Zlen l -> get l a = Some u -> get l b = Some v ->
         forall l', Zlen l' = Zlen l -> get l' a = Some v -> get l' b = Some u ->
         (forall k, k <> a -> k <> b -> get l' k = get l k) -> Permutation l l').
      { intros a b u v Hab Ha Hb Ea Eb l' Ll' Ga Gb Gk.
        assert (S : forall (z : list A), Zlen z = Zlen l -> forall p q, get z a = Some p -> get z b = Some q ->
          z = slice z 0 a ++ p :: slice z (a + 1) b ++ q :: slice z (b + 1) (Zlen z)).
        { intros z Lz p q Ep Eq. rewrite <- (slice_full z) at 1.
          rewrite (slice_app z 0 a (Zlen z)) by lia. f_equal.
          rewrite (slice_cons z a (Zlen z) p) by (auto; lia). f_equal.
          rewrite (slice_app z (a + 1) b (Zlen z)) by lia. f_equal.
          rewrite (slice_cons z b (Zlen z) q) by (auto; lia). reflexivity. }
        assert (SE : forall lo hi, 0 <= lo -> hi <= Zlen l -> (forall k, lo <= k < hi -> k <> a /\ k <> b) ->
          slice l' lo hi = slice l lo hi).
        { intros lo hi Hlo Hhi Hk. destruct (Z.le_gt_cases hi lo); [now rewrite !slice_nil by lia|].
          apply list_ext; [rewrite !Zlen_slice; lia|]. intros k Hk'. rewrite Zlen_slice in Hk' by lia.
          rewrite !get_slice by lia. apply Gk; destruct (Hk (lo + k)); lia. }
        rewrite (S l eq_refl u v Ea Eb), (S l' Ll' v u Ga Gb).
        rewrite Ll'. rewrite !SE by (intros; lia).
        apply Permutation_app_head. apply Permutation_sym.
        eapply Permutation_trans; [apply Permutation_cons_app with (l1 := slice l (a + 1) b)|].
        { apply Permutation_refl. }
        change (u :: slice l (a + 1) b ++ v :: slice l (b + 1) (Zlen l)) with
          ((u :: slice l (a + 1) b) ++ v :: slice l (b + 1) (Zlen l)).
        eapply Permutation_trans; [|apply Permutation_middle]. cbn [app].
        eapply Permutation_trans; [apply Permutation_sym, Permutation_middle|]. apply perm_skip.
        apply Permutation_sym, Permutation_middle. }
      destruct (Z.lt_ge_cases i j).
      * apply (W i j x y); try lia; auto.
        -- rewrite G. replace (i =? j) with false by lia. now rewrite Z.eqb_refl.
        -- rewrite G. now rewrite Z.eqb_refl.
        -- intros k H1 H2. rewrite G. replace (k =? j) with false by lia. replace (k =? i) with false by lia. auto.
      * apply (W j i y x); try lia; auto.
        -- rewrite G. now rewrite Z.eqb_refl.
        -- rewrite G. replace (i =? j) with false by lia. now rewrite Z.eqb_refl.
        -- intros k H1 H2. rewrite G. replace (k =? j) with false by lia. replace (k =? i) with false by lia. auto.
  - rewrite (G i), (G j), !Z.eqb_refl. split; [destruct (Z.eqb_spec i j) as [->|]; congruence|]. split; [congruence|].
    intros k H1 H2. rewrite G. replace (k =? j) with false by lia. now replace (k =? i) with false by lia.
Qed.

Lemma swap_map {A B} (f : A -> B) l i j l' : swap l i j = Some l' -> swap (map f l) i j = Some (map f l').
Proof.
  unfold swap. intros H. rewrite !get_map.
  destruct (get l i) as [x|]; [|discriminate]. destruct (get l j) as [y|]; [|discriminate]. cbn [option_map].
  rewrite set_map. destruct (set l i y) as [l1|]; [|discriminate]. cbn [option_map].
  rewrite set_map, H. reflexivity.
Qed.

Lemma swap2_ok {W} (l : list (Z * W)) i j : 0 <= i < Zlen l -> 0 <= j < Zlen l ->
  exists l', swap2 i j (map fst l, map snd l) = Some (map fst l', map snd l') /\ Zlen l' = Zlen l /\
    Permutation l l' /\ get l' i = get l j /\ get l' j = get l i /\
    (forall k, k <> i -> k <> j -> get l' k = get l k).
Proof.
  intros Hi Hj. destruct (swap_ok l i j Hi Hj) as (l' & E & H). exists l'. split; auto.
  unfold swap2. now rewrite (swap_map fst _ _ _ _ E), (swap_map snd _ _ _ _ E).
Qed.

Lemma get_map_Some {A B} (f : A -> B) l i x : get l i = Some x -> get (map f l) i = Some (f x).
Proof. intros H. now rewrite get_map, H. Qed.

Lemma partition_ok {W} (l : list (Z * W)) left right p :
  0 <= left < right -> right < Zlen l -> get l left = Some p ->
  exists last l', forZ (left + 1) (right + 1) (part_step left) (left, (map fst l, map snd l)) =
      Some (last, (map fst l', map snd l')) /\
    left <= last <= right /\ Zlen l' = Zlen l /\ Permutation l l' /\ get l' left = Some p /\
    (forall k, k < left \/ right < k -> get l' k = get l k) /\
    (forall k e, left < k <= last -> get l' k = Some e -> fst e < fst p) /\
    (forall k e, last < k <= right -> get l' k = Some e -> fst p <= fst e).
Proof.
  intros Hlr Hr Hp.
  destruct (forZ_rule (fun i (st : Z * (list Z * list W)) => exists last l', st = (last, (map fst l', map snd l')) /\
    left <= last < i /\ Zlen l' = Zlen l /\ Permutation l l' /\ get l' left = Some p /\
    (forall k, k < left \/ right < k -> get l' k = get l k) /\
    (forall k e, left < k <= last -> get l' k = Some e -> fst e < fst p) /\
    (forall k e, last < k < i -> get l' k = Some e -> fst p <= fst e))
    (left + 1) (right + 1) (part_step left) (left, (map fst l, map snd l)))
    as (st & E & last & l' & -> & H); [lia| | |].
  - exists left, l. repeat split; auto; intros; lia.
  - intros i st Hi (last & l1 & -> & H1 & L1 & P1 & G1 & O1 & A1 & B1).
    destruct (get_in_range l1 i) as (a & Ea); [lia|].
    unfold part_step. cbn [fst]. rewrite (get_map_Some fst _ _ _ Ea), (get_map_Some fst _ _ _ G1).
    destruct (Z.ltb_spec (fst a) (fst p)) as [Hlt|Hge].
    + destruct (swap2_ok l1 (last + 1) i) as (l2 & E2 & L2 & P2 & X2 & Y2 & O2); [lia|lia|].
      rewrite E2. eexists. split; [reflexivity|]. exists (last + 1), l2. split; [reflexivity|].
      split; [lia|]. split; [lia|]. split; [eapply Permutation_trans; eauto|].
      split; [rewrite O2; auto; lia|]. split; [intros k Hk; rewrite O2 by lia; auto|]. split.
      * intros k e Hk Ek. destruct (Z.eq_dec k (last + 1)) as [->|]; [congruence|].
        apply (A1 k e); [lia|]. rewrite <- O2; auto; lia.
      * intros k e Hk Ek. destruct (Z.eq_dec k i) as [->|].
        -- apply (B1 (last + 1) e); [lia|congruence].
        -- apply (B1 k e); [lia|]. rewrite <- O2; auto; lia.
    + eexists. split; [reflexivity|]. exists last, l1. repeat split; auto; try lia.
      intros k e Hk Ek. destruct (Z.eq_dec k i) as [->|]; [congruence|]. apply (B1 k e); auto; lia.
  - destruct H as (H1 & L1 & P1 & G1 & O1 & A1 & B1).
    exists last, l'. rewrite E. repeat split; auto; try lia; intros k e Hk; apply B1; lia.
Qed.

(** Lists that agree outside a range and are permutations of each other are
    permutations of each other inside it. *)
Lemma perm_inside {A} (l l' : list A) lo hi :
  0 <= lo <= hi -> hi <= Zlen l -> Zlen l' = Zlen l -> Permutation l l' ->
  (forall k, k < lo \/ hi <= k -> get l' k = get l k) ->
  Permutation (slice l lo hi) (slice l' lo hi).
Proof.
  intros H1 H2 HL HP HO.
  assert (E1 : slice l' 0 lo = slice l 0 lo).
  { apply list_ext; [rewrite !Zlen_slice; lia|]. intros k Hk. rewrite Zlen_slice in Hk by lia.
    rewrite !get_slice by lia. apply HO. lia. }
  assert (E2 : slice l' hi (Zlen l) = slice l hi (Zlen l)).
  { apply list_ext; [rewrite !Zlen_slice; lia|]. intros k Hk. rewrite Zlen_slice in Hk by lia.
    rewrite !get_slice by lia. apply HO. lia. }
  rewrite <- (slice_full l), <- (slice_full l'), HL in HP.
  rewrite (slice_app l 0 lo), (slice_app l lo hi), (slice_app l' 0 lo), (slice_app l' lo hi), E1, E2 in HP by lia.
  apply Permutation_app_inv_l in HP. now apply Permutation_app_inv_r in HP.
Qed.

Lemma In_slice_get {A} (l : list A) lo hi x : 0 <= lo <= hi -> hi <= Zlen l ->
  In x (slice l lo hi) <-> exists k, lo <= k < hi /\ get l k = Some x.
Proof.
  intros H1 H2. split.
  - intros H. apply In_get in H as (k & _ & Hk). pose proof (get_Some_bounds _ _ _ Hk) as B.
    rewrite Zlen_slice in B by lia. rewrite get_slice in Hk by lia. exists (lo + k). split; auto. lia.
  - intros (k & Hk & E). apply (get_In _ (k - lo)). rewrite get_slice by lia. replace (lo + (k - lo)) with k by lia. auto.
Qed.

(** A key bound survives a rearrangement of the range. *)
Lemma range_bound {A} (P : A -> Prop) (l l' : list A) lo hi :
  0 <= lo <= hi -> hi <= Zlen l -> Zlen l' = Zlen l -> Permutation l l' ->
  (forall k, k < lo \/ hi <= k -> get l' k = get l k) ->
  (forall k e, lo <= k < hi -> get l k = Some e -> P e) ->
  (forall k e, lo <= k < hi -> get l' k = Some e -> P e).
Proof.
  intros H1 H2 HL HP HO HK k e Hk Ek.
  assert (In e (slice l lo hi)) as Hin.
  { apply (Permutation_in e (Permutation_sym (perm_inside l l' lo hi H1 H2 HL HP HO))).
    apply In_slice_get; try lia. eauto. }
  apply In_slice_get in Hin as (q & Hq & Eq); try lia. eauto.
Qed.

Definition range_sorted {W} (l : list (Z * W)) (lo hi : Z) : Prop :=
  forall i j a b, lo <= i <= j -> j < hi -> get l i = Some a -> get l j = Some b -> fst a <= fst b.

Theorem qsort_ok {W} fuel : forall (l : list (Z * W)) left right,
  0 <= left -> right < Zlen l -> right - left < Z.of_nat fuel ->
  exists l', qsort fuel (map fst l, map snd l) left right = Some (map fst l', map snd l') /\
    Zlen l' = Zlen l /\ Permutation l l' /\
    (forall k, k < left \/ right < k -> get l' k = get l k) /\
    range_sorted l' left (right + 1).
Proof.
  induction fuel as [|fuel IH]; intros l left right Hl Hr Hf; cbn [qsort]; rewrite Z.geb_leb;
    (destruct (Z.leb_spec right left) as [Hle|Hgt];
      [exists l; split; [reflexivity|]; split; auto; split; [apply Permutation_refl|]; split; auto;
       intros i j a b Hij Hj Ea Eb; assert (i = j) by lia; subst; replace b with a by congruence; lia|]).
  - lia.
  - assert (Hmid : left <= left + Z.quot (right - left) 2 <= right).
    { rewrite Z.quot_div_nonneg by lia. pose proof (Z.div_pos (right - left) 2). 
      assert ((right - left) / 2 <= right - left) by (apply Z.div_le_upper_bound; lia). lia. }
    destruct (swap2_ok l left (left + Z.quot (right - left) 2)) as (l1 & E1 & L1 & P1 & X1 & Y1 & O1); try lia.
    rewrite E1.
    destruct (get_in_range l1 left) as (p & Ep); [lia|].
    destruct (partition_ok l1 left right p) as (last & l2 & E2 & Hlast & L2 & P2 & X2 & O2 & A2 & B2); try lia; auto.
    rewrite E2.
    destruct (swap2_ok l2 left last) as (l3 & E3 & L3 & P3 & X3 & Y3 & O3); try lia.
    rewrite E3.
    assert (A3 : forall k e, left <= k < last -> get l3 k = Some e -> fst e <= fst p).
    { intros k e Hk Ek. destruct (Z.eq_dec k left) as [->|].
      - rewrite X3 in Ek. specialize (A2 last e ltac:(lia) Ek). lia.
      - rewrite O3 in Ek by lia. specialize (A2 k e ltac:(lia) Ek). lia. }
    assert (B3 : forall k e, last + 1 <= k < right + 1 -> get l3 k = Some e -> fst p <= fst e).
    { intros k e Hk Ek. rewrite O3 in Ek by lia. apply (B2 k e); auto. lia. }
    assert (C3 : get l3 last = Some p) by congruence.
    destruct (IH l3 left (last - 1)) as (l4 & E4 & L4 & P4 & O4 & S4); try lia. rewrite E4.
    destruct (IH l4 (last + 1) right) as (l5 & E5 & L5 & P5 & O5 & S5); try lia. rewrite E5.
    exists l5. split; auto. split; [lia|].
    split; [repeat (eapply Permutation_trans; [eassumption|]); apply Permutation_refl|].
    split.
    { intros k Hk. rewrite O5, O4, O3, O2, O1 by lia. auto. }
    assert (A5 : forall k e, left <= k < last -> get l5 k = Some e -> fst e <= fst p).
    { intros k e Hk Ek. rewrite O5 in Ek by lia. revert k e Hk Ek.
      apply (range_bound (fun e => fst e <= fst p) l3 l4); auto; try lia. intros k Hk. apply O4. lia. }
    assert (B5 : forall k e, last + 1 <= k < right + 1 -> get l5 k = Some e -> fst p <= fst e).
    { apply (range_bound (fun e => fst p <= fst e) l4 l5); auto; try lia.
      - intros k Hk. apply O5. lia.
      - intros k e Hk Ek. rewrite O4 in Ek by lia. eapply B3; eauto. }
    assert (C5 : get l5 last = Some p) by (rewrite O5, O4 by lia; auto).
    intros i j a b Hij Hj Ea Eb.
    destruct (Z.lt_trichotomy i last) as [Hi|[->|Hi]].
    + destruct (Z.lt_trichotomy j last) as [Hj'|[->|Hj']].
      * rewrite O5 in Ea, Eb by lia. apply (S4 i j a b); auto; lia.
      * rewrite C5 in Eb. injection Eb as <-. apply (A5 i a); auto; lia.
      * transitivity (fst p); [apply (A5 i a)|apply (B5 j b)]; auto; lia.
    + rewrite C5 in Ea. injection Ea as <-. destruct (Z.eq_dec j last) as [->|].
      * rewrite C5 in Eb. injection Eb as <-. lia.
      * apply (B5 j b); auto; lia.
    + apply (S5 i j a b); auto; lia.
Qed.

(** ** The insertion sort of the permutation routines
    (/repo/Permute.cpp:149-177, 180-202, 206-219, 319-332)

    [for j = lo+1 .. hi-1: c = col[j]; v = val[j]; k = j - 1;
     while (k >= lo && col[k] > c) { col[k+1] = col[k]; val[k+1] = val[k]; --k; }
     col[k+1] = c; val[k+1] = v;] *)
Section Insertion.
Context {W : Type}.
Fixpoint ins_shift (fuel : nat) (lo c : Z) (k : Z) (s : list Z * list W) : option (Z * (list Z * list W)) :=
  if k >=? lo then
    a <- get (fst s) k ;;
    if a >? c then
      match fuel with
      | O => None
      | S fuel =>
          w <- get (snd s) k ;;
          idx <- set (fst s) (k + 1) a ;;
          ws <- set (snd s) (k + 1) w ;;
          ins_shift fuel lo c (k - 1) (idx, ws)
      end
    else Some (k, s)
  else Some (k, s).

Definition ins_step (lo j : Z) (s : list Z * list W) : option (list Z * list W) :=
  c <- get (fst s) j ;;
  v <- get (snd s) j ;;
  ' (k, s) <- ins_shift (Z.to_nat (j - lo)) lo c (j - 1) s ;;
  idx <- set (fst s) (k + 1) c ;;
  ws <- set (snd s) (k + 1) v ;;
  Some (idx, ws).

Definition insertion_sort (lo hi : Z) (s : list Z * list W) : option (list Z * list W) :=
  forZ (lo + 1) hi (ins_step lo) s.
End Insertion.

(** ** Insertion into a sorted list, and the sort by repeated insertion *)
Fixpoint insert {W} (e : Z * W) (l : list (Z * W)) : list (Z * W) :=
  match l with
  | [] => [e]
  | x :: l => if fst e <? fst x then e :: x :: l else x :: insert e l
  end.
Definition isort {W} (l : list (Z * W)) : list (Z * W) := fold_left (fun acc e => insert e acc) l [].

Definition keys_sorted {W} (l : list (Z * W)) : Prop := sortedZ (map fst l).

Lemma insert_perm {W} (e : Z * W) l : Permutation (insert e l) (e :: l).
Proof.
  induction l as [|x l IH]; cbn; auto. destruct (fst e <? fst x); auto.
  eapply Permutation_trans; [apply perm_skip, IH|]. apply perm_swap.
Qed.

Lemma insert_sorted {W} (e : Z * W) l : keys_sorted l -> keys_sorted (insert e l).
Proof.
  unfold keys_sorted, sortedZ. induction l as [|x l IH]; intros H; cbn [insert].
  - repeat constructor.
  - inversion H as [|y t Hs Hf Heq]; subst. destruct (Z.ltb_spec (fst e) (fst x)) as [Hlt|Hge].
    + cbn [map]. constructor; auto. constructor; [lia|]. eapply Forall_impl; [|exact Hf]. cbn. lia.
    + cbn [map]. constructor; auto.
      apply Forall_forall. intros y Hy. apply in_map_iff in Hy as (z & <- & Hz).
      apply (Permutation_in _ (insert_perm e l)) in Hz. destruct Hz as [->|Hz]; [lia|].
      rewrite Forall_forall in Hf. apply Hf. now apply in_map.
Qed.

Lemma insert_split {W} (e : Z * W) p q :
  (forall x, In x p -> fst x <= fst e) -> (forall x, In x q -> fst e < fst x) ->
  insert e (p ++ q) = p ++ e :: q.
Proof.
  intros Hp Hq. induction p as [|x p IH]; cbn [app insert].
  - destruct q as [|y q]; auto. cbn [insert]. replace (fst e <? fst y) with true; auto.
    specialize (Hq y ltac:(cbn; auto)). lia.
  - replace (fst e <? fst x) with false by (specialize (Hp x ltac:(cbn; auto)); lia).
    now rewrite IH by (intros; apply Hp; cbn; auto).
Qed.

Lemma isort_snoc {W} (l : list (Z * W)) e : isort (l ++ [e]) = insert e (isort l).
Proof. unfold isort. now rewrite fold_left_app. Qed.

Lemma isort_perm {W} (l : list (Z * W)) : Permutation (isort l) l.
Proof.
  induction l as [|e l IH] using rev_ind; [apply Permutation_refl|]. rewrite isort_snoc.
  eapply Permutation_trans; [apply insert_perm|]. eapply Permutation_trans; [apply perm_skip, IH|].
  apply Permutation_cons_append.
Qed.

Lemma isort_sorted {W} (l : list (Z * W)) : keys_sorted (isort l).
Proof. induction l as [|e l IH] using rev_ind; [constructor|]. rewrite isort_snoc. now apply insert_sorted. Qed.

Lemma keys_sorted_get {W} (l : list (Z * W)) :
  keys_sorted l <-> (forall i j a b, i <= j -> get l i = Some a -> get l j = Some b -> fst a <= fst b).
Proof.
  unfold keys_sorted, sortedZ. split.
  - induction l as [|x l IH]; intros H i j a b Hij Ea Eb.
    + apply get_Some_bounds in Ea. unfold Zlen in Ea. cbn in Ea. lia.
    + inversion H as [|y t Hs Hf]; subst. pose proof (get_Some_bounds _ _ _ Ea) as Ba.
      pose proof (get_Some_bounds _ _ _ Eb) as Bb.
      destruct (Z.eq_dec i 0) as [->|].
      * rewrite get_cons_0 in Ea. injection Ea as <-. destruct (Z.eq_dec j 0) as [->|].
        -- rewrite get_cons_0 in Eb. injection Eb as <-. lia.
        -- rewrite get_cons_pos in Eb by lia. rewrite Forall_forall in Hf. apply Hf.
           apply in_map. now apply get_In in Eb.
      * rewrite get_cons_pos in Ea, Eb by lia. apply (IH Hs (i - 1) (j - 1)); auto. lia.
  - induction l as [|x l IH]; intros H; cbn [map]; constructor.
    + apply IH. intros i j a b Hij Ea Eb. apply (H (i + 1) (j + 1)); try lia.
      * rewrite get_cons_S; auto. now apply get_Some_bounds in Ea.
      * rewrite get_cons_S; auto. now apply get_Some_bounds in Eb.
    + apply Forall_forall. intros k Hk. apply in_map_iff in Hk as (e & <- & He). apply In_get in He as (i & _ & Hi).
      pose proof (get_Some_bounds _ _ _ Hi). apply (H 0 (i + 1)); [lia|apply get_cons_0|].
      rewrite get_cons_S; auto. lia.
Qed.

Lemma range_sorted_slice {W} (l : list (Z * W)) lo hi : 0 <= lo <= hi -> hi <= Zlen l ->
  range_sorted l lo hi <-> keys_sorted (slice l lo hi).
Proof.
  intros H1 H2. rewrite keys_sorted_get. unfold range_sorted. split.
  - intros H i j a b Hij Ea Eb. pose proof (get_Some_bounds _ _ _ Ea) as Ba. pose proof (get_Some_bounds _ _ _ Eb) as Bb.
    rewrite Zlen_slice in Ba, Bb by lia. rewrite get_slice in Ea, Eb by lia. apply (H (lo + i) (lo + j)); auto; lia.
  - intros H i j a b Hij Hj Ea Eb. apply (H (i - lo) (j - lo)); [lia| |].
    + rewrite get_slice by lia. now replace (lo + (i - lo)) with i by lia.
    + rewrite get_slice by lia. now replace (lo + (j - lo)) with j by lia.
Qed.

(** ** The insertion sort computes [isort] of the range *)

Lemma ins_shift_ok {W} (l : list (Z * W)) lo j (e : Z * W) fuel : forall k lk,
  0 <= lo -> lo - 1 <= k < j -> j < Zlen l -> k - lo < Z.of_nat fuel ->
  Zlen lk = Zlen l ->
  (forall i, i <= k \/ j < i -> get lk i = get l i) ->
  (forall i, k + 2 <= i <= j -> get lk i = get l (i - 1)) ->
  (forall i x, k < i < j -> get l i = Some x -> fst e < fst x) ->
  exists k' l', ins_shift fuel lo (fst e) k (map fst lk, map snd lk) = Some (k', (map fst l', map snd l')) /\
    lo - 1 <= k' <= k /\ Zlen l' = Zlen l /\
    (forall i, i <= k' \/ j < i -> get l' i = get l i) /\
    (forall i, k' + 2 <= i <= j -> get l' i = get l (i - 1)) /\
    (forall i x, k' < i < j -> get l i = Some x -> fst e < fst x) /\
    (k' < lo \/ exists x, get l k' = Some x /\ fst x <= fst e).
Proof.
  induction fuel as [|fuel IH]; intros k lk Hlo Hk Hj Hf HL HA HB HC; cbn [ins_shift]; rewrite Z.geb_leb;
   (destruct (Z.leb_spec lo k) as [Hle|Hlt];
     [|exists k, lk; split; [reflexivity|]; split; [lia|]; do 4 (split; [now auto|]); left; lia]).
  - lia.
  - destruct (get_in_range l k) as (x & Ex); [lia|].
    assert (Exk : get lk k = Some x) by (rewrite HA; auto; lia).
    cbn [fst snd]. rewrite (get_map_Some fst _ _ _ Exk). rewrite Z.gtb_ltb.
    destruct (Z.ltb_spec (fst e) (fst x)) as [Hgt|Hge].
    + rewrite (get_map_Some snd _ _ _ Exk). rewrite !set_map.
      destruct (set_ok lk (k + 1) x) as (l1 & E1); [lia|]. rewrite E1. cbn [option_map].
      pose proof (set_len _ _ _ _ E1) as L1.
      destruct (IH (k - 1) l1) as (k' & l' & E & Hk' & H); try lia; auto.
      * intros i Hi. rewrite (get_set_other _ _ _ _ _ E1) by lia. apply HA. lia.
      * intros i Hi. rewrite (get_set _ _ _ _ _ E1). destruct (Z.eqb_spec i (k + 1)) as [->|].
        -- replace (k + 1 - 1) with k by lia. auto.
        -- apply HB. lia.
      * intros i y Hi Ey. destruct (Z.eq_dec i k) as [->|]; [congruence|]. apply (HC i y); auto. lia.
      * exists k', l'. split; auto. split; [lia|]. auto.
    + exists k, lk. split; auto. split; [lia|]. do 4 (split; [now auto|]). right. eauto.
Qed.

(** [l'] is [l] with the elements of [lo, hi) replaced by [seg]. *)
Definition replaced {A} (l : list A) (lo hi : Z) (seg : list A) (l' : list A) : Prop :=
  Zlen l' = Zlen l /\ slice l' lo hi = seg /\ forall k, k < lo \/ hi <= k -> get l' k = get l k.

Lemma ins_step_ok {W} (l : list (Z * W)) lo j (e : Z * W) : 0 <= lo <= j -> j < Zlen l ->
  keys_sorted (slice l lo j) -> get l j = Some e ->
  exists l', ins_step lo j (map fst l, map snd l) = Some (map fst l', map snd l') /\
    replaced l lo (j + 1) (insert e (slice l lo j)) l'.
Proof.
  intros Hlo Hj Hs He. unfold ins_step. cbn [fst snd].
  rewrite (get_map_Some fst _ _ _ He), (get_map_Some snd _ _ _ He).
  destruct (ins_shift_ok l lo j e (Z.to_nat (j - lo)) (j - 1) l) as (k & l1 & E & Hk & L1 & A1 & B1 & C1 & D1);
    try lia; auto; try (intros; lia).
  rewrite E. cbn [fst snd]. rewrite !set_map.
  destruct (set_ok l1 (k + 1) e) as (l2 & E2); [lia|]. rewrite E2. cbn [option_map].
  pose proof (set_len _ _ _ _ E2) as L2.
  exists l2. split; auto. split; [lia|]. split.
  - rewrite (slice_app l lo (k + 1) j) by lia.
    rewrite insert_split.
    + apply list_ext.
      * rewrite Zlen_app, Zlen_cons, !Zlen_slice by lia. lia.
      * intros i Hi. rewrite Zlen_slice in Hi by lia. rewrite get_slice by lia.
        rewrite (get_set _ _ _ _ _ E2). destruct (Z.lt_trichotomy (lo + i) (k + 1)) as [H|[H|H]].
        -- rewrite get_app_l by (rewrite Zlen_slice; lia). rewrite get_slice by lia.
           replace (lo + i =? k + 1) with false by lia. apply A1. lia.
        -- rewrite get_app_r by (rewrite Zlen_slice; lia). rewrite Zlen_slice by lia.
           replace (lo + i =? k + 1) with true by lia. replace (i - (k + 1 - lo)) with 0 by lia. now rewrite get_cons_0.
        -- rewrite get_app_r by (rewrite Zlen_slice; lia). rewrite Zlen_slice by lia.
           replace (lo + i =? k + 1) with false by lia. rewrite get_cons_pos by lia. rewrite get_slice by lia.
           rewrite B1 by lia. f_equal. lia.
    + intros x Hx. apply In_slice_get in Hx as (i & Hi & Ei); try lia. destruct D1 as [D1|(y & Ey & Hy)]; [lia|].
      rewrite <- range_sorted_slice in Hs by lia. transitivity (fst y); auto. apply (Hs i k); auto; lia.
    + intros x Hx. apply In_slice_get in Hx as (i & Hi & Ei); [apply (C1 i x); auto; lia|lia|lia].
  - intros i Hi. rewrite (get_set_other _ _ _ _ _ E2) by lia. apply A1. lia.
Qed.

Theorem insertion_sort_ok {W} (l : list (Z * W)) lo hi : 0 <= lo <= hi -> hi <= Zlen l ->
  exists l', insertion_sort lo hi (map fst l, map snd l) = Some (map fst l', map snd l') /\
    replaced l lo hi (isort (slice l lo hi)) l'.
Proof.
  intros Hlo Hhi. unfold insertion_sort. destruct (Z.eq_dec lo hi) as [->|Hne].
  - rewrite forZ_nil by lia. exists l. split; auto. unfold replaced. rewrite !slice_nil by lia. auto.
  - destruct (forZ_rule (fun j (s : list Z * list W) => exists l', s = (map fst l', map snd l') /\
      replaced l lo j (isort (slice l lo j)) l') (lo + 1) hi (ins_step lo) (map fst l, map snd l))
      as (s & E & l' & -> & H); [lia| | |].
    + exists l. split; auto. split; auto. split; auto.
      destruct (get_in_range l lo) as (e & Ee); [lia|]. rewrite (slice_cons l lo (lo + 1) e) by (auto; lia).
      rewrite slice_nil by lia. reflexivity.
    + intros j s Hj (l1 & -> & L1 & S1 & O1).
      destruct (get_in_range l j) as (e & Ee); [lia|].
      destruct (ins_step_ok l1 lo j e) as (l2 & E2 & L2 & S2 & O2); try lia.
      * rewrite S1. apply isort_sorted.
      * rewrite O1; auto. lia.
      * rewrite E2. eexists. split; eauto. exists l2. split; auto. split; [lia|]. split.
        -- rewrite S2, S1. rewrite (slice_app l lo j (j + 1)) by lia.
           rewrite (slice_cons l j (j + 1) e) by (auto; lia). rewrite (slice_nil l (j + 1)) by lia.
           now rewrite isort_snoc.
        -- intros k Hk. rewrite O2 by lia. apply O1. lia.
    + eauto.
Qed.

Lemma replaced_app {A} (l l' : list A) lo hi seg : 0 <= lo <= hi -> hi <= Zlen l -> replaced l lo hi seg l' ->
  l' = slice l 0 lo ++ seg ++ slice l hi (Zlen l).
Proof.
  intros H1 H2 (HL & <- & HO). rewrite <- (slice_full l') at 1.
  rewrite (slice_app l' 0 lo), (slice_app l' lo hi) by lia. f_equal; [|f_equal].
  - apply list_ext; [rewrite !Zlen_slice; lia|]. intros k Hk. rewrite Zlen_slice in Hk by lia.
    rewrite !get_slice by lia. apply HO. lia.
  - rewrite HL. apply list_ext; [rewrite !Zlen_slice; lia|]. intros k Hk. rewrite Zlen_slice in Hk by lia.
    rewrite !get_slice by lia. apply HO. lia.
Qed.

(** On two arrays. *)
Lemma combine_fst_snd {W} (idx : list Z) (w : list W) : Zlen idx = Zlen w ->
  map fst (combine idx w) = idx /\ map snd (combine idx w) = w.
Proof.
  revert w. induction idx as [|a idx IH]; intros [|b w] H.
  - auto.
  - rewrite Zlen_cons in H. pose proof (Zlen_nonneg w). change (Zlen (@nil Z)) with 0 in H. lia.
  - rewrite Zlen_cons in H. pose proof (Zlen_nonneg idx). change (Zlen (@nil W)) with 0 in H. lia.
  - rewrite !Zlen_cons in H. destruct (IH w) as [E1 E2]; [lia|]. cbn. now rewrite E1, E2.
Qed.
Lemma combine_map_fst_snd {W} (l : list (Z * W)) : combine (map fst l) (map snd l) = l.
Proof. induction l as [|[a b] l IH]; cbn; congruence. Qed.

Theorem qsort_arrays {W} (idx : list Z) (w : list W) left right fuel :
  Zlen idx = Zlen w -> 0 <= left -> right < Zlen idx -> right - left < Z.of_nat fuel ->
  exists idx' w', qsort fuel (idx, w) left right = Some (idx', w') /\
    Zlen idx' = Zlen idx /\ Zlen w' = Zlen w /\
    (forall k, k < left \/ right < k -> get idx' k = get idx k /\ get w' k = get w k) /\
    (forall i j a b, left <= i <= j -> j <= right -> get idx' i = Some a -> get idx' j = Some b -> a <= b) /\
    (left <= right -> Permutation (pairs_in (idx, w) left (right + 1)) (pairs_in (idx', w') left (right + 1))).
Proof.
  intros HL H0 H1 Hf. destruct (combine_fst_snd idx w HL) as [E1 E2].
  destruct (qsort_ok fuel (combine idx w) left right) as (l' & E & L & P & O & S); auto.
  { rewrite <- E1 in H1. now rewrite Zlen_map in H1. }
  rewrite E1, E2 in E. exists (map fst l'), (map snd l'). split; auto.
  assert (Lc : Zlen (combine idx w) = Zlen idx) by (rewrite <- E1 at 2; now rewrite Zlen_map).
  split; [rewrite Zlen_map; lia|]. split; [rewrite Zlen_map; lia|]. split.
  - intros k Hk. split.
    + transitivity (get (map fst (combine idx w)) k); [rewrite !get_map, O by auto; auto|now rewrite E1].
    + transitivity (get (map snd (combine idx w)) k); [rewrite !get_map, O by auto; auto|now rewrite E2].
  - split.
    + intros i j a b Hij Hj Ea Eb. rewrite get_map in Ea. rewrite get_map in Eb.
      destruct (get l' i) as [x|] eqn:Ex; [|discriminate]. destruct (get l' j) as [y|] eqn:Ey; [|discriminate].
      injection Ea as <-. injection Eb as <-. apply (S i j x y); auto; lia.
    + intros Hlr. unfold pairs_in. cbn [fst snd]. rewrite combine_map_fst_snd. apply perm_inside; auto; try lia.
      intros k Hk. apply O. lia.
Qed.
