(** * Binary searches of the C++ standard library.

    [std::lower_bound], [std::upper_bound] and [std::binary_search] as used in
    /repo/Utils.cpp:56-57, /repo/LevelSchedule.cpp, /repo/SymGS.cpp and
    /repo/COO.cpp.  The model follows the halving loop of libstdc++ on the
    pointer range [first, last); an inverted range returns [first], as there. *)
From Verif Require Import Base Spec.

Fixpoint partition_point_ (fuel : nat) (pred : Z -> bool) (p : list Z) (first len : Z)
  : option Z :=
  if 0 <? len then
    match fuel with
    | O => None
    | S f =>
        let half := len / 2 in
        let mid := first + half in
        v <- get p mid ;;
        if pred v then partition_point_ f pred p (mid + 1) (len - half - 1)
        else partition_point_ f pred p first half
    end
  else Some first.

Definition partition_point pred p first last :=
  partition_point_ (Z.to_nat (last - first)) pred p first (last - first).

(** First position in [first,last) whose element is not less than [x]. *)
Definition lower_bound (p : list Z) (first last x : Z) : option Z :=
  partition_point (fun v => v <? x) p first last.

(** First position in [first,last) whose element is greater than [x]. *)
Definition upper_bound (p : list Z) (first last x : Z) : option Z :=
  partition_point (fun v => v <=? x) p first last.

Definition binary_search (p : list Z) (first last x : Z) : option bool :=
  r <- lower_bound p first last x ;;
  if r =? last then Some false
  else v <- get p r ;; Some (negb (x <? v)).

Lemma partition_point_safe_ fuel pred p first len :
  len <= Z.of_nat fuel -> 0 <= len -> 0 <= first -> first + len <= Zlen p ->
  exists r, partition_point_ fuel pred p first len = Some r /\ first <= r <= first + len.
Proof.
  revert first len; induction fuel as [|fuel IH]; intros first len H1 H2 H3 H4.
  - cbn. destruct (Z.ltb_spec 0 len); [lia|]. exists first; split; [auto|lia].
  - cbn [partition_point_]. destruct (Z.ltb_spec 0 len) as [Hl|Hl];
      [|exists first; split; [auto|lia]].
    assert (0 <= len / 2 < len) as Hh
      by (split; [apply Z.div_pos; lia|apply Z.div_lt; lia]).
    destruct (@get_in_range _ p (first + len / 2)) as [v Hv]; [lia|]. rewrite Hv.
    destruct (pred v).
    + destruct (IH (first + len / 2 + 1) (len - len / 2 - 1)) as (r & E & Hr); try lia.
      exists r; split; [exact E|lia].
    + destruct (IH first (len / 2)) as (r & E & Hr); try lia.
      exists r; split; [exact E|lia].
Qed.

(** Memory safe on any contents, also unsorted. *)
Lemma partition_point_safe pred p first last :
  0 <= first <= last -> last <= Zlen p ->
  exists r, partition_point pred p first last = Some r /\ first <= r <= last.
Proof.
  intros H1 H2. unfold partition_point.
  destruct (partition_point_safe_ (Z.to_nat (last - first)) pred p first (last - first))
    as (r & E & Hr); try lia.
  exists r; split; [auto|lia].
Qed.

Definition partitioned (pred : Z -> bool) (p : list Z) (first last : Z) : Prop :=
  forall i j a b, first <= i <= j -> j < last ->
    get p i = Some a -> get p j = Some b -> pred b = true -> pred a = true.

Lemma partition_point_spec_ fuel pred p first len r :
  partition_point_ fuel pred p first len = Some r ->
  0 <= len -> partitioned pred p first (first + len) ->
  first <= r <= first + len /\
  (forall i v, first <= i < r -> get p i = Some v -> pred v = true) /\
  (forall i v, r <= i < first + len -> get p i = Some v -> pred v = false).
Proof.
  revert first len r; induction fuel as [|fuel IH]; intros first len r E H2 Hp.
  - cbn in E. destruct (Z.ltb_spec 0 len); [discriminate|].
    injection E as <-. split; [lia|]. split; intros; lia.
  - cbn [partition_point_] in E. destruct (Z.ltb_spec 0 len) as [Hl|Hl].
    2:{ injection E as <-. split; [lia|]. split; intros; lia. }
    assert (0 <= len / 2 < len) as Hh
      by (split; [apply Z.div_pos; lia|apply Z.div_lt; lia]).
    destruct (get p (first + len / 2)) as [v|] eqn:Hv; [|discriminate].
    destruct (pred v) eqn:Hpv.
    + apply IH in E as (E1 & E2 & E3); try lia.
      * split; [lia|]. split.
        -- intros i w Hi Hw. destruct (Z_lt_ge_dec i (first + len / 2 + 1)).
           ++ apply (Hp i (first + len / 2) w v); auto; lia.
           ++ eapply E2; eauto; lia.
        -- intros i w Hi Hw. eapply E3; eauto; lia.
      * intros i j a b Hi Hj. apply Hp; lia.
    + apply IH in E as (E1 & E2 & E3); try lia.
      * split; [lia|]. split.
        -- intros i w Hi Hw. eapply E2; eauto.
        -- intros i w Hi Hw. destruct (Z_lt_ge_dec i (first + len / 2)).
           ++ eapply E3; eauto; lia.
           ++ destruct (pred w) eqn:Hpw; auto.
              assert (pred v = true) by (apply (Hp (first + len / 2) i v w); auto; lia).
              congruence.
      * intros i j a b Hi Hj. apply Hp; lia.
Qed.

Lemma partition_point_spec pred p first last r :
  partition_point pred p first last = Some r ->
  first <= last -> partitioned pred p first last ->
  first <= r <= last /\
  (forall i v, first <= i < r -> get p i = Some v -> pred v = true) /\
  (forall i v, r <= i < last -> get p i = Some v -> pred v = false).
Proof.
  unfold partition_point. intros E H Hp.
  apply partition_point_spec_ in E as (E1 & E2 & E3); try lia.
  - split; [lia|]. split; auto. intros; eapply E3; eauto; lia.
  - replace (first + (last - first)) with last by lia. auto.
Qed.

Definition monotone_on (p : list Z) (first last : Z) : Prop :=
  forall i j a b, first <= i <= j -> j < last ->
    get p i = Some a -> get p j = Some b -> a <= b.

Lemma monotone_monotone_on p first last : monotone p -> monotone_on p first last.
Proof. intros H i j a b Hi Hj. apply H. lia. Qed.

Lemma lower_bound_spec p first last x r :
  lower_bound p first last x = Some r ->
  first <= last -> monotone_on p first last ->
  first <= r <= last /\
  (forall i v, first <= i < r -> get p i = Some v -> v < x) /\
  (forall i v, r <= i < last -> get p i = Some v -> x <= v).
Proof.
  intros E H Hm. apply partition_point_spec in E as (E1 & E2 & E3); auto.
  - split; [auto|]. split; intros i v Hi Hv.
    + apply E2 in Hv; auto. lia.
    + apply E3 in Hv; auto. lia.
  - intros i j a b Hi Hj Ha Hb Hlt. pose proof (Hm i j a b Hi Hj Ha Hb). lia.
Qed.

Lemma upper_bound_spec p first last x r :
  upper_bound p first last x = Some r ->
  first <= last -> monotone_on p first last ->
  first <= r <= last /\
  (forall i v, first <= i < r -> get p i = Some v -> v <= x) /\
  (forall i v, r <= i < last -> get p i = Some v -> x < v).
Proof.
  intros E H Hm. apply partition_point_spec in E as (E1 & E2 & E3); auto.
  - split; [auto|]. split; intros i v Hi Hv.
    + apply E2 in Hv; auto. lia.
    + apply E3 in Hv; auto. lia.
  - intros i j a b Hi Hj Ha Hb Hlt. pose proof (Hm i j a b Hi Hj Ha Hb). lia.
Qed.

Lemma lower_bound_safe p first last x :
  0 <= first <= last -> last <= Zlen p ->
  exists r, lower_bound p first last x = Some r /\ first <= r <= last.
Proof. apply partition_point_safe. Qed.

Lemma upper_bound_safe p first last x :
  0 <= first <= last -> last <= Zlen p ->
  exists r, upper_bound p first last x = Some r /\ first <= r <= last.
Proof. apply partition_point_safe. Qed.

(** An inverted or empty range returns [first]. *)
Lemma partition_point_empty pred p first last :
  last <= first -> partition_point pred p first last = Some first.
Proof.
  intros H. unfold partition_point. replace (Z.to_nat (last - first)) with 0%nat by lia.
  cbn. destruct (Z.ltb_spec 0 (last - first)); [lia|auto].
Qed.

(** Monotone in the searched value. *)
Lemma lower_bound_mono p first last x y r s :
  lower_bound p first last x = Some r -> lower_bound p first last y = Some s ->
  first <= last -> 0 <= first -> last <= Zlen p -> monotone_on p first last -> x <= y -> r <= s.
Proof.
  intros Hr Hs H H0 Hl Hm Hxy.
  destruct (lower_bound_spec _ _ _ _ _ Hr H Hm) as (R1 & R2 & R3).
  destruct (lower_bound_spec _ _ _ _ _ Hs H Hm) as (S1 & S2 & S3).
  destruct (Z_lt_ge_dec s r); [|lia].
  destruct (@get_in_range _ p s) as [v Hv]; [lia|].
  assert (v < x) by (apply (R2 s v); auto; lia).
  assert (y <= v) by (apply (S3 s v); auto; lia). lia.
Qed.

Lemma upper_bound_mono p first last x y r s :
  upper_bound p first last x = Some r -> upper_bound p first last y = Some s ->
  first <= last -> 0 <= first -> last <= Zlen p -> monotone_on p first last -> x <= y -> r <= s.
Proof.
  intros Hr Hs H H0 Hl Hm Hxy.
  destruct (upper_bound_spec _ _ _ _ _ Hr H Hm) as (R1 & R2 & R3).
  destruct (upper_bound_spec _ _ _ _ _ Hs H Hm) as (S1 & S2 & S3).
  destruct (Z_lt_ge_dec s r); [|lia].
  destruct (@get_in_range _ p s) as [v Hv]; [lia|].
  assert (v <= x) by (apply (R2 s v); auto; lia).
  assert (y < v) by (apply (S3 s v); auto; lia). lia.
Qed.

Lemma binary_search_spec p first last x :
  0 <= first <= last -> last <= Zlen p -> monotone_on p first last ->
  exists b, binary_search p first last x = Some b /\
    (b = true <-> exists i, first <= i < last /\ get p i = Some x).
Proof.
  intros H1 H2 Hm. unfold binary_search.
  destruct (lower_bound_safe p first last x) as (r & E & Hr); auto. rewrite E.
  apply lower_bound_spec in E as (E1 & E2 & E3); try lia; auto.
  destruct (Z.eqb_spec r last) as [->|Hne].
  - exists false. split; auto. split; [discriminate|].
    intros (i & Hi & Hx). assert (x < x); [|lia]. apply (E2 i x); auto.
  - destruct (@get_in_range _ p r) as [v Hv]; [lia|]. rewrite Hv.
    exists (negb (x <? v)). split; auto.
    assert (x <= v) by (apply (E3 r v); auto; lia).
    split.
    + intros Hb. exists r. split; [lia|]. rewrite Hv. f_equal. lia.
    + intros (i & Hi & Hx).
      assert (r <= i) as Hri.
      { destruct (Z_lt_ge_dec i r); [|lia]. assert (x < x); [|lia]. apply (E2 i x); auto; lia. }
      assert (v <= x) by (apply (Hm r i v x); auto; lia). lia.
Qed.
