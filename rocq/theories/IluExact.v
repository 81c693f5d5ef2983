(** * What ILU(0) computes, in exact arithmetic.

    The array left by the factorisation of Ilu.v (pcg.cpp:136-235), when the
    values are in a field: with the diagonal and what is above it as U, and what
    is below it and a unit diagonal as L, the product L U has the entries of the
    matrix wherever the matrix has an entry. *)
From Coq Require Import Field_theory Ring Permutation.
From Verif Require Import Base Interleave Spec Flat Csr CsrOps Fill SpMV P2P P2PProg Exec Kernels Ilu Solve.

Section Field.
Context {V : Type}.
Variables (zero one : V) (add mul sub : V -> V -> V) (opp : V -> V) (div : V -> V -> V) (inv : V -> V).
Variable FT : field_theory zero one add mul sub opp div inv (@eq V).
Let RT : ring_theory zero one add mul sub opp (@eq V) := F_R FT.
Add Ring Vring3 : RT.
Notation rt := (row_times zero one add mul true).
Notation coefat := (coefat zero add).

(** ** Specification *)
(** Entry (k, c) of the upper factor stored in [lu], diagonal included. *)
Definition upper_at (lu : rows_t V) (k c : Z) : V := coefat (filter (fun e => k <=? fst e) (nthl lu k)) c.
(** Row r of the lower factor, without its unit diagonal. *)
Definition lower_row (lu : rows_t V) (r : Z) : list (Z * V) := filter (fun e => fst e <? r) (nthl lu r).
(** Entry (r, c) of the product of the factors. *)
Definition product_at (lu : rows_t V) (r c : Z) : V := add (rt (lower_row lu r) (fun k => upper_at lu k c)) (upper_at lu r c).
Definition factors (rows lu : rows_t V) : Prop :=
  map (map fst) lu = map (map fst) rows /\ forall r c a, 0 <= r < Zlen rows -> In (c, a) (nthl rows r) -> product_at lu r c = a.
Definition sorted_rows (rows : rows_t V) : Prop := forall r, 0 <= r < Zlen rows -> ssortedZ (map fst (nthl rows r)).

(** ** Proofs *)
Lemma div_mul x z : z <> zero -> mul (div x z) z = x.
Proof. intros Hz. rewrite (Fdiv_def FT). transitivity (mul x (mul (inv z) z)); [ring|]. rewrite (Finv_l FT) by auto. ring. Qed.
Lemma coefat_none row c : (forall v, ~ In (c, v) row) -> coefat row c = zero.
Proof.
  intros H. unfold Solve.coefat. replace (filter (fun e => fst e =? c) row) with (@nil (Z * V)); auto. symmetry.
  induction row as [|(d, w) row IH]; auto. cbn [filter fst]. destruct (Z.eqb_spec d c) as [->|N]; [destruct (H w); cbn; auto|]. apply IH. intros v Hv. apply (H v). cbn; auto.
Qed.
Lemma coefat_one row c v : NoDup (map fst row) -> In (c, v) row -> coefat row c = v.
Proof.
  induction row as [|(d, w) row IH]; intros ND Hi; [destruct Hi|]. cbn [map fst] in ND. apply NoDup_cons_iff in ND as (N1 & ND). unfold Solve.coefat. cbn [filter fst].
  destruct Hi as [E|Hi].
  - injection E as -> ->. rewrite Z.eqb_refl. cbn [map fold_right snd]. fold (coefat row c). rewrite coefat_none; [ring|]. intros w Hw. apply N1. apply in_map_iff. exists (c, w). auto.
  - destruct (Z.eqb_spec d c) as [->|N]; [|apply IH; auto]. destruct N1. apply in_map_iff. exists (c, v). auto.
Qed.
Lemma ssorted_NoDup l : ssortedZ l -> NoDup l.
Proof. induction 1 as [|a l H IH HF]; constructor; auto. intros Hi. rewrite Forall_forall in HF. specialize (HF a Hi). lia. Qed.
Lemma ssorted_get l i j a b : ssortedZ l -> i < j -> get l i = Some a -> get l j = Some b -> a < b.
Proof.
  intros H. revert i j. induction H as [|x l H IH HF]; intros i j Hij Ga Gb; [now apply get_Some_bounds in Ga; unfold Zlen in Ga; cbn in Ga; lia|].
  pose proof (get_Some_bounds _ _ _ Ga). pose proof (get_Some_bounds _ _ _ Gb). rewrite Forall_forall in HF.
  replace j with (j - 1 + 1) in Gb by lia. rewrite get_cons_S in Gb by lia.
  destruct (Z.eq_dec i 0) as [->|N].
  - rewrite get_cons_0 in Ga. injection Ga as <-. apply HF. eapply get_In; eauto.
  - replace i with (i - 1 + 1) in Ga by lia. rewrite get_cons_S in Ga by lia. eapply (IH (i - 1) (j - 1)); eauto. lia.
Qed.

Section Proof.
Variables (base n : Z) (rows : rows_t V) (A : csr V) (dp : list Z).
Hypothesis HR : rep true base n rows A.
Hypothesis Hdp : diagptr_ok base rows dp.
Hypothesis Hsort : sorted_rows rows.
Let m := Zlen rows.
Notation o_ := (off (nthl rows)).
Notation len r := (Zlen (nthl rows r)).
Notation row_bounds := (row_bounds sub mul div base n rows A dp HR Hdp).

(** Column and value of position [q] of row [r]. *)
Definition colz (r q : Z) : Z := match get (nthl rows r) q with Some (c, _) => c | None => 0 end.
Definition vl (lu : list V) (r q : Z) : V := match get lu (o_ r + q) with Some v => v | None => zero end.
Lemma colz_get r q : 0 <= q < len r -> exists v, get (nthl rows r) q = Some (colz r q, v).
Proof. intros Hq. destruct (get_in_range (nthl rows r) q Hq) as ((c & v) & E). exists v. unfold colz. now rewrite E. Qed.
Lemma colz_lt r q q' : 0 <= r < m -> 0 <= q < q' -> q' < len r -> colz r q < colz r q'.
Proof.
  intros Hr Hq Hq'. destruct (colz_get r q ltac:(lia)) as (v & E). destruct (colz_get r q' ltac:(lia)) as (v' & E').
  eapply (ssorted_get (map fst (nthl rows r)) q q'); [now apply Hsort|lia| |]; rewrite get_map; [rewrite E|rewrite E']; reflexivity.
Qed.
Lemma colz_inj r q q' : 0 <= r < m -> 0 <= q < len r -> 0 <= q' < len r -> colz r q = colz r q' -> q = q'.
Proof. intros Hr Hq Hq' E. destruct (Z_lt_le_dec q q'); [pose proof (colz_lt r q q' Hr); lia|]. destruct (Z_lt_le_dec q' q); [pose proof (colz_lt r q' q Hr); lia|lia]. Qed.
Lemma pos_range r q : 0 <= r < m -> 0 <= q < len r -> 0 <= o_ r + q < o_ m.
Proof. intros Hr Hq. destruct (row_end rows r Hr) as (E1 & E2). rewrite off_S in E2 by lia. unfold m. lia. Qed.
Lemma vl_get lu r q : Zlen lu = o_ m -> 0 <= r < m -> 0 <= q < len r -> get lu (o_ r + q) = Some (vl lu r q).
Proof. intros HL Hr Hq. unfold vl. destruct (get_in_range lu (o_ r + q)) as (v & ->); auto. pose proof (pos_range r q Hr Hq). lia. Qed.
Lemma pos_inj r q r' q' : 0 <= r < m -> 0 <= q < len r -> 0 <= r' < m -> 0 <= q' < len r' -> o_ r + q = o_ r' + q' -> r = r' /\ q = q'.
Proof. intros Hr Hq Hr' Hq' E. assert (r = r'). { eapply (off_unique (nthl rows) r q r' q'); lia. } subst. lia. Qed.
Lemma col_at' r q : 0 <= r < m -> 0 <= q < len r -> get (colidx A) (o_ r + q) = Some (colz r q + base).
Proof. intros Hr Hq. destruct (colz_get r q Hq) as (v & E). destruct HR as (_ & _ & _ & -> & _). eapply get_colidx_of; eauto. Qed.

(** What row [c] holds for column [x] from position [q] on. *)
Definition zsumV (l : list V) : V := fold_right add zero l.
Definition seg (lu : list V) (c q x : Z) : V := zsumV (map (fun i => if colz c i =? x then vl lu c i else zero) (zrange q (len c))).
Lemma zsumV_app l1 l2 : zsumV (l1 ++ l2) = add (zsumV l1) (zsumV l2).
Proof. unfold zsumV. induction l1 as [|a l1 IH]; cbn [app fold_right]; [ring|]. rewrite IH. ring. Qed.
Lemma seg_cons lu c q x : q < len c -> seg lu c q x = add (if colz c q =? x then vl lu c q else zero) (seg lu c (q + 1) x).
Proof. intros Hq. unfold seg. now rewrite zrange_cons by lia. Qed.
Lemma zsumV_zero {B} (f : B -> V) l : (forall i, In i l -> f i = zero) -> zsumV (map f l) = zero.
Proof. induction l as [|a l IH]; intros H; cbn [map zsumV fold_right]; auto. rewrite H by (cbn; auto). fold (zsumV (map f l)). rewrite IH by (intros; apply H; cbn; auto). ring. Qed.
Lemma seg_none lu c q x : (forall i, q <= i < len c -> colz c i <> x) -> seg lu c q x = zero.
Proof. intros H. apply zsumV_zero. intros i Hi. apply In_zrange in Hi. destruct (Z.eqb_spec (colz c i) x); auto. destruct (H i Hi); auto. Qed.
Lemma seg_one lu c q i : 0 <= c < m -> 0 <= q <= i -> i < len c -> seg lu c q (colz c i) = vl lu c i.
Proof.
  intros Hc Hq Hi. unfold seg. rewrite (zrange_mid q (len c) i) by lia. rewrite map_app, zsumV_app. cbn [map]. rewrite Z.eqb_refl.
  rewrite (zsumV_zero _ (zrange q i)). 2:{ intros j Hj. apply In_zrange in Hj. pose proof (colz_lt c j i Hc ltac:(lia) Hi). destruct (Z.eqb_spec (colz c j) (colz c i)); auto. lia. }
  cbn [zsumV fold_right]. fold (zsumV (map (fun j => if colz c j =? colz c i then vl lu c j else zero) (zrange (i + 1) (len c)))).
  rewrite (zsumV_zero _ (zrange (i + 1) (len c))). 2:{ intros j Hj. apply In_zrange in Hj. pose proof (colz_lt c i j Hc ltac:(lia) ltac:(lia)). destruct (Z.eqb_spec (colz c j) (colz c i)); auto. lia. }
  ring.
Qed.
Lemma seg_ext lu lu' c q x : (forall i, q <= i < len c -> vl lu c i = vl lu' c i) -> seg lu c q x = seg lu' c q x.
Proof. intros H. unfold seg. f_equal. apply map_ext_in. intros i Hi. apply In_zrange in Hi. now rewrite H. Qed.

(** Storing one value of row [r]. *)
Lemma vl_set lu lu' r q w : Zlen lu = o_ m -> 0 <= r < m -> 0 <= q < len r -> set lu (o_ r + q) w = Some lu' ->
  Zlen lu' = o_ m /\ vl lu' r q = w /\ forall r' q', 0 <= r' < m -> 0 <= q' < len r' -> r' <> r \/ q' <> q -> vl lu' r' q' = vl lu r' q'.
Proof.
  intros HL Hr Hq E. split; [rewrite (set_len _ _ _ _ E); auto|]. split; [unfold vl; now rewrite (get_set_same _ _ _ _ E)|].
  intros r' q' Hr' Hq' N. unfold vl. rewrite (get_set_other _ _ _ _ _ E); auto. intros Ep. apply pos_inj in Ep; auto. lia.
Qed.

(** The comparison loop. *)
Lemma while_value r c tmp : 0 <= r < m -> 0 <= c < m -> r <> c -> forall fuel q1 q2 lu, 0 <= q1 <= len r -> 0 <= q2 <= len c -> Zlen lu = o_ m ->
  (Z.to_nat (len r - q1) + Z.to_nat (len c - q2) < fuel)%nat ->
  exists lu', ilu_while sub mul fuel A base tmp (base + o_ r + q1) (base + o_ (r + 1)) (base + o_ c + q2) (base + o_ (c + 1)) lu = Some lu' /\ Zlen lu' = o_ m /\
    (forall r' q', 0 <= r' < m -> 0 <= q' < len r' -> r' <> r \/ q' < q1 -> vl lu' r' q' = vl lu r' q') /\
    (forall q, q1 <= q < len r -> vl lu' r q = sub (vl lu r q) (mul tmp (seg lu c q2 (colz r q)))).
Proof.
  intros Hr Hc Nrc. assert (Sr : o_ (r + 1) = o_ r + len r) by (apply off_S; lia). assert (Sc : o_ (c + 1) = o_ c + len c) by (apply off_S; lia). rewrite Sr, Sc.
  induction fuel as [|fuel IH]; intros q1 q2 lu B1 B2 HL Hf; [lia|]. cbn [ilu_while].
  destruct (Z.ltb_spec (base + o_ r + q1) (base + (o_ r + len r))) as [L1|L1]; cbn [andb].
  2:{ exists lu. split; auto. split; auto. split; auto. intros q Hq. lia. }
  destruct (Z.ltb_spec (base + o_ c + q2) (base + (o_ c + len c))) as [L2|L2].
  2:{ exists lu. split; auto. split; auto. split; auto. intros q Hq. rewrite seg_none by (intros i Hi; lia). ring. }
  replace (base + o_ r + q1 - base) with (o_ r + q1) by lia. replace (base + o_ c + q2 - base) with (o_ c + q2) by lia.
  rewrite !col_at' by (auto; lia).
  assert (Up : forall q, q1 < q < len r -> colz r q1 < colz r q) by (intros q Hq; apply colz_lt; auto; lia).
  assert (Uc : forall q, q2 < q < len c -> colz c q2 < colz c q) by (intros q Hq; apply colz_lt; auto; lia).
  replace (base + o_ r + q1 + 1) with (base + o_ r + (q1 + 1)) by lia. replace (base + o_ c + q2 + 1) with (base + o_ c + (q2 + 1)) by lia.
  destruct (Z.ltb_spec (colz r q1 + base) (colz c q2 + base)) as [C1|C1].
  { destruct (IH (q1 + 1) q2 lu) as (lu' & E & L & O & I); try lia. exists lu'. split; auto. split; auto. split.
    - intros r' q' Hr' Hq' D. apply O; auto. lia.
    - intros q Hq. destruct (Z.eq_dec q q1) as [->|N]; [|apply I; lia]. rewrite O by (auto; lia). rewrite seg_none; [ring|].
      intros i Hi. destruct (Z.eq_dec i q2) as [->|N]; [lia|]. specialize (Uc i). lia. }
  destruct (Z.ltb_spec (colz c q2 + base) (colz r q1 + base)) as [C2|C2].
  { destruct (IH q1 (q2 + 1) lu) as (lu' & E & L & O & I); try lia. exists lu'. split; auto. split; auto. split; auto.
    intros q Hq. rewrite I by auto. rewrite (seg_cons lu c q2) by lia. assert (colz c q2 < colz r q). { destruct (Z.eq_dec q q1) as [->|N]; [lia|]. specialize (Up q). lia. }
    destruct (Z.eqb_spec (colz c q2) (colz r q)); [lia|]. ring. }
  rewrite (vl_get lu r q1), (vl_get lu c q2) by (auto; lia). set (w := sub (vl lu r q1) (mul tmp (vl lu c q2))).
  destruct (set_ok lu (o_ r + q1) w) as (lu1 & Es). { pose proof (pos_range r q1 Hr). lia. } rewrite Es.
  destruct (vl_set lu lu1 r q1 w HL Hr ltac:(lia) Es) as (L1' & W1 & W2).
  destruct (IH (q1 + 1) (q2 + 1) lu1) as (lu' & E & L & O & I); try lia. exists lu'. split; auto. split; auto. split.
  - intros r' q' Hr' Hq' D. rewrite O by (auto; lia). apply W2; auto. lia.
  - assert (SE : forall q x, 0 <= q -> seg lu1 c q x = seg lu c q x) by (intros q x Hq; apply seg_ext; intros i Hi; apply W2; auto; lia).
    intros q Hq. destruct (Z.eq_dec q q1) as [->|N].
    + rewrite O by (auto; lia). rewrite W1. unfold w. rewrite seg_cons by lia. replace (colz c q2) with (colz r q1) by lia. rewrite Z.eqb_refl, seg_none; [ring|].
      intros i Hi. specialize (Uc i). lia.
    + rewrite I by lia. rewrite W2 by (auto; lia). rewrite SE by lia. rewrite (seg_cons lu c q2) by lia. specialize (Up q).
      destruct (Z.eqb_spec (colz c q2) (colz r q)); [lia|]. ring.
Qed.

(** Position of the diagonal. *)
Definition dq (r : Z) : Z := match get dp r with Some d => d - base - o_ r | None => 0 end.
Lemma dq_ok r : 0 <= r < m -> 0 <= dq r < len r /\ get dp r = Some (base + o_ r + dq r) /\ colz r (dq r) = r.
Proof.
  intros Hr. destruct (row_bounds r Hr) as (q & v & E & _ & _ & D & Hq & _). unfold dq. rewrite D. replace (base + o_ r + q - base - o_ r) with q by lia.
  split; auto. split; auto. unfold colz. now rewrite E.
Qed.
Lemma lower_cols r q : 0 <= r < m -> 0 <= q < dq r -> 0 <= colz r q < r.
Proof.
  intros Hr Hq. destruct (dq_ok r Hr) as (B & D & C). pose proof (colz_lt r q (dq r) Hr Hq ltac:(lia)).
  destruct (row_bounds r Hr) as (q0 & v & E & _ & _ & D' & Hq0 & _ & F). assert (q0 = dq r) by (rewrite D in D'; injection D'; lia). subst q0.
  destruct (colz_get r q ltac:(lia)) as (w & G). pose proof (F q _ _ Hq G). lia.
Qed.
(** Strictly upper part and diagonal of row [c]. *)
Definition useg (lu : list V) (c x : Z) : V := seg lu c (dq c + 1) x.
Definition piv (lu : list V) (c : Z) : V := vl lu c (dq c).
Definition lsum (lu lu0 : list V) (r i x : Z) : V := zsumV (map (fun j => mul (vl lu r j) (useg lu0 (colz r j) x)) (zrange 0 i)).
Lemma lsum_S lu lu0 r i x : 0 <= i -> lsum lu lu0 r (i + 1) x = add (lsum lu lu0 r i x) (mul (vl lu r i) (useg lu0 (colz r i) x)).
Proof. intros Hi. unfold lsum. rewrite zrange_snoc, map_app, zsumV_app by lia. cbn [map zsumV fold_right]. ring. Qed.
Lemma lsum_ext lu1 lu2 lu0 r i x : (forall j, 0 <= j < i -> vl lu1 r j = vl lu2 r j) -> lsum lu1 lu0 r i x = lsum lu2 lu0 r i x.
Proof. intros H. unfold lsum. f_equal. apply map_ext_in. intros j Hj. apply In_zrange in Hj. now rewrite H. Qed.

(** One row. *)
Lemma row_value r lu : 0 <= r < m -> Zlen lu = o_ m -> exists lu', ilu_row sub mul div A base dp r lu = Some lu' /\ Zlen lu' = o_ m /\
  (forall r' q', 0 <= r' < m -> 0 <= q' < len r' -> r' <> r -> vl lu' r' q' = vl lu r' q') /\
  (forall q, 0 <= q < dq r -> piv lu (colz r q) <> zero -> add (lsum lu' lu r q (colz r q)) (mul (vl lu' r q) (piv lu (colz r q))) = vl lu r q) /\
  (forall q, dq r <= q < len r -> add (lsum lu' lu r (dq r) (colz r q)) (vl lu' r q) = vl lu r q).
Proof.
  intros Hr HL. destruct (dq_ok r Hr) as (Bd & Dd & _). unfold ilu_row.
  destruct (row_bounds r Hr) as (_ & _ & _ & R1 & R2 & _ & _ & R5 & _). rewrite R1, R2, Dd.
  set (body := fun j lu => c <- get (colidx A) (j - base) ;; dc <- get dp (c - base) ;;
    x <- get lu (j - base) ;; z <- get lu (dc - base) ;; lu' <- set lu (j - base) (div x z) ;;
    e <- get (rowptr A) (c - base + 1) ;;
    ilu_while sub mul (ilu_fuel (j + 1) (base + o_ (r + 1)) (dc + 1) e) A base (div x z) (j + 1) (base + o_ (r + 1)) (dc + 1) e lu').
  destruct (forZ_rule (fun j lu' => let i := j - base - o_ r in Zlen lu' = o_ m /\
      (forall r' q', 0 <= r' < m -> 0 <= q' < len r' -> r' <> r -> vl lu' r' q' = vl lu r' q') /\
      (forall q, 0 <= q < i -> piv lu (colz r q) <> zero -> add (lsum lu' lu r q (colz r q)) (mul (vl lu' r q) (piv lu (colz r q))) = vl lu r q) /\
      (forall q, i <= q < len r -> add (lsum lu' lu r i (colz r q)) (vl lu' r q) = vl lu r q))
    (base + o_ r) (base + o_ r + dq r) body lu) as (lu' & E & I1 & I2 & I3 & I4); try lia.
  - cbv beta zeta. replace (base + o_ r - base - o_ r) with 0 by lia. repeat split; auto; try (intros; lia). intros q Hq. unfold lsum. rewrite zrange_nil by lia. cbn [map zsumV fold_right]. ring.
  - intros j lu1 Hj (L1 & O1 & P1 & Q1). set (i := j - base - o_ r) in *. assert (Hi : 0 <= i < dq r) by (unfold i; lia). unfold body.
    replace (j - base) with (o_ r + i) by (unfold i; lia). rewrite col_at' by (auto; lia). replace (colz r i + base - base) with (colz r i) by lia.
    set (c := colz r i) in *. assert (Hc : 0 <= c < r) by (apply lower_cols; auto). destruct (dq_ok c ltac:(lia)) as (Bc & Dc & Cc). rewrite Dc.
    replace (base + o_ c + dq c - base) with (o_ c + dq c) by lia. rewrite (vl_get lu1 r i), (vl_get lu1 c (dq c)) by (auto; lia).
    set (tmp := div (vl lu1 r i) (vl lu1 c (dq c))). destruct (set_ok lu1 (o_ r + i) tmp) as (lu2 & Es). { pose proof (pos_range r i Hr). lia. } rewrite Es.
    destruct (vl_set lu1 lu2 r i tmp L1 Hr ltac:(lia) Es) as (L2 & W1 & W2).
    destruct (row_bounds c ltac:(lia)) as (_ & _ & _ & _ & S2 & _ & _ & S5 & _). rewrite S2.
    replace (j + 1) with (base + o_ r + (i + 1)) by (unfold i; lia). replace (base + o_ c + dq c + 1) with (base + o_ c + (dq c + 1)) by lia.
    destruct (while_value r c tmp Hr ltac:(lia) ltac:(lia) (ilu_fuel (base + o_ r + (i + 1)) (base + o_ (r + 1)) (base + o_ c + (dq c + 1)) (base + o_ (c + 1))) (i + 1) (dq c + 1) lu2) as (lu3 & E3 & L3 & O3 & I3); try lia.
    { unfold ilu_fuel. rewrite R5, S5. lia. }
    exists lu3. split; auto. cbv beta zeta. replace (base + o_ r + (i + 1) - base - o_ r) with (i + 1) by lia.
    assert (V3 : forall q, 0 <= q < i -> vl lu3 r q = vl lu1 r q). { intros q Hq. rewrite O3 by (auto; lia). apply W2; auto; lia. }
    assert (V3i : vl lu3 r i = tmp). { rewrite O3 by (auto; lia). auto. }
    split; auto. split; [|split].
    + intros r' q' Hr' Hq' N. rewrite O3 by auto. rewrite W2 by auto. auto.
    + intros q Hq Hp. destruct (Z.eq_dec q i) as [->|N].
      * rewrite (lsum_ext lu3 lu1) by (intros; apply V3; lia). rewrite V3i. fold c in Hp |- *. assert (Ep : vl lu1 c (dq c) = piv lu c) by (apply O1; lia).
        unfold tmp. rewrite Ep, div_mul by auto. apply Q1. lia.
      * rewrite (lsum_ext lu3 lu1) by (intros; apply V3; lia). rewrite V3 by lia. apply P1; auto. lia.
    + intros q Hq. rewrite I3 by lia. rewrite lsum_S by lia. rewrite V3i, (lsum_ext lu3 lu1) by (intros; apply V3; lia). rewrite W2 by (auto; lia).
      assert (Es' : seg lu2 c (dq c + 1) (colz r q) = useg lu c (colz r q)). { apply seg_ext. intros i' Hi'. rewrite W2 by (auto; lia). apply O1; lia. }
      rewrite Es'. fold c. rewrite <- (Q1 q) by lia. ring.
  - exists lu'. cbv beta zeta in I3, I4. replace (base + o_ r + dq r - base - o_ r) with (dq r) in * by lia. repeat split; auto.
Qed.

(** All rows: the equations in terms of positions. *)
Definition row_done (lu : list V) (a : list V) (r : Z) : Prop :=
  (forall q, 0 <= q < dq r -> piv lu (colz r q) <> zero -> add (lsum lu lu r q (colz r q)) (mul (vl lu r q) (piv lu (colz r q))) = vl a r q) /\
  (forall q, dq r <= q < len r -> add (lsum lu lu r (dq r) (colz r q)) (vl lu r q) = vl a r q).
Lemma useg_ext lu1 lu2 c x : 0 <= c < m -> (forall q, 0 <= q < len c -> vl lu1 c q = vl lu2 c q) -> useg lu1 c x = useg lu2 c x.
Proof. intros Hc H. apply seg_ext. intros i Hi. apply H. pose proof (dq_ok c Hc). lia. Qed.
Lemma lsum_ext2 lu1 lu2 l1 l2 r i x : 0 <= r < m -> i <= dq r -> (forall q, 0 <= q < len r -> vl lu1 r q = vl lu2 r q) ->
  (forall c q, 0 <= c < r -> 0 <= q < len c -> vl l1 c q = vl l2 c q) -> lsum lu1 l1 r i x = lsum lu2 l2 r i x.
Proof.
  intros Hr Hi H1 H2. unfold lsum. f_equal. apply map_ext_in. intros j Hj. apply In_zrange in Hj. pose proof (dq_ok r Hr). rewrite H1 by lia. f_equal.
  pose proof (lower_cols r j Hr ltac:(lia)). apply useg_ext; [lia|]. intros q Hq. apply H2; lia.
Qed.
Lemma done_ext lu1 lu2 a r : 0 <= r < m -> (forall c q, 0 <= c <= r -> 0 <= q < len c -> vl lu1 c q = vl lu2 c q) -> row_done lu1 a r -> row_done lu2 a r.
Proof.
  intros Hr H (D1 & D2). pose proof (dq_ok r Hr) as (Bd & _ & _). assert (HV : forall q, 0 <= q < len r -> vl lu2 r q = vl lu1 r q) by (intros; symmetry; apply H; lia).
  assert (HC : forall c q, 0 <= c < r -> 0 <= q < len c -> vl lu2 c q = vl lu1 c q) by (intros; symmetry; apply H; lia).
  split.
  - intros q Hq Hp. pose proof (lower_cols r q Hr Hq) as Hc. pose proof (dq_ok (colz r q) ltac:(lia)) as (Bc & _ & _).
    assert (Ep : piv lu2 (colz r q) = piv lu1 (colz r q)) by (apply HC; lia). rewrite Ep in *. rewrite (lsum_ext2 lu2 lu1 lu2 lu1) by (auto; lia). rewrite HV by lia. auto.
  - intros q Hq. rewrite (lsum_ext2 lu2 lu1 lu2 lu1) by (auto; lia). rewrite HV by lia. auto.
Qed.
Lemma sweep_done : exists fin, foldM (ilu_row sub mul div A base dp) (zrange 0 m) (values_of rows) = Some fin /\ Zlen fin = o_ m /\
  forall r, 0 <= r < m -> row_done fin (values_of rows) r.
Proof.
  set (a := values_of rows). destruct (forZ_rule (fun R lu => Zlen lu = o_ m /\ (forall r, 0 <= r < R -> row_done lu a r) /\ (forall r q, R <= r < m -> 0 <= q < len r -> vl lu r q = vl a r q))
    0 m (ilu_row sub mul div A base dp) a) as (fin & E & L & D & _).
  - unfold m. apply Zlen_nonneg.
  - split; [apply Zlen_values_of|]. split; auto. intros; lia.
  - intros R lu HRm (L & D & U). destruct (row_value R lu ltac:(lia) L) as (lu' & E & L' & O & P & Q). exists lu'. split; auto. split; auto. split.
    + intros r Hr. destruct (Z.eq_dec r R) as [->|N].
      * pose proof (dq_ok R ltac:(lia)) as (Bd & _ & _). assert (HC : forall c q, 0 <= c < R -> 0 <= q < len c -> vl lu' c q = vl lu c q) by (intros; apply O; auto; lia).
        split.
        -- intros q Hq Hp. pose proof (lower_cols R q ltac:(lia) Hq) as Hc. pose proof (dq_ok (colz R q) ltac:(lia)) as (Bc & _ & _).
           assert (Ep : piv lu' (colz R q) = piv lu (colz R q)) by (apply HC; lia). rewrite Ep in *. rewrite (lsum_ext2 lu' lu' lu' lu) by (auto; lia). rewrite P by auto. apply U; lia.
        -- intros q Hq. rewrite (lsum_ext2 lu' lu' lu' lu) by (auto; lia). rewrite Q by auto. apply U; lia.
      * apply (done_ext lu lu' a r); [lia| |apply D; lia]. intros c q Hc Hq. symmetry. apply O; auto; lia.
    + intros r q Hr Hq. rewrite O by (auto; lia). apply U; auto; lia.
  - exists fin. auto.
Qed.

(** From positions to entries. *)
Definition lists (lu : rows_t V) (w : list V) : Prop := Zlen lu = m /\ forall r, 0 <= r < m -> nthl lu r = map (fun q => (colz r q, vl w r q)) (zrange 0 (len r)).
Section Entries.
Variables (lu : rows_t V) (w : list V).
Hypothesis Hlu : lists lu w.
Lemma lists_nodup r : 0 <= r < m -> NoDup (map fst (nthl lu r)).
Proof.
  intros Hr. rewrite (proj2 Hlu r Hr), map_map. cbn [fst]. apply ssorted_NoDup. replace (map (fun q => colz r q) (zrange 0 (len r))) with (map fst (nthl rows r)); [now apply Hsort|].
  apply list_ext; [rewrite !Zlen_map, Zlen_zrange; pose proof (Zlen_nonneg (nthl rows r)); lia|]. intros q Hq. rewrite Zlen_map in Hq. rewrite !get_map, get_zrange by lia.
  destruct (colz_get r q Hq) as (v & ->). reflexivity.
Qed.
Lemma upper_some k q : 0 <= k < m -> 0 <= q < len k -> k <= colz k q -> upper_at lu k (colz k q) = vl w k q.
Proof.
  intros Hk Hq Hc. apply coefat_one.
  - pose proof (lists_nodup k Hk) as ND. clear - ND. induction (nthl lu k) as [|(c, v) l IH]; cbn [filter]; auto. cbn [map fst] in ND. apply NoDup_cons_iff in ND as (N & ND).
    destruct (k <=? fst (c, v)); auto. cbn [map fst]. apply NoDup_cons; auto. intros Hi. apply N. apply in_map_iff in Hi as (e & <- & He). apply filter_In in He as (He & _). now apply in_map.
  - apply filter_In. cbn [fst]. split; [|lia]. rewrite (proj2 Hlu k Hk). apply in_map_iff. exists q. split; auto. apply In_zrange. lia.
Qed.
Lemma upper_none k c : 0 <= k < m -> (forall q, 0 <= q < len k -> colz k q = c -> c < k) -> upper_at lu k c = zero.
Proof.
  intros Hk H. apply coefat_none. intros v Hi. apply filter_In in Hi as (Hi & Hc). cbn [fst] in Hc. rewrite (proj2 Hlu k Hk) in Hi. apply in_map_iff in Hi as (q & E & Hq).
  apply In_zrange in Hq. injection E as E _. specialize (H q Hq E). lia.
Qed.
Lemma upper_useg k x : 0 <= k < m -> k < x -> upper_at lu k x = useg w k x.
Proof.
  intros Hk Hx. destruct (dq_ok k Hk) as (Bd & _ & Cd). destruct (existsb (fun q => colz k q =? x) (zrange (dq k + 1) (len k))) eqn:E.
  - apply existsb_exists in E as (q & Hq & E). apply In_zrange in Hq. apply Z.eqb_eq in E. subst x. unfold useg. rewrite seg_one by (auto; lia). apply upper_some; auto; lia.
  - assert (N : forall q, dq k + 1 <= q < len k -> colz k q <> x). { intros q Hq Eq. assert (existsb (fun q => colz k q =? x) (zrange (dq k + 1) (len k)) = true); [|congruence]. apply existsb_exists. exists q. rewrite In_zrange. split; auto. lia. }
    unfold useg. rewrite seg_none by auto. apply upper_none; auto. intros q Hq Eq. destruct (Z_lt_le_dec (dq k) q) as [Hl|Hl]; [destruct (N q); auto; lia|].
    destruct (Z.eq_dec q (dq k)) as [->|Nq]; [lia|]. pose proof (colz_lt k q (dq k) Hk ltac:(lia) ltac:(lia)). lia.
Qed.
Lemma lower_list r f : 0 <= r < m -> rt (lower_row lu r) f = zsumV (map (fun j => mul (vl w r j) (f (colz r j))) (zrange 0 (dq r))).
Proof.
  intros Hr. destruct (dq_ok r Hr) as (Bd & _ & Cd). unfold lower_row. rewrite (proj2 Hlu r Hr). rewrite (zrange_app 0 (dq r) (len r)) by lia. rewrite map_app, filter_app.
  assert (F1 : forall l, (forall q, In q l -> colz r q < r) -> filter (fun e => fst e <? r) (map (fun q => (colz r q, vl w r q)) l) = map (fun q => (colz r q, vl w r q)) l).
  { induction l as [|q l IH]; intros H; auto. cbn [map filter fst]. assert (Hq : colz r q < r) by (apply H; cbn; auto). replace (colz r q <? r) with true by lia. f_equal. apply IH. intros; apply H; cbn; auto. }
  assert (F2 : forall l, (forall q, In q l -> r <= colz r q) -> filter (fun e => fst e <? r) (map (fun q => (colz r q, vl w r q)) l) = []).
  { induction l as [|q l IH]; intros H; auto. cbn [map filter fst]. assert (Hq : r <= colz r q) by (apply H; cbn; auto). replace (colz r q <? r) with false by lia. apply IH. intros; apply H; cbn; auto. }
  rewrite F1, F2, app_nil_r.
  - unfold row_times. rewrite map_map. cbn [fst snd coef]. reflexivity.
  - intros q Hq. apply In_zrange in Hq. destruct (Z.eq_dec q (dq r)) as [->|N]; [lia|]. pose proof (colz_lt r (dq r) q Hr ltac:(lia) ltac:(lia)). lia.
  - intros q Hq. apply In_zrange in Hq. apply lower_cols; auto; lia.
Qed.
Lemma product_low r q : 0 <= r < m -> 0 <= q < dq r -> product_at lu r (colz r q) = add (lsum w w r q (colz r q)) (mul (vl w r q) (piv w (colz r q))).
Proof.
  intros Hr Hq. destruct (dq_ok r Hr) as (Bd & _ & Cd). pose proof (lower_cols r q Hr Hq) as Hc. set (c := colz r q) in *. destruct (dq_ok c ltac:(lia)) as (Bc & _ & Cc).
  unfold product_at. rewrite lower_list by auto. rewrite (zrange_mid 0 (dq r) q) by lia. rewrite map_app, zsumV_app. cbn [map]. cbn [zsumV fold_right].
  fold (zsumV (map (fun j => mul (vl w r j) (upper_at lu (colz r j) c)) (zrange (q + 1) (dq r)))).
  assert (E1 : zsumV (map (fun j => mul (vl w r j) (upper_at lu (colz r j) c)) (zrange 0 q)) = lsum w w r q c).
  { unfold lsum. f_equal. apply map_ext_in. intros j Hj. apply In_zrange in Hj. pose proof (colz_lt r j q Hr ltac:(lia) ltac:(lia)). pose proof (lower_cols r j Hr ltac:(lia)). f_equal. apply upper_useg; [|unfold c]; lia. }
  rewrite E1. rewrite (zsumV_zero _ (zrange (q + 1) (dq r))).
  2:{ intros j Hj. apply In_zrange in Hj. pose proof (colz_lt r q j Hr ltac:(lia) ltac:(lia)). pose proof (lower_cols r j Hr ltac:(lia)). rewrite upper_none; [ring|lia|]. intros q' _ _. unfold c. lia. }
  rewrite (upper_none r c) by (auto; lia). fold c. replace (upper_at lu c c) with (piv w c). 2:{ unfold piv. transitivity (upper_at lu c (colz c (dq c))); [symmetry; apply upper_some; lia|now rewrite Cc]. } ring.
Qed.
Lemma product_up r q : 0 <= r < m -> dq r <= q < len r -> product_at lu r (colz r q) = add (lsum w w r (dq r) (colz r q)) (vl w r q).
Proof.
  intros Hr Hq. destruct (dq_ok r Hr) as (Bd & _ & Cd). assert (Hc : r <= colz r q). { destruct (Z.eq_dec q (dq r)) as [->|N]; [lia|]. pose proof (colz_lt r (dq r) q Hr ltac:(lia) ltac:(lia)). lia. }
  unfold product_at. rewrite lower_list by auto. rewrite upper_some by (auto; lia). f_equal. unfold lsum. f_equal. apply map_ext_in. intros j Hj. apply In_zrange in Hj.
  pose proof (lower_cols r j Hr ltac:(lia)). f_equal. apply upper_useg; lia.
Qed.
Lemma upper_diag r : 0 <= r < m -> upper_at lu r r = piv w r.
Proof. intros Hr. destruct (dq_ok r Hr) as (Bd & _ & Cd). unfold piv. transitivity (upper_at lu r (colz r (dq r))); [now rewrite Cd|]. apply upper_some; auto; lia. Qed.
Lemma lists_pattern : map (map fst) lu = map (map fst) rows.
Proof.
  destruct Hlu as (L & F). apply list_ext; [now rewrite !Zlen_map|]. intros r Hr. rewrite Zlen_map, L in Hr. rewrite !get_map, (get_nthl lu r), (get_nthl rows r) by (unfold m in *; lia). cbn [option_map]. f_equal.
  rewrite F by auto. rewrite map_map. cbn [fst]. apply list_ext; [rewrite !Zlen_map, Zlen_zrange; pose proof (Zlen_nonneg (nthl rows r)); lia|].
  intros q Hq. rewrite Zlen_map, Zlen_zrange in Hq. rewrite !get_map, get_zrange by lia. destruct (colz_get r q ltac:(lia)) as (v & E). replace (0 + q) with q by lia. now rewrite E.
Qed.
End Entries.
(** Rows with the pattern of [rows]. *)
Lemma pattern_lists lu : map (map fst) lu = map (map fst) rows -> lists lu (values_of lu) /\ Zlen (values_of lu) = o_ m.
Proof.
  intros E. assert (L : Zlen lu = m). { apply (f_equal (fun l => Zlen l)) in E. now rewrite !Zlen_map in E. }
  assert (Er : forall r, 0 <= r < m -> map fst (nthl lu r) = map fst (nthl rows r)).
  { intros r Hr. apply (f_equal (fun l => get l r)) in E. rewrite !get_map, (get_nthl lu r), (get_nthl rows r) in E by (unfold m in *; lia). cbn [option_map] in E. congruence. }
  assert (El : forall r, 0 <= r < m -> Zlen (nthl lu r) = len r). { intros r Hr. specialize (Er r Hr). apply (f_equal (fun l => Zlen l)) in Er. now rewrite !Zlen_map in Er. }
  assert (Eo : forall r, 0 <= r -> r <= m -> off (nthl lu) r = o_ r).
  { apply (Z_ind0 (fun r => r <= m -> off (nthl lu) r = o_ r)); [intros; now rewrite !off_0|]. intros r Hr IH Hm. rewrite !off_S, IH, El by lia. reflexivity. }
  split; [|rewrite Zlen_values_of, L; apply Eo; unfold m; pose proof (Zlen_nonneg rows); lia]. split; auto. intros r Hr.
  apply list_ext; [rewrite Zlen_map, Zlen_zrange, El by auto; pose proof (Zlen_nonneg (nthl rows r)); lia|]. intros q Hq. rewrite El in Hq by auto. rewrite get_map, get_zrange by lia. cbn [option_map]. replace (0 + q) with q by lia.
  destruct (get_in_range (nthl lu r) q) as ((c & v) & G); [rewrite El; auto|]. rewrite G. f_equal. pose proof (get_values_of lu r q c v ltac:(lia) G) as Gv. rewrite Eo in Gv by lia.
  unfold vl. rewrite Gv. f_equal. specialize (Er r Hr). apply (f_equal (fun l => get l q)) in Er. rewrite !get_map, G in Er. destruct (colz_get r q Hq) as (v' & E'). rewrite E' in Er. cbn in Er. congruence.
Qed.
Lemma entry_pos r c a : 0 <= r < m -> In (c, a) (nthl rows r) -> exists q, 0 <= q < len r /\ colz r q = c /\ vl (values_of rows) r q = a.
Proof.
  intros Hr Hi. apply In_get in Hi as (q & Hq & G). exists q. split; [exact Hq|]. split; [unfold colz; now rewrite G|]. unfold vl. now rewrite (get_values_of rows r q c a Hr G).
Qed.

(** The array read as a matrix with the structure of A. *)
Theorem ilu_factors : exists fin lu, foldM (ilu_row sub mul div A base dp) (zrange 0 m) (values_of rows) = Some fin /\
  rep true base n lu (mkCSR (cm A) (cn A) (rowptr A) (colidx A) (Some fin) None None None None) /\
  map (map fst) lu = map (map fst) rows /\ ((forall r, 0 <= r < m -> upper_at lu r r <> zero) -> factors rows lu).
Proof.
  destruct sweep_done as (fin & E & L & D). set (lu := map (fun r => map (fun q => (colz r q, vl fin r q)) (zrange 0 (len r))) (zrange 0 m)).
  assert (Hm : 0 <= m) by (unfold m; apply Zlen_nonneg).
  assert (HL : lists lu fin). { split; [unfold lu; rewrite Zlen_map, Zlen_zrange; lia|]. intros r Hr. apply nthl_get. unfold lu. rewrite get_map, get_zrange by lia. cbn [option_map]. reflexivity. }
  pose proof (lists_pattern lu fin HL) as HP. destruct (pattern_lists lu HP) as (HL' & Lv).
  assert (Eo : forall r, 0 <= r -> r <= m -> off (nthl lu) r = o_ r).
  { apply (Z_ind0 (fun r => r <= m -> off (nthl lu) r = o_ r)); [intros; now rewrite !off_0|]. intros r Hr IH Hrm. rewrite !off_S, IH by lia. f_equal. rewrite (proj2 HL) by lia. rewrite Zlen_map, Zlen_zrange. pose proof (Zlen_nonneg (nthl rows r)); lia. }
  assert (Ev : values_of lu = fin).
  { apply list_ext; [lia|]. intros p Hp. rewrite Lv in Hp.
    assert (exists r q, 0 <= r < m /\ 0 <= q < len r /\ p = o_ r + q) as (r & q & Hr & Hq & ->).
    { destruct (flat_locate (nthl rows) m p Hm Hp) as (r & q & H1 & H2 & H3). eauto 6. }
    rewrite (vl_get fin r q) by auto. destruct HL as (_ & HL). specialize (HL r Hr). rewrite <- (Eo r) by lia. apply (get_values_of lu r q (colz r q)); [unfold lu; rewrite Zlen_map, Zlen_zrange; lia|].
    rewrite HL, get_map, get_zrange by lia. cbn [option_map]. do 2 f_equal; f_equal; lia. }
  exists fin, lu. split; auto. split; [|split; auto].
  - destruct HR as (R1 & R2 & R3 & R4 & R5). split; [cbn; rewrite R1; symmetry; apply (proj1 HL)|]. split; [auto|]. cbn [rowptr colidx values]. split; [|split].
    + rewrite R3. apply list_ext; [rewrite !Zlen_rowptr_of; rewrite (proj1 HL); reflexivity|]. intros i Hi. rewrite Zlen_rowptr_of in Hi. fold m in Hi. rewrite !get_rowptr_of by (rewrite ?(proj1 HL); fold m; lia). now rewrite Eo by lia.
    + rewrite R4. unfold colidx_of. assert (Ec : map fst (concat lu) = map fst (concat rows)) by (rewrite !concat_map, HP; reflexivity). rewrite <- (map_map fst (fun c => c + base)), <- (map_map fst (fun c => c + base) (concat lu)). now rewrite Ec.
    + now rewrite Ev.
  - intros Hp. split; auto. intros r c a Hr Hi. destruct (entry_pos r c a Hr Hi) as (q & Hq & <- & <-). destruct (D r Hr) as (D1 & D2). destruct (Z_lt_le_dec q (dq r)) as [Hd|Hd].
    + rewrite (product_low lu fin HL) by (auto; lia). apply D1; [lia|]. pose proof (lower_cols r q Hr ltac:(lia)). rewrite <- (upper_diag lu fin HL) by lia. apply Hp. lia.
    + rewrite (product_up lu fin HL) by (auto; lia). apply D2. lia.
Qed.

Lemma mul_cancel x y z : z <> zero -> mul x z = mul y z -> x = y.
Proof. intros Hz E. assert (I : mul (inv z) z = one) by (apply (Finv_l FT); auto). transitivity (mul (mul x z) (inv z)); [transitivity (mul x (mul (inv z) z)); [rewrite I|]; ring|]. rewrite E. transitivity (mul y (mul (inv z) z)); [ring|]. rewrite I. ring. Qed.
(** The factors are the only ones. *)
Theorem factors_unique lu1 lu2 : factors rows lu1 -> factors rows lu2 -> (forall r, 0 <= r < m -> upper_at lu1 r r <> zero) -> lu1 = lu2.
Proof.
  intros (P1 & F1) (P2 & F2) Hp. destruct (pattern_lists lu1 P1) as (L1 & V1). destruct (pattern_lists lu2 P2) as (L2 & V2). set (w1 := values_of lu1) in *. set (w2 := values_of lu2) in *.
  assert (G : forall r, 0 <= r -> r < m -> forall q, 0 <= q < len r -> vl w1 r q = vl w2 r q).
  { intros r Hr. pattern r. revert r Hr. apply Zlt_0_ind. intros r IH Hr Hm. assert (Hc : forall c q, 0 <= c < r -> 0 <= q < len c -> vl w1 c q = vl w2 c q) by (intros; apply IH; lia).
    pose proof (dq_ok r ltac:(lia)) as (Bd & _ & _).
    assert (Ein : forall q, 0 <= q < len r -> product_at lu1 r (colz r q) = product_at lu2 r (colz r q)).
    { intros q Hq. destruct (colz_get r q Hq) as (v & Gq). apply get_In in Gq. rewrite (F1 r _ v), (F2 r _ v); auto. }
    assert (SE : forall i x, i <= dq r -> (forall j, 0 <= j < i -> vl w1 r j = vl w2 r j) -> lsum w1 w1 r i x = lsum w2 w2 r i x).
    { intros i x Hi Hj. rewrite (lsum_ext w1 w2) by auto. apply lsum_ext2; auto; lia. }
    assert (Glow : forall q, 0 <= q -> q < dq r -> vl w1 r q = vl w2 r q).
    { intros q Hq. pattern q. revert q Hq. apply Zlt_0_ind. intros q IHq Hq Hd. pose proof (Ein q ltac:(lia)) as E. rewrite (product_low lu1 w1 L1), (product_low lu2 w2 L2) in E by lia.
      pose proof (lower_cols r q ltac:(lia) ltac:(lia)) as Hcc. pose proof (dq_ok (colz r q) ltac:(lia)) as (Bc & _ & _). rewrite (SE q) in E by (try lia; intros; apply IHq; lia).
      assert (Ep : piv w2 (colz r q) = piv w1 (colz r q)) by (symmetry; apply Hc; lia). rewrite Ep in E. apply (mul_cancel _ _ (piv w1 (colz r q))).
      - rewrite <- (upper_diag lu1 w1 L1) by lia. apply Hp. lia.
      - set (s := lsum w2 w2 r q (colz r q)) in *. transitivity (sub (add s (mul (vl w1 r q) (piv w1 (colz r q)))) s); [ring|]. rewrite E. ring. }
    intros q Hq. destruct (Z_lt_le_dec q (dq r)) as [Hd|Hd]; [apply Glow; lia|]. pose proof (Ein q Hq) as E. rewrite (product_up lu1 w1 L1), (product_up lu2 w2 L2) in E by lia.
    rewrite (SE (dq r)) in E by (try lia; intros; apply Glow; lia). set (s := lsum w2 w2 r (dq r) (colz r q)) in *. transitivity (sub (add s (vl w1 r q)) s); [ring|]. rewrite E. ring. }
  apply list_ext; [rewrite (proj1 L1), (proj1 L2); auto|]. intros r Hr. rewrite (proj1 L1) in Hr. rewrite (get_nthl lu1 r), (get_nthl lu2 r) by (rewrite ?(proj1 L1), ?(proj1 L2); auto). f_equal.
  rewrite (proj2 L1), (proj2 L2) by auto. apply map_ext_in. intros q Hq. apply In_zrange in Hq. f_equal. apply G; lia.
Qed.
End Proof.
End Field.
