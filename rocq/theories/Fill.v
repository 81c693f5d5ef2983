(** * Filling segments of a pair of parallel arrays (column indices, values) *)
From Verif Require Import Base Spec Flat Csr Transpose CsrTools CsrOps Sort RowPar.
From Coq Require Import Permutation.

Section Fill.
Context {V : Type}.

(** Write to the value array, if there is one. *)
Definition put_val (k : Z) (v : V) (vs : option (list V)) : option (option (list V)) :=
  match vs with None => Some None | Some w => w <- set w k v ;; Some (Some w) end.

(** The arrays hold the entries [r] (columns with base [base]) from position [pos]. *)
Definition at_row (base : Z) (ci : list Z) (vs : option (list V)) (pos : Z) (r : list (Z * V)) : Prop :=
  (forall q e, get r q = Some e -> get ci (pos + q) = Some (fst e + base)) /\
  (forall w, vs = Some w -> forall q e, get r q = Some e -> get w (pos + q) = Some (snd e)).

Definition vals_ok (hasv : bool) (N : Z) (vs : option (list V)) : Prop :=
  match vs with None => hasv = false | Some w => hasv = true /\ Zlen w = N end.

(** Nothing changed outside [lo, hi). *)
Definition frame (lo hi : Z) (ci : list Z) (vs : option (list V)) (ci' : list Z) (vs' : option (list V)) : Prop :=
  Zlen ci' = Zlen ci /\ (forall k, k < lo \/ hi <= k -> get ci' k = get ci k) /\
  match vs, vs' with
  | None, None => True
  | Some w, Some w' => Zlen w' = Zlen w /\ forall k, k < lo \/ hi <= k -> get w' k = get w k
  | _, _ => False
  end.

Lemma frame_refl lo hi ci vs : frame lo hi ci vs ci vs.
Proof. unfold frame. destruct vs; auto. Qed.

Lemma frame_trans lo hi ci vs ci1 vs1 ci2 vs2 : frame lo hi ci vs ci1 vs1 -> frame lo hi ci1 vs1 ci2 vs2 -> frame lo hi ci vs ci2 vs2.
Proof.
  unfold frame. intros (H1 & H2 & H3) (K1 & K2 & K3). split; [lia|]. split; [intros; rewrite K2, H2; auto|].
  destruct vs, vs1, vs2; try tauto. destruct H3 as [H3 H4], K3 as [K3 K4]. split; [lia|]. intros. rewrite K4, H4; auto.
Qed.

Lemma frame_weaken lo hi lo' hi' ci vs ci' vs' : lo' <= lo -> hi <= hi' -> frame lo hi ci vs ci' vs' -> frame lo' hi' ci vs ci' vs'.
Proof.
  unfold frame. intros A B (H1 & H2 & H3). split; [lia|]. split; [intros; apply H2; lia|].
  destruct vs, vs'; try tauto. destruct H3 as [H3 H4]. split; [lia|]. intros. apply H4. lia.
Qed.

Lemma frame_vals hasv N lo hi ci vs ci' vs' : frame lo hi ci vs ci' vs' -> vals_ok hasv N vs -> vals_ok hasv N vs'.
Proof. unfold frame, vals_ok. intros (H1 & H2 & H3). destruct vs, vs'; try tauto. intros [? ?]. split; auto. lia. Qed.

Lemma at_row_frame base lo hi ci vs ci' vs' pos r : frame lo hi ci vs ci' vs' -> pos + Zlen r <= lo \/ hi <= pos ->
  at_row base ci vs pos r -> at_row base ci' vs' pos r.
Proof.
  intros (H1 & H2 & H3) Hd [K1 K2]. split.
  - intros q e E. pose proof (get_Some_bounds _ _ _ E). rewrite H2 by lia. auto.
  - intros w' -> q e E. pose proof (get_Some_bounds _ _ _ E). destruct vs as [w|]; [|tauto].
    destruct H3 as [H3 H4]. rewrite H4 by lia. eauto.
Qed.

Lemma at_row_app base ci vs pos r1 r2 : at_row base ci vs pos r1 -> at_row base ci vs (pos + Zlen r1) r2 ->
  at_row base ci vs pos (r1 ++ r2).
Proof.
  intros [A1 A2] [B1 B2]. split.
  - intros q e E. pose proof (get_Some_bounds _ _ _ E) as B. destruct (Z_lt_ge_dec q (Zlen r1)).
    + rewrite get_app_l in E by lia. auto.
    + rewrite get_app_r in E by lia. replace (pos + q) with (pos + Zlen r1 + (q - Zlen r1)) by lia. auto.
  - intros w Ew q e E. pose proof (get_Some_bounds _ _ _ E) as B. destruct (Z_lt_ge_dec q (Zlen r1)).
    + rewrite get_app_l in E by lia. eauto.
    + rewrite get_app_r in E by lia. replace (pos + q) with (pos + Zlen r1 + (q - Zlen r1)) by lia. eauto.
Qed.

(** A loop that writes the entries of [tgt] one after the other; [d q] is the
    remaining part of the state after [q] iterations. *)
Lemma fill_ok {D} hasv base (body : Z -> Z * list Z * option (list V) * D -> option (Z * list Z * option (list V) * D))
    (tgt : list (Z * V)) (d : Z -> D) o pos ci vs :
  0 <= pos -> pos + Zlen tgt <= Zlen ci -> vals_ok hasv (Zlen ci) vs ->
  (forall q e ci1 vs1 ci2 vs2, get tgt q = Some e -> vals_ok hasv (Zlen ci) vs1 -> set ci1 (pos + q) (fst e + base) = Some ci2 ->
     put_val (pos + q) (snd e) vs1 = Some vs2 ->
     body (o + q) (base + (pos + q), ci1, vs1, d q) = Some (base + (pos + q) + 1, ci2, vs2, d (q + 1))) ->
  exists ci' vs', foldM body (zrange o (o + Zlen tgt)) (base + pos, ci, vs, d 0) = Some (base + (pos + Zlen tgt), ci', vs', d (Zlen tgt)) /\
    at_row base ci' vs' pos tgt /\ frame pos (pos + Zlen tgt) ci vs ci' vs'.
Proof.
  intros Hpos Hle Hv Hb. pose proof (Zlen_nonneg tgt) as Hn.
  destruct (forZ_rule (fun j (s : Z * list Z * option (list V) * D) => exists ci' vs', s = (base + (pos + (j - o)), ci', vs', d (j - o)) /\
    at_row base ci' vs' pos (slice tgt 0 (j - o)) /\ frame pos (pos + (j - o)) ci vs ci' vs') o (o + Zlen tgt) body (base + pos, ci, vs, d 0))
    as (s & E & ci' & vs' & -> & HA & HF); try lia.
  - exists ci, vs. rewrite Z.sub_diag, Z.add_0_r. split; auto. split; [|apply frame_refl].
    rewrite slice_nil by lia. split; intros; cbn in *; try (apply get_Some_bounds in H; change (Zlen (@nil (Z * V))) with 0 in H; lia).
    apply get_Some_bounds in H0. change (Zlen (@nil (Z * V))) with 0 in H0. lia.
  - intros j s Hj (ci1 & vs1 & -> & HA & HF). destruct (get_in_range tgt (j - o)) as (e & Ee); [lia|].
    pose proof (frame_vals _ _ _ _ _ _ _ _ HF Hv) as Hv1. pose proof HF as (F1 & F2 & F3).
    destruct (set_ok ci1 (pos + (j - o)) (fst e + base)) as (ci2 & E2); [lia|].
    assert (exists vs2, put_val (pos + (j - o)) (snd e) vs1 = Some vs2) as (vs2 & E3).
    { unfold put_val. destruct vs1 as [w|]; [|eauto]. destruct Hv1 as [_ L]. destruct (set_ok w (pos + (j - o)) (snd e)) as (w2 & Ew); [lia|].
      rewrite Ew. eauto. }
    pose proof (Hb (j - o) e ci1 vs1 ci2 vs2 Ee Hv1 E2 E3) as G. replace (o + (j - o)) with j in G by lia. rewrite G.
    eexists. split; [reflexivity|]. exists ci2, vs2. split; [replace (j + 1 - o) with (j - o + 1) by lia; replace (base + (pos + (j - o + 1))) with (base + (pos + (j - o)) + 1) by lia; reflexivity|].
    pose proof (set_len _ _ _ _ E2) as L2.
    assert (HF2 : frame (pos + (j - o)) (pos + (j + 1 - o)) ci1 vs1 ci2 vs2).
    { split; [lia|]. split; [intros k Hk; apply (get_set_other _ _ _ _ _ E2); lia|].
      unfold put_val in E3. destruct vs1 as [w|]; [|injection E3 as <-; auto].
      destruct (set w (pos + (j - o)) (snd e)) as [w2|] eqn:Ew; [|discriminate]. injection E3 as <-.
      rewrite (set_len _ _ _ _ Ew). split; auto. intros k Hk. apply (get_set_other _ _ _ _ _ Ew); lia. }
    split.
    + rewrite (slice_app tgt 0 (j - o) (j + 1 - o)) by lia. apply at_row_app.
      * apply (at_row_frame _ _ _ _ _ _ _ _ _ HF2); auto. left. rewrite Zlen_slice by lia. lia.
      * rewrite Zlen_slice by lia. rewrite (slice_cons tgt (j - o) (j + 1 - o) e), slice_nil by (auto; lia).
        replace (pos + (j - o - 0)) with (pos + (j - o)) by lia. split.
        -- intros q x Eq. pose proof (get_Some_bounds _ _ _ Eq) as Bq. change (Zlen [e]) with 1 in Bq.
           assert (q = 0) as -> by lia. rewrite get_cons_0 in Eq. injection Eq as <-. rewrite Z.add_0_r. apply (get_set_same _ _ _ _ E2).
        -- intros w2 -> q x Eq. pose proof (get_Some_bounds _ _ _ Eq) as Bq. change (Zlen [e]) with 1 in Bq.
           assert (q = 0) as -> by lia. rewrite get_cons_0 in Eq. injection Eq as <-. rewrite Z.add_0_r.
           unfold put_val in E3. destruct vs1 as [w|]; [|discriminate].
           destruct (set w (pos + (j - o)) (snd e)) as [w'|] eqn:Ew; [|discriminate]. injection E3 as <-.
           apply (get_set_same _ _ _ _ Ew).
    + apply (frame_trans _ _ _ _ ci1 vs1); [apply (frame_weaken pos (pos + (j - o))); auto; lia|].
      apply (frame_weaken (pos + (j - o)) (pos + (j + 1 - o))); auto; lia.
  - replace (o + Zlen tgt - o) with (Zlen tgt) in * by lia. rewrite slice_full in HA. unfold forZ in E. eauto.
Qed.

(** Insertion sort of a segment that holds [r]. *)
Lemma insert_shift b (e : Z * V) l : insert (fst e + b, snd e) (map (fun e => (fst e + b, snd e)) l) = map (fun e => (fst e + b, snd e)) (insert e l).
Proof.
  induction l as [|x l IH]; cbn; auto. replace (fst e + b <? fst x + b) with (fst e <? fst x) by lia.
  destruct (fst e <? fst x); cbn; congruence.
Qed.
Lemma isort_shift b (l : list (Z * V)) : isort (map (fun e => (fst e + b, snd e)) l) = map (fun e => (fst e + b, snd e)) (isort l).
Proof.
  induction l as [|e l IH] using rev_ind; auto. rewrite map_app. cbn [map]. rewrite !isort_snoc, IH. apply insert_shift.
Qed.
Lemma Zlen_isort (l : list (Z * V)) : Zlen (isort l) = Zlen l.
Proof. unfold Zlen. now rewrite (Permutation_length (isort_perm l)). Qed.

Lemma sort_segment_ok base ci w pos (r : list (Z * V)) : 0 <= pos -> pos + Zlen r <= Zlen ci -> Zlen w = Zlen ci ->
  at_row base ci (Some w) pos r ->
  exists ci' w', insertion_sort pos (pos + Zlen r) (ci, w) = Some (ci', w') /\
    at_row base ci' (Some w') pos (isort r) /\ frame pos (pos + Zlen r) ci (Some w) ci' (Some w').
Proof.
  intros Hp Hle Hw [H1 H2]. set (L := combine ci w). pose proof (Zlen_nonneg r) as Hr.
  destruct (combine_fst_snd ci w) as [C1 C2]; [lia|]. fold L in C1, C2.
  assert (LL : Zlen L = Zlen ci) by (rewrite <- C1, Zlen_map; auto).
  destruct (insertion_sort_ok L pos (pos + Zlen r)) as (L' & E & R); try lia. rewrite C1, C2 in E.
  assert (ES : slice L pos (pos + Zlen r) = map (fun e => (fst e + base, snd e)) r).
  { apply list_ext; [rewrite Zlen_map, Zlen_slice; lia|]. intros q Hq. rewrite Zlen_slice in Hq by lia.
    rewrite get_slice by lia. destruct (get_in_range r q) as (e & Ee); [lia|]. rewrite get_map, Ee. cbn [option_map].
    specialize (H1 q e Ee). specialize (H2 w eq_refl q e Ee).
    rewrite <- C1, get_map in H1. rewrite <- C2, get_map in H2. destruct (get L (pos + q)) as [[a b]|]; cbn in H1, H2; congruence. }
  rewrite ES, isort_shift in R. destruct R as (R1 & R2 & R3).
  exists (map fst L'), (map snd L'). split; auto. split.
  - assert (G : forall q e, get (isort r) q = Some e -> get L' (pos + q) = Some (fst e + base, snd e)).
    { intros q e Ee. pose proof (get_Some_bounds _ _ _ Ee) as Bq. rewrite Zlen_isort in Bq.
      rewrite <- (get_slice L' pos (pos + Zlen r)) by lia. rewrite R2, get_map, Ee. reflexivity. }
    split; [intros q e Ee|intros w' Ew q e Ee; injection Ew as <-]; now rewrite get_map, (G q e Ee).
  - split; [rewrite Zlen_map; lia|]. split; [|split; [rewrite Zlen_map; lia|]]; intros k Hk; rewrite get_map, R3 by auto.
    + rewrite <- get_map, C1. auto.
    + rewrite <- get_map, C2. auto.
Qed.

(** Arrays holding all rows at their offsets. *)
Lemma at_rows_arrays base (rows : rows_t V) ci vs N : Zlen ci = N -> Zlen (concat rows) <= N -> (forall w, vs = Some w -> Zlen w = N) ->
  (forall i, 0 <= i < Zlen rows -> at_row base ci vs (off (nthl rows) i) (nthl rows i)) ->
  slice ci 0 (Zlen (concat rows)) = colidx_of base rows /\
  forall w, vs = Some w -> slice w 0 (Zlen (concat rows)) = values_of rows.
Proof.
  intros HN Hle Hw H. assert (LC : Zlen (concat rows) = off (nthl rows) (Zlen rows)) by (apply Zlen_concat).
  pose proof (Zlen_nonneg rows) as Hr. pose proof (Zlen_nonneg (concat rows)) as Hc.
  assert (G : forall k, 0 <= k < Zlen (concat rows) -> exists i q e, 0 <= i < Zlen rows /\ get (nthl rows i) q = Some e /\ k = off (nthl rows) i + q).
  { intros k Hk. destruct (flat_locate (nthl rows) (Zlen rows) k) as (i & q & Hi & Hq & ->); [lia|lia|].
    destruct (get_in_range (nthl rows i) q Hq) as (e & Ee). eauto 8. }
  split.
  - apply list_ext; [unfold colidx_of; rewrite Zlen_map, Zlen_slice; lia|]. intros k Hk. rewrite Zlen_slice in Hk by lia.
    rewrite get_slice, Z.add_0_l by lia. destruct (G k ltac:(lia)) as (i & q & [c v] & Hi & Ee & ->).
    destruct (H i Hi) as [H1 _]. rewrite (H1 q _ Ee). symmetry. now apply (get_colidx_of base rows i q c v).
  - intros w Ew. specialize (Hw w Ew). apply list_ext; [unfold values_of; rewrite Zlen_map, Zlen_slice; lia|].
    intros k Hk. rewrite Zlen_slice in Hk by lia.
    rewrite get_slice, Z.add_0_l by lia. destruct (G k ltac:(lia)) as (i & q & [c v] & Hi & Ee & ->).
    destruct (H i Hi) as [_ H2]. rewrite (H2 w Ew q _ Ee). symmetry. now apply (get_values_of rows i q c v).
Qed.
End Fill.
