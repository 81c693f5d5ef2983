(** * Parallel loops whose iterations rewrite one row (segment) of an array each. *)
From Verif Require Import Base Spec Interleave Flat Transpose Sort.
From Coq Require Import Permutation.

Lemma nth_row_In' {A} (l : list (list A)) i : 0 <= i < Zlen l -> In (nthl l i) l.
Proof. intros H. apply (get_In _ i). now apply get_nthl. Qed.

(** ** Thread-modular reasoning

    [J t p s] says what thread [t] has achieved in state [s] after its actions
    [p]; it must survive the actions of the other threads. *)
Lemma nthl_app_mid {A} (l1 : list (list A)) x l2 : nthl (l1 ++ x :: l2) (Zlen l1) = x.
Proof. apply nthl_get. rewrite get_app_r, Z.sub_diag by lia. apply get_cons_0. Qed.
Lemma nthl_app_other {A} (l1 : list (list A)) x y l2 t : t <> Zlen l1 ->
  nthl (l1 ++ x :: l2) t = nthl (l1 ++ y :: l2) t.
Proof.
  intros H. unfold nthl. destruct (Z_lt_ge_dec t (Zlen l1)) as [Hl|Hl].
  - destruct (Z_lt_ge_dec t 0); [now rewrite !get_out by lia|]. now rewrite !get_app_l by lia.
  - rewrite !get_app_r, !get_cons_pos by lia. auto.
Qed.

Lemma interleave_modular {A S} (J : Z -> list A -> S -> Prop) (f : A -> S -> option S) (ts : list (list A)) :
  (forall t p a q s, 0 <= t < Zlen ts -> nthl ts t = p ++ a :: q ->
     (forall t', 0 <= t' < Zlen ts -> exists p' q', nthl ts t' = p' ++ q' /\ J t' p' s) ->
     J t p s ->
     exists s', f a s = Some s' /\ J t (p ++ [a]) s' /\
       forall t' p' q', 0 <= t' < Zlen ts -> t' <> t -> nthl ts t' = p' ++ q' -> J t' p' s -> J t' p' s') ->
  forall rests tr, interleave rests tr -> Zlen rests = Zlen ts ->
  forall s ps, (forall t, 0 <= t < Zlen ts -> nthl ts t = ps t ++ nthl rests t /\ J t (ps t) s) ->
  exists s', foldM f tr s = Some s' /\ forall t, 0 <= t < Zlen ts -> J t (nthl ts t) s'.
Proof.
  intros Hs rests tr H. induction H as [rests Hd|ts1 a t0 ts2 tr H IH]; intros HL s ps Hp.
  - exists s. split; auto. intros t Ht. destruct (Hp t Ht) as [E HJ].
    rewrite (Hd (nthl rests t)) in E; [|apply nth_row_In'; lia]. rewrite app_nil_r in E. congruence.
  - assert (Hk : 0 <= Zlen ts1 < Zlen ts).
    { rewrite <- HL, Zlen_app, Zlen_cons. pose proof (Zlen_nonneg ts1). pose proof (Zlen_nonneg ts2). lia. }
    destruct (Hp (Zlen ts1) Hk) as [E HJ]. rewrite nthl_app_mid in E.
    destruct (Hs _ _ _ _ s Hk E) as (s1 & E1 & J1 & St); auto.
    { intros t' Ht'. destruct (Hp t' Ht'). eauto. }
    cbn [foldM]. rewrite E1.
    apply (IH ltac:(rewrite Zlen_app, Zlen_cons in *; lia) s1 (fun t => if t =? Zlen ts1 then ps t ++ [a] else ps t)).
    intros t Ht. destruct (Z.eqb_spec t (Zlen ts1)) as [->|Hne].
    + rewrite nthl_app_mid, <- app_assoc. cbn. auto.
    + destruct (Hp t Ht) as [E' J']. rewrite (nthl_app_other ts1 (a :: t0) t0) in E' by auto. split; auto. eauto.
Qed.

Lemma par_modular {A S} (J : Z -> list A -> S -> Prop) sch (f : A -> S -> option S) (ts : list (list A)) s :
  (forall t, 0 <= t < Zlen ts -> J t [] s) ->
  (forall t p a q s, 0 <= t < Zlen ts -> nthl ts t = p ++ a :: q ->
     (forall t', 0 <= t' < Zlen ts -> exists p' q', nthl ts t' = p' ++ q' /\ J t' p' s) ->
     J t p s ->
     exists s', f a s = Some s' /\ J t (p ++ [a]) s' /\
       forall t' p' q', 0 <= t' < Zlen ts -> t' <> t -> nthl ts t' = p' ++ q' -> J t' p' s -> J t' p' s') ->
  exists s', par sch f ts s = Some s' /\ forall t, 0 <= t < Zlen ts -> J t (nthl ts t) s'.
Proof.
  intros H0 Hs. unfold par. apply (interleave_modular J f ts Hs ts (merge sch ts) (merge_interleave sch ts) eq_refl s (fun _ => [])).
  intros t Ht. split; auto.
Qed.

(** ** Iterations in any order

    An invariant over the set of finished iterations. *)
Lemma order_inv {X S} (I : list X -> S -> Prop) (f : X -> S -> option S) (l : list X) s :
  NoDup l -> I [] s ->
  (forall done i s, In i l -> ~ In i done -> (forall j, In j done -> In j l) -> I done s ->
     exists s', f i s = Some s' /\ I (i :: done) s') ->
  exists s' done, foldM f l s = Some s' /\ I done s' /\ (forall i, In i done <-> In i l).
Proof.
  intros HN H0 Hs.
  assert (G : forall rest done s, NoDup rest -> (forall i, In i rest -> In i l /\ ~ In i done) ->
     (forall j, In j done -> In j l) -> I done s ->
     exists s' done', foldM f rest s = Some s' /\ I done' s' /\ (forall i, In i done' <-> In i rest \/ In i done)).
  { induction rest as [|a rest IH]; intros done s0 Hn Hr Hd HIs.
    - exists s0, done. cbn. split; auto. split; auto. intros; tauto.
    - inversion Hn as [|x0 t Hna Hn']; subst. destruct (Hr a ltac:(cbn; auto)) as [Ha Hnd].
      destruct (Hs done a s0 Ha Hnd Hd HIs) as (s1 & E1 & I1).
      destruct (IH (a :: done) s1) as (s2 & d2 & E2 & I2 & D2); auto.
      + intros i Hi. destruct (Hr i ltac:(cbn; auto)) as [Hb Hc]. split; auto. cbn. intros [->|]; auto.
      + intros j [<-|Hj]; auto.
      + exists s2, d2. cbn [foldM]. rewrite E1. split; auto. split; auto. intros i. rewrite D2. cbn. tauto. }
  destruct (G l [] s) as (s' & d' & E & I' & D); auto.
  - cbn. tauto.
  - exists s', d'. split; auto. split; auto. intros i. rewrite D. cbn. tauto.
Qed.

(** Threads that together execute each of the rows lo, ..., hi-1 once. *)
Lemma par_order_inv {S} (I : list Z -> S -> Prop) sch (f : Z -> S -> option S) ts lo hi s :
  concat ts = zrange lo hi -> I [] s ->
  (forall done i s, lo <= i < hi -> ~ In i done -> (forall j, In j done -> lo <= j < hi) -> I done s ->
     exists s', f i s = Some s' /\ I (i :: done) s') ->
  exists s' done, par sch f ts s = Some s' /\ I done s' /\ (forall i, In i done <-> lo <= i < hi).
Proof.
  intros HC H0 Hs. unfold par.
  assert (HP : Permutation (merge sch ts) (zrange lo hi)) by (rewrite <- HC; apply merge_perm).
  assert (HI : forall i, In i (merge sch ts) <-> lo <= i < hi).
  { intros i. rewrite <- In_zrange. split; apply Permutation_in; [|apply Permutation_sym]; auto. }
  destruct (order_inv I f (merge sch ts) s) as (s' & done & E & HI' & D); auto.
  - eapply Permutation_NoDup; [apply Permutation_sym, HP|apply NoDup_zrange].
  - intros done i s0 Hi Hn Hd. apply Hs; auto; [now apply HI|]. intros j Hj. now apply HI, Hd.
  - exists s', done. split; auto. split; auto. intros i. rewrite D. apply HI.
Qed.

Lemma concat_singletons {A} (l : list A) : concat (map (fun i => [i]) l) = l.
Proof. induction l; cbn; congruence. Qed.

Lemma par_any_inv {S} (I : list Z -> S -> Prop) sch (f : Z -> S -> option S) lo hi s :
  I [] s ->
  (forall done i s, lo <= i < hi -> ~ In i done -> (forall j, In j done -> lo <= j < hi) -> I done s ->
     exists s', f i s = Some s' /\ I (i :: done) s') ->
  exists s' done, par_any sch f lo hi s = Some s' /\ I done s' /\ (forall i, In i done <-> lo <= i < hi).
Proof. intros H0 Hs. apply par_order_inv; auto. apply concat_singletons. Qed.

Lemma Zlen_upd {A} (l : list A) k x : Zlen (upd l k x) = Zlen l.
Proof. unfold Zlen. f_equal. revert k. induction l as [|a l IH]; intros [|k]; cbn; auto. Qed.

Lemma nthl_upd {A} (rows : list (list A)) i r j : 0 <= i < Zlen rows ->
  nthl (upd rows (Z.to_nat i) r) j = if j =? i then r else nthl rows j.
Proof.
  intros Hi. unfold nthl. pose proof (set_Some rows i r Hi) as E. rewrite (get_set _ _ _ _ _ E).
  now destruct (j =? i).
Qed.

(** Row [i] of a row-structured state is rewritten by iteration [i]. *)
Lemma par_rows_ts {A S} (st : list (list A) -> S) (Q : Z -> list A -> list A -> Prop) sch f ts (rows : list (list A)) :
  concat ts = zrange 0 (Zlen rows) ->
  (forall i rows', 0 <= i < Zlen rows -> Zlen rows' = Zlen rows ->
     (forall j, 0 <= j < Zlen rows -> Zlen (nthl rows' j) = Zlen (nthl rows j)) ->
     nthl rows' i = nthl rows i ->
     exists r', Q i (nthl rows i) r' /\ Zlen r' = Zlen (nthl rows i) /\
       f i (st rows') = Some (st (upd rows' (Z.to_nat i) r'))) ->
  exists rows2, par sch f ts (st rows) = Some (st rows2) /\ Zlen rows2 = Zlen rows /\
    forall i, 0 <= i < Zlen rows -> Zlen (nthl rows2 i) = Zlen (nthl rows i) /\ Q i (nthl rows i) (nthl rows2 i).
Proof.
  intros Hts Hf.
  destruct (par_order_inv (fun done s => exists rows2, s = st rows2 /\ Zlen rows2 = Zlen rows /\
     (forall i, 0 <= i < Zlen rows -> Zlen (nthl rows2 i) = Zlen (nthl rows i)) /\
     (forall i, 0 <= i < Zlen rows -> In i done -> Q i (nthl rows i) (nthl rows2 i)) /\
     (forall i, 0 <= i < Zlen rows -> ~ In i done -> nthl rows2 i = nthl rows i)) sch f ts 0 (Zlen rows) (st rows) Hts)
    as (s & done & E & (rows2 & -> & L & H1 & H2 & H3) & D).
  - exists rows. repeat split; auto. cbn; tauto.
  - intros done i s Hi Hn Hd (rows2 & -> & L & H1 & H2 & H3).
    destruct (Hf i rows2) as (r' & Hq & Lr & E); auto.
    exists (st (upd rows2 (Z.to_nat i) r')). split; auto. exists (upd rows2 (Z.to_nat i) r').
    split; auto. split; [now rewrite Zlen_upd|].
    split; [|split]; intros j Hj; rewrite nthl_upd by lia; destruct (Z.eqb_spec j i) as [->|Hne]; auto.
    + intros [<-|Hin]; [congruence|auto].
    + cbn. tauto.
    + intros Hin. apply H3; auto. cbn in Hin. tauto.
  - exists rows2. split; auto. split; auto. intros i Hi. split; auto. apply H2; auto. now apply D.
Qed.

Lemma par_rows {A S} (st : list (list A) -> S) (Q : Z -> list A -> list A -> Prop) sch f (rows : list (list A)) :
  (forall i rows', 0 <= i < Zlen rows -> Zlen rows' = Zlen rows ->
     (forall j, 0 <= j < Zlen rows -> Zlen (nthl rows' j) = Zlen (nthl rows j)) ->
     nthl rows' i = nthl rows i ->
     exists r', Q i (nthl rows i) r' /\ Zlen r' = Zlen (nthl rows i) /\
       f i (st rows') = Some (st (upd rows' (Z.to_nat i) r'))) ->
  exists rows2, par_any sch f 0 (Zlen rows) (st rows) = Some (st rows2) /\ Zlen rows2 = Zlen rows /\
    forall i, 0 <= i < Zlen rows -> Zlen (nthl rows2 i) = Zlen (nthl rows i) /\ Q i (nthl rows i) (nthl rows2 i).
Proof. intros Hf. apply (par_rows_ts st Q sch f); auto. apply concat_singletons. Qed.

(** The concatenation after one row has been replaced. *)
Lemma off_ext {A B} (f : Z -> list A) (g : Z -> list B) n i : (forall j, 0 <= j < n -> Zlen (f j) = Zlen (g j)) -> i <= n ->
  off f i = off g i.
Proof. intros H Hi. unfold off. apply before_ext. intros j Hj. apply H. lia. Qed.

Lemma concat_upd {A} (rows : list (list A)) i r : 0 <= i < Zlen rows -> Zlen r = Zlen (nthl rows i) ->
  replaced (concat rows) (off (nthl rows) i) (off (nthl rows) (i + 1)) r (concat (upd rows (Z.to_nat i) r)).
Proof.
  intros Hi Hr. set (rows2 := upd rows (Z.to_nat i) r).
  assert (L2 : Zlen rows2 = Zlen rows) by apply Zlen_upd.
  assert (HO : forall j, j <= Zlen rows -> off (nthl rows2) j = off (nthl rows) j).
  { intros j Hj. apply (off_ext _ _ (Zlen rows)); auto. intros k Hk. unfold rows2. rewrite nthl_upd by lia.
    destruct (Z.eqb_spec k i) as [->|]; auto. }
  assert (LC : Zlen (concat rows2) = Zlen (concat rows)).
  { rewrite (concat_flat rows2), (concat_flat rows), !Zlen_flat, L2, HO by (try rewrite L2; lia). auto. }
  split; auto. split.
  - rewrite <- (HO i), <- (HO (i + 1)) by lia. rewrite (concat_flat rows2), slice_flat by lia.
    unfold rows2. rewrite nthl_upd by lia. now rewrite Z.eqb_refl.
  - intros k Hk. destruct (Z_lt_ge_dec k 0) as [Hn|Hn]; [now rewrite !get_out by lia|].
    destruct (Z_lt_ge_dec k (Zlen (concat rows))) as [Hl|Hl]; [|now rewrite !get_out by lia].
    assert (Hl' : k < off (nthl rows) (Zlen rows)) by (rewrite <- Zlen_flat, <- concat_flat by lia; lia).
    destruct (flat_locate (nthl rows) (Zlen rows) k) as (j & q & Hj & Hq & ->); [lia|lia|].
    assert (Hji : j <> i).
    { intros ->. rewrite off_S in Hk by lia. lia. }
    rewrite (concat_flat rows), get_flat by lia. rewrite <- (HO j) by lia.
    rewrite (concat_flat rows2), get_flat; [| lia |].
    + unfold rows2. rewrite nthl_upd by lia. now replace (j =? i) with false by lia.
    + unfold rows2. rewrite nthl_upd by lia. now replace (j =? i) with false by lia.
Qed.

Lemma replaced_unique {A} (l l1 l2 : list A) lo hi seg : 0 <= lo <= hi -> hi <= Zlen l ->
  replaced l lo hi seg l1 -> replaced l lo hi seg l2 -> l1 = l2.
Proof. intros H1 H2 R1 R2. rewrite (replaced_app _ _ _ _ _ H1 H2 R1), (replaced_app _ _ _ _ _ H1 H2 R2). auto. Qed.

Lemma row_bounds {A} (rows : list (list A)) i : 0 <= i < Zlen rows ->
  0 <= off (nthl rows) i <= off (nthl rows) (i + 1) /\ off (nthl rows) (i + 1) <= Zlen (concat rows) /\
  off (nthl rows) (i + 1) = off (nthl rows) i + Zlen (nthl rows i).
Proof.
  intros Hi. pose proof (off_nonneg (nthl rows) i). pose proof (off_mono (nthl rows) i (i + 1)).
  pose proof (off_mono (nthl rows) (i + 1) (Zlen rows)).
  assert (Zlen (concat rows) = off (nthl rows) (Zlen rows)) by (rewrite concat_flat; apply Zlen_flat, Zlen_nonneg).
  rewrite off_S by lia. rewrite off_S in * by lia. repeat split; try lia.
Qed.

Lemma replaced_row {A} (rows : list (list A)) i r l' : 0 <= i < Zlen rows ->
  replaced (concat rows) (off (nthl rows) i) (off (nthl rows) (i + 1)) r l' ->
  Zlen r = Zlen (nthl rows i) /\ l' = concat (upd rows (Z.to_nat i) r).
Proof.
  intros Hi HR. destruct (row_bounds rows i Hi) as (B1 & B2 & B3).
  assert (Lr : Zlen r = Zlen (nthl rows i)).
  { destruct HR as (HL & <- & _). rewrite Zlen_slice; lia. }
  split; auto. apply (replaced_unique _ _ _ _ _ _ B1 B2 HR). now apply concat_upd.
Qed.
