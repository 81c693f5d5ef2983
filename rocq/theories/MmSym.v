(** * Loading a symmetric Matrix Market file: the mirrored entries (COO.cpp:310-348) *)
From Coq Require Import String Permutation.
From Verif Require Import Base Interleave Spec Search Flat Csr CsrTools Transpose RowPar Coo Tasks TaskGraphLists SymPattern BinIO MmText MmIo MmLoad.
Open Scope Z_scope.

Lemma get_repeat {A} (x : A) n i : 0 <= i < Z.of_nat n -> get (repeat x n) i = Some x.
Proof.
  intros Hi. destruct (get_in_range (repeat x n) i) as (y & E); [rewrite Zlen_repeat; lia|]. rewrite E. apply get_In, repeat_spec in E. now subst.
Qed.

(** Sorting adjacent segments, in any order. *)
Lemma sort_all (s : Z -> Z) m sch (ct rc : list Z) :
  (forall i, 0 <= i <= m -> get rc i = Some (s i)) -> 0 <= s 0 -> (forall i, 0 <= i < m -> s i <= s (i + 1)) -> s m <= Zlen ct ->
  exists ct', par_any sch (fun i ct => lo <- get rc i ;; hi <- get rc (i + 1) ;; sort_seg ct lo hi) 0 m ct = Some ct' /\ Zlen ct' = Zlen ct /\
    forall i k, 0 <= i < m -> 0 <= k < s (i + 1) - s i -> get ct' (s i + k) = get (zsort (slice ct (s i) (s (i + 1)))) k.
Proof.
  intros Hrc H0 Hm HL.
  assert (Mono : forall i d, 0 <= d -> 0 <= i -> i + d <= m -> s i <= s (i + d)).
  { intros i d Hd Hi. pattern d. revert d Hd. apply Z_ind0; [intros; rewrite Z.add_0_r; lia|]. intros d Hd IH Hle. specialize (Hm (i + d)). replace (i + (d + 1)) with (i + d + 1) by lia. lia. }
  assert (Mono' : forall i j, 0 <= i <= j -> j <= m -> s i <= s j) by (intros i j Hi Hj; specialize (Mono i (j - i)); replace (i + (j - i)) with j in Mono by lia; lia).
  destruct (par_any_inv (fun done c => Zlen c = Zlen ct /\ forall i k, 0 <= i < m -> 0 <= k < s (i + 1) - s i ->
      get c (s i + k) = if in_dec Z.eq_dec i done then get (zsort (slice ct (s i) (s (i + 1)))) k else get ct (s i + k)) sch
    (fun i ct => lo <- get rc i ;; hi <- get rc (i + 1) ;; sort_seg ct lo hi) 0 m ct) as (ct' & done & E & (L & G) & HD).
  - split; auto.
  - intros done i c Hi Hn HD (L & G). rewrite !Hrc by lia. pose proof (Mono' 0 i). pose proof (Mono' (i + 1) m). pose proof (Hm i Hi).
    destruct (sort_ok c (s i) (s (i + 1))) as (c' & E' & L' & F1 & F2); [lia|lia|]. rewrite E'. exists c'. split; auto. split; [lia|].
    intros i' k Hi' Hk. destruct (Z.eq_dec i' i) as [->|Hne].
    + destruct (in_dec Z.eq_dec i (i :: done)) as [_|X]; [|exfalso; apply X; now left]. rewrite F1 by lia. f_equal. f_equal.
      apply list_ext; [rewrite !Zlen_slice by lia; lia|]. intros q Hq. rewrite Zlen_slice in Hq by lia. rewrite !get_slice by lia. rewrite G by lia. destruct (in_dec Z.eq_dec i done); [contradiction|auto].
    + assert (D : s (i' + 1) <= s i \/ s (i + 1) <= s i'). { destruct (Z_lt_ge_dec i' i); [left; apply Mono'; lia|right; apply Mono'; lia]. }
      rewrite F2 by lia. rewrite G by lia. destruct (in_dec Z.eq_dec i' done) as [Y|Y], (in_dec Z.eq_dec i' (i :: done)) as [Z|Z]; auto; exfalso; cbn in Z; intuition congruence.
  - exists ct'. split; auto. split; auto. intros i k Hi Hk. rewrite G by auto. destruct (in_dec Z.eq_dec i done) as [|X]; auto. exfalso. apply X, HD, Hi.
Qed.

Lemma shift_down_ok m rc (g : Z -> Z) : 0 <= m -> Zlen rc = m + 1 -> (forall r, 0 <= r < m -> get rc r = Some (g r)) ->
  exists rc', shift_down m rc = Some rc' /\ Zlen rc' = m + 1 /\ forall r, 1 <= r <= m -> get rc' r = Some (g (r - 1)).
Proof.
  intros Hm L G. unfold shift_down.
  destruct (forZdown_rule (fun i rc' => Zlen rc' = m + 1 /\ (forall r, 0 <= r < i -> r < m -> get rc' r = Some (g r)) /\
     (forall r, i <= r <= m -> get rc' r = Some (g (r - 1)))) m 1 (fun i rc => x <- get rc (i - 1) ;; set rc i x) rc) as (rc' & E & L' & G1 & G2); [lia| | |].
  - split; auto. split; [intros; apply G; lia|intros; lia].
  - intros i s Hi (Ls & G1 & G2). rewrite G1 by lia. destruct (set_ok s i (g (i - 1))) as (s' & E'); [lia|]. rewrite E'. exists s'. split; auto.
    split; [rewrite (set_len _ _ _ _ E'); lia|]. split.
    + intros r Hr Hr'. rewrite (get_set_other _ _ _ _ _ E') by lia. apply G1; lia.
    + intros r Hr. rewrite (get_set _ _ _ _ _ E'). destruct (Z.eqb_spec r i) as [->|]; [auto|]. apply G2; lia.
  - exists rc'. auto.
Qed.

Lemma listed_iff {V} (es : list (Z * (Z * V))) r c : listed es r c = true <-> exists v, In (r, (c, v)) es.
Proof.
  unfold listed. rewrite existsb_exists. split.
  - intros ((r', (c', v)) & H & E). cbn [fst snd] in E. assert (r' = r /\ c' = c) as (-> & ->) by lia. eauto.
  - intros (v & H). exists (r, (c, v)). split; auto. cbn [fst snd]. rewrite !Z.eqb_refl. reflexivity.
Qed.

Section Symmetric.
Context {V : Type}.
Variable one : V.
Variables (oM M : Z) (E : list (Z * (Z * V))).
Hypothesis HM : 0 <= oM <= M.
Hypothesis HE : coo_ok oM oM E.

Let o i := off (nthl (coo_rows M E)) i.
Let P := unit_diag one oM M.
Let all := E ++ P.

Lemma sE_ok : coo_ok M M E.
Proof. intros r c v H. apply HE in H. lia. Qed.
Lemma sLen : Zlen all = Zlen E + (M - oM).
Proof. unfold all, P, unit_diag. rewrite Zlen_app, Zlen_map, Zlen_zrange. lia. Qed.
Lemma srow r : 0 <= r < M -> nthl (coo_rows M E) r = map snd (filter (fun e => fst e =? r) E).
Proof. intros. apply nthl_coo_rows; auto. Qed.
Lemma so_S r : 0 <= r < M -> o (r + 1) = o r + rcount r E.
Proof. intros. unfold o. rewrite off_S by lia. rewrite srow, Zlen_map by lia. reflexivity. Qed.
Lemma so_M : o M = Zlen E.
Proof. apply (o_m M M 0 E); [lia|apply sE_ok]. Qed.
Lemma s_norow r : oM <= r -> rcount r E = 0.
Proof.
  intros Hr. unfold rcount. assert (H : forall l, (forall e, In e l -> In e E) -> filter (fun e : Z * (Z * V) => fst e =? r) l = []).
  { induction l as [|(x, (c, v)) l IH]; intros H; auto. cbn [filter fst]. destruct (HE x c v) as (? & _); [apply H; now left|]. replace (x =? r) with false by lia. apply IH. intros; apply H; now right. }
  rewrite H; auto.
Qed.
Lemma so_top r : oM <= r <= M -> o r = Zlen E.
Proof.
  assert (H : forall d, 0 <= d -> d <= M - oM -> o (oM + d) = o oM).
  { apply (Z_ind0 (fun d => d <= M - oM -> o (oM + d) = o oM)); [intros; f_equal; lia|]. intros d Hd IH Hle. replace (oM + (d + 1)) with (oM + d + 1) by lia. rewrite so_S, s_norow by lia. rewrite IH; lia. }
  intros Hr. rewrite <- so_M. replace M with (oM + (M - oM)) by lia. replace r with (oM + (r - oM)) by lia. rewrite !H; lia.
Qed.
Lemma so_bounds r : 0 <= r <= M -> 0 <= o r <= Zlen E.
Proof. intros. rewrite <- so_M. split; [apply off_nonneg|apply off_mono; lia]. Qed.

Lemma temp_ok ri ci ct rc : filled ri (map (fun e => fst e + 1) all) -> filled ci (map (fun e => fst (snd e) + 1) all) ->
  Zlen rc = M + 1 -> (forall r, 0 <= r <= M -> get rc r = Some (o r)) -> Zlen E <= Zlen ct -> (oM < M -> Zlen E < Zlen ct) ->
  exists ct' rc', forZ 0 (Zlen all) (temp_step ri ci) (ct, rc) = Some (ct', rc') /\ Zlen ct' = Zlen ct /\ Zlen rc' = M + 1 /\
    (forall r, 0 <= r < M -> get rc' r = Some (o (r + 1) + (if r <? oM then 0 else 1))) /\
    (forall r k e, 0 <= r < oM -> get (filter (fun x => fst x =? r) E) k = Some e -> get ct' (o r + k) = Some (fst (snd e) + 1)).
Proof.
  intros F1 F2 Lrc Grc Lct Lct'. change (Zlen all) with (0 + Zlen all).
  rewrite (forZ_list all 0 _ (fun e (s : list Z * list Z) => let '(ct, rc) := s in j <- get rc (fst e) ;; ct <- set ct j (fst (snd e) + 1) ;; rc <- set rc (fst e) (j + 1) ;; Some (ct, rc))).
  2: { intros k e (c0, r0) Ek. unfold temp_step. rewrite Z.add_0_l. rewrite (F1 k (fst e + 1)), (F2 k (fst (snd e) + 1)) by (rewrite get_map, Ek; auto).
       replace (fst e + 1 - 1) with (fst e) by lia. reflexivity. }
  unfold all. rewrite foldM_app.
  match goal with |- context [foldM ?f E _] => set (step := f) end.
  destruct (foldM_rule (fun p (s : list Z * list Z) => let '(ct', rc') := s in Zlen ct' = Zlen ct /\ Zlen rc' = M + 1 /\
     (forall r, 0 <= r < M -> get rc' r = Some (o r + rcount r p)) /\
     (forall r k e, 0 <= r < oM -> get (filter (fun x => fst x =? r) p) k = Some e -> get ct' (o r + k) = Some (fst (snd e) + 1))) step E (ct, rc))
    as ((ct1, rc1) & E1 & L1 & L2 & G1 & G2).
  - split; auto. split; auto. split.
    + intros r Hr. rewrite Grc by lia. f_equal. change (rcount r (@nil (Z * (Z * V)))) with 0. lia.
    + intros r k e _ Hg. apply get_Some_bounds in Hg. change (Zlen (filter (fun x : Z * (Z * V) => fst x =? r) [])) with 0 in Hg. lia.
  - intros p (r, (c, v)) q (ct1, rc1) Eq (L1 & L2 & G1 & G2). destruct (HE r c v) as [Hr _]; [rewrite Eq; apply in_or_app; cbn; auto|].
    unfold step. cbn [fst snd]. rewrite G1 by lia.
    assert (Hcnt : rcount r p < rcount r E).
    { rewrite Eq. unfold rcount. rewrite filter_app, Zlen_app. cbn [filter fst]. rewrite Z.eqb_refl, Zlen_cons. pose proof (Zlen_nonneg (filter (fun e : Z * (Z * V) => fst e =? r) q)). lia. }
    assert (Hle : forall r', rcount r' p <= rcount r' E).
    { intros r'. rewrite Eq. unfold rcount. rewrite filter_app, Zlen_app. pose proof (Zlen_nonneg (filter (fun e : Z * (Z * V) => fst e =? r') ((r, (c, v)) :: q))). lia. }
    assert (Hpos : 0 <= o r + rcount r p < Zlen E).
    { pose proof (so_S r ltac:(lia)). pose proof (so_bounds (r + 1) ltac:(lia)). pose proof (so_bounds r ltac:(lia)). assert (0 <= rcount r p) by apply Zlen_nonneg. lia. }
    destruct (set_ok ct1 (o r + rcount r p) (c + 1)) as (ct2 & Ec); [lia|]. rewrite Ec.
    destruct (set_ok rc1 r (o r + rcount r p + 1)) as (rc2 & Er); [lia|]. rewrite Er.
    eexists. split; [reflexivity|]. cbv beta iota.
    split; [rewrite (set_len _ _ _ _ Ec); lia|]. split; [rewrite (set_len _ _ _ _ Er); lia|]. split.
    + intros r' Hr'. rewrite (get_set _ _ _ _ _ Er), rcount_snoc. cbn [fst].
      destruct (Z.eqb_spec r' r) as [->|]; [rewrite Z.eqb_refl; f_equal; lia|].
      replace (r =? r') with false by lia. rewrite G1, Z.add_0_r by lia. auto.
    + intros r' k e Hr' Ek. rewrite (get_filter_snoc 0 []) in Ek. cbv beta in Ek. cbn [fst] in Ek. fold (rcount r' p) in Ek.
      rewrite (get_set _ _ _ _ _ Ec).
      destruct (Z.eqb_spec r r') as [<-|Hne].
      * destruct (Z.eqb_spec k (rcount r p)) as [->|Hk].
        -- rewrite Z.eqb_refl. injection Ek as <-. auto.
        -- replace (o r + k =? o r + rcount r p) with false by lia. auto.
      * destruct (Z.eqb_spec (o r' + k) (o r + rcount r p)) as [Eo|]; [|auto].
        exfalso. apply Hne. pose proof (get_Some_bounds _ _ _ Ek) as Bk. fold (rcount r' p) in Bk.
        symmetry. apply (off_unique (nthl (coo_rows M E)) r' k r (rcount r p)); try lia; auto.
        -- rewrite srow, Zlen_map by lia. fold (rcount r' E). specialize (Hle r'). lia.
        -- rewrite srow, Zlen_map by lia. fold (rcount r E). assert (0 <= rcount r p) by apply Zlen_nonneg. lia.
  - rewrite E1. unfold P, unit_diag.
    assert (EP : forall s : list Z * list Z, foldM step (map (fun i => (i, (i, one))) (zrange oM M)) s = forZ oM M (fun i => step (i, (i, one))) s).
    { intros s. unfold forZ. generalize (zrange oM M). intros l. revert s. induction l as [|i l IH]; intros s; auto. cbn [map foldM]. destruct (step (i, (i, one)) s); auto. }
    rewrite EP.
    destruct (forZ_rule (fun i (s : list Z * list Z) => let '(ct', rc') := s in Zlen ct' = Zlen ct /\ Zlen rc' = M + 1 /\
       (forall r, 0 <= r < M -> get rc' r = Some (o (r + 1) + (if (oM <=? r) && (r <? i) then 1 else 0))) /\
       (forall k, k < Zlen E -> get ct' k = get ct1 k)) oM M (fun i => step (i, (i, one))) (ct1, rc1)) as ((ct2, rc2) & E2 & K1 & K2 & K3 & K4); [lia| | |].
    + split; auto. split; auto. split; [|auto]. intros r Hr. rewrite G1, so_S by lia. replace ((oM <=? r) && (r <? oM)) with false by lia. f_equal. lia.
    + intros i (c0, r0) Hi (A1 & A2 & A3 & A4). unfold step. cbn [fst snd]. rewrite A3 by lia. replace ((oM <=? i) && (i <? i)) with false by lia. rewrite so_top, Z.add_0_r by lia.
      destruct (set_ok c0 (Zlen E) (i + 1)) as (c1 & Ec); [pose proof (Zlen_nonneg E); lia|]. rewrite Ec. destruct (set_ok r0 i (Zlen E + 1)) as (r1 & Er); [lia|]. rewrite Er.
      eexists. split; [reflexivity|]. cbv beta iota. split; [rewrite (set_len _ _ _ _ Ec); auto|]. split; [rewrite (set_len _ _ _ _ Er); auto|]. split.
      * intros r Hr. rewrite (get_set _ _ _ _ _ Er). destruct (Z.eqb_spec r i) as [->|]; [rewrite so_top by lia; replace ((oM <=? i) && (i <? i + 1)) with true by lia; reflexivity|].
        rewrite A3 by lia. do 3 f_equal. destruct (r <? i) eqn:?, (r <? i + 1) eqn:?; lia.
      * intros k Hk. rewrite (get_set_other _ _ _ _ _ Ec) by lia. auto.
    + exists ct2, rc2. split; [exact E2|]. split; auto. split; auto. split.
      * intros r Hr. rewrite K3 by lia. do 2 f_equal. destruct (r <? oM) eqn:?, ((oM <=? r) && (r <? M)) eqn:?; lia.
      * intros r k e Hr Ek. pose proof (get_Some_bounds _ _ _ Ek) as Bk. fold (rcount r E) in Bk. pose proof (so_S r ltac:(lia)). pose proof (so_bounds (r + 1) ltac:(lia)). pose proof (so_bounds r ltac:(lia)).
        rewrite K4 by lia. now apply G2.
Qed.

(** The start of row [r] after the padding entries have been counted. *)
Let s r := o r + (if oM <? r then 1 else 0).

Lemma s_mono r : 0 <= r < M -> s r <= s (r + 1).
Proof. intros Hr. unfold s. rewrite so_S by lia. assert (0 <= rcount r E) by apply Zlen_nonneg. destruct (oM <? r) eqn:?, (oM <? r + 1) eqn:?; lia. Qed.

Let mir (l : list (Z * (Z * V))) := flip (filter (fun e => negb (fst e =? fst (snd e)) && negb (listed E (fst (snd e)) (fst e))) l).

Lemma mir_all : mir all = mirror_images E.
Proof.
  unfold mir, mirror_images, all. rewrite filter_app. replace (filter _ P) with (@nil (Z * (Z * V))); [now rewrite app_nil_r|].
  unfold P, unit_diag. induction (zrange oM M) as [|i l IH]; auto. cbn [map filter fst snd]. rewrite Z.eqb_refl. exact IH.
Qed.
Lemma Zlen_mir_le l1 l2 : Zlen (mir l1) <= Zlen (mir (l1 ++ l2)).
Proof. unfold mir. rewrite filter_app. unfold flip. rewrite map_app, Zlen_app. match goal with |- _ <= _ + Zlen ?x => pose proof (Zlen_nonneg x) end. lia. Qed.
Lemma Zlen_filter_le {A} (f : A -> bool) l : Zlen (filter f l) <= Zlen l.
Proof. induction l as [|a l IH]; cbn [filter]; [lia|]. destruct (f a); rewrite ?Zlen_cons; lia. Qed.

Lemma mirror_ok cap ct rc ri ci vs :
  Zlen ri = cap -> Zlen ci = cap -> Zlen vs = cap -> 2 * Zlen E + (M - oM) <= cap ->
  filled ri (map (fun e => fst e + 1) all) -> filled ci (map (fun e => fst (snd e) + 1) all) -> filled vs (map valc all) ->
  (forall x y, 0 <= x < oM -> 0 <= y < oM -> exists lo hi b, get rc y = Some lo /\ get rc (y + 1) = Some hi /\ binary_search ct lo hi (x + 1) = Some b /\ (b = true <-> listed E y x = true)) ->
  exists ri' ci' vs', let q := all ++ mirror_images E in
    forZ 0 (Zlen all) (mirror_step ct rc) (Zlen all, ri, ci, vs) = Some (Zlen q, ri', ci', vs') /\ Zlen q <= cap /\
    Zlen ri' = cap /\ Zlen ci' = cap /\ Zlen vs' = cap /\
    filled ri' (map (fun e => fst e + 1) q) /\ filled ci' (map (fun e => fst (snd e) + 1) q) /\ filled vs' (map valc q).
Proof.
  intros L1 L2 L3 Hcap F1 F2 F3 Hbs. pose proof (Zlen_nonneg all) as Hall.
  assert (Hmax : forall i, 0 <= i <= Zlen all -> Zlen (mir (slice all 0 i)) <= Zlen E).
  { intros i Hi. assert (X : Zlen (mir (slice all 0 i)) <= Zlen (mir all)).
    { rewrite <- (slice_full all) at 2. rewrite (slice_app all 0 i (Zlen all)) by lia. apply Zlen_mir_le. }
    rewrite mir_all in X. unfold mirror_images in X. rewrite Zlen_flip in X. etransitivity; [exact X|apply Zlen_filter_le]. }
  destruct (forZ_rule (fun i (st : Z * list Z * list Z * list V) => let '(k, ri, ci, vs) := st in let q := all ++ mir (slice all 0 i) in
      k = Zlen q /\ Zlen ri = cap /\ Zlen ci = cap /\ Zlen vs = cap /\
      filled ri (map (fun e => fst e + 1) q) /\ filled ci (map (fun e => fst (snd e) + 1) q) /\ filled vs (map valc q)) 0 (Zlen all) (mirror_step ct rc) (Zlen all, ri, ci, vs))
    as ((((k, ri'), ci'), vs') & Er & A0 & A1 & A2 & A3 & B1 & B2 & B3); [lia| | |].
  - rewrite slice_nil by lia. cbn [mir filter flip map]. cbv zeta. rewrite app_nil_r. auto 10.
  - intros i (((k, ri0), ci0), vs0) Hi (A0 & A1 & A2 & A3 & B1 & B2 & B3). destruct (get_in_range all i) as ((x, (y, v)) & Ei); [lia|].
    pose proof (slice_snoc all 0 i (x, (y, v)) ltac:(lia) Ei) as Es. rewrite Es. set (d := slice all 0 i) in *.
    assert (Gq : get (all ++ mir d) i = Some (x, (y, v))) by (rewrite get_app_l by lia; auto).
    unfold mirror_step. rewrite (B1 i (x + 1)), (B2 i (y + 1)) by (rewrite get_map, Gq; auto).
    assert (Em : mir (d ++ [(x, (y, v))]) = mir d ++ mir [(x, (y, v))]) by (unfold mir; rewrite filter_app; apply map_app).
    assert (E1' : mir [(x, (y, v))] = if negb (x =? y) && negb (listed E y x) then [(y, (x, v))] else []) by (unfold mir; cbn [filter fst snd]; destruct (_ && _); reflexivity).
    rewrite Em, E1'.
    destruct (Z.eqb_spec (x + 1) (y + 1)) as [Exy|Nxy].
    { replace (x =? y) with true by lia. cbn [negb andb]. rewrite !app_nil_r. eexists. split; [reflexivity|]. cbv beta iota zeta. do 6 (split; [assumption|]). assumption. }
    replace (x =? y) with false by lia. cbn [negb andb].
    assert (Hin : In (x, (y, v)) E).
    { apply get_In in Ei. unfold all in Ei. apply in_app_or in Ei. destruct Ei as [|Hp]; auto. exfalso. unfold P, unit_diag in Hp. apply in_map_iff in Hp as (z & Ez & _). assert (z = x /\ z = y) by (split; congruence). lia. }
    destruct (HE _ _ _ Hin) as (Hx & Hy). destruct (Hbs x y Hx Hy) as (lo & hi & b & Elo & Ehi & Eb & Hb).
    replace (y + 1 - 1) with y by lia. rewrite Elo, Ehi, Eb. destruct b.
    { rewrite (proj1 Hb eq_refl). cbn [negb]. rewrite !app_nil_r. eexists. split; [reflexivity|]. cbv beta iota zeta. do 6 (split; [assumption|]). assumption. }
    assert (El : listed E y x = false) by (destruct (listed E y x); [symmetry; now apply Hb|reflexivity]). rewrite El. cbn [negb].
    rewrite (B3 i v) by (rewrite get_map, Gq; auto).
    assert (Hk : k < cap). { pose proof (Hmax (i + 1) ltac:(lia)) as X. rewrite Es, Em, Zlen_app in X. replace (Zlen (mir [(x, (y, v))])) with 1 in X.
      - rewrite A0, Zlen_app. pose proof sLen. lia.
      - rewrite E1', El. replace (x =? y) with false by lia. reflexivity. }
    assert (0 <= k) by (subst k; apply Zlen_nonneg).
    destruct (set_ok ri0 k (y + 1)) as (ri1 & E1); [lia|]. destruct (set_ok ci0 k (x + 1)) as (ci1 & E2); [lia|]. destruct (set_ok vs0 k v) as (vs1 & E3); [lia|]. rewrite E1, E2, E3.
    eexists. split; [reflexivity|]. cbv beta iota zeta. rewrite !app_assoc. rewrite (set_len _ _ _ _ E1), (set_len _ _ _ _ E2), (set_len _ _ _ _ E3).
    split; [rewrite Zlen_app; change (Zlen [(y, (x, v))]) with 1; lia|]. do 3 (split; [auto|]). rewrite A0 in E1, E2, E3. rewrite !(map_app _ (all ++ mir d)). cbn [map fst snd valc].
    split; [|split]; eapply filled_snoc; eauto; rewrite Zlen_map; auto.
  - rewrite slice_full, mir_all in *. exists ri', ci', vs'. cbv zeta. split; [rewrite Er; congruence|]. split; [|auto 10].
    pose proof (Hmax (Zlen all) ltac:(lia)) as X. rewrite slice_full, mir_all in X. rewrite Zlen_app. pose proof sLen. lia.
Qed.

Lemma add_mirrored_ok sch cap ct rc ri ci vs :
  Zlen ri = cap -> Zlen ci = cap -> Zlen vs = cap -> 2 * Zlen E + (M - oM) <= cap -> Zlen ct = 2 * Zlen E -> (oM < M -> 1 <= Zlen E) ->
  filled ri (map (fun e => fst e + 1) all) -> filled ci (map (fun e => fst (snd e) + 1) all) -> filled vs (map valc all) ->
  Zlen rc = M + 1 -> get rc 0 = Some 0 -> (forall r, 0 <= r < M -> get rc (r + 1) = Some (rcount r E)) ->
  exists ri' ci' vs', let q := all ++ mirror_images E in
    add_mirrored sch M (Zlen all) ct rc ri ci vs = Some (Zlen q, ri', ci', vs') /\ Zlen q <= cap /\
    Zlen ri' = cap /\ Zlen ci' = cap /\ Zlen vs' = cap /\
    filled ri' (map (fun e => fst e + 1) q) /\ filled ci' (map (fun e => fst (snd e) + 1) q) /\ filled vs' (map valc q).
Proof.
  intros L1 L2 L3 Hcap Lct Hpad F1 F2 F3 Lrc R0 R1. unfold add_mirrored. pose proof (Zlen_nonneg E) as HZE.
  destruct (prefix_ok M E ltac:(lia) rc Lrc R0 R1) as (rc1 & -> & Lrc1 & G1).
  destruct (temp_ok ri ci ct rc1 F1 F2 Lrc1 G1) as (ct2 & rc2 & -> & Lct2 & Lrc2 & G2 & C2); [lia|lia|].
  destruct (shift_down_ok M rc2 (fun r => o (r + 1) + (if r <? oM then 0 else 1))) as (rc3 & -> & Lrc3 & G3); [lia|auto|auto|].
  destruct (set_ok rc3 0 0) as (rc4 & E4); [lia|]. rewrite E4.
  assert (G4 : forall r, 0 <= r <= M -> get rc4 r = Some (s r)).
  { intros r Hr. rewrite (get_set _ _ _ _ _ E4). unfold s. destruct (Z.eqb_spec r 0) as [->|].
    - replace (oM <? 0) with false by lia. unfold o. rewrite off_0. reflexivity.
    - rewrite G3 by lia. replace (r - 1 + 1) with r by lia. do 2 f_equal. destruct (r - 1 <? oM) eqn:?, (oM <? r) eqn:?; lia. }
  destruct (sort_all s M sch ct2 rc4 G4) as (ct5 & -> & Lct5 & G5).
  - unfold s. replace (oM <? 0) with false by lia. pose proof (so_bounds 0 ltac:(lia)). lia.
  - apply s_mono.
  - unfold s. rewrite so_M. destruct (oM <? M) eqn:?; lia.
  - apply mirror_ok; auto. intros x y Hx Hy. exists (s y), (s (y + 1)).
    assert (Sy : s y = o y) by (unfold s; replace (oM <? y) with false by lia; lia). assert (Sy1 : s (y + 1) = o (y + 1)) by (unfold s; replace (oM <? y + 1) with false by lia; lia).
    pose proof (so_bounds y ltac:(lia)). pose proof (so_bounds (y + 1) ltac:(lia)). pose proof (so_S y ltac:(lia)) as S1. assert (0 <= rcount y E) by apply Zlen_nonneg.
    assert (Lsl : Zlen (zsort (slice ct2 (s y) (s (y + 1)))) = s (y + 1) - s y) by (rewrite (Zlen_perm _ _ (zsort_perm _)), Zlen_slice; lia).
    destruct (binary_search_spec ct5 (s y) (s (y + 1)) (x + 1)) as (b & Eb & Hb); [lia|lia| |].
    { intros a c u w Ha Hc Eu Ew. pose proof (G5 y (a - s y) ltac:(lia)) as Ga. pose proof (G5 y (c - s y) ltac:(lia)) as Gc. replace (s y + (a - s y)) with a in Ga by lia. replace (s y + (c - s y)) with c in Gc by lia.
      rewrite Ga in Eu by lia. rewrite Gc in Ew by lia. refine (zsort_mono (slice ct2 (s y) (s (y + 1))) (a - s y) (c - s y) u w _ Eu Ew). lia. }
    exists b. rewrite !G4 by lia. do 3 (split; [auto|]). rewrite Hb, listed_iff.
    assert (Ecol : map (fun e => fst (snd e) + 1) (filter (fun e => fst e =? y) E) = slice ct2 (s y) (s (y + 1))).
    { rewrite Sy, Sy1. apply list_ext; [rewrite Zlen_map, Zlen_slice by lia; fold (rcount y E); lia|]. intros k Hk. rewrite Zlen_map in Hk. fold (rcount y E) in Hk. rewrite get_slice by lia. rewrite get_map.
      destruct (get_in_range (filter (fun e : Z * (Z * V) => fst e =? y) E) k) as (e & Ee); [exact Hk|]. rewrite Ee. symmetry. now apply C2. }
    split.
    + intros (i & Hi & Gi). pose proof (G5 y (i - s y) ltac:(lia) ltac:(lia)) as Gi'. replace (s y + (i - s y)) with i in Gi' by lia. rewrite Gi in Gi'. symmetry in Gi'. apply get_In in Gi'.
      apply (Permutation_in _ (zsort_perm _)) in Gi'. rewrite <- Ecol in Gi'. apply in_map_iff in Gi' as ((y', (x', v)) & Ex & Hin). apply filter_In in Hin as (Hin & Ey). cbn [fst snd] in *.
      assert (x' = x /\ y' = y) as (-> & ->) by lia. eauto.
    + intros (v & Hin). assert (X : In (x + 1) (zsort (slice ct2 (s y) (s (y + 1))))).
      { apply (Permutation_in _ (Permutation_sym (zsort_perm _))). rewrite <- Ecol. apply in_map_iff. exists (y, (x, v)). split; auto. apply filter_In. split; auto. cbn [fst]. apply Z.eqb_refl. }
      apply In_get in X as (k & Bk & Gk). rewrite Lsl in Bk. exists (s y + k). split; [lia|]. rewrite G5 by lia. exact Gk.
Qed.
End Symmetric.

Section Loading.
Context {V : Type}.
Variable scan_g : list Z -> option (V * list Z).
Variable of_ll : Z -> V.
Variable one : V.
Notation load := (loadMatrixMarket_ scan_g of_ll one).
Notation is_file := (coordinate_file scan_g of_ll one).

Lemma rcount_from_base base r (es : list (Z * (Z * V))) : rcount r (from_base base es) = rcount (r + base) es.
Proof.
  unfold rcount, from_base. induction es as [|(x, (y, v)) es IH]; auto. cbn [map filter fst snd].
  destruct (Z.eqb_spec (x - base) r), (Z.eqb_spec x (r + base)); try lia; rewrite ?Zlen_cons; congruence.
Qed.

Lemma filled_ext {A} (a l l' : list A) : l = l' -> filled a l -> filled a l'. Proof. now intros ->. Qed.

Theorem load_symmetric fuel sch j b c m0 es file (wasSym force tr : bool) pad M :
  is_file b c [m0; m0; Zlen es] es file -> kind_ok b c -> (force = true \/ c = Symmetric) -> tr && force = false -> mm_junk_ok j -> 0 <= m0 -> 1 <= pad ->
  padded pad m0 M -> (forall x y v, In (x, (y, v)) es -> 1 <= x <= m0 /\ 1 <= y <= m0) -> (m0 < M -> es <> []) ->
  exists C, load fuel sch j file wasSym force tr pad = Some (true, Some C) /\
    let E := from_base 1 (if tr then flip es else es) in coo_rep M M (E ++ unit_diag one m0 M ++ mirror_images E) C.
Proof.
  intros HF HK Hc Htr HJ Hm Hp PM HR Hne. destruct (header_ok scan_g of_ll one fuel _ _ _ _ _ _ HF) as (f & body & E1 & E2 & HE).
  unfold loadMatrixMarket_. rewrite E1. cbn [Z.eqb negb]. rewrite kind_valid by auto.
  unfold mm_read_mtx_crd_size. change 3%nat with (List.length [m0; m0; Zlen es]). rewrite E2. cbv beta iota.
  rewrite Htr. cbn [negb]. cbv beta iota zeta. replace (pad =? 0) with false by lia.
  replace (if tr then m0 else m0) with m0 by (destruct tr; auto).
  rewrite (padded_eq pad m0 M) by auto.
  replace (force || (tsym (code Coordinate b c) =? cS)) with true by (destruct Hc as [->| ->]; [reflexivity|destruct force; reflexivity]). rewrite orb_true_r. cbn [andb].
  rewrite !Z.min_id. destruct PM as (_ & PM). pose proof (Zlen_nonneg es) as HZ. set (cap := 2 * Zlen es + (M - m0)).
  replace (cap <? 0) with false by lia. replace ((2 * Zlen es <? 0) || (M + 1 <? 0)) with false by lia.
  destruct (HJ cap) as (J1 & J2 & J3 & _); [lia|]. destruct (HJ (2 * Zlen es)) as (_ & _ & _ & J4); [lia|].
  destruct (read_loop_all scan_g of_ll one b c tr true m0 m0 cap M es body (jri j cap) (jci j cap) (jvs j cap) (repeat 0 (Z.to_nat (M + 1))))
    as (ri & ci & vs & rc & E & A1 & A2 & A3 & F1 & F2 & F3 & FR); auto; [lia| | |].
  { intros x y v Hi. apply In_swapped in Hi. destruct tr; apply HR in Hi; repeat split; lia. }
  { intros _. split; [rewrite Zlen_repeat; lia|]. intros r Hr. apply get_repeat. lia. }
  rewrite E. clear E. rewrite (based_zero 1 m0 m0).
  2: { split; [|now left]. intros x y v Hi. apply HR in Hi. lia. }
  destruct (pad_loop_ok one m0 M (swapped tr es) cap ri ci vs) as (ri1 & ci1 & vs1 & E & B1 & B2 & B3 & G1 & G2 & G3); auto.
  { rewrite Zlen_swapped. lia. }
  rewrite Zlen_swapped in E. rewrite E. clear E. cbn [Z.eqb]. rewrite Z.eqb_refl. cbn [negb].
  set (ES := from_base 1 (swapped tr es)).
  assert (LE : Zlen ES = Zlen es) by (unfold ES, from_base; rewrite Zlen_map; apply Zlen_swapped).
  assert (Hok : coo_ok m0 m0 ES).
  { intros r k v Hi. unfold ES, from_base in Hi. apply in_map_iff in Hi as ((x, (y, v')) & Eq & Hi). cbn [fst snd] in Eq. apply In_swapped in Hi. assert (r = x - 1 /\ k = y - 1) by (split; congruence). destruct tr; apply HR in Hi; lia. }
  set (q := swapped tr es ++ map (fun i => (i + 1, (i + 1, one))) (zrange m0 M)) in *.
  assert (Eq : from_base 1 q = ES ++ unit_diag one m0 M) by (unfold q; now rewrite from_base_app, from_base_diag).
  assert (Lq : Zlen es + Z.max 0 (M - m0) = Zlen (ES ++ unit_diag one m0 M)).
  { rewrite Zlen_app, LE. unfold unit_diag. rewrite Zlen_map, Zlen_zrange. lia. }
  rewrite Lq. destruct (FR eq_refl) as (LR & GR).
  assert (G1' : filled ri1 (map (fun e => fst e + 1) (ES ++ unit_diag one m0 M))).
  { eapply filled_ext; [|exact G1]. rewrite <- Eq. unfold from_base. rewrite map_map. apply map_ext. intros e. cbn [fst snd]. unfold fstc. lia. }
  assert (G2' : filled ci1 (map (fun e => fst (snd e) + 1) (ES ++ unit_diag one m0 M))).
  { eapply filled_ext; [|exact G2]. rewrite <- Eq. unfold from_base. rewrite map_map. apply map_ext. intros e. cbn [fst snd]. unfold sndc. lia. }
  assert (G3' : filled vs1 (map valc (ES ++ unit_diag one m0 M))).
  { eapply filled_ext; [|exact G3]. rewrite <- Eq. unfold from_base. rewrite map_map. apply map_ext. intros e. reflexivity. }
  destruct (add_mirrored_ok one m0 M ES ltac:(lia) Hok sch cap (jct j (2 * Zlen es)) rc ri1 ci1 vs1) as (ri2 & ci2 & vs2 & E & Hq & K1 & K2 & K3 & K4 & K5 & K6); auto.
  - unfold cap. lia.
  - lia.
  - intros X. specialize (Hne X). rewrite LE. destruct es; [easy|]. rewrite Zlen_cons. pose proof (Zlen_nonneg es). lia.
  - rewrite GR by lia. f_equal. unfold rcount. assert (X : filter (fun e : Z * (Z * V) => fst e =? 0) (swapped tr es) = []); [|now rewrite X].
    assert (Y : forall l, (forall e, In e l -> In e (swapped tr es)) -> filter (fun e : Z * (Z * V) => fst e =? 0) l = []); [|now apply Y].
    induction l as [|(x, (y, v)) l IH]; intros H; auto. cbn [filter fst]. assert (Hi : In (x, (y, v)) (swapped tr es)) by (apply H; now left). apply In_swapped in Hi.
    replace (x =? 0) with false by (destruct tr; apply HR in Hi; lia). apply IH. intros; apply H; now right.
  - intros r Hr. rewrite GR by lia. unfold ES. now rewrite rcount_from_base.
  - rewrite E. clear E. eexists. split; [reflexivity|]. cbv zeta. fold (swapped tr es). fold ES. rewrite app_assoc. set (Q := (ES ++ unit_diag one m0 M) ++ mirror_images ES) in *.
    unfold coo_rep. cbn [om on onnz orow ocol oval]. repeat (split; [reflexivity|]).
    apply filled_slice in K4; [|rewrite Zlen_map; lia]. apply filled_slice in K5; [|rewrite Zlen_map; lia]. apply filled_slice in K6; [|rewrite Zlen_map; lia].
    rewrite !Zlen_map in *. split; [auto|split; auto].
Qed.

Lemma first_bad (P : Z * (Z * V) -> bool) es : (forall e, In e es -> P e = true) \/ exists es1 e es2, es = es1 ++ e :: es2 /\ (forall e, In e es1 -> P e = true) /\ P e = false.
Proof.
  induction es as [|a es IH]; [left; easy|]. destruct (P a) eqn:Ea; [|right; exists [], a, es; split; [auto|split; [easy|auto]]].
  destruct IH as [IH|(es1 & e & es2 & -> & H1 & H2)]; [left; intros e [<-|H]; auto|]. right. exists (a :: es1), e, es2. split; auto. split; auto. intros x [<-|H]; auto.
Qed.

Theorem load_rejects fuel sch j b c m0 n0 nnz es file (wasSym force tr : bool) pad M N :
  is_file b c [m0; n0; nnz] es file -> kind_ok b c -> tr && force = false -> mm_junk_ok j -> 0 <= m0 -> 0 <= n0 -> 1 <= pad ->
  let oM := if tr then n0 else m0 in let oN := if tr then m0 else n0 in
  padded pad oM M -> padded pad oN N -> (forall x y v, In (x, (y, v)) es -> 0 <= x /\ 0 <= y) -> Zlen es <= nnz ->
  (Zlen es < nnz \/ exists x y v, In (x, (y, v)) es /\ (m0 < x \/ n0 < y)) ->
  exists s, load fuel sch j file wasSym force tr pad = Some (s, None).
Proof.
  intros HF HK Htr HJ Hm Hn Hp oM oN PM PN HR Hle Hbad. destruct (header_ok scan_g of_ll one fuel _ _ _ _ _ _ HF) as (f & body & E1 & E2 & HE).
  unfold loadMatrixMarket_. rewrite E1. cbn [Z.eqb negb]. rewrite kind_valid by auto.
  unfold mm_read_mtx_crd_size. change 3%nat with (List.length [m0; n0; nnz]). rewrite E2. cbv beta iota.
  rewrite Htr. cbn [negb]. cbv beta iota zeta. fold oM oN. replace (pad =? 0) with false by lia.
  assert (H0 : 0 <= oM /\ 0 <= oN) by (unfold oM, oN; destruct tr; auto).
  rewrite (padded_eq pad oM M), (padded_eq pad oN N) by (auto; apply H0).
  set (both := force || (tsym (code Coordinate b c) =? cS)). set (sym := wasSym || both). set (cnt := if both then 2 * nnz else nnz).
  assert (Hcnt : nnz <= cnt) by (unfold cnt; pose proof (Zlen_nonneg es); destruct both; lia). pose proof (Zlen_nonneg es).
  destruct PM as (_ & PM), PN as (_ & PN). set (ex := Z.min M N - Z.min oM oN). assert (Hx : 0 <= ex) by (unfold ex; lia).
  replace (cnt + ex <? 0) with false by lia. replace ((cnt <? 0) || (M + 1 <? 0)) with false by lia. rewrite andb_false_r.
  destruct (HJ (cnt + ex)) as (J1 & J2 & J3 & _); [lia|].
  set (P := fun e : Z * (Z * V) => (fst e <=? m0) && (fst (snd e) <=? n0)).
  destruct (first_bad P es) as [Hall|(es1 & (x1, (y1, v1)) & es2 & Ees & H1 & H2)].
  - destruct (read_loop_all scan_g of_ll one b c tr sym oM oN (cnt + ex) M es body (jri j (cnt + ex)) (jci j (cnt + ex)) (jvs j (cnt + ex)) (repeat 0 (Z.to_nat (M + 1))))
      as (ri & ci & vs & rc & E & A1 & A2 & A3 & F1 & F2 & F3 & FR); auto; [lia| | |].
    { intros x y v Hi. apply In_swapped in Hi. unfold oM, oN in *. destruct tr; pose proof (Hall _ Hi) as X; unfold P in X; cbn [fst snd] in X; apply HR in Hi; repeat split; lia. }
    { intros _. split; [rewrite Zlen_repeat; lia|]. intros r Hr. apply get_repeat. lia. }
    assert (Hlt : Zlen es < nnz). { destruct Hbad as [|(x & y & v & Hi & Hb)]; auto. apply Hall in Hi. unfold P in Hi. cbn [fst snd] in Hi. lia. }
    rewrite E. clear E.
    destruct (pad_loop_ok one (Z.min oM oN) (Z.min M N) (swapped tr es) (cnt + ex) ri ci vs) as (ri1 & ci1 & vs1 & E & B1 & B2 & B3 & G1 & G2 & G3); auto.
    { rewrite Zlen_swapped. fold ex. lia. }
    rewrite Zlen_swapped in E. rewrite E. clear E. fold ex.
    set (q := swapped tr es ++ map (fun i => (i + 1, (i + 1, one))) (zrange (Z.min oM oN) (Z.min M N))) in *.
    assert (Lq : Zlen q = Zlen es + ex) by (unfold q; rewrite Zlen_app, Zlen_map, Zlen_zrange, Zlen_swapped; unfold ex in *; lia).
    replace (Zlen es + Z.max 0 ex) with (Zlen q) by lia. replace (negb (Zlen es =? nnz)) with true by lia.
    destruct (zero_based (swapped tr es)); cbn [Z.eqb]; [|eauto].
    destruct (incr_all_ok ri1 _ G1) as (ri2 & E3 & C1 & K1); [rewrite Zlen_map; lia|]. rewrite Zlen_map in E3. rewrite E3.
    destruct (incr_all_ok ci1 _ G2) as (ci2 & E4 & C2 & K2); [rewrite Zlen_map; lia|]. rewrite Zlen_map in E4. rewrite E4.
    destruct sym; [|eauto]. destruct (FR eq_refl) as (LR & GR).
    destruct (shift_down_ok M rc (fun r => rcount r (swapped tr es))) as (rc' & -> & _); [lia|auto|intros; apply GR; lia|]. eauto.
  - assert (Lsub : Zlen es1 <= Zlen es) by (rewrite Ees, Zlen_app; pose proof (Zlen_nonneg ((x1, (y1, v1)) :: es2)); lia).
    rewrite (read_loop_bad scan_g of_ll one b c tr sym oM oN (cnt + ex) M es1 (x1, (y1, v1)) es2); auto.
    + eauto.
    + rewrite <- Ees. auto.
    + lia.
    + intros x y v Hi. apply In_swapped in Hi. unfold oM, oN in *. destruct tr; pose proof (H1 _ Hi) as X; unfold P in X; cbn [fst snd] in X; (assert (Hi' : In (x, (y, v)) es \/ In (y, (x, v)) es) by (rewrite Ees; (left; apply in_or_app; left; exact Hi) || (right; apply in_or_app; left; exact Hi))); destruct Hi' as [Hi'|Hi']; apply HR in Hi'; repeat split; lia.
    + intros _. split; [rewrite Zlen_repeat; lia|]. intros r Hr. apply get_repeat. lia.
    + unfold P in H2. cbn [fst snd] in *. unfold oM, oN. destruct tr; lia.
Qed.
End Loading.
