(** * Reading a decimal number as the nearest double (strtod, used by "%lg") *)
From Coq Require Import String QArith Qpower Qabs.
From Verif Require Import Base MmText MmFloat.
Open Scope Z_scope.

(** ** Model *)

(** Whether [2^k <= n / d]. *)
Definition le2 (n d k : Z) : bool := if 0 <=? k then d * 2 ^ k <=? n else d <=? n * 2 ^ (- k).
(** The binary exponent of [n / d]. *)
Definition lg2 (n d : Z) : Z := let k := Z.log2 n - Z.log2 d in if le2 n d k then k else k - 1.
(** [n / d] rounded to 53 bits, or to a multiple of the smallest double. *)
Definition round53 (n d : Z) : dbl :=
  let e := Z.max (lg2 n d - 52) (-1074) in
  let m := if 0 <=? e then rhe n (d * 2 ^ e) else rhe (n * 2 ^ (- e)) d in
  if m =? 2 ^ 53 then (2 ^ 52, e + 1) else (m, e).
(** The double nearest to [N * 10^x]; overflow is not modelled. *)
Definition strtod (N x : Z) : dbl :=
  if N =? 0 then (0, 0)
  else let '(m, e) := round53 (Z.abs N * 10 ^ Z.max x 0) (10 ^ Z.max (- x) 0) in (if N <? 0 then - m else m, e).

(** "%lg" with a given rounding. *)
Definition scan_lg (rnd : Z -> Z -> dbl) (f : list Z) : option (dbl * list Z) :=
  match scan_dec f with Some (N, x, r) => Some (rnd N x, r) | None => None end.

(** ** Specification *)

(** Numbers that do not round to infinity. *)
Definition finite (q : Q) : Prop := (Qabs q < inject_Z (2 ^ 1024 - 2 ^ 970))%Q.
(** The rounding returns a double nearest to the decimal number. *)
Definition nearest (rnd : Z -> Z -> dbl) : Prop :=
  forall N x, finite (decval N x) -> is_double (rnd N x) /\
    forall v, is_double v -> (Qabs (dval (rnd N x) - decval N x) <= Qabs (dval v - decval N x))%Q.

(** ** Proofs *)

Open Scope Q_scope.

Lemma two_add a b : (2 # 1) ^ (a + b) == (2 # 1) ^ a * (2 # 1) ^ b. Proof. apply Qpower_plus. discriminate. Qed.

Lemma quot_le n d k : (0 < d)%Z -> (inject_Z k <= inject_Z n / inject_Z d <-> (k * d <= n)%Z).
Proof.
  intros Hd. pose proof (inj_pos d Hd) as P. split; intros H.
  - apply (Qmult_le_compat_r _ _ (inject_Z d)) in H; [|now apply Qlt_le_weak]. setoid_replace (inject_Z n / inject_Z d * inject_Z d) with (inject_Z n) in H by (field; now apply pos_ne). now rewrite <- inject_Z_mult, <- Zle_Qle in H.
  - apply Qle_shift_div_l; auto. now rewrite <- inject_Z_mult, <- Zle_Qle.
Qed.

Lemma le2_ok n d k : (0 < n)%Z -> (0 < d)%Z -> le2 n d k = true <-> (2 # 1) ^ k <= inject_Z n / inject_Z d.
Proof.
  intros Hn Hd. unfold le2. destruct (Z.leb_spec 0 k) as [L|L].
  - rewrite <- two_Z, quot_le by lia. lia.
  - pose proof (inj_pos d Hd) as P. pose proof (two_pos (- k)) as P2. rewrite Z.leb_le, Zle_Qle, inject_Z_mult, two_Z by lia.
    assert (E : (2 # 1) ^ k == / (2 # 1) ^ (- k)) by (rewrite <- Qpower_opp; now replace (- - k)%Z with k by lia). rewrite E. split; intros H.
    + apply Qle_shift_div_l; auto. apply Qmult_le_l with ((2 # 1) ^ (- k)); auto. setoid_replace ((2 # 1) ^ (- k) * (/ (2 # 1) ^ (- k) * inject_Z d)) with (inject_Z d) by (field; now apply pos_ne).
      now rewrite Qmult_comm.
    + apply (Qmult_le_compat_r _ _ (inject_Z d * (2 # 1) ^ (- k))) in H; [|apply Qmult_le_0_compat; now apply Qlt_le_weak].
      setoid_replace (/ (2 # 1) ^ (- k) * (inject_Z d * (2 # 1) ^ (- k))) with (inject_Z d) in H by (field; now apply pos_ne).
      now setoid_replace (inject_Z n / inject_Z d * (inject_Z d * (2 # 1) ^ (- k))) with (inject_Z n * (2 # 1) ^ (- k)) in H by (field; now apply pos_ne).
Qed.

Lemma lg2_ok n d : (0 < n)%Z -> (0 < d)%Z -> (2 # 1) ^ lg2 n d <= inject_Z n / inject_Z d < (2 # 1) ^ (lg2 n d + 1).
Proof.
  intros Hn Hd. pose proof (Z.log2_spec n Hn) as (N1 & N2). pose proof (Z.log2_spec d Hd) as (D1 & D2). pose proof (Z.log2_nonneg n). pose proof (Z.log2_nonneg d).
  unfold lg2. set (a := Z.log2 n) in *. set (b := Z.log2 d) in *. pose proof (inj_pos d Hd) as P.
  assert (U : inject_Z n / inject_Z d < (2 # 1) ^ (a - b + 1)).
  { apply Qlt_shift_div_r; auto. apply Qlt_le_trans with (inject_Z (2 ^ Z.succ a)); [now rewrite <- Zlt_Qlt|].
    rewrite two_Z by lia. replace (Z.succ a) with (a - b + 1 + b)%Z by lia. rewrite two_add. apply Qmult_le_l; [apply two_pos|]. rewrite <- two_Z by lia. now rewrite <- Zle_Qle. }
  assert (B : (2 # 1) ^ (a - b - 1) <= inject_Z n / inject_Z d).
  { apply Qle_shift_div_l; auto. apply Qle_trans with (inject_Z (2 ^ a)); [|now rewrite <- Zle_Qle].
    rewrite two_Z by lia. replace a with (a - b - 1 + (b + 1))%Z at 2 by lia. rewrite two_add. apply Qmult_le_l; [apply two_pos|]. rewrite <- two_Z, <- Zle_Qle by lia. unfold Z.succ in D2. lia. }
  destruct (le2 n d (a - b)) eqn:E.
  - apply le2_ok in E; auto.
  - split; auto. replace (a - b - 1 + 1)%Z with (a - b)%Z by lia. apply Qnot_le_lt. intros H'. apply le2_ok in H'; auto. congruence.
Qed.

Lemma half_nearest q a k : Qabs (q - inject_Z a) <= 1 # 2 -> Qabs (q - inject_Z a) <= Qabs (q - inject_Z k).
Proof.
  intros H. destruct (Z.eq_dec a k) as [->|Hk]; [apply Qle_refl|]. eapply Qle_trans; [apply H|].
  apply Qabs_Qle_condition in H. destruct H as (H1 & H2). destruct (Z_lt_le_dec a k) as [L|L].
  - rewrite Qabs_Qminus. eapply Qle_trans; [|apply Qle_Qabs]. assert (inject_Z a + 1 <= inject_Z k). { change 1 with (inject_Z 1). rewrite <- inject_Z_plus, <- Zle_Qle. lia. } 
    apply Qle_trans with (inject_Z a + 1 - q).
    + apply (Qplus_le_l _ _ (q - inject_Z a - (1 # 2))). setoid_replace ((1 # 2) + (q - inject_Z a - (1 # 2))) with (q - inject_Z a) by ring. setoid_replace (inject_Z a + 1 - q + (q - inject_Z a - (1 # 2))) with (1 # 2) by ring. auto.
    + apply Qplus_le_l. auto.
  - eapply Qle_trans; [|apply Qle_Qabs]. assert (inject_Z k + 1 <= inject_Z a). { change 1 with (inject_Z 1). rewrite <- inject_Z_plus, <- Zle_Qle. lia. }
    apply Qle_trans with (q - inject_Z a + 1).
    + setoid_replace (1 # 2) with (- (1 # 2) + 1) by ring. apply Qplus_le_l. auto.
    + setoid_replace (q - inject_Z k) with (q - inject_Z a + (inject_Z a - inject_Z k)) by ring. apply Qplus_le_r. setoid_replace 1 with (inject_Z k + 1 - inject_Z k) by ring. apply Qplus_le_l. auto.
Qed.

(** Between 0 and a bound below [q], nothing is closer to [q] than the bound. *)
Lemma bound_closer q v b : b <= q -> v <= b -> Qabs (b - q) <= Qabs (v - q).
Proof.
  intros H1 H2. rewrite (Qabs_neg (b - q)), (Qabs_neg (v - q)).
  - apply Qopp_le_compat. now apply Qplus_le_l.
  - rewrite <- (Qplus_opp_r q). apply Qplus_le_l. eapply Qle_trans; eauto.
  - rewrite <- (Qplus_opp_r q). now apply Qplus_le_l.
Qed.

Lemma round53_ok n d : (0 < n)%Z -> (0 < d)%Z -> let q := inject_Z n / inject_Z d in q < inject_Z (2 ^ 1024 - 2 ^ 970) ->
  is_double (round53 n d) /\ forall v, is_double v -> Qabs (dval (round53 n d) - q) <= Qabs (dval v - q).
Proof.
  intros Hn Hd q Hq. pose proof (lg2_ok n d Hn Hd) as (L1 & L2). fold q in L1, L2. unfold round53. set (L := lg2 n d) in *. set (e := Z.max (L - 52) (-1074)).
  set (m := if (0 <=? e)%Z then rhe n (d * 2 ^ e) else rhe (n * 2 ^ - e) d). pose proof (inj_pos d Hd) as Pd.
  assert (R : Qabs (q * (2 # 1) ^ (- e) - inject_Z m) <= 1 # 2).
  { unfold m. destruct (Z.leb_spec 0 e) as [G|G].
    - assert (P : (0 < 2 ^ e)%Z) by (apply Z.pow_pos_nonneg; lia). assert (P' : (0 < d * 2 ^ e)%Z) by nia. eapply Qle_trans; [|apply (rhe_Q n _ P')]. apply Qle_lteq. right. apply Qabs_wd.
      rewrite inject_Z_mult, two_Z, Qpower_opp by lia. unfold q. field. split; apply pos_ne; auto using two_pos.
    - eapply Qle_trans; [|apply (rhe_Q (n * 2 ^ (- e)) _ Hd)]. apply Qle_lteq. right. apply Qabs_wd. rewrite inject_Z_mult, two_Z by lia. unfold q. field. now apply pos_ne. }
  assert (Le : (L <= 1023)%Z).
  { assert ((2 # 1) ^ L < (2 # 1) ^ 1024) as H; [|apply Qpower_lt_compat_l_inv in H; [lia|reflexivity]]. eapply Qle_lt_trans; [apply L1|]. eapply Qlt_trans; [apply Hq|]. rewrite <- two_Z, <- Zlt_Qlt by lia. reflexivity. }
  clearbody m. pose proof (half_close _ _ R) as (C1 & C2 & _).
  assert (SC : forall a, a * (2 # 1) ^ e * (2 # 1) ^ (- e) == a). { intros a. rewrite <- Qmult_assoc, <- two_add. replace (e + - e)%Z with 0%Z by lia. cbn [Qpower]. ring. }
  assert (SC' : forall a, a * (2 # 1) ^ (- e) * (2 # 1) ^ e == a). { intros a. rewrite <- Qmult_assoc, <- two_add. replace (- e + e)%Z with 0%Z by lia. cbn [Qpower]. ring. }
  assert (Pq : 0 < q). { apply Qlt_le_trans with ((2 # 1) ^ L); auto using two_pos. }
  assert (M0 : (0 <= m)%Z). { apply C1. change (inject_Z 0) with 0. apply Qmult_le_0_compat; apply Qlt_le_weak; auto using two_pos. }
  assert (M1 : (m <= 2 ^ 53)%Z).
  { apply C2. rewrite two_Z by lia. apply Qle_trans with ((2 # 1) ^ (L + 1) * (2 # 1) ^ (- e)); [apply Qmult_le_compat_r; [now apply Qlt_le_weak|apply Qlt_le_weak, two_pos]|].
    rewrite <- two_add. apply Qpower_le_compat_l; [lia|discriminate]. }
  assert (VM : dval (if (m =? 2 ^ 53)%Z then (2 ^ 52, e + 1)%Z else (m, e)) == inject_Z m * (2 # 1) ^ e).
  { destruct (Z.eqb_spec m (2 ^ 53)) as [->|_]; [|reflexivity]. unfold dval. cbn [fst snd]. rewrite two_add. change (2 ^ 53)%Z with (2 ^ 52 * 2)%Z. rewrite inject_Z_mult. change ((2 # 1) ^ 1) with (2 # 1). change (inject_Z 2) with (2 # 1). ring. }
  split.
  - destruct (Z.eqb_spec m (2 ^ 53)) as [E|E]; unfold is_double; cbn [fst snd]; [|lia]. split; [lia|]. split; [lia|]. destruct (Z.eq_dec e 971) as [E'|E']; [exfalso|lia].
    apply Qabs_Qle_condition in R. destruct R as (R & _). rewrite E, E' in R.
    assert (H : q * (2 # 1) ^ (-971) < inject_Z (2 ^ 1024 - 2 ^ 970) * (2 # 1) ^ (-971)) by (apply Qmult_lt_compat_r; auto using two_pos).
    assert (B : inject_Z (2 ^ 1024 - 2 ^ 970) * (2 # 1) ^ (-971) <= - (1 # 2) + inject_Z (2 ^ 53)) by (vm_compute; discriminate).
    change (- (971))%Z with (-971)%Z in R. revert H B R. generalize (inject_Z (2 ^ 1024 - 2 ^ 970) * (2 # 1) ^ (-971)), (inject_Z (2 ^ 53)), (q * (2 # 1) ^ (-971)). intros a b c H B R.
    apply (Qlt_not_le _ _ H). eapply Qle_trans; [apply B|]. apply (Qplus_le_l _ _ (- b)). setoid_replace (- (1 # 2) + b + - b) with (- (1 # 2)) by ring. exact R.
  - intros (m', e') (V1 & V2). cbn [fst snd] in V1, V2. rewrite VM.
    assert (GR : forall k, Qabs (inject_Z m * (2 # 1) ^ e - q) <= Qabs (inject_Z k * (2 # 1) ^ e - q)).
    { intros k. rewrite (Qabs_Qminus _ q), (Qabs_Qminus _ q). assert (S : forall a, q - inject_Z a * (2 # 1) ^ e == (q * (2 # 1) ^ (- e) - inject_Z a) * (2 # 1) ^ e).
      { intros a. rewrite <- (SC' q) at 1. ring. } rewrite !S, !Qabs_Qmult. apply Qmult_le_compat_r; [now apply half_nearest|apply Qabs_nonneg]. }
    destruct (Z_le_gt_dec e e') as [G|G].
    + specialize (GR (m' * 2 ^ (e' - e))%Z). eapply Qle_trans; [apply GR|]. apply Qle_lteq. right. apply Qabs_wd. apply Qplus_comp; [|reflexivity]. rewrite inject_Z_mult, two_Z by lia. unfold dval. cbn [fst snd]. rewrite <- Qmult_assoc, <- two_add.
      now replace (e' - e + e)%Z with e' by lia.
    + assert (Ee : e = (L - 52)%Z) by lia. eapply Qle_trans; [apply (GR (2 ^ 52)%Z)|]. apply bound_closer.
      * rewrite two_Z, <- two_add by lia. now replace (52 + e)%Z with L by lia.
      * unfold dval. cbn [fst snd]. apply Qle_trans with (inject_Z (2 ^ 53) * (2 # 1) ^ e'); [apply Qmult_le_compat_r; [rewrite <- Zle_Qle; lia|apply Qlt_le_weak, two_pos]|].
        rewrite !two_Z, <- !two_add by lia. apply Qpower_le_compat_l; [lia|discriminate].
Qed.

Lemma decval_quot N x : inject_Z (N * 10 ^ Z.max x 0) / inject_Z (10 ^ Z.max (- x) 0) == decval N x.
Proof.
  unfold decval. rewrite inject_Z_mult, !ten_Z by lia. destruct (Z_le_gt_dec 0 x) as [L|L].
  - replace (Z.max x 0) with x by lia. replace (Z.max (- x) 0) with 0%Z by lia. cbn [Qpower]. field.
  - replace (Z.max x 0) with 0%Z by lia. replace (Z.max (- x) 0) with (- x)%Z by lia. rewrite Qpower_opp. cbn [Qpower]. field. apply pos_ne, ten_pos.
Qed.

Lemma decval_nonneg N x : (0 <= N)%Z -> 0 <= decval N x.
Proof. intros H. unfold decval. apply Qmult_le_0_compat; [change 0 with (inject_Z 0); now rewrite <- Zle_Qle|apply Qlt_le_weak, ten_pos]. Qed.

(** The rounding modelled is to nearest. *)
Lemma strtod_nearest : nearest strtod.
Proof.
  intros N x F. unfold strtod. destruct (Z.eqb_spec N 0) as [->|HN].
  - split; [unfold is_double; cbn [fst snd]; lia|]. intros v _. eapply Qle_trans; [|apply Qabs_nonneg]. unfold dval, decval. cbn [fst snd Qpower]. rewrite !Qmult_0_l. apply Qle_refl.
  - set (n := (Z.abs N * 10 ^ Z.max x 0)%Z). set (d := (10 ^ Z.max (- x) 0)%Z). assert (Pn : (0 < n)%Z) by (apply Z.mul_pos_pos; [lia|apply Z.pow_pos_nonneg; lia]). assert (Pd : (0 < d)%Z) by (apply Z.pow_pos_nonneg; lia).
    pose proof (decval_quot (Z.abs N) x) as Q. fold n d in Q.
    assert (SG : (N <? 0)%Z = true /\ decval N x == - decval (Z.abs N) x \/ (N <? 0)%Z = false /\ decval N x == decval (Z.abs N) x).
    { destruct (Z.ltb_spec N 0); [left|right]; (split; [reflexivity|]). - rewrite <- decval_neg. now replace (- Z.abs N)%Z with N by lia. - now replace (Z.abs N) with N by lia. }
    assert (F' : inject_Z n / inject_Z d < inject_Z (2 ^ 1024 - 2 ^ 970)).
    { rewrite Q. unfold finite in F. destruct SG as [(_ & SG)|(_ & SG)]; rewrite SG in F; [rewrite Qabs_opp in F|]; (rewrite Qabs_pos in F by (apply decval_nonneg; lia)); auto. }
    destruct (round53_ok n d Pn Pd F') as (R1 & R2). destruct (round53 n d) as (m, e). split.
    + unfold is_double in *. cbn [fst snd] in *. destruct (N <? 0)%Z; lia.
    + intros v Hv. destruct SG as [(-> & SG)|(-> & SG)]; rewrite SG, <- Q; [|now apply R2].
      destruct v as (m', e'). specialize (R2 (- m', e')%Z). rewrite dval_neg in R2. rewrite dval_neg.
      assert (SQ : forall a b, Qabs (a - - b) == Qabs (- a - b)) by (intros a b; rewrite <- Qabs_opp; apply Qabs_wd; ring). rewrite !SQ.
      assert (E2 : forall a b, - - a - b == a - b) by (intros; ring). rewrite E2. apply R2. unfold is_double in *. cbn [fst snd] in *. lia.
Qed.

(** *** Reading back *)

Lemma is_double_finite v : is_double v -> finite (dval v).
Proof.
  destruct v as (m, e). intros (H1 & H2). cbn [fst snd] in *. unfold finite, dval. cbn [fst snd]. rewrite Qabs_Qmult, (Qabs_pos ((2 # 1) ^ e)) by apply Qlt_le_weak, two_pos.
  apply Qle_lt_trans with (inject_Z (2 ^ 53 - 1) * (2 # 1) ^ e).
  - apply Qmult_le_compat_r; [|apply Qlt_le_weak, two_pos]. change (Qabs (inject_Z m)) with (inject_Z (Z.abs m)). rewrite <- Zle_Qle. lia.
  - apply Qle_lt_trans with (inject_Z (2 ^ 53 - 1) * (2 # 1) ^ 971); [|vm_compute; reflexivity].
    rewrite !(Qmult_comm (inject_Z (2 ^ 53 - 1))). apply Qmult_le_compat_r; [apply Qpower_le_compat_l; [lia|discriminate]|]. vm_compute. discriminate.
Qed.

Lemma finite_wd a b : a == b -> finite a -> finite b. Proof. unfold finite. intros E. now rewrite E. Qed.

Lemma nearest_exact rnd N x v : nearest rnd -> is_double v -> dval v == decval N x -> dval (rnd N x) == dval v.
Proof.
  intros HR Hv E. destruct (HR N x) as (_ & H). { apply (finite_wd _ _ E). now apply is_double_finite. }
  specialize (H v Hv). rewrite E in H. setoid_replace (decval N x - decval N x) with 0 in H by ring. change (Qabs 0) with 0 in H. rewrite E.
  apply Qabs_Qle_condition in H as (A & B). change (- 0) with 0 in A.
  apply Qle_antisym; apply (Qplus_le_l _ _ (- decval N x)); setoid_replace (decval N x + - decval N x) with 0 by ring; auto.
Qed.

(** A text printed is read to its end. *)
Lemma scan_printed rnd v : exists u, (forall w r, all_ws w -> delimited r -> scan_lg rnd (skip_ws (w ++ print_g20 v ++ r)) = Some (u, r)) /\
  (nearest rnd -> is_double v -> short v -> dval u == dval v) /\
  (nearest rnd -> is_double v -> Qabs (dval v) <= (10 # 1) ^ 308 -> forall Y, (10 # 1) ^ Y <= Qabs (dval v) < (10 # 1) ^ (Y + 1) -> Qabs (dval u - dval v) <= (10 # 1) ^ (Y - 15)).
Proof.
  destruct (print_g_ok v) as (N & x & H1 & H2 & H3). exists (rnd N x). split; [|split].
  - intros w r Hw Hr. unfold print_g20. rewrite <- app_assoc, (app_assoc w). rewrite skip_ws_app.
    + unfold scan_lg. now rewrite (scan_dec_num _ _ _ _ H1 Hr).
    + apply Forall_app. split; auto. apply Forall_forall. intros c Hc. apply repeat_spec in Hc as ->. reflexivity.
    + pose proof (dec_num_first _ _ _ H1). destruct (print_g v); [contradiction|auto].
  - intros HR Hv Hs. apply nearest_exact; auto.
  - intros HR Hv Hb Y HY. specialize (H2 Y HY).
    assert (YB : (Y <= 308)%Z). { assert ((10 # 1) ^ Y <= (10 # 1) ^ 308) as T by (eapply Qle_trans; [apply HY|apply Hb]). apply Qpower_le_compat_l_inv in T; [auto|reflexivity]. }
    assert (F : finite (decval N x)).
    { unfold finite. apply Qle_lt_trans with (Qabs (dval v) + Qabs (decval N x - dval v)).
      - eapply Qle_trans; [|apply Qabs_triangle]. apply Qle_lteq. right. apply Qabs_wd. ring.
      - rewrite (Qabs_Qminus (decval N x)). apply Qle_lt_trans with ((10 # 1) ^ 308 + (1 # 2) * (10 # 1) ^ (308 - 15)); [|vm_compute; reflexivity].
        apply Qplus_le_compat; auto. eapply Qle_trans; [apply H2|]. apply Qmult_le_l; [reflexivity|]. apply Qpower_le_compat_l; [lia|discriminate]. }
    destruct (HR N x F) as (_ & HN). specialize (HN v Hv). setoid_replace (dval (rnd N x) - dval v) with ((dval (rnd N x) - decval N x) + (decval N x - dval v)) by ring.
    eapply Qle_trans; [apply Qabs_triangle|]. rewrite (Qabs_Qminus (decval N x)). setoid_replace ((10 # 1) ^ (Y - 15)) with ((1 # 2) * (10 # 1) ^ (Y - 15) + (1 # 2) * (10 # 1) ^ (Y - 15)) by ring.
    apply Qplus_le_compat; auto. eapply Qle_trans; eauto.
Qed.

(** *** Cases *)

(** Two doubles with the same text. *)
Lemma same_text : is_double (2 ^ 52 + 1, 2)%Z /\ is_double (2 ^ 52 + 2, 2)%Z /\ ~ dval (2 ^ 52 + 1, 2)%Z == dval (2 ^ 52 + 2, 2)%Z /\
  print_g20 (2 ^ 52 + 1, 2)%Z = print_g20 (2 ^ 52 + 2, 2)%Z.
Proof. repeat split; try (vm_compute; congruence). Qed.

Lemma no_reader : ~ exists read : list Z -> Q, forall v, is_double v -> read (print_g20 v) == dval v.
Proof.
  intros (read & H). destruct same_text as (H1 & H2 & H3 & H4). apply H3. rewrite <- (H _ H1), <- (H _ H2), H4. reflexivity.
Qed.

(** The largest double prints as a number that rounds to infinity. *)
Lemma largest_text : is_double (2 ^ 53 - 1, 971)%Z /\ print_g (2 ^ 53 - 1, 971)%Z = str "1.797693134862316e+308"%string /\
  (forall r, delimited r -> scan_dec (print_g (2 ^ 53 - 1, 971)%Z ++ r) = Some (1797693134862316, 293, r)%Z) /\ ~ finite (decval 1797693134862316 293).
Proof.
  split; [repeat split; try (vm_compute; congruence)|]. assert (E : print_g (2 ^ 53 - 1, 971)%Z = str "1.797693134862316e+308"%string) by (vm_compute; reflexivity). split; [exact E|]. split.
  - intros r Hr. rewrite E. apply scan_dec_num; auto.
    exists false, [49%Z], (map (fun d => d + 48)%Z [7;9;7;6;9;3;1;3;4;8;6;2;3;1;6]%Z), 308%Z, (101 :: [43; 51; 48; 56])%Z.
    split; [vm_compute; reflexivity|]. split; [discriminate|]. split; [repeat constructor; lia|]. split; [repeat constructor; vm_compute; congruence|]. split; [vm_compute; reflexivity|]. split; [vm_compute; reflexivity|].
    right. eexists. split; [reflexivity|]. exists [43%Z], [51; 48; 56]%Z. split; [reflexivity|]. split; [discriminate|]. split; [repeat constructor; vm_compute; congruence|]. right. left. split; reflexivity.
  - unfold finite. vm_compute. intros H. discriminate.
Qed.

(** 0.1 is printed as 0.1, -2500 as -2500, 3 * 2^100 with an exponent, and read back. *)
Lemma print_cases : print_g (7205759403792794, -56)%Z = str "0.1"%string /\ print_g (-625, 2)%Z = str "-2500"%string /\ print_g20 (-625, 2)%Z = repeat 32%Z 15 ++ str "-2500"%string /\
  print_g (3, 100)%Z = str "3.802951800684688e+30"%string /\ print_g (1, -1074)%Z = str "4.940656458412465e-324"%string /\
  scan_lg strtod (str "0.1"%string) = Some ((7205759403792794, -56)%Z, []) /\ scan_lg strtod (str "3.802951800684688e+30"%string) = Some ((6755399441055744, 49)%Z, []) /\
  scan_lg strtod (str "4.940656458412465e-324"%string) = Some ((1, -1074)%Z, []) /\ scan_lg strtod (str "-2500 "%string) = Some ((-5497558138880000, -41)%Z, [32%Z]).
Proof. vm_compute. repeat split. Qed.
