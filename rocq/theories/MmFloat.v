(** * Printing a double with "%20.16g" and reading it back (CSR.cpp:299, mm_io.cpp:745) *)
From Coq Require Import String QArith Qpower Qabs.
From Verif Require Import Base MmText.
Open Scope Z_scope.

(** ** Model *)

(** A finite double [m * 2^e]; the sign of zero is not represented. *)
Definition dbl : Type := Z * Z.

(** Round the quotient of [n] and [d] to an integer, half to even. *)
Definition rhe (n d : Z) : Z :=
  let q := n / d in let r := n mod d in
  if 2 * r <? d then q else if d <? 2 * r then q + 1 else if Z.even q then q else q + 1.
(** The same for [n / d * 10^k]. *)
Definition rnd_scaled (n d k : Z) : Z := if 0 <=? k then rhe (n * 10 ^ k) d else rhe n (d * 10 ^ (- k)).

(** The decimal exponent of [n / d]. *)
Fixpoint lg_up (fuel : nat) (q : Z) : Z := match fuel with O => 0 | S fuel => if q <? 10 then 0 else 1 + lg_up fuel (q / 10) end.
Fixpoint lg_dn (fuel : nat) (n d : Z) : Z := match fuel with O => 0 | S fuel => if d <=? n then 0 else 1 + lg_dn fuel (10 * n) d end.
Definition lg10 (n d : Z) : Z :=
  if d <=? n then lg_up (S (Z.to_nat (Z.log2 n))) (n / d) else - lg_dn (S (Z.to_nat (Z.log2 d + 1))) n d.

(** The [k] last decimal digits of [x]. *)
Fixpoint fixed_digits (k : nat) (x : Z) : list Z := match k with O => [] | S k => fixed_digits k (x / 10) ++ [48 + x mod 10] end.
Fixpoint drop_zeros (l : list Z) : list Z := match l with c :: r => if c =? 48 then drop_zeros r else l | [] => [] end.
(** Without the zeros at the end. *)
Definition strip (l : list Z) : list Z := rev (drop_zeros (rev l)).
Definition with_point (fd : list Z) : list Z := match fd with [] => [] | _ => 46 :: fd end.

(** The text of [D * 10^(X - 15)], where [D] has 16 digits: the style of C11 7.21.6.1, conversion g. *)
Definition g_digits (D X : Z) : list Z :=
  if (-4 <=? X) && (X <? 16) then
    let K := 15 - X in pr_nat (D / 10 ^ K) ++ with_point (strip (fixed_digits (Z.to_nat K) D))
  else pr_nat (D / 10 ^ 15) ++ with_point (strip (fixed_digits 15 D)) ++
       [101] ++ [if X <? 0 then 45 else 43] ++ (if Z.abs X <? 10 then [48] else []) ++ pr_nat (Z.abs X).

(** 16 digits and the decimal exponent, rounded to nearest. *)
Definition sixteen (n d : Z) : Z * Z :=
  let X := lg10 n d in let D := rnd_scaled n d (15 - X) in if D =? 10 ^ 16 then (10 ^ 15, X + 1) else (D, X).

(** "%.16g" *)
Definition print_g (v : dbl) : list Z :=
  let '(m, e) := v in
  if m =? 0 then [48]
  else let '(D, X) := sixteen (Z.abs m * 2 ^ Z.max e 0) (2 ^ Z.max (- e) 0) in (if m <? 0 then [45] else []) ++ g_digits D X.
(** "%20.16g" *)
Definition print_g20 (v : dbl) : list Z := let t := print_g v in repeat 32 (20 - List.length t) ++ t.

(** Reading a decimal number: the number as [N * 10^x], and the rest of the text.
    Infinities, NaNs and hexadecimal numbers are not read; after an [e] without a
    digit the real conversion fails. *)
Definition scan_sign' (f : list Z) : bool * list Z := match f with c :: r => if c =? 45 then (true, r) else if c =? 43 then (false, r) else (false, f) | [] => (false, []) end.
Definition scan_dec (f : list Z) : option (Z * Z * list Z) :=
  let '(neg, f) := scan_sign' f in
  let '(ip, f) := span isdigit f in
  let '(fd, f) := match f with c :: r => if c =? 46 then span isdigit r else ([], f) | [] => ([], []) end in
  match ip ++ fd with
  | [] => None
  | ds =>
      let '(ex, f) := match f with
                      | c :: r => if (c =? 101) || (c =? 69) then
                                    let '(en, g) := scan_sign' r in let '(ed, g) := span isdigit g in
                                    match ed with [] => (0, f) | _ => (if en then - digits_val ed else digits_val ed, g) end
                                  else (0, f)
                      | [] => (0, [])
                      end in
      Some (if neg then - digits_val ds else digits_val ds, ex - Zlen fd, f)
  end.

(** ** Specification *)

(** The numbers denoted. *)
Definition dval (v : dbl) : Q := (inject_Z (fst v) * (2 # 1) ^ snd v)%Q.
Definition decval (N x : Z) : Q := (inject_Z N * (10 # 1) ^ x)%Q.

(** [t] is a decimal notation, with optional fraction and exponent, of [N * 10^x]. *)
Definition dec_num (t : list Z) (N x : Z) : Prop :=
  exists (neg : bool) ip fd ex et, t = (if neg then [45] else []) ++ ip ++ with_point fd ++ et /\ ip <> [] /\ all_digits ip /\ all_digits fd /\
    N = (if neg then - digits_val (ip ++ fd) else digits_val (ip ++ fd)) /\ x = ex - Zlen fd /\
    ((et = [] /\ ex = 0) \/ exists u, et = 101 :: u /\ dec_text ex u).

(** A double of the machine (binary64). *)
Definition is_double (v : dbl) : Prop := Z.abs (fst v) < 2 ^ 53 /\ -1074 <= snd v <= 971.
(** At most 16 significant decimal digits. *)
Definition short (v : dbl) : Prop := exists N x, Z.abs N < 10 ^ 16 /\ (dval v == decval N x)%Q.

(** ** Proofs *)

(** *** Digits *)

Lemma digits_val_app a b : digits_val (a ++ b) = digits_val a * 10 ^ Zlen b + digits_val b.
Proof.
  unfold digits_val. rewrite fold_left_app. generalize (fold_left (fun a d => 10 * a + (d - 48)) a 0). induction b as [|c b IH] using rev_ind; intros z.
  - cbn [fold_left]. change (Zlen (@nil Z)) with 0. lia.
  - rewrite !fold_left_app. cbn [fold_left]. rewrite IH, Zlen_app. change (Zlen [c]) with 1. pose proof (Zlen_nonneg b). rewrite Z.pow_add_r by lia. change (10 ^ 1) with 10. lia.
Qed.
Lemma digits_val_1 c : digits_val [c] = c - 48. Proof. unfold digits_val. cbn [fold_left]. lia. Qed.

Lemma fixed_digits_ok k : forall x, 0 <= x -> all_digits (fixed_digits k x) /\ Zlen (fixed_digits k x) = Z.of_nat k /\ digits_val (fixed_digits k x) = x mod 10 ^ Z.of_nat k.
Proof.
  induction k as [|k IH]; intros x Hx.
  - cbn [fixed_digits]. split; [constructor|]. split; [reflexivity|]. change (10 ^ Z.of_nat 0) with 1. rewrite Z.mod_1_r. reflexivity.
  - cbn [fixed_digits]. destruct (IH (x / 10)) as (H1 & H2 & H3); [apply Z.div_pos; lia|]. pose proof (Z.mod_pos_bound x 10 ltac:(lia)). split; [|split].
    + apply Forall_app. split; auto. constructor; [lia|constructor].
    + rewrite Zlen_app, H2. change (Zlen [48 + x mod 10]) with 1. lia.
    + rewrite digits_val_app, H3, digits_val_1. change (Zlen [48 + x mod 10]) with 1. change (10 ^ 1) with 10.
      rewrite Nat2Z.inj_succ, Z.pow_succ_r by lia. rewrite Z.rem_mul_r by (try apply Z.pow_nonzero; lia). lia.
Qed.

Lemma drop_zeros_ok l : exists k, l = repeat 48 k ++ drop_zeros l.
Proof. induction l as [|c l (k & IH)]; [now exists O|]. cbn [drop_zeros]. destruct (Z.eqb_spec c 48) as [->|]; [exists (S k); cbn; congruence|now exists O]. Qed.
Lemma rev_repeat' {A} (x : A) k : rev (repeat x k) = repeat x k.
Proof. induction k as [|k IH]; auto. cbn [repeat rev]. rewrite IH. clear IH. induction k; auto. cbn [repeat app]. congruence. Qed.
Lemma strip_ok l : exists k, l = strip l ++ repeat 48 k.
Proof. destruct (drop_zeros_ok (rev l)) as (k & E). exists k. unfold strip. rewrite <- (rev_involutive l) at 1. rewrite E at 1. now rewrite rev_app_distr, rev_repeat'. Qed.
Lemma zeros_val k : digits_val (repeat 48 k) = 0.
Proof. now induction k. Qed.

(** *** Arithmetic *)

Lemma rhe_ok n d : 0 < d -> 2 * Z.abs (n - d * rhe n d) <= d.
Proof.
  intros Hd. unfold rhe. pose proof (Z_div_mod_eq_full n d). pose proof (Z.mod_pos_bound n d Hd).
  destruct (Z.ltb_spec (2 * (n mod d)) d); [nia|]. destruct (Z.ltb_spec d (2 * (n mod d))); [nia|]. destruct (Z.even (n / d)); nia.
Qed.

Lemma lg_up_ok fuel : forall q, 1 <= q < 2 ^ Z.of_nat fuel -> 0 <= lg_up fuel q /\ 10 ^ lg_up fuel q <= q < 10 ^ (lg_up fuel q + 1).
Proof.
  induction fuel as [|fuel IH]; intros q Hq; [change (2 ^ Z.of_nat 0) with 1 in Hq; lia|]. cbn [lg_up]. destruct (Z.ltb_spec q 10); [change (10 ^ 0) with 1; change (10 ^ (0 + 1)) with 10; lia|].
  rewrite Nat2Z.inj_succ, Z.pow_succ_r in Hq by lia. pose proof (Z_div_mod_eq_full q 10). pose proof (Z.mod_pos_bound q 10 ltac:(lia)).
  destruct (IH (q / 10)) as (Ha & Hb); [lia|]. split; [lia|]. rewrite !(Z.add_comm 1), !Z.pow_add_r in * by lia. change (10 ^ 1) with 10 in *. lia.
Qed.

Lemma lg_dn_ok fuel : forall n d, 0 < n < d -> d <= n * 10 ^ (Z.of_nat fuel - 1) -> (0 < fuel)%nat ->
  let k := lg_dn fuel n d in 1 <= k /\ n * 10 ^ (k - 1) < d <= n * 10 ^ k.
Proof.
  induction fuel as [|fuel IH]; intros n d Hn Hd Hf; [lia|]. cbv zeta. cbn [lg_dn]. replace (d <=? n) with false by lia.
  destruct (Z_le_gt_dec d (10 * n)) as [L|L].
  - replace (lg_dn fuel (10 * n) d) with 0 by (destruct fuel; auto; cbn [lg_dn]; now replace (d <=? 10 * n) with true by lia). change (10 ^ (1 + 0 - 1)) with 1. change (10 ^ (1 + 0)) with 10. lia.
  - replace (Z.of_nat (S fuel) - 1) with (Z.of_nat fuel) in Hd by lia. destruct fuel as [|fuel]; [change (10 ^ Z.of_nat 0) with 1 in Hd; lia|].
    destruct (IH (10 * n) d) as (H1 & H2); [lia| |lia|].
    + replace (Z.of_nat (S fuel)) with (1 + (Z.of_nat (S fuel) - 1)) in Hd by lia. rewrite Z.pow_add_r in Hd by lia. change (10 ^ 1) with 10 in Hd. nia.
    + set (k := lg_dn (S fuel) (10 * n) d) in *. split; [lia|]. replace (1 + k - 1) with (1 + (k - 1)) by lia. rewrite !Z.pow_add_r by lia. change (10 ^ 1) with 10. lia.
Qed.

Open Scope Q_scope.

Lemma ten_ne : ~ (10 # 1) == 0. Proof. discriminate. Qed.
Lemma ten_pos x : 0 < (10 # 1) ^ x. Proof. apply Qpower_0_lt. reflexivity. Qed.
Lemma two_pos x : 0 < (2 # 1) ^ x. Proof. apply Qpower_0_lt. reflexivity. Qed.
Lemma ten_Z k : (0 <= k)%Z -> inject_Z (10 ^ k) == (10 # 1) ^ k. Proof. intros. now rewrite Zpower_Qpower. Qed.
Lemma two_Z k : (0 <= k)%Z -> inject_Z (2 ^ k) == (2 # 1) ^ k. Proof. intros. now rewrite Zpower_Qpower. Qed.
Lemma pos_ne q : 0 < q -> ~ q == 0. Proof. intros H E. rewrite E in H. discriminate. Qed.
Lemma inj_pos d : (0 < d)%Z -> 0 < inject_Z d. Proof. intros. change 0 with (inject_Z 0). now rewrite <- Zlt_Qlt. Qed.

(** The decimal exponent. *)
Lemma lg10_ok n d : (0 < n)%Z -> (0 < d)%Z -> (10 # 1) ^ lg10 n d <= inject_Z n / inject_Z d < (10 # 1) ^ (lg10 n d + 1).
Proof.
  intros Hn Hd. pose proof (inj_pos d Hd) as Pd. unfold lg10. destruct (Z.leb_spec d n) as [L|L].
  - assert (H1 : (1 <= n / d)%Z) by (apply Z.div_le_lower_bound; lia).
    assert (H2 : (n / d < 2 ^ Z.of_nat (S (Z.to_nat (Z.log2 n))))%Z).
    { rewrite Nat2Z.inj_succ, Z2Nat.id by apply Z.log2_nonneg. pose proof (Z.log2_spec n Hn). apply Z.le_lt_trans with n; [|lia]. apply Z.div_le_upper_bound; nia. }
    destruct (lg_up_ok (S (Z.to_nat (Z.log2 n))) (n / d)) as (H0 & H3 & H4); [lia|]. set (k := lg_up _ _) in *.
    rewrite <- !ten_Z by lia. pose proof (Z_div_mod_eq_full n d). pose proof (Z.mod_pos_bound n d Hd). split.
    + apply Qle_shift_div_l; auto. rewrite <- inject_Z_mult, <- Zle_Qle. nia.
    + apply Qlt_shift_div_r; auto. rewrite <- inject_Z_mult, <- Zlt_Qlt. nia.
  - destruct (lg_dn_ok (S (Z.to_nat (Z.log2 d + 1))) n d) as (H0 & H3 & H4); [lia| |lia|].
    + rewrite Nat2Z.inj_succ, Z2Nat.id by (pose proof (Z.log2_nonneg d); lia). replace (Z.succ (Z.log2 d + 1) - 1)%Z with (Z.succ (Z.log2 d)) by lia.
      pose proof (Z.log2_spec d Hd). pose proof (Z.log2_nonneg d). pose proof (Z.pow_le_mono_l 2 10 (Z.succ (Z.log2 d)) ltac:(lia)). nia.
    + set (k := lg_dn _ _ _) in *. replace (- k + 1)%Z with (- (k - 1))%Z by lia. rewrite !Qpower_opp, <- !ten_Z by lia.
      assert (P1 : (0 < 10 ^ k)%Z) by (apply Z.pow_pos_nonneg; lia). assert (P2 : (0 < 10 ^ (k - 1))%Z) by (apply Z.pow_pos_nonneg; lia). apply inj_pos in P1 as Q1. apply inj_pos in P2 as Q2.
      assert (E : forall z, / z == 1 / z) by (intros; unfold Qdiv; ring). rewrite !E. split.
      * apply Qle_shift_div_l; auto. setoid_replace (1 / inject_Z (10 ^ k) * inject_Z d) with (inject_Z d / inject_Z (10 ^ k)) by (field; now apply pos_ne). apply Qle_shift_div_r; auto. rewrite <- inject_Z_mult, <- Zle_Qle. lia.
      * apply Qlt_shift_div_r; auto. setoid_replace (1 / inject_Z (10 ^ (k - 1)) * inject_Z d) with (inject_Z d / inject_Z (10 ^ (k - 1))) by (field; now apply pos_ne). apply Qlt_shift_div_l; auto. rewrite <- inject_Z_mult, <- Zlt_Qlt. lia.
Qed.

Lemma rhe_Q n d : (0 < d)%Z -> Qabs (inject_Z n / inject_Z d - inject_Z (rhe n d)) <= 1 # 2.
Proof.
  intros Hd. pose proof (rhe_ok n d Hd) as H. pose proof (inj_pos d Hd) as Pd.
  setoid_replace (inject_Z n / inject_Z d - inject_Z (rhe n d)) with (inject_Z (n - d * rhe n d) / inject_Z d).
  2: { unfold Z.sub. rewrite inject_Z_plus, inject_Z_opp, inject_Z_mult. field. now apply pos_ne. }
  generalize dependent (n - d * rhe n d)%Z. intros t H. apply Qabs_Qle_condition. split.
  - apply Qle_shift_div_l; auto. unfold Qle, Qmult, Qopp, inject_Z. cbn [Qnum Qden]. lia.
  - apply Qle_shift_div_r; auto. unfold Qle, Qmult, inject_Z. cbn [Qnum Qden]. lia.
Qed.

(** Rounding after scaling by a power of ten. *)
Lemma rnd_ok n d k : (0 < d)%Z -> Qabs (inject_Z n / inject_Z d * (10 # 1) ^ k - inject_Z (rnd_scaled n d k)) <= 1 # 2.
Proof.
  intros Hd. pose proof (inj_pos d Hd) as Pd. unfold rnd_scaled. destruct (Z.leb_spec 0 k) as [L|L].
  - eapply Qle_trans; [|apply (rhe_Q (n * 10 ^ k) d Hd)]. apply Qle_lteq. right. apply Qabs_wd. rewrite inject_Z_mult, ten_Z by lia. field. now apply pos_ne.
  - assert (P : (0 < 10 ^ - k)%Z) by (apply Z.pow_pos_nonneg; lia). assert (P' : (0 < d * 10 ^ - k)%Z) by nia. eapply Qle_trans; [|apply (rhe_Q n (d * 10 ^ (- k)) P')]. apply Qle_lteq. right. apply Qabs_wd.
    rewrite inject_Z_mult, ten_Z, Qpower_opp by lia. field. split; apply pos_ne; auto using ten_pos.
Qed.

(** Integers half a unit apart from the same number are equal up to one. *)
Lemma half_close q a : Qabs (q - inject_Z a) <= 1 # 2 -> (forall z, inject_Z z <= q -> (z <= a)%Z) /\ (forall z, q <= inject_Z z -> (a <= z)%Z) /\ (forall z, q == inject_Z z -> a = z).
Proof.
  intros H. apply Qabs_Qle_condition in H. destruct H as (H1 & H2).
  assert (A : forall z, inject_Z z <= q -> (z <= a)%Z).
  { intros z Hz. assert (inject_Z z - inject_Z a <= 1 # 2) as H by (eapply Qle_trans; [|apply H2]; apply Qplus_le_l; auto).
    unfold Qle, Qminus, Qplus, Qopp, inject_Z in H. cbn [Qnum Qden] in H. lia. }
  assert (B : forall z, q <= inject_Z z -> (a <= z)%Z).
  { intros z Hz. assert (- (1 # 2) <= inject_Z z - inject_Z a) as H by (eapply Qle_trans; [apply H1|]; apply Qplus_le_l; auto).
    unfold Qle, Qminus, Qplus, Qopp, inject_Z in H. cbn [Qnum Qden] in H. lia. }
  split; [|split]; auto. intros z E. apply Z.le_antisymm; [apply B|apply A]; rewrite E; apply Qle_refl.
Qed.

Lemma ten_add a b : (10 # 1) ^ (a + b) == (10 # 1) ^ a * (10 # 1) ^ b. Proof. apply Qpower_plus, ten_ne. Qed.

(** The 16 digits printed. *)
Lemma sixteen_ok n d v D X : (0 < n)%Z -> (0 < d)%Z -> sixteen n d = (D, X) -> v = inject_Z n / inject_Z d ->
  (10 ^ 15 <= D < 10 ^ 16)%Z /\
  (forall Y, (10 # 1) ^ Y <= v < (10 # 1) ^ (Y + 1) -> Qabs (v - decval D (X - 15)) <= (1 # 2) * (10 # 1) ^ (Y - 15)) /\
  (forall N x, (Z.abs N < 10 ^ 16)%Z -> v == decval N x -> v == decval D (X - 15)).
Proof.
  intros Hn Hd Hs ->. revert Hs. unfold sixteen. pose proof (lg10_ok n d Hn Hd) as (L1 & L2). rename D into D', X into X'. set (X := lg10 n d) in *. pose proof (rnd_ok n d (15 - X) Hd) as R.
  set (v := inject_Z n / inject_Z d) in *. set (D := rnd_scaled n d (15 - X)) in *. pose proof (half_close _ _ R) as (C1 & C2 & C3). clearbody v D X.
  assert (S1 : forall Y, v == v * (10 # 1) ^ Y * (10 # 1) ^ (- Y)).
  { intros Y. rewrite <- Qmult_assoc, <- ten_add. replace (Y + - Y)%Z with 0%Z by lia. cbn [Qpower]. ring. }
  assert (D1 : (10 ^ 15 <= D)%Z).
  { apply C1. rewrite ten_Z by lia. replace 15%Z with (X + (15 - X))%Z at 1 by lia. rewrite ten_add. apply Qmult_le_compat_r; auto. apply Qlt_le_weak, ten_pos. }
  assert (D2 : (D <= 10 ^ 16)%Z).
  { apply C2. rewrite ten_Z by lia. replace 16%Z with (X + 1 + (15 - X))%Z at 1 by lia. rewrite ten_add. apply Qmult_le_compat_r; [now apply Qlt_le_weak|]. apply Qlt_le_weak, ten_pos. }
  assert (E1 : Qabs (v - decval D (X - 15)) <= (1 # 2) * (10 # 1) ^ (X - 15)).
  { setoid_replace (v - decval D (X - 15)) with ((v * (10 # 1) ^ (15 - X) - inject_Z D) * (10 # 1) ^ (X - 15)).
    - rewrite Qabs_Qmult. rewrite (Qabs_pos ((10 # 1) ^ (X - 15))) by apply Qlt_le_weak, ten_pos. apply Qmult_le_compat_r; auto. apply Qlt_le_weak, ten_pos.
    - unfold decval. rewrite (S1 (15 - X)%Z) at 1. replace (- (15 - X))%Z with (X - 15)%Z by lia. ring. }
  assert (UX : forall Y, (10 # 1) ^ Y <= v < (10 # 1) ^ (Y + 1) -> Y = X).
  { intros Y (Y1 & Y2). assert (T : 1 < 10 # 1) by reflexivity. pose proof (Qle_lt_trans _ _ _ Y1 L2) as A. pose proof (Qle_lt_trans _ _ _ L1 Y2) as B.
    apply (Qpower_lt_compat_l_inv (10 # 1)) in A; auto. apply (Qpower_lt_compat_l_inv (10 # 1)) in B; auto. lia. }
  assert (E2 : forall N x, (Z.abs N < 10 ^ 16)%Z -> v == decval N x -> v == decval D (X - 15)).
  { intros N x HN E. assert (W : exists z, v * (10 # 1) ^ (15 - X) == inject_Z z).
    { destruct (Z_le_gt_dec 0 (x + (15 - X))) as [G|G].
      - exists (N * 10 ^ (x + (15 - X)))%Z. rewrite E. unfold decval. rewrite inject_Z_mult, ten_Z by lia. rewrite ten_add. ring.
      - (* then v is below 10^X *) exfalso. assert (v < (10 # 1) ^ X); [|apply (Qlt_not_le v ((10 # 1) ^ X)); auto].
        rewrite E. unfold decval. apply Qlt_le_trans with ((10 # 1) ^ 16 * (10 # 1) ^ x).
        + apply Qmult_lt_compat_r; [apply ten_pos|]. rewrite <- ten_Z, <- Zlt_Qlt by lia. lia.
        + rewrite <- ten_add. apply Qpower_le_compat_l; [lia|discriminate]. }
    destruct W as (z & W). pose proof (C3 z W) as ->. unfold decval. rewrite <- W, (S1 (15 - X)%Z) at 1. now replace (- (15 - X))%Z with (X - 15)%Z by lia. }
  assert (ED : D = (10 ^ 16)%Z -> decval D (X - 15) == decval (10 ^ 15) (X + 1 - 15)).
  { intros ->. unfold decval. replace (X + 1 - 15)%Z with (1 + (X - 15))%Z by lia. rewrite ten_add. change (10 ^ 16)%Z with (10 ^ 15 * 10)%Z. rewrite inject_Z_mult. change ((10 # 1) ^ 1) with (10 # 1). change (inject_Z 10) with (10 # 1). ring. }
  destruct (Z.eqb_spec D (10 ^ 16)) as [E|E]; intros Hs; [assert (D' = 10 ^ 15 /\ X' = X + 1)%Z as (-> & ->) by (split; congruence)|assert (D' = D /\ X' = X) as (-> & ->) by (split; congruence)].
  - apply ED in E. split; [lia|]. split.
    + intros Y HY. rewrite (UX Y HY), <- E. auto.
    + intros N x HN Ev. rewrite <- E. eauto.
  - split; [lia|]. split; auto. intros Y HY. now rewrite (UX Y HY).
Qed.

(** *** The text *)

Lemma decval_zeros N k x : (0 <= k)%Z -> decval (N * 10 ^ k) x == decval N (x + k).
Proof. intros Hk. unfold decval. rewrite inject_Z_mult, ten_Z, ten_add by auto. ring. Qed.

Lemma g_split D K : (0 <= D)%Z -> (0 <= K)%Z -> let ip := pr_nat (D / 10 ^ K) in let fd := strip (fixed_digits (Z.to_nat K) D) in
  ip <> [] /\ all_digits ip /\ all_digits fd /\ forall ex, decval (digits_val (ip ++ fd)) (ex - Zlen fd) == decval D (ex - K).
Proof.
  intros HD HK ip fd. assert (P : (0 < 10 ^ K)%Z) by (apply Z.pow_pos_nonneg; lia). destruct (pr_nat_spec (D / 10 ^ K)) as (H1 & H2 & H3); [apply Z.div_pos; lia|]. fold ip in H1, H2, H3.
  destruct (fixed_digits_ok (Z.to_nat K) D HD) as (F1 & F2 & F3). destruct (strip_ok (fixed_digits (Z.to_nat K) D)) as (z & E). fold fd in E. rewrite Z2Nat.id in F2, F3 by lia.
  split; [auto|]. split; [auto|]. rewrite E in F1. apply Forall_app in F1 as (F1 & _). split; auto. intros ex.
  assert (L : Zlen fd = (K - Z.of_nat z)%Z). { rewrite E, Zlen_app, Zlen_repeat in F2. lia. }
  assert (V : (digits_val (ip ++ fd) * 10 ^ Z.of_nat z = D)%Z).
  { pose proof (digits_val_app (ip ++ fd) (repeat 48%Z z)) as A. rewrite <- app_assoc, <- E, digits_val_app, F2, F3, H3, zeros_val, Zlen_repeat in A. pose proof (Z_div_mod_eq_full D (10 ^ K)). lia. }
  rewrite <- V. rewrite decval_zeros by lia. replace (ex - K + Z.of_nat z)%Z with (ex - Zlen fd)%Z by lia. reflexivity.
Qed.

Lemma g_shape D X : (10 ^ 15 <= D)%Z -> exists ip fd ex et, g_digits D X = ip ++ with_point fd ++ et /\ ip <> [] /\ all_digits ip /\ all_digits fd /\
  ((et = [] /\ ex = 0%Z) \/ exists u, et = 101%Z :: u /\ dec_text ex u) /\ decval (digits_val (ip ++ fd)) (ex - Zlen fd) == decval D (X - 15).
Proof.
  intros HD. unfold g_digits. destruct ((-4 <=? X)%Z && (X <? 16)%Z) eqn:B.
  - destruct (g_split D (15 - X)) as (H1 & H2 & H3 & H4); [lia|lia|]. do 2 eexists. exists 0%Z, []. rewrite app_nil_r. split; [reflexivity|]. split; auto. split; auto. split; auto. split; auto.
    rewrite H4. now replace (0 - (15 - X))%Z with (X - 15)%Z by lia.
  - destruct (g_split D 15) as (H1 & H2 & H3 & H4); [lia|lia|]. do 2 eexists. exists X. eexists. split; [reflexivity|]. split; auto. split; auto. split; auto. split; [right|apply H4].
    eexists. split; [reflexivity|]. set (z := if (Z.abs X <? 10)%Z then [48%Z] else []). assert (Z1 : all_digits z /\ digits_val z = 0%Z) by (unfold z; destruct (Z.abs X <? 10)%Z; split; try constructor; try lia; constructor). destruct Z1 as (Z1 & Z2).
    destruct (pr_nat_spec (Z.abs X)) as (P1 & P2 & P3); [lia|]. exists [if (X <? 0)%Z then 45%Z else 43%Z], (z ++ pr_nat (Z.abs X)). split; [reflexivity|].
    split. { destruct z; [auto|discriminate]. } split; [now apply Forall_app|]. right. rewrite digits_val_app, P3, Z2. destruct (Z.ltb_spec X 0); [right|left]; (split; [reflexivity|lia]).
Qed.

(** The magnitude of a double as a quotient. *)
Lemma dval_quot m e : (0 < m)%Z -> inject_Z (m * 2 ^ Z.max e 0) / inject_Z (2 ^ Z.max (- e) 0) == dval (m, e).
Proof.
  intros Hm. unfold dval. cbn [fst snd]. rewrite inject_Z_mult, !two_Z by lia. destruct (Z_le_gt_dec 0 e) as [L|L].
  - replace (Z.max e 0) with e by lia. replace (Z.max (- e) 0) with 0%Z by lia. cbn [Qpower]. field.
  - replace (Z.max e 0) with 0%Z by lia. replace (Z.max (- e) 0) with (- e)%Z by lia. rewrite Qpower_opp. cbn [Qpower]. field. apply pos_ne, two_pos.
Qed.

Lemma dval_neg m e : dval (- m, e)%Z == - dval (m, e). Proof. unfold dval. cbn [fst snd]. rewrite inject_Z_opp. ring. Qed.
Lemma decval_neg N x : decval (- N) x == - decval N x. Proof. unfold decval. rewrite inject_Z_opp. ring. Qed.

Lemma Qabs_neg_eq q : Qabs (- q) == Qabs q. Proof. apply Qabs_opp. Qed.

(** What is printed, and how close it is. *)
Theorem print_g_ok v : exists N x, dec_num (print_g v) N x /\
  (forall Y, (10 # 1) ^ Y <= Qabs (dval v) < (10 # 1) ^ (Y + 1) -> Qabs (dval v - decval N x) <= (1 # 2) * (10 # 1) ^ (Y - 15)) /\
  (short v -> dval v == decval N x).
Proof.
  destruct v as (m, e). unfold print_g. destruct (Z.eqb_spec m 0) as [->|Hm].
  - exists 0%Z, 0%Z. split; [|split].
    + exists false, [48%Z], [], 0%Z, []. split; auto. split; [discriminate|]. split; [repeat constructor; lia|]. split; [constructor|]. split; auto.
    + intros Y (Y1 & _). exfalso. apply (Qlt_not_le 0 ((10 # 1) ^ Y)); [apply ten_pos|]. eapply Qle_trans; [apply Y1|]. unfold dval. cbn [fst snd]. rewrite Qmult_0_l. apply Qle_refl.
    + intros _. unfold dval, decval. cbn [fst snd]. ring.
  - destruct (sixteen _ _) as (D, X) eqn:E. set (a := Z.abs m) in *. set (d := (2 ^ Z.max (- e) 0)%Z) in *.
    assert (Pa : (0 < a)%Z) by lia. assert (Pn : (0 < a * 2 ^ Z.max e 0)%Z) by (apply Z.mul_pos_pos; [lia|apply Z.pow_pos_nonneg; lia]). assert (Pd : (0 < d)%Z) by (apply Z.pow_pos_nonneg; lia).
    destruct (sixteen_ok _ _ _ _ _ Pn Pd E eq_refl) as (S1 & S2 & S3). pose proof (dval_quot a e Pa) as Q. fold d in Q.
    destruct (g_shape D X) as (ip & fd & ex & et & G1 & G2 & G3 & G4 & G5 & G6); [lia|].
    assert (SG : (m <? 0)%Z = true /\ dval (m, e) == - dval (a, e) \/ (m <? 0)%Z = false /\ dval (m, e) == dval (a, e)).
    { destruct (Z.ltb_spec m 0); [left|right]; (split; [reflexivity|]). - rewrite <- dval_neg. now replace (- a)%Z with m by lia. - now replace a with m by lia. }
    assert (PA : 0 <= dval (a, e)). { unfold dval. cbn [fst snd]. apply Qmult_le_0_compat; apply Qlt_le_weak; [now apply inj_pos|apply two_pos]. }
    assert (AB : Qabs (dval (m, e)) == dval (a, e)). { destruct SG as [(_ & ->)|(_ & ->)]; rewrite ?Qabs_opp; now apply Qabs_pos. }
    set (N := digits_val (ip ++ fd)) in *. exists (if (m <? 0)%Z then - N else N)%Z, (ex - Zlen fd)%Z. split; [|split].
    + exists (m <? 0)%Z, ip, fd, ex, et. rewrite G1. auto 10.
    + intros Y HY. rewrite AB, <- Q in HY. specialize (S2 Y HY). rewrite Q, <- G6 in S2. destruct SG as [(-> & ->)|(-> & ->)]; auto.
      rewrite decval_neg. setoid_replace (- dval (a, e) - - decval N (ex - Zlen fd)) with (- (dval (a, e) - decval N (ex - Zlen fd))) by ring. now rewrite Qabs_opp.
    + intros (N0 & x0 & HN & EN). destruct SG as [(-> & SG)|(-> & SG)]; rewrite SG in *.
      * rewrite decval_neg, G6, <- Q. apply Qopp_comp. apply (S3 (- N0)%Z x0); [lia|]. rewrite Q, decval_neg, <- EN. ring.
      * rewrite G6, <- Q. apply (S3 N0 x0); auto. now rewrite Q.
Qed.

(** *** Reading *)

Lemma scan_dec_num t N x r : dec_num t N x -> delimited r -> scan_dec (t ++ r) = Some (N, x, r).
Proof.
  intros (neg & ip & fd & ex & et & -> & H1 & H2 & H3 & -> & -> & H4) Hr. unfold scan_dec.
  assert (DG : forall l, all_digits l -> Forall (fun c => isdigit c = true) l) by (intros l; apply Forall_impl; unfold isdigit; lia).
  assert (ND : forall c, isspace c = true -> isdigit c = false /\ (c =? 46)%Z = false /\ (c =? 101)%Z = false /\ (c =? 69)%Z = false) by (unfold isspace, isdigit; lia).
  assert (S0 : forall sg (b : bool), (if b then [45%Z] else []) = sg -> scan_sign' ((sg ++ ip ++ with_point fd ++ et) ++ r) = (b, (ip ++ with_point fd ++ et) ++ r)).
  { intros sg b <-. destruct b; [reflexivity|]. cbn [app]. destruct ip as [|c ip]; [contradiction|]. inversion H2; subst. cbn [app scan_sign']. replace (c =? 45)%Z with false by lia. now replace (c =? 43)%Z with false by lia. }
  rewrite (S0 _ neg eq_refl). clear S0. rewrite <- !app_assoc. 
  assert (SE : match et ++ r with [] => True | c :: _ => isdigit c = false /\ (c =? 46)%Z = false end).
  { destruct H4 as [(-> & _)|(u & -> & _)]; [|split; reflexivity]. destruct r as [|c r]; cbn [app]; [exact I|]. cbn in Hr. apply ND in Hr. tauto. }
  rewrite (span_app isdigit ip); [|now apply DG|destruct fd; cbn [with_point app]; [destruct (et ++ r); tauto|reflexivity]].
  assert (S2 : match with_point fd ++ et ++ r with c :: r' => if (c =? 46)%Z then span isdigit r' else ([], with_point fd ++ et ++ r) | [] => ([], []) end = (fd, et ++ r)).
  { destruct fd as [|c fd].
    - cbn [with_point app]. destruct (et ++ r) as [|c q]; auto. destruct SE as (_ & ->). reflexivity.
    - cbn [with_point app]. change (46 =? 46)%Z with true. cbv iota. apply (span_app isdigit (c :: fd)); [now apply DG|]. destruct (et ++ r); tauto. }
  rewrite S2. clear S2. destruct (ip ++ fd) as [|c0 l0] eqn:EI; [destruct ip; [contradiction|discriminate]|]. rewrite <- EI.
  destruct H4 as [(-> & ->)|(u & -> & sg & ds & -> & D1 & D2 & D3)].
  - cbn [app]. destruct r as [|c r]; [reflexivity|]. cbn in Hr. apply ND in Hr as (_ & _ & -> & ->). reflexivity.
  - cbn [app]. change ((101 =? 101)%Z || (101 =? 69)%Z) with true. cbv iota.
    assert (S3 : scan_sign' ((sg ++ ds) ++ r) = ((match sg with [45%Z] => true | _ => false end), ds ++ r)).
    { destruct D3 as [(-> & _)|[(-> & _)|(-> & _)]]; [|reflexivity|reflexivity]. cbn [app]. destruct ds as [|c ds]; [contradiction|]. inversion D2; subst. cbn [app scan_sign']. replace (c =? 45)%Z with false by lia. now replace (c =? 43)%Z with false by lia. }
    rewrite S3. rewrite (span_app isdigit ds); [|now apply DG|]. 2: { destruct r; [exact I|]. cbn in Hr. apply ND in Hr. tauto. }
    destruct ds as [|d0 ds0]; [contradiction|]. destruct D3 as [(-> & ->)|[(-> & ->)|(-> & ->)]]; reflexivity.
Qed.

Lemma dec_num_first t N x : dec_num t N x -> match t with [] => False | c :: _ => isspace c = false end.
Proof.
  intros (neg & ip & fd & ex & et & -> & H1 & H2 & _). destruct neg; [reflexivity|]. destruct ip as [|c ip]; [contradiction|]. inversion H2; subst. cbn [app]. unfold isspace. lia.
Qed.
