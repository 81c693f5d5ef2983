(** * Comparing two results: Utils.hpp:38-56 and test/test.hpp:34-47. *)
(** Doubles are the executable description of IEEE 754 binary64 in the standard
    library (Coq.Floats.SpecFloat: zeros, infinities, finite numbers, NaN; results
    rounded to nearest even).  NaNs have no payload. *)
From Coq Require Import Floats.SpecFloat.
From Verif Require Import Base.
Open Scope Z_scope.

Notation f64 := spec_float.
Definition fadd : f64 -> f64 -> f64 := SFadd 53 1024.
Definition fsub : f64 -> f64 -> f64 := SFsub 53 1024.
Definition fmul : f64 -> f64 -> f64 := SFmul 53 1024.
Definition fdiv : f64 -> f64 -> f64 := SFdiv 53 1024.
Notation fabs := SFabs.
(** x >= y and x < y of C++; false if one is NaN. *)
Definition fge (x y : f64) : bool := SFleb y x.
Definition flt (x y : f64) : bool := SFltb x y.
(** The conversion of an int to double. *)
Definition f_of_Z (z : Z) : f64 := binary_normalize 53 1024 z 0 false.
(** The literals 1e-5 and 1e-8. *)
Definition f_1em5 : f64 := S754_finite false 5902958103587057 (-69).
Definition f_1em8 : f64 := S754_finite false 6044629098073146 (-79).

(** The condition at Utils.hpp:47-49. *)
Definition check_error (tol ign e a : f64) : bool :=
  fge (fdiv (fabs (fsub e a)) (fabs e)) tol && (fge (fabs e) ign || fge (fabs a) ign).
(** Utils.hpp:41-56, for T = double (the only instance in the repository).  [None]: the
    assertion at line 51 fails (it is not compiled with NDEBUG, [nd = true]), or a
    vector is read beyond its end.  The message at line 50 is left out. *)
Fixpoint check_from (nd : bool) (tol ign : f64) (expected actual : list f64) (is : list Z) : option bool :=
  match is with
  | [] => Some true
  | i :: r => e <- get expected i ;; a <- get actual i ;;
      if check_error tol ign e a then (assert! nd ;; Some false) else check_from nd tol ign expected actual r
  end.
Definition correctnessCheck (nd : bool) (expected actual : list f64) (n : Z) (tol ign : f64) : option bool :=
  check_from nd tol ign expected actual (zrange 0 n).
(** test/test.hpp:34-47: the static yt is the state; the first vector is kept, later
    ones are compared with it.  [m] is A->m. *)
Definition test_check (nd : bool) (m : Z) (y : list f64) (yt : option (list f64)) : option (bool * option (list f64)) :=
  match yt with
  | None => c <- mapM (get y) (zrange 0 m) ;; Some (true, Some c)
  | Some e => r <- correctnessCheck nd e y m f_1em8 (S754_zero false) ;; Some (r, yt)
  end.
(** A sequence of calls: the answers. *)
Fixpoint test_checks (nd : bool) (m : Z) (ys : list (list f64)) (yt : option (list f64)) : option (list bool) :=
  match ys with
  | [] => Some []
  | y :: r => ' (b, yt') <- test_check nd m y yt ;; bs <- test_checks nd m r yt' ;; Some (b :: bs)
  end.

(** ** Specification *)
(** When one element is accepted. *)
Inductive accepted (tol ign : f64) : f64 -> f64 -> Prop :=
| ac_small e a : flt (fabs e) ign = true -> flt (fabs a) ign = true -> accepted tol ign e a
| ac_infinite s a : accepted tol ign (S754_infinity s) a
| ac_nan_expected a : accepted tol ign S754_nan a
| ac_nan_actual e : accepted tol ign e S754_nan
| ac_zero s s' : accepted tol ign (S754_zero s) (S754_zero s')
| ac_close s m x a : (forall s', a <> S754_infinity s') -> flt (fdiv (fabs (fsub (S754_finite s m x) a)) (fabs (S754_finite s m x))) tol = true -> accepted tol ign (S754_finite s m x) a.
Definition positive_tol (tol : f64) : Prop := flt (S754_zero false) tol = true.

(** ** Proofs *)
Lemma Pcomp_antisym p q : Pos.compare_cont Eq q p = CompOpp (Pos.compare_cont Eq p q).
Proof. exact (Pos.compare_antisym p q). Qed.
Lemma SFcompare_antisym x y : SFcompare y x = option_map CompOpp (SFcompare x y).
Proof.
  destruct x as [s|s| |s m e], y as [s'|s'| |s' m' e']; cbn [SFcompare option_map]; try reflexivity; try (destruct s; reflexivity); try (destruct s'; reflexivity); try (destruct s, s'; reflexivity).
  f_equal. rewrite (Z.compare_antisym e e'), (Pcomp_antisym m m'). destruct s, s'; try reflexivity; destruct (e ?= e'); cbn [CompOpp]; reflexivity.
Qed.
Lemma fge_flt x y : x <> S754_nan -> y <> S754_nan -> fge x y = negb (flt x y).
Proof.
  intros Hx Hy. unfold fge, flt, SFleb, SFltb. rewrite (SFcompare_antisym x y). destruct (SFcompare x y) as [c|] eqn:E.
  - destruct c; reflexivity.
  - exfalso. destruct x as [s|s| |s m e], y as [s'|s'| |s' m' e']; cbn [SFcompare] in E; congruence.
Qed.
Lemma fge_nan_l y : fge S754_nan y = false.
Proof. unfold fge, SFleb. destruct y; reflexivity. Qed.
Lemma flt_nan_l y : flt S754_nan y = false.
Proof. unfold flt, SFltb. destruct y; reflexivity. Qed.
Lemma fabs_nan x : fabs x = S754_nan -> x = S754_nan.
Proof. destruct x; cbn [SFabs]; congruence. Qed.
(** Rounding a number with a mantissa that is not negative never gives NaN. *)
Lemma shr_1_pos r : 0 <= shr_m r -> 0 <= shr_m (shr_1 r).
Proof. destruct r as [m b s]. cbn [shr_m]. intros H. unfold shr_1. destruct m as [|p|p]; [cbn; lia| |lia]. destruct p; cbn [shr_m]; lia. Qed.
Lemma iter_shr_pos p : forall r, 0 <= shr_m r -> 0 <= shr_m (SpecFloat.iter_pos shr_1 p r).
Proof. induction p as [p IH|p IH|]; intros r H; cbn [SpecFloat.iter_pos]; auto using shr_1_pos. Qed.
Lemma shr_fexp_pos prec emax m e l : 0 <= m -> 0 <= shr_m (fst (shr_fexp prec emax m e l)).
Proof.
  intros H. unfold shr_fexp, shr. assert (H0 : 0 <= shr_m (shr_record_of_loc m l)) by (destruct l as [|c]; [|destruct c]; exact H).
  destruct (fexp prec emax (Zdigits2 m + e) - e); cbn [fst]; auto using iter_shr_pos.
Qed.
Lemma round_pos m l : 0 <= m -> 0 <= round_nearest_even m l.
Proof. intros H. unfold round_nearest_even. destruct l as [|c]; auto. destruct c; [destruct (Z.even m)| |]; lia. Qed.
Lemma round_aux_not_nan prec emax s m e l : 0 <= m -> binary_round_aux prec emax s m e l <> S754_nan.
Proof.
  intros H. unfold binary_round_aux. pose proof (shr_fexp_pos prec emax m e l H) as H1. destruct (shr_fexp prec emax m e l) as [r1 e1]. cbn [fst] in H1.
  pose proof (shr_fexp_pos prec emax _ e1 loc_Exact (round_pos _ (loc_of_shr_record r1) H1)) as H2. destruct (shr_fexp prec emax (round_nearest_even (shr_m r1) (loc_of_shr_record r1)) e1 loc_Exact) as [r2 e2]. cbn [fst] in H2.
  destruct (shr_m r2); [discriminate| |lia]. destruct (Zle_bool e2 (emax - prec)); discriminate.
Qed.
Lemma normalize_not_nan prec emax m e s : binary_normalize prec emax m e s <> S754_nan.
Proof. destruct m as [|p|p]; cbn [binary_normalize]; [discriminate| |]; unfold binary_round; destruct (shl_align _ _ _); apply round_aux_not_nan; lia. Qed.
Lemma div_core_pos m1 e1 m2 e2 : 0 <= fst (fst (SFdiv_core_binary 53 1024 (Zpos m1) e1 (Zpos m2) e2)).
Proof.
  unfold SFdiv_core_binary. set (s := e1 - e2 - _). set (m' := match s with Z0 => Zpos m1 | Zpos _ => Z.shiftl (Zpos m1) s | Zneg _ => 0 end).
  assert (Hm : 0 <= m'). { unfold m'. destruct s; [lia| |lia]. apply Z.shiftl_nonneg. lia. }
  pose proof (Z.div_pos m' (Zpos m2) Hm ltac:(lia)) as H. unfold Z.div in H. destruct (Z.div_eucl m' (Zpos m2)) as [q r]. exact H.
Qed.
Lemma fdiv_not_nan s m e s' m' e' : fdiv (S754_finite s m e) (S754_finite s' m' e') <> S754_nan.
Proof.
  unfold fdiv. cbn [SFdiv]. pose proof (div_core_pos m e m' e') as H. destruct (SFdiv_core_binary 53 1024 (Zpos m) e (Zpos m') e') as [[q x] l]. cbn [fst] in H. now apply round_aux_not_nan.
Qed.
Lemma fsub_self x : x = S754_nan \/ (exists s, x = S754_infinity s /\ fsub x x = S754_nan) \/ fsub x x = S754_zero false.
Proof.
  destruct x as [s|s| |s m e]; unfold fsub; cbn [SFsub]; auto.
  - right. right. destruct s; reflexivity.
  - right. left. exists s. split; auto. destruct s; reflexivity.
  - right. right. rewrite Z.sub_diag. reflexivity.
Qed.
Lemma positive_not_nan tol : positive_tol tol -> tol <> S754_nan /\ forall s, fge (S754_zero s) tol = false.
Proof.
  unfold positive_tol, flt, SFltb. intros H. split; [intros ->; discriminate|]. intros s. unfold fge, SFleb. destruct tol as [t|t| |t m e]; cbn [SFcompare] in *; try discriminate; destruct t; try discriminate; reflexivity.
Qed.
Lemma fge_inf tol : tol <> S754_nan -> fge (S754_infinity false) tol = true.
Proof. intros H. unfold fge, SFleb. destruct tol as [t|t| |t m e]; try congruence; destruct t; reflexivity. Qed.
Lemma spec_float_nan_dec (x : f64) : {x = S754_nan} + {x <> S754_nan}.
Proof. destruct x; [right; discriminate|right; discriminate|now left|right; discriminate]. Qed.
(** The condition on one pair of elements. *)
Lemma check_error_spec tol ign e a : positive_tol tol -> ign <> S754_nan -> (check_error tol ign e a = false <-> accepted tol ign e a).
Proof.
  intros Ht Hi. destruct (positive_not_nan _ Ht) as (Tn & T0). unfold check_error. split.
  - intros H. apply andb_false_iff in H as [H|H].
    + destruct e as [s|s| |s m x]; [|apply ac_infinite|apply ac_nan_expected|].
      * destruct a as [s'|s'| |s' m' x']; [apply ac_zero| |apply ac_nan_actual|].
        -- unfold fsub in H. cbn [SFsub SFabs] in H. unfold fdiv in H. cbn [SFdiv xorb] in H. rewrite fge_inf in H by auto. discriminate.
        -- unfold fsub in H. cbn [SFsub SFabs] in H. unfold fdiv in H. cbn [SFdiv xorb] in H. rewrite fge_inf in H by auto. discriminate.
      * destruct a as [s'|s'| |s' m' x']; [| |apply ac_nan_actual|].
        -- apply ac_close; [discriminate|]. rewrite fge_flt in H; [|unfold fsub; cbn [SFsub SFabs]; apply fdiv_not_nan|auto]. apply negb_false_iff in H. exact H.
        -- exfalso. unfold fsub in H. cbn [SFsub SFabs] in H. unfold fdiv in H. cbn [SFdiv xorb] in H. rewrite fge_inf in H by auto. discriminate.
        -- apply ac_close; [discriminate|]. rewrite fge_flt in H; [apply negb_false_iff in H; exact H| |auto].
           assert (N : fsub (S754_finite s m x) (S754_finite s' m' x') <> S754_nan) by (unfold fsub; cbn [SFsub]; apply normalize_not_nan).
           destruct (fsub (S754_finite s m x) (S754_finite s' m' x')) as [z|z| |z k w]; [discriminate|discriminate|congruence|cbn [SFabs]; apply fdiv_not_nan].
    + apply orb_false_iff in H as (H1 & H2). destruct (spec_float_nan_dec e) as [->|Ne]; [apply ac_nan_expected|]. destruct (spec_float_nan_dec a) as [->|Na]; [apply ac_nan_actual|].
      rewrite fge_flt in H1, H2 by (auto using fabs_nan). apply negb_false_iff in H1, H2. now apply ac_small.
  - intros H. destruct H as [e a H1 H2|s a|a|e|s s'|s m x a Ha H].
    + apply andb_false_iff. right. apply orb_false_iff.
      assert (L : forall z, flt z ign = true -> fge z ign = false). { intros z Hz. destruct (spec_float_nan_dec z) as [->|Nz]; [apply fge_nan_l|]. rewrite fge_flt, Hz by auto. reflexivity. }
      split; now apply L.
    + apply andb_false_iff. left. destruct a as [s'|s'| |s' m' x']; unfold fsub; cbn [SFsub SFabs]; try reflexivity; try apply fge_nan_l.
      destruct (Bool.eqb s (negb s')); apply fge_nan_l.
    + apply andb_false_iff. left. apply fge_nan_l.
    + apply andb_false_iff. left. replace (fsub e S754_nan) with S754_nan by (destruct e; reflexivity). apply fge_nan_l.
    + apply andb_false_iff. left. unfold fsub. cbn [SFsub]. destruct (Bool.eqb s (negb s')); apply fge_nan_l.
    + apply andb_false_iff. left. destruct (spec_float_nan_dec (fdiv (fabs (fsub (S754_finite s m x) a)) (fabs (S754_finite s m x)))) as [E|N]; [rewrite E; apply fge_nan_l|]. rewrite fge_flt, H by auto. reflexivity.
Qed.
Lemma accepted_self tol ign x : positive_tol tol -> accepted tol ign x x.
Proof.
  intros Ht. destruct x as [s|s| |s m e]; [apply ac_zero|apply ac_infinite|apply ac_nan_actual|]. apply ac_close; [discriminate|].
  destruct (fsub_self (S754_finite s m e)) as [H|[(s' & H & _)|H]]; try discriminate. rewrite H. exact Ht.
Qed.

(** Two vectors are accepted. *)
Definition vec_accepted (tol ign : f64) (n : Z) (expected actual : list f64) : Prop :=
  forall i e a, 0 <= i < n -> get expected i = Some e -> get actual i = Some a -> accepted tol ign e a.
Lemma check_from_spec nd tol ign E A is : positive_tol tol -> ign <> S754_nan -> (forall i, In i is -> 0 <= i < Zlen E /\ 0 <= i < Zlen A) ->
  (check_from nd tol ign E A is = Some true /\ forall i e a, In i is -> get E i = Some e -> get A i = Some a -> accepted tol ign e a) \/
  (check_from nd tol ign E A is = (if nd then Some false else None) /\ exists i e a, In i is /\ get E i = Some e /\ get A i = Some a /\ ~ accepted tol ign e a).
Proof.
  intros Ht Hi. induction is as [|i r IH]; intros B.
  - left. split; [reflexivity|]. intros i e a [].
  - destruct (B i (or_introl eq_refl)) as (B1 & B2). destruct (get_in_range E i B1) as (e & Ee). destruct (get_in_range A i B2) as (a & Ea).
    cbn [check_from]. rewrite Ee, Ea. destruct (check_error tol ign e a) eqn:C.
    + right. split; [destruct nd; reflexivity|]. exists i, e, a. split; [now left|]. split; auto. split; auto. intros H. apply (check_error_spec tol ign e a Ht Hi) in H. congruence.
    + destruct IH as [(H1 & H2)|(H1 & k & ek & ak & H2)]; [intros k Hk; apply B; now right| |].
      * left. split; [exact H1|]. intros k ek ak [<-|Hk] E1 A1; [|now apply (H2 k)]. rewrite Ee in E1. rewrite Ea in A1. injection E1 as <-. injection A1 as <-. now apply (check_error_spec tol ign e a Ht Hi).
      * right. split; [exact H1|]. exists k, ek, ak. split; [now right|tauto].
Qed.
Theorem check_spec nd tol ign n E A : positive_tol tol -> ign <> S754_nan -> n <= Zlen E -> n <= Zlen A ->
  (vec_accepted tol ign n E A -> correctnessCheck nd E A n tol ign = Some true) /\
  (~ vec_accepted tol ign n E A -> correctnessCheck nd E A n tol ign = if nd then Some false else None) /\
  (correctnessCheck nd E A n tol ign = Some true -> vec_accepted tol ign n E A).
Proof.
  intros Ht Hi HE HA. unfold correctnessCheck.
  destruct (check_from_spec nd tol ign E A (zrange 0 n) Ht Hi) as [(H1 & H2)|(H1 & k & e & a & H2 & H3 & H4 & H5)].
  { intros i Hr. apply In_zrange in Hr. lia. }
  - assert (V : vec_accepted tol ign n E A) by (intros i e a Hr; apply H2; now apply In_zrange). repeat split; intros; auto. contradiction.
  - assert (V : ~ vec_accepted tol ign n E A). { intros V. apply H5. apply (V k); auto. now apply In_zrange. } repeat split; intros; auto; [contradiction|]. rewrite H1 in H. destruct nd; discriminate.
Qed.
Theorem check_self nd tol ign n E : positive_tol tol -> ign <> S754_nan -> n <= Zlen E -> correctnessCheck nd E E n tol ign = Some true.
Proof. intros Ht Hi HE. apply (check_spec nd tol ign n E E Ht Hi HE HE). intros i e a Hr E1 E2. rewrite E1 in E2. injection E2 as <-. now apply accepted_self. Qed.
(** A vector of NaNs is accepted, whatever is expected. *)
Theorem check_nan nd tol ign n E A : positive_tol tol -> ign <> S754_nan -> n <= Zlen E -> n <= Zlen A -> (forall i, 0 <= i < n -> get A i = Some S754_nan) ->
  correctnessCheck nd E A n tol ign = Some true.
Proof. intros Ht Hi HE HA H. apply (check_spec nd tol ign n E A Ht Hi HE HA). intros i e a Hr E1 E2. rewrite (H i Hr) in E2. injection E2 as <-. apply ac_nan_actual. Qed.
(** So is every vector, if NaNs or infinities are expected. *)
Theorem check_overflow nd tol ign n E A : positive_tol tol -> ign <> S754_nan -> n <= Zlen E -> n <= Zlen A -> (forall i, 0 <= i < n -> get E i = Some S754_nan \/ exists s, get E i = Some (S754_infinity s)) ->
  correctnessCheck nd E A n tol ign = Some true.
Proof.
  intros Ht Hi HE HA H. apply (check_spec nd tol ign n E A Ht Hi HE HA). intros i e a Hr E1 E2. destruct (H i Hr) as [H1|(s & H1)]; rewrite H1 in E1; injection E1 as <-; [apply ac_nan_expected|apply ac_infinite].
Qed.

(** Successive calls of the function in test.hpp. *)
Lemma tol8 : positive_tol f_1em8.
Proof. reflexivity. Qed.
Lemma zero_ok : S754_zero false <> S754_nan.
Proof. discriminate. Qed.
Lemma test_first nd m y : 0 <= m <= Zlen y -> exists c, test_check nd m y None = Some (true, Some c) /\ Zlen c = m /\ forall i, 0 <= i < m -> get c i = get y i.
Proof.
  intros H. set (c := map (fun i => match get y i with Some v => v | None => S754_nan end) (zrange 0 m)).
  assert (L : Zlen c = m) by (unfold c; rewrite Zlen_map, Zlen_zrange; lia).
  exists c. split; [|split; [exact L|]].
  - cbn [test_check]. assert (M : mapM (get y) (zrange 0 m) = Some c).
    { unfold c. assert (B : forall i, In i (zrange 0 m) -> 0 <= i < Zlen y) by (intros i Hi; apply In_zrange in Hi; lia). clear -B. induction (zrange 0 m) as [|i r IH]; [reflexivity|].
      cbn [mapM map]. destruct (get_in_range y i (B i (or_introl eq_refl))) as (v & E). rewrite E. rewrite IH; [reflexivity|]. intros k Hk. apply B. now right. }
    rewrite M. reflexivity.
  - intros i Hi. unfold c. rewrite get_map, get_zrange by lia. cbn [option_map]. rewrite Z.add_0_l. destruct (get_in_range y i ltac:(lia)) as (v & ->). reflexivity.
Qed.
Lemma test_later nd m c ys : m = Zlen c -> Forall (fun y => m <= Zlen y) ys ->
  (Forall (vec_accepted f_1em8 (S754_zero false) m c) ys -> test_checks nd m ys (Some c) = Some (map (fun _ => true) ys)) /\
  (forall bs, test_checks nd m ys (Some c) = Some bs -> Forall2 (fun y b => b = true <-> vec_accepted f_1em8 (S754_zero false) m c y) ys bs /\ (nd = false -> bs = map (fun _ => true) ys)) /\
  (nd = true -> exists bs, test_checks nd m ys (Some c) = Some bs).
Proof.
  intros Hm. induction ys as [|y r IH]; intros HF.
  - cbn. split; [reflexivity|]. split; [|eauto]. intros bs H. injection H as <-. split; constructor.
  - inversion HF as [|? ? Hy Hr]; subst. destruct (IH Hr) as (I1 & I2 & I3). destruct (check_spec nd f_1em8 (S754_zero false) (Zlen c) c y tol8 zero_ok ltac:(lia) Hy) as (C1 & C2 & C3).
    cbn [test_checks test_check]. split; [|split].
    + intros HA. inversion HA as [|? ? A1 A2]; subst. rewrite C1 by auto. rewrite I1 by auto. reflexivity.
    + intros bs H. destruct (correctnessCheck nd c y (Zlen c) f_1em8 (S754_zero false)) as [b|] eqn:EC; [|discriminate].
      destruct (test_checks nd (Zlen c) r (Some c)) as [bs'|]; [|discriminate]. injection H as <-. destruct (I2 bs' eq_refl) as (J1 & J2). split.
      * constructor; auto. split; [intros ->; auto|]. intros V. specialize (C1 V). congruence.
      * intros N. rewrite J2 by auto. cbn [map]. f_equal. destruct b; auto. subst nd. assert (NV : ~ vec_accepted f_1em8 (S754_zero false) (Zlen c) c y) by (intros V; specialize (C1 V); congruence). specialize (C2 NV). discriminate.
    + intros N. subst nd. destruct (I3 eq_refl) as (bs & EB). destruct (correctnessCheck true c y (Zlen c) f_1em8 (S754_zero false)) as [b|] eqn:EC; [rewrite EB; eauto|].
      exfalso. unfold correctnessCheck in EC. destruct (check_from_spec true f_1em8 (S754_zero false) c y (zrange 0 (Zlen c)) tol8 zero_ok) as [(H & _)|(H & _)]; [intros i Hi; apply In_zrange in Hi; lia|congruence|congruence].
Qed.
Theorem test_checks_spec nd m y0 ys : 0 <= m -> m <= Zlen y0 -> Forall (fun y => m <= Zlen y) ys ->
  (Forall (vec_accepted f_1em8 (S754_zero false) m y0) ys -> test_checks nd m (y0 :: ys) None = Some (true :: map (fun _ => true) ys)) /\
  (forall bs, test_checks nd m (y0 :: ys) None = Some bs -> exists bs', bs = true :: bs' /\
     Forall2 (fun y b => b = true <-> vec_accepted f_1em8 (S754_zero false) m y0 y) ys bs' /\ (nd = false -> Forall (vec_accepted f_1em8 (S754_zero false) m y0) ys)) /\
  (nd = true -> exists bs, test_checks nd m (y0 :: ys) None = Some bs).
Proof.
  intros Hm H0 HF. destruct (test_first nd m y0 ltac:(lia)) as (c & T & L & G).
  assert (Q : forall y, vec_accepted f_1em8 (S754_zero false) m c y <-> vec_accepted f_1em8 (S754_zero false) m y0 y).
  { intros y. split; intros V i e a Hi E1 E2; apply (V i e a Hi); auto; rewrite G in *; auto. }
  destruct (test_later nd m c ys (eq_sym L) HF) as (I1 & I2 & I3). cbn [test_checks]. rewrite T.
  split; [|split].
  - intros HA. rewrite I1; [reflexivity|]. revert HA. apply Forall_impl. intros y. apply Q.
  - intros bs H. destruct (test_checks nd m ys (Some c)) as [bs'|]; [|discriminate]. injection H as <-. exists bs'. split; auto. destruct (I2 bs' eq_refl) as (J1 & J2). split.
    + clear -J1 Q. induction J1 as [|y b ys bs H1 H2 IH]; constructor; auto. rewrite <- Q. exact H1.
    + intros N. specialize (J2 N). subst bs'. clear -J1 Q. induction ys as [|y r IH]; constructor.
      * cbn [map] in J1. inversion J1; subst. apply Q. tauto.
      * apply IH. cbn [map] in J1. now inversion J1.
  - intros N. destruct (I3 N) as (bs & ->). eauto.
Qed.
