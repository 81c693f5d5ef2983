(** * What the sweeps compute, in exact arithmetic.

    The row kernels of Kernels.v (forwardSolveRef, backwardSolveRef, gsForwardRef
    and so on, and their parallel forms), when the values are in a commutative
    ring: the vector they leave is the solution of the triangular system, and of
    the splitting of Gauss-Seidel. *)
From Coq Require Import Ring_theory Ring Permutation.
From Verif Require Import Base Interleave Spec Flat Csr CsrOps Fill SpMV Permute PermuteMain P2P P2PProg Exec Kernels LevelsCsr Tasks TaskGraph TaskGraphCsr Sched.
Set Warnings "-ambiguous-paths".

(** [c] comes before [r] in the sweep over the unknowns 0..m-1. *)
Definition earlier (fwd : bool) (m r c : Z) : bool := if fwd then (0 <=? c) && (c <? r) else (r <? c) && (c <? m).
(** Strictly lower (fwd) or strictly upper. *)
Definition strictly {V} (fwd : bool) (rows : rows_t V) : Prop := forall r c v, In (c, v) (nthl rows r) -> earlier fwd (Zlen rows) r c = true.

Section Ring.
Context {V : Type}.
Variables (zero one : V) (add mul sub : V -> V -> V) (opp : V -> V).
Variable RT : ring_theory zero one add mul sub opp (@eq V).
Add Ring Vring2 : RT.
Notation rt := (row_times zero one add mul true).

(** (D + N) x = b for a diagonal matrix D and the matrix N of the rows. *)
Definition solves (rows : rows_t V) (d : Z -> V) (b x : Z -> V) : Prop :=
  forall r, 0 <= r < Zlen rows -> add (mul (d r) (x r)) (rt (nthl rows r) x) = b r.
(** The entry of a row in column [c]: the sum of the values stored for it. *)
Definition coefat (row : list (Z * V)) (c : Z) : V := fold_right add zero (map snd (filter (fun e => fst e =? c) row)).

Lemma rt_nil x : rt [] x = zero.
Proof. reflexivity. Qed.
Lemma rt_cons e row x : rt (e :: row) x = add (mul (snd e) (x (fst e))) (rt row x).
Proof. reflexivity. Qed.
Lemma rt_app r1 r2 x : rt (r1 ++ r2) x = add (rt r1 x) (rt r2 x).
Proof. induction r1 as [|e r1 IH]; cbn [app]; [rewrite rt_nil; ring|]. rewrite !rt_cons, IH. ring. Qed.
Lemma rt_ext row x x' : (forall c v, In (c, v) row -> x c = x' c) -> rt row x = rt row x'.
Proof.
  induction row as [|(c, v) row IH]; intros H; [reflexivity|]. rewrite !rt_cons. cbn [fst snd]. rewrite (H c v) by (cbn; auto). f_equal. apply IH.
  intros c' v' Hi. apply (H c' v'). cbn; auto.
Qed.
Lemma rt_perm r1 r2 x : Permutation r1 r2 -> rt r1 x = rt r2 x.
Proof. induction 1; rewrite ?rt_cons; auto; try congruence. ring. Qed.
Lemma rt_rev row x : rt (rev row) x = rt row x.
Proof. apply rt_perm. apply Permutation_sym, Permutation_rev. Qed.
(** Changing one unknown. *)
Lemma rt_at row r x x' : (forall c v, In (c, v) row -> c <> r -> x c = x' c) -> rt row x = add (rt row x') (mul (coefat row r) (sub (x r) (x' r))).
Proof.
  induction row as [|(c, v) row IH]; intros H; [rewrite !rt_nil; cbn; ring|]. rewrite !rt_cons, IH by (intros c' v' Hi; apply (H c' v'); cbn; auto). cbn [fst snd].
  unfold coefat. cbn [filter fst]. destruct (c =? r) eqn:E.
  - apply Z.eqb_eq in E as ->. cbn [map fold_right snd]. ring.
  - apply Z.eqb_neq in E. rewrite (H c v) by (cbn; auto). ring.
Qed.

Lemma fold_row y n x row s : (forall c v, In (c, v) row -> 0 <= c < n) -> holds y n x ->
  foldM (fun e s => u <- get y (fst e) ;; Some (sub s (mul (snd e) u))) row s = Some (sub s (rt row x)).
Proof.
  intros Hr Hy. revert s. induction row as [|(c, v) row IH]; intros s; cbn [foldM]; [rewrite rt_nil; f_equal; ring|].
  cbn [fst snd]. rewrite (Hy c) by (apply (Hr c v); cbn; auto). rewrite IH by (intros c' v' Hi; apply (Hr c' v'); cbn; auto). f_equal. rewrite rt_cons. cbn [fst snd]. ring.
Qed.

(** The new value of an unknown. *)
Definition new_value (k : ending) (id old s : V) : V := match k with AddScaled => add old (mul s id) | Scaled => mul s id | Plain => s end.
Definition holds_id (k : ending) (idiag : list V) (m : Z) (id : Z -> V) : Prop := needs_idiag k = true -> holds idiag m id.

Section Sweep.
Variables (k : ending) (asc : bool) (n : Z) (rows : rows_t V) (idiag b : list V) (id bf : Z -> V).
Let m := Zlen rows.
Hypothesis Hok : rows_ok n rows.
Hypothesis Hn : m <= n.
Hypothesis Hb : holds b m bf.
Hypothesis Hid : holds_id k idiag m id.

Lemma update_value r y x : 0 <= r < m -> holds y n x ->
  exists y', update add sub mul k asc rows idiag b r y = Some y' /\ Zlen y' = Zlen y /\ (forall c, c <> r -> get y' c = get y c) /\
    get y' r = Some (new_value k (id r) (x r) (sub (bf r) (rt (nthl rows r) x))).
Proof.
  intros Hr Hy. unfold update. rewrite (get_nthl rows r Hr), (Hb r) by auto.
  assert (HC : forall c v, In (c, v) (if asc then nthl rows r else rev (nthl rows r)) -> 0 <= c < n).
  { intros c v He. assert (He' : In (c, v) (nthl rows r)) by (destruct asc; auto; now apply in_rev). exact (Hok _ _ _ (nth_row_In rows r Hr) He'). }
  rewrite (fold_row y n x _ _ HC Hy). rewrite (Hy r) by lia.
  replace (rt (if asc then nthl rows r else rev (nthl rows r)) x) with (rt (nthl rows r) x) by (destruct asc; auto; now rewrite rt_rev).
  set (s := sub (bf r) (rt (nthl rows r) x)).
  assert (E : store add mul k idiag r (x r) s = Some (new_value k (id r) (x r) s)).
  { unfold store, new_value. destruct k; auto; now rewrite (Hid eq_refl r Hr). }
  rewrite E. assert (Br : 0 <= r < Zlen y). { pose proof (Hy r ltac:(lia)) as G. now apply get_Some_bounds in G. }
  destruct (set_ok y r (new_value k (id r) (x r) s) Br) as (y' & Es). rewrite Es. exists y'. split; auto. split; [eapply set_len; eauto|].
  split; [intros c Hc; eapply get_set_other; eauto|]. eapply get_set_same; eauto.
Qed.

Definition mix (l : list Z) (x x0 : Z -> V) (c : Z) : V := if existsb (Z.eqb c) l then x c else x0 c.
Lemma updates_value order : NoDup order -> (forall r, In r order -> 0 <= r < m) -> forall y x0, holds y n x0 ->
  exists fin x, updates add sub mul k asc rows idiag b order y = Some fin /\ Zlen fin = Zlen y /\ holds fin n x /\ (forall c, ~ In c order -> get fin c = get y c /\ x c = x0 c) /\
    forall l1 r l2, order = l1 ++ r :: l2 -> x r = new_value k (id r) (x0 r) (sub (bf r) (rt (nthl rows r) (mix l1 x x0))).
Proof.
  unfold updates. induction order as [|r0 order IH]; intros ND HR y x0 Hy; cbn [foldM].
  { exists y, x0. repeat split; auto. intros l1 r l2 E. destruct l1; discriminate. }
  apply NoDup_cons_iff in ND as (Nr & ND). destruct (update_value r0 y x0 (HR _ (or_introl eq_refl)) Hy) as (y1 & E1 & L1 & F1 & G1). rewrite E1.
  set (v0 := new_value k (id r0) (x0 r0) (sub (bf r0) (rt (nthl rows r0) x0))) in *.
  set (x1 := fun c => if c =? r0 then v0 else x0 c).
  assert (Hy1 : holds y1 n x1). { intros c Hc. unfold x1. destruct (Z.eqb_spec c r0) as [->|N]; auto. rewrite F1 by auto. auto. }
  destruct (IH ND (fun r H => HR r (or_intror H)) y1 x1 Hy1) as (fin & x & E & L & Hf & Hout & Hin).
  assert (Xr0 : x r0 = v0). { destruct (Hout r0 Nr) as (_ & ->). unfold x1. now rewrite Z.eqb_refl. }
  exists fin, x. split; auto. split; [lia|]. split; auto. split.
  - intros c Hc. cbn [In] in Hc. destruct (Hout c) as (A1 & A2); [tauto|]. rewrite A1, A2, F1 by (intros ->; tauto). split; auto. unfold x1. destruct (Z.eqb_spec c r0) as [->|N]; auto. tauto.
  - intros l1 r l2 Eo. destruct l1 as [|a l1]; cbn [app] in Eo; injection Eo as -> Eo.
    + rewrite Xr0. reflexivity.
    + rewrite (Hin l1 r l2 Eo) at 1. assert (Nr0 : r <> a). { intros ->. apply Nr. rewrite Eo. apply in_elt. }
      f_equal; [unfold x1; destruct (Z.eqb_spec r a); congruence|]. f_equal. apply rt_ext. intros c v _. unfold mix. cbn [existsb].
      destruct (existsb (Z.eqb c) l1) eqn:Ee; [now rewrite orb_true_r|]. rewrite orb_false_r. unfold x1. destruct (Z.eqb_spec c a) as [->|N]; auto.
Qed.

Lemma dir_split fwd r : 0 <= r < m -> exists l1 l2, dirZ fwd 0 m = l1 ++ r :: l2 /\ forall c, existsb (Z.eqb c) l1 = earlier fwd m r c.
Proof.
  intros Hr. assert (E : zrange 0 m = zrange 0 r ++ r :: zrange (r + 1) m). { apply zrange_mid. lia. }
  assert (HE : forall l c, existsb (Z.eqb c) l = true <-> In c l).
  { intros l c. rewrite existsb_exists. split; [intros (a & Ha & Ea); apply Z.eqb_eq in Ea as ->; auto|]. intros Hc. exists c. split; auto. apply Z.eqb_refl. }
  destruct fwd; cbn [dirZ].
  - exists (zrange 0 r), (zrange (r + 1) m). split; auto. intros c. apply Bool.eq_iff_eq_true. rewrite HE, In_zrange. unfold earlier. lia.
  - exists (rev (zrange (r + 1) m)), (rev (zrange 0 r)). split; [rewrite E, rev_app_distr; cbn [rev]; now rewrite <- app_assoc|].
    intros c. apply Bool.eq_iff_eq_true. rewrite HE, <- in_rev, In_zrange. unfold earlier. lia.
Qed.

(** The equation of every unknown after the sweep. *)
Theorem sweep_value fwd y x0 : holds y n x0 ->
  exists fin x, updates add sub mul k asc rows idiag b (dirZ fwd 0 m) y = Some fin /\ Zlen fin = Zlen y /\ holds fin n x /\
    (forall c, ~ (0 <= c < m) -> get fin c = get y c /\ x c = x0 c) /\
    forall r, 0 <= r < m -> x r = new_value k (id r) (x0 r) (sub (bf r) (rt (nthl rows r) (fun c => if earlier fwd m r c then x c else x0 c))).
Proof.
  intros Hy. destruct (updates_value (dirZ fwd 0 m)) with (y := y) (x0 := x0) as (fin & x & E & L & Hf & Hout & Hin); auto.
  { destruct fwd; cbn [dirZ]; [|apply NoDup_rev]; apply NoDup_zrange. }
  { intros r Hr. now apply In_dirZ in Hr. }
  exists fin, x. repeat split; auto; try (apply Hout; intros Hi; apply In_dirZ in Hi; tauto).
  intros r Hr. destruct (dir_split fwd r Hr) as (l1 & l2 & El & He). rewrite (Hin l1 r l2 El) at 1. f_equal. f_equal. apply rt_ext. intros c v _. unfold mix. now rewrite He.
Qed.

(** Triangular systems: whatever is in the vector before. *)
Theorem solve_value fwd d y x0 : k <> AddScaled -> strictly fwd rows -> (forall r, 0 <= r < m -> match k with Plain => d r = one | _ => mul (d r) (id r) = one end) -> holds y n x0 ->
  exists fin x, updates add sub mul k asc rows idiag b (dirZ fwd 0 m) y = Some fin /\ Zlen fin = Zlen y /\ holds fin n x /\
    (forall c, ~ (0 <= c < m) -> get fin c = get y c) /\ solves rows d bf x.
Proof.
  intros Hk HS Hd Hy. destruct (sweep_value fwd y x0 Hy) as (fin & x & E & L & Hf & Ho & Hx). exists fin, x. repeat split; auto; try (intros; now apply Ho).
  intros r Hr. rewrite (Hx r Hr) at 1. rewrite (rt_ext _ (fun c => if earlier fwd m r c then x c else x0 c) x).
  2:{ intros c v Hi. pose proof (HS r c v Hi) as Ee. fold m in Ee. cbv beta. now rewrite Ee. }
  specialize (Hd r Hr). set (q := rt (nthl rows r) x). destruct k; try congruence; cbn [new_value].
  - replace (mul (d r) (mul (sub (bf r) q) (id r))) with (mul (mul (d r) (id r)) (sub (bf r) q)) by ring. rewrite Hd. ring.
  - rewrite Hd. ring.
Qed.

(** Gauss-Seidel: the equation of row r holds with the new values before r and at
    r and the old values after r. *)
Theorem gs_value fwd y x0 : k = AddScaled -> (forall r, 0 <= r < m -> mul (coefat (nthl rows r) r) (id r) = one) -> holds y n x0 ->
  exists fin x, updates add sub mul k asc rows idiag b (dirZ fwd 0 m) y = Some fin /\ Zlen fin = Zlen y /\ holds fin n x /\
    (forall c, ~ (0 <= c < m) -> get fin c = get y c /\ x c = x0 c) /\
    (forall r, 0 <= r < m -> rt (nthl rows r) (fun c => if (c =? r) || earlier fwd m r c then x c else x0 c) = bf r) /\
    ((forall r, 0 <= r < m -> rt (nthl rows r) x0 = bf r) -> forall c, x c = x0 c).
Proof.
  intros Hk Hd Hy. destruct (sweep_value fwd y x0 Hy) as (fin & x & E & L & Hf & Ho & Hx). rewrite Hk in Hx. cbn [new_value] in Hx. exists fin, x. repeat split; auto; try (now apply Ho).
  - intros r Hr. set (o := fun c => if earlier fwd m r c then x c else x0 c) in *. rewrite (rt_at _ r _ o).
    2:{ intros c v _ N. unfold o. destruct (Z.eqb_spec c r); [congruence|]. reflexivity. }
    rewrite Z.eqb_refl. cbn [orb]. assert (Eo : o r = x0 r). { unfold o, earlier. destruct fwd; [replace ((0 <=? r) && (r <? r)) with false by lia|replace ((r <? r) && (r <? m)) with false by lia]; auto. }
    rewrite Eo, (Hx r Hr) at 1. fold o. set (q := rt (nthl rows r) o). specialize (Hd r Hr).
    replace (mul (coefat (nthl rows r) r) (sub (add (x0 r) (mul (sub (bf r) q) (id r))) (x0 r))) with (mul (mul (coefat (nthl rows r) r) (id r)) (sub (bf r) q)) by ring.
    rewrite Hd. ring.
  - intros HF c. destruct (Z_lt_le_dec c 0) as [Hc|Hc]; [apply Ho; lia|]. destruct (Z_lt_le_dec c m) as [Hm|Hm]; [|apply Ho; lia].
    assert (G : forall j, 0 <= j -> forall r, 0 <= r < m -> (if fwd then r else m - 1 - r) = j -> x r = x0 r).
    { intros j Hj. pattern j. revert j Hj. apply Zlt_0_ind. intros j IH Hj r Hr Er. rewrite (Hx r Hr).
      rewrite (rt_ext _ _ x0). { rewrite (HF r Hr). ring. }
      intros c' v _. destruct (earlier fwd m r c') eqn:Ee; auto. unfold earlier in Ee. destruct fwd.
      - apply (IH c'); lia.
      - apply (IH (m - 1 - c')); lia. }
    apply (G (if fwd then c else m - 1 - c)); auto; destruct fwd; lia.
Qed.
End Sweep.

(** At most one solution. *)
Theorem solves_unique fwd rows d id b x x' : strictly fwd rows -> (forall r, 0 <= r < Zlen rows -> mul (d r) (id r) = one) ->
  solves rows d b x -> solves rows d b x' -> forall r, 0 <= r < Zlen rows -> x r = x' r.
Proof.
  intros HS Hd H1 H2. set (m := Zlen rows).
  assert (G : forall j, 0 <= j -> forall r, 0 <= r < m -> (if fwd then r else m - 1 - r) = j -> x r = x' r).
  { intros j Hj. pattern j. revert j Hj. apply Zlt_0_ind. intros j IH Hj r Hr Er. pose proof (H1 r Hr) as A1. pose proof (H2 r Hr) as A2.
    rewrite (rt_ext _ x' x) in A2.
    - rewrite <- A1 in A2. assert (D : mul (d r) (x r) = mul (d r) (x' r)).
      { replace (mul (d r) (x r)) with (sub (add (mul (d r) (x r)) (rt (nthl rows r) x)) (rt (nthl rows r) x)) by ring. rewrite <- A2. ring. }
      replace (x r) with (mul (mul (d r) (id r)) (x r)) by (rewrite (Hd r Hr); ring). replace (x' r) with (mul (mul (d r) (id r)) (x' r)) by (rewrite (Hd r Hr); ring).
      transitivity (mul (id r) (mul (d r) (x r))); [ring|]. rewrite D. ring.
    - intros c v Hi. symmetry. pose proof (HS r c v Hi) as Ee. unfold earlier in Ee. destruct fwd.
      + apply (IH c); lia.
      + apply (IH (m - 1 - c)); fold m in Ee; lia. }
  intros r Hr. apply (G (if fwd then r else m - 1 - r)); auto; destruct fwd; fold m in Hr; lia.
Qed.
End Ring.
