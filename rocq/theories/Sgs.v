(** * The fused forward solve and the symmetric Gauss-Seidel pair made of it
    (test/gs_test.cpp:484-540, 731-762).

    forwardSolveWithReorderedMatrixFused solves with the lower part and at the
    same time subtracts a product with it from the right-hand side.  Both y and b
    are changed; the memory of the executor is y followed by b.  A row is
    executed as a sequence of steps, each with at most one access to an element
    owned by another row. *)
From Coq Require Import Ring_theory Ring Permutation.
From Verif Require Import Base Interleave Spec PermUtils Flat Csr Transpose CsrTools CsrOps Sort RowPar Fill Permute PermuteMain PermuteFacts SpMV SplitLU P2P P2PProg Exec Kernels Levels LevelsCsr Tasks TaskGraph TaskGraphCsr Sched SchedPerm Solve SolveCases.
Set Warnings "-ambiguous-paths".
Open Scope Z_scope.

(** ** Model *)
Section Model.
Context {V : Type}.
Variables (zero : V) (add sub mul : V -> V -> V).

(** y and b in one memory; [ny] is the length of y. *)
Definition ld_y (ny : Z) (s : list V) (c : Z) : option V := if c <? ny then get s c else None.
Definition ld_b (ny : Z) (s : list V) (r : Z) : option V := if 0 <=? r then get s (ny + r) else None.
Definition st_y (ny : Z) (s : list V) (c : Z) (v : V) : option (list V) := if c <? ny then set s c v else None.
Definition st_b (ny : Z) (s : list V) (r : Z) (v : V) : option (list V) := if 0 <=? r then set s (ny + r) v else None.

Inductive fop := FLoad (r : Z) | FAcc (j : Z) | FSolve (r : Z) | FRest (r : Z) | FBad.
(** gs_test.cpp:526-535.  The local variables are [sum1] and [sum2]; [x] is only
    read.  ADJUST_FOR_BASE (test/test.hpp:90-97) moves rowptr, colidx, values,
    idiag, y and b by the base, but not x: x is read at the column as stored. *)
Definition fexec (A : csr V) (base : Z) (vals idiag x : list V) (ny : Z) (o : fop) (l : option (V * V)) (s : list V) : option (option (V * V) * list V) :=
  match o with
  | FLoad r => v <- ld_b ny s r ;; Some (Some (v, zero), s)
  | FAcc j =>
      ' (s1, s2) <- l ;; a <- get vals (j - base) ;; c <- get (colidx A) (j - base) ;;
      u <- ld_y ny s (c - base) ;; w <- get x c ;;
      Some (Some (sub s1 (mul a u), add s2 (mul a w)), s)
  | FSolve r => ' (s1, s2) <- l ;; d <- get idiag r ;; s' <- st_y ny s r (mul s1 d) ;; Some (l, s')
  | FRest r => ' (s1, s2) <- l ;; v <- ld_y ny s r ;; s' <- st_b ny s r (sub v s2) ;; Some (l, s')
  | FBad => None
  end.
Definition fops (A : csr V) (r : Z) : list fop :=
  match get (rowptr A) r, get (rowptr A) (r + 1) with
  | Some lo, Some hi => FLoad r :: map FAcc (zrange lo hi) ++ [FSolve r; FRest r]
  | _, _ => [FBad]
  end.

(** ** Specification: the product of a row with a vector, added up in storage order. *)
Definition dot (x : list V) (row : list (Z * V)) : option V :=
  foldM (fun e s => w <- get x (fst e) ;; Some (add s (mul (snd e) w))) row zero.
(** Element r of [fb] is element r of [fy] less the product of row r with x;
    the elements from the number of rows on stay. *)
Definition rest_of (rows : rows_t V) (x fy b fb : list V) : Prop :=
  Zlen fb = Zlen b /\ (forall r, 0 <= r < Zlen rows -> exists v p, get fy r = Some v /\ dot x (nthl rows r) = Some p /\ get fb r = Some (sub v p)) /\
  (forall r, Zlen rows <= r -> get fb r = get b r).
End Model.

(** ** Proofs *)
Lemma set_app_l {X} (y b : list X) i v : i < Zlen y -> set (y ++ b) i v = option_map (fun y' => y' ++ b) (set y i v).
Proof.
  intros Hi. destruct (Z_lt_le_dec i 0) as [Hn|Hn].
  { rewrite (proj2 (set_none (y ++ b) i v)), (proj2 (set_none y i v)) by lia. reflexivity. }
  destruct (set_ok y i v) as (y' & E); [lia|]. rewrite E. cbn [option_map]. destruct (set_ok (y ++ b) i v) as (z & E2). { rewrite Zlen_app. pose proof (Zlen_nonneg b). lia. }
  rewrite E2. f_equal. pose proof (set_len _ _ _ _ E) as L1. pose proof (set_len _ _ _ _ E2) as L2. apply list_ext. { rewrite Zlen_app in *. lia. }
  intros q Hq. destruct (Z.eq_dec q i) as [->|N].
  - rewrite (get_set_same _ _ _ _ E2), get_app_l by lia. symmetry. eapply get_set_same; eauto.
  - rewrite (get_set_other _ _ _ _ _ E2) by auto. destruct (Z_lt_le_dec q (Zlen y)) as [Hy|Hy].
    + rewrite !get_app_l by lia. symmetry. eapply get_set_other; eauto.
    + rewrite !get_app_r by lia. now rewrite L1.
Qed.
Lemma set_app_r {X} (y b : list X) i v : 0 <= i -> set (y ++ b) (Zlen y + i) v = option_map (fun b' => y ++ b') (set b i v).
Proof.
  intros Hi. pose proof (Zlen_nonneg y) as Py. destruct (Z_lt_le_dec i (Zlen b)) as [Hb|Hb].
  2:{ rewrite (proj2 (set_none (y ++ b) (Zlen y + i) v)), (proj2 (set_none b i v)); rewrite ?Zlen_app; try lia. reflexivity. }
  destruct (set_ok b i v) as (b' & E); [lia|]. rewrite E. cbn [option_map]. destruct (set_ok (y ++ b) (Zlen y + i) v) as (z & E2). { rewrite Zlen_app. lia. }
  rewrite E2. f_equal. pose proof (set_len _ _ _ _ E) as L1. pose proof (set_len _ _ _ _ E2) as L2. apply list_ext. { rewrite Zlen_app in *. lia. }
  intros q Hq. destruct (Z.eq_dec q (Zlen y + i)) as [->|N].
  - rewrite (get_set_same _ _ _ _ E2), get_app_r by lia. replace (Zlen y + i - Zlen y) with i by lia. symmetry. eapply get_set_same; eauto.
  - rewrite (get_set_other _ _ _ _ _ E2) by auto. destruct (Z_lt_le_dec q (Zlen y)) as [Hy|Hy].
    + now rewrite !get_app_l by lia.
    + rewrite !get_app_r by lia. symmetry. eapply get_set_other; eauto. lia.
Qed.

Section Proof.
Context {V : Type}.
Variables (zero : V) (add sub mul : V -> V -> V).
Variables (base n : Z) (rows : rows_t V) (A : csr V) (idiag x : list V).
Hypothesis HR : rep true base n rows A.
Hypothesis Hok : rows_ok n rows.
Hypothesis HB : base = 0.
Let m := Zlen rows.
Notation vals := (values_of rows).
Variable ny : Z.
Notation ex := (fexec zero add sub mul A base vals idiag x ny).

Lemma fops_eq r : 0 <= r < m -> fops A r = FLoad r :: map FAcc (zrange (base + off (nthl rows) r) (base + off (nthl rows) r + Zlen (nthl rows r))) ++ [FSolve r; FRest r].
Proof.
  intros Hr. unfold fops. rewrite (rep_rowptr _ _ _ _ _ _ HR) by (unfold m in Hr; lia). rewrite (rep_rowptr_S _ _ _ _ _ _ HR) by (unfold m in Hr; lia).
  now rewrite Z.add_assoc.
Qed.
Lemma in_fops r o : 0 <= r < m -> In o (fops A r) -> o = FLoad r \/ o = FSolve r \/ o = FRest r \/ exists q e, get (nthl rows r) q = Some e /\ o = FAcc (base + off (nthl rows) r + q).
Proof.
  intros Hr Hin. rewrite fops_eq in Hin by auto. destruct Hin as [<-|Hin]; auto. apply in_app_iff in Hin as [Hin|[<-|[<-|[]]]]; auto.
  apply in_map_iff in Hin as (j & <- & Hj). apply In_zrange in Hj. right. right. right. exists (j - (base + off (nthl rows) r)).
  destruct (get_in_range (nthl rows r) (j - (base + off (nthl rows) r))) as (e & E); [lia|]. exists e. split; auto. f_equal. lia.
Qed.
(** Sequential meaning of a row on the two arrays. *)
Definition fused_row (r : Z) (yb : list V * list V) : option (list V * list V) :=
  let '(y, b) := yb in
  b0 <- get b r ;;
  s1 <- foldM (fun e s => u <- get y (fst e) ;; Some (sub s (mul (snd e) u))) (nthl rows r) b0 ;;
  p <- dot zero add mul x (nthl rows r) ;;
  d <- get idiag r ;; y' <- set y r (mul s1 d) ;; b' <- set b r (sub (mul s1 d) p) ;; Some (y', b').
Lemma facc_steps r y b s1 s2 : 0 <= r < m -> n <= Zlen y -> Zlen y = ny ->
  foldM (fun o ls => ex o (fst ls) (snd ls)) (map FAcc (zrange (base + off (nthl rows) r) (base + off (nthl rows) r + Zlen (nthl rows r)))) (Some (s1, s2), y ++ b) =
  (t1 <- foldM (fun e s => u <- get y (fst e) ;; Some (sub s (mul (snd e) u))) (nthl rows r) s1 ;;
   t2 <- foldM (fun e s => w <- get x (fst e) ;; Some (add s (mul (snd e) w))) (nthl rows r) s2 ;; Some (Some (t1, t2), y ++ b)).
Proof.
  intros Hr Hn Hy. rewrite foldM_map.
  change (zrange (base + off (nthl rows) r) (base + off (nthl rows) r + Zlen (nthl rows r))) with (dirZ true (base + off (nthl rows) r) (base + off (nthl rows) r + Zlen (nthl rows r))).
  rewrite (foldM_positions (nthl rows r) _ true _ (fun e ls => ' (s1, s2) <- fst ls ;; u <- ld_y ny (snd ls) (fst e) ;; w <- get x (fst e) ;; Some (Some (sub s1 (mul (snd e) u), add s2 (mul (snd e) w)), snd ls))).
  - assert (HC : forall e, In e (nthl rows r) -> fst e < ny). { intros (c, v) He. pose proof (Hok _ _ _ (nth_row_In rows r Hr) He). cbn [fst]. lia. }
    revert s1 s2 HC. generalize (nthl rows r). intros l. induction l as [|e l IH]; intros s1 s2 HC; cbn [foldM fst snd]; auto.
    pose proof (HC e ltac:(cbn; auto)) as He. unfold ld_y at 1. rewrite (proj2 (Z.ltb_lt _ _) He), get_app_l by lia.
    destruct (get y (fst e)) as [u|]; auto. destruct (get x (fst e)) as [w|].
    + apply IH. intros; apply HC; cbn; auto.
    + destruct (foldM _ l _); auto.
  - intros q (c, v) (l, y') E. cbn [fexec fst snd]. destruct (col_at add sub mul base n rows A HR Hok r q c v Hr E) as (-> & -> & _). destruct l as [[]|]; auto. replace (c + base - base) with c by lia. now replace (c + base) with c by lia.
Qed.
Lemma fused_run r y b : 0 <= r < m -> m <= n -> n <= Zlen y -> Zlen y = ny ->
  row_run ex None (fops A) r (y ++ b) = (yb <- fused_row r (y, b) ;; Some (fst yb ++ snd yb)).
Proof.
  intros Hr Hmn Hn Hy. unfold row_run, fused_row. rewrite fops_eq by auto. cbn [foldM fst snd fexec]. unfold ld_b.
  rewrite (proj2 (Z.leb_le 0 r)) by lia. rewrite get_app_r by lia. replace (ny + r - Zlen y) with r by lia.
  destruct (get b r) as [b0|]; auto. rewrite foldM_app, facc_steps by auto. fold (dot zero add mul x (nthl rows r)).
  destruct (foldM _ (nthl rows r) b0) as [s1|]; auto. destruct (dot zero add mul x (nthl rows r)) as [p|]; auto. cbn [foldM fst snd fexec].
  destruct (get idiag r) as [d|]; auto. unfold st_y. rewrite (proj2 (Z.ltb_lt r ny)) by lia. rewrite set_app_l by lia.
  destruct (set y r (mul s1 d)) as [y1|] eqn:E1; auto. cbn [option_map fst snd]. pose proof (set_len _ _ _ _ E1) as L1.
  unfold ld_y. rewrite (proj2 (Z.ltb_lt r ny)) by lia. rewrite get_app_l by lia. rewrite (get_set_same _ _ _ _ E1).
  unfold st_b. rewrite (proj2 (Z.leb_le 0 r)) by lia. replace (ny + r) with (Zlen y1 + r) by lia. rewrite set_app_r by lia.
  destruct (set b r (sub (mul s1 d) p)) as [b1|]; auto.
Qed.
Lemma fused_len r y b y' b' : fused_row r (y, b) = Some (y', b') -> Zlen y' = Zlen y /\ Zlen b' = Zlen b.
Proof.
  unfold fused_row. intros E. destruct (get b r); [|discriminate]. destruct (foldM _ (nthl rows r) v); [|discriminate]. destruct (dot _ _ _ x (nthl rows r)); [|discriminate].
  destruct (get idiag r); [|discriminate]. destruct (set y r _) eqn:E1; [|discriminate]. destruct (set b r _) eqn:E2; [|discriminate]. injection E as <- <-. split; eapply set_len; eauto.
Qed.
Lemma fused_runs order y b : (forall r, In r order -> 0 <= r < m) -> m <= n -> n <= Zlen y -> Zlen y = ny ->
  foldM (row_run ex None (fops A)) order (y ++ b) = (yb <- foldM fused_row order (y, b) ;; Some (fst yb ++ snd yb)).
Proof.
  revert y b. induction order as [|r order IH]; intros y b Ho Hmn Hn Hy; cbn [foldM]; auto.
  rewrite fused_run by (auto; apply Ho; cbn; auto). destruct (fused_row r (y, b)) as [(y1, b1)|] eqn:E; auto. cbn [fst snd].
  destruct (fused_len _ _ _ _ _ E). apply IH; auto; try lia. intros; apply Ho; cbn; auto.
Qed.
Lemma dot_ok r : 0 <= r < m -> n <= Zlen x -> exists p, dot zero add mul x (nthl rows r) = Some p.
Proof.
  intros Hr Hx. unfold dot. assert (HC : forall e, In e (nthl rows r) -> 0 <= fst e < Zlen x). { intros (c, v) He. pose proof (Hok _ _ _ (nth_row_In rows r Hr) He). cbn [fst]. lia. }
  generalize zero. revert HC. generalize (nthl rows r). intros l. induction l as [|e l IH]; intros HC s; cbn [foldM]; eauto.
  destruct (get_in_range x (fst e)) as (w & ->); [apply HC; cbn; auto|]. apply IH. intros; apply HC; cbn; auto.
Qed.
Lemma fused_seq order : NoDup order -> (forall r, In r order -> 0 <= r < m) -> m <= n -> n <= Zlen x -> m <= Zlen idiag ->
  forall y b, n <= Zlen y -> m <= Zlen b ->
  exists fy fb, foldM fused_row order (y, b) = Some (fy, fb) /\ updates add sub mul Scaled true rows idiag b order y = Some fy /\ Zlen fy = Zlen y /\ Zlen fb = Zlen b /\
    (forall c, ~ In c order -> get fb c = get b c /\ get fy c = get y c) /\
    (forall r, In r order -> exists v p, get fy r = Some v /\ dot zero add mul x (nthl rows r) = Some p /\ get fb r = Some (sub v p)).
Proof.
  induction order as [|r order IH]; intros ND Hin Hmn Hx Hd y b Hy Hb.
  { exists y, b. cbn [foldM updates]. repeat split; auto. intros r []. }
  apply NoDup_cons_iff in ND as (Nr & ND). pose proof (Hin r ltac:(cbn; auto)) as Hr.
  destruct (update_ok add sub mul Scaled true n rows idiag b Hok r y) as (y1 & EU & L1); auto.
  assert (EU' := EU). unfold update in EU. rewrite (get_nthl rows r Hr) in EU. destruct (get b r) as [b0|] eqn:Eb; [|discriminate].
  destruct (foldM _ (nthl rows r) b0) as [s1|] eqn:Es; [|discriminate]. destruct (get y r) as [old|]; [|discriminate]. cbn [store] in EU. destruct (get idiag r) as [d|] eqn:Ed; [|discriminate].
  destruct (dot_ok r Hr Hx) as (p & Ep). destruct (set_ok b r (sub (mul s1 d) p)) as (b1 & Eb1); [lia|]. pose proof (set_len _ _ _ _ Eb1) as Lb1.
  destruct (IH ND (fun r H => Hin r (or_intror H)) Hmn Hx Hd y1 b1 ltac:(lia) ltac:(lia)) as (fy & fb & F & U & Ly & Lb & Out & Inn).
  exists fy, fb. cbn [foldM]. assert (E1 : fused_row r (y, b) = Some (y1, b1)). { unfold fused_row. now rewrite Eb, Es, Ep, Ed, EU, Eb1. }
  rewrite E1. split; auto. split.
  { unfold updates. cbn [foldM]. rewrite EU'. rewrite <- U. unfold updates. apply foldM_ext_in. intros r' s Hr'. unfold update. rewrite (get_set_other _ _ _ _ _ Eb1); auto. intros ->. tauto. }
  split; [lia|]. split; [lia|]. split.
  - intros c Hc. cbn [In] in Hc. destruct (Out c) as (A1 & A2); [tauto|]. rewrite A1, A2. split; [eapply get_set_other; eauto|eapply get_set_other; eauto].
  - intros r' [<-|Hr']; [|auto]. destruct (Out r Nr) as (A1 & A2). rewrite A1, A2. exists (mul s1 d), p. split; [eapply get_set_same; eauto|]. split; auto. eapply get_set_same; eauto.
Qed.

Definition own2 (p : Z) : Z := if p <? ny then p else p - ny.
Lemma fused_frame r o l s l' s' : 0 <= r < m -> In o (fops A r) -> ex o l s = Some (l', s') -> Zlen s' = Zlen s /\ forall p, own2 p <> r -> get s' p = get s p.
Proof.
  intros Hr Ho E. destruct (in_fops r o Hr Ho) as [->|[->|[->|(q & (c, v) & Eq & ->)]]]; cbn [fexec] in E.
  - destruct (ld_b ny s r); [|discriminate]. injection E as _ <-. auto.
  - destruct l as [[s1 s2]|]; [|discriminate]. destruct (get idiag r) as [d|]; [|discriminate]. unfold st_y in E. destruct (r <? ny) eqn:Er; [|discriminate].
    destruct (set s r (mul s1 d)) as [z|] eqn:ES; [|discriminate]. injection E as _ <-. split; [eapply set_len; eauto|]. intros p Hp. eapply get_set_other; eauto.
    intros ->. apply Hp. unfold own2. now rewrite Er.
  - destruct l as [[s1 s2]|]; [|discriminate]. destruct (ld_y ny s r) as [u|]; [|discriminate]. unfold st_b in E. destruct (0 <=? r) eqn:Er; [|discriminate].
    destruct (set s (ny + r) (sub u s2)) as [z|] eqn:ES; [|discriminate]. injection E as _ <-. split; [eapply set_len; eauto|]. intros p Hp. eapply get_set_other; eauto.
    intros ->. apply Hp. unfold own2. destruct (Z.ltb_spec (ny + r) ny); lia.
  - destruct l as [[s1 s2]|]; [|discriminate]. destruct (col_at add sub mul base n rows A HR Hok r q c v Hr Eq) as (E1 & E2 & _). rewrite E1, E2 in E. destruct (ld_y ny s (c + base - base)); [|discriminate].
    destruct (get x (c + base)); [|discriminate]. injection E as _ <-. auto.
Qed.
Lemma fused_local r o l s1 s2 l' s1' : 0 <= r < m -> In o (fops A r) -> Zlen s1 = Zlen s2 ->
  (forall p, own2 p = r \/ entry rows r (own2 p) \/ ~ (0 <= own2 p < m) -> get s1 p = get s2 p) -> ex o l s1 = Some (l', s1') ->
  exists s2', ex o l s2 = Some (l', s2') /\ forall p, own2 p = r -> get s2' p = get s1' p.
Proof.
  intros Hr Ho HL HA E. assert (OB : own2 (ny + r) = r). { unfold own2. destruct (Z.ltb_spec (ny + r) ny); lia. }
  assert (LB : ld_b ny s2 r = ld_b ny s1 r). { unfold ld_b. rewrite HA; auto. }
  assert (LY : ld_y ny s2 r = ld_y ny s1 r). { unfold ld_y. destruct (r <? ny) eqn:Er; auto. symmetry. apply HA. left. unfold own2. now rewrite Er. }
  assert (SET : forall a w z, set s1 a w = Some z -> exists z', set s2 a w = Some z' /\ forall p, own2 p = r -> get z' p = get z p).
  { intros a w z ES. destruct (set_Some_inv _ _ _ _ ES) as (B & _). destruct (set_ok s2 a w) as (z' & ES'); [lia|]. exists z'. split; auto. intros p Hp.
    destruct (Z.eq_dec p a) as [->|N]. { now rewrite (get_set_same _ _ _ _ ES), (get_set_same _ _ _ _ ES'). } rewrite (get_set_other _ _ _ _ _ ES), (get_set_other _ _ _ _ _ ES') by auto. symmetry. auto. }
  destruct (in_fops r o Hr Ho) as [->|[->|[->|(q & (c, v) & Eq & ->)]]]; cbn [fexec] in *.
  - rewrite LB. destruct (ld_b ny s1 r); [|discriminate]. injection E as <- <-. exists s2. split; auto. intros p Hp. symmetry. auto.
  - destruct l as [[t1 t2]|]; [|discriminate]. destruct (get idiag r) as [d|]; [|discriminate]. unfold st_y in *. destruct (r <? ny); [|discriminate].
    destruct (set s1 r (mul t1 d)) as [z|] eqn:ES; [|discriminate]. injection E as <- <-. destruct (SET _ _ _ ES) as (z' & -> & H). eauto.
  - destruct l as [[t1 t2]|]; [|discriminate]. rewrite LY. destruct (ld_y ny s1 r) as [u|]; [|discriminate]. unfold st_b in *. destruct (0 <=? r); [|discriminate].
    destruct (set s1 (ny + r) (sub u t2)) as [z|] eqn:ES; [|discriminate]. injection E as <- <-. destruct (SET _ _ _ ES) as (z' & -> & H). eauto.
  - destruct l as [[t1 t2]|]; [|discriminate]. destruct (col_at add sub mul base n rows A HR Hok r q c v Hr Eq) as (E1 & E2 & _). rewrite E1, E2 in *. replace (c + base - base) with c in * by lia.
    assert (LC : ld_y ny s2 c = ld_y ny s1 c). { unfold ld_y. destruct (c <? ny) eqn:Ec; auto. symmetry. apply HA. right. left. unfold own2. rewrite Ec. exists v. eapply get_In; eauto. }
    rewrite LC. destruct (ld_y ny s1 c); [|discriminate]. destruct (get x (c + base)); [|discriminate]. injection E as <- <-. exists s2. split; auto. intros p Hp. symmetry. auto.
Qed.
End Proof.

(** ** The fused solve over a constructed schedule and a permuted matrix *)
Section Fused.
Context {V : Type}.
Variables (hasv : bool) (base n : Z) (rows lrows : rows_t V) (A : csr V) (dp : list Z).
Hypothesis HM : sched_matrix hasv base n rows lrows A dp.
Let m := Zlen rows.
Variables (T : Z) (agg : bool) (cost : Z -> Z) (w : world).
Hypothesis HA : sched_args m T cost w.
Context {X : Type}.
Variables (base' n' : Z) (krows krows' : rows_t X) (A' : csr X).
Hypothesis HR' : rep true base' n' krows' A'.
Hypothesis HB' : base' = 0.
Hypothesis Hok : rows_ok n' krows.
Hypothesis Hsub : sub_pattern krows rows.
Hypothesis Hn : m <= n'.
Variables (zero : X) (add sub mul : X -> X -> X) (idiag b y idiag' b' y' x' : list X).
Hypothesis Hy : n' <= Zlen y.
Hypothesis Hx : n' <= Zlen x'.
Hypothesis Hb : m <= Zlen b.
Hypothesis Hd : m <= Zlen idiag.
Theorem fused_p2p tr S o2t t2o : constructTaskGraph (graph_of A base dp) T false agg tr cost w = Some (S, o2t, t2o) ->
  moved_rows sub o2t t2o krows krows' -> moved m t2o b b' -> moved m t2o idiag idiag' -> moved m t2o y y' ->
  exists fy fy' fb', updates add sub mul Scaled true krows idiag b (dirZ true 0 m) y = Some fy /\ moved m t2o fy fy' /\ rest_of zero add sub mul krows' x' fy' b' fb' /\
    p2p_computes (fexec zero add sub mul A' base' (values_of krows') idiag' x' (Zlen y')) None (fops A') true S (fun i => Some i) T (y' ++ b') (fy' ++ fb').
Proof.
  intros E MR Mb Md My. destruct (sched_p2p hasv base n rows lrows A dp HM T agg cost w tr S o2t t2o true HA E) as [A1 A2 A3 A4]. fold m in A1, A4.
  destruct (sched_perms hasv base n rows lrows A dp HM T agg cost w HA tr S o2t t2o E) as (P1 & P2 & P3). fold m in P1, P2. pose proof (proj1 Hsub) as HL. fold m in HL.
  assert (Hin : forall r, In r (dirZ true 0 m) -> 0 <= r < m) by (intros r Hr; now apply In_dirZ in Hr).
  destruct (updates_ok add sub mul Scaled true n' krows idiag b Hok (dirZ true 0 m) y) as (fy & F1 & L1); rewrite ?HL; auto.
  destruct (updates_moved add sub mul Scaled true m n' o2t t2o krows krows' idiag b idiag' b' HL Hok P1 P2 P3 MR Mb Md (dirZ true 0 m) y y' fy Hin My F1) as (fy' & F2 & F3).
  assert (L' : Zlen krows' = m) by (rewrite (proj1 MR); auto).
  assert (Hok' : rows_ok n' krows') by (refine (moved_ok rows n' krows krows' Hok Hsub Hn add sub mul Scaled idiag (fun _ => Hd) o2t t2o P1 P2 P3 MR)).
  set (order := map (perm_col o2t) (dirZ true 0 m)) in *.
  assert (Po : Permutation order (zrange 0 m)) by (eapply order_perm; eauto using dirZ_perm).
  assert (Hino : forall r, In r order <-> 0 <= r < m). { intros r. split; intros H; [apply In_zrange; eapply Permutation_in; eauto|eapply Permutation_in; [apply Permutation_sym, Po|now apply In_zrange]]. }
  destruct (fused_seq zero add sub mul n' krows' idiag' x' Hok' order) with (y := y') (b := b') as (gy & fb' & G1 & G2 & G3 & G4 & G5 & G6); rewrite ?L'; auto.
  { eapply Permutation_NoDup; [apply Permutation_sym, Po|apply NoDup_zrange]. }
  { intros r Hr. now apply Hino. }
  { rewrite (proj1 Md). auto. } { rewrite (proj1 My). auto. } { rewrite (proj1 Mb). auto. }
  assert (gy = fy') by congruence. subst gy.
  exists fy, fy', fb'. split; auto. split; auto. split.
  { split; auto. split. - intros r Hr. apply G6, Hino. lia. - intros r Hr. apply G5. rewrite Hino. lia. }
  apply (general_p2p _ _ _ true T X krows' S (fun i => Some i) order (own2 (Zlen y')) (y' ++ b') (fy' ++ fb')); rewrite ?L'; auto.
  - eapply sched_ok_id; eauto.
  - intros. eapply fused_frame; eauto. lia.
  - intros r o l s1 s2 l' s1' Hr Ho HLn HA' Ee. apply (fused_local zero add sub mul base' n' krows' A' idiag' x' HR' Hok' (Zlen y') r o l s1 s2 l' s1'); rewrite ?L'; auto.
  - rewrite (fused_runs zero add sub mul base' n' krows' A' idiag' x' HR' Hok' HB' (Zlen y') order y' b'); rewrite ?L'; auto.
    + now rewrite G1.
    + intros r Hr. now apply Hino.
    + rewrite (proj1 My). auto.
  - refine (moved_covers add sub mul m n' o2t t2o krows krows' HL Hok P1 P2 P3 MR true S (dirZ true 0 m) _ _); [apply dirZ_perm|eapply covers_sub; eauto].
Qed.
End Fused.
