(** * The average width of the rows (CSR.cpp:658-698) and the printed matrix
    (CSR.cpp:748-756). *)
From Coq Require Import Permutation Sorting.Sorted.
From Verif Require Import Base Interleave Spec Flat Csr CsrTools CsrOps LevelsCsr MmText.
Open Scope Z_scope.

(** ** Model *)
Definition INT_MAX : Z := 2147483647.
(** unsigned long long *)
Definition u64 (x : Z) : Z := x mod 18446744073709551616.

Section Model.
Context {V D : Type}.
Implicit Types A : csr V.
(** CSR.cpp:669-672 *)
Definition width_sorted A (base i total : Z) : option Z :=
  lo <- get (rowptr A) i ;; hi <- get (rowptr A) (i + 1) ;;
  if lo =? hi then Some total else
  c2 <- get (colidx A) (hi - 1 - base) ;; c1 <- get (colidx A) (lo - base) ;;
  Some (u64 (total + (c2 - c1))).
(** CSR.cpp:684-693 *)
Definition width_any A (base i total : Z) : option Z :=
  lo <- get (rowptr A) i ;; hi <- get (rowptr A) (i + 1) ;;
  if lo =? hi then Some total else
  ' (mn, mx) <- forZ lo hi (fun j s => c <- get (colidx A) (j - base) ;; Some (Z.min c (fst s), Z.max c (snd s))) (INT_MAX, INT_MIN) ;;
  Some (u64 (total + (mx - mn))).
(** CSR.cpp:658-698 with [T] threads.  [own] gives the thread of each iteration of
    the omp for; [sch] is the order in which the sums of the threads are added.
    [quot] is the division of the two numbers as doubles. *)
Variable quot : Z -> Z -> D.
Definition getAverageWidth A (sorted : bool) (T : Z) (own : Z -> Z) (sch : list nat) : option D :=
  base <- getBase A ;;
  ts <- (if sorted then Some (map (fun t => filter (fun i => own i =? t) (zrange 0 (cm A))) (zrange 0 T)) else lb_rows A T) ;;
  ws <- mapM (fun is => foldM (if sorted then width_sorted A base else width_any A base) is 0) ts ;;
  Some (quot (fold_left (fun a w => u64 (a + w)) (merge sch (map (fun w => [w]) ws)) 0) (cm A)).

(** CSR.cpp:748-756; [pr_v] is the text of a value (%g). *)
Variable pr_v : V -> list Z.
Definition csr_print A : option (list Z) :=
  base <- getBase A ;;
  forZ 0 (cm A) (fun i out =>
    lo <- get (rowptr A) i ;; hi <- get (rowptr A) (i + 1) ;;
    forZ (lo - base) (hi - base) (fun j out =>
      c <- get (colidx A) j ;; vs <- values A ;; v <- get vs j ;;
      Some (out ++ pr_int (i + base) ++ [32] ++ pr_int c ++ [32] ++ pr_v v ++ [NL])) out) [].
End Model.

(** ** Specification *)
(** [w] is the distance between the smallest and the largest column of the row. *)
Definition width_of {V} (r : list (Z * V)) (w : Z) : Prop :=
  (r = [] /\ w = 0) \/ exists c1 c2, In c1 (map fst r) /\ In c2 (map fst r) /\ (forall c, In c (map fst r) -> c1 <= c <= c2) /\ w = c2 - c1.
(** One line for each entry: row, column, value. *)
Definition print_line {V} (pr_v : V -> list Z) (base : Z) (e : Z * (Z * V)) : list Z :=
  pr_int (fst e + base) ++ [32] ++ pr_int (fst (snd e) + base) ++ [32] ++ pr_v (snd (snd e)) ++ [NL].

(** ** Proofs *)
Definition lo_of {V} (r : list (Z * V)) : Z := fold_left Z.min (map fst r) INT_MAX.
Definition hi_of {V} (r : list (Z * V)) : Z := fold_left Z.max (map fst r) INT_MIN.
Definition rw {V} (r : list (Z * V)) : Z := match r with [] => 0 | _ => hi_of r - lo_of r end.

Lemma minl_spec l : forall d, (fold_left Z.min l d = d \/ In (fold_left Z.min l d) l) /\ fold_left Z.min l d <= d /\ forall y, In y l -> fold_left Z.min l d <= y.
Proof.
  induction l as [|a l IH]; intros d; cbn [fold_left In]; [split; [auto|split; [lia|tauto]]|].
  destruct (IH (Z.min d a)) as (H1 & H2 & H3). split; [|split; [lia|]].
  - destruct H1 as [E|E]; auto. rewrite E. destruct (Z.min_spec d a) as [(_ & ->)|(_ & ->)]; auto.
  - intros y [->|Hy]; [lia|auto].
Qed.
Lemma maxl_spec l : forall d, (fold_left Z.max l d = d \/ In (fold_left Z.max l d) l) /\ d <= fold_left Z.max l d /\ forall y, In y l -> y <= fold_left Z.max l d.
Proof.
  induction l as [|a l IH]; intros d; cbn [fold_left In]; [split; [auto|split; [lia|tauto]]|].
  destruct (IH (Z.max d a)) as (H1 & H2 & H3). split; [|split; [lia|]].
  - destruct H1 as [E|E]; auto. rewrite E. destruct (Z.max_spec d a) as [(_ & ->)|(_ & ->)]; auto.
  - intros y [->|Hy]; [lia|auto].
Qed.
Lemma rw_ok {V} n (r : list (Z * V)) : (forall c v, In (c, v) r -> 0 <= c < n) -> n <= INT_MAX -> width_of r (rw r) /\ 0 <= rw r < Z.max 1 n /\
  (r <> [] -> In (lo_of r) (map fst r) /\ In (hi_of r) (map fst r) /\ forall c, In c (map fst r) -> lo_of r <= c <= hi_of r).
Proof.
  intros H Hn. destruct r as [|e r]; [split; [now left|split; [cbn; lia|easy]]|]. set (R := e :: r) in *. assert (N : In (fst e) (map fst R)) by (left; auto).
  assert (B : forall c, In c (map fst R) -> 0 <= c < n). { intros c Hc. apply in_map_iff in Hc as ((c', v) & <- & Hc). now apply H in Hc. }
  pose proof (minl_spec (map fst R) INT_MAX) as (A1 & A2 & A3). pose proof (maxl_spec (map fst R) INT_MIN) as (B1 & B2 & B3). fold (lo_of R) in *. fold (hi_of R) in *.
  pose proof (A3 _ N). pose proof (B3 _ N). pose proof (B _ N). unfold INT_MAX, INT_MIN in *.
  destruct A1 as [A1|A1]; [lia|]. destruct B1 as [B1|B1]; [lia|]. change (rw R) with (hi_of R - lo_of R). pose proof (B _ A1). pose proof (B _ B1).
  split; [right; exists (lo_of R), (hi_of R); repeat split; auto|]. split; [lia|]. intros _. repeat split; auto.
Qed.

Lemma zsum_app l1 l2 : zsum (l1 ++ l2) = zsum l1 + zsum l2.
Proof. induction l1 as [|x l IH]; cbn [app]; [reflexivity|]. unfold zsum in *. cbn [fold_right]. lia. Qed.
Lemma zsum_perm l l' : Permutation l l' -> zsum l = zsum l'.
Proof. induction 1; unfold zsum in *; cbn [fold_right]; lia. Qed.
Lemma own_perm own T m : (forall i, 0 <= own i < T) -> Permutation (concat (map (fun t => filter (fun i => own i =? t) (zrange 0 m)) (zrange 0 T))) (zrange 0 m).
Proof.
  intros H. assert (HT : 0 <= T) by (specialize (H 0); lia).
  assert (G : forall l, Permutation (concat (map (fun t => filter (fun i => own i =? t) l) (zrange 0 T))) l).
  { induction l as [|i l IH].
    - assert (N : forall ts, concat (map (fun t : Z => filter (fun i => own i =? t) []) ts) = []) by (induction ts; auto). rewrite N. constructor.
    - specialize (H i). rewrite (zrange_app 0 (own i) T) in * by lia. rewrite (zrange_cons (own i)) in * by lia. rewrite map_app, concat_app in *. cbn [map concat filter] in *. rewrite Z.eqb_refl.
      assert (E : forall ts, ~ In (own i) ts -> map (fun t => if own i =? t then i :: filter (fun j => own j =? t) l else filter (fun j => own j =? t) l) ts = map (fun t => filter (fun j => own j =? t) l) ts).
      { intros ts Hn. apply map_ext_in. intros t Ht. replace (own i =? t) with false; auto. symmetry. apply Z.eqb_neq. congruence. }
      rewrite !E by (rewrite In_zrange; lia). cbn [app]. eapply perm_trans; [symmetry; apply Permutation_middle|]. constructor. exact IH. }
  apply G.
Qed.

Section Proofs.
Context {V D : Type}.
Variables (base n : Z) (rows : rows_t V) (A : csr V) (hasv : bool).
Hypothesis HR : rep hasv base n rows A.
Hypothesis HO : rows_ok n rows.
Hypothesis Hb : base = 0 \/ base = 1.
Hypothesis Hn : n <= INT_MAX.
Variable quot : Z -> Z -> D.

Lemma row_ok i : 0 <= i < Zlen rows -> width_of (nthl rows i) (rw (nthl rows i)) /\ 0 <= rw (nthl rows i) < Z.max 1 n /\
  (nthl rows i <> [] -> In (lo_of (nthl rows i)) (map fst (nthl rows i)) /\ In (hi_of (nthl rows i)) (map fst (nthl rows i)) /\ forall c, In c (map fst (nthl rows i)) -> lo_of (nthl rows i) <= c <= hi_of (nthl rows i)).
Proof. intros Hi. apply (rw_ok n); auto. intros c v Hc. eapply HO; [now apply nth_row_In|eauto]. Qed.

Lemma width_any_ok i total : 0 <= i < Zlen rows -> width_any A base i total = Some (if Zlen (nthl rows i) =? 0 then total else u64 (total + rw (nthl rows i))).
Proof.
  intros Hi. unfold width_any. rewrite (rep_rowptr _ _ _ _ _ i HR), (rep_rowptr_S _ _ _ _ _ i HR) by lia. pose proof (Zlen_nonneg (nthl rows i)).
  destruct (Z.eqb_spec (Zlen (nthl rows i)) 0) as [E|E]; [rewrite E, Z.add_0_r, Z.eqb_refl; auto|].
  replace (base + off (nthl rows) i =? base + (off (nthl rows) i + Zlen (nthl rows i))) with false by lia.
  assert (HN : nthl rows i <> []) by (intros F; rewrite F in E; apply E; reflexivity).
  destruct (row_ok i Hi) as (_ & _ & G). destruct (G HN) as (G1 & G2 & G3). clear G.
  assert (HB : forall c, In c (map fst (nthl rows i)) -> 0 <= c < n). { intros c Hc. apply in_map_iff in Hc as ((c', v) & <- & Hc). eapply HO; [now apply nth_row_In|eauto]. }
  replace (base + (off (nthl rows) i + Zlen (nthl rows i))) with (base + off (nthl rows) i + Zlen (nthl rows i)) by lia.
  rewrite (forZ_list (nthl rows i) (base + off (nthl rows) i) _ (fun e s => Some (Z.min (fst e + base) (fst s), Z.max (fst e + base) (snd s)))).
  2:{ intros k (c, v) s Ek. replace (base + off (nthl rows) i + k - base) with (off (nthl rows) i + k) by lia. rewrite (rep_col _ _ _ _ _ i k c v HR) by auto. reflexivity. }
  assert (F : forall l a b, foldM (fun (e : Z * V) s => Some (Z.min (fst e + base) (fst s), Z.max (fst e + base) (snd s))) l (a, b) =
              Some (fold_left Z.min (map (fun e => fst e + base) l) a, fold_left Z.max (map (fun e => fst e + base) l) b)).
  { induction l as [|e l IH]; intros a b; cbn [foldM map fold_left fst snd]; auto. rewrite IH. rewrite (Z.min_comm a), (Z.max_comm b). reflexivity. }
  rewrite F.
  assert (E1 : fold_left Z.min (map (fun e => fst e + base) (nthl rows i)) INT_MAX = lo_of (nthl rows i) + base).
  { destruct (minl_spec (map (fun e => fst e + base) (nthl rows i)) INT_MAX) as (A1 & A2 & A3). set (m := fold_left Z.min _ INT_MAX) in *.
    assert (M1 : m <= lo_of (nthl rows i) + base). { apply A3. apply in_map_iff in G1 as (e & Ee & He). apply in_map_iff. exists e. split; [now rewrite Ee|auto]. }
    destruct A1 as [A1|A1]; [pose proof (HB _ G1); lia|]. apply in_map_iff in A1 as (e & Ee & He). specialize (G3 (fst e) (in_map fst _ _ He)). lia. }
  assert (E2 : fold_left Z.max (map (fun e => fst e + base) (nthl rows i)) INT_MIN = hi_of (nthl rows i) + base).
  { destruct (maxl_spec (map (fun e => fst e + base) (nthl rows i)) INT_MIN) as (A1 & A2 & A3). set (m := fold_left Z.max _ INT_MIN) in *.
    assert (M1 : hi_of (nthl rows i) + base <= m). { apply A3. apply in_map_iff in G2 as (e & Ee & He). apply in_map_iff. exists e. split; [now rewrite Ee|auto]. }
    destruct A1 as [A1|A1]; [pose proof (HB _ G2); unfold INT_MIN in *; lia|]. apply in_map_iff in A1 as (e & Ee & He). specialize (G3 (fst e) (in_map fst _ _ He)). lia. }
  rewrite E1, E2. do 3 f_equal. unfold rw. destruct (nthl rows i); [easy|]. lia.
Qed.

Lemma width_sorted_ok i total : 0 <= i < Zlen rows -> row_sorted (nthl rows i) -> width_sorted A base i total = Some (if Zlen (nthl rows i) =? 0 then total else u64 (total + rw (nthl rows i))).
Proof.
  intros Hi HS. unfold width_sorted. rewrite (rep_rowptr _ _ _ _ _ i HR), (rep_rowptr_S _ _ _ _ _ i HR) by lia. pose proof (Zlen_nonneg (nthl rows i)).
  destruct (Z.eqb_spec (Zlen (nthl rows i)) 0) as [E|E]; [rewrite E, Z.add_0_r, Z.eqb_refl; auto|].
  replace (base + off (nthl rows) i =? base + (off (nthl rows) i + Zlen (nthl rows i))) with false by lia.
  assert (HN : nthl rows i <> []) by (intros F; rewrite F in E; apply E; reflexivity).
  destruct (row_ok i Hi) as (_ & _ & G). destruct (G HN) as (G1 & G2 & G3). clear G.
  destruct (get_in_range (nthl rows i) (Zlen (nthl rows i) - 1)) as ((c2, v2) & K2); [lia|]. destruct (get_in_range (nthl rows i) 0) as ((c1, v1) & K1); [lia|].
  replace (base + (off (nthl rows) i + Zlen (nthl rows i)) - 1 - base) with (off (nthl rows) i + (Zlen (nthl rows i) - 1)) by lia. rewrite (rep_col _ _ _ _ _ i _ c2 v2 HR) by auto.
  replace (base + off (nthl rows) i - base) with (off (nthl rows) i + 0) by lia. rewrite (rep_col _ _ _ _ _ i _ c1 v1 HR) by auto.
  assert (ML : forall l, StronglySorted Z.le l -> forall p q a b, p <= q -> get l p = Some a -> get l q = Some b -> a <= b).
  { clear. induction 1 as [|x l _ IH HF]; intros p q a b L Hp Hq; [apply get_Some_bounds in Hp; change (Zlen (@nil Z)) with 0 in Hp; lia|].
    pose proof (get_Some_bounds _ _ _ Hp). destruct (Z.eq_dec p 0) as [->|Np].
    - rewrite get_cons_0 in Hp. injection Hp as <-. destruct (Z.eq_dec q 0) as [->|Nq]; [rewrite get_cons_0 in Hq; injection Hq as <-; lia|].
      rewrite get_cons_pos in Hq by lia. rewrite Forall_forall in HF. apply HF. eapply get_In; eauto.
    - rewrite get_cons_pos in Hp, Hq by lia. eapply IH; [|eauto|eauto]. lia. }
  assert (Kc : forall c, In c (map fst (nthl rows i)) -> c1 <= c <= c2).
  { intros c Hc. apply In_get in Hc as (k & Hk & Ek). rewrite Zlen_map in Hk. split.
    - apply (ML (map fst (nthl rows i)) HS 0 k); auto; [lia|]. rewrite get_map, K1. reflexivity.
    - apply (ML (map fst (nthl rows i)) HS k (Zlen (nthl rows i) - 1)); auto; [lia|]. rewrite get_map, K2. reflexivity. }
  assert (I1 : In c1 (map fst (nthl rows i))) by (apply (in_map fst _ (c1, v1)); eapply get_In; eauto).
  assert (I2 : In c2 (map fst (nthl rows i))) by (apply (in_map fst _ (c2, v2)); eapply get_In; eauto).
  pose proof (Kc _ G1). pose proof (Kc _ G2). pose proof (G3 _ I1). pose proof (G3 _ I2).
  do 3 f_equal. unfold rw. destruct (nthl rows i); [easy|]. lia.
Qed.

Lemma u64_add a b : u64 (u64 a + b) = u64 (a + b).
Proof. unfold u64. rewrite Zplus_mod_idemp_l. reflexivity. Qed.
Lemma thread_sum f is : (forall i t, In i is -> f i t = Some (if Zlen (nthl rows i) =? 0 then t else u64 (t + rw (nthl rows i)))) ->
  forall t, exists w, foldM f is t = Some w /\ u64 w = u64 (t + zsum (map (fun i => rw (nthl rows i)) is)).
Proof.
  induction is as [|i is IH]; intros H t; cbn [foldM map]; [exists t; split; auto; unfold zsum; cbn; now rewrite Z.add_0_r|].
  rewrite H by (left; auto). destruct (IH (fun j t Hj => H j t (or_intror Hj)) (if Zlen (nthl rows i) =? 0 then t else u64 (t + rw (nthl rows i)))) as (w & -> & E).
  exists w. split; auto. rewrite E.
  change (zsum (rw (nthl rows i) :: map (fun i0 => rw (nthl rows i0)) is)) with (rw (nthl rows i) + zsum (map (fun i0 => rw (nthl rows i0)) is)).
  destruct (Z.eqb_spec (Zlen (nthl rows i)) 0) as [E0|E0].
  - replace (nthl rows i) with (@nil (Z * V)) by (destruct (nthl rows i); auto; rewrite Zlen_cons in E0; pose proof (Zlen_nonneg l); lia). reflexivity.
  - rewrite u64_add. f_equal. lia.
Qed.

Lemma sums_total f ts : (forall is i t, In is ts -> In i is -> f i t = Some (if Zlen (nthl rows i) =? 0 then t else u64 (t + rw (nthl rows i)))) ->
  exists ws, mapM (fun is => foldM f is 0) ts = Some ws /\ u64 (zsum ws) = u64 (zsum (map (fun i => rw (nthl rows i)) (concat ts))).
Proof.
  induction ts as [|is ts IH]; intros H; [exists []; auto|]. destruct (IH (fun is i t Hi => H is i t (or_intror Hi))) as (ws & E & S).
  destruct (thread_sum f is (fun i t => H is i t (or_introl eq_refl)) 0) as (w & Ew & Sw). exists (w :: ws). cbn [mapM]. rewrite Ew, E. split; auto.
  cbn [concat]. rewrite map_app, zsum_app. change (zsum (w :: ws)) with (w + zsum ws). rewrite Z.add_0_l in Sw.
  rewrite <- u64_add, Sw, u64_add. rewrite (Z.add_comm _ (zsum ws)), <- u64_add, S, u64_add. f_equal. lia.
Qed.
Lemma fold_u64 l : forall a, u64 (fold_left (fun a w => u64 (a + w)) l a) = u64 (a + zsum l).
Proof. induction l as [|w l IH]; intros a; [change (zsum []) with 0; now rewrite Z.add_0_r|]. cbn [fold_left]. rewrite IH, u64_add. change (zsum (w :: l)) with (w + zsum l). f_equal. lia. Qed.
Lemma fold_u64_range l : forall a, u64 a = a -> u64 (fold_left (fun a w => u64 (a + w)) l a) = fold_left (fun a w => u64 (a + w)) l a.
Proof. induction l as [|w l IH]; intros a Ha; auto. cbn [fold_left]. apply IH. unfold u64. apply Zmod_mod. Qed.

(** With sorted rows, or without the promise that they are sorted: the sum of the
    widths of the rows, divided by their number. *)
Theorem average_width sorted T own sch : 1 <= T -> Zlen rows <= INT_MAX -> (sorted = true -> rows_sorted rows /\ forall i, 0 <= own i < T) ->
  exists ws, Forall2 width_of rows ws /\ getAverageWidth quot A sorted T own sch = Some (quot (zsum ws) (Zlen rows)).
Proof.
  intros HT Hm HS. exists (map rw rows). split.
  { assert (G : forall r, In r rows -> width_of r (rw r)). { intros r Hr. apply (rw_ok n); auto. intros c v Hc. eapply HO; eauto. }
    clear - G. induction rows as [|r l IH]; cbn [map]; constructor; [apply G; now left|]. apply IH. intros; apply G; now right. }
  assert (HTS : exists ts, (if sorted then Some (map (fun t => filter (fun i => own i =? t) (zrange 0 (cm A))) (zrange 0 T)) else lb_rows A T) = Some ts /\ Permutation (concat ts) (zrange 0 (Zlen rows))).
  { destruct sorted.
    - eexists. split; [reflexivity|]. rewrite (proj1 HR). destruct (HS eq_refl) as (_ & Ho). apply own_perm. intros i. specialize (Ho i). lia.
    - destruct (lb_rows_ok _ _ _ _ _ T HR HT) as (ts & E & Ec & _). exists ts. split; auto. now rewrite Ec. }
  destruct HTS as (ts & Ets & PT). unfold getAverageWidth. rewrite (rep_base _ _ _ _ _ HR), Ets.
  destruct (sums_total (if sorted then width_sorted A base else width_any A base) ts) as (ws & Ews & S).
  { intros is i t H1 H2. assert (Hi : 0 <= i < Zlen rows). { apply In_zrange. apply (Permutation_in _ PT). apply in_concat. eauto. }
    destruct sorted; [|now apply width_any_ok]. apply width_sorted_ok; auto. destruct (HS eq_refl) as (HS' & _). apply HS'. now apply nth_row_In. }
  rewrite Ews. rewrite (proj1 HR). do 2 f_equal.
  rewrite <- fold_u64_range by reflexivity. rewrite fold_u64, Z.add_0_l.
  rewrite (zsum_perm _ ws) by (rewrite merge_perm; clear; induction ws as [|w l IH]; cbn; auto). rewrite S.
  rewrite (zsum_perm _ (map (fun i => rw (nthl rows i)) (zrange 0 (Zlen rows)))) by now apply Permutation_map.
  assert (EW : map (fun i => rw (nthl rows i)) (zrange 0 (Zlen rows)) = map rw rows).
  { unfold nthl. rewrite (map_get_zrange rows (fun o => rw (match o with Some r => r | None => [] end))). reflexivity. }
  rewrite EW. unfold u64. apply Z.mod_small.
  assert (B : forall l, (forall r, In r l -> In r rows) -> 0 <= zsum (map rw l) <= Zlen l * INT_MAX).
  { induction l as [|r l IH]; intros Hl; [cbn; lia|]. cbn [map]. change (zsum (rw r :: map rw l)) with (rw r + zsum (map rw l)). rewrite Zlen_cons.
    specialize (IH (fun r Hr => Hl r (or_intror Hr))). destruct (rw_ok n r) as (_ & Hw & _); auto; [intros c v Hc; eapply HO; [apply Hl; now left|eauto]|]. unfold INT_MAX in *. nia. }
  specialize (B rows (fun r Hr => Hr)). unfold INT_MAX in *. nia.
Qed.
End Proofs.

(** The printed text: one line for each entry, row by row. *)
Theorem print_ok {V} (pr_v : V -> list Z) base n rows (A : csr V) : rep true base n rows A -> csr_print pr_v A = Some (concat (map (print_line pr_v base) (entries rows))).
Proof.
  intros HR. unfold csr_print. rewrite (rep_base _ _ _ _ _ HR), (proj1 HR).
  unfold entries. rewrite concat_map, map_map.
  rewrite (forZ_ext _ _ _ (fun i out => Some (out ++ concat (map (print_line pr_v base) (map (fun e => (i, e)) (nthl rows i)))))).
  - unfold forZ. generalize (zrange 0 (Zlen rows)). intros l.
    assert (G : forall acc, foldM (fun i out => Some (out ++ concat (map (print_line pr_v base) (map (fun e => (i, e)) (nthl rows i))))) l acc = Some (acc ++ concat (concat (map (fun i => map (print_line pr_v base) (map (fun e => (i, e)) (nthl rows i))) l)))).
    { induction l as [|i l IH]; intros acc; cbn [foldM map concat]; [now rewrite app_nil_r|]. rewrite IH, concat_app, app_assoc. reflexivity. }
    rewrite G. reflexivity.
  - intros i out Hi. rewrite (rep_rowptr _ _ _ _ _ i HR), (rep_rowptr_S _ _ _ _ _ i HR) by lia.
    replace (base + off (nthl rows) i - base) with (off (nthl rows) i) by lia.
    replace (base + (off (nthl rows) i + Zlen (nthl rows i)) - base) with (off (nthl rows) i + Zlen (nthl rows i)) by lia.
    rewrite (forZ_list (nthl rows i) _ _ (fun e out => Some (out ++ print_line pr_v base (i, e)))).
    + generalize (nthl rows i). intros l. revert out. induction l as [|e l IH]; intros out; cbn [foldM map concat]; [now rewrite app_nil_r|]. rewrite IH, <- app_assoc. reflexivity.
    + intros k (c, v) s Ek. rewrite (rep_col _ _ _ _ _ i k c v HR) by auto. destruct (rep_val _ _ _ _ i k c v HR) as (vs & -> & ->); auto.
Qed.

(** ** Cases *)
Definition w_rows : rows_t Z := [[(3, 7)]; []; [(0, 8); (1, 9); (2, 6)]; [(3, 1); (0, 2)]].
Lemma width_case : rep true 1 4 w_rows (csr_of 1 4 w_rows) /\ rows_ok 4 w_rows /\
  getAverageWidth pair (csr_of 1 4 w_rows) false 2 (fun i => i mod 2) [1%nat] = Some (5, 4).
Proof. split; [repeat split|]. split; [|vm_compute; reflexivity]. intros r c v Hr Hc. cbn in Hr. intuition (subst; cbn in Hc; intuition (try congruence; match goal with H : (_, _) = (_, _) |- _ => injection H as <- <-; lia end)). Qed.
Lemma width_sorted_case : let rows := removelast w_rows in rep true 1 4 rows (csr_of 1 4 rows) /\ rows_sorted rows /\
  getAverageWidth pair (csr_of 1 4 rows) true 2 (fun i => i mod 2) [1%nat] = Some (2, 3).
Proof. split; [repeat split|]. split; [|vm_compute; reflexivity]. intros r Hr. cbn in Hr. unfold row_sorted, sortedZ. intuition (subst; cbn [map fst]; repeat constructor; lia). Qed.
(** With rows that are not sorted and the promise that they are, a width can be
    negative, and the unsigned sum goes around: the width is 3, the sum 2^64 - 3. *)
Lemma width_wraps : let rows := [[(3, 1); (0, 2)]] in rep true 0 4 rows (csr_of 0 4 rows) /\ rows_ok 4 rows /\
  getAverageWidth pair (csr_of 0 4 rows) true 1 (fun _ => 0) [] = Some (18446744073709551613, 1) /\
  getAverageWidth pair (csr_of 0 4 rows) false 1 (fun _ => 0) [] = Some (3, 1).
Proof. split; [repeat split|]. split; [|split; vm_compute; reflexivity]. intros r c v Hr Hc. cbn in Hr. intuition (subst; cbn in Hc; intuition (try congruence; match goal with H : (_, _) = (_, _) |- _ => injection H as <- <-; lia end)). Qed.
Lemma print_case : csr_print pr_int (csr_of 1 4 w_rows) =
  Some (concat (map (fun l => concat (map (fun x => pr_int x ++ [32]) (removelast l)) ++ pr_int (last l 0) ++ [NL]) [[1; 4; 7]; [3; 1; 8]; [3; 2; 9]; [3; 3; 6]; [4; 4; 1]; [4; 1; 2]])).
Proof. vm_compute. reflexivity. Qed.
