(** * Sparse matrix times vector and times dense matrix (SpMV.cpp).

    Numbers are any type with any operations.  An iteration of a parallel row
    loop is one atomic action: different iterations store to different elements
    and load only from arrays nobody stores to (or, when y is the array w, from
    the element they store to themselves). *)
From Coq Require Import Ring_theory Ring.
From Verif Require Import Base Spec Interleave Partition PrefixSum Flat Csr Transpose CsrTools CsrOps RowPar.

Section SpMV.
Context {V : Type}.
Variables (zero : V) (add sub mul : V -> V -> V).
Variables (is0 is1 ism1 : V -> bool).   (* 0 == a, 1 == a, -1 == a *)

(** An argument that is the output array itself, or another array (not
    overlapping the output). *)
Inductive arg := Same | Own (l : list V).
Definition arr (a : arg) (w : list V) : list V := match a with Same => w | Own l => l end.

(** SpMV.cpp:73-76, 83-86, 94-97, 103-106, 114-117, 124-127: the accumulation
    over row [i] (0-based), [op] being += or -=. *)
Definition spmv_sum (A : csr V) (base : Z) (x : list V) (op : V -> V -> V) (i : Z) (s : V) : option V :=
  lo <- get (rowptr A) i ;; hi <- get (rowptr A) (i + 1) ;;
  forZ lo hi (fun j s =>
    match values A with
    | Some vs => v <- get vs (j - base) ;; c <- get (colidx A) (j - base) ;; u <- get x (c - base) ;; Some (op s (mul v u))
    | None => c <- get (colidx A) (j - base) ;; u <- get x (c - base) ;; Some (op s u)
    end) s.

(** SpMV.cpp:70-131, one row.  w, x and y are shifted by base, so that row
    [i + base] is element [i]. *)
Definition spmv_row (A : csr V) (base : Z) (alpha : V) (x : list V) (beta : V) (y : arg) (gamma : V) (i : Z) (w : list V) : option (list V) :=
  if is1 alpha && is0 beta && is0 gamma then
    s <- spmv_sum A base x add i zero ;; set w i s
  else if ism1 alpha && is1 beta && is0 gamma then
    y0 <- get (arr y w) i ;; s <- spmv_sum A base x sub i y0 ;; set w i s
  else
    s <- spmv_sum A base x add i zero ;; y0 <- get (arr y w) i ;; set w i (add (add (mul alpha s) (mul beta y0)) gamma).

(** SpMV.cpp:34-152 *)
Definition SpMV (A : csr V) (w : list V) (alpha : V) (x : list V) (beta : V) (y : arg) (gamma : V) (T : Z) (sch : list nat) : option (list V) :=
  base <- getBase A ;; ts <- lb_rows A T ;; par sch (spmv_row A base alpha x beta y gamma) ts w.

(** SpMV.cpp:154-177.  The temporary copy has m elements. *)
Definition multiplyWithVector (A : csr V) (w : list V) (alpha : V) (x : arg) (beta : V) (y : arg) (gamma : V) (T : Z) (sch : nat -> list nat) (junk : list V) : option (list V) :=
  match x with
  | Own xs => SpMV A w alpha xs beta y gamma T (sch 1%nat)
  | Same => tmp <- par_any (sch 0%nat) (fun i t => v <- get w i ;; set t i v) 0 (cm A) junk ;;
            SpMV A w alpha tmp beta y gamma T (sch 1%nat)
  end.

(** SpMV.cpp:179-182 ([one] is the double 1) *)
Definition multiplyWithVector1 (one : V) (A : csr V) (w : list V) (x : arg) (T : Z) (sch : nat -> list nat) (junk : list V) : option (list V) :=
  multiplyWithVector A w one x zero Same zero T sch junk.

(** ** Specification *)

(** The summands of a row, entries of a pattern matrix counting as 1. *)
Definition terms (hasv : bool) (x : Z -> V) (r : list (Z * V)) : list V :=
  map (fun e => if hasv then mul (snd e) (x (fst e)) else x (fst e)) r.

(** Exact evaluation order. *)
Definition spmv_val (hasv : bool) (alpha beta gamma : V) (x : Z -> V) (r : list (Z * V)) (y : V) : V :=
  if is1 alpha && is0 beta && is0 gamma then fold_left add (terms hasv x r) zero
  else if ism1 alpha && is1 beta && is0 gamma then fold_left sub (terms hasv x r) y
  else add (add (mul alpha (fold_left add (terms hasv x r) zero)) (mul beta y)) gamma.

(** [l] holds [f] at the indices below [n]. *)
Definition holds (l : list V) (n : Z) (f : Z -> V) : Prop := forall i, 0 <= i < n -> get l i = Some (f i).

Definition needs_y (alpha beta gamma : V) : bool := negb (is1 alpha && is0 beta && is0 gamma).

Lemma spmv_sum_ok hasv base n m' rows A xl x op i s : rep hasv base n rows A -> rows_ok m' rows -> holds xl m' x ->
  0 <= i < Zlen rows ->
  spmv_sum A base xl op i s = Some (fold_left op (terms hasv x (nthl rows i)) s).
Proof.
  intros HR Hok Hx Hi. unfold spmv_sum. rewrite (rep_rowptr _ _ _ _ _ _ HR) by lia. rewrite (rep_rowptr_S _ _ _ _ _ _ HR) by lia.
  replace (base + (off (nthl rows) i + Zlen (nthl rows i))) with (base + off (nthl rows) i + Zlen (nthl rows i)) by lia.
  rewrite (forZ_list (nthl rows i) _ _ (fun e s => Some (op s (if hasv then mul (snd e) (x (fst e)) else x (fst e))))).
  { unfold terms. generalize (nthl rows i). intros l. revert s. induction l as [|e l IH]; intros s; cbn [foldM map fold_left]; auto. }
  intros k [c v] s0 Ek. replace (base + off (nthl rows) i + k - base) with (off (nthl rows) i + k) by lia.
  rewrite (rep_col _ _ _ _ _ _ _ _ _ HR Hi Ek). replace (c + base - base) with c by lia.
  rewrite (Hx c) by (eapply Hok; [apply nth_row_In; apply Hi | eapply get_In; apply Ek]).
  destruct hasv.
  - destruct (rep_val _ _ _ _ _ _ _ _ HR Hi Ek) as (vs & -> & ->). reflexivity.
  - destruct HR as (_ & _ & _ & _ & ->). reflexivity.
Qed.

Theorem SpMV_ok hasv base n m' rows A w alpha xl x beta ya y gamma T sch : rep hasv base n rows A -> rows_ok m' rows ->
  holds xl m' x -> Zlen rows <= Zlen w ->
  (needs_y alpha beta gamma = true -> holds (arr ya w) (Zlen rows) y) -> 1 <= T ->
  exists w', SpMV A w alpha xl beta ya gamma T sch = Some w' /\ Zlen w' = Zlen w /\
    (forall i, 0 <= i < Zlen rows -> get w' i = Some (spmv_val hasv alpha beta gamma x (nthl rows i) (y i))) /\
    (forall i, Zlen rows <= i -> get w' i = get w i).
Proof.
  intros HR Hok Hx Hw Hy HT. unfold SpMV. rewrite (rep_base _ _ _ _ _ HR).
  destruct (lb_rows_ok _ _ _ _ _ T HR HT) as (ts & -> & Hts & _).
  destruct (par_order_inv (fun done w' => Zlen w' = Zlen w /\
      (forall i, In i done -> get w' i = Some (spmv_val hasv alpha beta gamma x (nthl rows i) (y i))) /\
      (forall i, ~ In i done -> get w' i = get w i)) sch (spmv_row A base alpha xl beta ya gamma) ts 0 (Zlen rows) w Hts)
    as (w' & done & -> & (L & H1 & H2) & D).
  - split; auto. split; [intros i []|auto].
  - intros done i w' Hi Hn Hd (L & H1 & H2).
    assert (needs_y alpha beta gamma = true -> get (arr ya w') i = Some (y i)) as Y.
    { intros Hny. specialize (Hy Hny i Hi). destruct ya; cbn [arr] in *; auto. now rewrite H2. }
    assert (Hset : spmv_row A base alpha xl beta ya gamma i w' = set w' i (spmv_val hasv alpha beta gamma x (nthl rows i) (y i))).
    { unfold spmv_row, spmv_val. unfold needs_y in Y.
      destruct (is1 alpha && is0 beta && is0 gamma).
      - now rewrite (spmv_sum_ok _ _ _ _ _ _ _ _ _ _ _ HR Hok Hx Hi).
      - rewrite Y by auto. now destruct (ism1 alpha && is1 beta && is0 gamma); rewrite (spmv_sum_ok _ _ _ _ _ _ _ _ _ _ _ HR Hok Hx Hi). }
    rewrite Hset. destruct (set_ok w' i (spmv_val hasv alpha beta gamma x (nthl rows i) (y i))) as (w2 & E2); [lia|].
    exists w2. split; auto. split; [now rewrite (set_len _ _ _ _ E2)|].
    split; intros j Hj; rewrite (get_set _ _ _ _ _ E2); destruct (Z.eqb_spec j i) as [->|Hne]; auto.
    + apply H1. destruct Hj as [<-|]; auto. congruence.
    + exfalso. apply Hj. cbn; auto.
    + apply H2. intros Hin. apply Hj. cbn; auto.
  - exists w'. split; auto. split; auto. split.
    + intros i Hi. apply H1. now apply D.
    + intros i Hi. apply H2. rewrite D. lia.
Qed.

(** x and w different arrays. *)
Theorem multiply_ok hasv base n rows A w alpha xl x beta ya y gamma T sch junk : rep hasv base n rows A -> rows_ok n rows ->
  holds xl n x -> Zlen rows <= Zlen w ->
  (needs_y alpha beta gamma = true -> holds (arr ya w) (Zlen rows) y) -> 1 <= T ->
  exists w', multiplyWithVector A w alpha (Own xl) beta ya gamma T sch junk = Some w' /\ Zlen w' = Zlen w /\
    (forall i, 0 <= i < Zlen rows -> get w' i = Some (spmv_val hasv alpha beta gamma x (nthl rows i) (y i))) /\
    (forall i, Zlen rows <= i -> get w' i = get w i).
Proof. intros. now apply SpMV_ok with (n := n) (m' := n) (base := base). Qed.

(** The same array: the columns must not exceed the number of rows. *)
Theorem multiply_same_ok hasv base n rows A w alpha x beta ya y gamma T sch junk : rep hasv base n rows A ->
  rows_ok (Zlen rows) rows -> holds w (Zlen rows) x -> Zlen rows <= Zlen w -> Zlen junk = Zlen rows ->
  (needs_y alpha beta gamma = true -> holds (arr ya w) (Zlen rows) y) -> 1 <= T ->
  exists w', multiplyWithVector A w alpha Same beta ya gamma T sch junk = Some w' /\ Zlen w' = Zlen w /\
    (forall i, 0 <= i < Zlen rows -> get w' i = Some (spmv_val hasv alpha beta gamma x (nthl rows i) (y i))) /\
    (forall i, Zlen rows <= i -> get w' i = get w i).
Proof.
  intros HR Hok Hx Hw Hj Hy HT. cbn [multiplyWithVector]. replace (cm A) with (Zlen rows) by (symmetry; apply HR).
  destruct (par_any_write (sch 0%nat) (fun i t => v <- get w i ;; set t i v) x 0 (Zlen rows) junk) as (tmp & -> & L & G & _); try lia.
  { intros i t Hi Lt. now rewrite Hx. }
  apply SpMV_ok with (n := n) (m' := Zlen rows) (base := base); auto.
Qed.

(** A failing iteration fails the loop. *)
Lemma foldM_fail {A S} (f : A -> S -> option S) a l s : In a l -> (forall s, f a s = None) -> foldM f l s = None.
Proof.
  revert s. induction l as [|b l IH]; intros s Hin Hf; [destruct Hin|]. cbn [foldM]. destruct Hin as [->|Hin].
  - now rewrite Hf.
  - destruct (f b s); auto.
Qed.

(** Any entry in a column beyond the number of rows is an out-of-bounds load
    from the temporary copy. *)
Theorem multiply_same_fails hasv base n rows A w alpha beta ya gamma T sch junk i c v : rep hasv base n rows A ->
  0 <= i < Zlen rows -> In (c, v) (nthl rows i) -> Zlen rows <= c -> Zlen junk = Zlen rows -> 1 <= T ->
  multiplyWithVector A w alpha Same beta ya gamma T sch junk = None.
Proof.
  intros HR Hi Hin Hc Hj HT. cbn [multiplyWithVector].
  destruct (par_any (sch 0%nat) (fun i t => v <- get w i ;; set t i v) 0 (cm A) junk) as [tmp|] eqn:E; auto.
  assert (Lt : Zlen tmp = Zlen rows).
  { rewrite <- Hj. unfold par_any, par in E.
    apply (foldM_inv (fun t => Zlen t = Zlen junk) (fun i t => v <- get w i ;; set t i v)) in E; auto.
    intros a s s' _ Ls Es. destruct (get w a); [|discriminate]. now rewrite (set_len _ _ _ _ Es). }
  unfold SpMV. rewrite (rep_base _ _ _ _ _ HR).
  destruct (lb_rows_ok _ _ _ _ _ T HR HT) as (ts & -> & Hts & _).
  unfold par. apply (foldM_fail _ i).
  { apply Permutation_in with (concat ts); [apply Permutation_sym, merge_perm|]. rewrite Hts. apply In_zrange. lia. }
  assert (F : forall op s, spmv_sum A base tmp op i s = None).
  { intros op s. unfold spmv_sum. rewrite (rep_rowptr _ _ _ _ _ _ HR) by lia. rewrite (rep_rowptr_S _ _ _ _ _ _ HR) by lia.
    destruct (In_get _ _ Hin) as (k & Hk & Ek).
    unfold forZ. apply (foldM_fail _ (base + off (nthl rows) i + k)).
    { apply In_zrange. lia. }
    intros s0. replace (base + off (nthl rows) i + k - base) with (off (nthl rows) i + k) by lia.
    rewrite (rep_col _ _ _ _ _ _ _ _ _ HR Hi Ek). replace (c + base - base) with c by lia.
    rewrite (get_out tmp c) by lia. destruct (values A); auto. now destruct (get l _). }
  intros s. unfold spmv_row. rewrite !F. destruct (is1 alpha && is0 beta && is0 gamma); auto.
  destruct (ism1 alpha && is1 beta && is0 gamma); auto. destruct (get (arr ya s) i); auto. now rewrite F.
Qed.

(** ** Sparse times dense *)

(** Address of element (i, j) after the shift of the pointer by base. *)
Definition dm_idx (base rs cs i j : Z) : Z := (i + base) * rs + j * cs - base.

(** SpMV.cpp:222-229 and 237-244.  sum[] is overwritten first, hence modelled
    as fresh for each row. *)
Definition spmdm_sum (A : csr V) (base k : Z) (X : list V) (xrs xcs : Z) (i : Z) (vla : list V) : option (list V) :=
  s <- forZ 0 k (fun j s => set s j zero) vla ;;
  lo <- get (rowptr A) i ;; hi <- get (rowptr A) (i + 1) ;;
  forZ lo hi (fun p s =>
    forZ 0 k (fun j s =>
      vs <- values A ;; v <- get vs (p - base) ;; c <- get (colidx A) (p - base) ;;
      u <- get X (dm_idx base xrs xcs (c - base) j) ;; q <- get s j ;; set s j (add q (mul v u))) s) s.

(** SpMV.cpp:220-250, one row.  In the first branch the row strides are 1. *)
Definition spmdm_row (A : csr V) (base k : Z) (wrs wcs : Z) (alpha : V) (X : list V) (xrs xcs : Z) (beta : V) (Y : arg) (yrs ycs : Z) (gamma : V)
    (vla : list V) (i : Z) (W : list V) : option (list V) :=
  if is1 alpha && is0 beta && is0 gamma && (wrs =? 1) && (xrs =? 1) && (yrs =? 1) then
    s <- spmdm_sum A base k X 1 xcs i vla ;;
    forZ 0 k (fun j W => q <- get s j ;; set W (dm_idx base 1 wcs i j) q) W
  else
    s <- spmdm_sum A base k X xrs xcs i vla ;;
    forZ 0 k (fun j W => q <- get s j ;; y <- get (arr Y W) (dm_idx base yrs ycs i j) ;;
                         set W (dm_idx base wrs wcs i j) (add (add (mul alpha q) (mul beta y)) gamma)) W.

(** SpMV.cpp:184-269 and 271-286 *)
Definition multiplyWithDenseMatrix (A : csr V) (W : list V) (k wrs wcs : Z) (alpha : V) (X : list V) (xrs xcs : Z) (beta : V) (Y : arg) (yrs ycs : Z) (gamma : V)
    (T : Z) (sch : list nat) (vla : list V) : option (list V) :=
  base <- getBase A ;; ts <- lb_rows A T ;;
  par sch (spmdm_row A base k wrs wcs alpha X xrs xcs beta Y yrs ycs gamma vla) ts W.

(** SpMV.cpp:288-296 *)
Definition multiplyWithDenseMatrix1 (one : V) (A : csr V) (W : list V) (k : Z) (X : list V) (T : Z) (sch : list nat) (vla : list V) : option (list V) :=
  multiplyWithDenseMatrix A W k 1 (cm A) one X 1 (cn A) zero Same 1 (cm A) zero T sch vla.

(** ** Specification: element (i, j) of a matrix with strides is at i*rs + j*cs *)
Definition holds2 (l : list V) (rs cs m k : Z) (f : Z -> Z -> V) : Prop :=
  forall i j, 0 <= i < m -> 0 <= j < k -> get l (i * rs + j * cs) = Some (f i j).
(** Elements at different indices have different addresses. *)
Definition injective2 (rs cs m k : Z) : Prop :=
  forall i j i' j', 0 <= i < m -> 0 <= i' < m -> 0 <= j < k -> 0 <= j' < k ->
    i * rs + j * cs = i' * rs + j' * cs -> i = i' /\ j = j'.
Definition spmdm_fast (alpha beta gamma : V) (wrs xrs yrs : Z) : bool :=
  is1 alpha && is0 beta && is0 gamma && (wrs =? 1) && (xrs =? 1) && (yrs =? 1).
Definition spmdm_val (fast : bool) (alpha beta gamma : V) (x : Z -> V) (r : list (Z * V)) (y : V) : V :=
  if fast then fold_left add (terms true x r) zero
  else add (add (mul alpha (fold_left add (terms true x r) zero)) (mul beta y)) gamma.

Lemma dm_idx_eq base rs cs i j : base = 0 \/ rs = 1 -> dm_idx base rs cs i j = i * rs + j * cs.
Proof. unfold dm_idx. intros [-> | ->]; ring. Qed.

Lemma spmdm_sum_ok base n rows A k X xrs xcs x i vla : rep true base n rows A -> rows_ok n rows ->
  holds2 X xrs xcs n k x -> base = 0 \/ xrs = 1 -> 0 <= i < Zlen rows -> 0 <= k -> Zlen vla = k ->
  exists s, spmdm_sum A base k X xrs xcs i vla = Some s /\ Zlen s = k /\
    forall j, 0 <= j < k -> get s j = Some (fold_left add (terms true (fun c => x c j) (nthl rows i)) zero).
Proof.
  clear sub ism1. intros HR Hok HX Hb Hi Hk Hv. unfold spmdm_sum.
  destruct (forZ_rule (fun j s => Zlen s = k /\ forall a, 0 <= a < j -> get s a = Some zero) 0 k (fun j s => set s j zero) vla) as (s0 & -> & L0 & G0); auto.
  { split; auto. intros; lia. }
  { intros j s Hj [Ls Gs]. destruct (set_ok s j zero) as (s2 & E2); [lia|]. exists s2. split; auto.
    split; [now rewrite (set_len _ _ _ _ E2)|]. intros a Ha. rewrite (get_set _ _ _ _ _ E2).
    destruct (Z.eqb_spec a j) as [->|]; auto. apply Gs. lia. }
  rewrite (rep_rowptr _ _ _ _ _ _ HR) by lia. rewrite (rep_rowptr_S _ _ _ _ _ _ HR) by lia.
  set (o := off (nthl rows) i). set (r := nthl rows i) in *. pose proof (Zlen_nonneg r).
  destruct (forZ_rule (fun p s => Zlen s = k /\ forall j, 0 <= j < k ->
      get s j = Some (fold_left add (terms true (fun c => x c j) (slice r 0 (p - base - o))) zero)) (base + o) (base + (o + Zlen r))
     (fun p s => forZ 0 k (fun j s => vs <- values A ;; v <- get vs (p - base) ;; c <- get (colidx A) (p - base) ;;
      u <- get X (dm_idx base xrs xcs (c - base) j) ;; q <- get s j ;; set s j (add q (mul v u))) s) s0) as (s1 & -> & L1 & G1); try lia.
  - split; auto. intros j Hj. rewrite slice_nil by lia. auto.
  - intros p s Hp [Ls Gs]. assert (Hq : 0 <= p - base - o < Zlen r) by lia.
    destruct (get_in_range r (p - base - o) Hq) as ([c v] & Ek).
    destruct (rep_val _ _ _ _ _ _ _ _ HR Hi Ek) as (vs & Evs & Ev). pose proof (rep_col _ _ _ _ _ _ _ _ _ HR Hi Ek) as Ec.
    replace (off (nthl rows) i + (p - base - o)) with (p - base) in Ev, Ec by (unfold o; lia).
    assert (Hc : 0 <= c < n) by (eapply Hok; [apply nth_row_In; apply Hi|eapply get_In; apply Ek]).
    destruct (forZ_rule (fun j0 s' => Zlen s' = k /\ forall j, 0 <= j < k ->
      get s' j = Some (fold_left add (terms true (fun c => x c j) (slice r 0 (p - base - o + if j <? j0 then 1 else 0))) zero)) 0 k
     (fun j s => vs <- values A ;; v <- get vs (p - base) ;; c <- get (colidx A) (p - base) ;;
      u <- get X (dm_idx base xrs xcs (c - base) j) ;; q <- get s j ;; set s j (add q (mul v u))) s) as (s1 & E1 & L1 & G1); auto.
    + split; auto. intros j Hj. replace (j <? 0) with false by lia. rewrite Z.add_0_r. auto.
    + intros j s' Hj [Ls' Gs']. rewrite Evs, Ev, Ec. rewrite dm_idx_eq by auto. replace (c + base - base) with c by lia.
      rewrite (HX c j) by auto. rewrite (Gs' j Hj). rewrite Z.ltb_irrefl, Z.add_0_r.
      match goal with |- context [set s' j ?v0] => set (nv := v0) end.
      destruct (set_ok s' j nv) as (s2 & E2); [lia|]. exists s2. split; auto. split; [now rewrite (set_len _ _ _ _ E2)|].
      intros a Ha. rewrite (get_set _ _ _ _ _ E2). destruct (Z.eqb_spec a j) as [->|Hne].
      * replace (j <? j + 1) with true by lia. unfold nv.
        rewrite (slice_app r 0 (p - base - o) (p - base - o + 1)) by lia.
        rewrite (slice_cons r (p - base - o) (p - base - o + 1) (c, v)) by (auto; lia). rewrite (slice_nil r (p - base - o + 1)) by lia.
        unfold terms. rewrite map_app, fold_left_app. reflexivity.
      * rewrite Gs' by auto. replace (a <? j + 1) with (a <? j) by lia. reflexivity.
    + exists s1. split; auto. split; auto. intros j Hj. rewrite G1 by auto. replace (j <? k) with true by lia. replace (p + 1 - base - o) with (p - base - o + 1) by lia. reflexivity.
  - exists s1. split; auto. split; auto. intros j Hj. rewrite G1 by auto. do 3 f_equal.
    replace (base + (o + Zlen r) - base - o) with (Zlen r) by lia. apply slice_full.
Qed.

(** [Y] is the array W only with the strides of W. *)
Definition y_ok (Y : arg) (wrs wcs yrs ycs : Z) : Prop := Y = Same -> yrs = wrs /\ ycs = wcs.

Theorem multiplyWithDenseMatrix_ok base n rows A W k wrs wcs alpha X xrs xcs x beta Y yrs ycs y gamma T sch vla :
  rep true base n rows A -> rows_ok n rows -> base = 0 \/ (wrs = 1 /\ xrs = 1 /\ yrs = 1) ->
  0 <= k -> Zlen vla = k -> holds2 X xrs xcs n k x ->
  injective2 wrs wcs (Zlen rows) k -> (forall i j, 0 <= i < Zlen rows -> 0 <= j < k -> 0 <= i * wrs + j * wcs < Zlen W) ->
  y_ok Y wrs wcs yrs ycs ->
  (spmdm_fast alpha beta gamma wrs xrs yrs = false -> holds2 (arr Y W) yrs ycs (Zlen rows) k y) -> 1 <= T ->
  exists W', multiplyWithDenseMatrix A W k wrs wcs alpha X xrs xcs beta Y yrs ycs gamma T sch vla = Some W' /\ Zlen W' = Zlen W /\
    (forall i j, 0 <= i < Zlen rows -> 0 <= j < k -> get W' (i * wrs + j * wcs) =
       Some (spmdm_val (spmdm_fast alpha beta gamma wrs xrs yrs) alpha beta gamma (fun c => x c j) (nthl rows i) (y i j))) /\
    (forall p, (forall i j, 0 <= i < Zlen rows -> 0 <= j < k -> p <> i * wrs + j * wcs) -> get W' p = get W p).
Proof.
  clear sub ism1. intros HR Hok Hb Hk Hv HX Hinj HW Hys Hy HT. unfold multiplyWithDenseMatrix. rewrite (rep_base _ _ _ _ _ HR).
  destruct (lb_rows_ok _ _ _ _ _ T HR HT) as (ts & -> & Hts & _).
  set (val i j := spmdm_val (spmdm_fast alpha beta gamma wrs xrs yrs) alpha beta gamma (fun c => x c j) (nthl rows i) (y i j)).
  destruct (par_order_inv (fun done W' => Zlen W' = Zlen W /\
      (forall i j, In i done -> 0 <= j < k -> get W' (i * wrs + j * wcs) = Some (val i j)) /\
      (forall p, (forall i j, In i done -> 0 <= j < k -> p <> i * wrs + j * wcs) -> get W' p = get W p))
      sch (spmdm_row A base k wrs wcs alpha X xrs xcs beta Y yrs ycs gamma vla) ts 0 (Zlen rows) W Hts)
    as (W' & done & -> & (L & H1 & H2) & D).
  - split; auto. split; [intros i j []|auto].
  - intros done i W' Hi Hn Hd (L & H1 & H2).
    assert (Hloop : exists W2, spmdm_row A base k wrs wcs alpha X xrs xcs beta Y yrs ycs gamma vla i W' = Some W2 /\
       (Zlen W2 = Zlen W' /\ (forall j, 0 <= j < k -> get W2 (i * wrs + j * wcs) = Some (val i j)) /\
       (forall p, (forall j, 0 <= j < k -> p <> i * wrs + j * wcs) -> get W2 p = get W' p))).
    { unfold spmdm_row. unfold val, spmdm_val, spmdm_fast in *.
      destruct (is1 alpha && is0 beta && is0 gamma && (wrs =? 1) && (xrs =? 1) && (yrs =? 1)) eqn:Ef.
      - assert (wrs = 1 /\ xrs = 1) as [-> ->] by lia.
        destruct (spmdm_sum_ok base n rows A k X 1 xcs x i vla) as (s & -> & Ls & Gs); auto.
        destruct (forZ_rule (fun j0 W2 => Zlen W2 = Zlen W' /\ (forall j, 0 <= j < j0 -> get W2 (i * 1 + j * wcs) = Some (fold_left add (terms true (fun c => x c j) (nthl rows i)) zero)) /\
            (forall p, (forall j, 0 <= j < j0 -> p <> i * 1 + j * wcs) -> get W2 p = get W' p)) 0 k
            (fun j W => q <- get s j ;; set W (dm_idx base 1 wcs i j) q) W') as (W2 & -> & L2); auto.
        + split; auto. split; auto. intros; lia.
        + intros j W2 Hj (L2 & A1 & A2). rewrite Gs by auto. rewrite dm_idx_eq by auto.
          match goal with |- context [set W2 ?p0 ?v0] => destruct (set_ok W2 p0 v0) as (W3 & E3) end. { rewrite L2, L. apply HW; auto. }
          exists W3. split; auto. split; [rewrite (set_len _ _ _ _ E3); auto|]. split.
          * intros j' Hj'. rewrite (get_set _ _ _ _ _ E3). destruct (Z.eqb_spec (i * 1 + j' * wcs) (i * 1 + j * wcs)) as [Q|Q].
            -- destruct (Hinj i j' i j) as [_ ->]; auto; lia.
            -- apply A1. assert (j' <> j) by congruence. lia.
          * intros p Hp. rewrite (get_set _ _ _ _ _ E3). destruct (Z.eqb_spec p (i * 1 + j * wcs)) as [->|Q].
            -- exfalso. apply (Hp j); auto; lia.
            -- apply A2. intros j' Hj'. apply Hp. lia.
        + exists W2. split; auto.
      - destruct (spmdm_sum_ok base n rows A k X xrs xcs x i vla) as (s & -> & Ls & Gs); auto. { tauto. }
        assert (HY : forall W2 j, (forall p, (forall j', 0 <= j' < j -> p <> i * wrs + j' * wcs) -> get W2 p = get W' p) -> 0 <= j < k ->
            get (arr Y W2) (i * yrs + j * ycs) = Some (y i j)).
        { intros W2 j A2 Hj. specialize (Hy eq_refl i j Hi Hj). destruct Y as [|l]; auto. cbn [arr] in *.
          destruct (Hys eq_refl) as [-> ->]. rewrite A2, H2; auto.
          - intros i' j' Hd' Hj' Q. destruct (Hinj i j i' j') as [-> _]; auto.
          - intros j' Hj' Q. destruct (Hinj i j i j') as [_ ->]; auto; lia. }
        destruct (forZ_rule (fun j0 W2 => Zlen W2 = Zlen W' /\ (forall j, 0 <= j < j0 -> get W2 (i * wrs + j * wcs) =
             Some (add (add (mul alpha (fold_left add (terms true (fun c => x c j) (nthl rows i)) zero)) (mul beta (y i j))) gamma)) /\
            (forall p, (forall j, 0 <= j < j0 -> p <> i * wrs + j * wcs) -> get W2 p = get W' p)) 0 k
            (fun j W => q <- get s j ;; y <- get (arr Y W) (dm_idx base yrs ycs i j) ;;
                         set W (dm_idx base wrs wcs i j) (add (add (mul alpha q) (mul beta y)) gamma)) W') as (W2 & -> & L2); auto.
        + split; auto. split; auto. intros; lia.
        + intros j W2 Hj (L2 & A1 & A2). rewrite Gs by auto. rewrite !dm_idx_eq by tauto. rewrite (HY W2 j) by auto.
          match goal with |- context [set W2 ?p0 ?v0] => destruct (set_ok W2 p0 v0) as (W3 & E3) end. { rewrite L2, L. apply HW; auto. }
          exists W3. split; auto. split; [rewrite (set_len _ _ _ _ E3); auto|]. split.
          * intros j' Hj'. rewrite (get_set _ _ _ _ _ E3). destruct (Z.eqb_spec (i * wrs + j' * wcs) (i * wrs + j * wcs)) as [Q|Q].
            -- destruct (Hinj i j' i j) as [_ ->]; auto; lia.
            -- apply A1. assert (j' <> j) by congruence. lia.
          * intros p Hp. rewrite (get_set _ _ _ _ _ E3). destruct (Z.eqb_spec p (i * wrs + j * wcs)) as [->|Q].
            -- exfalso. apply (Hp j); auto; lia.
            -- apply A2. intros j' Hj'. apply Hp. lia.
        + exists W2. split; auto. }
    destruct Hloop as (W2 & E2 & L2 & G2 & F2). exists W2. split; auto. split; [lia|]. split.
    + intros i' j Hi' Hj. destruct (Z.eq_dec i' i) as [->|Hne]; auto.
      destruct Hi' as [->|Hi']; [congruence|]. rewrite F2; auto.
      intros j' Hj' Q. destruct (Hinj i' j i j') as [-> _]; auto.
    + intros p Hp. rewrite F2, H2; auto.
      * intros i' j' Hi' Hj'. apply Hp; auto. cbn; auto.
      * intros j' Hj'. apply Hp; auto. cbn; auto.
  - exists W'. split; auto. split; auto. split.
    + intros i j Hi Hj. apply H1; auto. now apply D.
    + intros p Hp. apply H2. intros i j Hi Hj. apply Hp; auto. now apply D.
Qed.

(** Row-major storage of width k >= 2 of a 1-based matrix: an access past the
    end of W (or an earlier failure) in every call. *)
Theorem dense_base1_fails hasv n rows A W k alpha X xrs xcs beta Y yrs ycs gamma T sch vla :
  rep hasv 1 n rows A -> 1 <= Zlen rows -> 2 <= k -> Zlen W = Zlen rows * k -> 1 <= T ->
  multiplyWithDenseMatrix A W k k 1 alpha X xrs xcs beta Y yrs ycs gamma T sch vla = None.
Proof.
  clear sub ism1. intros HR Hm Hk HW HT. unfold multiplyWithDenseMatrix. rewrite (rep_base _ _ _ _ _ HR).
  destruct (lb_rows_ok _ _ _ _ _ T HR HT) as (ts & -> & Hts & _).
  unfold par. set (f := spmdm_row A 1 k k 1 alpha X xrs xcs beta Y yrs ycs gamma vla).
  assert (G : forall l W, Zlen W = Zlen rows * k -> In (Zlen rows - 1) l -> foldM f l W = None).
  { assert (Hf : forall i W W', Zlen W = Zlen rows * k -> f i W = Some W' -> Zlen W' = Zlen W /\ i <> Zlen rows - 1).
    { intros i W0 W' L E. unfold f, spmdm_row in E. replace (k =? 1) with false in E by lia. rewrite !andb_false_r in E. cbn [andb] in E.
      destruct (spmdm_sum A 1 k X xrs xcs i vla) as [s|]; [|discriminate].
      set (body := fun j W => q <- get s j ;; y <- get (arr Y W) (dm_idx 1 yrs ycs i j) ;;
                         set W (dm_idx 1 k 1 i j) (add (add (mul alpha q) (mul beta y)) gamma)) in E.
      assert (B : forall j W1 W2, body j W1 = Some W2 -> Zlen W2 = Zlen W1 /\ dm_idx 1 k 1 i j < Zlen W1).
      { intros j W1 W2. unfold body. destruct (get s j); [|discriminate]. destruct (get (arr Y W1) _); [|discriminate].
        intros Q. split; [apply (set_len _ _ _ _ Q)|]. apply set_Some_inv in Q. lia. }
      assert (B1 : forall l W1 W2, foldM body l W1 = Some W2 -> Zlen W2 = Zlen W1).
      { intros l W1 W2 Q. apply (foldM_inv (fun W => Zlen W = Zlen W1) body) in Q; auto.
        intros a s1 s2 _ Ls Es. destruct (B _ _ _ Es). lia. }
      split; [exact (B1 _ _ _ E)|]. intros ->. unfold forZ in E.
      rewrite (zrange_app 0 (k - 1) k), foldM_app in E by lia. destruct (foldM body (zrange 0 (k - 1)) W0) as [W1|] eqn:E1; [|discriminate].
      rewrite (zrange_cons (k - 1)) in E by lia. cbn [foldM] in E. destruct (body (k - 1) W1) as [W2|] eqn:E2; [|discriminate].
      apply B in E2. apply B1 in E1. unfold dm_idx in E2. nia. }
    induction l as [|a l IH]; intros W0 L Hin; [destruct Hin|]. cbn [foldM].
    destruct (f a W0) as [W1|] eqn:E; auto. apply Hf in E; auto. destruct E as [L1 Hne].
    apply IH; [lia|]. destruct Hin; auto. congruence. }
  apply G; auto. apply Permutation_in with (concat ts); [apply Permutation_sym, merge_perm|]. rewrite Hts. apply In_zrange. lia.
Qed.
End SpMV.

(** ** In a commutative ring *)
Section RingForm.
Context {V : Type}.
Variables (zero one : V) (add mul sub : V -> V -> V) (opp : V -> V).
Variable RT : ring_theory zero one add mul sub opp (@eq V).
Variables (is0 is1 ism1 : V -> bool).
Hypothesis H0 : forall a, is0 a = true -> a = zero.
Hypothesis H1 : forall a, is1 a = true -> a = one.
Hypothesis Hm1 : forall a, ism1 a = true -> a = opp one.
Add Ring Vring : RT.

Definition sum (l : list V) : V := fold_right add zero l.

Lemma fold_add l a : fold_left add l a = add a (sum l).
Proof. revert a. induction l as [|b l IH]; intros a; cbn [fold_left sum fold_right]; [ring|]. rewrite IH. unfold sum. ring. Qed.
Lemma fold_sub l a : fold_left sub l a = sub a (sum l).
Proof. revert a. induction l as [|b l IH]; intros a; cbn [fold_left sum fold_right]; [ring|]. rewrite IH. unfold sum. ring. Qed.

(** The value stored in an entry, 1 in pattern matrices. *)
Definition coef (hasv : bool) (v : V) : V := if hasv then v else one.
(** (A x)_i of a row. *)
Definition row_times (hasv : bool) (r : list (Z * V)) (x : Z -> V) : V := sum (map (fun e => mul (coef hasv (snd e)) (x (fst e))) r).

Lemma terms_coef hasv x r : sum (terms mul hasv x r) = row_times hasv r x.
Proof. unfold terms, row_times. f_equal. apply map_ext. intros e. unfold coef. destruct hasv; auto. ring. Qed.

Lemma spmv_val_ring hasv alpha beta gamma x r y :
  spmv_val zero add sub mul is0 is1 ism1 hasv alpha beta gamma x r y = add (add (mul alpha (row_times hasv r x)) (mul beta y)) gamma.
Proof.
  unfold spmv_val. rewrite fold_add, fold_sub, !terms_coef.
  destruct (is1 alpha && is0 beta && is0 gamma) eqn:E1.
  - apply andb_true_iff in E1. destruct E1 as [E1 E2]. apply andb_true_iff in E1. destruct E1 as [E1 E3].
    rewrite (H1 _ E1), (H0 _ E2), (H0 _ E3). ring.
  - destruct (ism1 alpha && is1 beta && is0 gamma) eqn:E2; [|ring].
    apply andb_true_iff in E2. destruct E2 as [E2 E3]. apply andb_true_iff in E2. destruct E2 as [E2 E4].
    rewrite (Hm1 _ E2), (H0 _ E3), (H1 _ E4). ring.
Qed.

Lemma spmdm_val_ring alpha beta gamma wrs xrs yrs x r y :
  spmdm_val zero add mul (spmdm_fast is0 is1 alpha beta gamma wrs xrs yrs) alpha beta gamma x r y =
  add (add (mul alpha (row_times true r x)) (mul beta y)) gamma.
Proof.
  unfold spmdm_val. rewrite fold_add, !terms_coef. unfold spmdm_fast.
  destruct (is1 alpha && is0 beta && is0 gamma && (wrs =? 1) && (xrs =? 1) && (yrs =? 1)) eqn:E1; [|ring].
  assert (is1 alpha = true /\ is0 beta = true /\ is0 gamma = true) as (E2 & E3 & E4)
    by (destruct (is1 alpha), (is0 beta), (is0 gamma); try discriminate; auto).
  rewrite (H1 _ E2), (H0 _ E3), (H0 _ E4). ring.
Qed.

Theorem multiply_ring hasv base n rows A w alpha xl x beta ya y gamma T sch junk : rep hasv base n rows A -> rows_ok n rows ->
  holds xl n x -> Zlen rows <= Zlen w -> holds (arr ya w) (Zlen rows) y -> 1 <= T ->
  exists w', multiplyWithVector zero add sub mul is0 is1 ism1 A w alpha (Own xl) beta ya gamma T sch junk = Some w' /\ Zlen w' = Zlen w /\
    (forall i, 0 <= i < Zlen rows -> get w' i = Some (add (add (mul alpha (row_times hasv (nthl rows i) x)) (mul beta (y i))) gamma)) /\
    (forall i, Zlen rows <= i -> get w' i = get w i).
Proof.
  intros HR Hok Hx Hw Hy HT.
  destruct (multiply_ok zero add sub mul is0 is1 ism1 hasv base n rows A w alpha xl x beta ya y gamma T sch junk) as (w' & E & L & G & F); auto.
  exists w'. split; auto. split; auto. split; auto. intros i Hi. rewrite G by auto. now rewrite spmv_val_ring.
Qed.

(** w = A x, where w and x may be the same array. *)
Theorem multiply1_ring hasv base n rows A w xa x T sch junk : rep hasv base n rows A -> rows_ok n rows ->
  holds (arr xa w) n x -> (xa = Same -> n = Zlen rows /\ Zlen junk = Zlen rows) -> Zlen rows <= Zlen w -> 1 <= T ->
  exists w', multiplyWithVector1 zero add sub mul is0 is1 ism1 one A w xa T sch junk = Some w' /\ Zlen w' = Zlen w /\
    (forall i, 0 <= i < Zlen rows -> get w' i = Some (row_times hasv (nthl rows i) x)) /\
    (forall i, Zlen rows <= i -> get w' i = get w i).
Proof.
  intros HR Hok Hx Hs Hw HT. unfold multiplyWithVector1.
  set (y := fun i => match get w i with Some v => v | None => zero end).
  assert (Hy : holds (arr Same w) (Zlen rows) y).
  { intros i Hi. cbn [arr]. unfold y. destruct (get_in_range w i) as (v & ->); auto. lia. }
  assert (R : forall i, add (add (mul one (row_times hasv (nthl rows i) x)) (mul zero (y i))) zero = row_times hasv (nthl rows i) x) by (intros; ring).
  destruct xa as [|xl].
  - destruct (Hs eq_refl) as [En Lj]. cbn [arr] in Hx. rewrite En in Hx, Hok.
    destruct (multiply_same_ok zero add sub mul is0 is1 ism1 hasv base n rows A w one x zero Same y zero T sch junk) as (w' & E & L & G & F); auto.
    exists w'. split; auto. split; auto. split; auto. intros i Hi. rewrite G by auto. now rewrite spmv_val_ring, R.
  - destruct (multiply_ring hasv base n rows A w one xl x zero Same y zero T sch junk) as (w' & E & L & G & F); auto.
    exists w'. split; auto. split; auto. split; auto. intros i Hi. rewrite G by auto. now rewrite R.
Qed.

Theorem multiply_same_ring hasv base n rows A w alpha x beta ya y gamma T sch junk : rep hasv base n rows A ->
  rows_ok (Zlen rows) rows -> holds w (Zlen rows) x -> Zlen rows <= Zlen w -> Zlen junk = Zlen rows ->
  holds (arr ya w) (Zlen rows) y -> 1 <= T ->
  exists w', multiplyWithVector zero add sub mul is0 is1 ism1 A w alpha Same beta ya gamma T sch junk = Some w' /\ Zlen w' = Zlen w /\
    (forall i, 0 <= i < Zlen rows -> get w' i = Some (add (add (mul alpha (row_times hasv (nthl rows i) x)) (mul beta (y i))) gamma)) /\
    (forall i, Zlen rows <= i -> get w' i = get w i).
Proof.
  intros HR Hok Hx Hw Hj Hy HT.
  destruct (multiply_same_ok zero add sub mul is0 is1 ism1 hasv base n rows A w alpha x beta ya y gamma T sch junk) as (w' & E & L & G & F); auto.
  exists w'. split; auto. split; auto. split; auto. intros i Hi. rewrite G by auto. now rewrite spmv_val_ring.
Qed.

Theorem dense_ring base n rows A W k wrs wcs alpha X xrs xcs x beta Y yrs ycs y gamma T sch vla :
  rep true base n rows A -> rows_ok n rows -> base = 0 \/ (wrs = 1 /\ xrs = 1 /\ yrs = 1) ->
  0 <= k -> Zlen vla = k -> holds2 X xrs xcs n k x ->
  injective2 wrs wcs (Zlen rows) k -> (forall i j, 0 <= i < Zlen rows -> 0 <= j < k -> 0 <= i * wrs + j * wcs < Zlen W) ->
  y_ok Y wrs wcs yrs ycs -> holds2 (arr Y W) yrs ycs (Zlen rows) k y -> 1 <= T ->
  exists W', multiplyWithDenseMatrix zero add mul is0 is1 A W k wrs wcs alpha X xrs xcs beta Y yrs ycs gamma T sch vla = Some W' /\ Zlen W' = Zlen W /\
    (forall i j, 0 <= i < Zlen rows -> 0 <= j < k -> get W' (i * wrs + j * wcs) =
       Some (add (add (mul alpha (row_times true (nthl rows i) (fun c => x c j))) (mul beta (y i j))) gamma)) /\
    (forall p, (forall i j, 0 <= i < Zlen rows -> 0 <= j < k -> p <> i * wrs + j * wcs) -> get W' p = get W p).
Proof.
  intros HR Hok Hb Hk Hv HX Hinj HW Hys Hy HT.
  destruct (multiplyWithDenseMatrix_ok zero add mul is0 is1 base n rows A W k wrs wcs alpha X xrs xcs x beta Y yrs ycs y gamma T sch vla) as (W' & E & L & G & F); auto.
  exists W'. split; auto. split; auto. split; auto. intros i j Hi Hj. rewrite G by auto. now rewrite spmdm_val_ring.
Qed.

(** Column-major with the sizes of the matrix. *)
Theorem dense1_ring base n rows A W k X x T sch vla :
  rep true base n rows A -> rows_ok n rows -> 0 <= k -> Zlen vla = k -> holds2 X 1 n n k x -> Zlen W = Zlen rows * k -> 1 <= T ->
  exists W', multiplyWithDenseMatrix1 zero add mul is0 is1 one A W k X T sch vla = Some W' /\ Zlen W' = Zlen W /\
    (forall i j, 0 <= i < Zlen rows -> 0 <= j < k -> get W' (i + j * Zlen rows) = Some (row_times true (nthl rows i) (fun c => x c j))).
Proof.
  clear Hm1 ism1. intros HR Hok Hk Hv HX HW HT. unfold multiplyWithDenseMatrix1. pose proof HR as (Em & En & _). rewrite Em, En.
  assert (B : forall i j, 0 <= i < Zlen rows -> 0 <= j < k -> 0 <= i * 1 + j * Zlen rows < Zlen W) by (intros; nia).
  set (y := fun i j => match get W (i * 1 + j * Zlen rows) with Some v => v | None => zero end).
  destruct (dense_ring base n rows A W k 1 (Zlen rows) one X 1 n x zero Same 1 (Zlen rows) y zero T sch vla) as (W' & E & L & G & F); auto.
  - intros i j i' j' Hi Hi' Hj Hj' Q. assert (j = j') by nia. subst. split; lia.
  - split; auto.
  - intros i j Hi Hj. cbn [arr]. unfold y. now destruct (get_in_range W (i * 1 + j * Zlen rows) (B i j Hi Hj)) as (v & ->).
  - exists W'. split; auto. split; auto. intros i j Hi Hj. specialize (G i j Hi Hj). rewrite Z.mul_1_r in G. rewrite G. f_equal. ring.
Qed.
End RingForm.

Lemma mv_example_ok : rep true 1 3 [[(0, 10); (2, 20)]; [(1, 30)]] (mkCSR 2 3 [1; 3; 4] [1; 3; 2] (Some [10; 20; 30]) None None None None) /\
  rows_ok 3 [[(0, 10); (2, 20)]; [(1, 30)]].
Proof.
  split; [repeat split|]. intros r c v Hr Hc. cbn in Hr.
  repeat (destruct Hr as [<-|Hr]; [cbn in Hc; repeat (destruct Hc as [Q|Hc]; [injection Q as <- <-; lia|]); tauto|]). tauto.
Qed.
