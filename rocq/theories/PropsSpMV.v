(** Properties C15, C16, C17: products with vectors and dense matrices. *)
From Coq Require Import Ring_theory.
From Verif Require Import Base Spec Flat Csr SpMV.

(** Any arithmetic: the result is the one evaluated in storage order
    ([spmv_val]); x and w are different arrays, y may be w itself.  [needs_y]
    is false only in the w = A*x path, where y is not read. *)
Theorem C15_multiply : forall V (zero : V) add sub mul is0 is1 ism1 hasv base n rows (A : csr V) w alpha xl x beta ya y gamma T sch junk,
  rep hasv base n rows A -> rows_ok n rows -> holds xl n x -> Zlen rows <= Zlen w ->
  (needs_y is0 is1 alpha beta gamma = true -> holds (arr ya w) (Zlen rows) y) -> 1 <= T ->
  exists w', multiplyWithVector zero add sub mul is0 is1 ism1 A w alpha (Own xl) beta ya gamma T sch junk = Some w' /\ Zlen w' = Zlen w /\
    (forall i, 0 <= i < Zlen rows ->
       get w' i = Some (spmv_val zero add sub mul is0 is1 ism1 hasv alpha beta gamma x (nthl rows i) (y i))) /\
    (forall i, Zlen rows <= i -> get w' i = get w i).
Proof. exact @multiply_ok. Qed.
Print Assumptions C15_multiply.

(** In a ring all three paths compute alpha*(A x)_i + beta*y_i + gamma. *)
Theorem C15_multiply_ring : forall V (zero one : V) add mul sub opp,
  ring_theory zero one add mul sub opp eq -> forall is0 is1 ism1 : V -> bool,
  (forall a, is0 a = true -> a = zero) -> (forall a, is1 a = true -> a = one) -> (forall a, ism1 a = true -> a = opp one) ->
  forall hasv base n rows (A : csr V) w alpha xl x beta ya y gamma T sch junk,
  rep hasv base n rows A -> rows_ok n rows -> holds xl n x -> Zlen rows <= Zlen w -> holds (arr ya w) (Zlen rows) y -> 1 <= T ->
  exists w', multiplyWithVector zero add sub mul is0 is1 ism1 A w alpha (Own xl) beta ya gamma T sch junk = Some w' /\ Zlen w' = Zlen w /\
    (forall i, 0 <= i < Zlen rows ->
       get w' i = Some (add (add (mul alpha (row_times zero one add mul hasv (nthl rows i) x)) (mul beta (y i))) gamma)) /\
    (forall i, Zlen rows <= i -> get w' i = get w i).
Proof. exact @multiply_ring. Qed.
Print Assumptions C15_multiply_ring.

(** The two-argument form, with x the same array as w or not. *)
Theorem C15_multiply1_ring : forall V (zero one : V) add mul sub opp,
  ring_theory zero one add mul sub opp eq -> forall is0 is1 ism1 : V -> bool,
  (forall a, is0 a = true -> a = zero) -> (forall a, is1 a = true -> a = one) -> (forall a, ism1 a = true -> a = opp one) ->
  forall hasv base n rows (A : csr V) w xa x T sch junk,
  rep hasv base n rows A -> rows_ok n rows -> holds (arr xa w) n x ->
  (xa = Same -> n = Zlen rows /\ Zlen junk = Zlen rows) -> Zlen rows <= Zlen w -> 1 <= T ->
  exists w', multiplyWithVector1 zero add sub mul is0 is1 ism1 one A w xa T sch junk = Some w' /\ Zlen w' = Zlen w /\
    (forall i, 0 <= i < Zlen rows -> get w' i = Some (row_times zero one add mul hasv (nthl rows i) x)) /\
    (forall i, Zlen rows <= i -> get w' i = get w i).
Proof. exact @multiply1_ring. Qed.
Print Assumptions C15_multiply1_ring.

(** x the same array as w: columns below the number of rows. *)
Theorem C16_in_place : forall V (zero : V) add sub mul is0 is1 ism1 hasv base n rows (A : csr V) w alpha x beta ya y gamma T sch junk,
  rep hasv base n rows A -> rows_ok (Zlen rows) rows -> holds w (Zlen rows) x -> Zlen rows <= Zlen w -> Zlen junk = Zlen rows ->
  (needs_y is0 is1 alpha beta gamma = true -> holds (arr ya w) (Zlen rows) y) -> 1 <= T ->
  exists w', multiplyWithVector zero add sub mul is0 is1 ism1 A w alpha Same beta ya gamma T sch junk = Some w' /\ Zlen w' = Zlen w /\
    (forall i, 0 <= i < Zlen rows ->
       get w' i = Some (spmv_val zero add sub mul is0 is1 ism1 hasv alpha beta gamma x (nthl rows i) (y i))) /\
    (forall i, Zlen rows <= i -> get w' i = get w i).
Proof. exact @multiply_same_ok. Qed.
Print Assumptions C16_in_place.

(** Any entry in a later column: out-of-bounds load, whatever the sizes of the
    vectors. *)
Theorem C16_wide_refuted : forall V (zero : V) add sub mul is0 is1 ism1 hasv base n rows (A : csr V) w alpha beta ya gamma T sch junk i c v,
  rep hasv base n rows A -> 0 <= i < Zlen rows -> In (c, v) (nthl rows i) -> Zlen rows <= c -> Zlen junk = Zlen rows -> 1 <= T ->
  multiplyWithVector zero add sub mul is0 is1 ism1 A w alpha Same beta ya gamma T sch junk = None.
Proof. exact @multiply_same_fails. Qed.
Print Assumptions C16_wide_refuted.

Theorem C17_dense : forall V (zero : V) add mul is0 is1 base n rows (A : csr V) W k wrs wcs alpha X xrs xcs x beta Y yrs ycs y gamma T sch vla,
  rep true base n rows A -> rows_ok n rows -> base = 0 \/ (wrs = 1 /\ xrs = 1 /\ yrs = 1) ->
  0 <= k -> Zlen vla = k -> holds2 X xrs xcs n k x ->
  injective2 wrs wcs (Zlen rows) k -> (forall i j, 0 <= i < Zlen rows -> 0 <= j < k -> 0 <= i * wrs + j * wcs < Zlen W) ->
  y_ok Y wrs wcs yrs ycs ->
  (spmdm_fast is0 is1 alpha beta gamma wrs xrs yrs = false -> holds2 (arr Y W) yrs ycs (Zlen rows) k y) -> 1 <= T ->
  exists W', multiplyWithDenseMatrix zero add mul is0 is1 A W k wrs wcs alpha X xrs xcs beta Y yrs ycs gamma T sch vla = Some W' /\ Zlen W' = Zlen W /\
    (forall i j, 0 <= i < Zlen rows -> 0 <= j < k -> get W' (i * wrs + j * wcs) =
       Some (spmdm_val zero add mul (spmdm_fast is0 is1 alpha beta gamma wrs xrs yrs) alpha beta gamma (fun c => x c j) (nthl rows i) (y i j))) /\
    (forall p, (forall i j, 0 <= i < Zlen rows -> 0 <= j < k -> p <> i * wrs + j * wcs) -> get W' p = get W p).
Proof. exact @multiplyWithDenseMatrix_ok. Qed.
Print Assumptions C17_dense.

Theorem C17_dense_ring : forall V (zero one : V) add mul sub opp,
  ring_theory zero one add mul sub opp eq -> forall is0 is1 : V -> bool,
  (forall a, is0 a = true -> a = zero) -> (forall a, is1 a = true -> a = one) ->
  forall base n rows (A : csr V) W k wrs wcs alpha X xrs xcs x beta Y yrs ycs y gamma T sch vla,
  rep true base n rows A -> rows_ok n rows -> base = 0 \/ (wrs = 1 /\ xrs = 1 /\ yrs = 1) ->
  0 <= k -> Zlen vla = k -> holds2 X xrs xcs n k x ->
  injective2 wrs wcs (Zlen rows) k -> (forall i j, 0 <= i < Zlen rows -> 0 <= j < k -> 0 <= i * wrs + j * wcs < Zlen W) ->
  y_ok Y wrs wcs yrs ycs -> holds2 (arr Y W) yrs ycs (Zlen rows) k y -> 1 <= T ->
  exists W', multiplyWithDenseMatrix zero add mul is0 is1 A W k wrs wcs alpha X xrs xcs beta Y yrs ycs gamma T sch vla = Some W' /\ Zlen W' = Zlen W /\
    (forall i j, 0 <= i < Zlen rows -> 0 <= j < k -> get W' (i * wrs + j * wcs) =
       Some (add (add (mul alpha (row_times zero one add mul true (nthl rows i) (fun c => x c j))) (mul beta (y i j))) gamma)) /\
    (forall p, (forall i j, 0 <= i < Zlen rows -> 0 <= j < k -> p <> i * wrs + j * wcs) -> get W' p = get W p).
Proof. exact @dense_ring. Qed.
Print Assumptions C17_dense_ring.

(** The short form: column-major W = A*X, both bases. *)
Theorem C17_dense1_ring : forall V (zero one : V) add mul sub opp,
  ring_theory zero one add mul sub opp eq -> forall is0 is1 : V -> bool,
  (forall a, is0 a = true -> a = zero) -> (forall a, is1 a = true -> a = one) ->
  forall base n rows (A : csr V) W k X x T sch vla,
  rep true base n rows A -> rows_ok n rows -> 0 <= k -> Zlen vla = k -> holds2 X 1 n n k x -> Zlen W = Zlen rows * k -> 1 <= T ->
  exists W', multiplyWithDenseMatrix1 zero add mul is0 is1 one A W k X T sch vla = Some W' /\ Zlen W' = Zlen W /\
    (forall i j, 0 <= i < Zlen rows -> 0 <= j < k ->
       get W' (i + j * Zlen rows) = Some (row_times zero one add mul true (nthl rows i) (fun c => x c j))).
Proof. exact @dense1_ring. Qed.
Print Assumptions C17_dense1_ring.

(** Row-major W of width k >= 2 with a 1-based matrix: every call fails. *)
Theorem C17_base1_refuted : forall V (zero : V) add mul is0 is1 hasv n rows (A : csr V) W k alpha X xrs xcs beta Y yrs ycs gamma T sch vla,
  rep hasv 1 n rows A -> 1 <= Zlen rows -> 2 <= k -> Zlen W = Zlen rows * k -> 1 <= T ->
  multiplyWithDenseMatrix zero add mul is0 is1 A W k k 1 alpha X xrs xcs beta Y yrs ycs gamma T sch vla = None.
Proof. exact @dense_base1_fails. Qed.
Print Assumptions C17_base1_refuted.

(** Examples over the integers: a 1-based 2x3 matrix [[10,0,20],[0,30,0]]. *)
Definition mv_case : csr Z := mkCSR 2 3 [1; 3; 4] [1; 3; 2] (Some [10; 20; 30]) None None None None.
Definition mv := multiplyWithVector 0 Z.add Z.sub Z.mul (Z.eqb 0) (Z.eqb 1) (Z.eqb (-1)) mv_case.
Example mv_rep : rep true 1 3 [[(0, 10); (2, 20)]; [(1, 30)]] mv_case /\ rows_ok 3 [[(0, 10); (2, 20)]; [(1, 30)]].
Proof. exact mv_example_ok. Qed.
Example mv_run1 : mv [7; 7; 8] 1 (Own [1; 2; 3]) 0 Same 0 2 (fun _ => [1%nat]) [] = Some [70; 60; 8].
Proof. exact (eq_refl _). Qed.
Example mv_run2 : mv [7; 7] (-1) (Own [1; 2; 3]) 1 (Own [100; 200]) 0 2 (fun _ => []) [] = Some [30; 140].
Proof. exact (eq_refl _). Qed.
Example mv_run3 : mv [7; 8] 2 (Own [1; 2; 3]) 3 Same 5 3 (fun _ => []) [] = Some [166; 149].
Proof. exact (eq_refl _). Qed.
Example mv_same : mv [1; 2; 3] 1 Same 0 Same 0 1 (fun _ => []) [9; 9] = None.
Proof. exact (eq_refl _). Qed.
Example dm_run : multiplyWithDenseMatrix1 0 Z.add Z.mul (Z.eqb 0) (Z.eqb 1) 1 mv_case [9; 9; 9; 9] 2 [1; 2; 3; 4; 5; 6] 2 [1%nat] [9; 9] = Some [70; 60; 160; 150].
Proof. exact (eq_refl _). Qed.
