(** Properties C13, C14, C50: permutations of a matrix. *)
From Coq Require Import Permutation.
From Verif Require Import Base Spec Flat Csr Transpose CsrTools CsrOps Sort Permute PermuteMain PermuteFacts PermuteCols.

(** [permute_pre] and [permute_post] (PermuteFacts.v) say that A stores [rows]
    with local parts [lrows] (the whole rows without extptr), that [cp] covers
    the local columns and [inv] is a permutation of the rows; and that row i of
    the result is row inv[i], its local part renamed through [cp] (and sorted
    if asked), its remote part unchanged, with extptr, idiag and diagptr moved
    along.  Rows without a diagonal entry are allowed unless assertions are
    enabled and diagptr is present. *)
Theorem C13_permute : forall V nd sort base n hasv (rows lrows : rows_t V) A cp inv T sch j,
  permute_pre nd sort base n hasv rows lrows A cp inv -> 1 <= T -> junk_ok A T j ->
  exists A', permute nd sort A cp inv T sch j = Some A' /\ permute_post sort base n hasv rows lrows A cp inv A'.
Proof. exact @permute_main. Qed.
Print Assumptions C13_permute.

(** Local parts: the renamed entries, sorted if asked. *)
Theorem C13_local : forall V sort cp (l : list (Z * V)),
  Permutation (perm_local sort cp l) (map (fun e => (perm_col cp (fst e), snd e)) l) /\
  (sort = false -> perm_local sort cp l = map (fun e => (perm_col cp (fst e), snd e)) l) /\
  (sort = true -> row_sorted (perm_local sort cp l)).
Proof. exact @perm_local_spec. Qed.
Print Assumptions C13_local.

Theorem C13_deterministic : forall V nd sort base n hasv (rows lrows : rows_t V) A cp inv T sch j T' sch' j',
  permute_pre nd sort base n hasv rows lrows A cp inv -> (diagptr A <> None -> forall i, 0 <= i < Zlen rows -> exists v, In (i, v) (nthl lrows i)) ->
  1 <= T -> junk_ok A T j -> 1 <= T' -> junk_ok A T' j' ->
  exists A', permute nd sort A cp inv T sch j = Some A' /\ permute nd sort A cp inv T' sch' j' = Some A'.
Proof. exact @permute_deterministic. Qed.
Print Assumptions C13_deterministic.

(** There and back: the same entries; the same arrays if neither call sorts. *)
Theorem C13_round_trip : forall V nd s1 s2 base n hasv (rows lrows : rows_t V) A cp cp' p p' T sch j T' sch' j' A1,
  permute_pre nd s1 base n hasv rows lrows A cp (Some p) -> (s2 = true -> hasv = true) ->
  inverse_perms (Zlen cp) cp cp' -> inverse_perms (Zlen rows) p p' -> diagptr A = None ->
  1 <= T -> junk_ok A T j -> 1 <= T' -> junk_ok A1 T' j' ->
  permute nd s1 A cp (Some p) T sch j = Some A1 ->
  exists A2 rows2, permute nd s2 A1 cp' (Some p') T' sch' j' = Some A2 /\ rep hasv base n rows2 A2 /\
    Zlen rows2 = Zlen rows /\ (forall i, 0 <= i < Zlen rows -> Permutation (nthl rows2 i) (nthl rows i)) /\
    (s1 = false -> s2 = false -> rowptr A2 = rowptr A /\ colidx A2 = colidx A /\ values A2 = values A /\ idiag A2 = idiag A /\ extptr A2 = extptr A).
Proof. exact @permute_back. Qed.
Print Assumptions C13_round_trip.

(** Sorting, or a remote part, without values: NULL is dereferenced. *)
Theorem C13_sort_pattern_refuted :
  permute true true pat_case [1; 0] (Some [0; 1]) 1 (fun _ => []) pat_junk = None /\
  (exists A', permute true false pat_case [1; 0] (Some [0; 1]) 1 (fun _ => []) pat_junk = Some A').
Proof. exact sort_pattern_fails. Qed.
Print Assumptions C13_sort_pattern_refuted.

(** With assertions enabled a NULL row permutation always fails, although the
    code that follows handles it. *)
Theorem C13_null_assert_refuted : forall V sort (A : csr V) cp T sch j,
  1 <= cm A -> permute false sort A cp None T sch j = None.
Proof. exact @permute_null_assert. Qed.
Print Assumptions C13_null_assert_refuted.

(** With assertions enabled and diagptr present, a row without a diagonal entry
    always fails.  Without assertions [C13_permute] covers it; its element of
    diagptr is not set. *)
Theorem C13_hollow_assert_refuted : forall V sort base n hasv (rows lrows : rows_t V) A cp inv T sch j k,
  rep hasv base n rows A -> local_rows base rows A lrows -> inv_ok false (Zlen rows) inv -> 1 <= T -> junk_ok A T j ->
  diagptr A <> None -> 0 <= k < Zlen rows -> (forall v, ~ In (k, v) (nthl lrows k)) -> permute false sort A cp inv T sch j = None.
Proof. exact @permute_hollow_assert. Qed.
Print Assumptions C13_hollow_assert_refuted.

(** Base 0. *)
Theorem C14_permuteRows : forall V nd n hasv (rows lrows : rows_t V) A inv,
  rep hasv 0 n rows A -> local_rows 0 rows A lrows -> inv_ok nd (Zlen rows) inv ->
  (forall d, idiag A = Some d -> Zlen d = Zlen rows) -> (forall d, diagptr A = Some d -> Zlen d = Zlen rows) ->
  forall T sch j, 1 <= T -> junk_ok A T j ->
  let idx := sources (Zlen rows) inv in
  exists A', permuteRows nd A inv T sch j = Some A' /\ rep hasv 0 n (rows_at rows idx) A' /\
    local_rows 0 (rows_at rows idx) A' (rows_at lrows idx) /\ (extptr A' = None <-> extptr A = None) /\
    diag A' = None /\ shape (idiag A) (Zlen rows) (idiag A') /\ shape (diagptr A) (Zlen rows) (diagptr A') /\
    (forall d g i k, idiag A = Some d -> idiag A' = Some g -> get idx i = Some k -> get g i = get d k) /\
    (forall d g i k x, diagptr A = Some d -> diagptr A' = Some g -> get idx i = Some k -> get d k = Some x ->
       get g i = Some (off (nthl (rows_at rows idx)) i + (x - off (nthl rows) k))).
Proof. exact @permuteRows_ok. Qed.
Print Assumptions C14_permuteRows.

(** Base 1: every call reads out of bounds. *)
Theorem C14_base1_refuted : forall V nd n hasv (rows lrows : rows_t V) A inv T sch j,
  rep hasv 1 n rows A -> local_rows 1 rows A lrows ->
  inv_ok nd (Zlen rows) inv -> 1 <= T -> junk_ok A T j -> permuteRows nd A inv T sch j = None.
Proof. exact @permuteRows_base1. Qed.
Print Assumptions C14_base1_refuted.

(** In place.  With diagptr, the entries before and after the (renamed)
    diagonal entry are sorted separately and diagptr points to it. *)
Theorem C50_permuteCols : forall V nd base n hasv (rows lrows : rows_t V) A perm,
  rep hasv base n rows A -> local_rows base rows A lrows -> 0 <= base ->
  (forall r c v, In r lrows -> In (c, v) r -> 0 <= c < Zlen rows /\ exists c', get perm c = Some c' /\ 0 <= c' < Zlen rows) ->
  nd = true \/ base = 0 -> (diagptr A = None -> hasv = true) ->
  (forall d, diagptr A = Some d -> Zlen d = Zlen rows) ->
  (diagptr A <> None -> forall i, 0 <= i < Zlen rows -> exists v, In (i, v) (nthl lrows i)) ->
  forall sch, base = 0 \/ base = 1 ->
  exists A' rows' lrows', permuteColsInPlace nd A perm sch = Some A' /\ rep hasv base n rows' A' /\ local_rows base rows' A' lrows' /\
    Zlen rows' = Zlen rows /\ idiag A' = idiag A /\ diag A' = diag A /\ extptr A' = extptr A /\ shape (diagptr A) (Zlen rows) (diagptr A') /\
    forall i, 0 <= i < Zlen rows -> exists h q, nthl rows i = nthl lrows i ++ h /\ nthl rows' i = nthl lrows' i ++ h /\
      pc_spec (hasd A) perm i (nthl lrows i) (nthl lrows' i) q /\
      forall d, diagptr A' = Some d -> get d i = Some (base + off (nthl rows') i + q).
Proof. exact @permuteCols_ok. Qed.
Print Assumptions C50_permuteCols.

(** With assertions enabled the last column of a 1-based matrix is rejected. *)
Theorem C50_base1_assert_refuted :
  permuteColsInPlace false cols1_case [0; 1] [] = None /\ (exists A', permuteColsInPlace true cols1_case [0; 1] [] = Some A').
Proof. exact cols1_fails. Qed.
Print Assumptions C50_base1_assert_refuted.

(** A 1-based 3x3 matrix with diagptr and idiag, a cyclic shift of the rows and
    another one of the columns; two threads, junk 77. *)
Definition perm_rows_case : rows_t Z := [[(0, 10); (2, 20)]; [(1, 30)]; [(2, 40); (0, 50); (1, 60)]].
Definition perm_case : csr Z :=
  mkCSR 3 3 [1; 3; 4; 7] [1; 3; 2; 3; 1; 2] (Some [10; 20; 30; 40; 50; 60]) (Some [1; 2; 3]) None (Some [1; 3; 4]) None.
Definition perm_junk : junk Z :=
  mkJunk [77; 77; 77; 77] [] [77; 77; 77; 77; 77; 77; 77] [77; 77; 77; 77; 77; 77; 77] [77; 77; 77] [77; 77; 77] [77; 77; 77].

Example perm_case_pre : permute_pre false true 1 3 true perm_rows_case perm_rows_case perm_case [1; 2; 0] (Some [2; 0; 1]).
Proof. exact perm_case_ok. Qed.
Example perm_case_run : permute false true perm_case [1; 2; 0] (Some [2; 0; 1]) 2 (fun _ => [1%nat]) perm_junk =
  Some (mkCSR 3 3 [1; 4; 6; 7] [1; 2; 3; 1; 2; 3] (Some [40; 50; 60; 20; 10; 30]) (Some [3; 1; 2]) None (Some [1; 5; 6]) None).
Proof. exact (eq_refl _). Qed.
Example perm_rows_run : permuteRows false (mkCSR 3 3 [0; 2; 3; 6] [0; 2; 1; 2; 0; 1] (Some [10; 20; 30; 40; 50; 60]) None None (Some [0; 2; 3]) (Some [1; 3; 6]))
    (Some [2; 0; 1]) 2 (fun _ => [1%nat]) (mkJunk [7; 7; 7; 7] [7; 7; 7] [7; 7; 7; 7; 7; 7] [7; 7; 7; 7; 7; 7] [] [7; 7; 7] [7; 7; 7]) =
  Some (mkCSR 3 3 [0; 3; 5; 6] [2; 0; 1; 0; 2; 1] (Some [40; 50; 60; 10; 20; 30]) None None (Some [0; 3; 5]) (Some [3; 4; 6])).
Proof. exact (eq_refl _). Qed.
Example perm_cols_run : permuteColsInPlace true perm_case [1; 2; 0] [2%nat; 0%nat] =
  Some (mkCSR 3 3 [1; 3; 4; 7] [2; 1; 3; 1; 2; 3] (Some [10; 20; 30; 40; 50; 60]) (Some [1; 2; 3]) None (Some [1; 3; 4]) None).
Proof. exact (eq_refl _). Qed.
