(** Property C18: splitting into strictly lower, strictly upper and diagonal part. *)
From Coq Require Import Permutation.
From Verif Require Import Base Spec Flat Csr CsrOps SplitLU.

(** Entries at or after extptr are remote: their columns are not below the
    number of rows.  In the 1-based case with extptr every row must have a
    remote entry (see the refutation below). *)
Theorem C18_splitLU : forall V base n (rows lrows : rows_t V) A dg T sch j s1 s2 s3 s4,
  base = 0 \/ base = 1 -> rep true base n rows A -> local_rows base rows A lrows -> diagptr_len A ->
  (forall i k c v, 0 <= i < Zlen rows -> Zlen (nthl lrows i) <= k -> get (nthl rows i) k = Some (c, v) -> Zlen rows <= c) ->
  (base = 1 -> extptr A <> None -> forall i, 0 <= i < Zlen rows -> Zlen (nthl lrows i) < Zlen (nthl rows i)) ->
  idiag A = Some dg -> Zlen dg = Zlen rows -> 1 <= T -> sl_junk_ok (Zlen rows) T j ->
  exists L U, splitLU A T sch j s1 s2 s3 s4 = Some (A, L, U) /\
    rep true base n (select lower rows) L /\ rep true base n (select upper rows) U /\
    extptr L = None /\ local_rows base (select upper rows) U (select upper lrows) /\ (extptr A = None <-> extptr U = None) /\
    idiag L = Some dg /\ idiag U = Some dg /\ diagptr L = None /\ diagptr U = None.
Proof. exact @splitLU_ok. Qed.
Print Assumptions C18_splitLU.

(** The parts and the diagonal entries make up the row. *)
Theorem C18_parts : forall V i (row : list (Z * V)),
  Permutation row (filter (fun e => fst e <? i) row ++ filter (fun e => fst e =? i) row ++ filter (fun e => i <? fst e) row).
Proof. exact @row_parts. Qed.
Print Assumptions C18_parts.

(** 1-based with extptr, last row without remote entries: extptr is not shifted
    with the rest of the matrix and the loop reads past the end of colidx. *)
Theorem C18_ext1_refuted : forall V n (rows lrows : rows_t V) A T sch j s1 s2 s3 s4,
  rep true 1 n rows A -> local_rows 1 rows A lrows -> diagptr_len A -> extptr A <> None -> 1 <= Zlen rows ->
  nthl lrows (Zlen rows - 1) = nthl rows (Zlen rows - 1) -> 1 <= T ->
  splitLU A T sch j s1 s2 s3 s4 = None.
Proof. exact @splitLU_ext1_fails. Qed.
Print Assumptions C18_ext1_refuted.

Example split_ex : rep true 0 5 split_rows (split_csr 0 [2; 5; 8]) /\
  local_rows 0 split_rows (split_csr 0 [2; 5; 8]) [[(0, 5); (2, 6)]; [(0, 8); (1, 9)]; [(0, 1); (1, 2); (2, 3)]] /\ sl_junk_ok 3 2 split_junk /\
  exists L U, splitLU (split_csr 0 [2; 5; 8]) 2 (fun _ => [1; 0]%nat) split_junk (fun _ => []) (fun _ => []) (fun _ => []) (fun _ => []) =
    Some (split_csr 0 [2; 5; 8], L, U) /\ colidx L = [0; 0; 1] /\ colidx U = [2; 3; 4] /\ extptr U = Some [1; 2; 2].
Proof. exact split_case_ok. Qed.
Example split_ex1 : splitLU (split_csr 1 [2; 5; 9]) 2 (fun _ => []) split_junk (fun _ => []) (fun _ => []) (fun _ => []) (fun _ => []) = None.
Proof. exact (eq_refl _). Qed.
