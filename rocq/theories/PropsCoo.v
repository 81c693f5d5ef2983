(** Properties C08, C09: conversion of coordinate lists, quicksort of rows. *)
From Verif Require Import Base Spec Flat Csr Transpose Sort Coo.
From Coq Require Import Permutation.

(** ** C09 *)
Theorem C09_qsort : forall W (idx : list Z) (w : list W) left right fuel,
  Zlen idx = Zlen w -> 0 <= left -> right < Zlen idx -> right - left < Z.of_nat fuel ->
  exists idx' w', qsort fuel (idx, w) left right = Some (idx', w') /\
    Zlen idx' = Zlen idx /\ Zlen w' = Zlen w /\
    (forall k, k < left \/ right < k -> get idx' k = get idx k /\ get w' k = get w k) /\
    (forall i j a b, left <= i <= j -> j <= right -> get idx' i = Some a -> get idx' j = Some b -> a <= b) /\
    (left <= right -> Permutation (pairs_in (idx, w) left (right + 1)) (pairs_in (idx', w') left (right + 1))).
Proof. exact @qsort_arrays. Qed.
Print Assumptions C09_qsort.
Example C09_case : qsort 5 ([9; 4; 2; 4; 1; 3; 0], [90; 40; 20; 41; 10; 30; 0]) 1 5
  = Some ([9; 1; 2; 3; 4; 4; 0], [90; 10; 20; 30; 41; 40; 0]).
Proof. reflexivity. Qed.

(** ** C08 *)
Theorem C08_coo2csr : forall V sch (m n outBase : Z) (es : list (Z * (Z * V))) (C : coo V) (sort : bool) rp ci vs,
  0 <= m -> coo_rep m n es C -> coo_ok m n es -> Zlen rp = m + 1 -> Zlen ci = Zlen es -> Zlen vs = Zlen es ->
  exists rp' ci' vs' rows', coo2csr sch m (onnz C) rp ci vs (orow C) (ocol C) (oval C) sort outBase = Some (rp', (ci', vs')) /\
    rep true outBase n rows' (mkCSR m n rp' ci' (Some vs') None None None None) /\ rows_ok n rows' /\
    Permutation (entries rows') es /\
    (forall r, 0 <= r < m -> Permutation (nthl rows' r) (map snd (filter (fun e => fst e =? r) es))) /\
    (sort = true -> rows_sorted rows') /\ (sort = false -> rows' = coo_rows m es).
Proof. exact @coo2csr_rep. Qed.
Print Assumptions C08_coo2csr.
(** The CSR object: diagonal pointers and the separate diagonal arrays. *)
Theorem C08_dcoo2csr : forall V (recip : V -> V) sch (m n outBase : Z) (es : list (Z * (Z * V))) (C : coo V) (A : csr V) vs0 separate,
  0 <= m -> coo_rep m n es C -> coo_ok m n es ->
  Zlen (rowptr A) = m + 1 -> Zlen (colidx A) = Zlen es -> values A = Some vs0 -> Zlen vs0 = Zlen es ->
  (forall d, diagptr A = Some d -> Zlen d = m) -> (forall d, idiag A = Some d -> Zlen d = m) ->
  (forall d, diag A = Some d -> Zlen d = m) ->
  exists rows' A', dcoo2csr recip sch A C outBase separate = Some A' /\
    rep true outBase n rows' A' /\ rows_sorted_from (coo_rows m es) rows' /\
    match diagptr A, diagptr A' with
    | Some d0, Some d => diag_pointers outBase rows' d0 d /\
        match idiag A, diag A, idiag A', diag A' with
        | Some i0, Some g0, Some i1, Some g1 =>
            if separate then diag_array recip rows' i0 i1 /\ diag_array (fun v => v) rows' g0 g1 else i1 = i0 /\ g1 = g0
        | i0, g0, i1, g1 => i1 = i0 /\ g1 = g0
        end
    | None, None => idiag A' = idiag A /\ diag A' = diag A
    | _, _ => False
    end.
Proof. exact @dcoo2csr_ok. Qed.
Print Assumptions C08_dcoo2csr.
(** Three rows, the second empty; duplicates; all entries of row 3 out of order. *)
Example C08_case :
  let es := [(2, (2, 7)); (0, (1, 3)); (2, (0, 8)); (2, (2, 9)); (0, (0, 4))] in
  let C := mkCOO 3 3 5 [3; 1; 3; 3; 1] [3; 2; 1; 3; 1] [7; 3; 8; 9; 4] in
  coo_rep 3 3 es C /\ coo_ok 3 3 es /\
  dcoo2csr Z.opp (fun _ => [2%nat; 1%nat]) (mkCSR 0 0 [77; 77; 77; 77] [77; 77; 77; 77; 77] (Some [77; 77; 77; 77; 77])
      (Some [77; 77; 77]) (Some [77; 77; 77]) (Some [77; 77; 77]) None) C 1 true
  = Some (mkCSR 3 3 [1; 3; 3; 6] [1; 2; 1; 3; 3] (Some [4; 3; 8; 7; 9]) (Some [-4; 77; -9]) (Some [4; 77; 9]) (Some [1; 77; 5]) None).
Proof.
  split; [repeat split|]. split; [|reflexivity].
  intros r c v H. cbn in H. repeat (destruct H as [E|H]; [injection E as <- <- <-; lia|]). contradiction.
Qed.
