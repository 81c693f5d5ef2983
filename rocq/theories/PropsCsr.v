(** Properties C07, C11, C12, C41, C42, C48, C49: small CSR operations. *)
From Verif Require Import Base Spec Flat Csr CsrOps.

(** ** C07: index base *)
Theorem C07_make0 : forall V hasv n (rows : rows_t V) A sch, rep hasv 1 n rows A -> diagptr_len A ->
  exists A', make0Based A sch = Some A' /\ rep hasv 0 n rows A' /\
    values A' = values A /\ idiag A' = idiag A /\ diag A' = diag A /\ extptr A' = extptr A /\
    diagptr A' = option_map (map (fun x => x - 1)) (diagptr A).
Proof. exact @make0_ok. Qed.
Print Assumptions C07_make0.
Theorem C07_make1 : forall V hasv n (rows : rows_t V) A sch, rep hasv 0 n rows A -> diagptr_len A ->
  exists A', make1Based A sch = Some A' /\ rep hasv 1 n rows A' /\
    values A' = values A /\ idiag A' = idiag A /\ diag A' = diag A /\ extptr A' = extptr A /\
    diagptr A' = option_map (map (fun x => x + 1)) (diagptr A).
Proof. exact @make1_ok. Qed.
Print Assumptions C07_make1.
Theorem C07_idempotent : forall V hasv base n (rows : rows_t V) A sch, rep hasv base n rows A ->
  (base = 0 -> make0Based A sch = Some A) /\ (base = 1 -> make1Based A sch = Some A).
Proof. exact @make_idempotent. Qed.
Print Assumptions C07_idempotent.
Theorem C07_make1_make0 : forall V hasv n (rows : rows_t V) A A' sch sch', rep hasv 0 n rows A -> diagptr_len A ->
  make1Based A sch = Some A' -> make0Based A' sch' = Some A.
Proof. exact @make1_make0. Qed.
Print Assumptions C07_make1_make0.
Theorem C07_make0_make1 : forall V hasv n (rows : rows_t V) A A' sch sch', rep hasv 1 n rows A -> diagptr_len A ->
  make0Based A sch = Some A' -> make1Based A' sch' = Some A.
Proof. exact @make0_make1. Qed.
Print Assumptions C07_make0_make1.
(** The local part of the rows is not preserved when there is an extptr. *)
Theorem C07_extptr_refuted : exists A',
  rep true 0 2 [[(0, 7); (1, 8)]] ext_matrix /\ local_rows 0 [[(0, 7); (1, 8)]] ext_matrix [[(0, 7)]] /\
  make1Based ext_matrix (fun _ => []) = Some A' /\ ~ local_rows 1 [[(0, 7); (1, 8)]] A' [[(0, 7)]].
Proof. exact make1_ext_refuted. Qed.
Print Assumptions C07_extptr_refuted.
Example C07_case :
  rep true 0 2 [[(1, 7)]; [(0, 8); (1, 9)]] (mkCSR 2 2 [0; 1; 3] [1; 0; 1] (Some [7; 8; 9]) None None (Some [0; 2]) None) /\
  make1Based (mkCSR 2 2 [0; 1; 3] [1; 0; 1] (Some [7; 8; 9]) None None (Some [0; 2]) None) (fun _ => [1%nat; 0%nat])
  = Some (mkCSR 2 2 [1; 2; 4] [2; 1; 2] (Some [7; 8; 9]) None None (Some [1; 3]) None).
Proof. split; [repeat split|reflexivity]. Qed.

(** ** C11: isSymmetric.  [symmetric lim] ignores columns from [lim] on.  With
    base 0 the limit is m, all local columns; with base 1 the last one is left
    out. *)
Theorem C11_isSymmetric : forall V (neq : V -> V -> bool) hasv base n (rows lrows : rows_t V) A,
  rep hasv base n rows A -> rows_ok n rows -> 0 <= base -> local_rows base rows A lrows ->
  forall cv, (cv = true -> hasv = true) -> forall T sch,
  (cv = true -> forall r, In r lrows -> NoDup (map fst r)) -> 1 <= T ->
  exists b, isSymmetric neq A cv T sch = Some b /\ isSymmetric_print neq A cv = Some b /\
    (b = true <-> (Zlen rows = n \/ extptr A <> None) /\ symmetric neq (Zlen rows - base) cv lrows).
Proof. exact @isSymmetric_ok. Qed.
Print Assumptions C11_isSymmetric.
Theorem C11_base1_refuted :
  rep true 1 2 [[(1, 5)]; []] base1_upper /\ rows_ok 2 [[(1, 5)]; []] /\
  isSymmetric (fun x y => negb (Z.eqb x y)) base1_upper false 1 [] = Some true /\
  ~ symmetric (fun x y => negb (Z.eqb x y)) 2 false [[(1, 5)]; []].
Proof. exact isSymmetric_base1_refuted. Qed.
Print Assumptions C11_base1_refuted.
(** Symmetric pattern, unequal values. *)
Example C11_case :
  let A := mkCSR 3 3 [0; 2; 4; 5] [0; 1; 0; 1; 2] (Some [1; 2; 3; 4; 5]) None None None None in
  rep true 0 3 [[(0, 1); (1, 2)]; [(0, 3); (1, 4)]; [(2, 5)]] A /\
  local_rows 0 [[(0, 1); (1, 2)]; [(0, 3); (1, 4)]; [(2, 5)]] A [[(0, 1); (1, 2)]; [(0, 3); (1, 4)]; [(2, 5)]] /\
  isSymmetric (fun x y => negb (Z.eqb x y)) A false 2 [1%nat; 0%nat] = Some true /\
  isSymmetric (fun x y => negb (Z.eqb x y)) A true 2 [1%nat; 0%nat] = Some false.
Proof. split; [repeat split|]. split; [split; reflexivity|]. split; reflexivity. Qed.

(** ** C12: hasZeroDiag *)
Theorem C12_hasZeroDiag : forall V (is_zero : V -> bool) n (rows : rows_t V) A T sch,
  rep true 0 n rows A -> 1 <= T ->
  exists b, hasZeroDiag is_zero A T sch = Some b /\
    (b = true <-> exists i, 0 <= i < Zlen rows /\ ~ diag_nonzero is_zero rows i).
Proof. exact @hasZeroDiag_ok. Qed.
Print Assumptions C12_hasZeroDiag.
Theorem C12_base1_refuted : hasZeroDiag (Z.eqb 0) base1_diag_matrix 1 [] = None.
Proof. exact hasZeroDiag_base1. Qed.
Print Assumptions C12_base1_refuted.
Example C12_case : rep true 1 2 [[(0, 5)]; [(1, 6)]] base1_diag_matrix /\
  rep true 0 2 [[(0, 5)]; [(1, 0)]] (mkCSR 2 2 [0; 1; 2] [0; 1] (Some [5; 0]) None None None None) /\
  hasZeroDiag (Z.eqb 0) (mkCSR 2 2 [0; 1; 2] [0; 1] (Some [5; 0]) None None None None) 2 [] = Some true /\
  hasZeroDiag (Z.eqb 0) (mkCSR 2 2 [0; 1; 2] [0; 1] (Some [5; 4]) None None None None) 2 [] = Some false.
Proof. split; [repeat split|]. split; [repeat split|]. split; reflexivity. Qed.

(** ** C41: equals *)
Theorem C41_equals : forall V (neq : V -> V -> bool) b1 b2 n1 n2 (r1 r2 : rows_t V) A B,
  rep true b1 n1 r1 A -> rep true b2 n2 r2 B ->
  exists b, equals neq A B = Some b /\ (b = true <-> b1 = b2 /\ n1 = n2 /\ rows_eq neq r1 r2).
Proof. exact @equals_ok. Qed.
Print Assumptions C41_equals.
Theorem C41_equivalence : forall V (neq : V -> V -> bool),
  (forall x, neq x x = false) -> (forall x y, neq x y = false -> neq y x = false) ->
  (forall x y z, neq x y = false -> neq y z = false -> neq x z = false) ->
  (forall b n (r : rows_t V) A, rep true b n r A -> equals neq A A = Some true) /\
  (forall b1 b2 n1 n2 (r1 r2 : rows_t V) A B, rep true b1 n1 r1 A -> rep true b2 n2 r2 B ->
     equals neq A B = Some true -> equals neq B A = Some true) /\
  (forall b1 b2 b3 n1 n2 n3 (r1 r2 r3 : rows_t V) A B C, rep true b1 n1 r1 A -> rep true b2 n2 r2 B -> rep true b3 n3 r3 C ->
     equals neq A B = Some true -> equals neq B C = Some true -> equals neq A C = Some true).
Proof. exact @equals_equivalence. Qed.
Print Assumptions C41_equivalence.
Example C41_case :
  let A v := mkCSR 2 2 [0; 1; 3] [1; 0; 1] (Some [7; 8; v]) None None None None in
  rep true 0 2 [[(1, 7)]; [(0, 8); (1, 9)]] (A 9) /\
  equals (fun x y => negb (Z.eqb x y)) (A 9) (A 9) = Some true /\
  equals (fun x y => negb (Z.eqb x y)) (A 9) (A 10) = Some false.
Proof. split; [repeat split|]. split; reflexivity. Qed.

(** ** C42: bandwidth and degree *)
Theorem C42_bandwidth : forall V hasv base n (rows : rows_t V) A T sch,
  rep hasv base n rows A -> 1 <= T -> concat rows <> [] ->
  exists bw, getBandwidth A T sch = Some bw /\ is_max (widths rows) bw.
Proof. exact @getBandwidth_ok. Qed.
Print Assumptions C42_bandwidth.
Theorem C42_degree : forall V hasv base n (rows : rows_t V) A, rep hasv base n rows A -> rows <> [] ->
  exists d, getMaxDegree A = Some d /\ is_max (map Zlen rows) d.
Proof. exact @getMaxDegree_ok. Qed.
Print Assumptions C42_degree.
Example C42_case :
  let A := mkCSR 3 4 [1; 2; 2; 5] [4; 1; 2; 3] (Some [7; 8; 9; 6]) None None None None in
  rep true 1 4 [[(3, 7)]; []; [(0, 8); (1, 9); (2, 6)]] A /\
  getBandwidth A 2 [1%nat] = Some 3 /\ getMaxDegree A = Some 3.
Proof. split; [repeat split|]. split; reflexivity. Qed.

(** ** C48: copy *)
Theorem C48_copy : forall V hasv base n (rows : rows_t V) (A : csr V) sch j, rep hasv base n rows A ->
  opt_len (idiag A) (cm A) -> opt_len (diag A) (cm A) -> opt_len (diagptr A) (cm A) ->
  cj_ok (cm A) (Zlen (concat rows)) j ->
  csr_copy A sch j = Some (mkCSR (cm A) (cn A) (rowptr A) (colidx A) (values A) (idiag A) (diag A) (diagptr A) None).
Proof. exact @csr_copy_ok. Qed.
Print Assumptions C48_copy.
Theorem C48_extptr_refuted : exists A',
  rep true 0 2 [[(0, 7); (1, 8)]] ext_matrix /\
  csr_copy ext_matrix (fun _ => []) (mkCJ [9; 9] [9; 9] [9; 9] [9] [9] [9]) = Some A' /\
  extptr ext_matrix = Some [1] /\ extptr A' = None.
Proof. exact csr_copy_ext_refuted. Qed.
Print Assumptions C48_extptr_refuted.
Example C48_case : cj_ok 1 2 (mkCJ [9; 9] [9; 9] [9; 9] [9] [9] [9]) /\
  csr_copy (mkCSR 1 2 [1; 3] [1; 2] (Some [7; 8]) (Some [5]) None (Some [1]) None) (fun _ => [])
    (mkCJ [9; 9] [9; 9] [9; 9] [9] [9] [9]) =
  Some (mkCSR 1 2 [1; 3] [1; 2] (Some [7; 8]) (Some [5]) None (Some [1]) None).
Proof. split; [repeat split|reflexivity]. Qed.

(** ** C49: diagonal pointers and inverse diagonal *)
Theorem C49_diagptr : forall V hasv base n (rows : rows_t V) A sch junk, rep hasv base n rows A -> base = 0 \/ base = 1 ->
  rows_sorted rows -> full_diag rows -> Zlen junk = Zlen rows ->
  exists d, constructDiagPtr_ (cm A) (rowptr A) (colidx A) base sch junk = Some d /\ diag_first base rows d.
Proof. exact @constructDiagPtr_ok. Qed.
Print Assumptions C49_diagptr.
Theorem C49_inverse : forall V (recip : V -> V) base n (rows : rows_t V) A sch junkd junki,
  rep true base n rows A -> base = 0 \/ base = 1 ->
  rows_sorted rows -> full_diag rows -> Zlen junkd = Zlen rows -> Zlen junki = Zlen rows ->
  idiag A = None -> (forall d, diagptr A = Some d -> diag_first base rows d) ->
  exists A' id, computeInverseDiag recip A sch junkd junki = Some A' /\ rep true base n rows A' /\ idiag A' = Some id /\
    (exists d, diagptr A' = Some d /\ diag_first base rows d) /\
    Zlen id = Zlen rows /\
    forall i, 0 <= i < Zlen rows -> exists l1 v l2, nthl rows i = l1 ++ (i, v) :: l2 /\
      (forall c w, In (c, w) l1 -> c < i) /\ get id i = Some (recip v).
Proof. exact @computeInverseDiag_ok. Qed.
Print Assumptions C49_inverse.
Example C49_case :
  let A := mkCSR 2 2 [1; 3; 5] [1; 2; 1; 2] (Some [7; 8; 9; 6]) None None None None in
  rep true 1 2 [[(0, 7); (1, 8)]; [(0, 9); (1, 6)]] A /\
  rows_sorted [[(0, 7); (1, 8)]; [(0, 9); (1, 6)]] /\
  computeInverseDiag (fun x => 100 - x) A (fun _ => []) [44; 44] [44; 44] =
    Some (mkCSR 2 2 [1; 3; 5] [1; 2; 1; 2] (Some [7; 8; 9; 6]) (Some [93; 94]) None (Some [1; 4]) None).
Proof.
  split; [repeat split|]. split; [|reflexivity].
  intros r [<-|[<-|[]]]; unfold row_sorted, sortedZ; cbn; repeat constructor; lia.
Qed.
