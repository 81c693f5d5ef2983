(** Property C10: transpose. *)
From Coq Require Import Permutation.
From Verif Require Import Base Spec Flat Csr Transpose.

(** For every matrix, base, thread count, interleaving and uninitialised memory
    the call succeeds and gives row [c] = column [c] by increasing row, equal
    positions in storage order.  The right-hand side mentions neither the thread
    count, nor the interleaving, nor the junk. *)
Theorem C10_transpose : forall V hasv base n (rows : rows_t V) (A : csr V) T sch j,
  rep hasv base n rows A -> rows_ok n rows -> 0 <= base -> 1 <= n -> 1 <= T ->
  tj_ok n T (Zlen (concat rows)) j ->
  exists AT, transpose A T sch j = Some AT /\
    rep hasv base (Zlen rows) (transpose_rows n rows) AT /\
    extptr AT = None /\ idiag AT = None /\ diag AT = None /\
    match diagptr A with
    | None => diagptr AT = None
    | Some _ => exists d, diagptr AT = Some d /\ diag_pointers base (transpose_rows n rows) (tj_diag j) d
    end.
Proof. exact @transpose_ok. Qed.
Print Assumptions C10_transpose.

(** Exactly the swapped entries, with multiplicity. *)
Theorem C10_entries : forall V n (rows : rows_t V),
  0 <= n -> rows_ok n rows -> Permutation (entries (transpose_rows n rows)) (map swap_entry (entries rows)).
Proof. exact @transpose_entries. Qed.
Print Assumptions C10_entries.

(** Sorted rows. *)
Theorem C10_sorted : forall V n (rows : rows_t V), rows_sorted (transpose_rows n rows).
Proof. exact @transpose_sorted. Qed.
Print Assumptions C10_sorted.

(** Twice: the same arrays, if the rows were sorted. *)
Theorem C10_involution : forall V hasv base n (rows : rows_t V) (A : csr V) T sch j T' sch' j' AT,
  rep hasv base n rows A -> rows_ok n rows -> rows_sorted rows -> 0 <= base -> 1 <= n -> 1 <= Zlen rows ->
  1 <= T -> tj_ok n T (Zlen (concat rows)) j ->
  1 <= T' -> tj_ok (Zlen rows) T' (Zlen (concat rows)) j' ->
  transpose A T sch j = Some AT ->
  exists ATT, transpose AT T' sch' j' = Some ATT /\
    cm ATT = cm A /\ cn ATT = cn A /\ rowptr ATT = rowptr A /\ colidx ATT = colidx A /\ values ATT = values A.
Proof. exact @transpose_transpose. Qed.
Print Assumptions C10_involution.

(** Without sorted rows, transposing twice sorts each row, stably. *)
Theorem C10_twice : forall V n (rows : rows_t V) i, 0 <= n -> rows_ok n rows -> 0 <= i < Zlen rows ->
  nthl (transpose_rows (Zlen rows) (transpose_rows n rows)) i = CountSort.sort_by_key fst n (nthl rows i).
Proof. exact @transpose_twice. Qed.
Print Assumptions C10_twice.

(** No columns: no row pointers, so the base of the result cannot be read. *)
Theorem C10_no_columns_refuted : forall V (A : csr V) T sch j b nnz,
  getBase A = Some b -> getNnz A = Some nnz -> cn A = 0 ->
  exists AT, transpose A T sch j = Some AT /\ rowptr AT = [] /\ getBase AT = None.
Proof. exact @transpose_no_columns. Qed.
Print Assumptions C10_no_columns_refuted.

(** Two rows, three columns, 1-based, a repeated position and an unsorted row;
    three threads, junk 99. *)
Definition tr_case : csr Z :=
  mkCSR 2 3 [1; 4; 6] [3; 1; 3; 3; 1] (Some [10; 20; 30; 40; 50]) None None (Some [2; 6]) None.
Example C10_case :
  rep true 1 3 [[(2, 10); (0, 20); (2, 30)]; [(2, 40); (0, 50)]] tr_case /\
  tj_ok 3 3 5 (mkTJ (repeat 99 12) (repeat 99 5) (repeat 99 5) (repeat 99 3)) /\
  transpose tr_case 3 (fun k => [2; 1; 0; 1; 2; 0; 0; 1]%nat)
    (mkTJ (repeat 99 12) (repeat 99 5) (repeat 99 5) (repeat 99 3))
  = Some (mkCSR 3 2 [1; 3; 3; 6] [1; 2; 1; 1; 2] (Some [20; 50; 10; 30; 40]) None None (Some [1; 99; 99]) None).
Proof. split; [repeat split|split; [repeat split|vm_compute; reflexivity]]. Qed.
Example C10_no_columns_case :
  transpose (mkCSR 1 0 [0; 0] [] (Some []) None None None None : csr Z) 2 (fun _ => []) (mkTJ [] [] [] [])
  = Some (mkCSR 0 1 [] [] (Some []) None None None None).
Proof. reflexivity. Qed.
