(** * Matrix Market files: the theorems (C22, C23, C44, C45). *)
From Coq Require Import String.
From Verif Require Import Base Csr Coo MmText MmIo MmLoad MmSym MmVec MmCases.

(** C22, files without symmetry, from 1 or from 0, with or without exchange of rows
    and columns.  [scan_g] is the conversion of [%lg], [of_ll] the one from integers;
    [j] the contents of the memory allocated.  The sizes are rounded up to multiples
    of [pad].  The result lists the entries of the file, in its order, then a unit
    diagonal in the rows added; nothing is read or written out of bounds.  A file
    counts as numbered from 0 if a coordinate 0 occurs; then no row may be added
    (see C22_zero_based_padded_refuted). *)
Theorem C22_general : forall (V : Type) (scan_g : list Z -> option (V * list Z)) (of_ll : Z -> V) (one : V) fuel sch j b c m0 n0 es file (tr : bool) pad M N base,
  coordinate_file scan_g of_ll one b c [m0; n0; Zlen es] es file -> kind_ok b c -> c <> Symmetric -> mm_junk_ok j -> 0 <= m0 -> 0 <= n0 -> 1 <= pad ->
  let oM := if tr then n0 else m0 in let oN := if tr then m0 else n0 in
  padded pad oM M -> padded pad oN N -> based base m0 n0 es -> (base = 0 -> Z.min M N = Z.min oM oN) ->
  exists C, loadMatrixMarket_ scan_g of_ll one fuel sch j file false false tr pad = Some (false, Some C) /\
    coo_rep M N (from_base base (if tr then flip es else es) ++ unit_diag one (Z.min oM oN) (Z.min M N)) C.
Proof. exact @load_general. Qed.
Print Assumptions C22_general.
Example C22_general_ex : coordinate_file scan_num (fun x => x) 1 Integer General [2; 3; 2] [(1, (3, 7)); (2, (1, -5))] f_general.
Proof. exact file_general. Qed.
Example C22_general_run : zload f_general false false 1 = Some (false, Some (mkCOO 2 3 2 [1; 2] [3; 1] [7; -5])).
Proof. exact general_case. Qed.
Example C22_padded_run : zload f_general false false 4 = Some (false, Some (mkCOO 4 4 4 [1; 2; 3; 4] [3; 1; 3; 4] [7; -5; 1; 1])).
Proof. exact padded_case. Qed.
Example C22_transposed_run : zloadT f_general false 1 = Some (false, Some (mkCOO 3 2 2 [3; 1] [1; 2] [7; -5])).
Proof. exact transposed_case. Qed.
Example C22_zero_based_run : zload f_zero false false 1 = Some (false, Some (mkCOO 2 3 2 [1; 2] [3; 1] [7; -5])).
Proof. exact zero_based_case. Qed.

(** C22, symmetric files and forced symmetry, for a square matrix numbered from 1.
    After the entries and the added diagonal come the mirror images of the
    off-diagonal entries whose mirror position is not listed. *)
Theorem C22_symmetric : forall (V : Type) (scan_g : list Z -> option (V * list Z)) (of_ll : Z -> V) (one : V) fuel sch j b c m0 es file (wasSym force tr : bool) pad M,
  coordinate_file scan_g of_ll one b c [m0; m0; Zlen es] es file -> kind_ok b c -> (force = true \/ c = Symmetric) -> tr && force = false ->
  mm_junk_ok j -> 0 <= m0 -> 1 <= pad -> padded pad m0 M -> (forall x y v, In (x, (y, v)) es -> 1 <= x <= m0 /\ 1 <= y <= m0) -> (m0 < M -> es <> []) ->
  exists C, loadMatrixMarket_ scan_g of_ll one fuel sch j file wasSym force tr pad = Some (true, Some C) /\
    let E := from_base 1 (if tr then flip es else es) in coo_rep M M (E ++ unit_diag one m0 M ++ mirror_images E) C.
Proof. exact @load_symmetric. Qed.
Print Assumptions C22_symmetric.
Example C22_symmetric_ex : coordinate_file scan_num (fun x => x) 1 Integer Symmetric [3; 3; 3] [(1, (1, 4)); (2, (1, 7)); (3, (2, 9))] f_symmetric.
Proof. exact file_symmetric. Qed.
Example C22_symmetric_run : zload f_symmetric false false 4 = Some (true, Some (mkCOO 4 4 6 [1; 2; 3; 4; 1; 2] [1; 1; 2; 4; 2; 3] [4; 7; 9; 1; 7; 9])).
Proof. exact symmetric_case. Qed.

(** C22: a file with fewer entries than its header says, or with a coordinate beyond
    the size, is rejected without an access out of bounds. *)
Theorem C22_rejects : forall (V : Type) (scan_g : list Z -> option (V * list Z)) (of_ll : Z -> V) (one : V) fuel sch j b c m0 n0 nnz es file (wasSym force tr : bool) pad M N,
  coordinate_file scan_g of_ll one b c [m0; n0; nnz] es file -> kind_ok b c -> tr && force = false -> mm_junk_ok j -> 0 <= m0 -> 0 <= n0 -> 1 <= pad ->
  let oM := if tr then n0 else m0 in let oN := if tr then m0 else n0 in
  padded pad oM M -> padded pad oN N -> (forall x y v, In (x, (y, v)) es -> 0 <= x /\ 0 <= y) -> Zlen es <= nnz ->
  (Zlen es < nnz \/ exists x y v, In (x, (y, v)) es /\ (m0 < x \/ n0 < y)) ->
  exists s, loadMatrixMarket_ scan_g of_ll one fuel sch j file wasSym force tr pad = Some (s, None).
Proof. exact @load_rejects. Qed.
Print Assumptions C22_rejects.
Example C22_rejects_run : zload f_few false false 1 = Some (false, None) /\ zload f_far false false 1 = Some (false, None).
Proof. exact rejected_case. Qed.

(** C22, refuted: every file with more entries than its header says makes the loader
    store outside its arrays. *)
Theorem C22_too_many_refuted : forall (V : Type) (scan_g : list Z -> option (V * list Z)) (of_ll : Z -> V) (one : V) fuel sch j b c m0 n0 nnz es file (tr : bool),
  coordinate_file scan_g of_ll one b c [m0; n0; nnz] es file -> kind_ok b c -> c <> Symmetric -> mm_junk_ok j -> 0 <= m0 -> 0 <= n0 -> 0 <= nnz < Zlen es ->
  (forall x y v, In (x, (y, v)) es -> x <= m0 /\ y <= n0) ->
  loadMatrixMarket_ scan_g of_ll one fuel sch j file false false tr 1 = None.
Proof. exact @load_overflows. Qed.
Print Assumptions C22_too_many_refuted.
Example C22_too_many_ex : coordinate_file scan_num (fun x => x) 1 Integer General [2; 2; 1] [(1, (1, 5)); (2, (2, 6))] f_many.
Proof. exact file_many. Qed.

(** C22, refuted: a negative row, and in a file numbered from 0 a row equal to the
    size, are accepted; the result has rows outside the matrix. *)
Theorem C22_range_refuted : zload f_negative false false 1 = Some (false, Some (mkCOO 2 2 1 [-1] [1] [5])) /\
  zload f_edge false false 1 = Some (false, Some (mkCOO 2 2 2 [1; 3] [1; 2] [5; 6])).
Proof. exact (conj negative_case edge_case). Qed.
Print Assumptions C22_range_refuted.

(** C22, refuted: padding a file numbered from 0 puts the unit diagonal one row too
    far: rows 4 and 5 of a matrix with 4 rows instead of 3 and 4. *)
Theorem C22_zero_based_padded_refuted : zload f_zero false false 4 = Some (false, Some (mkCOO 4 4 4 [1; 2; 4; 5] [3; 1; 4; 5] [7; -5; 1; 1])).
Proof. exact zero_padded_case. Qed.
Print Assumptions C22_zero_based_padded_refuted.

(** C22, refuted: in a symmetric file numbered from 0 a mirror image can be lost,
    depending on the contents of uninitialised memory: here the image (1, 2) of the
    entry (2, 1). *)
Theorem C22_zero_based_symmetric_refuted : zload f_zero_sym false false 1 = Some (true, Some (mkCOO 3 3 4 [1; 2; 3; 2] [1; 1; 2; 3] [4; 7; 9; 9])).
Proof. exact zero_symmetric_case. Qed.
Print Assumptions C22_zero_based_symmetric_refuted.

(** C22, refuted: accesses out of bounds for a negative row in a symmetric file, a
    banner word of 64 characters or more, a general file loaded into an object that
    held a symmetric matrix, an empty symmetric file with padding, and forced symmetry
    of a matrix with more columns than rows. *)
Theorem C22_unsafe_refuted : zload f_negative_sym false false 1 = None /\ zload f_word false false 1 = None /\ zload f_lower true false 1 = None /\
  zload f_empty_sym false false 4 = None /\ zload f_wide false true 1 = None.
Proof. exact unsafe_cases. Qed.
Print Assumptions C22_unsafe_refuted.
Example C22_reload_ex : zload f_lower false false 1 = Some (false, Some (mkCOO 2 2 1 [2] [1] [5])).
Proof. exact lower_case. Qed.

(** C22, refuted: the loader does not end on a file without a number in its size line
    and the line after it. *)
Theorem C22_hang_refuted : forall fuel sch j, loadMatrixMarket_ scan_num (fun x => x) 1 fuel sch j f_hang false false false 1 = None.
Proof. exact hang_case. Qed.
Print Assumptions C22_hang_refuted.

(** C23: what mm_write_banner prints for a type code is read back as the same code,
    whatever follows in the file. *)
Theorem C23_round_trip : forall t rc text f, mm_write_banner t = Some (rc, text) -> mm_read_banner (text ++ f) = Some (0, t, f).
Proof. exact banner_round_trip. Qed.
Print Assumptions C23_round_trip.

(** C23: the codes that can be printed are those of the format. *)
Theorem C23_printable : forall t, (exists rc text, mm_write_banner t = Some (rc, text)) <-> exists a b c, t = code a b c.
Proof. exact write_banner_defined. Qed.
Print Assumptions C23_printable.

(** C23: a banner line is read whatever the case of its words and the blanks between
    them. *)
Theorem C23_any_case : forall a b c l f, banner_line a b c l -> mm_read_banner (l ++ NL :: f) = Some (0, code a b c, f).
Proof. exact read_banner_line. Qed.
Print Assumptions C23_any_case.
Example C23_any_case_ex : banner_line Array Complex Hermitian (str "%%MatrixMarket matrix array complex hermitian").
Proof. exact (printed_banner Array Complex Hermitian). Qed.

(** C23: a banner is accepted only if its words are words of the format. *)
Theorem C23_known_words : forall f t r, mm_read_banner f = Some (0, t, r) ->
  exists a b c line w0 w1 w2 w3 w4, f = line ++ r /\ starts_with_words [w0; w1; w2; w3; w4] (cstr line) /\ prefixb (str "%%MatrixMarket") w0 = true /\
    spelled "matrix" w1 /\ spelled (format_word a) w2 /\ spelled (data_word b) w3 /\ spelled (storage_word c) w4 /\ t = code a b c.
Proof. exact read_banner_words. Qed.
Print Assumptions C23_known_words.

(** C44, refuted: the writers of the banner and of the size line always return the
    error code 17 (MM_COULD_NOT_WRITE_FILE), though they write. *)
Theorem C44_refuted : (forall t rc out, mm_write_banner t = Some (rc, out) -> rc = 17) /\
  (forall M N, fst (mm_write_mtx_array_size M N) = 17) /\ (forall M N nz, fst (mm_write_mtx_crd_size M N nz) = 17).
Proof. exact writers_fail. Qed.
Print Assumptions C44_refuted.

(** C45, one column: element (i, 0) of the file is at position i. *)
Theorem C45_column : forall (V : Type) (scan_g : list Z -> option (V * list Z)) fuel junk b c m xs file, array_file scan_g b c m 1 xs file -> b <> Pattern -> ~ (b = Real /\ c = Hermitian) ->
  (forall k, 0 <= k -> Zlen (junk k) = k) -> 0 <= m -> Zlen xs = m ->
  exists v, loadVectorMatrixMarket scan_g fuel junk file = Some (Some (m, 1, v)) /\ Zlen v = m /\ forall i, 0 <= i < m -> get v i = array_element m xs i 0.
Proof. exact @load_column_ok. Qed.
Print Assumptions C45_column.
Example C45_column_ex : array_file scan_num Integer General 3 1 [4; 5; 6] f_column.
Proof. exact file_column. Qed.

(** C45, any number of columns: the numbers are stored in the order of the file. *)
Theorem C45_file_order : forall (V : Type) (scan_g : list Z -> option (V * list Z)) fuel junk b c m n xs file, array_file scan_g b c m n xs file -> b <> Pattern -> ~ (b = Real /\ c = Hermitian) ->
  (forall k, 0 <= k -> Zlen (junk k) = k) -> 0 <= m -> 1 <= n -> Zlen xs = m * n -> loadVectorMatrixMarket scan_g fuel junk file = Some (Some (m, n, xs)).
Proof. exact @load_vector_ok. Qed.
Print Assumptions C45_file_order.
Example C45_file_order_ex : array_file scan_num Integer General 2 2 [1; 2; 3; 4] f_array.
Proof. exact file_array. Qed.

(** C45, refuted for two columns: the format lists an array by columns, the code
    addresses it by rows (row i, column j at i*n + j): it has 2 where the file has 3. *)
Theorem C45_refuted : exists fuel junk file xs v, array_file scan_num Integer General 2 2 xs file /\ Zlen xs = 2 * 2 /\ (forall k, 0 <= k -> Zlen (junk k) = k) /\
  loadVectorMatrixMarket scan_num fuel junk file = Some (Some (2, 2, v)) /\ get v (0 * 2 + 1) = Some 2 /\ array_element 2 xs 0 1 = Some 3.
Proof. exact array_transposed. Qed.
Print Assumptions C45_refuted.

(** C45, refuted for no column: a number is stored in front of the array. *)
Theorem C45_no_column_refuted : let load := loadVectorMatrixMarket scan_num 10 (fun k => repeat 0 (Z.to_nat k)) in
  load f_column = Some (Some (3, 1, [4; 5; 6])) /\ load f_array = Some (Some (2, 2, [1; 2; 3; 4])) /\ load f_no_column = None.
Proof. exact array_cases. Qed.
Print Assumptions C45_no_column_refuted.
