(** * C63: matrices by name, and the converter to binary files *)
From Coq Require Import String.
From Verif Require Import Base Interleave Spec Flat Csr CsrOps Coo BinIO Laplacian MmText MmIo MmLoad MmStore MmSym MmVec MmCases Convert.
Open Scope Z_scope.

(** The name "m": the Laplacian of an m by m by m grid, whatever files there are. *)
Theorem C63_size {V} (scan_g : list Z -> option (V * list Z)) (of_ll : Z -> V) (one : V) (recip : V -> V) (decd : list Z -> V) (d di o : V) m : 1 <= m -> int32 m ->
  exists rows, laplacian_rows d o m m m rows /\
  forall R fs base force pad, runtime_ok R -> base = 0 \/ base = 1 ->
  exists A, csr_named scan_g of_ll one recip decd d di o R fs (pr_int m) base force pad = Some A /\ rep true base (m * m * m) rows A /\ diag_described (fun _ => di) base rows A.
Proof. exact (named_size scan_g of_ll one recip decd d di o m). Qed.
Print Assumptions C63_size.

(** A name that ends in ".bin": the matrix of the binary file. *)
Theorem C63_binary {V} (scan_g : list Z -> option (V * list Z)) (of_ll : Z -> V) (one : V) (recip : V -> V) (encd : V -> list Z) (decd : list Z -> V) (d di o : V) :
  (forall v, Zlen (encd v) = 8) -> (forall v, decd (encd v) = v) ->
  forall fs name n rows, bin_name name -> fits_int n rows -> fs name = Some (file_of encd n rows) ->
  forall R base pad, runtime_ok R -> base = 0 \/ base = 1 ->
  exists B, csr_named scan_g of_ll one recip decd d di o R fs name base false pad = Some B /\ rep true base n rows B /\ diag_described recip base rows B.
Proof. exact (named_binary scan_g of_ll one recip encd decd d di o). Qed.
Print Assumptions C63_binary.

(** mtx2bin on a general coordinate file: the binary file read by name gives the
    matrix that the text gives; no other file changes. *)
Theorem C63_convert {V} (scan_g : list Z -> option (V * list Z)) (of_ll : Z -> V) (one : V) (recip : V -> V) (encd : V -> list Z) (decd : list Z -> V) (d di o : V) :
  (forall v, Zlen (encd v) = 8) -> (forall v, decd (encd v) = v) ->
  forall R fs name1 name2 more file b c m n es base,
  runtime_ok R -> text_name name1 -> fs name1 = Some file -> coordinate_file scan_g of_ll one b c [m; n; Zlen es] es file -> kind_ok b c -> c <> Symmetric ->
  0 <= m < 2 ^ 31 -> 0 <= n < 2 ^ 31 -> Zlen es < 2 ^ 31 -> based base m n es -> bin_name name2 ->
  exists rows A fs', csr_named scan_g of_ll one recip decd d di o R fs name1 0 false 1 = Some A /\ rep true 0 n rows A /\ rows_sorted_from (coo_rows m (from_base base es)) rows /\
    mtx2bin scan_g of_ll one recip encd decd d di o R fs true (name1 :: name2 :: more) = Some (0, fs') /\ (forall x, x <> name2 -> fs' x = fs x) /\
    forall R' base' pad, runtime_ok R' -> base' = 0 \/ base' = 1 ->
    exists B, csr_named scan_g of_ll one recip decd d di o R' fs' name2 base' false pad = Some B /\ rep true base' n rows B /\ diag_described recip base' rows B.
Proof. exact (convert_reads scan_g of_ll one recip encd decd d di o). Qed.
Print Assumptions C63_convert.

(** The bytes written for a symmetric file: the entries and their mirror images. *)
Theorem C63_symmetric {V} (scan_g : list Z -> option (V * list Z)) (of_ll : Z -> V) (one : V) (recip : V -> V) (encd : V -> list Z) (decd : list Z -> V) (d di o : V)
  R fs name1 name2 more file b m es :
  runtime_ok R -> text_name name1 -> fs name1 = Some file -> coordinate_file scan_g of_ll one b Symmetric [m; m; Zlen es] es file -> kind_ok b Symmetric ->
  0 <= m -> (forall x y v, In (x, (y, v)) es -> 1 <= x <= m /\ 1 <= y <= m) ->
  let E := from_base 1 es in
  exists rows A, rows_sorted_from (coo_rows m (E ++ mirror_images E)) rows /\ csr_named scan_g of_ll one recip decd d di o R fs name1 0 false 1 = Some A /\ rep true 0 m rows A /\
    mtx2bin scan_g of_ll one recip encd decd d di o R fs true (name1 :: name2 :: more) = Some (0, write_file fs name2 (file_of encd m rows)).
Proof. exact (convert_symmetric scan_g of_ll one recip encd decd d di o R fs name1 name2 more file b m es). Qed.
Print Assumptions C63_symmetric.
Example C63_convert_ex : coordinate_file scan_num (fun x => x) 1 Integer General [2; 3; 2] [(1, (3, 7)); (2, (1, -5))] f_general /\
  runtime_ok zrun /\ text_name (str "a.mtx") /\ bin_name (str "a.bin") /\ (forall v, Zlen (zenc v) = 8) /\ (forall v, zdec (zenc v) = v).
Proof. exact (conj file_general (conj zrun_ok (conj name_text (conj name_bin zenc_ok)))). Qed.
Example C63_convert_run : reads (zconvert (one_file (str "a.mtx") f_general) true [str "a.mtx"; str "a.bin"]) (str "a.bin") =
  Some (0, Some (file_of zenc 3 [[(2, 7)]; [(0, -5)]])).
Proof. exact convert_case. Qed.

(** An array: the number of rows and the first column; when the output cannot be
    opened the result is -1. *)
Theorem C63_array {V} (scan_g : list Z -> option (V * list Z)) (of_ll : Z -> V) (one : V) (recip : V -> V) (encd : V -> list Z) (decd : list Z -> V) (d di o : V)
  R fs name1 name2 more file b c m n xs :
  runtime_ok R -> fs name1 = Some file -> array_file scan_g b c m n xs file -> b <> Pattern -> ~ (b = Real /\ c = Hermitian) -> 0 <= m <= Zlen xs ->
  mtx2bin scan_g of_ll one recip encd decd d di o R fs true (name1 :: name2 :: more) = Some (0, write_file fs name2 (enc32 m ++ concat (map encd (slice xs 0 m)))) /\
  mtx2bin scan_g of_ll one recip encd decd d di o R fs false (name1 :: name2 :: more) = Some (-1, fs).
Proof. exact (convert_array scan_g of_ll one recip encd decd d di o R fs name1 name2 more file b c m n xs). Qed.
Print Assumptions C63_array.
Example C63_array_ex : array_file scan_num Integer General 3 1 [4; 5; 6] f_column /\
  reads (zconvert (one_file (str "v.mtx") f_column) true [str "v.mtx"; str "v.bin"]) (str "v.bin") = Some (0, Some (enc32 3 ++ zenc 4 ++ zenc 5 ++ zenc 6)).
Proof. exact (conj file_column convert_column). Qed.

(** C63, refuted: the result 0 does not mean that a file was written. *)
Theorem C63_unopened_refuted {V} (scan_g : list Z -> option (V * list Z)) (of_ll : Z -> V) (one : V) (recip : V -> V) (encd : V -> list Z) (decd : list Z -> V) (d di o : V)
  R fs name1 name2 more file b c m n es base :
  runtime_ok R -> text_name name1 -> fs name1 = Some file -> coordinate_file scan_g of_ll one b c [m; n; Zlen es] es file -> kind_ok b c -> c <> Symmetric ->
  0 <= m -> 0 <= n -> based base m n es -> mtx2bin scan_g of_ll one recip encd decd d di o R fs false (name1 :: name2 :: more) = Some (0, fs).
Proof. exact (convert_unopened scan_g of_ll one recip encd decd d di o R fs name1 name2 more file b c m n es base). Qed.
Print Assumptions C63_unopened_refuted.

(** C63, refuted: arrays of two columns that differ in the second become the same
    file. *)
Theorem C63_columns_refuted : array_file scan_num Integer General 2 2 [1; 2; 3; 4] f_array /\ array_file scan_num Integer General 2 2 [1; 2; 8; 9] f_array2 /\
  reads (zconvert (one_file (str "v.mtx") f_array) true [str "v.mtx"; str "v.bin"]) (str "v.bin") =
  reads (zconvert (one_file (str "v.mtx") f_array2) true [str "v.mtx"; str "v.bin"]) (str "v.bin").
Proof. exact columns_lost. Qed.
Print Assumptions C63_columns_refuted.

(** C63, refuted: an array file that ends early is converted without complaint;
    uninitialised numbers (1001 and 1002 here) are written. *)
Theorem C63_cut_refuted : reads (zconvert (one_file (str "v.mtx") f_cut_column) true [str "v.mtx"; str "v.bin"]) (str "v.bin") =
  Some (0, Some (enc32 3 ++ zenc 4 ++ zenc 1001 ++ zenc 1002)).
Proof. exact cut_written. Qed.
Print Assumptions C63_cut_refuted.

(** C63, refuted: a file whose name is a number is not read; a converted file whose
    name does not end in ".bin" cannot be read back; a missing input is undefined. *)
Theorem C63_names_refuted :
  option_map (fun A => (cm A, cn A)) (znamed (one_file (str "2") f_general) (str "2") 0 false 1) = Some (8, 8) /\
  (exists fs', zconvert (one_file (str "a.mtx") f_general) true [str "a.mtx"; str "a.out"] = Some (0, fs') /\ znamed fs' (str "a.out") 0 false 1 = None) /\
  zconvert (fun _ => None) true [str "a.mtx"; str "a.bin"] = None.
Proof. exact (conj (proj1 number_name) (conj other_name missing_input)). Qed.
Print Assumptions C63_names_refuted.
