(** * Binary files: the theorems (C20, C21). *)
From Verif Require Import Base Interleave Spec Flat Csr CsrOps BinIO.

(** C20.  The file written by storeBin determines the matrix: whatever the base of
    the stored matrix, the base asked for when loading, the order of the parallel
    loops and the previous contents of memory, loading it gives the same shape and
    rows, diagptr, diag and idiag describing the diagonal, and storing changes
    nothing. *)
Theorem C20_round_trip : forall (V : Type) (encd : V -> list Z) (decd : list Z -> V) (inv : V -> V),
  (forall v, Zlen (encd v) = 8) -> (forall v, decd (encd v) = v) ->
  forall base n rows (A : csr V) s1 s2, rep true base n rows A -> diagptr_len A -> base = 0 \/ base = 1 -> fits_int n rows ->
  exists f, storeBin encd A s1 s2 true = Some (Some f, A) /\
  forall base' s3 s4 jd jv ji, base' = 0 \/ base' = 1 -> (forall k, 0 <= k -> Zlen (jd k) = k /\ Zlen (jv k) = k /\ Zlen (ji k) = k) ->
  exists B, loadBin decd inv f base' s3 s4 jd jv ji = Some B /\ rep true base' n rows B /\ extptr B = None /\ diag_described inv base' rows B.
Proof. exact @bin_round_trip. Qed.
Print Assumptions C20_round_trip.

Example C20_case : (rep true 1 3 bin_rows bin_matrix /\ diagptr_len bin_matrix /\ fits_int 3 bin_rows) /\ ((forall v, Zlen (enc8 v) = 8) /\ forall v, dec8 (enc8 v) = v).
Proof. exact (conj bin_matrix_ok enc8_ok). Qed.
Example C20_run : loadBin dec8 Z.opp bin_file 1 (fun _ => []) (fun _ => []) junk junk junk =
  Some (mkCSR 3 3 [1; 3; 3; 5] [1; 3; 2; 3] (Some [5; 7; 3; 9]) (Some [-5; -1; -9]) (Some [5; -1; 9]) (Some [1; 0; 4]) None).
Proof. exact bin_load_run. Qed.

(** Two matrices with the same file have the same shape and rows. *)
Theorem C20_injective : forall (V : Type) (encd : V -> list Z) (decd : list Z -> V) (inv : V -> V),
  (forall v, Zlen (encd v) = 8) -> (forall v, decd (encd v) = v) ->
  forall n1 n2 (r1 r2 : rows_t V), fits_int n1 r1 -> fits_int n2 r2 -> file_of encd n1 r1 = file_of encd n2 r2 -> n1 = n2 /\ r1 = r2.
Proof. exact @file_inj. Qed.
Print Assumptions C20_injective.

(** The file ID plays no part: the file is loaded the same with any other. *)
Theorem C20_wrong_id_accepted : forall (V : Type) (decd : list Z -> V) (inv : V -> V) id id' f base s1 s2 jd jv ji, int32 id -> int32 id' ->
  loadBin decd inv (enc32 id ++ f) base s1 s2 jd jv ji = loadBin decd inv (enc32 id' ++ f) base s1 s2 jd jv ji.
Proof. exact @wrong_id_accepted. Qed.
Print Assumptions C20_wrong_id_accepted.

(** A file whose row lengths exceed its number of entries makes loadBin read out
    of bounds. *)
Theorem C20_bad_file_refuted : forall s1 s2 jd jv ji, loadBin dec8 Z.opp bad_file 0 s1 s2 jd jv ji = None.
Proof. exact bad_file_out_of_bounds. Qed.
Print Assumptions C20_bad_file_refuted.

(** C21.  When the file cannot be opened a 0-based matrix is left alone… *)
Theorem C21_fail_base0 : forall (V : Type) (encd : V -> list Z) n rows (A : csr V) s1 s2,
  rep true 0 n rows A -> storeBin encd A s1 s2 false = Some (None, A).
Proof. exact @store_fail_base0. Qed.
Print Assumptions C21_fail_base0.
(** … and every 1-based matrix is left 0-based. *)
Theorem C21_fail_base1_refuted : forall (V : Type) (encd : V -> list Z) n rows (A : csr V) s1 s2,
  rep true 1 n rows A -> diagptr_len A -> exists A', storeBin encd A s1 s2 false = Some (None, A') /\ rep true 0 n rows A' /\ A' <> A.
Proof. exact @store_fail_base1. Qed.
Print Assumptions C21_fail_base1_refuted.
Example C21_case : rep true 1 3 bin_rows bin_matrix /\ diagptr_len bin_matrix /\ fits_int 3 bin_rows.
Proof. exact bin_matrix_ok. Qed.
