(** * C62: reading whole coordinate files *)
From Coq Require Import String QArith Qabs.
From Verif Require Import Base Spec Csr Coo MmText MmIo MmLoad MmStore MmFloat MmRound MmTrip MmCrd MmRead.
Open Scope Z_scope.

(** mm_read_mtx_crd returns the type, the sizes and the entries of the file. *)
Theorem C62_read {V} (scan_g : list Z -> option (V * list Z)) fuel j d s M N file rest es tl bd t0 :
  crd_kind d s -> crd_junk_ok j -> crd_file d s M N (Zlen es) bd file -> crd_body scan_g d rest (es ++ tl) bd ->
  mm_read_mtx_crd scan_g fuel j (Some file) t0 =
    Some (mkCrd 0 (code Coordinate d s) (Some (M, N, Zlen es)) (Some (map crd_row es)) (Some (map crd_col es)) (match d with Pattern => None | _ => Some (crd_values d es) end)).
Proof. exact (read_crd scan_g fuel j d s M N file rest es tl bd t0). Qed.
Print Assumptions C62_read.

(** A file with too few entries is reported. *)
Theorem C62_short {V} (scan_g : list Z -> option (V * list Z)) fuel j d s M N nz file rest es bd t0 :
  crd_kind d s -> crd_junk_ok j -> crd_file d s M N nz bd file -> crd_body scan_g d rest es bd -> no_number rest -> Zlen es < nz ->
  exists r, mm_read_mtx_crd scan_g fuel j (Some file) t0 = Some r /\ rd_code r = 12.
Proof. exact (read_crd_short scan_g fuel j d s M N nz file rest es bd t0). Qed.
Print Assumptions C62_short.

(** Any bytes: a successful call leaves nothing of the old contents of memory. *)
Theorem C62_no_junk {V} (scan_g : list Z -> option (V * list Z)) fuel j j2 file t0 r :
  (forall k, Zlen (cj_I j k) = Z.max 0 k /\ Zlen (cj_J j k) = Z.max 0 k /\ Zlen (cj_val j k) = Z.max 0 k) ->
  (forall k, Zlen (cj_I j2 k) = Z.max 0 k /\ Zlen (cj_J j2 k) = Z.max 0 k /\ Zlen (cj_val j2 k) = Z.max 0 k) ->
  mm_read_mtx_crd scan_g fuel j file t0 = Some r -> rd_code r = 0 -> tdata (rd_type r) <> 73 -> mm_read_mtx_crd scan_g fuel j2 file t0 = Some r.
Proof. exact (read_crd_indep scan_g fuel j j2 file t0 r). Qed.
Print Assumptions C62_no_junk.

(** What mm_write_mtx_crd writes, mm_read_mtx_crd reads back. *)
Theorem C62_round_trip rnd fuel j d s M N es t0 : nearest rnd -> crd_kind d s -> crd_junk_ok j -> int32 M -> int32 N -> int32 (Zlen es) ->
  Forall (fun e => int32 (crd_row e) /\ int32 (crd_col e)) es -> (forall x y re im, In (x, y, re, im) es -> in_range re /\ in_range im) ->
  exists text es', mm_write_mtx_crd print_g20 M N (Zlen es) (map crd_row es) (map crd_col es) (crd_values d es) (code Coordinate d s) = Some (0, text) /\
    mm_read_mtx_crd (scan_lg rnd) fuel j (Some text) t0 =
      Some (mkCrd 0 (code Coordinate d s) (Some (M, N, Zlen es)) (Some (map crd_row es)) (Some (map crd_col es)) (match d with Pattern => None | _ => Some (crd_values d es') end)) /\
    Forall2 kept_entry es es'.
Proof. exact (write_read_doubles rnd fuel j d s M N es t0). Qed.
Print Assumptions C62_round_trip.

(** mm_read_unsymmetric_sparse returns the entries numbered from 0. *)
Theorem C62_unsymmetric {V} (scan_g : list Z -> option (V * list Z)) fail_g fuel j s M N file rest es tl bd :
  crd_junk_ok j -> crd_file Real s M N (Zlen es) bd file -> crd_body scan_g Real rest (es ++ tl) bd ->
  (forall e, In e es -> - 2 ^ 31 < crd_row e /\ - 2 ^ 31 < crd_col e) ->
  mm_read_unsymmetric_sparse scan_g fail_g fuel j (Some file) =
    Some (0, Some (M, N, Zlen es, crd_values Real es, map (fun e => crd_row e - 1) es, map (fun e => crd_col e - 1) es)).
Proof. exact (read_unsym scan_g fail_g fuel j s M N file rest es tl bd). Qed.
Print Assumptions C62_unsymmetric.

(** Integer files: success, with nothing read. *)
Theorem C62_integer_refuted {V} (scan_g : list Z -> option (V * list Z)) fuel j s M N nz file bd t0 : crd_file Integer s M N nz bd file ->
  mm_read_mtx_crd scan_g fuel j (Some file) t0 = Some (mkCrd 0 (code Coordinate Integer s) (Some (M, N, nz)) (Some (cj_I j nz)) (Some (cj_J j nz)) None).
Proof. exact (read_crd_integer scan_g fuel j s M N nz file bd t0). Qed.
Print Assumptions C62_integer_refuted.

(** A file cut short: mm_read_unsymmetric_sparse reports success. *)
Theorem C62_cut_refuted : option_map (@rd_code dbl) (mm_read_mtx_crd (scan_lg strtod) 9 some_cj (Some cut_file) clear_typecode) = Some 12 /\
  forall fail_g, mm_read_unsymmetric_sparse (scan_lg strtod) fail_g 9 some_cj (Some cut_file) =
    Some (0, Some (2, 2, 2, [(5629499534213120, -50); (7, 7)], [0; 76], [1; 77])).
Proof. exact cut_unnoticed. Qed.
Print Assumptions C62_cut_refuted.

(** A symmetric file: success, with one half of the matrix. *)
Theorem C62_symmetric_refuted : forall fail_g, mm_read_unsymmetric_sparse (scan_lg strtod) fail_g 9 some_cj (Some sym_file) =
    Some (0, Some (2, 2, 1, [(5629499534213120, -50)], [1], [0])).
Proof. exact symmetric_halved. Qed.
Print Assumptions C62_symmetric_refuted.

Example C62_ex : mm_read_mtx_crd (scan_lg strtod) 9 some_cj (Some cplx_text) clear_typecode =
  Some (mkCrd 0 (code Coordinate Complex General) (Some (2, 3, 2)) (Some [1; 2]) (Some [3; 1]) (Some [(-5497558138880000, -41); (4503599627370496, -53); (6755399441055744, -51); (0, 0)])).
Proof. exact cplx_case. Qed.
Example C62_ex_hyp : crd_kind Complex General /\ Forall (fun e => int32 (crd_row e) /\ int32 (crd_col e)) cplx_es /\ (forall x y re im, In (x, y, re, im) cplx_es -> in_range re /\ in_range im) /\
  exists bd file rest es', crd_file Complex General 2 3 2 bd file /\ crd_body (scan_lg strtod) Complex rest es' bd /\ no_number rest /\ map crd_row es' = [1; 2] /\ Zlen es' = 2.
Proof. exact cplx_es_case. Qed.
Example C62_ex_integer : mm_read_mtx_crd (scan_lg strtod) 9 some_cj (Some ints_file) clear_typecode =
  Some (mkCrd 0 (code Coordinate Integer General) (Some (2, 2, 1)) (Some [77]) (Some [78]) None).
Proof. exact integer_unread. Qed.
Example C62_ex_memory : crd_junk_ok some_cj.
Proof. exact some_cj_ok. Qed.
