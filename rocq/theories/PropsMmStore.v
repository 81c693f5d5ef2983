(** Property C43: values written to a Matrix Market file and read back. *)
From Coq Require Import String QArith Qpower Qabs.
From Verif Require Import Base Spec Csr Coo MmText MmIo MmLoad MmStore MmFloat MmRound MmTrip MmCrd.
Open Scope Z_scope.

(** ** C43 *)
(** The property as stated is false: no way of reading the texts restores every double. *)
Theorem C43_refuted : ~ exists read : list Z -> Q, forall v, is_double v -> (read (print_g20 v) == dval v)%Q.
Proof. exact no_reader. Qed.
Print Assumptions C43_refuted.
(** The largest double is written as a number that overflows when it is read. *)
Theorem C43_largest_refuted : is_double (2 ^ 53 - 1, 971) /\ print_g (2 ^ 53 - 1, 971) = str "1.797693134862316e+308" /\
  (forall r, delimited r -> scan_dec (print_g (2 ^ 53 - 1, 971) ++ r) = Some (1797693134862316, 293, r)) /\ ~ finite (decval 1797693134862316 293).
Proof. exact largest_text. Qed.
Print Assumptions C43_largest_refuted.

(** What is printed is within half a unit of the 16th digit, and exact for numbers of at most 16 digits. *)
Theorem C43_printed : forall v, exists N x, dec_num (print_g v) N x /\
  (forall Y, ((10 # 1) ^ Y <= Qabs (dval v) < (10 # 1) ^ (Y + 1))%Q -> (Qabs (dval v - decval N x) <= (1 # 2) * (10 # 1) ^ (Y - 15))%Q) /\
  (short v -> (dval v == decval N x)%Q).
Proof. exact print_g_ok. Qed.
Print Assumptions C43_printed.

(** Reading back with a correctly rounded "%lg": numbers of at most 16 digits are
    restored, others up to one unit of the 16th digit. *)
Theorem C43_value : forall rnd v, exists u,
  (forall w r, all_ws w -> delimited r -> scan_lg rnd (skip_ws (w ++ print_g20 v ++ r)) = Some (u, r)) /\
  (nearest rnd -> is_double v -> short v -> (dval u == dval v)%Q) /\
  (nearest rnd -> is_double v -> (Qabs (dval v) <= (10 # 1) ^ 308)%Q -> forall Y, ((10 # 1) ^ Y <= Qabs (dval v) < (10 # 1) ^ (Y + 1))%Q -> (Qabs (dval u - dval v) <= (10 # 1) ^ (Y - 15))%Q).
Proof. exact scan_printed. Qed.
Print Assumptions C43_value.
(** The model of strtod rounds to nearest. *)
Theorem C43_nearest : nearest strtod.
Proof. exact strtod_nearest. Qed.
Print Assumptions C43_nearest.
Example C43_value_case : print_g (7205759403792794, -56) = str "0.1" /\ print_g (-625, 2) = str "-2500" /\ print_g20 (-625, 2) = repeat 32 15 ++ str "-2500" /\
  print_g (3, 100) = str "3.802951800684688e+30" /\ print_g (1, -1074) = str "4.940656458412465e-324" /\
  scan_lg strtod (str "0.1") = Some ((7205759403792794, -56), []) /\ scan_lg strtod (str "3.802951800684688e+30") = Some ((6755399441055744, 49), []) /\
  scan_lg strtod (str "4.940656458412465e-324") = Some ((1, -1074), []) /\ scan_lg strtod (str "-2500 ") = Some ((-5497558138880000, -41), [32]).
Proof. exact print_cases. Qed.

(** A matrix stored and built again from the file, in either base. *)
Theorem C43_csr : forall rnd (of_ll : Z -> dbl) (one : dbl), nearest rnd -> forall (recip : dbl -> dbl) base n rows (A : csr dbl) fuel sch1 sch j ji jd n0 base',
  rep true base n rows A -> rows_ok n rows -> sizes_ok (Zlen rows) n (Zlen (concat rows)) -> mm_junk_ok j -> junk_sizes ji jd ->
  (forall r c v, In r rows -> In (c, v) r -> is_double v) ->
  exists file rows1 rows' A', csr_store print_g20 A = Some file /\
    csr_from_file (scan_lg rnd) of_ll one recip fuel sch1 sch j ji jd n0 file base' false 1 = Some A' /\ rep true base' n rows' A' /\
    rows_sorted_from rows1 rows' /\ ((forall r, In r rows -> ssortedZ (map fst r)) -> rows' = rows1) /\
    ((forall r c v, In r rows -> In (c, v) r -> (Qabs (dval v) <= (10 # 1) ^ 308)%Q) -> rows_rel close_number rows rows1) /\
    ((forall r c v, In r rows -> In (c, v) r -> short v) -> rows_rel same_number rows rows1).
Proof. exact csr_doubles. Qed.
Print Assumptions C43_csr.
Example C43_csr_case : rep true 0 3 trip_rows trip_csr /\ rows_ok 3 trip_rows /\ sizes_ok 2 3 3 /\ mm_junk_ok trip_mmj /\ junk_sizes trip_ji trip_jd /\
  (forall r c v, In r trip_rows -> In (c, v) r -> is_double v /\ (Qabs (dval v) <= (10 # 1) ^ 308)%Q) /\
  csr_store print_g20 trip_csr = Some trip_text /\
  csr_from_file (scan_lg strtod) (fun k => (k, 0)) (1, 0) (fun v => v) 9 [] (fun _ => []) trip_mmj trip_ji trip_jd 0 trip_text 1 false 1 =
    Some (mkCSR 2 3 [1; 3; 4] [1; 3; 2] (Some [(-5497558138880000, -41); (7205759403792794, -56); (6755399441055744, 49)])
      (Some [(-5497558138880000, -41); (6755399441055744, 49)]) (Some [(-5497558138880000, -41); (6755399441055744, 49)]) (Some [1; 3]) None).
Proof. exact trip_case. Qed.
Example C43_short_case : short (-625, 2) /\ short (3, 0).
Proof. exact short_case. Qed.

(** A coordinate list stored and loaded. *)
Theorem C43_coo : forall rnd (of_ll : Z -> dbl) (one : dbl), nearest rnd -> forall m n es (C : coo dbl) fuel sch j,
  coo_rep m n es C -> coo_ok m n es -> sizes_ok m n (Zlen es) -> mm_junk_ok j ->
  (forall e, In e es -> is_double (snd (snd e)) /\ (Qabs (dval (snd (snd e))) <= (10 # 1) ^ 308)%Q) ->
  exists file es' C', coo_store print_g20 C = Some (0, file) /\ loadMatrixMarket (scan_lg rnd) of_ll one fuel sch j file false false 1 = Some (false, Some C') /\ coo_rep m n es' C' /\
    Forall2 (fun e e' : Z * (Z * dbl) => fst e = fst e' /\ fst (snd e) = fst (snd e') /\ close_number (snd (snd e)) (snd (snd e')) /\ (short (snd (snd e)) -> same_number (snd (snd e)) (snd (snd e')))) es es'.
Proof. exact coo_doubles. Qed.
Print Assumptions C43_coo.

(** The text written by mm_write_mtx_crd for each kind of values: the header and one line for each entry. *)
Theorem C43_lines : forall V (pr_v : V -> list Z) d s M N (es : list (Z * Z * V * V)), d = Pattern \/ d = Real \/ d = Complex ->
  mm_write_mtx_crd pr_v M N (Zlen es) (map (fun e => let '(x, _, _, _) := e in x) es) (map (fun e => let '(_, y, _, _) := e in y) es) (crd_values d es) (code Coordinate d s)
  = Some (0, crd_head d s M N (Zlen es) ++ concat (map (crd_line pr_v d) es)).
Proof. exact @crd_text. Qed.
Print Assumptions C43_lines.
Example C43_lines_case : mm_write_mtx_crd pr_int 2 3 2 [1; 2] [3; 1] [4; 5; -6; 7] (code Coordinate Complex Skew) =
  Some (0, str "%%MatrixMarket matrix coordinate complex skew-symmetric" ++ [10] ++ str "2 3 2" ++ [10] ++ str "1 3 4 5" ++ [10] ++ str "2 1 -6 7" ++ [10]).
Proof. exact crd_case. Qed.
