(** * C64: the average width of the rows; C65: the printed matrix *)
From Verif Require Import Base Spec Flat Csr CsrTools CsrOps LevelsCsr MmText Width.
Open Scope Z_scope.

(** The sum of the widths over the number of rows, for any number of threads and any
    order of the additions, with and without the promise of sorted rows. *)
Theorem C64_average {V D} (base n : Z) (rows : rows_t V) (A : csr V) (hasv : bool) :
  rep hasv base n rows A -> rows_ok n rows -> base = 0 \/ base = 1 -> n <= INT_MAX ->
  forall (quot : Z -> Z -> D) sorted T own sch, 1 <= T -> Zlen rows <= INT_MAX -> (sorted = true -> rows_sorted rows /\ forall i, 0 <= own i < T) ->
  exists ws, Forall2 width_of rows ws /\ getAverageWidth quot A sorted T own sch = Some (quot (zsum ws) (Zlen rows)).
Proof. exact (average_width base n rows A hasv). Qed.
Print Assumptions C64_average.
Example C64_any_ex : rep true 1 4 w_rows (csr_of 1 4 w_rows) /\ rows_ok 4 w_rows /\
  getAverageWidth pair (csr_of 1 4 w_rows) false 2 (fun i => i mod 2) [1%nat] = Some (5, 4).
Proof. exact width_case. Qed.
Example C64_sorted_ex : let rows := removelast w_rows in rep true 1 4 rows (csr_of 1 4 rows) /\ rows_sorted rows /\
  getAverageWidth pair (csr_of 1 4 rows) true 2 (fun i => i mod 2) [1%nat] = Some (2, 3).
Proof. exact width_sorted_case. Qed.

(** C64, refuted: with rows out of order and the promise that they are sorted, the
    sum goes below zero and wraps around. *)
Theorem C64_unsorted_refuted : let rows := [[(3, 1); (0, 2)]] in rep true 0 4 rows (csr_of 0 4 rows) /\ rows_ok 4 rows /\
  getAverageWidth pair (csr_of 0 4 rows) true 1 (fun _ => 0) [] = Some (18446744073709551613, 1) /\
  getAverageWidth pair (csr_of 0 4 rows) false 1 (fun _ => 0) [] = Some (3, 1).
Proof. exact width_wraps. Qed.
Print Assumptions C64_unsorted_refuted.

(** print writes one line for each entry, row by row, numbered as stored. *)
Theorem C65_print {V} (pr_v : V -> list Z) base n rows (A : csr V) : rep true base n rows A ->
  csr_print pr_v A = Some (concat (map (print_line pr_v base) (entries rows))).
Proof. exact (print_ok pr_v base n rows A). Qed.
Print Assumptions C65_print.
Example C65_print_ex : csr_print pr_int (csr_of 1 4 w_rows) =
  Some (concat (map (fun l => concat (map (fun x => pr_int x ++ [32]) (removelast l)) ++ pr_int (last l 0) ++ [NL]) [[1; 4; 7]; [3; 1; 8]; [3; 2; 9]; [3; 3; 6]; [4; 4; 1]; [4; 1; 2]])).
Proof. exact print_case. Qed.
