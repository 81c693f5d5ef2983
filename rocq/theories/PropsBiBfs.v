(** * Breadth-first ordering of a bipartite graph: the theorems (C47). *)
From Verif Require Import Base Interleave Spec PermUtils Flat Csr CsrOps LevelsCsr BitVector Bfs ParBfs BiBfs.

(** C47.  For any matrix and its transpose, of any shape, in either base, with any
    number of threads, any interleaving and any previous memory contents: rowPerm and
    rowInversePerm are inverse permutations of the rows, colPerm and colInversePerm
    of the columns.  Moreover the components follow each other by smallest row, each
    in breadth-first order on both sides, and the empty columns come last.  Needed:
    the matrix has more rows than columns, or no row contains every column. *)
Theorem C47_bipartite : forall (V : Type) (A AT : csr V) hv hw base T (rows trows : rows_t V),
  rep hv base (Zlen trows) rows A -> rep hw base (Zlen rows) trows AT -> rows_ok (Zlen trows) rows -> rows_ok (Zlen rows) trows -> transposed rows trows -> 1 <= T ->
  Zlen trows < Zlen rows \/ (forall r, 0 <= r < Zlen rows -> ~ full_row (Zlen trows) rows r) ->
  forall bsch1 bsch2 bjunk1 bjunk2 ex ex' rperm rinv cperm cinv,
  Zlen bjunk1 = Zlen rows -> Zlen bjunk2 = Zlen trows -> (forall i, Zlen (snd (ex i)) = T - 1) ->
  Zlen rperm = Zlen rows -> Zlen rinv = Zlen rows -> Zlen cperm = Zlen trows -> Zlen cinv = Zlen trows ->
  exists rperm' rinv' cperm' cinv', bfsBipartite A AT T bsch1 bsch2 bjunk1 bjunk2 ex ex' rperm rinv cperm cinv = Some (rperm', rinv', cperm', cinv') /\ bi_result rows trows rperm' rinv' cperm' cinv'.
Proof. exact @bfsBipartite_ok. Qed.
Print Assumptions C47_bipartite.
Example C47_hyps : rep true 1 (Zlen bi_case_t) bi_case (csr_of 1 5 bi_case) /\ rep true 1 (Zlen bi_case) bi_case_t (csr_of 1 4 bi_case_t) /\ rows_ok (Zlen bi_case_t) bi_case /\ rows_ok (Zlen bi_case) bi_case_t /\ transposed bi_case bi_case_t /\
  (Zlen bi_case_t < Zlen bi_case \/ forall r, 0 <= r < Zlen bi_case -> ~ full_row (Zlen bi_case_t) bi_case r).
Proof. exact bi_case_hyps. Qed.
Example C47_ex : bfsBipartite (csr_of 1 5 bi_case) (csr_of 1 4 bi_case_t) 2 [2; 0]%nat [1]%nat [9; 9; 9; 9] [9; 9; 9; 9; 9] bi_ex bi_ex [8; 8; 8; 8] [8; 8; 8; 8] [8; 8; 8; 8; 8] [8; 8; 8; 8; 8] =
  Some ([0; 2; 3; 1], [0; 3; 1; 2], [2; 0; 3; 1; 4], [1; 3; 0; 2; 4]).
Proof. exact bi_case_run. Qed.
(** Without that condition memory is corrupted: the scratch array rowptrs is one
    element too short.  A full 2 by 2 matrix and one thread. *)
Theorem C47_full_row_refuted : exists (A AT : csr Z) rows trows bsch1 bsch2 bjunk1 bjunk2 ex ex' rperm rinv cperm cinv,
  rep true 0 2 rows A /\ rep true 0 2 trows AT /\ rows_ok 2 rows /\ rows_ok 2 trows /\ transposed rows trows /\ Zlen rows = 2 /\ Zlen trows = 2 /\
  Zlen bjunk1 = 2 /\ Zlen bjunk2 = 2 /\ (forall i, Zlen (snd (ex i)) = 0) /\ Zlen rperm = 2 /\ Zlen rinv = 2 /\ Zlen cperm = 2 /\ Zlen cinv = 2 /\
  bfsBipartite A AT 1 bsch1 bsch2 bjunk1 bjunk2 ex ex' rperm rinv cperm cinv = None.
Proof. exact bi_full_witness. Qed.
Print Assumptions C47_full_row_refuted.
