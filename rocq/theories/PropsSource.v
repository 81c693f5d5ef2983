(** * Choosing the source of a large component in RCM: the theorems (C53). *)
From Verif Require Import Base Interleave Spec Csr CsrOps LevelsCsr BitVector Bfs Rcm RcmSource.

(** C53.  The selection of a source returns a node of the component that is
    pseudo-peripheral: some node as far from it as possible has the same
    eccentricity.  It terminates, and only bits of the component change.  For any
    number of threads and any interleaving in each of its searches.  Needed: a
    structurally symmetric pattern, and room in the array of the candidates for the
    last level of a search, once per thread. *)
Theorem C53_source : forall (V : Type) (A : csr V) hasv (rows : rows_t V), rep hasv 0 (Zlen rows) rows A -> rows_ok (Zlen rows) rows -> symmetric_adj (cols_of rows) ->
  forall T, 1 <= T -> T * Zlen rows < INT_MAX -> forall g, (forall v, In v g -> 0 <= v < Zlen rows) -> (forall u, In u g -> degree rows u < INT_MAX) ->
  (forall s v, In s g -> (In v g <-> reach (cols_of rows) s v)) -> 2 <= T * Zlen rows -> forall bv0, Zlen rows <= Zlen bv0 -> cand_room (cols_of rows) (Zlen rows) T g ->
  forall who ex, (forall i, 0 <= who i < T) -> g <> [] -> (forall k, exec_ok T (fst (ex k)) /\ forall j, exec_ok T (snd (ex k) j)) -> all_clear g bv0 ->
  exists s bv, selectSources A T who ex g bv0 = Some (s, bv) /\ In s g /\ pseudo_peripheral (cols_of rows) s /\ same_out g bv0 bv.
Proof. exact @selectSources_ok. Qed.
Print Assumptions C53_source.

(** The node it starts from has the smallest degree. *)
Theorem C53_min_degree : forall (V : Type) (A : csr V) hasv (rows : rows_t V), rep hasv 0 (Zlen rows) rows A ->
  forall T g, (forall v, In v g -> 0 <= v < Zlen rows) -> (forall u, In u g -> degree rows u < INT_MAX) ->
  forall who, (forall i, 0 <= who i < T) -> g <> [] ->
  exists s, min_degree A T who g = Some s /\ In s g /\ forall u, In u g -> degree rows s <= degree rows u.
Proof. exact @min_degree_ok. Qed.
Print Assumptions C53_min_degree.

(** The hypotheses hold on every path: there the source is one of the two ends. *)
Theorem C53_path : forall m, 3 <= m -> forall (A : csr Z) T who ex bv0, rep true 0 m (path_rows m) A -> 1 <= T -> 2 * T <= m -> T * m < INT_MAX -> (forall i, 0 <= who i < T) ->
  (forall k, exec_ok T (fst (ex k)) /\ forall j, exec_ok T (snd (ex k) j)) -> m <= Zlen bv0 -> (forall v, 0 <= v < m -> bit bv0 v = Some false) ->
  exists s bv, selectSources A T who ex (zrange 0 m) bv0 = Some (s, bv) /\ (s = 0 \/ s = m - 1).
Proof. exact @path_source. Qed.
Print Assumptions C53_path.

Example C53_run : sel_case2_run (fun _ => concat (repeat [0; 1]%nat 20)) = Some (5, repeat 1 6).
Proof. exact sel_case2_result. Qed.

(** Without the room the claim is false: every thread may queue every node of the
    last level, and candidates (m elements) is written behind its end.  The same
    matrix with the threads one after the other is fine. *)
Theorem C53_candidates_refuted : sel_case_run (fun _ => concat (repeat [0; 1; 2]%nat 20)) = None.
Proof. exact sel_case_overrun. Qed.
Print Assumptions C53_candidates_refuted.
Example C53_serial : sel_case_run (fun _ => []) = Some (0, repeat 1 7).
Proof. exact sel_case_serial. Qed.
