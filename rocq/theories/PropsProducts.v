(** Property C71: products with transposed and permuted matrices; BFSBipartite_test and
    reordering_test as wholes. *)
From Coq Require Import Ring_theory Permutation String.
From Verif Require Import Base Interleave Spec PermUtils Flat Csr CsrTools CsrOps Transpose BinIO MmText MmIo MmLoad MmCases Convert Permute PermuteMain PermuteFacts SpMV Levels LevelsFacts Tasks Components BitVector Bfs ParBfs Rcm BfsPerm ComponentsBv BfsPermWhole RcmPipe RcmSource RcmLarge RcmWhole UnionSome ReorderSome BiBfs FromFile FromFileCases Products ReorderTest ProductsCases.
Open Scope Z_scope.

(** The product with a permuted matrix is the permuted product, number by number in any
    arithmetic, when permute does not sort. *)
Theorem C71_permuted {V} (zero : V) (add sub mul : V -> V -> V) (is0 is1 ism1 : V -> bool) nd hasv base n (rows : rows_t V) A rp ri cp ci T sch j : rep hasv base n rows A -> rows_ok n rows -> 0 <= base -> extptr A = None ->
  inverse_perms (Zlen rows) rp ri -> inverse_perms n cp ci -> (forall d, idiag A = Some d -> Zlen d = Zlen rows) -> (nd = false -> diagptr A <> None -> full_diag rows) -> 1 <= T -> PermuteMain.junk_ok A T j ->
  exists A', permute nd false A cp (Some ri) T sch j = Some A' /\
  forall w w' x x' y y' alpha beta gamma T1 T2 s1 s2 j1 j2, by_perm n cp x x' -> by_perm (Zlen rows) rp y y' -> Zlen w = Zlen rows -> Zlen w' = Zlen rows -> 1 <= T1 -> 1 <= T2 ->
  exists u u', multiplyWithVector zero add sub mul is0 is1 ism1 A w alpha (Own x) beta (Own y) gamma T1 s1 j1 = Some u /\ multiplyWithVector zero add sub mul is0 is1 ism1 A' w' alpha (Own x') beta (Own y') gamma T2 s2 j2 = Some u' /\ by_perm (Zlen rows) rp u u'.
Proof. exact (permuted_product zero add sub mul is0 is1 ism1 nd hasv base n rows A rp ri cp ci T sch j). Qed.
Print Assumptions C71_permuted.

(** In exact arithmetic also when it sorts. *)
Theorem C71_permuted_exact {V} (zero one : V) (add mul sub : V -> V -> V) (opp : V -> V) (RT : ring_theory zero one add mul sub opp (@eq V)) (is0 is1 ism1 : V -> bool) (H0 : forall a, is0 a = true -> a = zero) (H1 : forall a, is1 a = true -> a = one) (Hm1 : forall a, ism1 a = true -> a = opp one) nd sort hasv base n (rows : rows_t V) A rp ri cp ci T sch j : rep hasv base n rows A -> rows_ok n rows -> 0 <= base -> extptr A = None ->
  inverse_perms (Zlen rows) rp ri -> inverse_perms n cp ci -> (sort = true -> hasv = true) -> (forall d, idiag A = Some d -> Zlen d = Zlen rows) -> (nd = false -> diagptr A <> None -> full_diag rows) -> 1 <= T -> PermuteMain.junk_ok A T j ->
  exists A', permute nd sort A cp (Some ri) T sch j = Some A' /\
  forall w w' x x' y y' alpha beta gamma T1 T2 s1 s2 j1 j2, by_perm n cp x x' -> by_perm (Zlen rows) rp y y' -> Zlen w = Zlen rows -> Zlen w' = Zlen rows -> 1 <= T1 -> 1 <= T2 ->
  exists u u', multiplyWithVector zero add sub mul is0 is1 ism1 A w alpha (Own x) beta (Own y) gamma T1 s1 j1 = Some u /\ multiplyWithVector zero add sub mul is0 is1 ism1 A' w' alpha (Own x') beta (Own y') gamma T2 s2 j2 = Some u' /\ by_perm (Zlen rows) rp u u'.
Proof. exact (permuted_product_exact zero one add mul sub opp RT is0 is1 ism1 H0 H1 Hm1 nd sort hasv base n rows A rp ri cp ci T sch j). Qed.
Print Assumptions C71_permuted_exact.

(** The product with the transpose is the adjoint: y . (A x) = x . (AT y). *)
Theorem C71_adjoint {V} (zero one : V) (add mul sub : V -> V -> V) (opp : V -> V) (RT : ring_theory zero one add mul sub opp (@eq V)) (is0 is1 ism1 : V -> bool) (H0 : forall a, is0 a = true -> a = zero) (H1 : forall a, is1 a = true -> a = one) (Hm1 : forall a, ism1 a = true -> a = opp one) hasv base n (rows : rows_t V) (A : csr V) T sch j : rep hasv base n rows A -> rows_ok n rows -> 0 <= base -> 1 <= n -> 1 <= T -> tj_ok n T (Zlen (concat rows)) j ->
  exists AT, transpose A T sch j = Some AT /\
  forall x y w z T1 T2 s1 s2 j1 j2, Zlen x = n -> Zlen y = Zlen rows -> Zlen w = Zlen rows -> Zlen z = n -> 1 <= T1 -> 1 <= T2 ->
  exists u v d, multiplyWithVector1 zero add sub mul is0 is1 ism1 one A w (Own x) T1 s1 j1 = Some u /\ multiplyWithVector1 zero add sub mul is0 is1 ism1 one AT z (Own y) T2 s2 j2 = Some v /\ dotn zero add mul (Zlen rows) y u = Some d /\ dotn zero add mul n x v = Some d.
Proof. exact (adjoint_products zero one add mul sub opp RT is0 is1 ism1 H0 H1 Hm1 hasv base n rows A T sch j). Qed.
Print Assumptions C71_adjoint.

(** BFSBipartite_test: transpose, order rows and columns, permute, transpose again; all four
    products. *)
Theorem C71_bipartite_test {V} (zero one : V) (add mul sub : V -> V -> V) (opp : V -> V) (RT : ring_theory zero one add mul sub opp (@eq V)) (is0 is1 ism1 : V -> bool) (H0 : forall a, is0 a = true -> a = zero) (H1 : forall a, is1 a = true -> a = one) (Hm1 : forall a, ism1 a = true -> a = opp one) nd base n (rows : rows_t V) A T : rep true base n rows A -> rows_ok n rows -> 0 <= base -> 1 <= n -> extptr A = None -> (forall d, idiag A = Some d -> Zlen d = Zlen rows) -> 1 <= T ->
  n < Zlen rows \/ (forall r, 0 <= r < Zlen rows -> ~ full_row n rows r) ->
  forall tsch tj bsch1 bsch2 bjunk1 bjunk2 ex ex' rperm rinv cperm cinv psch pj tsch' tj', tj_ok n T (Zlen (concat rows)) tj ->
  Zlen bjunk1 = Zlen rows -> Zlen bjunk2 = n -> (forall i, Zlen (snd (ex i)) = T - 1) -> Zlen rperm = Zlen rows -> Zlen rinv = Zlen rows -> Zlen cperm = n -> Zlen cinv = n ->
  PermuteMain.junk_ok (free_diagptr A) T pj -> tj_ok n T (Zlen (concat rows)) tj' ->
  exists AT rp ri cp ci A' AT', transpose A T tsch tj = Some AT /\ bfsBipartite A AT T bsch1 bsch2 bjunk1 bjunk2 ex ex' rperm rinv cperm cinv = Some (rp, ri, cp, ci) /\
    inverse_perms (Zlen rows) rp ri /\ inverse_perms n cp ci /\ permute nd false (free_diagptr A) cp (Some ri) T psch pj = Some A' /\ transpose A' T tsch' tj' = Some AT' /\
    forall x x' y y' w w' z z' T1 T2 T3 T4 s1 s2 s3 s4 j1 j2 j3 j4, by_perm n cp x x' -> by_perm (Zlen rows) rp y y' -> Zlen w = Zlen rows -> Zlen w' = Zlen rows -> Zlen z = n -> Zlen z' = n -> 1 <= T1 -> 1 <= T2 -> 1 <= T3 -> 1 <= T4 ->
    exists u u' v v' d, multiplyWithVector1 zero add sub mul is0 is1 ism1 one A w (Own x) T1 s1 j1 = Some u /\ multiplyWithVector1 zero add sub mul is0 is1 ism1 one A' w' (Own x') T2 s2 j2 = Some u' /\ by_perm (Zlen rows) rp u u' /\
      multiplyWithVector1 zero add sub mul is0 is1 ism1 one AT z (Own y) T3 s3 j3 = Some v /\ multiplyWithVector1 zero add sub mul is0 is1 ism1 one AT' z' (Own y') T4 s4 j4 = Some v' /\ by_perm n cp v v' /\ dotn zero add mul (Zlen rows) y u = Some d /\ dotn zero add mul n x v = Some d.
Proof. exact (bipartite_program zero one add mul sub opp RT is0 is1 ism1 H0 H1 Hm1 nd base n rows A T). Qed.
Print Assumptions C71_bipartite_test.

(** reordering_test: a symmetric matrix and any order of it, in particular those of the next
    two theorems.  [reordered_by] (ReorderTest.v): the permuted matrix exists in every execution,
    its bandwidth is the largest distance under the new names, its products are the reordered
    products in any arithmetic.  Without assertions the diagonal may have gaps. *)
Theorem C71_reordering_test {V} (inv : V -> V) base n (rows : rows_t V) (A : csr V) : symmetric_matrix inv base n rows A -> 0 <= base -> forall nd p q, inverse_perms n p q -> (nd = false -> full_diag rows) -> reordered_by nd n rows A p q.
Proof. exact (fun HY Hb => reordered_matrix inv base n rows A HY Hb). Qed.
Print Assumptions C71_reordering_test.

(** With the breadth-first order. *)
Theorem C71_reordering_bfs {V} (inv : V -> V) base n (rows : rows_t V) (A : csr V) : symmetric_matrix inv base n rows A -> 0 <= base -> forall nd, (nd = false -> full_diag rows) -> forall T thr bsch bjunk sch isch junk csch g j levels perm pinv, 1 <= T -> 1 <= n -> 2 <= T * n ->
  Zlen bjunk = n -> (forall c, Zlen (junk c) = T - 1) -> Zlen levels = n -> Zlen perm = n -> Zlen pinv = n -> bv_junk_ok n T g -> Components.junk_ok n T j ->
  exists us cs p q, getBFSPermutation A T thr bsch bjunk sch isch junk (bv_comps A T us cs csch g j) levels perm pinv = Some (p, q) /\ bfs_result rows p q /\ reordered_by nd n rows A p q.
Proof. exact (fun HY Hb => reordering_bfs inv base n rows A HY Hb). Qed.
Print Assumptions C71_reordering_bfs.

(** With reverse Cuthill-McKee. *)
Theorem C71_reordering_rcm {V} (inv : V -> V) base n (rows : rows_t V) (A : csr V) : symmetric_matrix inv base n rows A -> 0 <= base -> forall nd, (nd = false -> full_diag rows) -> forall T srt pd who bj levels perm pinv ps wo s1 s2 csch j bsch sch ex f, base = 0 \/ base = 1 -> 1 <= n ->
  1 <= T -> T * n < INT_MAX -> sorts_by (degree rows) srt -> rcm_room (cols_of rows) n T pd ->
  (forall c, 0 <= who c < T) -> Zlen bj = n -> Zlen levels = n -> Zlen perm = n -> Zlen pinv = n -> Zlen ps = Z.max (T * PAR_THR) n + 1 -> Zlen wo = n + 1 -> Components.junk_ok n T j ->
  (forall c, lx_ok T (ex c)) -> (forall c, fair T (f c)) ->
  exists us cs ks p q, getRCM A T srt pd s1 s2 us cs csch j bsch bj who sch (fun c : Z => with_sched (ex c) (turns (f c) (ks c))) levels perm pinv ps wo = Some (Finished (A, p, q)) /\ rcm_result_from rows pd p q /\ reordered_by nd n rows A p q.
Proof. exact (fun HY Hb => reordering_rcm inv base n rows A HY Hb). Qed.
Print Assumptions C71_reordering_rcm.

(** With assertions, no order of a graph without loops is accepted by permute: the loader
    makes diagptr for every matrix and permute asserts that every row has a diagonal entry. *)
Theorem C71_loopless_graph_refuted  : exists (rows : rows_t Z) A, symmetric_matrix (fun v => v) 0 3 rows A /\ znamed (one_file (str "g.mtx") f_graph) (str "g.mtx") 0 true 1 = Some A /\
  forall p q T sch j, inverse_perms 3 p q -> 1 <= T -> PermuteMain.junk_ok A T j -> permute false false A p (Some q) T sch j = None.
Proof. exact graph_refused. Qed.
Print Assumptions C71_loopless_graph_refuted.

Notation ztimes := (multiplyWithVector1 0 Z.add Z.sub Z.mul (zis 0) (zis 1) (zis (-1)) 1).
Example C71_bipartite_hyps : rep true 1 5 bi_case bi_A /\ rows_ok 5 bi_case /\ (forall d, idiag bi_A = Some d -> Zlen d = 4) /\ (forall r, 0 <= r < 4 -> ~ full_row 5 bi_case r) /\ tj_ok 5 2 4 bi_tj /\ PermuteMain.junk_ok (free_diagptr bi_A) 2 bi_pj /\ (forall i, Zlen (snd (bi_ex i)) = 2 - 1).
Proof. exact bi_program_hyps. Qed.
Example C71_bipartite_run : exists AT A' AT', transpose bi_A 2 (fun _ => [1%nat]) bi_tj = Some AT /\ colidx AT = [3; 1; 1; 4] /\
  permute false false (free_diagptr bi_A) [2; 0; 3; 1; 4] (Some [0; 3; 1; 2]) 2 (fun _ => [1%nat]) bi_pj = Some A' /\ rowptr A' = [1; 3; 4; 4; 5] /\ colidx A' = [1; 2; 2; 3] /\ values A' = Some [5; 6; 8; 7] /\
  transpose A' 2 (fun _ => []) bi_tj = Some AT' /\ colidx AT' = [1; 1; 2; 4] /\ values AT' = Some [5; 6; 8; 7] /\
  ztimes bi_A [0; 0; 0; 0] (Own [1; 2; 3; 4; 5]) 2 (fun _ => []) [] = Some [34; 0; 7; 32] /\
  ztimes A' [9; 9; 9; 9] (Own [2; 4; 1; 3; 5]) 2 (fun _ => [1%nat]) [] = Some [34; 32; 0; 7] /\
  ztimes AT [0; 0; 0; 0; 0] (Own [1; 2; 3; 4]) 2 (fun _ => []) [] = Some [21; 5; 0; 38; 0] /\
  ztimes AT' [0; 0; 0; 0; 0] (Own [1; 4; 2; 3]) 2 (fun _ => []) [] = Some [5; 38; 21; 0; 0] /\
  dotn 0 Z.add Z.mul 4 [1; 2; 3; 4] [34; 0; 7; 32] = Some 183 /\ dotn 0 Z.add Z.mul 5 [1; 2; 3; 4; 5] [21; 5; 0; 38; 0] = Some 183.
Proof. exact bi_program_run. Qed.
Example C71_graph_hyps : symmetric_matrix (fun v => v) 0 3 graph_rows graph_A /\ PermuteMain.junk_ok graph_A 2 graph_junk /\ (forall k v, 0 <= k < 3 -> ~ In (k, v) (nthl graph_rows k)) /\ inverse_perms 3 [0; 2; 1] [0; 2; 1].
Proof. exact graph_symmetric. Qed.
Example C71_graph_run : permute false false graph_A [0; 2; 1] (Some [0; 2; 1]) 2 (fun _ => [1%nat]) graph_junk = None /\ getBandwidth graph_A 2 [] = Some 2 /\
  exists A', permute true false graph_A [0; 2; 1] (Some [0; 2; 1]) 2 (fun _ => [1%nat]) graph_junk = Some A' /\ getBandwidth A' 2 [] = Some 1 /\ diagptr A' = Some [33; 34; 35] /\
    ztimes graph_A [0; 0; 0] (Own [1; 2; 3]) 2 (fun _ => []) [] = Some [12; 15; 14] /\ ztimes A' [0; 0; 0] (Own [1; 3; 2]) 2 (fun _ => []) [] = Some [12; 14; 15].
Proof. exact graph_reordered. Qed.
Example C71_ring : ring_theory 0 1 Z.add Z.mul Z.sub Z.opp (@eq Z).
Proof. exact Z_ring_th. Qed.
