(** * Worked cases: products with transposed and permuted matrices *)
From Coq Require Import Permutation Sorted String Ring ZArithRing.
From Verif Require Import Base Interleave Spec PermUtils Flat Csr CsrTools CsrOps Coo Transpose BinIO MmText MmIo MmLoad MmCases Convert Permute PermuteMain PermuteFacts SpMV BitVector Bfs BiBfs Levels LevelsFacts LevelsCsr Components BfsPerm FromFile FromFileCases Products ReorderTest.
Open Scope Z_scope.

(** The four by five matrix of C47 (base 1, two threads). *)
Definition zis (k a : Z) : bool := a =? k.
Notation ztimes := (multiplyWithVector1 0 Z.add Z.sub Z.mul (zis 0) (zis 1) (zis (-1)) 1).
Definition bi_A : csr Z := csr_of 1 5 bi_case.
Definition bi_tj : tr_junk Z := mkTJ [7; 7; 7; 7; 7; 7; 7; 7; 7; 7; 7; 7] [6; 6; 6; 6] [5; 5; 5; 5] [4; 4; 4; 4; 4].
Definition bi_pj : PermuteMain.junk Z := PermuteMain.mkJunk [7; 7; 7; 7; 7] [] [7; 7; 7; 7; 7] [7; 7; 7; 7; 7] [] [] [7; 7; 7].
Lemma bi_program_hyps : rep true 1 5 bi_case bi_A /\ rows_ok 5 bi_case /\ (forall d, idiag bi_A = Some d -> Zlen d = 4) /\ (forall r, 0 <= r < 4 -> ~ full_row 5 bi_case r) /\ tj_ok 5 2 4 bi_tj /\ PermuteMain.junk_ok (free_diagptr bi_A) 2 bi_pj /\ (forall i, Zlen (snd (bi_ex i)) = 2 - 1).
Proof.
  destruct bi_case_hyps as (H1 & _ & H3 & _ & _ & H6). split; [exact H1|]. split; [exact H3|]. split; [discriminate|]. split; [destruct H6 as [H6|H6]; [vm_compute in H6; discriminate|exact H6]|].
  split; [repeat split|]. split; [|intros i; reflexivity]. exists 5. split; [reflexivity|]. split; [reflexivity|]. split; [reflexivity|]. split; [intros H; exfalso; now apply H|]. split; [reflexivity|]. split; [intros H; exfalso; now apply H|]. split; [intros H; exfalso; now apply H|]. vm_compute. discriminate.
Qed.
Lemma bi_program_run : exists AT A' AT', transpose bi_A 2 (fun _ => [1%nat]) bi_tj = Some AT /\ colidx AT = [3; 1; 1; 4] /\
  permute false false (free_diagptr bi_A) [2; 0; 3; 1; 4] (Some [0; 3; 1; 2]) 2 (fun _ => [1%nat]) bi_pj = Some A' /\ rowptr A' = [1; 3; 4; 4; 5] /\ colidx A' = [1; 2; 2; 3] /\ values A' = Some [5; 6; 8; 7] /\
  transpose A' 2 (fun _ => []) bi_tj = Some AT' /\ colidx AT' = [1; 1; 2; 4] /\ values AT' = Some [5; 6; 8; 7] /\
  ztimes bi_A [0; 0; 0; 0] (Own [1; 2; 3; 4; 5]) 2 (fun _ => []) [] = Some [34; 0; 7; 32] /\
  ztimes A' [9; 9; 9; 9] (Own [2; 4; 1; 3; 5]) 2 (fun _ => [1%nat]) [] = Some [34; 32; 0; 7] /\
  ztimes AT [0; 0; 0; 0; 0] (Own [1; 2; 3; 4]) 2 (fun _ => []) [] = Some [21; 5; 0; 38; 0] /\
  ztimes AT' [0; 0; 0; 0; 0] (Own [1; 4; 2; 3]) 2 (fun _ => []) [] = Some [5; 38; 21; 0; 0] /\
  dotn 0 Z.add Z.mul 4 [1; 2; 3; 4] [34; 0; 7; 32] = Some 183 /\ dotn 0 Z.add Z.mul 5 [1; 2; 3; 4; 5] [21; 5; 0; 38; 0] = Some 183.
Proof.
  eexists. eexists. eexists. split; [vm_compute; reflexivity|]. split; [reflexivity|]. split; [vm_compute; reflexivity|]. do 3 (split; [reflexivity|]). split; [vm_compute; reflexivity|]. repeat split.
Qed.
Lemma Z_ring_th : ring_theory 0 1 Z.add Z.mul Z.sub Z.opp (@eq Z).
Proof. constructor; intros; ring. Qed.

(** A graph: three vertices, 2 joined to 0 and to 1, no loops.  The file names every edge
    once. *)
Definition f_graph := lines ["%%MatrixMarket matrix coordinate integer symmetric"; "3 3 2"; "3 1 4"; "3 2 5"]%string.
Definition graph_rows : rows_t Z := [[(2, 4)]; [(2, 5)]; [(0, 4); (1, 5)]].
Definition graph_A : csr Z := match znamed (one_file (str "g.mtx") f_graph) (str "g.mtx") 0 true 1 with Some A => A | None => csr_of 0 0 [] end.
Definition graph_junk : PermuteMain.junk Z := PermuteMain.mkJunk [7; 7; 7; 7] [] [7; 7; 7; 7] [7; 7; 7; 7] [7; 7; 7] [33; 34; 35] [7; 7; 7].
Lemma graph_loaded : znamed (one_file (str "g.mtx") f_graph) (str "g.mtx") 0 true 1 = Some graph_A /\ rowptr graph_A = [0; 1; 2; 4] /\ colidx graph_A = [2; 2; 0; 1] /\ values graph_A = Some [4; 5; 4; 5] /\ diagptr graph_A <> None.
Proof. split; [vm_compute; reflexivity|]. split; [vm_compute; reflexivity|]. split; [vm_compute; reflexivity|]. split; [vm_compute; reflexivity|]. vm_compute. discriminate. Qed.
Lemma graph_cols u v : In v (cols_of graph_rows u) -> (u = 0 \/ u = 1) /\ v = 2 \/ u = 2 /\ (v = 0 \/ v = 1).
Proof.
  intros H. assert (Bu : 0 <= u < 3). { destruct (Z_le_dec 0 u); [destruct (Z_lt_dec u 3); [lia|]|]; exfalso; unfold cols_of in H; rewrite nth_out in H by (change (Zlen graph_rows) with 3; lia); contradiction. }
  assert (u = 0 \/ u = 1 \/ u = 2) as [-> | [-> | ->]] by lia; [change (In v [2]) in H|change (In v [2]) in H|change (In v [0; 1]) in H]; cbn [In] in H; lia.
Qed.
Lemma graph_symmetric : symmetric_matrix (fun v => v) 0 3 graph_rows graph_A /\ PermuteMain.junk_ok graph_A 2 graph_junk /\ (forall k v, 0 <= k < 3 -> ~ In (k, v) (nthl graph_rows k)) /\ inverse_perms 3 [0; 2; 1] [0; 2; 1].
Proof.
  assert (NL : forall k v, 0 <= k < 3 -> ~ In (k, v) (nthl graph_rows k)).
  { intros k v Hk H. assert (X : In k (cols_of graph_rows k)) by (apply in_map_iff; exists (k, v); auto). apply graph_cols in X. lia. }
  split; [|split; [|split; [exact NL|]]].
  - constructor.
    + vm_compute. repeat split.
    + reflexivity.
    + apply rows_ok_check. reflexivity.
    + intros r Hr. cbn in Hr. repeat (destruct Hr as [<-|Hr]; [unfold row_sorted, sortedZ; cbn [map fst]; repeat constructor; lia|]). contradiction.
    + vm_compute. reflexivity.
    + eexists. eexists. eexists. split; [vm_compute; reflexivity|]. split; [vm_compute; reflexivity|]. split; [vm_compute; reflexivity|]. do 3 (split; [reflexivity|]).
      intros i l1 v l2 Hi E _. exfalso. apply (NL i v Hi). rewrite E. apply in_or_app. right. now left.
    + intros u v H. apply graph_cols in H as [[[-> | ->] ->]|[-> [-> | ->]]]; vm_compute; auto.
    + intros u. destruct (Z_le_dec 0 u); [destruct (Z_lt_dec u 3)|]; [|unfold cols_of; rewrite nth_out by (change (Zlen graph_rows) with 3; lia); constructor..].
      assert (u = 0 \/ u = 1 \/ u = 2) as [-> | [-> | ->]] by lia; [change (NoDup [2])|change (NoDup [2])|change (NoDup [0; 1])]; repeat constructor; cbn [In]; lia.
  - exists 4. split; [vm_compute; reflexivity|]. split; [vm_compute; reflexivity|]. split; [vm_compute; reflexivity|]. split; [intros H; exfalso; apply H; vm_compute; reflexivity|]. repeat (split; [intros _; vm_compute; reflexivity|]). vm_compute. discriminate.
  - split; [reflexivity|]. split; [reflexivity|]. split; intros i Hi; assert (i = 0 \/ i = 1 \/ i = 2) as [-> | [-> | ->]] by lia; eexists; split; reflexivity.
Qed.
(** With assertions the order is refused.  Without, the bandwidth goes from 2 to 1, the
    product is the reordered one and diagptr keeps what its memory held before. *)
Lemma graph_reordered : permute false false graph_A [0; 2; 1] (Some [0; 2; 1]) 2 (fun _ => [1%nat]) graph_junk = None /\ getBandwidth graph_A 2 [] = Some 2 /\
  exists A', permute true false graph_A [0; 2; 1] (Some [0; 2; 1]) 2 (fun _ => [1%nat]) graph_junk = Some A' /\ getBandwidth A' 2 [] = Some 1 /\ diagptr A' = Some [33; 34; 35] /\
    ztimes graph_A [0; 0; 0] (Own [1; 2; 3]) 2 (fun _ => []) [] = Some [12; 15; 14] /\ ztimes A' [0; 0; 0] (Own [1; 3; 2]) 2 (fun _ => []) [] = Some [12; 14; 15].
Proof. split; [vm_compute; reflexivity|]. split; [vm_compute; reflexivity|]. eexists. split; [vm_compute; reflexivity|]. repeat split. Qed.
(** Hence the orders of reordering_test are refused for graphs without loops. *)
Theorem graph_refused : exists (rows : rows_t Z) A, symmetric_matrix (fun v => v) 0 3 rows A /\ znamed (one_file (str "g.mtx") f_graph) (str "g.mtx") 0 true 1 = Some A /\
  forall p q T sch j, inverse_perms 3 p q -> 1 <= T -> PermuteMain.junk_ok A T j -> permute false false A p (Some q) T sch j = None.
Proof.
  exists graph_rows, graph_A. destruct graph_symmetric as (HS & _ & NL & _). split; [exact HS|]. split; [apply graph_loaded|]. intros p q T sch j HI HT HJ.
  apply (hollow_refused (fun v => v) 0 3 graph_rows graph_A HS p q T sch j 0); auto; try lia. intros v. apply NL. lia.
Qed.
