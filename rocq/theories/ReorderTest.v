(** * A matrix, its breadth-first and reverse Cuthill-McKee orders, the reordered matrix
    and its products (/repo/test/reordering_test.cpp:97-245). *)
From Coq Require Import Permutation.
From Verif Require Import Base Interleave Spec PermUtils Flat Csr CsrTools CsrOps Transpose BinIO Permute PermuteMain PermuteFacts SpMV Levels LevelsFacts Tasks Components BitVector Bfs ParBfs Rcm BfsPerm ComponentsBv BfsPermWhole RcmPipe RcmSource RcmLarge RcmWhole UnionSome ReorderSome FromFile Products.
Open Scope Z_scope.

(** ** Specification *)
(** How far apart an entry's row and column are once row and column [i] are called [p i]. *)
Definition span {V} (p : list Z) (rows : rows_t V) (x : Z) : Prop :=
  exists i c v k l, In (i, (c, v)) (entries rows) /\ get p i = Some k /\ get p c = Some l /\ x = Z.abs (l - k).
(** What the program does with an order [p] and its inverse [q]: the permuted matrix exists
    in every execution, its bandwidth is the largest distance under the new names, and its
    products are the reordered products, in any arithmetic. *)
Definition reordered_by {V} (nd : bool) (n : Z) (rows : rows_t V) (A : csr V) (p q : list Z) : Prop :=
  forall T sch j, 1 <= T -> PermuteMain.junk_ok A T j ->
  exists A', permute nd false A p (Some q) T sch j = Some A' /\
    (forall T' sch', 1 <= T' -> concat rows <> [] -> exists bw, getBandwidth A' T' sch' = Some bw /\ span p rows bw /\ forall x, span p rows x -> x <= bw) /\
    forall zero add sub mul is0 is1 ism1 one w w' x x' T1 T2 s1 s2 j1 j2, is0 zero = true -> is1 one = true -> by_perm n p x x' -> Zlen w = n -> Zlen w' = n -> 1 <= T1 -> 1 <= T2 ->
    exists u u', multiplyWithVector1 zero add sub mul is0 is1 ism1 one A w (Own x) T1 s1 j1 = Some u /\ multiplyWithVector1 zero add sub mul is0 is1 ism1 one A' w' (Own x') T2 s2 j2 = Some u' /\ by_perm n p u u'.

(** ** Proofs *)
Section Program.
Context {V : Type}.
Variables (inv : V -> V) (base n : Z) (rows : rows_t V) (A : csr V).
Hypothesis HY : symmetric_matrix inv base n rows A.
Hypothesis Hb : 0 <= base.

Theorem reordered_matrix nd p q : inverse_perms n p q -> (nd = false -> full_diag rows) -> reordered_by nd n rows A p q.
Proof.
  intros HI HF T sch j HT HJ. pose proof HY as [Y1 Y2 Y3 Y4 Y5 Y6 Y7 Y8]. destruct Y6 as (dp & dg & idg & E1 & E2 & E3 & L1 & L2 & L3 & _).
  assert (HG : forall d, idiag A = Some d -> Zlen d = Zlen rows) by (intros d Ed; congruence).
  assert (HIr : inverse_perms (Zlen rows) p q) by (now rewrite Y2).
  destruct (permuted nd false true base n rows A p q p q Y1 Y3 Hb Y5 HIr HI ltac:(auto) HG ltac:(auto) T sch j HT HJ) as (A' & E & R'). exists A'. split; auto. split.
  - intros T' sch' HT' Hne. pose proof (perm_entries false n p q p q rows HI HIr) as PE.
    assert (HW : forall x, In x (widths (perm_rows false p q rows rows)) <-> span p rows x).
    { intros x. unfold widths. split.
      - intros Hx. apply in_map_iff in Hx as ((i & c & v) & Ex & Hin). eapply Permutation_in in Hin; [|exact PE]. apply in_map_iff in Hin as ((i0 & c0 & v0) & Q & Hin). cbn [fst snd] in *. injection Q as <- <- <-.
        pose proof Hin as Hin0. apply In_entries in Hin0 as (Bi & Hc). assert (Bc : 0 <= c0 < n) by (apply (Y3 (nthl rows i0) c0 v0); auto; apply nth_row_In; auto). rewrite Y2 in Bi.
        destruct (perm_col_range n p q i0 HI Bi) as (_ & Gi & _). destruct (perm_col_range n p q c0 HI Bc) as (_ & Gc & _). exists i0, c0, v0, (perm_col p i0), (perm_col p c0). auto.
      - intros (i & c & v & k & l & Hin & Gi & Gc & ->). apply in_map_iff. exists (k, (l, v)). split; auto. eapply Permutation_in; [apply Permutation_sym, PE|]. apply in_map_iff. exists (i, (c, v)). split; auto. cbn [fst snd]. unfold perm_col. now rewrite Gi, Gc. }
    destruct (getBandwidth_ok true base n (perm_rows false p q rows rows) A' T' sch' R' HT') as (bw & EB & M1 & M2).
    { intros C0. apply Hne. assert (LC : Zlen (concat (perm_rows false p q rows rows)) = Zlen (concat rows)).
      { assert (LE : forall r : rows_t V, Zlen (entries r) = Zlen (concat r)). { intros r. rewrite Zlen_concat. unfold entries. rewrite Zlen_concat_zsum, map_map. rewrite (map_ext _ (fun i => Zlen (nthl r i))) by (intros i; apply Zlen_map). reflexivity. }
        rewrite <- !LE. pose proof (Permutation_length PE) as PL. rewrite map_length in PL. unfold Zlen. now rewrite PL. }
      rewrite C0 in LC. destruct (concat rows); auto. rewrite Zlen_cons in LC. change (Zlen []) with 0 in LC. pose proof (Zlen_nonneg l). lia. }
    exists bw. split; auto. split; [now apply HW|]. intros x Hx. apply M2. now apply HW.
  - intros zero add sub mul is0 is1 ism1 one w w' x x' T1 T2 s1 s2 j1 j2 I0 I1 Px Lw Lw' HT1 HT2. pose proof Px as (Lx & Lx' & _).
    set (out := perm_rows false p q rows rows) in *. assert (LO : Zlen out = n) by (rewrite <- Y2; apply (Zlen_out false rows p q p); auto). assert (OO : rows_ok n out) by (apply (out_ok false n rows p q p q); auto).
    assert (NY : needs_y is0 is1 one zero zero = false) by (unfold needs_y; now rewrite I0, I1).
    destruct (multiply_ok zero add sub mul is0 is1 ism1 true base n rows A w one x (at_or zero x) zero Same (fun _ => zero) zero T1 s1 j1) as (u & F1 & G1 & G2 & _); auto; [apply holds_at; lia|lia|congruence|].
    destruct (multiply_ok zero add sub mul is0 is1 ism1 true base n out A' w' one x' (at_or zero x') zero Same (fun _ => zero) zero T2 s2 j2) as (u' & F2 & G3 & G4 & _); auto; [apply holds_at; lia|lia|congruence|].
    exists u, u'. split; auto. split; auto. split; [lia|]. split; [lia|]. intros i k Eik. pose proof HI as (K1 & K2 & K3 & _). apply get_Some_bounds in Eik as Bi. destruct (K3 i ltac:(lia)) as (k' & Q1 & Q2). assert (k' = k) by congruence. subst k'. apply get_Some_bounds in Q2 as Bk.
    rewrite G2, G4 by lia. f_equal. unfold spmv_val.
    assert (TE : terms mul true (at_or zero x') (nthl out k) = terms mul true (at_or zero x) (nthl rows i)) by (eapply (terms_plain false); eauto; apply holds_at; lia). now rewrite TE.
Qed.

(** With assertions enabled every order is refused if one row has no diagonal entry. *)
Theorem hollow_refused p q T sch j k : inverse_perms n p q -> 0 <= k < n -> (forall v, ~ In (k, v) (nthl rows k)) -> 1 <= T -> PermuteMain.junk_ok A T j -> permute false false A p (Some q) T sch j = None.
Proof.
  intros HI Hk Hno HT HJ. pose proof HY as [Y1 Y2 Y3 Y4 Y5 Y6 Y7 Y8]. destruct Y6 as (dp & dg & idg & E1 & _).
  apply (permute_hollow_assert false base n true rows rows A p (Some q) T sch j k); auto; [split; auto; now rewrite Y5| |congruence|now rewrite Y2].
  cbn. rewrite Y2. apply (inverse_perms_is_perm n p q); auto.
Qed.

(** The program with the breadth-first order, and with reverse Cuthill-McKee. *)
Theorem reordering_bfs nd : (nd = false -> full_diag rows) -> forall T thr bsch bjunk sch isch junk csch g j levels perm pinv, 1 <= T -> 1 <= n -> 2 <= T * n ->
  Zlen bjunk = n -> (forall c, Zlen (junk c) = T - 1) -> Zlen levels = n -> Zlen perm = n -> Zlen pinv = n -> bv_junk_ok n T g -> Components.junk_ok n T j ->
  exists us cs p q, getBFSPermutation A T thr bsch bjunk sch isch junk (bv_comps A T us cs csch g j) levels perm pinv = Some (p, q) /\ bfs_result rows p q /\ reordered_by nd n rows A p q.
Proof.
  intros HF T thr bsch bjunk sch isch junk csch g j levels perm pinv H1 H2 H3 H4 H5 H6 H7 H8 H9 H10.
  destruct (ym_bfs inv base n rows A HY T thr bsch bjunk sch isch junk csch g j levels perm pinv H1 H2 H3 H4 H5 H6 H7 H8 H9 H10) as (us & cs & p & q & E & HR).
  exists us, cs, p, q. split; auto. split; auto. apply reordered_matrix; auto. rewrite <- (ym_len _ _ _ _ _ HY). apply HR.
Qed.
Theorem reordering_rcm nd : (nd = false -> full_diag rows) -> forall T srt pd who bj levels perm pinv ps wo s1 s2 csch j bsch sch ex f, base = 0 \/ base = 1 -> 1 <= n ->
  1 <= T -> T * n < INT_MAX -> sorts_by (degree rows) srt -> rcm_room (cols_of rows) n T pd ->
  (forall c, 0 <= who c < T) -> Zlen bj = n -> Zlen levels = n -> Zlen perm = n -> Zlen pinv = n -> Zlen ps = Z.max (T * PAR_THR) n + 1 -> Zlen wo = n + 1 -> Components.junk_ok n T j ->
  (forall c, lx_ok T (ex c)) -> (forall c, fair T (f c)) ->
  exists us cs ks p q, getRCM A T srt pd s1 s2 us cs csch j bsch bj who sch (fun c : Z => with_sched (ex c) (turns (f c) (ks c))) levels perm pinv ps wo = Some (Finished (A, p, q)) /\ rcm_result_from rows pd p q /\ reordered_by nd n rows A p q.
Proof.
  intros HF T srt pd who bj levels perm pinv ps wo s1 s2 csch j bsch sch ex f H1 H2 H3 H4 H5 H6 H7 H8 H9 H10 H11 H12 H13 H14 H15 H16.
  destruct (ym_rcm inv base n rows A HY T srt pd who bj levels perm pinv ps wo s1 s2 csch j bsch sch ex f) as (us & cs & ks & p & q & E & HR); auto.
  exists us, cs, ks, p, q. split; auto. split; auto. apply reordered_matrix; auto. rewrite <- (ym_len _ _ _ _ _ HY). apply HR.
Qed.
End Program.
