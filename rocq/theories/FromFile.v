(** * From the name of a matrix to its orderings and schedules *)
From Coq Require Import Permutation Sorted String.
From Verif Require Import Base Interleave Spec PermUtils Flat Csr CsrTools CsrOps Coo Transpose BinIO Laplacian MmText MmIo MmLoad MmStore MmSym MmVec MmCases Convert.
From Verif Require Import SpMV P2P P2PProg Exec Kernels Ilu Levels LevelsFacts LevelsMain Tasks LevelsCsr TaskGraph TaskGraphFacts TaskGraphLists TaskGraphMain TaskGraphOrder TaskGraphCsr Sched.
From Verif Require Import SplitLU RowPar UnionFind Components BitVector Bfs ParBfs Rcm BfsPerm UnionFresh ComponentsBv BfsPermWhole RcmPipe RcmSource RcmLarge RcmWhole UnionSome ReorderSome.
Open Scope Z_scope.

(** ** Specification *)
(** No position is listed twice. *)
Definition distinct {V} (es : list (Z * (Z * V))) : Prop := NoDup (map (fun e => (fst e, fst (snd e))) es).
(** A square matrix with sorted rows, no position twice and a symmetric pattern, in
    arrays of its own. *)
Record symmetric_matrix {V} (inv : V -> V) (base n : Z) (rows : rows_t V) (A : csr V) : Prop := {
  ym_rep : rep true base n rows A;
  ym_len : Zlen rows = n;
  ym_ok : rows_ok n rows;
  ym_sorted : rows_sorted rows;
  ym_own : extptr A = None;
  ym_diag : diag_described inv base rows A;
  ym_sym : symmetric_adj (cols_of rows);
  ym_once : forall u, NoDup (cols_of rows u) }.
(** The entries of the matrix that a symmetric file of [m0] rows stands for, padded to [M]. *)
Definition symmetric_entries {V} (one : V) (m0 M : Z) (es : list (Z * (Z * V))) (r c : Z) (v : V) : Prop :=
  In (r + 1, (c + 1, v)) es \/ r = c /\ m0 <= r < M /\ v = one \/ In (c + 1, (r + 1, v)) es /\ r <> c /\ forall w, ~ In (r + 1, (c + 1, w)) es.

(** ** Proofs *)
Lemma NoDup_filter_map {A B} (f : A -> B) p l : NoDup (map f l) -> NoDup (map f (filter p l)).
Proof.
  induction l as [|a l IH]; cbn [map filter]; auto. intros H. inversion H as [|x y Hn Hd]; subst. destruct (p a); auto. cbn [map]. constructor; auto.
  intros Hi. apply Hn. apply in_map_iff in Hi as (b & E & Hb). apply filter_In in Hb as (Hb & _). apply in_map_iff. eauto.
Qed.
Lemma NoDup_app_intro {A} (l1 l2 : list A) : NoDup l1 -> NoDup l2 -> (forall x, In x l1 -> ~ In x l2) -> NoDup (l1 ++ l2).
Proof.
  induction l1 as [|a l1 IH]; cbn [app]; auto. intros H1 H2 H. inversion H1; subst. constructor; [|apply IH; auto; intros; apply H; now right].
  rewrite in_app_iff. intros [Hi|Hi]; auto. now apply (H a (or_introl eq_refl)).
Qed.

Section Entries.
Context {V : Type}.
Implicit Types (es : list (Z * (Z * V))) (rows : rows_t V).

Lemma row_entry M n es rows r c v : 0 <= M -> coo_ok M n es -> rows_sorted_from (coo_rows M es) rows -> 0 <= r < M -> In (c, v) (nthl rows r) <-> In (r, (c, v)) es.
Proof.
  intros HM HO (L & HS) Hr. rewrite Zlen_coo_rows in HS by auto. destruct (HS r Hr) as (P & _). rewrite nthl_coo_rows in P by auto. split.
  - intros Hi. apply (Permutation_in _ (Permutation_sym P)) in Hi. apply in_map_iff in Hi as ((r', e) & E & Hi). apply filter_In in Hi as (Hi & Er). cbn [fst snd] in *. replace r with r' by lia. now subst e.
  - intros Hi. apply (Permutation_in _ P). apply in_map_iff. exists (r, (c, v)). split; auto. apply filter_In. split; auto. cbn [fst]. lia.
Qed.
Lemma row_once M es rows : 0 <= M -> coo_ok M M es -> rows_sorted_from (coo_rows M es) rows -> distinct es -> forall u, NoDup (cols_of rows u).
Proof.
  intros HM HO (L & HS) HD u. rewrite Zlen_coo_rows in L, HS by auto. unfold cols_of. destruct (Z_lt_ge_dec u 0); [rewrite MmStore.nthl_out by lia; constructor|]. destruct (Z_lt_ge_dec u M); [|rewrite MmStore.nthl_out by lia; constructor].
  destruct (HS u ltac:(lia)) as (P & _). rewrite nthl_coo_rows in P by lia. apply (Permutation_NoDup (Permutation_map fst P)). rewrite map_map.
  apply (NoDup_map_inv (fun c => (u, c))). rewrite map_map. assert (N := NoDup_filter_map _ (fun e => fst e =? u) _ HD). erewrite map_ext_in; [exact N|]. intros e He. apply filter_In in He as (_ & He). f_equal. lia.
Qed.
Lemma unit_In (one : V) lo hi r c v : In (r, (c, v)) (unit_diag one lo hi) <-> r = c /\ lo <= r < hi /\ v = one.
Proof.
  unfold unit_diag. rewrite in_map_iff. split.
  - intros (i & E & Hi). apply In_zrange in Hi. injection E as <- <- <-. auto.
  - intros (<- & H & ->). exists r. split; auto. now apply In_zrange.
Qed.
Lemma listed_iff es r c : MmLoad.listed es r c = true <-> exists v, In (r, (c, v)) es.
Proof.
  unfold MmLoad.listed. rewrite existsb_exists. split.
  - intros ((x, (y, v)) & Hi & E). cbn [fst snd] in E. exists v. replace r with x by lia. now replace c with y by lia.
  - intros (v & Hi). exists (r, (c, v)). split; auto. cbn [fst snd]. lia.
Qed.
Lemma mirror_In es r c v : In (r, (c, v)) (mirror_images es) <-> In (c, (r, v)) es /\ r <> c /\ forall w, ~ In (r, (c, w)) es.
Proof.
  unfold mirror_images, flip. rewrite in_map_iff. split.
  - intros ((x, (y, w)) & E & Hi). apply filter_In in Hi as (Hi & Hf). cbn [fst snd] in *. injection E as <- <- <-. apply andb_true_iff in Hf as (H1 & H2). split; auto. split; [lia|].
    intros w' Hw. apply negb_true_iff in H2. assert (MmLoad.listed es y x = true) by (apply listed_iff; eauto). congruence.
  - intros (Hi & Hn & Hw). exists (c, (r, v)). split; auto. apply filter_In. split; auto. cbn [fst snd]. apply andb_true_iff. split; [lia|]. apply negb_true_iff. destruct (MmLoad.listed es r c) eqn:E; auto. apply listed_iff in E as (w & E). now apply Hw in E.
Qed.
Lemma base_In base es r c v : In (r, (c, v)) (from_base base es) <-> In (r + base, (c + base, v)) es.
Proof.
  unfold from_base. rewrite in_map_iff. split.
  - intros ((x, (y, w)) & E & Hi). cbn [fst snd] in E. injection E as <- <- <-. now replace (x - base + base) with x by lia; replace (y - base + base) with y by lia.
  - intros Hi. exists (r + base, (c + base, v)). split; auto. cbn [fst snd]. do 2 f_equal; [|f_equal]; lia.
Qed.
Lemma base_distinct base es : distinct es -> distinct (from_base base es).
Proof.
  unfold distinct, from_base. rewrite map_map. cbn [fst snd]. intros H. replace (map (fun e : Z * (Z * V) => (fst e - base, fst (snd e) - base)) es) with (map (fun p : Z * Z => (fst p - base, snd p - base)) (map (fun e => (fst e, fst (snd e))) es)) by (now rewrite map_map).
  apply FinFun.Injective_map_NoDup; auto. intros (a, b) (a', b') E. cbn [fst snd] in E. injection E as E1 E2. f_equal; lia.
Qed.
Lemma flip_distinct es : distinct es -> distinct (flip es).
Proof.
  unfold distinct, flip. rewrite map_map. cbn [fst snd]. intros H. replace (map (fun e : Z * (Z * V) => (fst (snd e), fst e)) es) with (map (fun p : Z * Z => (snd p, fst p)) (map (fun e => (fst e, fst (snd e))) es)) by (now rewrite map_map).
  apply FinFun.Injective_map_NoDup; auto. intros (a, b) (a', b') E. cbn [fst snd] in E. congruence.
Qed.
Lemma all_distinct (one : V) m0 M E : coo_ok m0 m0 E -> distinct E -> distinct (E ++ unit_diag one m0 M ++ mirror_images E).
Proof.
  intros HO HD. unfold distinct. rewrite !map_app. apply NoDup_app_intro; auto; [apply NoDup_app_intro|].
  - unfold unit_diag. rewrite map_map. cbn [fst snd]. apply FinFun.Injective_map_NoDup; [intros a b H; congruence|]. apply NoDup_zrange.
  - apply flip_distinct. unfold distinct. now apply NoDup_filter_map.
  - intros (r, c) H1 H2. apply in_map_iff in H1 as ((r1, (c1, v1)) & E1 & H1). apply in_map_iff in H2 as ((r2, (c2, v2)) & E2 & H2). cbn [fst snd] in *. apply unit_In in H1. apply mirror_In in H2 as (_ & H2 & _). assert (r1 = r2 /\ c1 = c2) by (split; congruence). lia.
  - intros (r, c) H1 H2. apply in_map_iff in H1 as ((r1, (c1, v1)) & E1 & H1). cbn [fst snd] in *. injection E1 as -> ->. pose proof (HO _ _ _ H1) as Hb. apply in_app_iff in H2 as [H2|H2]; apply in_map_iff in H2 as ((r2, (c2, v2)) & E2 & H2); cbn [fst snd] in *; injection E2 as -> ->.
    + apply unit_In in H2. lia.
    + apply mirror_In in H2 as (_ & _ & H2). now apply H2 in H1.
Qed.
Lemma all_symmetric (one : V) m0 M E r c v : In (r, (c, v)) (E ++ unit_diag one m0 M ++ mirror_images E) -> exists w, In (c, (r, w)) (E ++ unit_diag one m0 M ++ mirror_images E).
Proof.
  rewrite !in_app_iff. intros [H|[H|H]].
  - destruct (Z.eq_dec r c) as [->|N]; [exists v; rewrite !in_app_iff; auto|]. destruct (MmLoad.listed E c r) eqn:El.
    + apply listed_iff in El as (w & El). exists w. rewrite !in_app_iff. auto.
    + exists v. rewrite !in_app_iff. right; right. apply mirror_In. split; auto. split; auto. intros w Hw. assert (MmLoad.listed E c r = true) by (apply listed_iff; eauto). congruence.
  - exists v. rewrite !in_app_iff. apply unit_In in H as (-> & H). right; left. apply unit_In. auto.
  - apply mirror_In in H as (H & _). exists v. rewrite !in_app_iff. auto.
Qed.
End Entries.

(** The arrays of a converted matrix describe its diagonal. *)
Lemma last_unique {V} (i : Z) (l1 l2 l1' l2' : list (Z * V)) v v' : l1 ++ (i, v) :: l2 = l1' ++ (i, v') :: l2' -> (forall w, ~ In (i, w) l2) -> (forall w, ~ In (i, w) l2') -> l1 = l1' /\ v = v' /\ l2 = l2'.
Proof.
  revert l1'. induction l1 as [|e l1 IH]; intros [|e' l1'] E H H'; cbn [app] in E.
  - injection E as -> ->. auto.
  - injection E as <- ->. exfalso. apply (H v'). apply in_app_iff. right. now left.
  - injection E as -> <-. exfalso. apply (H' v). apply in_app_iff. right. now left.
  - injection E as -> E. destruct (IH _ E H H') as (-> & -> & ->). auto.
Qed.
Lemma described {V} (inv : V -> V) base rows (A : csr V) d0 dp i0 idg g0 dg : diagptr A = Some dp -> diag A = Some dg -> idiag A = Some idg ->
  diag_pointers base rows d0 dp -> diag_array inv rows i0 idg -> diag_array (fun v => v) rows g0 dg -> diag_described inv base rows A.
Proof.
  intros E1 E2 E3 (L1 & H1) (L2 & H2) (L3 & H3). exists dp, dg, idg. do 6 (split; [auto|]). intros i l1 v l2 Hi En Hl.
  assert (Hin : In (i, v) (nthl rows i)) by (rewrite En; apply in_app_iff; right; now left).
  split; [|split].
  - destruct (H1 i Hi) as [(a & w & b & Ea & Hb & G)|(N & _)]; [|now destruct (N v)]. rewrite En in Ea. apply last_unique in Ea as (-> & -> & ->); auto.
  - destruct (H3 i Hi) as [(a & w & b & Ea & Hb & G)|(N & _)]; [|now destruct (N v)]. rewrite En in Ea. apply last_unique in Ea as (-> & -> & ->); auto.
  - destruct (H2 i Hi) as [(a & w & b & Ea & Hb & G)|(N & _)]; [|now destruct (N v)]. rewrite En in Ea. apply last_unique in Ea as (-> & -> & ->); auto.
Qed.
Lemma dcoo2csr_own {V} (recip : V -> V) sch A (C : coo V) b sep A' : dcoo2csr recip sch A C b sep = Some A' -> extptr A' = extptr A.
Proof.
  unfold dcoo2csr. destruct (values A) as [vs|]; [|discriminate]. destruct (coo2csr _ _ _ _ _ _ _ _ _ _ _) as [(rp, (ci, vs'))|]; [|discriminate]. destruct (get rp 0); [|discriminate].
  destruct (diagptr A); [|intros H; injection H as <-; reflexivity]. destruct (par_any _ _ _ _ _) as [(d, (id, dg))|]; [|discriminate]. intros H; injection H as <-. reflexivity.
Qed.

(** *** The loader *)
Section Load.
Context {V : Type}.
Variables (scan_g : list Z -> option (V * list Z)) (of_ll : Z -> V) (one : V) (recip : V -> V) (decd : list Z -> V) (d di o : V).
Notation named := (csr_named scan_g of_ll one recip decd d di o).

Theorem file_symmetric_matrix R fs name file b c m0 es base force pad M :
  runtime_ok R -> text_name name -> fs name = Some file -> coordinate_file scan_g of_ll one b c [m0; m0; Zlen es] es file -> kind_ok b c ->
  force = true \/ c = Symmetric -> 0 <= m0 -> 1 <= pad -> padded pad m0 M -> (m0 < M -> es <> []) ->
  (forall x y v, In (x, (y, v)) es -> 1 <= x <= m0 /\ 1 <= y <= m0) -> distinct es ->
  exists rows A, named R fs name base force pad = Some A /\ symmetric_matrix recip base M rows A /\
    forall r c v, In (r, (c, v)) (entries rows) <-> symmetric_entries one m0 M es r c v.
Proof.
  intros HR HT HF HC HK Hc Hm Hp HP Hne HB HD. pose proof HR as (HJ & HU).
  destruct (load_symmetric scan_g of_ll one (r_fuel R) (r_s1 R) (r_mm R) b c m0 es file false force false pad M) as (C & L & RC); auto.
  cbv zeta in RC. set (E := from_base 1 es) in *. set (all := E ++ unit_diag one m0 M ++ mirror_images E) in *.
  assert (HE : coo_ok m0 m0 E). { intros x y v Hi. apply base_In in Hi. apply HB in Hi. lia. }
  pose proof HP as (_ & HPM).
  assert (HO : coo_ok M M all).
  { intros x y v Hi. unfold all in Hi. rewrite !in_app_iff in Hi. destruct Hi as [Hi|[Hi|Hi]]; [apply HE in Hi; lia|apply unit_In in Hi; lia|]. apply mirror_In in Hi as (Hi & _). apply HE in Hi. lia. }
  assert (HA : distinct all) by (apply all_distinct; auto; now apply base_distinct).
  pose proof RC as (R1 & R2 & R3 & _). pose proof (Zlen_nonneg all) as Ne.
  destruct (HU 0%nat (M + 1)) as (U1 & _); [lia|]. destruct (HU 1%nat (Zlen all)) as (U2 & _); [lia|]. destruct (HU 0%nat (Zlen all)) as (_ & U3); [lia|].
  destruct (dcoo2csr_ok recip (r_s3 R) M M base all C (csr_alloc (r_ints R) (r_nums R) (om C) (onnz C) (r_n0 R)) (r_nums R 0%nat (onnz C)) true) as (rows & A & EA & RA & RS & RD); auto; unfold csr_alloc; cbn [rowptr colidx values diagptr idiag diag]; rewrite ?R1, ?R3; auto; try lia.
  1,2,3: intros dd Hd; injection Hd as <-; apply HU; lia.
  exists rows, A. destruct (sorted_entries M M all rows ltac:(lia) HO RS) as (L1 & L2 & L3).
  split. { rewrite named_text, HF by auto. unfold csr_from_file, loadMatrixMarket. rewrite L. exact EA. }
  assert (RW : forall r c v, 0 <= r < M -> In (c, v) (nthl rows r) <-> In (r, (c, v)) all) by (intros; apply (row_entry M M); auto; lia).
  split.
  - constructor; auto.
    + intros r Hr. apply In_get in Hr as (i & _ & Hi). pose proof (get_Some_bounds _ _ _ Hi) as Bi. destruct RS as (L0 & RS). destruct (RS i) as (_ & S); [lia|]. now rewrite (nthl_get _ _ _ Hi) in S.
    + now rewrite (dcoo2csr_own _ _ _ _ _ _ _ EA).
    + unfold csr_alloc in RD. cbn [diagptr idiag diag] in RD. destruct (diagptr A) as [dp|] eqn:Ed; [|easy]. destruct RD as (D1 & D2). destruct (idiag A) as [ig|] eqn:Ei; [|now destruct D2]. destruct (diag A) as [dg|] eqn:Eg; [|now destruct D2].
      destruct D2 as (D2 & D3). eapply described; eauto.
    + intros u v Hi. unfold cols_of in *. apply in_map_iff in Hi as ((c0, w) & Ec & Hi). cbn [fst] in Ec. subst c0.
      assert (Hu : 0 <= u < M). { destruct (Z_lt_ge_dec u 0); [rewrite MmStore.nthl_out in Hi by lia; easy|]. destruct (Z_lt_ge_dec u M); [lia|rewrite MmStore.nthl_out in Hi by lia; easy]. }
      apply RW in Hi; auto. pose proof (HO _ _ _ Hi) as Hb. apply all_symmetric in Hi as (w' & Hi). apply RW in Hi; [|lia]. apply in_map_iff. exists (u, w'). auto.
    + apply (row_once M all); auto. lia.
  - intros r k v. rewrite In_entries, L1. split.
    + intros (Hr & Hi). apply RW in Hi; auto. unfold all in Hi. rewrite !in_app_iff in Hi. unfold symmetric_entries. destruct Hi as [Hi|[Hi|Hi]]; [left; now apply base_In in Hi|right; left; now apply unit_In in Hi|right; right].
      apply mirror_In in Hi as (H1 & H2 & H3). split; [now apply base_In in H1|]. split; auto. intros w Hw. apply (H3 w). now apply base_In.
    + intros H. assert (Hi : In (r, (k, v)) all).
      { unfold all. rewrite !in_app_iff. destruct H as [H|[H|(H1 & H2 & H3)]]; [left; now apply base_In|right; left; now apply unit_In|right; right]. apply mirror_In. split; [now apply base_In|]. split; auto. intros w Hw. apply base_In in Hw. now apply H3 in Hw. }
      pose proof (HO _ _ _ Hi). split; [lia|]. apply RW; auto. lia.
Qed.
End Load.

Lemma file_full_diag {V} (one : V) m0 M es (rows : rows_t V) : Zlen rows = M -> (forall r c v, In (r, (c, v)) (entries rows) <-> symmetric_entries one m0 M es r c v) ->
  (forall i, 1 <= i <= m0 -> exists v, In (i, (i, v)) es) -> full_diag rows.
Proof.
  intros L H HD i Hi. destruct (Z_lt_ge_dec i m0) as [Hm|Hm].
  - destruct (HD (i + 1)) as (v & Hv); [lia|]. exists v. assert (X : In (i, (i, v)) (entries rows)) by (apply H; now left). now apply In_entries in X.
  - exists one. assert (X : In (i, (i, one)) (entries rows)) by (apply H; right; left; split; auto; split; auto; lia). now apply In_entries in X.
Qed.

(** *** What follows for every such matrix *)
Section Uses.
Context {V : Type}.
Variables (inv : V -> V) (base n : Z) (rows : rows_t V) (A : csr V).
Hypothesis HY : symmetric_matrix inv base n rows A.

Lemma ym_diagptr_len : diagptr_len A.
Proof.
  destruct (ym_diag _ _ _ _ _ HY) as (dp & dg & idg & E & _ & _ & L & _). intros d Ed. rewrite E in Ed. injection Ed as <-. now destruct (ym_rep _ _ _ _ _ HY) as (-> & _).
Qed.
Lemma sorted_around (l1 l2 : list (Z * V)) i v : row_sorted (l1 ++ (i, v) :: l2) -> NoDup (map fst (l1 ++ (i, v) :: l2)) -> (forall c w, In (c, w) l1 -> c < i) /\ (forall c w, In (c, w) l2 -> i < c).
Proof.
  clear. unfold row_sorted, sortedZ. intros HS HN. rewrite map_app in HS, HN. cbn [map fst] in HS, HN. split.
  - intros c w Hi. apply (in_map fst) in Hi. cbn [fst] in Hi. assert (c <> i). { intros ->. apply NoDup_remove_2 in HN. apply HN. apply in_app_iff. auto. }
    assert (c <= i); [|lia]. clear HN. induction (map fst l1) as [|a l IH]; [easy|]. cbn [app] in HS. inversion HS as [|x y Hs Hf]; subst. destruct Hi as [->|Hi]; [|auto]. rewrite Forall_forall in Hf. apply Hf. apply in_app_iff. right. now left.
  - intros c w Hi. apply (in_map fst) in Hi. cbn [fst] in Hi. assert (c <> i). { intros ->. apply NoDup_remove_2 in HN. apply HN. apply in_app_iff. auto. }
    assert (i <= c); [|lia]. clear HN. induction (map fst l1) as [|a l IH]; cbn [app] in HS; inversion HS as [|x y Hs Hf]; subst; auto. rewrite Forall_forall in Hf. auto.
Qed.
Theorem ym_sched : full_diag rows -> exists dp idg, diagptr A = Some dp /\ idiag A = Some idg /\ Zlen idg = n /\
  (forall i v, In (i, (i, v)) (entries rows) -> get idg i = Some (inv v)) /\ sched_matrix true base n rows rows A dp.
Proof.
  intros HF. destruct HY as [H1 H2 H3 H4 H5 H6 H7 H8]. destruct H6 as (dp & dg & idg & E1 & E2 & E3 & L1 & L2 & L3 & HD).
  assert (SP : forall i, 0 <= i < Zlen rows -> exists l1 v l2, nthl rows i = l1 ++ (i, v) :: l2 /\ (forall c w, In (c, w) l1 -> 0 <= c < i) /\ (forall c w, In (c, w) l2 -> i < c)).
  { intros i Hi. destruct (HF i Hi) as (v & Hv). apply in_split in Hv as (l1 & l2 & E). exists l1, v, l2. split; auto. pose proof (nth_row_In rows i Hi) as Hr. pose proof (H4 _ Hr) as S. pose proof (H8 i) as N. unfold cols_of in N. rewrite E in S, N. destruct (sorted_around _ _ _ _ S N) as (S1 & S2). split; auto.
    intros c w Hc. split; [|eauto]. assert (In (c, w) (nthl rows i)) by (rewrite E; apply in_app_iff; auto). apply (H3 _ c w Hr) in H. lia. }
  exists dp, idg. split; auto. split; auto. split; [lia|]. split.
  - intros i v Hi. apply In_entries in Hi as (Hi & Hv). destruct (SP i Hi) as (l1 & v' & l2 & E & S1 & S2). assert (v = v'). { rewrite E in Hv. apply in_app_iff in Hv as [Hv|[Hv|Hv]]; [apply S1 in Hv; lia|congruence|apply S2 in Hv; lia]. } subst v'.
    apply (HD i l1 v l2 Hi E). intros w Hw. apply S2 in Hw. lia.
  - constructor; auto.
    + unfold local_rows. rewrite H5. auto.
    + constructor.
      * intros i Hi. destruct (SP i Hi) as (l1 & v & l2 & E & S1 & S2). exists l1, v, l2. split; auto. split; auto. split; auto. apply H8.
      * intros i j Hi Hj (v & Hv). assert (X : In j (cols_of rows i)) by (apply in_map_iff; exists (j, v); auto). apply H7 in X. apply in_map_iff in X as ((c, w) & Ec & X). cbn [fst] in Ec. subst c. now exists w.
    + split; [lia|]. intros i Hi. destruct (SP i Hi) as (l1 & v & l2 & E & S1 & S2). exists l1, v, l2. split; auto. split; [intros c w Hc; apply S1 in Hc; lia|]. apply (HD i l1 v l2 Hi E). intros w Hw. apply S2 in Hw. lia.
    + intros i Hi. exists []. rewrite app_nil_r. split; auto. split; [|easy]. intros c v Hc. pose proof (H3 _ c v (nth_row_In rows i Hi) Hc). lia.
Qed.

(** Gauss-Seidel by schedule. *)
Theorem ym_gauss_seidel : full_diag rows -> exists dp idg, diagptr A = Some dp /\ idiag A = Some idg /\ (forall i v, In (i, (i, v)) (entries rows) -> get idg i = Some (inv v)) /\
  forall T agg tr cost w, sched_args n T cost w ->
  (T <= 2 -> exists S o2t t2o, constructTaskGraph (graph_of A base dp) T false agg tr cost w = Some (S, o2t, t2o)) /\
  forall S o2t t2o, constructTaskGraph (graph_of A base dp) T false agg tr cost w = Some (S, o2t, t2o) ->
  forall (add sub mul : V -> V -> V) b y fwd, Zlen b = n -> Zlen y = n ->
  exists fin, ref_sweep add sub mul AddScaled fwd A base (values_of rows) idg b y = Some fin /\
    p2p_computes (rexec add sub mul AddScaled A base (values_of rows) idg b) None (rops true A) fwd S (get t2o) T y fin.
Proof.
  intros HF. destruct (ym_sched HF) as (dp & idg & E1 & E2 & L & HI & HM). exists dp, idg. do 3 (split; [auto|]). intros T agg tr cost w HA. pose proof (ym_len _ _ _ _ _ HY) as Hn. rewrite <- Hn in HA. split.
  - intros HT. pose proof HM as [M1 M2 M3 M4 M5]. destruct (csr_depth _ _ _ _ _ _ _ M1 M2 M3 M4) as (lev & D). destruct (sched_defined true base n rows rows A dp HM T agg cost w lev tr HA D (or_introl HT)) as (S & o2t & t2o & E). eauto.
  - intros S o2t t2o E add sub mul b y fwd Lb Ly. apply (gs_p2p base n rows rows A dp HM (ym_ok _ _ _ _ _ HY) ltac:(lia) T agg cost add sub mul idg b y w tr S o2t t2o fwd); auto; lia.
Qed.

(** Breadth-first and reverse Cuthill-McKee orders. *)
Theorem ym_bfs : forall T thr bsch bjunk sch isch junk csch g j levels perm pinv, 1 <= T -> 1 <= n -> 2 <= T * n ->
  Zlen bjunk = n -> (forall c, Zlen (junk c) = T - 1) -> Zlen levels = n -> Zlen perm = n -> Zlen pinv = n -> bv_junk_ok n T g -> junk_ok n T j ->
  exists us cs perm' inv', getBFSPermutation A T thr bsch bjunk sch isch junk (bv_comps A T us cs csch g j) levels perm pinv = Some (perm', inv') /\ bfs_result rows perm' inv'.
Proof. pose proof (ym_len _ _ _ _ _ HY) as <-. intros. eapply bfs_exists; eauto; apply HY. Qed.
Theorem ym_rcm : forall T srt pd who bj levels perm pinv ps wo s1 s2 csch j bsch sch ex f, base = 0 \/ base = 1 -> 1 <= n ->
  1 <= T -> T * n < INT_MAX -> sorts_by (degree rows) srt -> rcm_room (cols_of rows) n T pd ->
  (forall c, 0 <= who c < T) -> Zlen bj = n -> Zlen levels = n -> Zlen perm = n -> Zlen pinv = n -> Zlen ps = Z.max (T * PAR_THR) n + 1 -> Zlen wo = n + 1 -> junk_ok n T j ->
  (forall c, lx_ok T (ex c)) -> (forall c, fair T (f c)) ->
  exists us cs ks perm' inv', getRCM A T srt pd s1 s2 us cs csch j bsch bj who sch (fun c : Z => with_sched (ex c) (turns (f c) (ks c))) levels perm pinv ps wo = Some (Finished (A, perm', inv')) /\ rcm_result_from rows pd perm' inv'.
Proof. pose proof ym_diagptr_len as HDL. pose proof (ym_len _ _ _ _ _ HY) as <-. intros. eapply rcm_exists; eauto; apply HY. Qed.
End Uses.

(** *** The Laplacian of a name *)
Section Grid.
Context {V : Type}.
Variables (d o : V).
Lemma cell_point nx ny nz k : 0 <= k < nx * ny * nz -> 0 < nx -> 0 < ny -> exists p, in_grid nx ny nz p /\ cell nx ny p = k.
Proof.
  intros Hk Hx Hy. exists (k mod nx, (k / nx) mod ny, k / nx / ny). pose proof (Z.mod_pos_bound k nx Hx). pose proof (Z.mod_pos_bound (k / nx) ny Hy). pose proof (Z.div_mod k nx ltac:(lia)). pose proof (Z.div_mod (k / nx) ny ltac:(lia)).
  split; [|cbn [cell]; nia]. cbn [in_grid]. split; auto. split; auto. split; [apply Z.div_pos; auto; apply Z.div_pos; lia|]. apply Z.div_lt_upper_bound; auto. apply Z.div_lt_upper_bound; auto. nia.
Qed.
Lemma touching_sym p q : touching p q -> touching q p.
Proof. destruct p as ((x, y), z), q as ((x', y'), z'). cbn [touching]. lia. Qed.
Lemma cell_bound nx ny nz p : in_grid nx ny nz p -> 0 <= cell nx ny p < nx * ny * nz.
Proof.
  destruct p as ((x, y), z). cbn [in_grid cell]. intros (Hx & Hy & Hz). assert (0 <= z * ny) by (apply Z.mul_nonneg_nonneg; lia). assert (z * ny + y + 1 <= nz * ny). { assert ((z + 1) * ny <= nz * ny) by (apply Z.mul_le_mono_nonneg_r; lia). lia. }
  assert (0 <= (z * ny + y) * nx) by (apply Z.mul_nonneg_nonneg; lia). assert ((z * ny + y + 1) * nx <= nz * ny * nx) by (apply Z.mul_le_mono_nonneg_r; lia). lia.
Qed.
Lemma lap_cols m rows i c : 1 <= m -> laplacian_rows d o m m m rows -> In c (cols_of rows i) <-> exists p q, in_grid m m m p /\ in_grid m m m q /\ touching p q /\ i = cell m m p /\ c = cell m m q.
Proof.
  intros Hm (L & H). split.
  - intros Hi. assert (Bi : 0 <= i < Zlen rows). { destruct (Z_lt_ge_dec i 0); [unfold cols_of in Hi; rewrite MmStore.nthl_out in Hi by lia; easy|]. destruct (Z_lt_ge_dec i (Zlen rows)); [lia|unfold cols_of in Hi; rewrite MmStore.nthl_out in Hi by lia; easy]. }
    rewrite L in Bi. destruct (cell_point m m m i Bi) as (p & Hp & <-); try lia. apply in_map_iff in Hi as ((c', v) & Ec & Hi). cbn [fst] in Ec. subst c'. apply H in Hi as (q & Hq & Ht & -> & _); auto. exists p, q. auto.
  - intros (p & q & Hp & Hq & Ht & -> & ->). apply in_map_iff. eexists (_, _). split; [reflexivity|]. apply H; auto. exists q. auto.
Qed.
Lemma lap_facts m rows : 1 <= m -> laplacian_rows d o m m m rows -> rows_ok (m * m * m) rows /\ rows_sorted rows /\ symmetric_adj (cols_of rows) /\ (forall u, NoDup (cols_of rows u)) /\ full_diag rows.
Proof.
  intros Hm HL. pose proof HL as (L & H). pose proof (fun i c => lap_cols m rows i c Hm HL) as HC.
  assert (HS : forall u, ssortedZ (cols_of rows u)).
  { intros u. destruct (Z_lt_ge_dec u 0); [unfold cols_of; rewrite MmStore.nthl_out by lia; constructor|]. destruct (Z_lt_ge_dec u (Zlen rows)); [|unfold cols_of; rewrite MmStore.nthl_out by lia; constructor].
    rewrite L in *. destruct (cell_point m m m u ltac:(lia)) as (p & Hp & <-); try lia. now apply H. }
  assert (HN : forall l, ssortedZ l -> NoDup l /\ sortedZ l).
  { unfold ssortedZ, sortedZ. induction 1 as [|a l Hl IH Hf]; [split; constructor|]. rewrite Forall_forall in Hf. split; constructor; try apply IH; [intros Hi; apply Hf in Hi; lia|]. apply Forall_forall. intros x Hx. apply Hf in Hx. lia. }
  split; [|split; [|split; [|split]]].
  - intros r c v Hr Hc. apply In_get in Hr as (i & _ & Hi). assert (X : In c (cols_of rows i)) by (unfold cols_of; rewrite (nthl_get _ _ _ Hi); apply in_map_iff; exists (c, v); auto).
    apply HC in X as (p & q & _ & Hq & _ & _ & ->). now apply cell_bound.
  - intros r Hr. apply In_get in Hr as (i & _ & Hi). unfold row_sorted. replace r with (nthl rows i) by (now apply nthl_get). apply HN. apply HS.
  - intros u v Hi. apply HC in Hi as (p & q & Hp & Hq & Ht & -> & ->). apply HC. exists q, p. apply touching_sym in Ht. auto.
  - intros u. now apply HN.
  - intros i Hi. rewrite L in Hi. destruct (cell_point m m m i Hi) as (p & Hp & <-); try lia. assert (X : In (cell m m p) (cols_of rows (cell m m p))). { apply HC. exists p, p. split; auto. split; auto. split; auto. destruct p as ((x, y), z). cbn [touching]. lia. }
    apply in_map_iff in X as ((c, v) & E & X). cbn [fst] in E. subst c. now exists v.
Qed.
End Grid.
Lemma make1_own {V} (A : csr V) sch B : make1Based A sch = Some B -> extptr B = extptr A.
Proof.
  unfold make1Based, shift_index. destruct (getBase A) as [b|]; [|discriminate]. destruct (1 =? b); [congruence|]. destruct (getNnz A); [|discriminate]. destruct (par_any _ _ _ _ _); [|discriminate]. destruct (par_any _ _ _ _ _); [|discriminate].
  destruct (match diagptr A with Some _ => _ | None => _ end); [|discriminate]. intros H. injection H as <-. reflexivity.
Qed.
Lemma lap_own {V} (d di o : V) nx ny nz base sch sch' j jv A : laplacian d di o nx ny nz base sch sch' j jv = Some A -> extptr A = None.
Proof.
  unfold laplacian. destruct (lap_rowptr nx ny nz _) as [(nnz, rp)|]; [|discriminate]. destruct (lap_fill _ _ _ _ _ _ _ _ _); [|discriminate]. destruct (1 =? base); [|intros H; injection H as <-; reflexivity].
  intros H. now apply make1_own in H.
Qed.
Theorem size_symmetric_matrix {V} (scan_g : list Z -> option (V * list Z)) (of_ll : Z -> V) (one : V) (recip : V -> V) (decd : list Z -> V) (d di o : V) m : 1 <= m -> int32 m ->
  exists rows, laplacian_rows d o m m m rows /\ full_diag rows /\
  forall R fs base force pad, runtime_ok R -> base = 0 \/ base = 1 ->
  exists A, csr_named scan_g of_ll one recip decd d di o R fs (pr_int m) base force pad = Some A /\ symmetric_matrix (fun _ => di) base (m * m * m) rows A.
Proof.
  intros Hm HI. destruct (named_size scan_g of_ll one recip decd d di o m Hm HI) as (rows & HL & H). exists rows. destruct (lap_facts d o m rows Hm HL) as (F1 & F2 & F3 & F4 & F5). split; auto. split; auto.
  intros R fs base force pad HR Hb. destruct (H R fs base force pad HR Hb) as (A & E & RA & DA). exists A. split; auto. constructor; auto; [apply HL|].
  unfold csr_named in E. rewrite atoi_int, zeqs_refl in E by auto. now apply lap_own in E.
Qed.
