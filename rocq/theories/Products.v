(** * Products with transposed and permuted matrices, and the programs that use them
    (/repo/test/BFSBipartite_test.cpp:40-122, /repo/test/reordering_test.cpp:90-245). *)
From Coq Require Import Ring_theory Ring Permutation.
From Verif Require Import Base Interleave Spec PermUtils Flat Csr Transpose CsrTools CsrOps Permute PermuteMain PermuteFacts SpMV Solve Tasks BitVector Bfs BiBfs.
Open Scope Z_scope.

(** ** Specification *)
(** [l'] is [l] reordered by [p]: element [i] is now at [p i]. *)
Definition by_perm {X} (n : Z) (p : list Z) (l l' : list X) : Prop :=
  Zlen l = n /\ Zlen l' = n /\ forall i k, get p i = Some k -> get l' k = get l i.
(** The scalar product of the first [n] elements. *)
Definition dotn {V} (zero : V) (add mul : V -> V -> V) (n : Z) (a b : list V) : option V :=
  forZ 0 n (fun i s => x <- get a i ;; y <- get b i ;; Some (add s (mul x y))) zero.

(** ** The rows of a permuted matrix *)
Lemma plain_row {V} sort cp idx (rows : rows_t V) i k : get idx i = Some k -> nthl (perm_rows sort cp idx rows rows) i = perm_local sort cp (nthl rows k).
Proof.
  intros E. unfold perm_rows, nthl at 1. rewrite get_map, E. cbn [option_map]. unfold perm_row.
  replace (slice (nthl rows k) (Zlen (nthl rows k)) (Zlen (nthl rows k))) with (@nil (Z * V)); [apply app_nil_r|]. symmetry. apply slice_nil. lia.
Qed.
Lemma perm_col_range n cp ci c : inverse_perms n cp ci -> 0 <= c < n -> 0 <= perm_col cp c < n /\ get cp c = Some (perm_col cp c) /\ get ci (perm_col cp c) = Some c.
Proof.
  intros (L1 & L2 & H & _) Hc. destruct (H c Hc) as (k & E1 & E2). unfold perm_col. rewrite E1. split; [|auto]. pose proof (get_Some_bounds _ _ _ E2). lia.
Qed.
Lemma plain_ok {V} sort n cp ci m idx inv (rows : rows_t V) : Zlen rows = m -> inverse_perms n cp ci -> inverse_perms m inv idx -> rows_ok n rows -> rows_ok n (perm_rows sort cp idx rows rows).
Proof.
  intros Hm HC HI Hok r c v Hr Hc. apply In_get in Hr as (i & Bi & E). pose proof HI as (L1 & L2 & _ & H).
  unfold perm_rows in Bi. rewrite Zlen_map, L2 in Bi. destruct (H i Bi) as (k & E1 & E2). apply get_Some_bounds in E2 as B.
  pose proof (nthl_get _ _ _ E) as EN. rewrite (plain_row _ _ _ _ _ _ E1) in EN. subst r.
  apply (Permutation_in _ (perm_local_perm sort cp (nthl rows k))) in Hc. unfold rename in Hc. apply in_map_iff in Hc as ((c0 & v0) & Ec & Hc0). cbn [fst snd] in Ec. injection Ec as <- _.
  apply (perm_col_range n cp ci); auto. apply (Hok (nthl rows k) c0 v0); auto. apply nth_row_In. lia.
Qed.

(** ** The permuted matrix *)
Section Permuted.
Context {V : Type}.
Variables (nd sort hasv : bool) (base n : Z) (rows : rows_t V) (A : csr V) (rp ri cp ci : list Z).
Notation m := (Zlen rows).
Hypothesis HR : rep hasv base n rows A.
Hypothesis Hok : rows_ok n rows.
Hypothesis Hb : 0 <= base.
Hypothesis HX : extptr A = None.
Hypothesis HI : inverse_perms m rp ri.
Hypothesis HC : inverse_perms n cp ci.
Hypothesis HV : sort = true -> hasv = true.
Hypothesis HG : forall d, idiag A = Some d -> Zlen d = m.
Hypothesis HD : nd = false -> diagptr A <> None -> full_diag rows.
Let out := perm_rows sort cp ri rows rows.
Lemma Zlen_out : Zlen out = m.
Proof. unfold out, perm_rows. rewrite Zlen_map. apply HI. Qed.
Lemma out_ok : rows_ok n out.
Proof. apply (plain_ok sort n cp ci m ri rp); auto. Qed.
Lemma permuted T sch j : 1 <= T -> junk_ok A T j -> exists A', permute nd sort A cp (Some ri) T sch j = Some A' /\ rep hasv base n out A'.
Proof.
  intros HT HJ. destruct (permute_main nd sort base n hasv rows rows A cp (Some ri) T sch j) as (A' & E & P); auto.
  - split; auto. split. { split; auto. now rewrite HX. } split; auto. split; [cbn; apply (inverse_perms_is_perm m rp ri); auto|].
    pose proof HC as (L1 & _). split; [intros r c v Hr Hc; rewrite L1; apply (Hok r c v Hr Hc)|].
    split. { intros c Hc. apply In_get in Hc as (i & Bi & Ei). rewrite L1 in Bi. destruct (perm_col_range n cp ci i HC Bi) as (B & E & _). assert (c = perm_col cp i) by congruence. lia. }
    split; [congruence|]. split; auto.
  - exists A'. split; auto. apply P.
Qed.
(** Without sorting every row keeps its order: any arithmetic. *)
Lemma terms_plain mul x x' i k : sort = false -> by_perm n cp x x' -> get ri i = Some k ->
  forall f f', holds x n f -> holds x' n f' -> terms mul hasv f' (nthl out i) = terms mul hasv f (nthl rows k).
Proof.
  clear HV HG HD HR HX Hb. intros -> (Lx & Lx' & P) E f f' Hf Hf'. unfold out. rewrite (plain_row _ _ _ _ _ _ E). unfold perm_local, terms, rename. rewrite map_map. apply map_ext_in. intros (c & v) Hin. cbn [fst snd].
  assert (Bk : 0 <= k < m). { pose proof HI as (_ & L2 & _ & H). apply get_Some_bounds in E as B. destruct (H i ltac:(lia)) as (k' & E1 & E2). apply get_Some_bounds in E2. assert (k' = k) by congruence. destruct HI as (L1 & _). lia. }
  assert (Bc : 0 <= c < n) by (apply (Hok (nthl rows k) c v); auto; apply nth_row_In; lia).
  destruct (perm_col_range n cp ci c HC Bc) as (B & E1 & _). assert (Q : f' (perm_col cp c) = f c). { specialize (P _ _ E1). rewrite (Hf c Bc), (Hf' _ B) in P. congruence. } now rewrite Q.
Qed.
End Permuted.

Definition at_or {V} (d : V) (l : list V) (i : Z) : V := match get l i with Some v => v | None => d end.
Lemma holds_at {V} (d : V) l n : n <= Zlen l -> holds l n (at_or d l).
Proof. intros L i Hi. unfold at_or. destruct (get_in_range l i) as (v & ->); [lia|]. reflexivity. Qed.
Lemma at_perm {V} (d : V) n p q l l' i k : inverse_perms n p q -> by_perm n p l l' -> get p i = Some k -> at_or d l' k = at_or d l i.
Proof. intros HP (_ & _ & H) E. unfold at_or. now rewrite (H _ _ E). Qed.

Lemma perm_entries {V} sort n cp ci rp ri (rows : rows_t V) : inverse_perms n cp ci -> inverse_perms (Zlen rows) rp ri ->
  Permutation (entries (perm_rows sort cp ri rows rows)) (map (fun e => (perm_col rp (fst e), (perm_col cp (fst (snd e)), snd (snd e)))) (entries rows)).
Proof.
  intros HC HI. pose proof HI as (L1 & L2 & K1 & K2). assert (Hm := Zlen_nonneg rows).
  assert (LO : Zlen (perm_rows sort cp ri rows rows) = Zlen rows) by (unfold perm_rows; rewrite Zlen_map; auto).
  set (h := fun k => map (fun e : Z * V => (perm_col rp k, (perm_col cp (fst e), snd e))) (nthl rows k)).
  transitivity (flat_map h ri).
  - unfold entries. rewrite LO, <- flat_map_concat_map.
    assert (ER : ri = map (fun i => at_or 0 ri i) (zrange 0 (Zlen rows))).
    { symmetry. apply (list_eq_get _ _ (Zlen rows)); [rewrite Zlen_map, Zlen_zrange; lia|auto|]. intros i Hi. rewrite get_map, get_zrange by lia. cbn [option_map]. unfold at_or. destruct (get_in_range ri i) as (k & E); [lia|]. replace (0 + i) with i by lia. now rewrite E. }
    replace (flat_map h ri) with (flat_map h (map (fun i => at_or 0 ri i) (zrange 0 (Zlen rows)))) by (now rewrite <- ER). rewrite !flat_map_concat_map, map_map.
    assert (Q : forall i, In i (zrange 0 (Zlen rows)) -> Permutation (map (fun e => (i, e)) (nthl (perm_rows sort cp ri rows rows) i)) (h (at_or 0 ri i))).
    { intros i Hi. apply In_zrange in Hi. destruct (K2 i Hi) as (k & E1 & E2). rewrite (plain_row _ _ _ _ _ _ E1). unfold at_or. rewrite E1. unfold h.
      transitivity (map (fun e => (i, e)) (rename cp (nthl rows k))); [apply Permutation_map, perm_local_perm|]. unfold rename. rewrite map_map. cbn [fst snd].
      replace (perm_col rp k) with i; [apply Permutation_refl|]. unfold perm_col. now rewrite E2. }
    revert Q. generalize (zrange 0 (Zlen rows)) as l. induction l as [|i l IH]; intros Q; [constructor|]. cbn [map concat]. apply Permutation_app; [apply Q; now left|apply IH; intros; apply Q; now right].
  - transitivity (flat_map h (zrange 0 (Zlen rows))); [apply Permutation_flat_map, (inverse_perms_is_perm _ rp ri HI)|].
    unfold entries. rewrite flat_map_concat_map, concat_map, map_map. apply Permutation_refl'. f_equal. apply map_ext. intros i. unfold h. rewrite map_map. reflexivity.
Qed.

Section Any.
Context {V : Type}.
Variables (zero : V) (add sub mul : V -> V -> V) (is0 is1 ism1 : V -> bool).
Notation mult := (multiplyWithVector zero add sub mul is0 is1 ism1).
(** The product with the permuted matrix is the permuted product, number by number in
    any arithmetic. *)
Theorem permuted_product nd hasv base n (rows : rows_t V) A rp ri cp ci T sch j : rep hasv base n rows A -> rows_ok n rows -> 0 <= base -> extptr A = None ->
  inverse_perms (Zlen rows) rp ri -> inverse_perms n cp ci -> (forall d, idiag A = Some d -> Zlen d = Zlen rows) -> (nd = false -> diagptr A <> None -> full_diag rows) -> 1 <= T -> junk_ok A T j ->
  exists A', permute nd false A cp (Some ri) T sch j = Some A' /\
  forall w w' x x' y y' alpha beta gamma T1 T2 s1 s2 j1 j2, by_perm n cp x x' -> by_perm (Zlen rows) rp y y' -> Zlen w = Zlen rows -> Zlen w' = Zlen rows -> 1 <= T1 -> 1 <= T2 ->
  exists u u', mult A w alpha (Own x) beta (Own y) gamma T1 s1 j1 = Some u /\ mult A' w' alpha (Own x') beta (Own y') gamma T2 s2 j2 = Some u' /\ by_perm (Zlen rows) rp u u'.
Proof.
  intros HR Hok Hb HX HI HC HG HD HT HJ.
  destruct (permuted nd false hasv base n rows A rp ri cp ci HR Hok Hb HX HI HC ltac:(discriminate) HG HD T sch j HT HJ) as (A' & E & R'). exists A'. split; auto.
  set (out := perm_rows false cp ri rows rows) in *. assert (LO : Zlen out = Zlen rows) by (apply (Zlen_out false rows rp ri cp); auto).
  assert (OO : rows_ok n out) by (apply (out_ok false n rows rp ri cp ci); auto).
  intros w w' x x' y y' alpha beta gamma T1 T2 s1 s2 j1 j2 Px Py Lw Lw' HT1 HT2. pose proof Px as (Lx & Lx' & _). pose proof Py as (Ly & Ly' & _).
  destruct (multiply_ok zero add sub mul is0 is1 ism1 hasv base n rows A w alpha x (at_or zero x) beta (Own y) (at_or zero y) gamma T1 s1 j1) as (u & E1 & L1 & G1 & _); auto; [apply holds_at; lia|lia|intros _; cbn [arr]; apply holds_at; lia|].
  destruct (multiply_ok zero add sub mul is0 is1 ism1 hasv base n out A' w' alpha x' (at_or zero x') beta (Own y') (at_or zero y') gamma T2 s2 j2) as (u' & E2 & L2 & G2 & _); auto; [apply holds_at; lia|lia|intros _; cbn [arr]; apply holds_at; lia|].
  exists u, u'. split; auto. split; auto. split; [lia|]. split; [lia|]. intros i k Eik. pose proof HI as (K1 & K2 & K3 & _). apply get_Some_bounds in Eik as Bi. destruct (K3 i ltac:(lia)) as (k' & Q1 & Q2). assert (k' = k) by congruence. subst k'. apply get_Some_bounds in Q2 as Bk.
  rewrite G2, G1 by lia. f_equal. unfold spmv_val. rewrite (at_perm zero (Zlen rows) rp ri y y' i k HI Py Eik).
  assert (TE : terms mul hasv (at_or zero x') (nthl out k) = terms mul hasv (at_or zero x) (nthl rows i)) by (eapply (terms_plain false); eauto; apply holds_at; lia). now rewrite TE.
Qed.
End Any.

(** ** Exact arithmetic *)
Section Exact.
Context {V : Type}.
Variables (zero one : V) (add mul sub : V -> V -> V) (opp : V -> V).
Variable RT : ring_theory zero one add mul sub opp (@eq V).
Variables (is0 is1 ism1 : V -> bool).
Hypothesis H0 : forall a, is0 a = true -> a = zero.
Hypothesis H1 : forall a, is1 a = true -> a = one.
Hypothesis Hm1 : forall a, ism1 a = true -> a = opp one.
Add Ring Vring2 : RT.
Notation mult := (multiplyWithVector zero add sub mul is0 is1 ism1).
Notation times := (multiplyWithVector1 zero add sub mul is0 is1 ism1 one).
Notation sum := (sum zero add).
Notation rtimes := (row_times zero one add mul).
Lemma sum_app a b : sum (a ++ b) = add (sum a) (sum b).
Proof. unfold SpMV.sum. induction a as [|x a IH]; cbn [app fold_right]; [ring|]. rewrite IH. ring. Qed.
Lemma sum_perm a b : Permutation a b -> sum a = sum b.
Proof. unfold SpMV.sum. induction 1; cbn [fold_right] in *; [reflexivity|now rewrite IHPermutation|ring|congruence]. Qed.
Lemma sum_concat l : sum (concat l) = sum (map sum l).
Proof. induction l as [|a l IH]; [reflexivity|]. cbn [concat map]. rewrite sum_app, IH. reflexivity. Qed.
Lemma sum_scale a l : mul a (sum l) = sum (map (mul a) l).
Proof. unfold SpMV.sum. induction l as [|x l IH]; cbn [map fold_right]; [ring|]. rewrite <- IH. ring. Qed.
Lemma rtimes_perm hasv r r' x : Permutation r r' -> rtimes hasv r x = rtimes hasv r' x.
Proof. intros P. apply sum_perm, Permutation_map, P. Qed.

(** Sums over all entries. *)
Lemma entry_sum (g : Z -> Z -> V -> V) (rows : rows_t V) :
  sum (map (fun e => g (fst e) (fst (snd e)) (snd (snd e))) (entries rows)) = sum (map (fun i => sum (map (fun e => g i (fst e) (snd e)) (nthl rows i))) (zrange 0 (Zlen rows))).
Proof. unfold entries. rewrite concat_map, sum_concat, !map_map. f_equal. apply map_ext. intros i. rewrite map_map. reflexivity. Qed.
Lemma dotn_sum n a b : n <= Zlen a -> n <= Zlen b -> 0 <= n -> dotn zero add mul n a b = Some (sum (map (fun i => mul (at_or zero a i) (at_or zero b i)) (zrange 0 n))).
Proof.
  intros La Lb Hn. unfold dotn.
  destruct (forZ_rule (fun i s => s = sum (map (fun i => mul (at_or zero a i) (at_or zero b i)) (zrange 0 i))) 0 n (fun i s => x <- get a i ;; y <- get b i ;; Some (add s (mul x y))) zero) as (s & E & Es); auto.
  - intros i s Hi ->. destruct (get_in_range a i) as (x & Ex); [lia|]. destruct (get_in_range b i) as (y & Ey); [lia|]. rewrite Ex, Ey. eexists. split; [reflexivity|].
    rewrite zrange_snoc by lia. rewrite map_app, sum_app. cbn [map]. unfold at_or at 5 6. rewrite Ex, Ey. unfold SpMV.sum. cbn [fold_right]. ring.
  - now rewrite E, Es.
Qed.

(** The product with the permuted matrix, its rows sorted or not. *)
Theorem permuted_product_exact nd sort hasv base n (rows : rows_t V) A rp ri cp ci T sch j : rep hasv base n rows A -> rows_ok n rows -> 0 <= base -> extptr A = None ->
  inverse_perms (Zlen rows) rp ri -> inverse_perms n cp ci -> (sort = true -> hasv = true) -> (forall d, idiag A = Some d -> Zlen d = Zlen rows) -> (nd = false -> diagptr A <> None -> full_diag rows) -> 1 <= T -> junk_ok A T j ->
  exists A', permute nd sort A cp (Some ri) T sch j = Some A' /\
  forall w w' x x' y y' alpha beta gamma T1 T2 s1 s2 j1 j2, by_perm n cp x x' -> by_perm (Zlen rows) rp y y' -> Zlen w = Zlen rows -> Zlen w' = Zlen rows -> 1 <= T1 -> 1 <= T2 ->
  exists u u', mult A w alpha (Own x) beta (Own y) gamma T1 s1 j1 = Some u /\ mult A' w' alpha (Own x') beta (Own y') gamma T2 s2 j2 = Some u' /\ by_perm (Zlen rows) rp u u'.
Proof.
  intros HR Hok Hb HX HI HC HV HG HD HT HJ.
  destruct (permuted nd sort hasv base n rows A rp ri cp ci HR Hok Hb HX HI HC HV HG HD T sch j HT HJ) as (A' & E & R'). exists A'. split; auto.
  set (out := perm_rows sort cp ri rows rows) in *. assert (LO : Zlen out = Zlen rows) by (apply (Zlen_out sort rows rp ri cp); auto).
  assert (OO : rows_ok n out) by (apply (out_ok sort n rows rp ri cp ci); auto).
  intros w w' x x' y y' alpha beta gamma T1 T2 s1 s2 j1 j2 Px Py Lw Lw' HT1 HT2. pose proof Px as (Lx & Lx' & _). pose proof Py as (Ly & Ly' & _).
  destruct (multiply_ring zero one add mul sub opp RT is0 is1 ism1 H0 H1 Hm1 hasv base n rows A w alpha x (at_or zero x) beta (Own y) (at_or zero y) gamma T1 s1 j1) as (u & E1 & L1 & G1 & _); auto; [apply holds_at; lia|lia|cbn [arr]; apply holds_at; lia|].
  destruct (multiply_ring zero one add mul sub opp RT is0 is1 ism1 H0 H1 Hm1 hasv base n out A' w' alpha x' (at_or zero x') beta (Own y') (at_or zero y') gamma T2 s2 j2) as (u' & E2 & L2 & G2 & _); auto; [apply holds_at; lia|lia|cbn [arr]; apply holds_at; lia|].
  exists u, u'. split; auto. split; auto. split; [lia|]. split; [lia|]. intros i k Eik. pose proof HI as (K1 & K2 & K3 & _). apply get_Some_bounds in Eik as Bi. destruct (K3 i ltac:(lia)) as (k' & Q1 & Q2). assert (k' = k) by congruence. subst k'. apply get_Some_bounds in Q2 as Bk.
  rewrite G2, G1 by lia. rewrite (at_perm zero (Zlen rows) rp ri y y' i k HI Py Eik).
  assert (TE : rtimes hasv (nthl out k) (at_or zero x') = rtimes hasv (nthl rows i) (at_or zero x)); [|now rewrite TE].
  unfold out. rewrite (plain_row _ _ _ _ _ _ Q2). rewrite (rtimes_perm _ _ _ _ (perm_local_perm sort cp (nthl rows i))). unfold row_times, rename. rewrite map_map. f_equal. apply map_ext_in. intros (c & v) Hin. cbn [fst snd].
  assert (Bc : 0 <= c < n) by (apply (Hok (nthl rows i) c v); auto; apply nth_row_In; lia). destruct (perm_col_range n cp ci c HC Bc) as (B & Ec & _).
  now rewrite (at_perm zero n cp ci x x' c _ HC Px Ec).
Qed.

(** A product is the adjoint of the product with the transpose. *)
Theorem adjoint_products hasv base n (rows : rows_t V) (A : csr V) T sch j : rep hasv base n rows A -> rows_ok n rows -> 0 <= base -> 1 <= n -> 1 <= T -> tj_ok n T (Zlen (concat rows)) j ->
  exists AT, transpose A T sch j = Some AT /\
  forall x y w z T1 T2 s1 s2 j1 j2, Zlen x = n -> Zlen y = Zlen rows -> Zlen w = Zlen rows -> Zlen z = n -> 1 <= T1 -> 1 <= T2 ->
  exists u v d, times A w (Own x) T1 s1 j1 = Some u /\ times AT z (Own y) T2 s2 j2 = Some v /\ dotn zero add mul (Zlen rows) y u = Some d /\ dotn zero add mul n x v = Some d.
Proof.
  intros HR Hok Hb Hn HT HJ. destruct (transpose_ok hasv base n rows A T sch j HR Hok Hb Hn HT HJ) as (AT & E & R' & _). exists AT. split; auto.
  set (tr := transpose_rows n rows) in *. assert (LT : Zlen tr = n) by (unfold tr, transpose_rows; rewrite Zlen_map, Zlen_zrange; lia). assert (Hm := Zlen_nonneg rows).
  intros x y w z T1 T2 s1 s2 j1 j2 Lx Ly Lw Lz HT1 HT2.
  destruct (multiply1_ring zero one add mul sub opp RT is0 is1 ism1 H0 H1 Hm1 hasv base n rows A w (Own x) (at_or zero x) T1 s1 j1) as (u & E1 & L1 & G1 & _); auto; [cbn [arr]; apply holds_at; lia|discriminate|lia|].
  destruct (multiply1_ring zero one add mul sub opp RT is0 is1 ism1 H0 H1 Hm1 hasv base (Zlen rows) tr AT z (Own y) (at_or zero y) T2 s2 j2) as (v & E2 & L2 & G2 & _); auto; [apply transpose_rows_ok|cbn [arr]; apply holds_at; lia|discriminate|lia|].
  exists u, v. eexists. split; [exact E1|]. split; [exact E2|]. rewrite !dotn_sum by lia. split; [reflexivity|]. f_equal.
  set (g := fun i c v => mul (at_or zero y i) (mul (coef one hasv v) (at_or zero x c))).
  transitivity (sum (map (fun e => g (fst (snd e)) (fst e) (snd (snd e))) (entries tr))).
  - rewrite (entry_sum (fun c i v => g i c v)). rewrite LT. f_equal. apply map_ext_in. intros c Hc. apply In_zrange in Hc. unfold at_or at 2. rewrite G2 by lia. unfold row_times. rewrite sum_scale, map_map. f_equal. apply map_ext. intros e. unfold g. ring.
  - transitivity (sum (map (fun e => g (fst (snd e)) (fst e) (snd (snd e))) (map swap_entry (entries rows)))); [apply sum_perm, Permutation_map, transpose_entries; auto; lia|].
    rewrite map_map. transitivity (sum (map (fun e => g (fst e) (fst (snd e)) (snd (snd e))) (entries rows))); [f_equal; apply map_ext; intros (i & c & v0); reflexivity|].
    rewrite entry_sum. f_equal. apply map_ext_in. intros i Hi. apply In_zrange in Hi. unfold at_or at 2. rewrite G1 by lia. unfold row_times. rewrite sum_scale, map_map. reflexivity.
Qed.

(** ** Columns of a permuted matrix *)
Lemma column_times hasv n (rows : rows_t V) c y : 0 <= c < n ->
  rtimes hasv (nthl (transpose_rows n rows) c) y = sum (map (fun e => mul (coef one hasv (snd (snd e))) (y (fst e))) (filter (fun e => fst (snd e) =? c) (entries rows))).
Proof.
  intros Hc. rewrite nthl_trows by auto. pose proof (column_entries rows c) as E. unfold CountSort.with_key in E. unfold row_times.
  apply (f_equal (map (fun e : Z * (Z * V) => mul (coef one hasv (snd (snd e))) (y (fst (snd e)))))) in E. rewrite !map_map in E. cbn [fst snd] in E. rewrite E. f_equal.
  apply map_ext. intros (i & c' & v). reflexivity.
Qed.
Lemma column_permuted hasv sort n cp ci rp ri (rows : rows_t V) y y' c k : inverse_perms n cp ci -> inverse_perms (Zlen rows) rp ri -> rows_ok n rows -> by_perm (Zlen rows) rp y y' -> get cp c = Some k ->
  rtimes hasv (nthl (transpose_rows n (perm_rows sort cp ri rows rows)) k) (at_or zero y') = rtimes hasv (nthl (transpose_rows n rows) c) (at_or zero y).
Proof.
  intros HC HI Hok Py E. pose proof HC as (C1 & C2 & C3 & C4). apply get_Some_bounds in E as Bc. destruct (C3 c ltac:(lia)) as (k' & E1 & E2). assert (k' = k) by congruence. subst k'. apply get_Some_bounds in E2 as Bk.
  rewrite !column_times by lia.
  assert (PF : forall (f : Z * (Z * V) -> bool) a b, Permutation a b -> Permutation (filter f a) (filter f b)).
  { intros f a b P. induction P as [|x a b P IH|x y0 a|a b d P1 IH1 P2 IH2]; cbn [filter]; [constructor|destruct (f x); auto|destruct (f x), (f y0); auto; apply perm_swap|etransitivity; eauto]. }
  rewrite (sum_perm _ _ (Permutation_map _ (PF _ _ _ (perm_entries sort n cp ci rp ri rows HC HI)))).
  assert (B : forall i d v, In (i, (d, v)) (entries rows) -> 0 <= i < Zlen rows /\ 0 <= d < n).
  { intros i d v H. apply In_entries in H as (Bi & H). split; auto. apply (Hok (nthl rows i) d v); auto. now apply nth_row_In. }
  f_equal. revert B. induction (entries rows) as [|(i & d & v) l IH]; intros B; [reflexivity|]. cbn [map filter fst snd].
  destruct (B i d v (or_introl eq_refl)) as (Bi & Bd). destruct (perm_col_range n cp ci d HC Bd) as (B1 & B2 & B3). destruct (perm_col_range _ rp ri i HI Bi) as (B4 & B5 & B6).
  replace (perm_col cp d =? k) with (d =? c).
  2:{ destruct (Z.eqb_spec d c) as [->|Nd]; [assert (perm_col cp c = k) by congruence; lia|]. destruct (Z.eqb_spec (perm_col cp d) k) as [Ek|Nk]; auto. exfalso. apply Nd. congruence. }
  destruct (d =? c); cbn [map fst snd]; rewrite IH by (intros i' d' v' H'; apply B with v'; now right); auto. now rewrite (at_perm zero _ rp ri y y' i _ HI Py B5).
Qed.

(** ** BFSBipartite_test *)
(** BFSBipartite_test.cpp:89: FREE(A->diagptr) *)
Definition free_diagptr (A : csr V) : csr V := mkCSR (cm A) (cn A) (rowptr A) (colidx A) (values A) (idiag A) (diag A) None (extptr A).
Lemma transposed_rows n (rows : rows_t V) : 0 <= n -> rows_ok n rows -> transposed rows (transpose_rows n rows).
Proof.
  intros Hn Hok r c. unfold cols_of. assert (P := transpose_entries n rows Hn Hok).
  assert (LT : Zlen (transpose_rows n rows) = n) by (unfold transpose_rows; rewrite Zlen_map, Zlen_zrange; lia). split; intros H; apply in_map_iff in H as ((a & v) & E & H); cbn [fst] in E; subst a.
  - assert (Br : 0 <= r < Zlen rows). { destruct (Z.le_gt_cases 0 r), (Z.lt_ge_cases r (Zlen rows)); auto; rewrite nth_out in H by lia; contradiction. }
    assert (I : In (c, (r, v)) (entries (transpose_rows n rows))). { apply (Permutation_in _ (Permutation_sym P)). apply in_map_iff. exists (r, (c, v)). split; auto. apply In_entries. auto. }
    apply In_entries in I as (_ & I). apply in_map_iff. now exists (r, v).
  - assert (Bc : 0 <= c < n). { destruct (Z.le_gt_cases 0 c), (Z.lt_ge_cases c n); auto; rewrite nth_out in H by lia; contradiction. }
    assert (I : In (c, (r, v)) (map swap_entry (entries rows))). { apply (Permutation_in _ P). apply In_entries. split; [lia|auto]. }
    apply in_map_iff in I as ((r' & c' & v') & E & I). injection E as -> -> ->. apply In_entries in I as (_ & I). apply in_map_iff. now exists (c, v).
Qed.
Theorem bipartite_program nd base n (rows : rows_t V) A T : rep true base n rows A -> rows_ok n rows -> 0 <= base -> 1 <= n -> extptr A = None -> (forall d, idiag A = Some d -> Zlen d = Zlen rows) -> 1 <= T ->
  n < Zlen rows \/ (forall r, 0 <= r < Zlen rows -> ~ full_row n rows r) ->
  forall tsch tj bsch1 bsch2 bjunk1 bjunk2 ex ex' rperm rinv cperm cinv psch pj tsch' tj', tj_ok n T (Zlen (concat rows)) tj ->
  Zlen bjunk1 = Zlen rows -> Zlen bjunk2 = n -> (forall i, Zlen (snd (ex i)) = T - 1) -> Zlen rperm = Zlen rows -> Zlen rinv = Zlen rows -> Zlen cperm = n -> Zlen cinv = n ->
  junk_ok (free_diagptr A) T pj -> tj_ok n T (Zlen (concat rows)) tj' ->
  exists AT rp ri cp ci A' AT', transpose A T tsch tj = Some AT /\ bfsBipartite A AT T bsch1 bsch2 bjunk1 bjunk2 ex ex' rperm rinv cperm cinv = Some (rp, ri, cp, ci) /\
    inverse_perms (Zlen rows) rp ri /\ inverse_perms n cp ci /\ permute nd false (free_diagptr A) cp (Some ri) T psch pj = Some A' /\ transpose A' T tsch' tj' = Some AT' /\
    forall x x' y y' w w' z z' T1 T2 T3 T4 s1 s2 s3 s4 j1 j2 j3 j4, by_perm n cp x x' -> by_perm (Zlen rows) rp y y' -> Zlen w = Zlen rows -> Zlen w' = Zlen rows -> Zlen z = n -> Zlen z' = n -> 1 <= T1 -> 1 <= T2 -> 1 <= T3 -> 1 <= T4 ->
    exists u u' v v' d, times A w (Own x) T1 s1 j1 = Some u /\ times A' w' (Own x') T2 s2 j2 = Some u' /\ by_perm (Zlen rows) rp u u' /\
      times AT z (Own y) T3 s3 j3 = Some v /\ times AT' z' (Own y') T4 s4 j4 = Some v' /\ by_perm n cp v v' /\ dotn zero add mul (Zlen rows) y u = Some d /\ dotn zero add mul n x v = Some d.
Proof.
  intros HR Hok Hb Hn HX HG HT HF tsch tj bsch1 bsch2 bjunk1 bjunk2 ex ex' rperm rinv cperm cinv psch pj tsch' tj' HJ B1 B2 HE P1 P2 P3 P4 HPJ HJ'.
  destruct (transpose_ok true base n rows A T tsch tj HR Hok Hb Hn HT HJ) as (AT & ET & RT' & _). set (tr := transpose_rows n rows) in *.
  assert (LT : Zlen tr = n) by (unfold tr, transpose_rows; rewrite Zlen_map, Zlen_zrange; lia). assert (Hm := Zlen_nonneg rows).
  destruct (bfsBipartite_ok A AT true true base T rows tr) with (bsch1 := bsch1) (bsch2 := bsch2) (bjunk1 := bjunk1) (bjunk2 := bjunk2) (ex := ex) (ex' := ex') (rperm := rperm) (rinv := rinv) (cperm := cperm) (cinv := cinv) as (rp & ri & cp & ci & EB & HI & HC & _); rewrite ?LT; auto.
  { apply transpose_rows_ok. } { apply transposed_rows; auto; lia. }
  rewrite LT in HC.
  assert (HRf : rep true base n rows (free_diagptr A)) by exact HR.
  destruct (permuted nd false true base n rows (free_diagptr A) rp ri cp ci HRf Hok Hb HX HI HC) with (T := T) (sch := psch) (j := pj) as (A' & EP & R'); auto; [now cbn|].
  set (out := perm_rows false cp ri rows rows) in *. assert (LO : Zlen out = Zlen rows) by (apply (Zlen_out false rows rp ri cp); auto). assert (OO : rows_ok n out) by (apply (out_ok false n rows rp ri cp ci); auto).
  assert (LC : Zlen (concat out) = Zlen (concat rows)).
  { assert (LE : forall r : rows_t V, Zlen (entries r) = Zlen (concat r)). { intros r. rewrite Zlen_concat. unfold entries. rewrite Zlen_concat_zsum, map_map. rewrite (map_ext _ (fun i => Zlen (nthl r i))) by (intros i; apply Zlen_map). reflexivity. }
    rewrite <- !LE. pose proof (Permutation_length (perm_entries false n cp ci rp ri rows HC HI)) as PL. rewrite map_length in PL. unfold Zlen. fold out in PL. now rewrite PL. }
  destruct (transpose_ok true base n out A' T tsch' tj') as (AT' & ET' & RT'' & _); auto; [now rewrite LC|]. set (tr' := transpose_rows n out) in *. assert (LT' : Zlen tr' = n) by (unfold tr', transpose_rows; rewrite Zlen_map, Zlen_zrange; lia).
  exists AT, rp, ri, cp, ci, A', AT'. repeat (split; auto).
  intros x x' y y' w w' z z' T1 T2 T3 T4 s1 s2 s3 s4 j1 j2 j3 j4 Px Py Lw Lw' Lz Lz' HT1 HT2 HT3 HT4. pose proof Px as (Lx & Lx' & _). pose proof Py as (Ly & Ly' & _).
  destruct (adjoint_products true base n rows A T tsch tj HR Hok Hb Hn HT HJ) as (AT0 & E0 & Adj). assert (AT0 = AT) by congruence. subst AT0.
  destruct (Adj x y w z T1 T3 s1 s3 j1 j3) as (u & v & d & F1 & F2 & F3 & F4); auto.
  destruct (permuted_product_exact nd false true base n rows (free_diagptr A) rp ri cp ci T psch pj) as (A0 & EA0 & PP); auto; [now cbn|]. assert (A0 = A') by congruence. subst A0.
  destruct (PP w w' x x' y y' one zero zero T1 T2 s1 s2 j1 j2) as (u0 & u' & G1 & G2 & G3); auto.
  assert (C1 : exists u', times A' w' (Own x') T2 s2 j2 = Some u' /\ by_perm (Zlen rows) rp u u').
  { destruct (multiply1_ring zero one add mul sub opp RT is0 is1 ism1 H0 H1 Hm1 true base n rows A w (Own x) (at_or zero x) T1 s1 j1) as (a & A1 & A2 & A3 & _); auto; [cbn [arr]; apply holds_at; lia|discriminate|lia|].
    destruct (multiply1_ring zero one add mul sub opp RT is0 is1 ism1 H0 H1 Hm1 true base n out A' w' (Own x') (at_or zero x') T2 s2 j2) as (b & A4 & A5 & A6 & _); auto; [cbn [arr]; apply holds_at; lia|discriminate|lia|].
    exists b. split; auto. assert (a = u) by congruence. subst a. split; [lia|]. split; [lia|]. intros i k Eik. pose proof HI as (K1 & K2 & K3 & _). apply get_Some_bounds in Eik as Bi. destruct (K3 i ltac:(lia)) as (k' & Q1 & Q2). assert (k' = k) by congruence. subst k'. apply get_Some_bounds in Q2 as Bk.
    rewrite A3, A6 by lia. f_equal. unfold out. rewrite (plain_row _ _ _ _ _ _ Q2). unfold perm_local, row_times, rename. rewrite map_map. f_equal. apply map_ext_in. intros (c & v1) Hin. cbn [fst snd].
    assert (Bc : 0 <= c < n) by (apply (Hok (nthl rows i) c v1); auto; apply nth_row_In; lia). destruct (perm_col_range n cp ci c HC Bc) as (B & Ec & _). now rewrite (at_perm zero n cp ci x x' c _ HC Px Ec). }
  clear u0 u' G1 G2 G3 PP. destruct C1 as (u' & U1 & U2).
  destruct (multiply1_ring zero one add mul sub opp RT is0 is1 ism1 H0 H1 Hm1 true base (Zlen rows) tr AT z (Own y) (at_or zero y) T3 s3 j3) as (v0 & A1 & A2 & A3 & _); auto; [apply transpose_rows_ok|cbn [arr]; apply holds_at; lia|discriminate|lia|]. assert (v0 = v) by congruence. subst v0.
  destruct (multiply1_ring zero one add mul sub opp RT is0 is1 ism1 H0 H1 Hm1 true base (Zlen rows) tr' AT' z' (Own y') (at_or zero y') T4 s4 j4) as (v' & A4 & A5 & A6 & _); auto; [now rewrite <- LO|rewrite <- LO; apply transpose_rows_ok|cbn [arr]; apply holds_at; lia|discriminate|lia|].
  exists u, u', v, v', d. split; auto. split; auto. split; auto. split; auto. split; auto. split; [|auto]. split; [lia|]. split; [lia|]. intros c k Eck. pose proof HC as (K1 & K2 & K3 & _). apply get_Some_bounds in Eck as Bi. destruct (K3 c ltac:(lia)) as (k' & Q1 & Q2). assert (k' = k) by congruence. subst k'. apply get_Some_bounds in Q2 as Bk.
  rewrite A3, A6 by lia. f_equal. apply (column_permuted true false n cp ci rp ri rows y y' c k); auto.
Qed.
End Exact.
