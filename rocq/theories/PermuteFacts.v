(** * Consequences: independence of the execution, round trip *)
From Verif Require Import Base Spec Interleave PermUtils Flat Csr Transpose CsrTools CsrOps Sort RowPar Fill Permute PermuteMain.
From Coq Require Import Permutation.

Lemma first_col_unique {V} c (r : list (Z * V)) q q' : first_col c r q -> first_col c r q' -> q = q'.
Proof.
  intros (l1 & v & l2 & E & L & H) (k1 & w & k2 & E' & L' & H').
  assert (G : forall (a b a' b' : list (Z * V)) x y, a ++ (c, x) :: b = a' ++ (c, y) :: b' -> (forall z, In z a -> fst z <> c) ->
     (forall z, In z a' -> fst z <> c) -> Zlen a = Zlen a').
  { induction a as [|z a IH]; intros b [|z' a'] b' x y Q P P'; cbn in Q.
    - auto.
    - injection Q as Q1 Q2. exfalso. apply (P' z'); [cbn; auto|now rewrite <- Q1].
    - injection Q as Q1 Q2. exfalso. apply (P z); [cbn; auto|now rewrite Q1].
    - injection Q as -> Q. rewrite !Zlen_cons. f_equal. apply (IH b a' b' x y); auto; intros; [apply P|apply P']; cbn; auto. }
  rewrite E in E'. rewrite <- L, <- L'. eapply G; eauto.
Qed.

(** The hypotheses under which [permute] works.  A diagonal entry in every row is
    needed only for the assertion. *)
Definition permute_pre {V} (nd sort : bool) (base n : Z) (hasv : bool) (rows lrows : rows_t V) (A : csr V) (cp : list Z) (inv : option (list Z)) : Prop :=
  rep hasv base n rows A /\ local_rows base rows A lrows /\ 0 <= base /\ inv_ok nd (Zlen rows) inv /\
  (forall r c v, In r lrows -> In (c, v) r -> 0 <= c < Zlen cp) /\ (forall c, In c cp -> 0 <= c) /\
  (extptr A <> None -> hasv = true) /\ (sort = true -> hasv = true) /\
  (forall d, idiag A = Some d -> Zlen d = Zlen rows) /\
  (nd = false -> diagptr A <> None -> forall i, 0 <= i < Zlen rows -> exists v, In (i, v) (nthl lrows i)).

(** What the result must be. *)
Definition permute_post {V} (sort : bool) (base n : Z) (hasv : bool) (rows lrows : rows_t V) (A : csr V) (cp : list Z) (inv : option (list Z)) (A' : csr V) : Prop :=
  let idx := sources (Zlen rows) inv in
  let out := perm_rows sort cp idx lrows rows in
  rep hasv base n out A' /\
  local_rows base out A' (map (perm_local sort cp) (rows_at lrows idx)) /\ (extptr A' = None <-> extptr A = None) /\
  diag A' = None /\ shape (idiag A) (Zlen rows) (idiag A') /\ shape (diagptr A) (Zlen rows) (diagptr A') /\
  (forall d g i k, idiag A = Some d -> idiag A' = Some g -> get idx i = Some k -> get g i = get d k) /\
  (forall d i k v, diagptr A' = Some d -> get idx i = Some k -> In (k, v) (nthl lrows k) ->
     exists q, get d i = Some (base + off (nthl out) i + q) /\ first_col (perm_col cp k) (perm_local sort cp (nthl lrows k)) q).

Theorem permute_main {V} nd sort base n hasv (rows lrows : rows_t V) A cp inv T sch j :
  permute_pre nd sort base n hasv rows lrows A cp inv -> 1 <= T -> junk_ok A T j ->
  exists A', permute nd sort A cp inv T sch j = Some A' /\ permute_post sort base n hasv rows lrows A cp inv A'.
Proof.
  intros (H1 & H2 & H3 & H4 & H5 & H6 & H7 & H8 & H9 & H10) HT HJ.
  apply (permute_ok nd sort base n hasv rows lrows A inv cp); auto.
  intros r c v Hr Hc. specialize (H5 r c v Hr Hc). split; [lia|]. destruct (get_in_range cp c H5) as (c' & E). exists c'. split; auto.
  apply H6. apply (get_In _ _ _ E).
Qed.

Lemma list_eq_get {X} (l l' : list X) N : Zlen l = N -> Zlen l' = N -> (forall i, 0 <= i < N -> get l i = get l' i) -> l = l'.
Proof. intros H1 H2 H. apply list_ext; [lia|]. intros i Hi. apply H. lia. Qed.

Lemma permute_post_unique {V} nd sort base n hasv (rows lrows : rows_t V) A cp inv A1 A2 :
  inv_ok nd (Zlen rows) inv -> (forall d, idiag A = Some d -> Zlen d = Zlen rows) ->
  (diagptr A <> None -> forall i, 0 <= i < Zlen rows -> exists v, In (i, v) (nthl lrows i)) ->
  permute_post sort base n hasv rows lrows A cp inv A1 -> permute_post sort base n hasv rows lrows A cp inv A2 -> A1 = A2.
Proof.
  intros HI Hidg Hdg. unfold permute_post. set (idx := sources (Zlen rows) inv). set (out := perm_rows sort cp idx lrows rows). cbv zeta.
  intros (R1 & L1 & E1 & D1 & S1 & P1 & G1 & F1) (R2 & L2 & E2 & D2 & S2 & P2 & G2 & F2).
  pose proof (Zlen_nonneg rows) as Hm0.
  assert (LI : Zlen idx = Zlen rows) by (apply is_perm_len; [apply (sources_perm nd)|]; auto).
  assert (HG : forall i, 0 <= i < Zlen rows -> exists k, get idx i = Some k) by (intros i Hi; apply get_in_range; lia).
  assert (LO : Zlen out = Zlen rows) by (unfold out; rewrite Zlen_perm_rows; auto).
  destruct A1 as [m1 n1 rp1 ci1 vs1 ig1 dg1 dp1 ex1], A2 as [m2 n2 rp2 ci2 vs2 ig2 dg2 dp2 ex2].
  unfold rep in R1, R2. cbn [cm cn rowptr colidx values idiag diag diagptr extptr] in *.
  destruct R1 as (-> & -> & -> & -> & ->), R2 as (-> & -> & -> & -> & ->). subst dg1 dg2.
  assert (ig1 = ig2) as ->.
  { unfold shape in S1, S2. destruct (idiag A) as [d|]; [|congruence].
    destruct S1 as (g1 & -> & K1), S2 as (g2 & -> & K2). f_equal. apply (list_eq_get _ _ (Zlen rows)); auto.
    intros i Hi. destruct (HG i Hi) as (k & Ek). rewrite (G1 d g1 i k), (G2 d g2 i k); auto. }
  assert (dp1 = dp2) as ->.
  { unfold shape in P1, P2. destruct (diagptr A) as [d|]; [|congruence].
    destruct P1 as (g1 & -> & K1), P2 as (g2 & -> & K2). f_equal. apply (list_eq_get _ _ (Zlen rows)); auto.
    intros i Hi. destruct (HG i Hi) as (k & Ek).
    assert (Hk : 0 <= k < Zlen rows) by (apply In_zrange; eapply Permutation_in; [apply (sources_perm nd); eauto|apply (get_In _ _ _ Ek)]).
    destruct (Hdg ltac:(discriminate) k Hk) as (v & Hv).
    destruct (F1 g1 i k v) as (q1 & -> & Q1); auto. destruct (F2 g2 i k v) as (q2 & -> & Q2); auto.
    now rewrite (first_col_unique _ _ _ _ Q1 Q2). }
  assert (ex1 = ex2) as ->.
  { destruct L1 as [_ L1], L2 as [_ L2]. cbn [extptr] in L1, L2. destruct ex1 as [x1|], ex2 as [x2|]; auto.
    - destruct L1 as [K1 L1], L2 as [K2 L2]. f_equal. apply (list_eq_get _ _ (Zlen rows)); [congruence|congruence|].
      intros i Hi. destruct (L1 i ltac:(lia)) as (_ & _ & ->). destruct (L2 i ltac:(lia)) as (_ & _ & ->). auto.
    - destruct E1 as [E1 E1'], E2 as [E2 E2']. specialize (E1' (E2 eq_refl)). discriminate.
    - destruct E1 as [E1 E1'], E2 as [E2 E2']. specialize (E2' (E1 eq_refl)). discriminate. }
  auto.
Qed.

(** The result does not depend on the thread count, the interleaving or the
    contents of fresh memory. *)
Theorem permute_deterministic {V} nd sort base n hasv (rows lrows : rows_t V) A cp inv T sch j T' sch' j' :
  permute_pre nd sort base n hasv rows lrows A cp inv -> (diagptr A <> None -> forall i, 0 <= i < Zlen rows -> exists v, In (i, v) (nthl lrows i)) ->
  1 <= T -> junk_ok A T j -> 1 <= T' -> junk_ok A T' j' ->
  exists A', permute nd sort A cp inv T sch j = Some A' /\ permute nd sort A cp inv T' sch' j' = Some A'.
Proof.
  intros HP HDG HT HJ HT' HJ'. destruct (permute_main nd sort base n hasv rows lrows A cp inv T sch j HP HT HJ) as (A1 & E1 & P1).
  destruct (permute_main nd sort base n hasv rows lrows A cp inv T' sch' j' HP HT' HJ') as (A2 & E2 & P2).
  exists A1. split; auto. rewrite E2. f_equal. destruct HP as (_ & _ & _ & HI & _ & _ & _ & _ & Hg & _).
  symmetry. apply (permute_post_unique nd sort base n hasv rows lrows A cp inv); auto.
Qed.

(** ** Round trip *)
Lemma rename_inverse {V} N cp cp' (l : list (Z * V)) : inverse_perms N cp cp' -> (forall c v, In (c, v) l -> 0 <= c < N) ->
  rename cp' (rename cp l) = l.
Proof.
  intros (_ & _ & H & _) Hl. unfold rename. rewrite map_map. rewrite <- (map_id l) at 2. apply map_ext_in.
  intros [c v] Hin. cbn. destruct (H c (Hl c v Hin)) as (k & E1 & E2). unfold perm_col. now rewrite E1, E2.
Qed.

Lemma perm_local_perm {V} sort cp (l : list (Z * V)) : Permutation (perm_local sort cp l) (rename cp l).
Proof. unfold perm_local. destruct sort; [apply isort_perm|apply Permutation_refl]. Qed.

Lemma rename_perm {V} cp (l l' : list (Z * V)) : Permutation l l' -> Permutation (rename cp l) (rename cp l').
Proof. apply Permutation_map. Qed.

Lemma perm_local_spec {V} sort cp (l : list (Z * V)) :
  Permutation (perm_local sort cp l) (map (fun e => (perm_col cp (fst e), snd e)) l) /\
  (sort = false -> perm_local sort cp l = map (fun e => (perm_col cp (fst e), snd e)) l) /\
  (sort = true -> row_sorted (perm_local sort cp l)).
Proof.
  split; [apply perm_local_perm|]. split; intros ->; [reflexivity|]. apply isort_sorted.
Qed.

Definition back {V} (s1 s2 : bool) (cp cp' p p' : list Z) (lrows rows : rows_t V) : rows_t V :=
  perm_rows s2 cp' p' (map (perm_local s1 cp) (rows_at lrows p)) (perm_rows s1 cp p lrows rows).

Lemma back_rows {V} s1 s2 N cp cp' p p' (lrows rows : rows_t V) i : inverse_perms N cp cp' -> inverse_perms (Zlen rows) p p' ->
  0 <= i < Zlen rows -> (exists h, nthl rows i = nthl lrows i ++ h) -> (forall c v, In (c, v) (nthl lrows i) -> 0 <= c < N) ->
  Permutation (nthl (back s1 s2 cp cp' p p' lrows rows) i) (nthl rows i) /\
  (s1 = false -> s2 = false -> nthl (back s1 s2 cp cp' p p' lrows rows) i = nthl rows i).
Proof.
  intros HC HP Hi (h & Hh) Hl. destruct HP as (_ & _ & HP1 & HP2). destruct (HP2 i Hi) as (k & Ek & Ei).
  unfold back. rewrite (nthl_perm_rows _ _ _ _ _ _ _ Ek).
  assert (E1 : nthl (map (perm_local s1 cp) (rows_at lrows p)) k = perm_local s1 cp (nthl lrows i)).
  { apply nthl_get. unfold rows_at. rewrite !get_map, Ei. reflexivity. }
  assert (E2 : nthl (perm_rows s1 cp p lrows rows) k = perm_local s1 cp (nthl lrows i) ++ h).
  { rewrite (nthl_perm_rows _ _ _ _ _ _ _ Ei). unfold perm_row. rewrite Hh at 1 2. now rewrite slice_tail. }
  rewrite E1, E2. unfold perm_row. rewrite slice_tail. rewrite Hh. split.
  - apply Permutation_app_tail. eapply Permutation_trans; [apply perm_local_perm|].
    eapply Permutation_trans; [apply rename_perm, perm_local_perm|]. rewrite (rename_inverse N) by auto. apply Permutation_refl.
  - intros -> ->. unfold perm_local. now rewrite (rename_inverse N) by auto.
Qed.

Theorem permute_back {V} nd s1 s2 base n hasv (rows lrows : rows_t V) A cp cp' p p' T sch j T' sch' j' A1 :
  permute_pre nd s1 base n hasv rows lrows A cp (Some p) -> (s2 = true -> hasv = true) ->
  inverse_perms (Zlen cp) cp cp' -> inverse_perms (Zlen rows) p p' -> diagptr A = None ->
  1 <= T -> junk_ok A T j -> 1 <= T' -> junk_ok A1 T' j' ->
  permute nd s1 A cp (Some p) T sch j = Some A1 ->
  exists A2 rows2, permute nd s2 A1 cp' (Some p') T' sch' j' = Some A2 /\ rep hasv base n rows2 A2 /\
    Zlen rows2 = Zlen rows /\ (forall i, 0 <= i < Zlen rows -> Permutation (nthl rows2 i) (nthl rows i)) /\
    (s1 = false -> s2 = false -> rowptr A2 = rowptr A /\ colidx A2 = colidx A /\ values A2 = values A /\ idiag A2 = idiag A /\ extptr A2 = extptr A).
Proof.
  intros HP Hs2 HC Hp Hdg HT HJ HT' HJ' E1.
  destruct (permute_main nd s1 base n hasv rows lrows A cp (Some p) T sch j HP HT HJ) as (A1' & E1' & P1).
  assert (A1' = A1) by congruence. subst A1'. destruct HP as (H1 & H2 & H3 & H4 & H5 & H6 & H7 & H8 & H9 & H10).
  destruct P1 as (R1 & L1 & X1 & D1 & S1 & Q1 & G1 & F1). cbn [sources] in *.
  pose proof (inverse_perms_is_perm _ _ _ Hp) as [Pp Pp'].
  set (rows1 := perm_rows s1 cp p lrows rows) in *. set (lrows1 := map (perm_local s1 cp) (rows_at lrows p)) in *.
  assert (Lr1 : Zlen rows1 = Zlen rows) by (unfold rows1; rewrite Zlen_perm_rows; destruct Hp; auto).
  assert (PRE : permute_pre nd s2 base n hasv rows1 lrows1 A1 cp' (Some p')).
  { unfold permute_pre. split; auto. split; auto. split; auto. split; [cbn; rewrite Lr1; auto|]. split; [|split; [|split; [|split; [auto|split]]]].
    - intros r c v Hr Hc. unfold lrows1, rows_at in Hr. rewrite map_map in Hr. apply in_map_iff in Hr as (k & <- & Hk).
      apply (Permutation_in _ (perm_local_perm s1 cp (nthl lrows k))) in Hc. unfold rename in Hc. apply in_map_iff in Hc as ([c0 v0] & Q & Hc0).
      cbn in Q. injection Q as <- <-. destruct HC as (HC0 & HC1 & HC2 & _).
      assert (0 <= c0 < Zlen cp) as Hc0'.
      { apply (H5 (nthl lrows k) c0 v0); auto. apply nth_row_In'. destruct H2 as [H2 _]. rewrite H2. apply In_zrange. eapply Permutation_in; [exact Pp|auto]. }
      destruct (HC2 c0 Hc0') as (x & Ex & Ex'). unfold perm_col. rewrite Ex. rewrite HC1. apply get_Some_bounds in Ex'. lia.
    - intros c Hc. destruct HC as (HC0 & HC1 & _ & HC3). apply In_get in Hc as (i & Hi & Ei). destruct (HC3 i ltac:(lia)) as (x & Ex & Ex').
      apply get_Some_bounds in Ex'. assert (x = c) by congruence. lia.
    - intros Hx. apply H7. intros Hn. apply Hx, X1, Hn.
    - intros d Hd. unfold shape in S1. destruct (idiag A); [|congruence]. destruct S1 as (g & S1 & K). rewrite Lr1. congruence.
    - intros _ Hx. exfalso. unfold shape in Q1. rewrite Hdg in Q1. congruence. }
  destruct (permute_main nd s2 base n hasv rows1 lrows1 A1 cp' (Some p') T' sch' j' PRE HT' HJ') as (A2 & E2 & P2).
  destruct P2 as (R2 & L2 & X2 & D2 & S2 & Q2 & G2 & F2). cbn [sources] in *.
  exists A2, (back s1 s2 cp cp' p p' lrows rows). split; auto. split; [exact R2|].
  assert (LB : Zlen (back s1 s2 cp cp' p p' lrows rows) = Zlen rows) by (unfold back; rewrite Zlen_perm_rows; destruct Hp as (_ & ? & _); auto).
  split; auto.
  assert (HB : forall i, 0 <= i < Zlen rows -> (exists h, nthl rows i = nthl lrows i ++ h) /\ (forall c v, In (c, v) (nthl lrows i) -> 0 <= c < Zlen cp)).
  { intros i Hi. destruct H2 as [K1 K2]. split.
    - destruct (extptr A); [destruct K2 as [_ K2]; destruct (K2 i Hi) as (h & K & _); eauto|]. exists []. rewrite K2, app_nil_r. auto.
    - intros c v. apply H5. apply nth_row_In'. lia. }
  split; [intros i Hi; destruct (HB i Hi); now apply (back_rows s1 s2 (Zlen cp))|].
  intros Es1 Es2. assert (EB : back s1 s2 cp cp' p p' lrows rows = rows).
  { apply list_ext; auto. intros i Hi. rewrite LB in Hi. rewrite !get_nthl by lia. f_equal. destruct (HB i Hi).
    now apply (back_rows s1 s2 (Zlen cp)). }
  unfold back in EB. fold rows1 lrows1 in EB. rewrite EB in R2, L2, F2.
  destruct H1 as (M1 & M2 & M3 & M4 & M5), R2 as (N1 & N2 & N3 & N4 & N5).
  split; [congruence|]. split; [congruence|]. split; [congruence|]. destruct Hp as (HL1 & HL2 & HP1 & HP2). split.
  - unfold shape in S1, S2. pose proof H9 as H9'. destruct (idiag A) as [d|]; [|rewrite S1 in S2; congruence].
    destruct S1 as (g1 & S1 & K1). rewrite S1 in S2. destruct S2 as (g2 & S2 & K2). rewrite S2. f_equal.
    apply (list_eq_get _ _ (Zlen rows)); [congruence|auto|]. intros i Hi. destruct (HP2 i Hi) as (k & Ek & Ei).
    rewrite (G2 g1 g2 i k) by auto. apply (G1 d g1 k i); auto.
  - assert (LL2 : forall i, 0 <= i < Zlen rows -> Zlen (nthl (map (perm_local s2 cp') (rows_at lrows1 p')) i) = Zlen (nthl lrows i)).
    { intros i Hi. destruct (HP2 i Hi) as (k & Ek & Ei).
      assert (nthl (map (perm_local s2 cp') (rows_at lrows1 p')) i = perm_local s2 cp' (nthl lrows1 k)) as ->
        by (apply nthl_get; unfold rows_at; rewrite !get_map, Ek; reflexivity).
      rewrite Zlen_perm_local. assert (nthl lrows1 k = perm_local s1 cp (nthl lrows i)) as ->
        by (apply nthl_get; unfold lrows1, rows_at; rewrite !get_map, Ei; reflexivity). apply Zlen_perm_local. }
    destruct H2 as [_ H2], L2 as [_ L2]. destruct (extptr A2) as [e2|], (extptr A) as [e|]; auto.
    + destruct H2 as [K1 K2], L2 as [K3 K4]. f_equal. apply (list_eq_get _ _ (Zlen rows)); auto. intros i Hi.
      destruct (K2 i Hi) as (_ & _ & ->). destruct (K4 i Hi) as (_ & _ & ->). now rewrite LL2.
    + assert (extptr A1 = None) by (apply X1; auto). assert (Some e2 = None) by (apply X2; auto). discriminate.
    + assert (extptr A1 = None) by (apply X2; auto). assert (Some e = None) by (apply X1; auto). discriminate.
Qed.

(** ** Failures *)

(** With assertions enabled, a NULL row permutation is rejected. *)
Theorem permute_null_assert {V} sort (A : csr V) cp T sch j : 1 <= cm A -> permute false sort A cp None T sch j = None.
Proof.
  intros Hm. unfold permute. destruct (getBase A); auto. unfold permuteRowptr. cbn [orb].
  now replace (cm A <=? 0) with false by lia.
Qed.

(** With assertions enabled and diagptr present, a row without a diagonal entry
    is rejected. *)
Lemma foldM_stuck {X St} (f : X -> St -> option St) a l s : In a l -> (forall s, f a s = None) -> foldM f l s = None.
Proof.
  revert s. induction l as [|b l IH]; intros s Hin Hf; [destruct Hin|]. cbn [foldM]. destruct Hin as [->|Hin].
  - now rewrite Hf.
  - destruct (f b s); auto.
Qed.
Theorem permute_hollow_assert {V} sort base n hasv (rows lrows : rows_t V) A cp inv T sch j k : rep hasv base n rows A -> local_rows base rows A lrows ->
  inv_ok false (Zlen rows) inv -> 1 <= T -> junk_ok A T j -> diagptr A <> None -> 0 <= k < Zlen rows -> (forall v, ~ In (k, v) (nthl lrows k)) ->
  permute false sort A cp inv T sch j = None.
Proof.
  intros HR HL Hinv HT (N & HN & J1 & J2 & J3 & J4 & J5 & J6 & J7) Hdp Hk Hno. pose proof HR as (R1 & R2 & R3 & R4 & R5). pose proof (Zlen_nonneg rows) as Hm0.
  rewrite R1 in *. unfold permute. rewrite (rep_base _ _ _ _ _ HR).
  destruct (permuteRowptr_ok false base n hasv rows lrows A inv T HR HL HT Hinv sch (j_rp j) (alloc_like (extptr A) (j_ext j)) (j_ws j))
    as (ext & E1 & X1 & X2); auto.
  { intros e He. unfold alloc_like in He. destruct (extptr A); [|discriminate]. injection He as <-. apply J3. discriminate. }
  { unfold alloc_like. destruct (extptr A); split; auto; discriminate. }
  rewrite E1. set (idx := sources (Zlen rows) inv). set (rows1 := rows_at rows idx).
  assert (PI : is_perm (Zlen rows) idx) by (apply (sources_perm false); auto). assert (LI : Zlen idx = Zlen rows) by (apply is_perm_len; auto).
  set (X := mkCSR (cm A) (cn A) (rowptr_of base rows1) (colidx_of base rows1) (if hasv then Some (values_of rows1) else None) None None None None).
  assert (RX : rep hasv base n rows1 X). { unfold rep, X, rows1. cbn [cm cn rowptr colidx values]. rewrite Zlen_rows_at, LI. auto. }
  destruct (lb_rows_ok hasv base n rows1 X T RX HT) as (ts & Ets & Hts & _). unfold rows1 in Hts at 1. rewrite Zlen_rows_at, LI in Hts.
  cbv zeta. replace (lb_rows _ T) with (Some ts) by (symmetry; exact Ets). cbn [colidx values idiag diagptr].
  assert (EC : is_common A inv sort = false). { unfold is_common. destruct (diagptr A); [|congruence]. cbn [negb]. rewrite andb_false_r. reflexivity. }
  rewrite EC. unfold par. assert (Hin : In k idx) by (eapply Permutation_in; [apply Permutation_sym, PI|now apply In_zrange]).
  apply In_get in Hin as (i & Hi & Ei). rewrite (foldM_stuck _ i); auto.
  { apply Permutation_in with (concat ts); [apply Permutation_sym, merge_perm|]. rewrite Hts. apply In_zrange. lia. }
  intros [[[ci vs] idg] dp]. unfold pm_row. rewrite (row_of_source (Zlen rows) inv false) by (auto; lia). fold idx. rewrite Ei, (rep_rowptr _ _ _ _ _ _ HR) by lia.
  destruct (local_end (rowptr A) (extptr A) k) as [e|] eqn:EL; auto.
  assert (HE : e = base + off (nthl rows) k + Zlen (nthl lrows k) /\ exists h, nthl rows k = nthl lrows k ++ h).
  { destruct HL as [L1 L2]. unfold local_end in EL. destruct (extptr A) as [x|].
    - destruct L2 as [L2 L3]. destruct (L3 k Hk) as (h & H1 & H2). split; [congruence|eauto].
    - subst lrows. rewrite (rep_rowptr_S _ _ _ _ _ _ HR) in EL by auto. injection EL as <-. split; [lia|]. exists []. now rewrite app_nil_r. }
  destruct HE as [-> (h & Hh)]. destruct (get (rowptr_of base rows1) i) as [nb|]; auto.
  destruct (foldM (pm_copy A base cp (k + base)) (zrange (base + off (nthl rows) k) (base + off (nthl rows) k + Zlen (nthl lrows k))) (nb, ci, vs, -1)) as [s1|] eqn:E2; auto.
  assert (D1 : snd s1 = -1).
  { apply (foldM_inv (fun s : Z * list Z * option (list V) * Z => snd s = -1)) in E2; auto. intros q [[[k0 c0] v0] d0] s' Hq Hd E. cbn [snd] in Hd. subst d0. apply In_zrange in Hq. unfold pm_copy in E.
    destruct (get_in_range (nthl lrows k) (q - (base + off (nthl rows) k))) as ([c v] & Ec); [lia|].
    assert (Ec' : get (nthl rows k) (q - (base + off (nthl rows) k)) = Some (c, v)) by (rewrite Hh, get_app_l by lia; auto).
    pose proof (rep_col _ _ _ _ _ _ _ _ _ HR Hk Ec') as Er. replace (off (nthl rows) k + (q - (base + off (nthl rows) k))) with (q - base) in Er by lia. rewrite Er in E.
    destruct (get cp (c + base - base)); [|discriminate]. destruct (set c0 (k0 - base) (z + base)); [|discriminate]. destruct (if values A then _ else _); [|discriminate]. injection E as <-. cbn [snd].
    destruct (Z.eqb_spec (c + base) (k + base)) as [Q|_]; [|now rewrite andb_false_r]. exfalso. apply (Hno v). replace k with c at 1 by lia. apply (get_In _ _ _ Ec). }
  destruct (pm_remotes A base (base + off (nthl rows) k + Zlen (nthl lrows k)) k s1) as [[[[a1 a2] a3] dc]|] eqn:E3; auto.
  assert (D2 : dc = -1).
  { unfold pm_remotes in E3. destruct (extptr A).
    - destruct (get (rowptr A) (k + 1)); [|discriminate]. apply (foldM_inv (fun s : Z * list Z * option (list V) * Z => snd s = -1)) in E3; auto.
      intros q [[[k0 c0] v0] d0] s' _ Hd E. cbn [snd] in Hd. subst d0. unfold pm_remote in E. destruct (get (colidx A) (q - base)); [|discriminate].
      destruct (set c0 (k0 - base) z0); [|discriminate]. destruct (copy_val A base q k0 v0); [|discriminate]. now injection E as <-.
    - injection E3 as ->. exact D1. }
  subst dc. destruct (diagptr A); [|congruence]. reflexivity.
Qed.

(** A 2x2 matrix without values. *)
Definition pat_case : csr Z := mkCSR 2 2 [0; 2; 3] [0; 1; 1] None None None None None.
Definition pat_junk : junk Z := mkJunk [7; 7; 7] [] [7; 7; 7] [] [] [] [7; 7].
Lemma sort_pattern_fails :
  permute true true pat_case [1; 0] (Some [0; 1]) 1 (fun _ => []) pat_junk = None /\
  (exists A', permute true false pat_case [1; 0] (Some [0; 1]) 1 (fun _ => []) pat_junk = Some A').
Proof. split; [vm_compute; reflexivity|]. eexists. vm_compute. reflexivity. Qed.

Lemma perm_case_ok : permute_pre false true 1 3 true [[(0, 10); (2, 20)]; [(1, 30)]; [(2, 40); (0, 50); (1, 60)]] [[(0, 10); (2, 20)]; [(1, 30)]; [(2, 40); (0, 50); (1, 60)]]
  (mkCSR 3 3 [1; 3; 4; 7] [1; 3; 2; 3; 1; 2] (Some [10; 20; 30; 40; 50; 60]) (Some [1; 2; 3]) None (Some [1; 3; 4]) None) [1; 2; 0] (Some [2; 0; 1]).
Proof.
  split; [repeat split|]. split; [split; reflexivity|]. split; [lia|]. split.
  { change (Permutation [2; 0; 1] [0; 1; 2]). eapply Permutation_trans; [apply perm_swap|]. apply perm_skip. apply perm_swap. }
  split; [|split; [|split; [auto|split; [auto|split]]]].
  - change (Zlen [1; 2; 0]) with 3. intros r c v Hr Hc. cbn in Hr.
    repeat (destruct Hr as [<-|Hr]; [cbn in Hc; repeat (destruct Hc as [Q|Hc]; [injection Q as <- <-; lia|]); tauto|]). tauto.
  - cbn. intros c H. lia.
  - cbn [idiag]. intros d H. injection H as <-. reflexivity.
  - intros _ _ i Hi. change (Zlen _) with 3 in Hi. assert (i = 0 \/ i = 1 \/ i = 2) as [-> | [-> | ->]] by lia;
      [exists 10|exists 30|exists 40]; vm_compute; auto.
Qed.
