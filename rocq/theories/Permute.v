(** * Permuting rows and columns (/repo/Permute.cpp). *)
From Verif Require Import Base Spec Interleave Partition PrefixSum PermUtils Flat Csr Transpose CsrTools CsrOps Sort RowPar.
From Coq Require Import Permutation.

Section Model.
Context {V : Type}.
Implicit Types A : csr V.

(** [inversePerm ? inversePerm[i] : i] *)
Definition row_of (inv : option (list Z)) (i : Z) : option Z :=
  match inv with Some p => get p i | None => Some i end.

(** Permute.cpp:51-56 and 60-65: [ret->rowptr[i] + end - begin], and the store
    to [ret->extptr[i]] when the input has an extptr. *)
Definition pr_row A (inv : option (list Z)) (i : Z) (rp : list Z) (ext : option (list Z))
  : option (Z * option (list Z)) :=
  row <- row_of inv i ;;
  b <- get (rowptr A) row ;; e <- get (rowptr A) (row + 1) ;;
  x <- get rp i ;;
  ext <- match extptr A with
         | None => Some ext
         | Some er => er <- get er row ;; ne <- ext ;; ne <- set ne i (x + er - b) ;; Some (Some ne)
         end ;;
  Some (x + e - b, ext).

(** State: ret->rowptr, ret->extptr, and localNnz of each thread. *)
Definition pr_state : Type := (list Z * option (list Z)) * list Z.
Inductive pr_act := PrInit (b : Z) | PrStep (i : Z) | PrLast (t i : Z).
Definition pr_step A inv (a : pr_act) (s : pr_state) : option pr_state :=
  let '((rp, ext), loc) := s in
  match a with
  | PrInit b => rp <- set rp b 0 ;; Some ((rp, ext), loc)
  | PrStep i => ' (x, ext) <- pr_row A inv i rp ext ;; rp <- set rp (i + 1) x ;; Some ((rp, ext), loc)
  | PrLast t i => ' (x, ext) <- pr_row A inv i rp ext ;; loc <- set loc t x ;; Some ((rp, ext), loc)
  end.
(** Permute.cpp:45-66, thread [t]. *)
Definition pr_thread (m T t : Z) : list pr_act :=
  let (b, e) := simple_partition m T t in
  [PrInit b] ++ map PrStep (zrange b (e - 1)) ++ (if b <? e then [PrLast t (e - 1)] else []).

(** Permute.cpp:69-74; an action is a pair (thread, row). *)
Definition pr_add (base : Z) (loc : list Z) (a : Z * Z) (s : list Z * option (list Z)) : option (list Z * option (list Z)) :=
  let (t, i) := a in
  let (rp, ext) := s in
  l <- get loc t ;;
  x <- get rp i ;; rp <- set rp i (x + (l + base)) ;;
  ext <- match ext with
         | None => Some None
         | Some e => y <- get e i ;; e <- set e i (y + (l + base)) ;; Some (Some e)
         end ;;
  Some (rp, ext).
Definition pr_add_thread (m T t : Z) : list (Z * Z) :=
  let (b, e) := simple_partition m T t in map (fun i => (t, i)) (zrange b e).

(** Permute.cpp:35-79.  [nd] is true when NDEBUG is defined; the assertion of
    line 37 dereferences [inversePerm], which fails for a NULL pointer unless m
    is 0.  [rp], [ext] are the arrays of [ret], [ws] is rowPtrSum. *)
Definition permuteRowptr (nd : bool) A (inv : option (list Z)) (T : Z) (sch : nat -> list nat)
    (rp : list Z) (ext : option (list Z)) (ws : list Z) : option (list Z * option (list Z)) :=
  let m := cm A in
  assert! (nd || match inv with Some p => isPerm p | None => m <=? 0 end) ;;
  base <- getBase A ;;
  ' ((rp, ext), loc) <- par (sch 0%nat) (pr_step A inv) (map (pr_thread m T) (zrange 0 T)) ((rp, ext), map (fun _ => 0) (zrange 0 T)) ;;
  ' (loc, sum) <- prefixSum_run T loc ws (merge (sch 1%nat) (singletons T)) (merge (sch 2%nat) (singletons T)) ;;
  rp <- set rp m sum ;;
  ' (rp, ext) <- par (sch 3%nat) (pr_add base loc) (map (pr_add_thread m T) (zrange 0 T)) (rp, ext) ;;
  x <- get rp m ;; rp <- set rp m (x + base) ;;
  y <- get rp m ;; z <- get (rowptr A) m ;;
  assert! (y =? z) ;;
  Some (rp, ext).
End Model.

(** ** Specification *)

(** The source row of each row of the result. *)
Definition sources (m : Z) (inv : option (list Z)) : list Z :=
  match inv with Some p => p | None => zrange 0 m end.
Definition inv_ok (nd : bool) (m : Z) (inv : option (list Z)) : Prop :=
  match inv with Some p => is_perm m p | None => nd = true end.
(** Rows in the order of [idx]. *)
Definition rows_at {V} (rows : rows_t V) (idx : list Z) : rows_t V := map (nthl rows) idx.

(** ** Proofs *)

Lemma sources_perm nd m inv : 0 <= m -> inv_ok nd m inv -> is_perm m (sources m inv).
Proof. intros Hm. destruct inv; cbn; auto. intros _. apply Permutation_refl. Qed.

Lemma is_perm_get m p i : is_perm m p -> 0 <= m -> 0 <= i < m -> exists k, get p i = Some k /\ 0 <= k < m.
Proof.
  intros H Hm Hi. assert (L : Zlen p = m).
  { unfold is_perm in H. apply Permutation_length in H. unfold Zlen. rewrite H.
    fold (Zlen (zrange 0 m)). rewrite Zlen_zrange. lia. }
  destruct (get_in_range p i) as (k & E); [lia|]. exists k. split; auto.
  apply In_zrange. apply (Permutation_in _ H). apply (get_In _ _ _ E).
Qed.
Lemma is_perm_len m p : is_perm m p -> 0 <= m -> Zlen p = m.
Proof.
  intros H Hm. unfold is_perm in H. apply Permutation_length in H. unfold Zlen. rewrite H.
  fold (Zlen (zrange 0 m)). rewrite Zlen_zrange. lia.
Qed.

Lemma row_of_source m inv nd i : 0 <= m -> inv_ok nd m inv -> 0 <= i < m -> row_of inv i = get (sources m inv) i.
Proof. intros Hm H Hi. destruct inv; cbn; auto. rewrite get_zrange by lia. reflexivity. Qed.

Lemma rows_at_all {V} (rows : rows_t V) : rows_at rows (zrange 0 (Zlen rows)) = rows.
Proof.
  apply list_ext.
  - unfold rows_at. rewrite Zlen_map, Zlen_zrange. pose proof (Zlen_nonneg rows). lia.
  - intros i Hi. unfold rows_at in *. rewrite Zlen_map, Zlen_zrange in Hi. rewrite get_map, get_zrange by lia.
    cbn [option_map]. rewrite get_nthl by lia. do 2 f_equal.
Qed.

Lemma Zlen_rows_at {V} (rows : rows_t V) idx : Zlen (rows_at rows idx) = Zlen idx.
Proof. apply Zlen_map. Qed.
Lemma nthl_rows_at {V} (rows : rows_t V) idx i k : get idx i = Some k -> nthl (rows_at rows idx) i = nthl rows k.
Proof. intros H. apply nthl_get. unfold rows_at. now rewrite get_map, H. Qed.

Lemma rows_at_perm {V} (rows : rows_t V) idx : is_perm (Zlen rows) idx -> Permutation (rows_at rows idx) rows.
Proof.
  intros H. rewrite <- (rows_at_all rows) at 2. unfold rows_at. apply Permutation_map. auto.
Qed.

Lemma rows_at_nnz {V} (rows : rows_t V) idx : is_perm (Zlen rows) idx ->
  off (nthl (rows_at rows idx)) (Zlen rows) = off (nthl rows) (Zlen rows).
Proof.
  intros H. pose proof (rows_at_perm rows idx H) as P.
  pose proof (is_perm_len _ _ H (Zlen_nonneg rows)) as L.
  rewrite <- (Zlen_flat (nthl rows)) by apply Zlen_nonneg. rewrite <- concat_flat.
  rewrite <- L at 1. rewrite <- (Zlen_rows_at rows idx). rewrite <- (Zlen_flat (nthl (rows_at rows idx))) by apply Zlen_nonneg.
  rewrite <- concat_flat.
  clear -P. induction P as [|x l l' P IH|x y l|l l' l'' P1 IH1 P2 IH2]; cbn; rewrite ?Zlen_app; try lia.
Qed.

(** Disjointness of the thread ranges. *)
Lemma simple_boundary_le m T s t : 0 <= m -> 1 <= T -> 0 <= s <= t -> simple_boundary m T s <= simple_boundary m T t.
Proof.
  intros Hm HT H. unfold simple_boundary. assert (0 <= (m + T - 1) / T) by (apply Z.div_pos; lia). nia.
Qed.
Lemma simple_ranges_disjoint m T s t i j : 0 <= m -> 1 <= T -> 0 <= s -> 0 <= t -> s <> t ->
  simple_boundary m T s <= i < simple_boundary m T (s + 1) -> simple_boundary m T t <= j < simple_boundary m T (t + 1) -> i <> j.
Proof.
  intros Hm HT Hs Ht Hne Hi Hj. destruct (Z_lt_ge_dec s t).
  - pose proof (simple_boundary_le m T (s + 1) t). lia.
  - pose proof (simple_boundary_le m T (t + 1) s). lia.
Qed.
Lemma simple_boundary_range m T t : 0 <= m -> 1 <= T -> 0 <= t -> 0 <= simple_boundary m T t <= m.
Proof.
  intros. unfold simple_boundary. assert (0 <= (m + T - 1) / T) by (apply Z.div_pos; lia). nia.
Qed.
(** An empty range starts at m. *)
Lemma simple_empty m T t : 0 <= m -> 1 <= T -> 0 <= t < T ->
  simple_boundary m T (t + 1) <= simple_boundary m T t -> simple_boundary m T t = m.
Proof.
  intros Hm HT Ht. unfold simple_boundary. set (q := (m + T - 1) / T). assert (0 <= q) by (apply Z.div_pos; lia).
  intros H1. destruct (Z.eq_dec q 0) as [E|]; [|nia].
  assert (m <= 0). { pose proof (Z.div_mod (m + T - 1) T). pose proof (Z.mod_pos_bound (m + T - 1) T). fold q in H0. nia. }
  nia.
Qed.

Section Rowptr.
Context {V : Type}.
Variables (nd : bool) (base n : Z) (hasv : bool) (rows lrows : rows_t V) (A : csr V) (inv : option (list Z)) (T : Z).
Hypothesis HR : rep hasv base n rows A.
Hypothesis HL : local_rows base rows A lrows.
Hypothesis HT : 1 <= T.
Notation m := (Zlen rows).
Hypothesis Hinv : inv_ok nd m inv.

Let idx := sources m inv.
Let o i := off (nthl (rows_at rows idx)) i.
Let ll i := Zlen (nthl (rows_at lrows idx) i).
Let B t := simple_boundary m T t.

Lemma m_nonneg : 0 <= m. Proof. apply Zlen_nonneg. Qed.
Lemma idx_perm : is_perm m idx. Proof. apply (sources_perm nd); auto. apply m_nonneg. Qed.
Lemma o_step i : 0 <= i -> o (i + 1) = o i + Zlen (nthl (rows_at rows idx) i).
Proof. intros. unfold o. rewrite off_S by auto. auto. Qed.

Lemma pr_row_ok i rp ext x : 0 <= i < m -> get rp i = Some x ->
  (forall e, ext = Some e -> Zlen e = m) -> (extptr A <> None -> ext <> None) ->
  exists ext', pr_row A inv i rp ext = Some (x + (o (i + 1) - o i), ext') /\
    match extptr A with
    | None => ext' = ext
    | Some _ => exists e e', ext = Some e /\ ext' = Some e' /\ set e i (x + ll i) = Some e'
    end.
Proof.
  intros Hi Hx He Hne. pose proof m_nonneg as Hm0. unfold pr_row. rewrite (row_of_source m inv nd) by auto.
  fold idx. destruct (is_perm_get m idx i idx_perm Hm0 Hi) as (k & Ek & Hk). rewrite Ek.
  pose proof HR as (R1 & R2 & R3 & R4 & R5). rewrite R3. rewrite !get_rowptr_of by lia. rewrite Hx.
  rewrite o_step by lia. rewrite (nthl_rows_at _ _ _ _ Ek), off_S by lia.
  pose proof HL as (L1 & L2). destruct (extptr A) as [er|].
  - destruct L2 as (L2 & L3). destruct (L3 k Hk) as (h & H1 & H2). rewrite H2.
    destruct ext as [e|]; [|exfalso; apply Hne; auto; discriminate].
    specialize (He e eq_refl).
    destruct (set_ok e i (x + ll i)) as (e' & E'); [lia|].
    replace (x + (base + off (nthl rows) k + Zlen (nthl lrows k)) - (base + off (nthl rows) k)) with (x + ll i)
      by (unfold ll; rewrite (nthl_rows_at _ _ _ _ Ek); lia).
    rewrite E'. eexists. split; [f_equal; f_equal; lia|]. eauto.
  - eexists. split; [f_equal; f_equal; lia|]. auto.
Qed.

(** What thread [t] has done after its actions [p]. *)
Definition pr_inv (t : Z) (p : list pr_act) (s : pr_state) : Prop :=
  let '((rp, ext), loc) := s in
  let k := Zlen p in
  Zlen rp = m + 1 /\ Zlen loc = T /\ (forall e, ext = Some e -> Zlen e = m) /\ (extptr A <> None <-> ext <> None) /\
  (forall i, B t <= i < B (t + 1) -> i < B t + k -> get rp i = Some (o i - o (B t))) /\
  (forall e i, ext = Some e -> B t <= i < B (t + 1) -> i < B t + k - 1 -> get e i = Some (o i - o (B t) + ll i)) /\
  get loc t = Some (if k =? B (t + 1) - B t + 1 then o (B (t + 1)) - o (B t) else 0).

Lemma B_mono t : 0 <= t -> B t <= B (t + 1).
Proof. intros. apply simple_boundary_mono; auto. apply m_nonneg. Qed.
Lemma B_range t : 0 <= t -> 0 <= B t <= m.
Proof. intros. apply simple_boundary_range; auto. apply m_nonneg. Qed.

Lemma pr_thread_at t p a q : 0 <= t < T -> pr_thread m T t = p ++ a :: q ->
  (Zlen p = 0 /\ a = PrInit (B t)) \/
  (1 <= Zlen p < B (t + 1) - B t /\ a = PrStep (B t + Zlen p - 1)) \/
  (B t < B (t + 1) /\ Zlen p = B (t + 1) - B t /\ a = PrLast t (B (t + 1) - 1)).
Proof.
  intros Ht E. pose proof m_nonneg.
  assert (G : get (pr_thread m T t) (Zlen p) = Some a).
  { rewrite E, get_app_r, Z.sub_diag by lia. apply get_cons_0. }
  pose proof (Zlen_nonneg p). unfold pr_thread in G. rewrite simple_partition_boundary in G by lia.
  fold (B t) (B (t + 1)) in G. pose proof (B_mono t).
  cbn [app] in G. destruct (Z.eq_dec (Zlen p) 0) as [E0|].
  - left. rewrite E0, get_cons_0 in G. injection G as <-. auto.
  - rewrite get_cons_pos in G by lia. right.
    assert (LZ : Zlen (map PrStep (zrange (B t) (B (t + 1) - 1))) = Z.max 0 (B (t + 1) - 1 - B t)) by (rewrite Zlen_map, Zlen_zrange; lia).
    destruct (Z_lt_ge_dec (Zlen p - 1) (B (t + 1) - 1 - B t)).
    + left. rewrite get_app_l in G by lia. rewrite get_map, get_zrange in G by lia. cbn in G. injection G as <-.
      split; [lia|]. f_equal. lia.
    + right. rewrite get_app_r in G by lia. rewrite LZ in G.
      destruct (Z.ltb_spec (B t) (B (t + 1))).
      * pose proof (get_Some_bounds _ _ _ G) as Bd. change (Zlen [PrLast t (B (t + 1) - 1)]) with 1 in Bd.
        replace (Zlen p - 1 - Z.max 0 (B (t + 1) - 1 - B t)) with 0 in G by lia. rewrite get_cons_0 in G.
        injection G as <-. split; [lia|]. split; [lia|auto].
      * apply get_Some_bounds in G. change (Zlen (@nil pr_act)) with 0 in G. lia.
Qed.

Lemma pr_thread_len t : 0 <= t < T -> Zlen (pr_thread m T t) = B (t + 1) - B t + 1.
Proof.
  intros Ht. pose proof m_nonneg. unfold pr_thread. rewrite simple_partition_boundary by lia. fold (B t) (B (t + 1)).
  pose proof (B_mono t ltac:(lia)). rewrite Zlen_app, Zlen_app, Zlen_map, Zlen_zrange.
  change (Zlen [PrInit (B t)]) with 1. destruct (Z.ltb_spec (B t) (B (t + 1))).
  - change (Zlen [PrLast t (B (t + 1) - 1)]) with 1. lia.
  - change (Zlen (@nil pr_act)) with 0. lia.
Qed.

Lemma phase1_ok sch rp ext : Zlen rp = m + 1 -> (forall e, ext = Some e -> Zlen e = m) -> (extptr A <> None <-> ext <> None) ->
  exists s, par sch (pr_step A inv) (map (pr_thread m T) (zrange 0 T)) ((rp, ext), map (fun _ => 0) (zrange 0 T)) = Some s /\
    forall t, 0 <= t < T -> pr_inv t (pr_thread m T t) s.
Proof.
  intros Hrp Hext Hiff. pose proof m_nonneg as Hm0. set (ts := map (pr_thread m T) (zrange 0 T)).
  assert (Lts : Zlen ts = T) by (unfold ts; rewrite Zlen_map, Zlen_zrange; lia).
  assert (Nts : forall t, 0 <= t < T -> nthl ts t = pr_thread m T t).
  { intros t Ht. apply nthl_get. unfold ts. rewrite get_map, get_zrange by lia. reflexivity. }
  destruct (par_modular pr_inv sch (pr_step A inv) ts ((rp, ext), map (fun _ => 0) (zrange 0 T))) as (s & E & H).
  - intros t Ht. rewrite Lts in Ht. unfold pr_inv. change (Zlen (@nil pr_act)) with 0.
    split; auto. split; [rewrite Zlen_map, Zlen_zrange; lia|]. split; auto. split; auto.
    split; [intros; lia|]. split; [intros; lia|].
    rewrite get_map, get_zrange by lia. pose proof (B_mono t). replace (0 =? B (t + 1) - B t + 1) with false by lia. reflexivity.
  - intros t p a q [[rp1 ext1] loc1] Ht Ep _ (I1 & I2 & I3 & I4 & I5 & I6 & I7). rewrite Lts in *. rewrite Nts in Ep by auto.
    pose proof (B_mono t ltac:(lia)) as Bm. pose proof (B_range t ltac:(lia)) as Br. pose proof (B_range (t + 1) ltac:(lia)) as Br'.
    assert (LS : Zlen (p ++ [a]) = Zlen p + 1) by (rewrite Zlen_app; reflexivity).
    destruct (pr_thread_at t p a q Ht Ep) as [(K & ->)|[(K & ->)|(K1 & K2 & ->)]]; unfold pr_step.
    + destruct (set_ok rp1 (B t) 0) as (rp2 & E2); [lia|]. rewrite E2. pose proof (set_len _ _ _ _ E2) as L2.
      eexists. split; [reflexivity|]. split.
      * unfold pr_inv. rewrite LS, K. split; [lia|]. repeat (split; [now auto|]). split.
        -- intros i Hi Hik. assert (i = B t) as -> by lia. rewrite (get_set_same _ _ _ _ E2). f_equal. lia.
        -- split; [intros; lia|]. rewrite I7, K. replace (0 =? B (t + 1) - B t + 1) with false by lia.
           destruct (Z.eqb_spec (0 + 1) (B (t + 1) - B t + 1)) as [Q|]; auto.
           replace (B (t + 1)) with (B t) by lia. f_equal. lia.
      * intros t' p' q' Ht' Hne Ep' (X1 & X2 & X3 & X4 & X5 & X6 & X7). unfold pr_inv.
        split; [lia|]. repeat (split; [now auto|]). split; [|auto].
        intros i Hi Hik. rewrite (get_set_other _ _ _ _ _ E2); auto.
        destruct (Z_lt_ge_dec (B t) (B (t + 1))).
        -- apply not_eq_sym. apply (simple_ranges_disjoint m T t t' (B t) i); auto; try lia. fold (B t) (B (t + 1)). lia.
        -- assert (B t = m) by (apply simple_empty; auto; fold (B t) (B (t + 1)); lia).
           pose proof (B_range (t' + 1) ltac:(lia)). lia.
    + set (i := B t + Zlen p - 1) in *.
      destruct (pr_row_ok i rp1 ext1 (o i - o (B t))) as (ext2 & E2 & X); auto; [lia|apply I5; lia|now apply I4|].
      rewrite E2. destruct (set_ok rp1 (i + 1) (o i - o (B t) + (o (i + 1) - o i))) as (rp2 & E3); [lia|]. rewrite E3.
      pose proof (set_len _ _ _ _ E3) as L3.
      assert (EX : forall e2, ext2 = Some e2 -> Zlen e2 = m /\ exists e1, ext1 = Some e1 /\
          (extptr A <> None -> set e1 i (o i - o (B t) + ll i) = Some e2)).
      { intros e2 ->. destruct (extptr A) as [er|].
        - destruct X as (e & e' & -> & X1 & X2). injection X1 as <-. rewrite (set_len _ _ _ _ X2). split; auto. eauto.
        - split; [apply I3; auto|]. eexists. split; [symmetry; exact X|]. tauto. }
      assert (NX : extptr A <> None <-> ext2 <> None).
      { destruct (extptr A) as [er|].
        - destruct X as (e & e' & -> & -> & X2). split; discriminate.
        - rewrite X. auto. }
      eexists. split; [reflexivity|]. split.
      * unfold pr_inv. rewrite LS. split; [lia|]. split; auto. split; [intros e He; now apply EX|]. split; auto. split; [|split].
        -- intros j Hj Hjk. rewrite (get_set _ _ _ _ _ E3). destruct (Z.eqb_spec j (i + 1)) as [->|]; [f_equal; lia|].
           apply I5; auto. lia.
        -- intros e2 j He2 Hj Hjk. destruct (EX e2 He2) as (_ & e1 & He1 & Hset).
           assert (extptr A <> None) as HN by (apply NX; congruence).
           rewrite (get_set _ _ _ _ _ (Hset HN)). destruct (Z.eqb_spec j i) as [->|]; auto. apply I6; auto; lia.
        -- rewrite I7. replace (Zlen p =? B (t + 1) - B t + 1) with false by lia.
           replace (Zlen p + 1 =? B (t + 1) - B t + 1) with false by lia. auto.
      * intros t' p' q' Ht' Hne Ep' (X1 & X2 & X3 & X4 & X5 & X6 & X7). unfold pr_inv.
        split; [lia|]. split; auto. split; [intros e He; now apply EX|]. split; auto. split; [|split; [|auto]].
        -- intros j Hj Hjk. rewrite (get_set_other _ _ _ _ _ E3); auto. apply not_eq_sym.
           apply (simple_ranges_disjoint m T t t' (i + 1) j); auto; try lia. fold (B t) (B (t + 1)). lia.
        -- intros e2 j He2 Hj Hjk. destruct (EX e2 He2) as (_ & e1 & He1 & Hset).
           assert (extptr A <> None) as HN by (apply NX; congruence).
           rewrite (get_set_other _ _ _ _ _ (Hset HN)); auto. apply not_eq_sym.
           apply (simple_ranges_disjoint m T t t' i j); auto; try lia. fold (B t) (B (t + 1)). lia.
    + set (i := B (t + 1) - 1) in *.
      destruct (pr_row_ok i rp1 ext1 (o i - o (B t))) as (ext2 & E2 & X); auto; [lia|apply I5; lia|now apply I4|].
      rewrite E2. destruct (set_ok loc1 t (o i - o (B t) + (o (i + 1) - o i))) as (loc2 & E3); [lia|]. rewrite E3.
      pose proof (set_len _ _ _ _ E3) as L3.
      assert (EX : forall e2, ext2 = Some e2 -> Zlen e2 = m /\ exists e1, ext1 = Some e1 /\
          (extptr A <> None -> set e1 i (o i - o (B t) + ll i) = Some e2)).
      { intros e2 ->. destruct (extptr A) as [er|].
        - destruct X as (e & e' & -> & X1 & X2). injection X1 as <-. rewrite (set_len _ _ _ _ X2). split; auto. eauto.
        - split; [apply I3; auto|]. eexists. split; [symmetry; exact X|]. tauto. }
      assert (NX : extptr A <> None <-> ext2 <> None).
      { destruct (extptr A) as [er|].
        - destruct X as (e & e' & -> & -> & X2). split; discriminate.
        - rewrite X. auto. }
      eexists. split; [reflexivity|]. split.
      * unfold pr_inv. rewrite LS. split; [lia|]. split; [lia|]. split; [intros e He; now apply EX|]. split; auto. split; [|split].
        -- intros j Hj Hjk. apply I5; auto. lia.
        -- intros e2 j He2 Hj Hjk. destruct (EX e2 He2) as (_ & e1 & He1 & Hset).
           assert (extptr A <> None) as HN by (apply NX; congruence).
           rewrite (get_set _ _ _ _ _ (Hset HN)). destruct (Z.eqb_spec j i) as [->|]; auto. apply I6; auto; lia.
        -- rewrite (get_set_same _ _ _ _ E3). replace (Zlen p + 1 =? B (t + 1) - B t + 1) with true by lia.
           replace (i + 1) with (B (t + 1)) by lia. f_equal. lia.
      * intros t' p' q' Ht' Hne Ep' (X1 & X2 & X3 & X4 & X5 & X6 & X7). unfold pr_inv.
        split; [lia|]. split; [lia|]. split; [intros e He; now apply EX|]. split; auto. split; [auto|split].
        -- intros e2 j He2 Hj Hjk. destruct (EX e2 He2) as (_ & e1 & He1 & Hset).
           assert (extptr A <> None) as HN by (apply NX; congruence).
           rewrite (get_set_other _ _ _ _ _ (Hset HN)); auto. apply not_eq_sym.
           apply (simple_ranges_disjoint m T t t' i j); auto; try lia. fold (B t) (B (t + 1)). lia.
        -- rewrite (get_set_other _ _ _ _ _ E3); auto.
  - rewrite Lts in H. exists s. split; auto. intros t Ht. rewrite <- Nts by auto. auto.
Qed.

(** Third phase. *)
Definition add_inv (rp0 : list Z) (e0 : option (list Z)) (t : Z) (p : list (Z * Z)) (s : list Z * option (list Z)) : Prop :=
  let '(rp, ext) := s in
  let k := Zlen p in
  Zlen rp = m + 1 /\ get rp m = get rp0 m /\ (ext = None <-> e0 = None) /\ (forall e, ext = Some e -> Zlen e = m) /\
  (forall i, B t <= i < B (t + 1) -> get rp i = Some (if i <? B t + k then base + o i else o i - o (B t))) /\
  (forall e i, ext = Some e -> B t <= i < B (t + 1) -> get e i = Some (if i <? B t + k then base + o i + ll i else o i - o (B t) + ll i)).

Lemma phase3_ok sch rp ext loc : Zlen rp = m + 1 -> (forall e, ext = Some e -> Zlen e = m) ->
  (forall t, 0 <= t < T -> get loc t = Some (o (B t))) ->
  (forall t i, 0 <= t < T -> B t <= i < B (t + 1) -> get rp i = Some (o i - o (B t))) ->
  (forall t e i, 0 <= t < T -> ext = Some e -> B t <= i < B (t + 1) -> get e i = Some (o i - o (B t) + ll i)) ->
  exists rp' ext', par sch (pr_add base loc) (map (pr_add_thread m T) (zrange 0 T)) (rp, ext) = Some (rp', ext') /\
    Zlen rp' = m + 1 /\ get rp' m = get rp m /\ (ext' = None <-> ext = None) /\ (forall e, ext' = Some e -> Zlen e = m) /\
    (forall i, 0 <= i < m -> get rp' i = Some (base + o i)) /\
    (forall e i, ext' = Some e -> 0 <= i < m -> get e i = Some (base + o i + ll i)).
Proof.
  intros Hrp Hext Hloc Hv He. pose proof m_nonneg as Hm0. set (ts := map (pr_add_thread m T) (zrange 0 T)).
  assert (Lts : Zlen ts = T) by (unfold ts; rewrite Zlen_map, Zlen_zrange; lia).
  assert (Nts : forall t, 0 <= t < T -> nthl ts t = map (fun i => (t, i)) (zrange (B t) (B (t + 1)))).
  { intros t Ht. apply nthl_get. unfold ts. rewrite get_map, get_zrange by lia. cbn [option_map]. f_equal.
    unfold pr_add_thread. rewrite Z.add_0_l. rewrite simple_partition_boundary by lia. reflexivity. }
  destruct (par_modular (add_inv rp ext) sch (pr_add base loc) ts (rp, ext)) as ([rp' ext'] & E & H).
  - intros t Ht. rewrite Lts in Ht. unfold add_inv. change (Zlen (@nil (Z * Z))) with 0.
    split; auto. split; auto. split; [tauto|]. split; auto. split.
    + intros i Hi. replace (i <? B t + 0) with false by lia. auto.
    + intros e i Hee Hi. replace (i <? B t + 0) with false by lia. eauto.
  - intros t p a q [rp1 ext1] Ht Ep _ (I1 & I2 & I3 & I4 & I5 & I6). rewrite Lts in *. rewrite Nts in Ep by auto.
    pose proof (Zlen_nonneg p) as Hp0.
    assert (G : get (map (fun i => (t, i)) (zrange (B t) (B (t + 1)))) (Zlen p) = Some a).
    { rewrite Ep, get_app_r, Z.sub_diag by lia. apply get_cons_0. }
    pose proof (get_Some_bounds _ _ _ G) as Bd. rewrite Zlen_map, Zlen_zrange in Bd.
    rewrite get_map, get_zrange in G by lia. cbn [option_map] in G. injection G as <-.
    set (i := B t + Zlen p) in *. assert (Hi : B t <= i < B (t + 1)) by lia.
    assert (LS : Zlen (p ++ [(t, i)]) = Zlen p + 1) by (rewrite Zlen_app; reflexivity).
    pose proof (B_range t ltac:(lia)) as Br. pose proof (B_range (t + 1) ltac:(lia)) as Br'.
    unfold pr_add. rewrite Hloc by auto. rewrite (I5 i) by lia. rewrite Z.ltb_irrefl.
    destruct (set_ok rp1 i (o i - o (B t) + (o (B t) + base))) as (rp2 & E2); [lia|]. rewrite E2.
    pose proof (set_len _ _ _ _ E2) as L2.
    assert (Hex : exists ext2, match ext1 with
         | None => Some None
         | Some e => y <- get e i ;; e <- set e i (y + (o (B t) + base)) ;; Some (Some e) end = Some ext2 /\
         (ext2 = None <-> ext = None) /\ (forall e2, ext2 = Some e2 -> exists e1, ext1 = Some e1 /\ Zlen e2 = m /\
            get e2 i = Some (base + o i + ll i) /\ forall j, j <> i -> get e2 j = get e1 j)).
    { destruct ext1 as [e1|].
      - rewrite (I6 e1 i) by auto. rewrite Z.ltb_irrefl.
        destruct (set_ok e1 i (o i - o (B t) + ll i + (o (B t) + base))) as (e2 & E3).
        { rewrite (I4 e1) by auto. lia. }
        rewrite E3. eexists. split; [reflexivity|]. split; [split; [discriminate|intros Q; apply I3 in Q; discriminate]|].
        intros e3 Q. injection Q as <-. exists e1. split; auto. rewrite (set_len _ _ _ _ E3). split; auto. split.
        + rewrite (get_set_same _ _ _ _ E3). f_equal. lia.
        + intros j Hj. apply (get_set_other _ _ _ _ _ E3). auto.
      - eexists. split; [reflexivity|]. split; [tauto|discriminate]. }
    destruct Hex as (ext2 & Eext & N2 & X2). rewrite Eext.
    eexists. split; [reflexivity|]. split.
    + unfold add_inv. rewrite LS. split; [lia|]. split; [rewrite (get_set_other _ _ _ _ _ E2) by lia; auto|]. split; auto.
      split; [intros e2 Q; destruct (X2 e2 Q) as (e1 & _ & L & _); auto|]. split.
      * intros j Hj. rewrite (get_set _ _ _ _ _ E2). destruct (Z.eqb_spec j i) as [->|].
        -- replace (i <? B t + (Zlen p + 1)) with true by lia. f_equal. lia.
        -- rewrite I5 by auto. replace (j <? B t + (Zlen p + 1)) with (j <? i) by lia. auto.
      * intros e2 j Q Hj. destruct (X2 e2 Q) as (e1 & Q1 & L & G1 & G2). destruct (Z.eq_dec j i) as [->|].
        -- replace (i <? B t + (Zlen p + 1)) with true by lia. auto.
        -- rewrite G2, (I6 e1 j) by auto. replace (j <? B t + (Zlen p + 1)) with (j <? i) by lia. auto.
    + intros t' p' q' Ht' Hne Ep' (Y1 & Y2 & Y3 & Y4 & Y5 & Y6). unfold add_inv.
      assert (HD : forall j, B t' <= j < B (t' + 1) -> j <> i).
      { intros j Hj. apply (simple_ranges_disjoint m T t' t j i); auto; lia. }
      split; [lia|]. split; [rewrite (get_set_other _ _ _ _ _ E2) by lia; auto|]. split; auto.
      split; [intros e2 Q; destruct (X2 e2 Q) as (e1 & _ & L & _); auto|]. split.
      * intros j Hj. rewrite (get_set_other _ _ _ _ _ E2) by (apply HD; auto). auto.
      * intros e2 j Q Hj. destruct (X2 e2 Q) as (e1 & Q1 & L & G1 & G2). rewrite G2 by (apply HD; auto). eauto.
  - rewrite Lts in H. exists rp', ext'. split; auto.
    assert (Hloc' : forall i, 0 <= i < m -> exists t, 0 <= t < T /\ B t <= i < B (t + 1)).
    { intros i Hi. assert (Hin : In i (concat (simple_rows m T))).
      { rewrite simple_rows_ok by auto. now apply In_zrange. }
      apply in_concat in Hin as (l & Hl & Hin). unfold simple_rows in Hl. apply in_map_iff in Hl as (t & <- & Ht).
      apply In_zrange in Ht. rewrite simple_partition_boundary in Hin by auto. apply In_zrange in Hin. eauto. }
    assert (Hlen : forall t, 0 <= t < T -> Zlen (nthl ts t) = B (t + 1) - B t).
    { intros t Ht. rewrite Nts, Zlen_map, Zlen_zrange by auto. pose proof (B_mono t). lia. }
    destruct (H 0 ltac:(lia)) as (I1 & I2 & I3 & I4 & _). split; auto. split; auto. split; auto. split; auto. split.
    + intros i Hi. destruct (Hloc' i Hi) as (t & Ht & Hti). destruct (H t Ht) as (_ & _ & _ & _ & I5 & _).
      rewrite I5, Hlen by auto. replace (i <? B t + (B (t + 1) - B t)) with true by lia. auto.
    + intros e i Q Hi. destruct (Hloc' i Hi) as (t & Ht & Hti). destruct (H t Ht) as (_ & _ & _ & _ & _ & I6).
      rewrite (I6 e i), Hlen by auto. replace (i <? B t + (B (t + 1) - B t)) with true by lia. auto.
Qed.

Theorem permuteRowptr_ok sch rp ext ws : Zlen rp = m + 1 -> (forall e, ext = Some e -> Zlen e = m) ->
  (extptr A <> None <-> ext <> None) -> T + 1 <= Zlen ws ->
  exists ext', permuteRowptr nd A inv T sch rp ext ws = Some (rowptr_of base (rows_at rows idx), ext') /\
    (ext' = None <-> extptr A = None) /\
    forall e, ext' = Some e -> Zlen e = m /\ forall i, 0 <= i < m -> get e i = Some (base + o i + ll i).
Proof.
  intros Hrp Hext Hiff Hws. pose proof m_nonneg as Hm0. unfold permuteRowptr. pose proof HR as (R1 & R2 & R3 & R4 & R5). rewrite R1.
  assert (As : (nd || match inv with Some p => isPerm p | None => m <=? 0 end) = true).
  { pose proof Hinv as HI. destruct inv as [p|].
    - rewrite (isPerm_complete m p) by auto. apply orb_true_r.
    - cbn in HI. now rewrite HI. }
  rewrite As. rewrite (rep_base _ _ _ _ _ HR).
  destruct (phase1_ok (sch 0%nat) rp ext) as ([[rp1 ext1] loc1] & E1 & H1); auto. rewrite E1.
  assert (H1' : forall t, 0 <= t < T ->
    (forall i, B t <= i < B (t + 1) -> get rp1 i = Some (o i - o (B t))) /\
    (forall e i, ext1 = Some e -> B t <= i < B (t + 1) -> get e i = Some (o i - o (B t) + ll i)) /\
    get loc1 t = Some (o (B (t + 1)) - o (B t))).
  { intros t Ht. destruct (H1 t Ht) as (_ & _ & _ & _ & I5 & I6 & I7). rewrite pr_thread_len in I5, I6, I7 by auto.
    rewrite Z.eqb_refl in I7. split; [intros; apply I5; lia|]. split; [intros e i Q Hi; apply I6; auto; lia|auto]. }
  destruct (H1 0 ltac:(lia)) as (L1 & L2 & L3 & L4 & _).
  destruct (prefixSum_ok T loc1 ws (merge (sch 1%nat) (singletons T)) (merge (sch 2%nat) (singletons T))) as (loc2 & E2 & L5 & G2);
    auto using merge_interleave. rewrite E2.
  assert (Sum : forall t, 0 <= t -> t <= T -> zsum (slice loc1 0 t) = o (B t)).
  { apply (Z_ind0 (fun t => t <= T -> zsum (slice loc1 0 t) = o (B t))).
    - intros _. rewrite slice_nil by lia. unfold B. rewrite simple_boundary_0 by auto. unfold o. now rewrite off_0.
    - intros t Ht IH Hle. rewrite (slice_app loc1 0 t (t + 1)) by lia. rewrite zsum_app, IH by lia.
      destruct (H1' t ltac:(lia)) as (_ & _ & G). rewrite (slice_cons loc1 t (t + 1) _) by (eauto; lia).
      rewrite slice_nil by lia. cbn. lia. }
  assert (Tot : zsum loc1 = o m).
  { rewrite <- (slice_full loc1), L2, Sum by lia. unfold B. now rewrite simple_boundary_last by auto. }
  destruct (set_ok rp1 m (zsum loc1)) as (rp2 & E3); [lia|]. rewrite E3. pose proof (set_len _ _ _ _ E3) as L6.
  destruct (phase3_ok (sch 3%nat) rp2 ext1 loc2) as (rp3 & ext3 & E4 & L7 & G3 & N3 & L8 & V3 & X3); auto; try lia.
  - intros t Ht. rewrite G2 by auto. now rewrite Sum by lia.
  - intros t i Ht Hi. pose proof (B_range (t + 1) ltac:(lia)). rewrite (get_set_other _ _ _ _ _ E3) by lia.
    now apply (H1' t).
  - intros t e i Ht Q Hi. destruct (H1' t Ht) as (_ & G & _). auto.
  - rewrite E4, G3, (get_set_same _ _ _ _ E3).
    destruct (set_ok rp3 m (zsum loc1 + base)) as (rp4 & E5); [lia|]. rewrite E5, (get_set_same _ _ _ _ E5).
    rewrite R3, get_rowptr_of by lia.
    assert (Om : o m = off (nthl rows) m) by (apply rows_at_nnz, idx_perm).
    replace (zsum loc1 + base =? base + off (nthl rows) m) with true by lia.
    exists ext3. split; [do 2 f_equal|split].
    + pose proof (set_len _ _ _ _ E5) as L9.
      assert (LI : Zlen idx = m) by (apply is_perm_len; auto; apply idx_perm).
      apply list_ext; [rewrite Zlen_rowptr_of, Zlen_rows_at, LI; lia|].
      intros k Hk. rewrite get_rowptr_of by (rewrite Zlen_rows_at, LI; lia).
      rewrite (get_set _ _ _ _ _ E5). destruct (Z.eqb_spec k m) as [->|]; [rewrite Tot; f_equal; fold (o m); lia|].
      rewrite V3 by lia. reflexivity.
    + rewrite N3. destruct (extptr A), ext1; split; auto; try discriminate.
      * intros _. exfalso. assert (@None (list Z) <> None) by (apply L4; discriminate). auto.
      * intros _. exfalso. assert (@None (list Z) <> None) by (apply L4; discriminate). auto.
    + intros e Q. split; auto.
Qed.
End Rowptr.
