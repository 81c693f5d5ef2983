(** * ILU(0) factorisation over a level schedule (test/pcg.cpp:136-235).

    The matrix stores its diagonal positions in diagptr.  The comparison loop over
    two rows (pcg.cpp:157-166, 219-228) reads only colidx, which nobody stores to;
    the steps of a row are therefore listed in advance: one per division and one
    per multiply-subtract, each reading at most one element of another row. *)
From Coq Require Import Relations Permutation.
From Verif Require Import Base Interleave Spec PermUtils Flat Csr Transpose CsrTools CsrOps RowPar SpMV P2P P2PProg Phased Exec Kernels.

Lemma mapM_app {A B} (f : A -> option B) l1 l2 : mapM f (l1 ++ l2) = (a <- mapM f l1 ;; b <- mapM f l2 ;; Some (a ++ b)).
Proof.
  induction l1 as [|x l1 IH]; cbn [mapM app]. { destruct (mapM f l2); auto. }
  destruct (f x); auto. rewrite IH. destruct (mapM f l1); auto. destruct (mapM f l2); auto.
Qed.

Section Ilu.
Context {V : Type}.
Variables (sub mul div : V -> V -> V).

(** ** Sequential code *)
(** pcg.cpp:157-166.  [fuel] bounds the iterations; k1 + k2 grows in each. *)
Fixpoint ilu_while (fuel : nat) (A : csr V) (base : Z) (tmp : V) (k1 e1 k2 e2 : Z) (lu : list V) : option (list V) :=
  match fuel with
  | O => None
  | Datatypes.S fuel =>
      if (k1 <? e1) && (k2 <? e2) then
        c1 <- get (colidx A) (k1 - base) ;; c2 <- get (colidx A) (k2 - base) ;;
        if c1 <? c2 then ilu_while fuel A base tmp (k1 + 1) e1 k2 e2 lu
        else if c2 <? c1 then ilu_while fuel A base tmp k1 e1 (k2 + 1) e2 lu
        else x <- get lu (k1 - base) ;; z <- get lu (k2 - base) ;; lu' <- set lu (k1 - base) (sub x (mul tmp z)) ;;
             ilu_while fuel A base tmp (k1 + 1) e1 (k2 + 1) e2 lu'
      else Some lu
  end.
Definition ilu_fuel (k1 e1 k2 e2 : Z) : nat := Datatypes.S (Z.to_nat (e1 - k1) + Z.to_nat (e2 - k2)).
(** pcg.cpp:153-167, row [r] (0-based). *)
Definition ilu_row (A : csr V) (base : Z) (dp : list Z) (r : Z) (lu : list V) : option (list V) :=
  lo <- get (rowptr A) r ;; hi <- get (rowptr A) (r + 1) ;; d <- get dp r ;;
  forZ lo d (fun j lu =>
    c <- get (colidx A) (j - base) ;; dc <- get dp (c - base) ;;
    x <- get lu (j - base) ;; z <- get lu (dc - base) ;; lu' <- set lu (j - base) (div x z) ;;
    e <- get (rowptr A) (c - base + 1) ;;
    ilu_while (ilu_fuel (j + 1) hi (dc + 1) e) A base (div x z) (j + 1) hi (dc + 1) e lu') lu.
(** pcg.cpp:136-169.  The row loop runs over [0, m) although the pointers have
    been shifted by base: with base 1 it reads rowptr[-1]. *)
Definition ilu0_ref (A : csr V) (dp : list Z) (lu : list V) : option (list V) :=
  base <- getBase A ;; nnz <- getNnz A ;; vs <- values A ;;
  lu0 <- forZ 0 nnz (fun i l => v <- get vs i ;; set l i v) lu ;;
  forZ 0 (cm A) (fun i => ilu_row A base dp (i - base)) lu0.

(** ** Parallel code *)
Inductive lop := LDiv (j d : Z) | LSub (k1 k2 : Z) | LBad.
(** The local variable is [tmp]; positions are 0-based. *)
Definition lexec (o : lop) (l : option V) (lu : list V) : option (option V * list V) :=
  match o with
  | LDiv j d => x <- get lu j ;; z <- get lu d ;; lu' <- set lu j (div x z) ;; Some (Some (div x z), lu')
  | LSub k1 k2 => tmp <- l ;; x <- get lu k1 ;; z <- get lu k2 ;; lu' <- set lu k1 (sub x (mul tmp z)) ;; Some (l, lu')
  | LBad => None
  end.
(** pcg.cpp:219-228: the pairs (k1, k2) with equal columns. *)
Fixpoint ilu_pairs (fuel : nat) (A : csr V) (base k1 e1 k2 e2 : Z) : option (list lop) :=
  match fuel with
  | O => None
  | Datatypes.S fuel =>
      if (k1 <? e1) && (k2 <? e2) then
        c1 <- get (colidx A) (k1 - base) ;; c2 <- get (colidx A) (k2 - base) ;;
        if c1 <? c2 then ilu_pairs fuel A base (k1 + 1) e1 k2 e2
        else if c2 <? c1 then ilu_pairs fuel A base k1 e1 (k2 + 1) e2
        else ps <- ilu_pairs fuel A base (k1 + 1) e1 (k2 + 1) e2 ;; Some (LSub (k1 - base) (k2 - base) :: ps)
      else Some []
  end.
(** pcg.cpp:215-229: the steps for the entry at [j] and for row [r]. *)
Definition ilu_entry (A : csr V) (base : Z) (dp : list Z) (hi j : Z) : option (list lop) :=
  c <- get (colidx A) (j - base) ;; dc <- get dp (c - base) ;; e <- get (rowptr A) (c - base + 1) ;;
  ps <- ilu_pairs (ilu_fuel (j + 1) hi (dc + 1) e) A base (j + 1) hi (dc + 1) e ;; Some (LDiv (j - base) (dc - base) :: ps).
Definition ilu_ops_row (A : csr V) (base : Z) (dp : list Z) (r : Z) : option (list lop) :=
  lo <- get (rowptr A) r ;; hi <- get (rowptr A) (r + 1) ;; d <- get dp r ;;
  l <- mapM (ilu_entry A base dp hi) (zrange lo d) ;; Some (concat l).
Definition ilu_ops (A : csr V) (base : Z) (dp : list Z) (r : Z) : list lop :=
  match ilu_ops_row A base dp r with Some l => l | None => [LBad] end.
(** pcg.cpp:187-190: copy of the values, in any order, before the barrier. *)
Definition ilu_copy (A : csr V) (sch : list nat) (lu : list V) : option (list V) :=
  nnz <- getNnz A ;; vs <- values A ;; par_any sch (fun i l => v <- get vs i ;; set l i v) 0 nnz lu.

(** ** Specification *)
(** [dp] points to an entry on the diagonal in every row, and the entries stored
    before it are in columns of the square part. *)
Definition diagptr_ok (base : Z) (rows : rows_t V) (dp : list Z) : Prop :=
  forall r, 0 <= r < Zlen rows -> exists q v, get (nthl rows r) q = Some (r, v) /\ get dp r = Some (base + off (nthl rows) r + q) /\
    forall q' c w, 0 <= q' < q -> get (nthl rows r) q' = Some (c, w) -> 0 <= c < Zlen rows.

(** ** Proofs *)
Section Proof.
Variables (base n : Z) (rows : rows_t V) (A : csr V) (dp : list Z).
Hypothesis HR : rep true base n rows A.
Hypothesis Hdp : diagptr_ok base rows dp.
Let m := Zlen rows.
Notation o_ := (off (nthl rows)).
Definition rowat (p : Z) : Z := zfind (fun r => (o_ r <=? p) && (p <? o_ (r + 1))) m.
Lemma rowat_ok r p : 0 <= r < m -> o_ r <= p < o_ (r + 1) -> rowat p = r.
Proof.
  intros Hr Hp. destruct (zfind_ok (fun r => (o_ r <=? p) && (p <? o_ (r + 1))) m r Hr) as (B & C); [lia|]. fold (rowat p) in B, C.
  assert (C' : o_ (rowat p) <= p < o_ (rowat p + 1)) by lia. rewrite off_S in Hp, C' by lia.
  eapply (off_unique (nthl rows) (rowat p) (p - o_ (rowat p)) r (p - o_ r)); lia.
Qed.
Lemma col_get p : 0 <= p < o_ m -> exists c, get (colidx A) p = Some c.
Proof. intros Hp. destruct HR as (_ & _ & _ & -> & _). apply get_in_range. now rewrite Zlen_colidx_of. Qed.
Lemma row_end r : 0 <= r < m -> 0 <= o_ r /\ o_ (r + 1) <= o_ m.
Proof. intros Hr. split; [apply off_nonneg|]. apply off_mono. lia. Qed.

Lemma pairs_ok fuel : forall k1 e1 k2 e2, (Z.to_nat (e1 - k1) + Z.to_nat (e2 - k2) < fuel)%nat ->
  base <= k1 -> e1 <= base + o_ m -> base <= k2 -> e2 <= base + o_ m ->
  exists ps, ilu_pairs fuel A base k1 e1 k2 e2 = Some ps /\
    (forall o, In o ps -> exists a b, o = LSub a b /\ k1 - base <= a < e1 - base /\ k2 - base <= b < e2 - base) /\
    forall tmp lu, ilu_while fuel A base tmp k1 e1 k2 e2 lu =
      (' (_, lu') <- foldM (fun o ls => lexec o (fst ls) (snd ls)) ps (Some tmp, lu) ;; Some lu').
Proof.
  induction fuel as [|fuel IH]; intros k1 e1 k2 e2 Hf H1 H2 H3 H4; [lia|]. cbn [ilu_pairs ilu_while].
  destruct (Z.ltb_spec k1 e1) as [L1|L1]; cbn [andb]. 2:{ exists []. split; auto. split; [intros o []|auto]. }
  destruct (Z.ltb_spec k2 e2) as [L2|L2]. 2:{ exists []. split; auto. split; [intros o []|auto]. }
  destruct (col_get (k1 - base)) as (c1 & E1); [lia|]. destruct (col_get (k2 - base)) as (c2 & E2); [lia|]. rewrite E1, E2.
  destruct (c1 <? c2).
  { destruct (IH (k1 + 1) e1 k2 e2) as (ps & A1 & A2 & A3); try lia. exists ps. split; auto. split; auto.
    intros o Ho. destruct (A2 o Ho) as (a & b & -> & B1 & B2). exists a, b. split; auto. lia. }
  destruct (c2 <? c1).
  { destruct (IH k1 e1 (k2 + 1) e2) as (ps & A1 & A2 & A3); try lia. exists ps. split; auto. split; auto.
    intros o Ho. destruct (A2 o Ho) as (a & b & -> & B1 & B2). exists a, b. split; auto. lia. }
  destruct (IH (k1 + 1) e1 (k2 + 1) e2) as (ps & A1 & A2 & A3); try lia. rewrite A1. eexists. split; [reflexivity|]. split.
  - intros o [<-|Ho]. { exists (k1 - base), (k2 - base). split; auto. lia. } destruct (A2 o Ho) as (a & b & -> & B1 & B2). exists a, b. split; auto. lia.
  - intros tmp lu. cbn [foldM fst snd lexec]. destruct (get lu (k1 - base)) as [x|]; auto. destruct (get lu (k2 - base)) as [z|]; auto.
    destruct (set lu (k1 - base) (sub x (mul tmp z))) as [lu'|]; auto. 
Qed.

(** What the steps of row [r] touch. *)
Definition op_in (r : Z) (o : lop) : Prop :=
  match o with
  | LDiv a d => o_ r <= a < o_ (r + 1) /\ exists c, 0 <= c < m /\ entry rows r c /\ o_ c <= d < o_ (c + 1)
  | LSub a d => o_ r <= a < o_ (r + 1) /\ exists c, 0 <= c < m /\ entry rows r c /\ o_ c <= d < o_ (c + 1)
  | LBad => False
  end.
Lemma row_bounds r : 0 <= r < m -> exists q v, get (nthl rows r) q = Some (r, v) /\
  get (rowptr A) r = Some (base + o_ r) /\ get (rowptr A) (r + 1) = Some (base + o_ (r + 1)) /\ get dp r = Some (base + o_ r + q) /\
  0 <= q < Zlen (nthl rows r) /\ o_ (r + 1) = o_ r + Zlen (nthl rows r) /\
  forall q' c w, 0 <= q' < q -> get (nthl rows r) q' = Some (c, w) -> 0 <= c < m.
Proof.
  intros Hr. destruct (Hdp r Hr) as (q & v & E & D & F). exists q, v. split; auto. unfold m in Hr. rewrite !(rep_rowptr _ _ _ _ _ _ HR) by lia.
  repeat split; auto; try (apply get_Some_bounds in E; lia). { apply off_S. lia. } all: eapply F; eauto.
Qed.
Lemma entry_ok r j : 0 <= r < m -> forall q v, get (nthl rows r) q = Some (r, v) -> 0 <= j < q ->
  (forall q' c w, 0 <= q' < q -> get (nthl rows r) q' = Some (c, w) -> 0 <= c < m) ->
  exists c dc ps, get (colidx A) (o_ r + j) = Some (c + base) /\ 0 <= c < m /\ get dp c = Some (base + dc) /\ o_ c <= dc < o_ (c + 1) /\ entry rows r c /\
    get (rowptr A) (c + 1) = Some (base + o_ (c + 1)) /\
    ilu_entry A base dp (base + o_ (r + 1)) (base + o_ r + j) = Some (LDiv (o_ r + j) dc :: ps) /\
    (forall o, In o (LDiv (o_ r + j) dc :: ps) -> op_in r o) /\
    forall tmp lu, ilu_while (ilu_fuel (base + o_ r + j + 1) (base + o_ (r + 1)) (base + dc + 1) (base + o_ (c + 1))) A base tmp (base + o_ r + j + 1) (base + o_ (r + 1)) (base + dc + 1) (base + o_ (c + 1)) lu =
      (' (_, lu') <- foldM (fun o ls => lexec o (fst ls) (snd ls)) ps (Some tmp, lu) ;; Some lu').
Proof.
  intros Hr q v E Hj F. pose proof (get_Some_bounds _ _ _ E) as Bq. destruct (get_in_range (nthl rows r) j) as ((c & w) & Ec); [lia|].
  assert (Hc : 0 <= c < m) by (eapply F; eauto). destruct (row_bounds c Hc) as (qc & vc & _ & R1 & R2 & R3 & R4 & R5 & _).
  destruct (row_end r Hr) as (S1 & S2). destruct (row_end c Hc) as (S3 & S4). pose proof (off_S (nthl rows) r ltac:(lia)) as S5.
  assert (EC : get (colidx A) (o_ r + j) = Some (c + base)) by (destruct HR as (_ & _ & _ & -> & _); eapply get_colidx_of; eauto).
  assert (EN : entry rows r c) by (exists w; eapply get_In; eauto).
  destruct (pairs_ok (ilu_fuel (base + o_ r + j + 1) (base + o_ (r + 1)) (base + (o_ c + qc) + 1) (base + o_ (c + 1))) (base + o_ r + j + 1) (base + o_ (r + 1)) (base + (o_ c + qc) + 1) (base + o_ (c + 1))) as (ps & P1 & P2 & P3); try lia.
  { unfold ilu_fuel. lia. }
  exists c, (o_ c + qc), ps. split; auto. split; auto. split; [rewrite R3; f_equal; lia|]. split; [lia|]. split; auto. split; auto. split.
  - unfold ilu_entry. replace (base + o_ r + j - base) with (o_ r + j) by lia. rewrite EC. replace (c + base - base) with c by lia. rewrite R3, R2.
    replace (base + o_ c + qc) with (base + (o_ c + qc)) by lia. rewrite P1. do 3 f_equal; lia.
  - split; auto. intros o [<-|Ho].
    + cbn [op_in]. split; [lia|]. exists c. split; auto. split; auto. lia.
    + destruct (P2 o Ho) as (a & b & -> & B1 & B2). cbn [op_in]. split; [lia|]. exists c. split; auto. split; auto. lia.
Qed.
Lemma ops_ok r : 0 <= r < m -> exists l, ilu_ops_row A base dp r = Some l /\ (forall o, In o l -> op_in r o) /\
  forall lu, ilu_row A base dp r lu = (' (_, lu') <- foldM (fun o ls => lexec o (fst ls) (snd ls)) l (None, lu) ;; Some lu').
Proof.
  intros Hr. destruct (row_bounds r Hr) as (q & v & E & R1 & R2 & R3 & Hq & R5 & F). unfold ilu_ops_row, ilu_row. rewrite R1, R2, R3. unfold forZ.
  assert (H : forall i, 0 <= i <= q -> exists l, mapM (ilu_entry A base dp (base + o_ (r + 1))) (zrange (base + o_ r) (base + o_ r + i)) = Some l /\
    (forall o, In o (concat l) -> op_in r o) /\
    forall lu t, foldM (fun j lu => c <- get (colidx A) (j - base) ;; dc <- get dp (c - base) ;;
      x <- get lu (j - base) ;; z <- get lu (dc - base) ;; lu' <- set lu (j - base) (div x z) ;;
      e <- get (rowptr A) (c - base + 1) ;;
      ilu_while (ilu_fuel (j + 1) (base + o_ (r + 1)) (dc + 1) e) A base (div x z) (j + 1) (base + o_ (r + 1)) (dc + 1) e lu') (zrange (base + o_ r) (base + o_ r + i)) lu =
      (' (_, lu') <- foldM (fun o ls => lexec o (fst ls) (snd ls)) (concat l) (t, lu) ;; Some lu')).
  { intros i (Hi0 & Hiq). revert Hiq. pattern i. revert i Hi0. apply Z_ind0.
    - intros _. rewrite zrange_nil by lia. exists []. split; auto. split; [intros o []|auto].
    - intros i Hi IH Hiq. destruct IH as (l & A1 & A2 & A3); [lia|].
      destruct (entry_ok r i Hr q v E ltac:(lia) F) as (c & dc & ps & EC & Hc & D1 & D2 & D3 & D4 & D5 & D6 & D7).
      replace (base + o_ r + (i + 1)) with (base + o_ r + i + 1) by lia. rewrite zrange_snoc by lia.
      exists (l ++ [LDiv (o_ r + i) dc :: ps]). rewrite mapM_app, A1. cbn [mapM]. rewrite D5. split; auto. rewrite concat_app. cbn [concat]. rewrite app_nil_r. split.
      { intros o Ho. apply in_app_iff in Ho as [Ho|Ho]; auto. }
      intros lu t. rewrite foldM_app, (foldM_app _ (concat l)), (A3 lu t). destruct (foldM _ (concat l) (t, lu)) as [(t1, lu1)|]; auto.
      change (foldM (fun (o : lop) (ls : option V * list V) => lexec o (fst ls) (snd ls)) (LDiv (o_ r + i) dc :: ps) (t1, lu1)) with
        (s' <- lexec (LDiv (o_ r + i) dc) t1 lu1 ;; foldM (fun (o : lop) (ls : option V * list V) => lexec o (fst ls) (snd ls)) ps s').
      cbn [foldM lexec]. replace (base + o_ r + i - base) with (o_ r + i) by lia. rewrite EC. replace (c + base - base) with c by lia. rewrite D1, D4.
      replace (base + dc - base) with dc by lia. destruct (get lu1 (o_ r + i)) as [x|]; auto. destruct (get lu1 dc) as [z|]; auto.
      destruct (set lu1 (o_ r + i) (div x z)) as [lu2|]; auto. rewrite D7. destruct (foldM _ ps (Some (div x z), lu2)) as [(t3, lu3)|]; auto. }
  destruct (H q) as (l & A1 & A2 & A3); [lia|]. rewrite A1. exists (concat l). split; auto.
Qed.
Lemma row_run_ilu r lu : 0 <= r < m -> row_run lexec None (ilu_ops A base dp) r lu = ilu_row A base dp r lu.
Proof. intros Hr. destruct (ops_ok r Hr) as (l & E & _ & F). unfold row_run, ilu_ops. rewrite E. now rewrite F. Qed.
Lemma op_def r o l lu : 0 <= r < m -> op_in r o -> Zlen lu = o_ m -> (forall k1 k2, o = LSub k1 k2 -> l <> None) ->
  exists t lu', lexec o l lu = Some (Some t, lu') /\ Zlen lu' = Zlen lu.
Proof.
  intros Hr Ho HL Hl. destruct (row_end r Hr) as (S1 & S2). destruct o as [a d|a d|]; [| |destruct Ho].
  - destruct Ho as (Ha & c & Hc & _ & Hd). destruct (row_end c Hc) as (S3 & S4). cbn [lexec].
    destruct (get_in_range lu a) as (x & ->); [lia|]. destruct (get_in_range lu d) as (z & ->); [lia|]. destruct (set_ok lu a (div x z)) as (lu' & E); [lia|].
    rewrite E. eexists _, _. split; [reflexivity|]. eapply set_len; eauto.
  - destruct Ho as (Ha & c & Hc & _ & Hd). destruct (row_end c Hc) as (S3 & S4). cbn [lexec]. destruct l as [t|]; [|destruct (Hl a d eq_refl eq_refl)].
    destruct (get_in_range lu a) as (x & ->); [lia|]. destruct (get_in_range lu d) as (z & ->); [lia|]. destruct (set_ok lu a (sub x (mul t z))) as (lu' & E); [lia|].
    rewrite E. eexists _, _. split; [reflexivity|]. eapply set_len; eauto.
Qed.
Lemma ilu_row_ok r lu : 0 <= r < m -> Zlen lu = o_ m -> exists lu', ilu_row A base dp r lu = Some lu' /\ Zlen lu' = Zlen lu.
Proof.
  intros Hr HL. destruct (row_bounds r Hr) as (q & v & E & R1 & R2 & R3 & Hq & R5 & F). unfold ilu_row. rewrite R1, R2, R3.
  assert (H : forall i, 0 <= i <= q -> exists lu', forZ (base + o_ r) (base + o_ r + i) (fun j lu => c <- get (colidx A) (j - base) ;; dc <- get dp (c - base) ;;
      x <- get lu (j - base) ;; z <- get lu (dc - base) ;; lu' <- set lu (j - base) (div x z) ;;
      e <- get (rowptr A) (c - base + 1) ;;
      ilu_while (ilu_fuel (j + 1) (base + o_ (r + 1)) (dc + 1) e) A base (div x z) (j + 1) (base + o_ (r + 1)) (dc + 1) e lu') lu = Some lu' /\ Zlen lu' = Zlen lu).
  { unfold forZ. intros i (Hi0 & Hiq). revert Hiq. pattern i. revert i Hi0. apply Z_ind0.
    - intros _. rewrite zrange_nil by lia. exists lu. auto.
    - intros i Hi IH Hiq. destruct IH as (lu1 & A1 & A2); [lia|].
      destruct (entry_ok r i Hr q v E ltac:(lia) F) as (c & dc & ps & EC & Hc & D1 & D2 & D3 & D4 & D5 & D6 & D7).
      replace (base + o_ r + (i + 1)) with (base + o_ r + i + 1) by lia. rewrite zrange_snoc by lia. rewrite foldM_app, A1. cbn [foldM].
      replace (base + o_ r + i - base) with (o_ r + i) by lia. rewrite EC. replace (c + base - base) with c by lia. rewrite D1, D4.
      replace (base + dc - base) with dc by lia. destruct (row_end r Hr) as (S1 & S2). destruct (row_end c Hc) as (S3 & S4).
      destruct (get_in_range lu1 (o_ r + i)) as (x & ->); [lia|]. destruct (get_in_range lu1 dc) as (z & ->); [lia|].
      destruct (set_ok lu1 (o_ r + i) (div x z)) as (lu2 & E2); [lia|]. rewrite E2, D7. apply set_len in E2.
      assert (HP : forall ps t lu2, (forall o, In o ps -> op_in r o) -> Zlen lu2 = o_ m -> exists t' lu3, foldM (fun o ls => lexec o (fst ls) (snd ls)) ps (Some t, lu2) = Some (Some t', lu3) /\ Zlen lu3 = o_ m).
      { clear - Hr. induction ps as [|o ps IH]; intros t lu2 Hps HL; cbn [foldM]; eauto. destruct (op_def r o (Some t) lu2 Hr (Hps o (or_introl eq_refl)) HL) as (t' & lu3 & E & HL3); [discriminate|].
        cbn [fst snd]. rewrite E. apply IH; auto. - intros; apply Hps; cbn; auto. - lia. }
      destruct (HP ps (div x z) lu2) as (t' & lu3 & -> & HL3); [intros; apply D6; cbn; auto|lia|]. exists lu3. split; auto. lia. }
  apply H. lia.
Qed.
Lemma ilu_sweep_ok order lu : (forall r, In r order -> 0 <= r < m) -> Zlen lu = o_ m -> exists lu', foldM (ilu_row A base dp) order lu = Some lu' /\ Zlen lu' = o_ m.
Proof.
  revert lu. induction order as [|r order IH]; intros lu Ho HL; cbn [foldM]; eauto. destruct (ilu_row_ok r lu) as (lu1 & E & L1); auto. { apply Ho; cbn; auto. }
  rewrite E. apply IH; [|lia]. intros; apply Ho; cbn; auto.
Qed.
Lemma ops_in r o : 0 <= r < m -> In o (ilu_ops A base dp r) -> op_in r o.
Proof. intros Hr Ho. destruct (ops_ok r Hr) as (l & E & F & _). unfold ilu_ops in Ho. rewrite E in Ho. auto. Qed.
Lemma ilu_frame r o l s l' s' : 0 <= r < m -> In o (ilu_ops A base dp r) -> lexec o l s = Some (l', s') ->
  Zlen s' = Zlen s /\ forall p, rowat p <> r -> get s' p = get s p.
Proof.
  intros Hr Ho E. apply ops_in in Ho; auto. destruct o as [a d|a d|]; [| |destruct Ho]; destruct Ho as (Ha & _); cbn [lexec] in E.
  - destruct (get s a) as [x|]; [|discriminate]. destruct (get s d) as [z|]; [|discriminate]. destruct (set s a (div x z)) as [s1|] eqn:ES; [|discriminate].
    injection E as _ <-. split; [eapply set_len; eauto|]. intros p Hp. apply (get_set_other _ _ _ _ _ ES). intros ->. apply Hp. now apply rowat_ok.
  - destruct l as [t|]; [|discriminate]. destruct (get s a) as [x|]; [|discriminate]. destruct (get s d) as [z|]; [|discriminate]. destruct (set s a (sub x (mul t z))) as [s1|] eqn:ES; [|discriminate].
    injection E as _ <-. split; [eapply set_len; eauto|]. intros p Hp. apply (get_set_other _ _ _ _ _ ES). intros ->. apply Hp. now apply rowat_ok.
Qed.
Lemma set_same_eq (s1 s2 s1' : list V) a w : Zlen s1 = Zlen s2 -> set s1 a w = Some s1' -> exists s2', set s2 a w = Some s2' /\
  forall p, get s1 p = get s2 p -> get s2' p = get s1' p.
Proof.
  intros HL E. destruct (set_Some_inv _ _ _ _ E) as (B & _). destruct (set_ok s2 a w) as (s2' & E2); [lia|]. exists s2'. split; auto.
  intros p Hp. destruct (Z.eq_dec p a) as [->|N]. { rewrite (get_set_same _ _ _ _ E). eapply get_set_same; eauto. }
  rewrite (get_set_other _ _ _ _ _ E) by auto. rewrite (get_set_other _ _ _ _ _ E2) by auto. auto.
Qed.
Lemma ilu_local r o l s1 s2 l' s1' : 0 <= r < m -> In o (ilu_ops A base dp r) -> Zlen s1 = Zlen s2 ->
  (forall p, rowat p = r \/ entry rows r (rowat p) \/ ~ (0 <= rowat p < m) -> get s1 p = get s2 p) -> lexec o l s1 = Some (l', s1') ->
  exists s2', lexec o l s2 = Some (l', s2') /\ forall p, rowat p = r -> get s2' p = get s1' p.
Proof.
  intros Hr Ho HL HA E. apply ops_in in Ho; auto. destruct o as [a d|a d|]; [| |destruct Ho]; destruct Ho as (Ha & c & Hc & He & Hd); cbn [lexec] in *.
  - rewrite <- (HA a) by (left; now apply rowat_ok). rewrite <- (HA d) by (right; left; now rewrite (rowat_ok c)).
    destruct (get s1 a) as [x|]; [|discriminate]. destruct (get s1 d) as [z|]; [|discriminate]. destruct (set s1 a (div x z)) as [s1x|] eqn:ES; [|discriminate].
    injection E as <- <-. destruct (set_same_eq _ _ _ _ _ HL ES) as (s2' & -> & F). exists s2'. split; auto.
  - destruct l as [t|]; [|discriminate]. rewrite <- (HA a) by (left; now apply rowat_ok). rewrite <- (HA d) by (right; left; now rewrite (rowat_ok c)).
    destruct (get s1 a) as [x|]; [|discriminate]. destruct (get s1 d) as [z|]; [|discriminate]. destruct (set s1 a (sub x (mul t z))) as [s1x|] eqn:ES; [|discriminate].
    injection E as <- <-. destruct (set_same_eq _ _ _ _ _ HL ES) as (s2' & -> & F). exists s2'. split; auto.
Qed.
Lemma ilu_nnz : getNnz A = Some (o_ m) /\ values A = Some (values_of rows) /\ Zlen (values_of rows) = o_ m /\ getBase A = Some base.
Proof.
  destruct HR as (E1 & _ & _ & _ & E5). split; [|split; [auto|split; [apply Zlen_values_of|]]].
  - unfold getNnz, getBase. rewrite E1. pose proof (Zlen_nonneg rows). rewrite !(rep_rowptr _ _ _ _ _ _ HR) by lia. rewrite off_0. f_equal. unfold m. lia.
  - unfold getBase. pose proof (Zlen_nonneg rows). rewrite (rep_rowptr _ _ _ _ _ _ HR) by lia. rewrite off_0. f_equal. lia.
Qed.
(** Sequential factorisation of all rows in [order], starting from the values. *)
Theorem ilu_p2p T S rowof order sch lu : Zlen lu = o_ m ->
  sched_ok T m S rowof -> waits_ok true S -> waits_ranked true S -> Permutation order (zrange 0 m) -> covers true S rowof rows order ->
  exists fin, foldM (ilu_row A base dp) order (values_of rows) = Some fin /\
    ilu_copy A sch lu = Some (values_of rows) /\
    p2p_computes lexec None (ilu_ops A base dp) true S rowof T (values_of rows) fin.
Proof.
  intros HL HS HW HK Ho HC. destruct ilu_nnz as (N1 & N2 & N3 & _).
  assert (Hin : forall r, In r order -> 0 <= r < m). { intros r Hr. apply (Permutation_in _ Ho) in Hr. now apply In_zrange in Hr. }
  destruct (ilu_sweep_ok order (values_of rows) Hin N3) as (fin & E & _). exists fin. split; auto. split.
  { unfold ilu_copy. rewrite N1, N2. apply par_copy; auto. }
  apply (general_p2p _ _ _ true T V rows S rowof order rowat (values_of rows) fin HS Ho); auto.
  - intros. eapply ilu_frame; eauto.
  - intros. eapply ilu_local; eauto.
  - rewrite <- E. apply foldM_ext_in. intros r s Hr. apply row_run_ilu; auto.
Qed.
Theorem ilu_ref_ok lu : base = 0 -> Zlen lu = o_ m -> ilu0_ref A dp lu = foldM (ilu_row A base dp) (zrange 0 m) (values_of rows).
Proof.
  intros E0 HL. destruct ilu_nnz as (N1 & N2 & N3 & N4). unfold ilu0_ref. rewrite N4, N1, N2.
  pose proof (par_copy [] (values_of rows) lu (o_ m) ltac:(lia) HL) as P. unfold par_any, par in P. cbn [merge] in P. rewrite concat_singletons in P.
  unfold forZ. rewrite P, (proj1 HR). apply foldM_ext_in. intros r s _. f_equal. lia.
Qed.
End Proof.
End Ilu.
