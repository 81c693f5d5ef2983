(** * Small operations of class CSR (/repo/CSR.cpp). *)
From Verif Require Import Base Spec Interleave Partition PrefixSum Flat Csr Transpose CsrTools.

(** ** Reading a represented matrix *)

Lemma rep_rowptr {V} hasv base n rows (A : csr V) i : rep hasv base n rows A -> 0 <= i <= Zlen rows ->
  get (rowptr A) i = Some (base + off (nthl rows) i).
Proof. intros (H1 & H2 & H3 & H4 & H5) Hi. now rewrite H3, get_rowptr_of by lia. Qed.

Lemma rep_rowptr_S {V} hasv base n rows (A : csr V) i : rep hasv base n rows A -> 0 <= i < Zlen rows ->
  get (rowptr A) (i + 1) = Some (base + (off (nthl rows) i + Zlen (nthl rows i))).
Proof. intros HR Hi. rewrite (rep_rowptr _ _ _ _ _ _ HR) by lia. f_equal. rewrite off_S by lia. lia. Qed.

Lemma rep_col {V} hasv base n rows (A : csr V) i k c v : rep hasv base n rows A -> 0 <= i < Zlen rows ->
  get (nthl rows i) k = Some (c, v) -> get (colidx A) (off (nthl rows) i + k) = Some (c + base).
Proof. intros (H1 & H2 & H3 & H4 & H5) Hi E. rewrite H4. now apply (get_colidx_of base rows i k c v). Qed.

Lemma rep_val {V} base n rows (A : csr V) i k c v : rep true base n rows A -> 0 <= i < Zlen rows ->
  get (nthl rows i) k = Some (c, v) ->
  exists vs, values A = Some vs /\ get vs (off (nthl rows) i + k) = Some v.
Proof.
  intros (H1 & H2 & H3 & H4 & H5) Hi E. exists (values_of rows). split; auto.
  now apply (get_values_of rows i k c v).
Qed.

Lemma rep_base {V} hasv base n rows (A : csr V) : rep hasv base n rows A -> getBase A = Some base.
Proof.
  intros HR. unfold getBase. rewrite (rep_rowptr _ _ _ _ _ _ HR) by (pose proof (Zlen_nonneg rows); lia).
  f_equal. rewrite off_0. lia.
Qed.

Lemma rep_nnz {V} hasv base n rows (A : csr V) : rep hasv base n rows A -> getNnz A = Some (Zlen (concat rows)).
Proof.
  intros HR. unfold getNnz. rewrite (rep_base _ _ _ _ _ HR). destruct HR as (H1 & H2 & H3 & H4 & H5).
  rewrite H1, H3, get_rowptr_of by (pose proof (Zlen_nonneg rows); lia). f_equal. rewrite Zlen_concat. lia.
Qed.

(** A matrix determines its rows. *)
Lemma rep_inj {V} hasv b1 b2 n1 n2 (r1 r2 : rows_t V) A : rep hasv b1 n1 r1 A -> rep hasv b2 n2 r2 A ->
  b1 = b2 /\ n1 = n2 /\ map (map fst) r1 = map (map fst) r2 /\ (hasv = true -> r1 = r2).
Proof.
  intros HR1 HR2. pose proof (rep_base _ _ _ _ _ HR1) as B1. pose proof (rep_base _ _ _ _ _ HR2) as B2.
  assert (b1 = b2) by congruence. subst b2.
  pose proof HR1 as (H1 & H2 & H3 & H4 & H5). pose proof HR2 as (K1 & K2 & K3 & K4 & K5).
  split; auto. split; [congruence|]. assert (Zlen r1 = Zlen r2) as L by congruence.
  assert (Ho : forall i, 0 <= i <= Zlen r1 -> off (nthl r1) i = off (nthl r2) i).
  { intros i Hi. pose proof (rep_rowptr _ _ _ _ _ i HR1 Hi). pose proof (rep_rowptr _ _ _ _ _ i HR2 ltac:(lia)).
    assert (Some (b1 + off (nthl r1) i) = Some (b1 + off (nthl r2) i)) as E by congruence. injection E. lia. }
  assert (Hl : forall i, 0 <= i < Zlen r1 -> Zlen (nthl r1 i) = Zlen (nthl r2 i)).
  { intros i Hi. pose proof (Ho i ltac:(lia)). pose proof (Ho (i + 1) ltac:(lia)). rewrite !off_S in * by lia. lia. }
  assert (Hc : map fst (concat r1) = map fst (concat r2)).
  { assert (map (fun e => fst e + b1) (concat r1) = map (fun e => fst e + b1) (concat r2)) as E.
    { change (colidx_of b1 r1 = colidx_of b1 r2). congruence. }
    revert E. generalize (concat r1), (concat r2). intros l. induction l as [|x l IH]; intros [|y l'] E; cbn in *; try discriminate; auto.
    injection E as E1 E2. f_equal; auto. lia. }
  assert (Hs : forall {X} (f : Z * V -> X), map f (concat r1) = map f (concat r2) -> map (map f) r1 = map (map f) r2).
  { intros X f E. apply list_ext; [now rewrite !Zlen_map|]. rewrite Zlen_map. intros i Hi.
    rewrite !get_map, !get_nthl by lia. cbn. f_equal.
    rewrite <- (slice_concat r1 i), <- (slice_concat r2 i) by lia. rewrite <- !slice_map, E.
    now rewrite !Ho by lia. }
  split; [apply Hs; auto|]. intros ->.
  assert (map snd (concat r1) = map snd (concat r2)) as Hv.
  { change (values_of r1 = values_of r2). congruence. }
  assert (map (fun x => x) (concat r1) = map (fun x => x) (concat r2)) as E.
  { rewrite !map_id. revert Hc Hv. generalize (concat r1), (concat r2). intros l.
    induction l as [|[a b] l IH]; intros [|[c d] l'] E1 E2; cbn in *; try discriminate; auto.
    injection E1 as E1 E1'. injection E2 as E2 E2'. subst. f_equal. auto. }
  apply Hs in E. rewrite !(map_ext (map (fun x => x)) (fun x => x)), !map_id in E by (intros; apply map_id). auto.
Qed.

(** ** C07: index base *)

Section Based.
Context {V : Type}.
Implicit Types A : csr V.

(** CSR.cpp:399-439, the three [omp parallel for] loops with step [d]. *)
Definition shift_index A (d : Z) (sch : nat -> list nat) : option (csr V) :=
  nnz <- getNnz A ;;
  rp <- par_any (sch 0%nat) (fun i w => v <- get w i ;; set w i (v + d)) 0 (cm A + 1) (rowptr A) ;;
  ci <- par_any (sch 1%nat) (fun i w => v <- get w i ;; set w i (v + d)) 0 nnz (colidx A) ;;
  dp <- match diagptr A with
        | Some dp => dp <- par_any (sch 2%nat) (fun i w => v <- get w i ;; set w i (v + d)) 0 (cm A) dp ;; Some (Some dp)
        | None => Some None
        end ;;
  Some (mkCSR (cm A) (cn A) rp ci (values A) (idiag A) (diag A) dp (extptr A)).
(** CSR.cpp:399-418 *)
Definition make0Based A sch : option (csr V) :=
  b <- getBase A ;; if 0 =? b then Some A else shift_index A (-1) sch.
(** CSR.cpp:420-439 *)
Definition make1Based A sch : option (csr V) :=
  b <- getBase A ;; if 1 =? b then Some A else shift_index A 1 sch.

Definition diagptr_len A : Prop := forall d, diagptr A = Some d -> Zlen d = cm A.

Lemma shift_index_ok A d sch base : csr_wf base A -> diagptr_len A ->
  shift_index A d sch = Some (mkCSR (cm A) (cn A) (map (fun x => x + d) (rowptr A)) (map (fun x => x + d) (colidx A))
     (values A) (idiag A) (diag A) (option_map (map (fun x => x + d)) (diagptr A)) (extptr A)).
Proof.
  intros (H1 & H2 & H3 & H4 & H5 & H6) HD. unfold shift_index, getNnz, getBase. rewrite H3, H5.
  rewrite par_map by lia. rewrite par_map by lia. unfold diagptr_len in HD.
  destruct (diagptr A) as [dp|]; auto. rewrite par_map; auto. symmetry. now apply HD.
Qed.

Lemma shift_rep hasv base d n rows A : rep hasv base n rows A ->
  rep hasv (base + d) n rows (mkCSR (cm A) (cn A) (map (fun x => x + d) (rowptr A)) (map (fun x => x + d) (colidx A))
     (values A) (idiag A) (diag A) (option_map (map (fun x => x + d)) (diagptr A)) (extptr A)).
Proof.
  intros (H1 & H2 & H3 & H4 & H5). unfold rep. cbn. rewrite H3, H4. unfold rowptr_of, colidx_of. rewrite !map_map.
  repeat split; auto; apply map_ext; intros; lia.
Qed.

Lemma map_shift_cancel d l : map (fun x : Z => x + - d) (map (fun x => x + d) l) = l.
Proof. rewrite map_map, (map_ext _ (fun x => x)); [apply map_id|intros; lia]. Qed.

Theorem make0_ok hasv n rows A sch : rep hasv 1 n rows A -> diagptr_len A ->
  exists A', make0Based A sch = Some A' /\ rep hasv 0 n rows A' /\
    values A' = values A /\ idiag A' = idiag A /\ diag A' = diag A /\ extptr A' = extptr A /\
    diagptr A' = option_map (map (fun x => x - 1)) (diagptr A).
Proof.
  intros HR HD. unfold make0Based. rewrite (rep_base _ _ _ _ _ HR). change (0 =? 1) with false. cbv iota.
  rewrite (shift_index_ok A (-1) sch 1) by (auto; eapply rep_csr_wf; eauto). eexists. split; [reflexivity|].
  split; [apply (shift_rep hasv 1 (-1)); auto|]. cbn. repeat split; auto.
Qed.
Theorem make1_ok hasv n rows A sch : rep hasv 0 n rows A -> diagptr_len A ->
  exists A', make1Based A sch = Some A' /\ rep hasv 1 n rows A' /\
    values A' = values A /\ idiag A' = idiag A /\ diag A' = diag A /\ extptr A' = extptr A /\
    diagptr A' = option_map (map (fun x => x + 1)) (diagptr A).
Proof.
  intros HR HD. unfold make1Based. rewrite (rep_base _ _ _ _ _ HR). change (1 =? 0) with false. cbv iota.
  rewrite (shift_index_ok A 1 sch 0) by (auto; eapply rep_csr_wf; eauto). eexists. split; [reflexivity|].
  split; [apply (shift_rep hasv 0 1); auto|]. cbn. repeat split; auto.
Qed.

Theorem make_idempotent hasv base n rows A sch : rep hasv base n rows A ->
  (base = 0 -> make0Based A sch = Some A) /\ (base = 1 -> make1Based A sch = Some A).
Proof.
  intros HR. unfold make0Based, make1Based. rewrite (rep_base _ _ _ _ _ HR). split; intros ->; reflexivity.
Qed.

Theorem make1_make0 hasv n rows A A' sch sch' : rep hasv 0 n rows A -> diagptr_len A ->
  make1Based A sch = Some A' -> make0Based A' sch' = Some A.
Proof.
  intros HR HD. unfold make1Based. rewrite (rep_base _ _ _ _ _ HR). change (1 =? 0) with false. cbv iota.
  rewrite (shift_index_ok A 1 sch 0) by (auto; eapply rep_csr_wf; eauto). intros E. injection E as <-.
  pose proof (shift_rep hasv 0 1 n rows A HR) as HR'. unfold make0Based. rewrite (rep_base _ _ _ _ _ HR').
  change (0 =? 0 + 1) with false. cbv iota. rewrite (shift_index_ok _ (-1) sch' (0 + 1)).
  - cbn. rewrite !(map_shift_cancel 1). destruct A as [m0 n0 rp ci vs id dg [dp|] ep]; cbn; auto.
    now rewrite (map_shift_cancel 1).
  - eapply rep_csr_wf; eauto.
  - unfold diagptr_len in *. cbn. intros d Hd. destruct (diagptr A) as [dp|]; cbn in Hd; [|discriminate].
    injection Hd as <-. rewrite Zlen_map. auto.
Qed.
Theorem make0_make1 hasv n rows A A' sch sch' : rep hasv 1 n rows A -> diagptr_len A ->
  make0Based A sch = Some A' -> make1Based A' sch' = Some A.
Proof.
  intros HR HD. unfold make0Based. rewrite (rep_base _ _ _ _ _ HR). change (0 =? 1) with false. cbv iota.
  rewrite (shift_index_ok A (-1) sch 1) by (auto; eapply rep_csr_wf; eauto). intros E. injection E as <-.
  pose proof (shift_rep hasv 1 (-1) n rows A HR) as HR'. unfold make1Based. rewrite (rep_base _ _ _ _ _ HR').
  change (1 =? 1 + -1) with false. cbv iota. rewrite (shift_index_ok _ 1 sch' (1 + -1)).
  - cbn. rewrite !(map_shift_cancel (-1)). destruct A as [m0 n0 rp ci vs id dg [dp|] ep]; cbn; auto.
    now rewrite (map_shift_cancel (-1)).
  - eapply rep_csr_wf; eauto.
  - unfold diagptr_len in *. cbn. intros d Hd. destruct (diagptr A) as [dp|]; cbn in Hd; [|discriminate].
    injection Hd as <-. rewrite Zlen_map. auto.
Qed.

(** The local part of the rows: up to [extptr] if there is one. *)
Definition local_rows (base : Z) (rows : rows_t V) A (lrows : rows_t V) : Prop :=
  Zlen lrows = Zlen rows /\
  match extptr A with
  | None => lrows = rows
  | Some e => Zlen e = Zlen rows /\
      forall i, 0 <= i < Zlen rows -> exists h, nthl rows i = nthl lrows i ++ h /\
        get e i = Some (base + off (nthl rows) i + Zlen (nthl lrows i))
  end.
End Based.

(** With [extptr], changing the base changes the local part: one row with one
    local and one remote entry. *)
Definition ext_matrix : csr Z := mkCSR 1 2 [0; 2] [0; 1] (Some [7; 8]) None None None (Some [1]).
Lemma ext_matrix_run : make1Based ext_matrix (fun _ => []) =
  Some (mkCSR 1 2 [1; 3] [1; 2] (Some [7; 8]) None None None (Some [1])).
Proof. reflexivity. Qed.
Theorem make1_ext_refuted : exists A',
  rep true 0 2 [[(0, 7); (1, 8)]] ext_matrix /\ local_rows 0 [[(0, 7); (1, 8)]] ext_matrix [[(0, 7)]] /\
  make1Based ext_matrix (fun _ => []) = Some A' /\ ~ local_rows 1 [[(0, 7); (1, 8)]] A' [[(0, 7)]].
Proof.
  eexists. split; [repeat split|]. split; [|split; [exact ext_matrix_run|]].
  - split; auto. split; auto. intros i Hi. change (Zlen [[(0, 7); (1, 8)]]) with 1 in Hi. assert (i = 0) as -> by lia.
    exists [(1, 8)]. split; reflexivity.
  - intros (_ & _ & H). cbn [extptr] in H. destruct (H 0) as (h & _ & E); [split; reflexivity|]. discriminate.
Qed.

(** ** C11: isSymmetric *)

Section Symmetric.
Context {V : Type}.
(** [neq x y] is the C++ comparison [x != y]. *)
Variable neq : V -> V -> bool.
Implicit Types A : csr V.

(** [extptr[i]], or [rowptr[i + 1]] without extptr (CSR.cpp:177). *)
Definition ext_at A (i : Z) : option Z :=
  match extptr A with Some e => get e i | None => get (rowptr A) (i + 1) end.

(** CSR.cpp:193-208: the entry at position [j] of row [i] (0-based). *)
Definition sym_entry A (base : Z) (cv : bool) (i j : Z) : option bool :=
  c <- get (colidx A) j ;;
  if negb (c =? i + base) && (0 <=? c) && (c <? cm A) then
    lo <- get (rowptr A) (c - base) ;; hi <- ext_at A (c - base) ;;
    k <- findM (fun k => c' <- get (colidx A) k ;; Some (c' =? i + base)) (zrange (lo - base) (hi - base)) ;;
    match k with
    | None => Some false
    | Some k => if cv
                then vs <- values A ;; vj <- get vs j ;; vk <- get vs k ;; Some (negb (neq vj vk))
                else Some true
    end
  else Some true.

(** CSR.cpp:192-209: all entries of a row are examined. *)
Definition sym_row A (base : Z) (cv : bool) (i : Z) : option bool :=
  lo <- get (rowptr A) i ;; hi <- ext_at A i ;;
  bs <- mapM (sym_entry A base cv i) (zrange (lo - base) (hi - base)) ;; Some (forallb (fun b => b) bs).

(** CSR.cpp:165-215, printFirstNonSymmetry false. *)
Definition isSymmetric A (cv : bool) (T : Z) (sch : list nat) : option bool :=
  if negb (cm A =? cn A) && match extptr A with None => true | _ => false end then Some false
  else base <- getBase A ;; flag_scan (sym_row A base cv) sch (simple_rows (cm A) T).

(** CSR.cpp:216-245: the printing variant stops at the first failure. *)
Definition isSymmetric_print A (cv : bool) : option bool :=
  if negb (cm A =? cn A) && match extptr A with None => true | _ => false end then Some false
  else base <- getBase A ;;
       allM (fun i => lo <- get (rowptr A) i ;; hi <- ext_at A i ;;
                      allM (sym_entry A base cv i) (zrange (lo - base) (hi - base))) (zrange 0 (cm A)).

(** *** Specification *)

(** Every stored local entry (i, c) off the diagonal, with c below [lim], has a
    stored counterpart (c, i), equal in value if [cv]. *)
Definition symmetric (lim : Z) (cv : bool) (rows : rows_t V) : Prop :=
  forall i c v, 0 <= i < Zlen rows -> In (c, v) (nthl rows i) -> c <> i -> c < lim ->
    exists w, In (i, w) (nthl rows c) /\ (cv = true -> neq v w = false).

(** *** Proof *)

Definition entry_ok (lrows : rows_t V) (base m : Z) (cv : bool) (i : Z) (e : Z * V) : bool :=
  if negb (fst e =? i) && (fst e + base <? m) then
    match find (fun x => fst x =? i) (nthl lrows (fst e)) with
    | None => false
    | Some x => if cv then negb (neq (snd e) (snd x)) else true
    end
  else true.

Section Proof.
Variables (hasv : bool) (base n : Z) (rows lrows : rows_t V) (A : csr V).
Hypothesis HR : rep hasv base n rows A.
Hypothesis Hok : rows_ok n rows.
Hypothesis Hb : 0 <= base.
Hypothesis Hl : local_rows base rows A lrows.
Notation m := (Zlen rows).

Lemma local_prefix i : 0 <= i < m -> exists h, nthl rows i = nthl lrows i ++ h.
Proof.
  intros Hi. destruct Hl as [_ H]. destruct (extptr A) as [e|].
  - destruct H as [_ H]. destruct (H i Hi) as (h & E & _). eauto.
  - subst. exists []. now rewrite app_nil_r.
Qed.
Lemma ext_at_ok i : 0 <= i < m -> ext_at A i = Some (base + (off (nthl rows) i + Zlen (nthl lrows i))).
Proof.
  intros Hi. unfold ext_at. destruct Hl as [_ H]. destruct (extptr A) as [e|].
  - destruct H as [_ H]. destruct (H i Hi) as (h & E & ->). f_equal. lia.
  - subst. now apply (rep_rowptr_S hasv base n).
Qed.
Lemma local_get i k e : 0 <= i < m -> get (nthl lrows i) k = Some e -> get (nthl rows i) k = Some e.
Proof.
  intros Hi E. destruct (local_prefix i Hi) as (h & ->). rewrite get_app_l; auto.
  pose proof (get_Some_bounds _ _ _ E). lia.
Qed.
Lemma local_range i c v : 0 <= i < m -> In (c, v) (nthl lrows i) -> 0 <= c < n.
Proof.
  intros Hi H. apply (Hok (nthl rows i) c v); [now apply nth_row_In|].
  destruct (local_prefix i Hi) as (h & ->). apply in_or_app. auto.
Qed.

Variable cv : bool.
Hypothesis Hcv : cv = true -> hasv = true.

Lemma sym_entry_ok i k e : 0 <= i < m -> get (nthl lrows i) k = Some e ->
  sym_entry A base cv i (off (nthl rows) i + k) = Some (entry_ok lrows base m cv i e).
Proof.
  intros Hi E. destruct e as [c v]. unfold sym_entry, entry_ok. cbn [fst snd].
  pose proof (local_get i k _ Hi E) as E'. rewrite (rep_col hasv base n rows A i k c v) by auto.
  pose proof (local_range i c v Hi (get_In _ _ _ E)) as Hc.
  pose proof HR as (H1 & H2 & H3 & H4 & H5). rewrite H1.
  replace (c + base =? i + base) with (c =? i) by lia. replace (0 <=? c + base) with true by lia.
  rewrite andb_true_r. destruct (negb (c =? i) && (c + base <? m)) eqn:Ec; auto.
  replace (c + base - base) with c by lia. assert (0 <= c < m) as Hcm by lia.
  rewrite (rep_rowptr hasv base n rows A c), ext_at_ok by (auto; lia).
  replace (base + off (nthl rows) c - base) with (off (nthl rows) c) by lia.
  replace (base + (off (nthl rows) c + Zlen (nthl lrows c)) - base) with (off (nthl rows) c + Zlen (nthl lrows c)) by lia.
  destruct (findM_list (nthl lrows c) (off (nthl rows) c) (fun k => c' <- get (colidx A) k ;; Some (c' =? i + base))
     (fun x => fst x =? i)) as [(l1 & x & l2 & El & Hl1 & Hx & ->)|[Hno ->]].
  - intros q [c' v'] Eq. rewrite (rep_col hasv base n rows A c q c' v') by (auto using local_get).
    cbn. f_equal. lia.
  - assert (find (fun x => fst x =? i) (nthl lrows c) = Some x) as ->.
    { rewrite El. clear - Hl1 Hx. induction l1 as [|a l1 IH]; cbn; [now rewrite Hx|].
      rewrite Hl1 by (cbn; auto). apply IH. intros; apply Hl1; cbn; auto. }
    destruct cv; auto. assert (hasv = true) as Hh by auto. pose proof HR as HRt. rewrite Hh in HRt.
    destruct (rep_val base n rows A i k c v) as (vs & Ev & Evj); auto.
    assert (get (nthl lrows c) (Zlen l1) = Some x) as Egx.
    { rewrite El. rewrite get_app_r by lia. replace (Zlen l1 - Zlen l1) with 0 by lia. apply get_cons_0. }
    destruct x as [c' w]. destruct (rep_val base n rows A c (Zlen l1) c' w) as (vs' & Ev' & Evk); auto.
    { now apply local_get. }
    assert (vs' = vs) by congruence. subst vs'. rewrite Ev, Evj, Evk. reflexivity.
  - assert (find (fun x => fst x =? i) (nthl lrows c) = None) as ->; auto.
    clear - Hno. induction (nthl lrows c) as [|a l IH]; cbn; auto.
    rewrite Hno by (cbn; auto). apply IH. intros; apply Hno; cbn; auto.
Qed.

Lemma sym_row_ok i : 0 <= i < m ->
  sym_row A base cv i = Some (forallb (entry_ok lrows base m cv i) (nthl lrows i)).
Proof.
  intros Hi. unfold sym_row. rewrite (rep_rowptr hasv base n rows A i), ext_at_ok by (auto; lia).
  replace (base + off (nthl rows) i - base) with (off (nthl rows) i) by lia.
  replace (base + (off (nthl rows) i + Zlen (nthl lrows i)) - base) with (off (nthl rows) i + Zlen (nthl lrows i)) by lia.
  rewrite (mapM_list (nthl lrows i) _ _ (entry_ok lrows base m cv i)).
  - f_equal. generalize (nthl lrows i). induction l; cbn; congruence.
  - intros k e E. now apply sym_entry_ok.
Qed.

Lemma sym_row_print_ok i : 0 <= i < m ->
  (lo <- get (rowptr A) i ;; hi <- ext_at A i ;;
   allM (sym_entry A base cv i) (zrange (lo - base) (hi - base))) =
  Some (forallb (entry_ok lrows base m cv i) (nthl lrows i)).
Proof.
  intros Hi. rewrite (rep_rowptr hasv base n rows A i), ext_at_ok by (auto; lia).
  replace (base + off (nthl rows) i - base) with (off (nthl rows) i) by lia.
  replace (base + (off (nthl rows) i + Zlen (nthl lrows i)) - base) with (off (nthl rows) i + Zlen (nthl lrows i)) by lia.
  assert (forall l o, (forall k e, get l k = Some e -> sym_entry A base cv i (o + k) = Some (entry_ok lrows base m cv i e)) ->
     allM (sym_entry A base cv i) (zrange o (o + Zlen l)) = Some (forallb (entry_ok lrows base m cv i) l)) as G.
  { induction l as [|a l IH]; intros o H.
    - now rewrite zrange_nil by (unfold Zlen; cbn; lia).
    - pose proof (Zlen_nonneg l). rewrite zrange_cons by (rewrite Zlen_cons; lia). cbn [allM forallb].
      specialize (H 0 a (get_cons_0 _ _)) as Ha. rewrite Z.add_0_r in Ha. rewrite Ha.
      destruct (entry_ok _ _ _ _ _ a); auto. cbn [andb].
      replace (o + Zlen (a :: l)) with (o + 1 + Zlen l) by (rewrite Zlen_cons; lia). apply IH.
      intros k e Ek. replace (o + 1 + k) with (o + (k + 1)) by lia. apply H.
      rewrite get_cons_S; auto. now apply get_Some_bounds in Ek. }
  apply G. intros k e E. now apply sym_entry_ok.
Qed.

Lemma find_fst i (l : list (Z * V)) x : find (fun x => fst x =? i) l = Some x -> In x l /\ fst x = i.
Proof. intros H. apply find_some in H. split; [tauto|lia]. Qed.

Lemma all_ok_symmetric :
  (cv = true -> forall r, In r lrows -> NoDup (map fst r)) ->
  (forall i, 0 <= i < m -> forallb (entry_ok lrows base m cv i) (nthl lrows i) = true) <->
  symmetric (m - base) cv lrows.
Proof.
  intros Hnd. assert (Zlen lrows = m) as Lm by apply Hl. unfold symmetric. rewrite Lm. split.
  - intros H i c v Hi He Hci Hlim. specialize (H i Hi). rewrite forallb_forall in H. specialize (H _ He).
    unfold entry_ok in H. cbn [fst snd] in H. replace (negb (c =? i) && (c + base <? m)) with true in H by lia.
    destruct (find _ _) as [[c' w]|] eqn:E; [|discriminate]. apply find_fst in E as [E1 E2]. cbn in E2. subst c'.
    exists w. split; auto. intros ->. cbn in H. destruct (neq v w); auto; discriminate.
  - intros H i Hi. apply forallb_forall. intros [c v] He. unfold entry_ok. cbn [fst snd].
    destruct (negb (c =? i) && (c + base <? m)) eqn:Ec; auto.
    destruct (H i c v Hi He ltac:(lia) ltac:(lia)) as (w & Hw & Hneq).
    destruct (find _ _) as [[c' w']|] eqn:E.
    + apply find_fst in E as [E1 E2]. cbn in E2. subst c'. destruct cv; auto. cbn.
      pose proof (local_range i c v Hi He) as Hc.
      assert (In (nthl lrows c) lrows) as Hr. { apply nth_row_In. lia. }
      specialize (Hnd eq_refl _ Hr). assert (w' = w) as ->.
      { clear - Hnd E1 Hw. induction (nthl lrows c) as [|[a b] l IH]; [destruct Hw|].
        cbn in Hnd. inversion Hnd as [|? ? Hni Hnd']; subst.
        destruct E1 as [E1|E1], Hw as [E2|Hw]; auto.
        - congruence.
        - injection E1 as -> ->. exfalso. apply Hni. apply (in_map fst) in Hw. auto.
        - injection E2 as -> ->. exfalso. apply Hni. apply (in_map fst) in E1. auto. }
      now rewrite Hneq.
    + apply (find_none _ _ E) in Hw. cbn in Hw. lia.
Qed.

Theorem isSymmetric_ok T sch :
  (cv = true -> forall r, In r lrows -> NoDup (map fst r)) -> 1 <= T ->
  exists b, isSymmetric A cv T sch = Some b /\ isSymmetric_print A cv = Some b /\
    (b = true <-> (m = n \/ extptr A <> None) /\ symmetric (m - base) cv lrows).
Proof.
  intros Hnd HT. unfold isSymmetric, isSymmetric_print. pose proof HR as (H1 & H2 & _).
  rewrite (rep_base _ _ _ _ _ HR), H1, H2.
  destruct (negb (m =? n) && match extptr A with None => true | _ => false end) eqn:E0.
  - exists false. split; auto. split; auto. split; [discriminate|].
    intros [[Hmn|He] _]; [lia|]. destruct (extptr A); [|congruence]. lia.
  - exists (forallb (fun i => forallb (entry_ok lrows base m cv i) (nthl lrows i)) (zrange 0 m)).
    pose proof (Zlen_nonneg rows). split; [|split].
    + rewrite (flag_scan_ok _ (fun i => forallb (entry_ok lrows base m cv i) (nthl lrows i))).
      * now rewrite simple_rows_ok by auto.
      * intros i Hi. rewrite simple_rows_ok in Hi by auto. apply In_zrange in Hi. now apply sym_row_ok.
    + apply allM_ok. intros i Hi. apply In_zrange in Hi. now apply sym_row_print_ok.
    + rewrite forallb_forall, <- all_ok_symmetric by auto. split.
      * intros G. split.
        -- destruct (extptr A); [right; discriminate|left; lia].
        -- intros i Hi. apply G. now apply In_zrange.
      * intros [_ G] i Hi. apply In_zrange in Hi. auto.
Qed.
End Proof.
End Symmetric.

(** 1-based: the last column is not examined.  The only entry is (1, 2). *)
Definition base1_upper : csr Z := mkCSR 2 2 [1; 2; 2] [2] (Some [5]) None None None None.
Lemma isSymmetric_base1 : isSymmetric (fun x y => negb (Z.eqb x y)) base1_upper false 1 [] = Some true.
Proof. reflexivity. Qed.
Theorem isSymmetric_base1_refuted :
  rep true 1 2 [[(1, 5)]; []] base1_upper /\ rows_ok 2 [[(1, 5)]; []] /\
  isSymmetric (fun x y => negb (Z.eqb x y)) base1_upper false 1 [] = Some true /\
  ~ symmetric (fun x y => negb (Z.eqb x y)) 2 false [[(1, 5)]; []].
Proof.
  split; [repeat split|]. split.
  { intros r c v [<-|[<-|[]]] H; cbn in H; [|tauto]. destruct H as [H|[]]. injection H as <- _. lia. }
  split; [exact isSymmetric_base1|]. intros H. destruct (H 0 1 5) as (w & [] & _); try lia.
  - change (Zlen [[(1, 5)]; []]) with 2. lia.
  - cbn. auto.
Qed.

(** ** C12: hasZeroDiag *)

Section ZeroDiag.
Context {V : Type}.
Variable is_zero : V -> bool.     (* values[j] != 0 is false *)
Implicit Types A : csr V.

(** CSR.cpp:261-268.  The pointers are not shifted here, so with base 1 row
    [i + 1] is read with the 1-based pointers as they are. *)
Definition zd_row A (base i : Z) : option bool :=
  lo <- get (rowptr A) (i + base) ;; hi <- get (rowptr A) (i + base + 1) ;;
  k <- findM (fun j => c <- get (colidx A) j ;;
                       if c =? i + base then vs <- values A ;; v <- get vs j ;; Some (negb (is_zero v))
                       else Some false) (zrange lo hi) ;;
  Some (match k with Some _ => true | None => false end).

(** CSR.cpp:248-274; the partition reads [rowptr + base]. *)
Definition hasZeroDiag A (T : Z) (sch : list nat) : option bool :=
  base <- getBase A ;;
  ts <- mapM (fun t => ' (b, e) <- load_balanced_partition (skipn (Z.to_nat base) (rowptr A)) (cm A) T t ;;
                       Some (zrange b e)) (zrange 0 T) ;;
  b <- flag_scan (zd_row A base) sch ts ;; Some (negb b).

Definition diag_nonzero (rows : rows_t V) (i : Z) : Prop :=
  exists v, In (i, v) (nthl rows i) /\ is_zero v = false.

Theorem hasZeroDiag_ok n rows A T sch : rep true 0 n rows A -> 1 <= T ->
  exists b, hasZeroDiag A T sch = Some b /\
    (b = true <-> exists i, 0 <= i < Zlen rows /\ ~ diag_nonzero rows i).
Proof.
  intros HR HT. unfold hasZeroDiag. rewrite (rep_base _ _ _ _ _ HR). change (Z.to_nat 0) with 0%nat. cbn [skipn].
  destruct (lb_rows_ok _ _ _ _ _ T HR HT) as (ts & E & Ec & _). unfold lb_rows in E. rewrite E.
  set (okr := fun i => existsb (fun e => (fst e =? i) && negb (is_zero (snd e))) (nthl rows i)).
  rewrite (flag_scan_ok _ okr).
  - eexists. split; [reflexivity|]. rewrite negb_true_iff, Ec.
    assert (Hr : forall i, okr i = true <-> diag_nonzero rows i).
    { intros i. unfold okr, diag_nonzero. rewrite existsb_exists. split.
      - intros ([c v] & He & H). cbn in H. exists v. assert (c = i) by lia. subst c. split; auto. destruct (is_zero v); auto. lia.
      - intros (v & He & H). exists (i, v). split; auto. cbn. rewrite Z.eqb_refl, H. auto. }
    split.
    + intros H. assert (exists i, In i (zrange 0 (Zlen rows)) /\ okr i = false) as (i & Hi & Hn).
      { revert H. generalize (zrange 0 (Zlen rows)). induction l as [|a l IH]; cbn; [discriminate|].
        destruct (okr a) eqn:Ea; cbn; [|intros; exists a; auto]. intros H. destruct (IH H) as (i & Hi & Hn). eauto. }
      apply In_zrange in Hi. exists i. split; auto. rewrite <- Hr. congruence.
    + intros (i & Hi & Hn). destruct (forallb okr (zrange 0 (Zlen rows))) eqn:F; auto.
      rewrite forallb_forall in F. exfalso. apply Hn, Hr, F, In_zrange. auto.
  - intros i Hi. rewrite Ec in Hi. apply In_zrange in Hi. unfold zd_row.
    rewrite !Z.add_0_r, (rep_rowptr _ _ _ _ _ i HR), (rep_rowptr_S _ _ _ _ _ i HR) by lia. rewrite !Z.add_0_l.
    destruct (findM_list (nthl rows i) (off (nthl rows) i)
       (fun j => c <- get (colidx A) j ;; if c =? i then vs <- values A ;; v <- get vs j ;; Some (negb (is_zero v)) else Some false)
       (fun e => (fst e =? i) && negb (is_zero (snd e)))) as [(l1 & x & l2 & El & Hl1 & Hx & ->)|[Hno ->]].
    + intros k [c v] Ek. rewrite (rep_col _ _ _ _ _ i k c v HR) by auto. rewrite Z.add_0_r. cbn [fst snd].
      destruct (c =? i) eqn:Eci; auto.
      destruct (rep_val 0 n rows A i k c v) as (vs & -> & ->); auto.
    + f_equal. symmetry. unfold okr. apply existsb_exists. exists x. split; auto. rewrite El. apply in_or_app. cbn; auto.
    + f_equal. symmetry. unfold okr. apply not_true_iff_false. intros H. apply existsb_exists in H as (x & Hx & Hq).
      rewrite Hno in Hq; auto. discriminate.
Qed.
End ZeroDiag.

Definition base1_diag_matrix : csr Z := mkCSR 2 2 [1; 2; 3] [1; 2] (Some [5; 6]) None None None None.
Lemma hasZeroDiag_base1 : hasZeroDiag (Z.eqb 0) base1_diag_matrix 1 [] = None.
Proof. reflexivity. Qed.

(** ** C41: equals *)

Section Equals.
Context {V : Type}.
Variable neq : V -> V -> bool.
Implicit Types A B : csr V.

(** CSR.cpp:729-742 *)
Definition eq_row A B (base i : Z) : option bool :=
  lo <- get (rowptr A) i ;; lo' <- get (rowptr B) i ;;
  if negb (lo =? lo') then Some false
  else hi <- get (rowptr A) (i + 1) ;;
       allM (fun j => c <- get (colidx A) j ;; c' <- get (colidx B) j ;;
                      if negb (c =? c') then Some false
                      else vs <- values A ;; vs' <- values B ;;
                           v <- get vs j ;; v' <- get vs' j ;; Some (negb (neq v v')))
            (zrange (lo - base) (hi - base)).
(** CSR.cpp:709-746 *)
Definition equals A B : option bool :=
  base <- getBase A ;; base' <- getBase B ;;
  if negb (base' =? base) then Some false
  else if negb (cm A =? cm B) then Some false
  else if negb (cn A =? cn B) then Some false
  else e <- get (rowptr A) (cm A) ;; e' <- get (rowptr B) (cm B) ;;
       if negb (e =? e') then Some false
       else allM (eq_row A B base) (zrange 0 (cm A)).

Definition rows_eq (r1 r2 : rows_t V) : Prop :=
  Forall2 (Forall2 (fun e1 e2 => fst e1 = fst e2 /\ neq (snd e1) (snd e2) = false)) r1 r2.

Lemma Forall2_get {X Y} (R : X -> Y -> Prop) l1 l2 :
  Forall2 R l1 l2 <-> Zlen l1 = Zlen l2 /\
    (forall i x y, get l1 i = Some x -> get l2 i = Some y -> R x y).
Proof.
  split.
  - induction 1 as [|x y l1 l2 H F [L IH]].
    + split; auto. intros i x y Hx. apply get_Some_bounds in Hx. unfold Zlen in Hx; cbn in Hx; lia.
    + split; [rewrite !Zlen_cons; lia|]. intros i a b Ha Hb.
      pose proof (get_Some_bounds _ _ _ Ha) as Hi. destruct (Z.eq_dec i 0) as [->|].
      * rewrite get_cons_0 in Ha. rewrite get_cons_0 in Hb. injection Ha as <-. injection Hb as <-. auto.
      * replace i with (i - 1 + 1) in Ha, Hb by lia. rewrite get_cons_S in Ha by lia. rewrite get_cons_S in Hb by lia. eauto.
  - revert l2. induction l1 as [|x l1 IH]; intros [|y l2] [L H]; auto.
    + unfold Zlen in L. cbn [length] in L. lia.
    + unfold Zlen in L. cbn [length] in L. lia.
    + constructor.
      * apply (H 0); apply get_cons_0.
      * apply IH. rewrite !Zlen_cons in L. split; [lia|]. intros i a b Ha Hb.
        pose proof (get_Some_bounds _ _ _ Ha). apply (H (i + 1)); rewrite get_cons_S; auto; lia.
Qed.

Lemma allM_false {X} (p : X -> option bool) (P : X -> Prop) l :
  (forall l1 x l2, l = l1 ++ x :: l2 -> (forall y, In y l1 -> P y) -> exists b, p x = Some b /\ (b = true <-> P x)) ->
  exists b, allM p l = Some b /\ (b = true <-> forall x, In x l -> P x).
Proof.
  induction l as [|a l IH]; intros H.
  - exists true. cbn. split; auto. split; auto. intros _ x [].
  - destruct (H [] a l eq_refl) as (b & E & G). { intros y []. }
    cbn [allM]. rewrite E. destruct b.
    + destruct IH as (b & E' & G').
      { intros l1 x l2 -> Hl1. apply (H (a :: l1) x l2 eq_refl). intros y [<-|Hy]; auto. now apply G. }
      exists b. split; auto. rewrite G'. split.
      * intros F x [<-|Hx]; auto. now apply G.
      * intros F x Hx. apply F. cbn; auto.
    + exists false. split; auto. split; [discriminate|]. intros F. apply G, F. cbn; auto.
Qed.

Theorem equals_ok b1 b2 n1 n2 r1 r2 A B : rep true b1 n1 r1 A -> rep true b2 n2 r2 B ->
  exists b, equals A B = Some b /\ (b = true <-> b1 = b2 /\ n1 = n2 /\ rows_eq r1 r2).
Proof.
  intros HA HB. unfold equals. rewrite (rep_base _ _ _ _ _ HA), (rep_base _ _ _ _ _ HB).
  pose proof HA as (A1 & A2 & _). pose proof HB as (B1 & B2 & _). rewrite A1, A2, B1, B2.
  pose proof (Zlen_nonneg r1). pose proof (Zlen_nonneg r2).
  rewrite (rep_rowptr _ _ _ _ _ _ HA), (rep_rowptr _ _ _ _ _ _ HB) by lia.
  destruct (Z.eqb_spec b2 b1) as [->|]; cbn [negb].
  2: { exists false. split; auto. split; [discriminate|]. intros (? & _); congruence. }
  destruct (Z.eqb_spec (Zlen r1) (Zlen r2)) as [L|]; cbn [negb].
  2: { exists false. split; auto. split; [discriminate|]. intros (_ & _ & F). apply Forall2_get in F as [L _]. congruence. }
  destruct (Z.eqb_spec n1 n2) as [->|]; cbn [negb].
  2: { exists false. split; auto. split; [discriminate|]. intros (_ & ? & _); congruence. }
  assert (Hoff : forall k, 0 <= k <= Zlen r1 ->
     (forall i, 0 <= i < k -> Zlen (nthl r1 i) = Zlen (nthl r2 i)) -> off (nthl r1) k = off (nthl r2) k).
  { intros k Hk Hi. unfold off. apply before_ext. auto. }
  destruct (Z.eqb_spec (b1 + off (nthl r1) (Zlen r1)) (b1 + off (nthl r2) (Zlen r2))) as [Etot|Etot]; cbn [negb].
  2: { exists false. split; auto. split; [discriminate|]. intros (_ & _ & F). exfalso. apply Etot. rewrite <- L. f_equal.
       apply Hoff; [lia|]. intros i Hi. apply Forall2_get in F as [_ F].
       specialize (F i _ _ (get_nthl r1 i Hi) (get_nthl r2 i ltac:(lia))). apply Forall2_get in F. tauto. }
  (* row by row: equal starts, and the stored pairs at the positions of row i of A *)
  set (P := fun i => off (nthl r1) i = off (nthl r2) i /\
    forall j e1 e2, off (nthl r1) i <= j < off (nthl r1) (i + 1) ->
      get (concat r1) j = Some e1 -> get (concat r2) j = Some e2 -> fst e1 = fst e2 /\ neq (snd e1) (snd e2) = false).
  destruct (allM_false (eq_row A B b1) P (zrange 0 (Zlen r1))) as (b & E & G).
  - intros l1 i l2 Hz _. assert (0 <= i < Zlen r1) as Hi.
    { apply In_zrange. rewrite Hz. apply in_or_app; cbn; auto. }
    unfold eq_row. rewrite (rep_rowptr _ _ _ _ _ _ HA), (rep_rowptr _ _ _ _ _ _ HB), (rep_rowptr _ _ _ _ _ _ HA) by lia.
    destruct (Z.eqb_spec (b1 + off (nthl r1) i) (b1 + off (nthl r2) i)) as [Eo|Eo]; cbn [negb].
    2: { exists false. split; auto. split; [discriminate|]. intros [Eo' _]. lia. }
    replace (b1 + off (nthl r1) i - b1) with (off (nthl r1) i) by lia.
    replace (b1 + off (nthl r1) (i + 1) - b1) with (off (nthl r1) (i + 1)) by lia.
    assert (Hbnd : off (nthl r1) (i + 1) <= off (nthl r1) (Zlen r1)) by (apply off_mono; lia).
    pose proof (off_nonneg (nthl r1) i) as Hon.
    destruct (allM_false (fun j => c <- get (colidx A) j ;; c' <- get (colidx B) j ;;
                      if negb (c =? c') then Some false
                      else vs <- values A ;; vs' <- values B ;;
                           v <- get vs j ;; v' <- get vs' j ;; Some (negb (neq v v')))
       (fun j => forall e1 e2, get (concat r1) j = Some e1 -> get (concat r2) j = Some e2 ->
           fst e1 = fst e2 /\ neq (snd e1) (snd e2) = false) (zrange (off (nthl r1) i) (off (nthl r1) (i + 1)))) as (b & E & G).
    + intros q1 j q2 Hq _. assert (off (nthl r1) i <= j < off (nthl r1) (i + 1)) as Hj.
      { apply In_zrange. rewrite Hq. apply in_or_app; cbn; auto. }
      destruct HA as (_ & _ & _ & A4 & A5). destruct HB as (_ & _ & _ & B4 & B5). rewrite A4, B4, A5, B5.
      unfold colidx_of, values_of. rewrite !get_map.
      destruct (get_in_range (concat r1) j) as ([c v] & Ec1); [rewrite Zlen_concat; lia|].
      destruct (get_in_range (concat r2) j) as ([c' v'] & Ec2); [rewrite Zlen_concat; lia|].
      rewrite Ec1, Ec2. cbn [option_map fst snd].
      destruct (Z.eqb_spec (c + b1) (c' + b1)) as [Ecc|Ecc]; cbn [negb].
      * eexists. split; [reflexivity|]. rewrite negb_true_iff. split.
        -- intros Hn e1 e2 H1 H2. injection H1 as <-. injection H2 as <-. cbn. split; [lia|auto].
        -- intros F. now destruct (F _ _ eq_refl eq_refl).
      * exists false. split; auto. split; [discriminate|]. intros F. destruct (F _ _ eq_refl eq_refl) as [F1 _]. cbn in F1. lia.
    + exists b. split; auto. rewrite G. unfold P. split.
      * intros F. split; [lia|]. intros j e1 e2 Hj. apply F. now apply In_zrange.
      * intros [_ F] j Hj. apply In_zrange in Hj. eauto.
  - exists b. split; auto. rewrite G. split.
    + intros F. split; auto. split; auto.
      assert (Hlen : forall i, 0 <= i < Zlen r1 -> Zlen (nthl r1 i) = Zlen (nthl r2 i)).
      { intros i Hi. assert (Ho : off (nthl r1) (i + 1) = off (nthl r2) (i + 1)).
        { destruct (Z.eq_dec (i + 1) (Zlen r1)) as [Ei|Ei].
          - rewrite Ei. rewrite L at 2. lia.
          - apply (F (i + 1)). apply In_zrange. lia. }
        assert (Ho' : off (nthl r1) i = off (nthl r2) i) by (apply F, In_zrange; lia).
        rewrite !off_S in Ho by lia. lia. }
      apply Forall2_get. split; auto. intros i x y Hx Hy. pose proof (get_Some_bounds _ _ _ Hx) as Hi.
      rewrite get_nthl in Hx by lia. rewrite get_nthl in Hy by lia. injection Hx as <-. injection Hy as <-.
      apply Forall2_get. split; auto. intros k e1 e2 H1 H2. pose proof (get_Some_bounds _ _ _ H1) as Hk.
      assert (P i) as [Po Pi] by (apply F, In_zrange; lia).
      apply (Pi (off (nthl r1) i + k)).
      * rewrite off_S by lia. lia.
      * now rewrite get_concat by auto.
      * rewrite Po, get_concat; auto; try lia. rewrite <- Hlen; auto.
    + intros (_ & _ & F) i Hi. apply In_zrange in Hi. apply Forall2_get in F as [_ F].
      assert (Hlen : forall i, 0 <= i < Zlen r1 -> Zlen (nthl r1 i) = Zlen (nthl r2 i)).
      { intros q Hq. specialize (F q _ _ (get_nthl r1 q Hq) (get_nthl r2 q ltac:(lia))). apply Forall2_get in F. tauto. }
      assert (Ho : off (nthl r1) i = off (nthl r2) i) by (apply Hoff; [lia|]; intros; apply Hlen; lia).
      split; auto. intros j e1 e2 Hj E1 E2. rewrite off_S in Hj by lia.
      replace j with (off (nthl r1) i + (j - off (nthl r1) i)) in E1 by lia.
      replace j with (off (nthl r2) i + (j - off (nthl r1) i)) in E2 by lia.
      rewrite get_concat in E1 by lia. rewrite get_concat in E2 by (try rewrite <- Hlen; lia).
      specialize (F i _ _ (get_nthl r1 i ltac:(lia)) (get_nthl r2 i ltac:(lia))).
      apply Forall2_get in F as [_ F]. eauto.
Qed.
End Equals.

(** ** C42: bandwidth and degree *)

Section Width.
Context {V : Type}.
Implicit Types A : csr V.
Definition INT_MIN : Z := -2147483648.

(** CSR.cpp:645-652 *)
Definition bw_row A (base i bw : Z) : option Z :=
  lo <- get (rowptr A) i ;; hi <- get (rowptr A) (i + 1) ;;
  forZ (lo - base) (hi - base) (fun j bw =>
    c <- get (colidx A) j ;;
    let temp := c - (i + base) in
    let temp := if temp <? 0 then - temp else temp in
    Some (Z.max temp bw)) bw.
(** CSR.cpp:631-656.  [reduction(max:bw)]: every thread starts from the identity
    INT_MIN; the results are combined with the initial value in any order. *)
Definition getBandwidth A (T : Z) (sch : list nat) : option Z :=
  base <- getBase A ;;
  ts <- lb_rows A T ;;
  rs <- mapM (fun rs => foldM (bw_row A base) rs INT_MIN) ts ;;
  Some (fold_left Z.max (merge sch (map (fun r => [r]) rs)) INT_MIN).

(** CSR.cpp:700-707 *)
Definition getMaxDegree A : option Z :=
  forZ 0 (cm A) (fun i d => hi <- get (rowptr A) (i + 1) ;; lo <- get (rowptr A) i ;; Some (Z.max d (hi - lo))) 0.

(** [x] is the largest element of [l]. *)
Definition is_max (l : list Z) (x : Z) : Prop := In x l /\ forall y, In y l -> y <= x.

Definition widths (rows : rows_t V) : list Z := map (fun e => Z.abs (fst (snd e) - fst e)) (entries rows).

Definition maxl (l : list Z) (d : Z) : Z := fold_left Z.max l d.
Lemma maxl_app l1 l2 d : maxl (l1 ++ l2) d = maxl l2 (maxl l1 d).
Proof. apply fold_left_app. Qed.
Lemma maxl_ge l d : d <= maxl l d.
Proof. revert d. induction l as [|a l IH]; intros d; cbn; [lia|]. etransitivity; [|apply IH]. lia. Qed.
Lemma maxl_max l : forall d e, maxl l (Z.max d e) = Z.max (maxl l d) e.
Proof.
  induction l as [|a l IH]; intros d e; auto.
  change (maxl l (Z.max (Z.max d e) a) = Z.max (maxl l (Z.max d a)) e). rewrite <- IH. f_equal. lia.
Qed.
Lemma maxl_perm l l' d : Permutation l l' -> maxl l d = maxl l' d.
Proof.
  intros P. revert d. induction P; intros d; cbn; auto.
  - f_equal. lia.
  - now rewrite IHP1.
Qed.
Lemma maxl_ub l d y : In y l -> y <= maxl l d.
Proof.
  revert d. induction l as [|a l IH]; intros d; cbn; [tauto|]. intros [->|H]; auto.
  etransitivity; [|apply maxl_ge]. lia.
Qed.
Lemma maxl_in l d : maxl l d = d \/ In (maxl l d) l.
Proof.
  revert d. induction l as [|a l IH]; intros d; cbn; auto.
  destruct (IH (Z.max d a)) as [E|E]; auto. unfold maxl in E. rewrite E.
  destruct (Z.max_spec d a) as [[_ ->]|[_ ->]]; auto.
Qed.

Lemma maxl_concat ls d : fold_left Z.max (map (fun l => maxl l d) ls) d = maxl (concat ls) d.
Proof.
  induction ls as [|l ls IH]; cbn; auto. rewrite maxl_app.
  assert (G : forall d', fold_left Z.max (map (fun l => maxl l d) ls) (Z.max d d') = Z.max (maxl (concat ls) d) d').
  { intros d'. change (maxl (map (fun l => maxl l d) ls) (Z.max d d') = Z.max (maxl (concat ls) d) d').
    rewrite maxl_max. f_equal. exact IH. }
  rewrite G. pose proof (maxl_ge l d).
  replace (maxl l d) with (Z.max d (maxl l d)) at 2 by lia. now rewrite maxl_max.
Qed.

Definition row_widths (rows : rows_t V) (i : Z) : list Z := map (fun e => Z.abs (fst e - i)) (nthl rows i).

Lemma widths_rows rows : widths rows = concat (map (row_widths rows) (zrange 0 (Zlen rows))).
Proof.
  unfold widths, entries. rewrite concat_map, map_map. f_equal. apply map_ext. intros i.
  rewrite map_map. reflexivity.
Qed.

Lemma bw_row_ok hasv base n rows A i bw : rep hasv base n rows A -> 0 <= i < Zlen rows ->
  bw_row A base i bw = Some (maxl (row_widths rows i) bw).
Proof.
  intros HR Hi. unfold bw_row. rewrite (rep_rowptr _ _ _ _ _ i HR), (rep_rowptr_S _ _ _ _ _ i HR) by lia.
  replace (base + off (nthl rows) i - base) with (off (nthl rows) i) by lia.
  replace (base + (off (nthl rows) i + Zlen (nthl rows i)) - base) with (off (nthl rows) i + Zlen (nthl rows i)) by lia.
  rewrite (forZ_list (nthl rows i) _ _ (fun e bw => Some (Z.max (Z.abs (fst e - i)) bw))).
  - unfold row_widths. generalize (nthl rows i). intros l. revert bw. induction l as [|e l IH]; intros bw; cbn; auto.
    rewrite IH. f_equal. unfold maxl. f_equal. lia.
  - intros k [c v] s E. rewrite (rep_col _ _ _ _ _ i k c v HR) by auto. cbn [fst]. f_equal. f_equal.
    destruct (Z.ltb_spec (c + base - (i + base)) 0); lia.
Qed.

Theorem getBandwidth_ok hasv base n rows A T sch : rep hasv base n rows A -> 1 <= T -> concat rows <> [] ->
  exists bw, getBandwidth A T sch = Some bw /\ is_max (widths rows) bw.
Proof.
  intros HR HT Hne. unfold getBandwidth. rewrite (rep_base _ _ _ _ _ HR).
  destruct (lb_rows_ok _ _ _ _ _ T HR HT) as (ts & -> & Ec & _).
  assert (Hin : forall rs i, In rs ts -> In i rs -> 0 <= i < Zlen rows).
  { intros rs i H1 H2. apply In_zrange. rewrite <- Ec. apply in_concat. eauto. }
  rewrite (mapM_Some _ (fun rs => maxl (concat (map (row_widths rows) rs)) INT_MIN)).
  - eexists. split; [reflexivity|].
    set (L := map _ ts).
    assert (fold_left Z.max (merge sch (map (fun r => [r]) L)) INT_MIN = maxl (widths rows) INT_MIN) as ->.
    { change (maxl (merge sch (map (fun r => [r]) L)) INT_MIN = maxl (widths rows) INT_MIN).
      rewrite (maxl_perm _ L).
      - unfold L. rewrite <- (map_map (fun rs => concat (map (row_widths rows) rs)) (fun l => maxl l INT_MIN)).
        unfold maxl at 1. rewrite maxl_concat. f_equal. rewrite widths_rows, <- Ec.
        clear. induction ts as [|t ts IH]; cbn; auto. now rewrite IH, map_app, concat_app.
      - rewrite merge_perm. clear. induction L; cbn; auto. }
    assert (Hpos : forall y, In y (widths rows) -> 0 <= y).
    { intros y Hy. apply in_map_iff in Hy as (e & <- & _). lia. }
    split.
    + destruct (maxl_in (widths rows) INT_MIN) as [E|E]; auto. exfalso.
      assert (exists y, In y (widths rows)) as (y & Hy).
      { destruct (concat rows) as [|x l] eqn:Ex; [congruence|]. rewrite <- map_snd_entries in Ex.
        destruct (entries rows) as [|z q] eqn:Ez; [discriminate|]. unfold widths. rewrite Ez. cbn. eauto. }
      pose proof (Hpos y Hy). pose proof (maxl_ub (widths rows) INT_MIN y Hy). unfold INT_MIN in *. lia.
    + intros y Hy. now apply maxl_ub.
  - intros rs Hrs. assert (G : forall i, In i rs -> 0 <= i < Zlen rows) by eauto. clear - HR G.
    generalize INT_MIN as d. induction rs as [|i rs IH]; intros d; cbn [foldM map concat]; auto.
    rewrite (bw_row_ok hasv base n rows) by (auto; apply G; cbn; auto). rewrite IH by (intros; apply G; cbn; auto).
    now rewrite maxl_app.
Qed.

Theorem getMaxDegree_ok hasv base n rows A : rep hasv base n rows A -> rows <> [] ->
  exists d, getMaxDegree A = Some d /\ is_max (map Zlen rows) d.
Proof.
  intros HR Hne. pose proof HR as (H1 & _). unfold getMaxDegree. rewrite H1.
  rewrite (forZ_ext _ _ _ (fun i d => Some (Z.max d (Zlen (nthl rows i))))).
  2: { intros i d Hi. rewrite (rep_rowptr _ _ _ _ _ i HR), (rep_rowptr_S _ _ _ _ _ i HR) by lia. do 2 f_equal. lia. }
  assert (forall l d, foldM (fun i d => Some (Z.max d (Zlen (nthl rows i)))) l d = Some (maxl (map (fun i => Zlen (nthl rows i)) l) d)) as G.
  { induction l as [|a l IH]; intros d; cbn; auto. }
  unfold forZ. rewrite G. eexists. split; [reflexivity|].
  assert (map (fun i => Zlen (nthl rows i)) (zrange 0 (Zlen rows)) = map Zlen rows) as ->.
  { unfold nthl. rewrite (map_get_zrange rows (fun o => Zlen (match o with Some r => r | None => [] end))). reflexivity. }
  split; [|intros; now apply maxl_ub].
  destruct (maxl_in (map Zlen rows) 0) as [E|E]; auto. rewrite E. destruct rows as [|r rows']; [congruence|].
  pose proof (maxl_ub (map Zlen (r :: rows')) 0 (Zlen r) ltac:(cbn; auto)) as Hu. rewrite E in Hu.
  pose proof (Zlen_nonneg r). cbn. left. lia.
Qed.
End Width.

(** ** C48: copy constructor *)

Section Copy.
Context {V : Type}.
Record copy_junk := mkCJ { cj_rowptr : list Z; cj_colidx : list Z; cj_values : list V; cj_diagptr : list Z;
  cj_idiag : list V; cj_diag : list V }.
Definition cj_ok (m nnz : Z) (j : copy_junk) : Prop :=
  Zlen (cj_rowptr j) = m + 1 /\ Zlen (cj_colidx j) = nnz /\ Zlen (cj_values j) = nnz /\
  Zlen (cj_diagptr j) = m /\ Zlen (cj_idiag j) = m /\ Zlen (cj_diag j) = m.
(** Utils.hpp:136-142 copyVector *)
Definition copyVector {X} (sch : list nat) (out inp : list X) (len : Z) : option (list X) :=
  par_any sch (fun i w => v <- get inp i ;; set w i v) 0 len out.
Definition copy_opt {X} sch (out : list X) (inp : option (list X)) len : option (option (list X)) :=
  match inp with Some l => r <- copyVector sch out l len ;; Some (Some r) | None => Some None end.
(** CSR.cpp:82-99 *)
Definition csr_copy (A : csr V) (sch : nat -> list nat) (j : copy_junk) : option (csr V) :=
  nnz <- getNnz A ;;
  rp <- copyVector (sch 0%nat) (cj_rowptr j) (rowptr A) (cm A + 1) ;;
  ci <- copyVector (sch 1%nat) (cj_colidx j) (colidx A) nnz ;;
  vs <- copy_opt (sch 2%nat) (cj_values j) (values A) nnz ;;
  dp <- copy_opt (sch 3%nat) (cj_diagptr j) (diagptr A) (cm A) ;;
  id <- copy_opt (sch 4%nat) (cj_idiag j) (idiag A) (cm A) ;;
  dg <- copy_opt (sch 5%nat) (cj_diag j) (diag A) (cm A) ;;
  Some (mkCSR (cm A) (cn A) rp ci vs id dg dp None).

Definition opt_len {X} (o : option (list X)) (n : Z) : Prop := forall l, o = Some l -> Zlen l = n.

Theorem csr_copy_ok hasv base n rows (A : csr V) sch j : rep hasv base n rows A ->
  opt_len (idiag A) (cm A) -> opt_len (diag A) (cm A) -> opt_len (diagptr A) (cm A) ->
  cj_ok (cm A) (Zlen (concat rows)) j ->
  csr_copy A sch j = Some (mkCSR (cm A) (cn A) (rowptr A) (colidx A) (values A) (idiag A) (diag A) (diagptr A) None).
Proof.
  intros HR Hi Hd Hp (J1 & J2 & J3 & J4 & J5 & J6). unfold csr_copy. rewrite (rep_nnz _ _ _ _ _ HR).
  destruct HR as (H1 & H2 & H3 & H4 & H5). unfold copyVector, copy_opt.
  rewrite par_copy by (rewrite ?H3, ?Zlen_rowptr_of; lia).
  rewrite par_copy by (rewrite ?H4, ?Zlen_colidx_of, ?Zlen_concat; auto; rewrite J2, Zlen_concat; auto).
  assert (Hv : forall sch l, values A = Some l -> copyVector sch (cj_values j) l (Zlen (concat rows)) = Some l).
  { intros s l E. unfold copyVector. apply par_copy; auto. rewrite H5 in E. destruct hasv; [|discriminate].
    injection E as <-. now rewrite Zlen_values_of, Zlen_concat. }
  assert (Hc : forall X (out : list X) o s, opt_len o (cm A) -> Zlen out = cm A ->
     match o with Some l => r <- copyVector s out l (cm A) ;; Some (Some r) | None => Some None end = Some o).
  { intros X out [l|] s Ho L; auto. unfold copyVector. now rewrite par_copy by (symmetry in L; auto; symmetry; auto). }
  destruct (values A) as [vs|].
  - rewrite Hv by auto. rewrite !Hc by auto. reflexivity.
  - rewrite !Hc by auto. reflexivity.
Qed.
End Copy.
Arguments copy_junk : clear implicits.

(** ** C49: diagonal pointers *)

Section Diag.
Context {V : Type}.
Implicit Types A : csr V.

(** LevelSchedule.cpp:136-141: the first entry not left of the diagonal. *)
Definition dp_row (base : Z) (rp ci : list Z) (i : Z) (d : list Z) : option (list Z) :=
  lo <- get rp i ;; hi <- get rp (i + 1) ;;
  k <- findM (fun j => c <- get ci j ;; Some (i <=? c - base)) (zrange (lo - base) (hi - base)) ;;
  match k with Some j => set d i (j + base) | None => Some d end.
(** LevelSchedule.cpp:129-155 constructDiagPtr_ *)
Definition constructDiagPtr_ (m : Z) (rp ci : list Z) (base : Z) (sch junk : _) : option (list Z) :=
  assert! ((base =? 0) || (base =? 1)) ;; par_any sch (dp_row base rp ci) 0 m junk.
(** LevelSchedule.cpp:157-162 *)
Definition constructDiagPtr A sch junk : option (csr V) :=
  match diagptr A with
  | Some _ => Some A
  | None => base <- getBase A ;; d <- constructDiagPtr_ (cm A) (rowptr A) (colidx A) base sch junk ;;
            Some (mkCSR (cm A) (cn A) (rowptr A) (colidx A) (values A) (idiag A) (diag A) (Some d) (extptr A))
  end.
(** Every row has a diagonal entry. *)
Definition full_diag (rows : rows_t V) : Prop := forall i, 0 <= i < Zlen rows -> exists v, In (i, v) (nthl rows i).
(** [d] points at the first diagonal entry of every row. *)
Definition diag_first (base : Z) (rows : rows_t V) (d : list Z) : Prop :=
  Zlen d = Zlen rows /\
  forall i, 0 <= i < Zlen rows -> exists l1 v l2, nthl rows i = l1 ++ (i, v) :: l2 /\
    (forall c w, In (c, w) l1 -> c < i) /\ get d i = Some (base + off (nthl rows) i + Zlen l1).

Theorem constructDiagPtr_ok hasv base n rows A sch junk : rep hasv base n rows A -> base = 0 \/ base = 1 ->
  rows_sorted rows -> full_diag rows -> Zlen junk = Zlen rows ->
  exists d, constructDiagPtr_ (cm A) (rowptr A) (colidx A) base sch junk = Some d /\ diag_first base rows d.
Proof.
  intros HR Hb Hs Hf Hj. unfold constructDiagPtr_. replace ((base =? 0) || (base =? 1)) with true by lia.
  pose proof HR as (H1 & _). rewrite H1.
  destruct (par_any_write_rel sch (dp_row base (rowptr A) (colidx A))
     (fun i x => exists l1 v l2, nthl rows i = l1 ++ (i, v) :: l2 /\
     (forall c w, In (c, w) l1 -> c < i) /\ x = base + off (nthl rows) i + Zlen l1) 0 (Zlen rows) junk) as (d & E & L & G & _); try lia.
  - intros i Hi. unfold dp_row. rewrite (rep_rowptr _ _ _ _ _ i HR), (rep_rowptr_S _ _ _ _ _ i HR) by lia.
    replace (base + off (nthl rows) i - base) with (off (nthl rows) i) by lia.
    replace (base + (off (nthl rows) i + Zlen (nthl rows i)) - base) with (off (nthl rows) i + Zlen (nthl rows i)) by lia.
    destruct (findM_list (nthl rows i) (off (nthl rows) i) (fun j => c <- get (colidx A) j ;; Some (i <=? c - base))
       (fun e => i <=? fst e)) as [(l1 & [c v] & l2 & El & Hl1 & Hx & E)|[Hno E]].
    + intros k [c v] Ek. rewrite (rep_col _ _ _ _ _ i k c v HR) by auto. cbn [fst]. f_equal. lia.
    + assert (c = i) as ->.
      { destruct (Hf i Hi) as (w & Hw). cbn in Hx. rewrite El in Hw. apply in_app_or in Hw as [Hw|[Hw|Hw]].
        - apply Hl1 in Hw. cbn in Hw. lia.
        - congruence.
        - pose proof (Hs _ (nth_row_In rows i Hi)) as Hsi. unfold row_sorted, sortedZ in Hsi. rewrite El, map_app in Hsi.
          cbn in Hsi. clear - Hsi Hw Hx. induction (map fst l1) as [|a l IH]; cbn in *; inversion Hsi as [|? ? H1 H2]; subst; auto.
          rewrite Forall_forall in H2. specialize (H2 i). apply (in_map fst) in Hw. cbn in Hw. specialize (H2 Hw). lia. }
      exists (base + off (nthl rows) i + Zlen l1). split.
      * exists l1, v, l2. split; auto. split; auto. intros c w Hc. apply Hl1 in Hc. cbn in Hc. lia.
      * intros w _ _. rewrite E. f_equal. lia.
    + exfalso. destruct (Hf i Hi) as (w & Hw). apply Hno in Hw. cbn in Hw. lia.
  - exists d. split; auto. split; [lia|]. intros i Hi. destruct (G i Hi) as (x & Ex & l1 & v & l2 & El & Hl1 & ->). eauto 8.
Qed.

Variable recip : V -> V.          (* 1/x *)
(** CSR.cpp:441-455 *)
Definition computeInverseDiag A (sch : nat -> list nat) (junkd : list Z) (junki : list V) : option (csr V) :=
  match idiag A with
  | Some _ => Some A
  | None =>
      A <- constructDiagPtr A (sch 0%nat) junkd ;;
      base <- getBase A ;;
      id <- par_any (sch 1%nat) (fun i w => dp <- diagptr A ;; d <- get dp i ;; vs <- values A ;;
                                            v <- get vs (d - base) ;; set w i (recip v)) 0 (cm A) junki ;;
      Some (mkCSR (cm A) (cn A) (rowptr A) (colidx A) (values A) (Some id) (diag A) (diagptr A) (extptr A))
  end.

Theorem computeInverseDiag_ok base n rows A sch junkd junki : rep true base n rows A -> base = 0 \/ base = 1 ->
  rows_sorted rows -> full_diag rows -> Zlen junkd = Zlen rows -> Zlen junki = Zlen rows ->
  idiag A = None -> (forall d, diagptr A = Some d -> diag_first base rows d) ->
  exists A' id, computeInverseDiag A sch junkd junki = Some A' /\ rep true base n rows A' /\ idiag A' = Some id /\
    (exists d, diagptr A' = Some d /\ diag_first base rows d) /\
    Zlen id = Zlen rows /\
    forall i, 0 <= i < Zlen rows -> exists l1 v l2, nthl rows i = l1 ++ (i, v) :: l2 /\
      (forall c w, In (c, w) l1 -> c < i) /\ get id i = Some (recip v).
Proof.
  intros HR Hb Hs Hf Hjd Hji Hn Hd. unfold computeInverseDiag. rewrite Hn.
  assert (exists A1 d, constructDiagPtr A (sch 0%nat) junkd = Some A1 /\ rep true base n rows A1 /\
     diagptr A1 = Some d /\ diag_first base rows d) as (A1 & d & -> & HR1 & E1 & D1).
  { unfold constructDiagPtr. destruct (diagptr A) as [d|] eqn:Ed.
    - exists A, d. auto.
    - rewrite (rep_base _ _ _ _ _ HR). destruct (constructDiagPtr_ok _ _ _ _ _ (sch 0%nat) junkd HR Hb Hs Hf Hjd) as (d & -> & D).
      eexists _, d. split; [reflexivity|]. split; auto. }
  rewrite (rep_base _ _ _ _ _ HR1), E1. pose proof HR1 as (H1 & _ & _ & _ & H5). rewrite H1, H5. destruct D1 as [Ld Gd].
  destruct (par_any_write_rel (sch 1%nat)
     (fun i w => dp <- Some d ;; d0 <- get dp i ;; vs <- Some (values_of rows) ;; v <- get vs (d0 - base) ;; set w i (recip v))
     (fun i x => exists l1 v l2, nthl rows i = l1 ++ (i, v) :: l2 /\ (forall c w, In (c, w) l1 -> c < i) /\ x = recip v)
     0 (Zlen rows) junki) as (id & E & L & G & _); try lia.
  - intros i Hi. destruct (Gd i Hi) as (l1 & v & l2 & El & Hl1 & Eg). exists (recip v). split; [eauto 8|].
    intros w _ _. rewrite Eg. replace (base + off (nthl rows) i + Zlen l1 - base) with (off (nthl rows) i + Zlen l1) by lia.
    rewrite (get_values_of rows i (Zlen l1) i v); auto. rewrite El, get_app_r by lia.
    replace (Zlen l1 - Zlen l1) with 0 by lia. apply get_cons_0.
  - rewrite E. eexists _, id. split; [reflexivity|].
    split; [destruct HR1 as (? & ? & ? & ? & ?); unfold rep; cbn; auto|]. split; auto.
    split; [exists d; split; auto; split; auto|].
    split; [lia|]. intros i Hi. destruct (G i Hi) as (x & Ex & l1 & v & l2 & El & Hl1 & ->). eauto 8.
Qed.
End Diag.

(** ** Consequences *)

Lemma Forall2_refl' {A} (R : A -> A -> Prop) l : (forall x, R x x) -> Forall2 R l l.
Proof. intros H. induction l; constructor; auto. Qed.
Lemma Forall2_sym {A} (R : A -> A -> Prop) l1 l2 : (forall x y, R x y -> R y x) -> Forall2 R l1 l2 -> Forall2 R l2 l1.
Proof. intros H. induction 1; constructor; auto. Qed.
Lemma Forall2_trans' {A} (R : A -> A -> Prop) l1 : (forall x y z, R x y -> R y z -> R x z) ->
  forall l2 l3, Forall2 R l1 l2 -> Forall2 R l2 l3 -> Forall2 R l1 l3.
Proof.
  intros H. induction l1 as [|a l1 IH]; intros l2 l3 F1 F2; inversion F1; subst; inversion F2; subst; constructor; eauto.
Qed.

Theorem equals_equivalence {V} (neq : V -> V -> bool) :
  (forall x, neq x x = false) -> (forall x y, neq x y = false -> neq y x = false) ->
  (forall x y z, neq x y = false -> neq y z = false -> neq x z = false) ->
  (forall b n (r : rows_t V) A, rep true b n r A -> equals neq A A = Some true) /\
  (forall b1 b2 n1 n2 (r1 r2 : rows_t V) A B, rep true b1 n1 r1 A -> rep true b2 n2 r2 B ->
     equals neq A B = Some true -> equals neq B A = Some true) /\
  (forall b1 b2 b3 n1 n2 n3 (r1 r2 r3 : rows_t V) A B C, rep true b1 n1 r1 A -> rep true b2 n2 r2 B -> rep true b3 n3 r3 C ->
     equals neq A B = Some true -> equals neq B C = Some true -> equals neq A C = Some true).
Proof.
  intros Hr Hs Ht.
  assert (K : forall b1 b2 n1 n2 (r1 r2 : rows_t V) A B, rep true b1 n1 r1 A -> rep true b2 n2 r2 B ->
    (equals neq A B = Some true <-> b1 = b2 /\ n1 = n2 /\ rows_eq neq r1 r2)).
  { intros b1 b2 n1 n2 r1 r2 A B HA HB. destruct (equals_ok neq _ _ _ _ _ _ _ _ HA HB) as (b & -> & G). rewrite <- G.
    split; congruence. }
  split; [|split].
  - intros b n r A HA. apply (K b b n n r r A A HA HA). split; auto. split; auto.
    apply Forall2_refl'. intros x. apply Forall2_refl'. auto.
  - intros b1 b2 n1 n2 r1 r2 A B HA HB E. apply (K _ _ _ _ _ _ _ _ HA HB) in E as (-> & -> & F).
    apply (K _ _ _ _ _ _ _ _ HB HA). split; auto. split; auto. revert F.
    apply Forall2_sym. intros x y. apply Forall2_sym. intros e1 e2 [E1 E2]. auto.
  - intros b1 b2 b3 n1 n2 n3 r1 r2 r3 A B C HA HB HC E1 E2.
    apply (K _ _ _ _ _ _ _ _ HA HB) in E1 as (-> & -> & F1). apply (K _ _ _ _ _ _ _ _ HB HC) in E2 as (-> & -> & F2).
    apply (K _ _ _ _ _ _ _ _ HA HC). split; auto. split; auto. revert F1 F2.
    apply Forall2_trans'. intros x y z. apply Forall2_trans'. intros e1 e2 e3 [E1 E1'] [E2 E2'].
    split; [congruence|eauto].
Qed.

Theorem csr_copy_ext_refuted : exists A',
  rep true 0 2 [[(0, 7); (1, 8)]] ext_matrix /\
  csr_copy ext_matrix (fun _ => []) (mkCJ [9; 9] [9; 9] [9; 9] [9] [9] [9]) = Some A' /\
  extptr ext_matrix = Some [1] /\ extptr A' = None.
Proof. eexists. split; [repeat split|]. split; [reflexivity|]. split; reflexivity. Qed.
