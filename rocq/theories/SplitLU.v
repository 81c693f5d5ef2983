(** * splitLU (SymGS.cpp:12-118)

    Simplifications: the loops that handle the lower and the upper part
    together are written as one loop for each part (they touch different
    arrays).  The counting loop of a thread is one atomic action, a row of the
    filling loop likewise: threads store to different elements and load from
    arrays that nobody changes. *)
From Coq Require Import Permutation.
From Verif Require Import Base Spec Interleave Partition PrefixSum Flat Csr Transpose CsrTools CsrOps Sort RowPar Fill Permute SpMV.

Section Model.
Context {V : Type}.
Implicit Types A : csr V.

(** SymGS.cpp:46-59.  [p i c] selects column [c] of row [i]; [rem]: the entries
    after extptr count as well. *)
Definition sl_count A (p : Z -> Z -> bool) (rem : bool) (T t : Z) (s : list Z * list Z) : option (list Z * list Z) :=
  let '(rp, ps) := s in
  let '(b, e) := simple_partition (cm A) T t in
  ' (rp, n) <- forZ b e (fun i s =>
      let '(rp, n) := s in
      rp <- set rp i n ;;
      lo <- get (rowptr A) i ;; hi <- ext_at A i ;;
      n <- forZ lo hi (fun j n => c <- get (colidx A) j ;; Some (if p i c then n + 1 else n)) n ;;
      if rem : bool then nx <- get (rowptr A) (i + 1) ;; Some (rp, n + (nx - hi)) else Some (rp, n)) (rp, 0) ;;
  ps <- set ps (t + 1) n ;; Some (rp, ps).

(** SymGS.cpp:63-69 *)
Definition sl_scan (m T : Z) (s : list Z * list Z) : option (list Z * list Z) :=
  let '(rp, ps) := s in
  ps <- forZ 1 T (fun i ps => y <- get ps (i + 1) ;; x <- get ps i ;; set ps (i + 1) (y + x)) ps ;;
  x <- get ps T ;; rp <- set rp m x ;; Some (rp, ps).

(** rowptr, colidx, values, idiag of one of the results *)
Definition sl_half : Type := list Z * list Z * list V * list V.

(** SymGS.cpp:82-83, 89-104 for one part *)
Definition sl_fill A (p : Z -> Z -> bool) (ps : list Z) (t i : Z) (s : sl_half) : option sl_half :=
  let '(rp, ci, vs, id) := s in
  x <- get rp i ;; d <- get ps t ;; rp <- set rp i (x + d) ;;
  lo <- get (rowptr A) i ;; hi <- get (rowptr A) (i + 1) ;;
  ' (_, ci, vs) <- forZ lo hi (fun j s =>
      let '(k, ci, vs) := s in
      c <- get (colidx A) j ;;
      if p i c then
        ci <- set ci k c ;; avs <- values A ;; v <- get avs j ;; vs <- set vs k v ;; Some (k + 1, ci, vs)
      else Some (k, ci, vs)) (x + d, ci, vs) ;;
  ids <- idiag A ;; g <- get ids i ;; id <- set id i g ;;
  Some (rp, ci, vs, id).

Inductive sl_act := SlRow (t i : Z) | SlLast (t : Z).
Definition sl_state : Type := sl_half * (sl_half * option (list Z)).

Definition lower (i c : Z) : bool := c <? i.
Definition upper (i c : Z) : bool := i <? c.

(** SymGS.cpp:81-105 (a row) and 107-110 (end of a thread) *)
Definition sl_step A (T : Z) (ps0 ps1 : list Z) (a : sl_act) (s : sl_state) : option sl_state :=
  let '(hl, (hu, ext)) := s in
  match a with
  | SlRow t i =>
      let '(b, e) := simple_partition (cm A) T t in
      hl <- sl_fill A lower ps0 t i hl ;; hu <- sl_fill A upper ps1 t i hu ;;
      ext <- match extptr A with
             | Some er =>
                 if b <? i then
                   let '(rpu, _, _, _) := hu in
                   x <- get rpu i ;; r <- get (rowptr A) i ;; e1 <- get er (i - 1) ;;
                   ext <- ext ;; ext <- set ext (i - 1) (x - (r - e1)) ;; Some (Some ext)
                 else Some ext
             | None => Some ext
             end ;;
      Some (hl, (hu, ext))
  | SlLast t =>
      let '(b, e) := simple_partition (cm A) T t in
      ext <- match extptr A with
             | Some er =>
                 if b <? e then
                   x <- get ps1 (t + 1) ;; r <- get (rowptr A) e ;; e1 <- get er (e - 1) ;;
                   ext <- ext ;; ext <- set ext (e - 1) (x - (r - e1)) ;; Some (Some ext)
                 else Some ext
             | None => Some ext
             end ;;
      Some (hl, (hu, ext))
  end.
Definition sl_thread (m T t : Z) : list sl_act :=
  let '(b, e) := simple_partition m T t in map (SlRow t) (zrange b e) ++ [SlLast t].

(** Contents of the allocated arrays; those of colidx and values are allocated
    when the number of entries is known. *)
Record sl_junk := mkSlJunk { sj_rpl : list Z; sj_rpu : list Z; sj_ext : list Z; sj_ps0 : list Z; sj_ps1 : list Z;
  sj_idl : list V; sj_idu : list V; sj_cil : Z -> list Z; sj_ciu : Z -> list Z; sj_vsl : Z -> list V; sj_vsu : Z -> list V }.
Definition sl_junk_ok (m T : Z) (j : sl_junk) : Prop :=
  Zlen (sj_rpl j) = m + 1 /\ Zlen (sj_rpu j) = m + 1 /\ Zlen (sj_ext j) = m /\ Zlen (sj_ps0 j) = T + 1 /\ Zlen (sj_ps1 j) = T + 1 /\
  Zlen (sj_idl j) = m /\ Zlen (sj_idu j) = m /\
  forall k, 0 <= k -> Zlen (sj_cil j k) = k /\ Zlen (sj_ciu j k) = k /\ Zlen (sj_vsl j k) = k /\ Zlen (sj_vsu j k) = k.

(** SymGS.cpp:34-111, on a 0-based matrix *)
Definition splitLU0 A (T : Z) (sch : nat -> list nat) (j : sl_junk) : option (csr V * csr V) :=
  let m := cm A in
  ps0 <- set (sj_ps0 j) 0 0 ;; ps1 <- set (sj_ps1 j) 0 0 ;;
  sl <- par (sch 0%nat) (sl_count A lower false T) (singletons T) (sj_rpl j, ps0) ;;
  su <- par (sch 0%nat) (sl_count A upper true T) (singletons T) (sj_rpu j, ps1) ;;
  ' (rpl, ps0) <- sl_scan m T sl ;; ' (rpu, ps1) <- sl_scan m T su ;;
  nnzl <- get rpl m ;; nnzu <- get rpu m ;;
  let ext := match extptr A with Some _ => Some (sj_ext j) | None => None end in
  ' (hl, (hu, ext)) <- par (sch 1%nat) (sl_step A T ps0 ps1) (map (sl_thread m T) (zrange 0 T))
      ((rpl, sj_cil j nnzl, sj_vsl j nnzl, sj_idl j), ((rpu, sj_ciu j nnzu, sj_vsu j nnzu, sj_idu j), ext)) ;;
  let '(rpl, cil, vsl, idl) := hl in
  let '(rpu, ciu, vsu, idu) := hu in
  Some (mkCSR m (cn A) rpl cil (Some vsl) (Some idl) None None None,
        mkCSR m (cn A) rpu ciu (Some vsu) (Some idu) None None ext).

(** SymGS.cpp:12-118; the results are A, L, U *)
Definition splitLU A (T : Z) (sch : nat -> list nat) (j : sl_junk) (sch1 sch2 sch3 sch4 : nat -> list nat) : option (csr V * csr V * csr V) :=
  oldBase <- getBase A ;;
  A <- make0Based A sch1 ;;
  ' (L, U) <- splitLU0 A T sch j ;;
  if 1 =? oldBase then
    A <- make1Based A sch2 ;; L <- make1Based L sch3 ;; U <- make1Based U sch4 ;; Some (A, L, U)
  else Some (A, L, U).
End Model.

(** ** Specification *)
Definition select {V} (p : Z -> Z -> bool) (rows : rows_t V) : rows_t V :=
  map (fun i => filter (fun e => p i (fst e)) (nthl rows i)) (zrange 0 (Zlen rows)).

Lemma Zlen_select {V} p (rows : rows_t V) : Zlen (select p rows) = Zlen rows.
Proof. unfold select. rewrite Zlen_map, Zlen_zrange. pose proof (Zlen_nonneg rows). lia. Qed.
Lemma nthl_select {V} p (rows : rows_t V) i : 0 <= i < Zlen rows -> nthl (select p rows) i = filter (fun e => p i (fst e)) (nthl rows i).
Proof. intros Hi. apply nthl_get. unfold select. rewrite get_map, get_zrange by lia. reflexivity. Qed.

Section Proof.
Context {V : Type}.
Variables (n : Z) (rows : rows_t V) (A : csr V) (cut : Z -> Z) (T : Z).
Hypothesis HR : rep true 0 n rows A.
Notation m := (Zlen rows).
Notation o := (off (nthl rows)).
Hypothesis HE : forall i, 0 <= i < m -> ext_at A i = Some (o i + cut i) /\ 0 <= cut i <= Zlen (nthl rows i) /\
  forall k c v, cut i <= k -> get (nthl rows i) k = Some (c, v) -> i < c.
Hypothesis HT : 1 <= T.
Notation B := (simple_boundary m T).

Lemma sl_part t : 0 <= t < T -> simple_partition (cm A) T t = (B t, B (t + 1)).
Proof. intros Ht. destruct HR as (-> & _). apply simple_partition_boundary; try lia. apply Zlen_nonneg. Qed.

Section Half.
Variables (p : Z -> Z -> bool) (rem : bool).
Hypothesis Hp : forall i c, 0 <= i < m -> i < c -> p i c = rem.
Notation R := (select p rows).
Notation w := (off (nthl (select p rows))).

Lemma w_step i : 0 <= i < m -> w (i + 1) = w i + Zlen (filter (fun e => p i (fst e)) (nthl rows i)).
Proof. clear Hp rem. intros Hi. rewrite off_S, nthl_select by lia. reflexivity. Qed.

Lemma filter_all {X} (f : X -> bool) l : (forall x, In x l -> f x = true) -> filter f l = l.
Proof. induction l as [|a l IH]; intros H; cbn; auto. rewrite H by (cbn; auto). f_equal. apply IH. intros; apply H; cbn; auto. Qed.
Lemma filter_none {X} (f : X -> bool) l : (forall x, In x l -> f x = false) -> filter f l = [].
Proof. induction l as [|a l IH]; intros H; cbn; auto. rewrite H by (cbn; auto). apply IH. intros; apply H; cbn; auto. Qed.

Lemma count_row i c : 0 <= i < m ->
  (lo <- get (rowptr A) i ;; hi <- ext_at A i ;;
   n <- forZ lo hi (fun j n => c <- get (colidx A) j ;; Some (if p i c then n + 1 else n)) c ;;
   if rem then nx <- get (rowptr A) (i + 1) ;; Some (n + (nx - hi)) else Some n) =
  Some (c + Zlen (filter (fun e => p i (fst e)) (nthl rows i))).
Proof.
  intros Hi. rewrite (rep_rowptr _ _ _ _ _ _ HR) by lia. rewrite (rep_rowptr_S _ _ _ _ _ _ HR) by lia.
  destruct (HE i Hi) as (-> & Hc & Hgt). rewrite !Z.add_0_l.
  set (r := nthl rows i) in *. set (l := slice r 0 (cut i)).
  assert (Ll : Zlen l = cut i) by (unfold l; rewrite Zlen_slice by lia; lia).
  rewrite <- Ll at 1. rewrite (forZ_list l _ _ (fun e n => Some (if p i (fst e) then n + 1 else n))).
  2:{ intros k [a v] s Ek. pose proof (get_Some_bounds _ _ _ Ek) as Bk. unfold l in Ek. rewrite get_slice in Ek by lia.
      rewrite Z.add_0_l in Ek. rewrite (rep_col _ _ _ _ _ _ _ _ _ HR Hi Ek). now rewrite Z.add_0_r. }
  assert (F : forall l c, foldM (fun (e : Z * V) n => Some (if p i (fst e) then n + 1 else n)) l c = Some (c + Zlen (filter (fun e => p i (fst e)) l))).
  { clear. induction l as [|e l IH]; intros c; cbn [foldM filter]; [change (Zlen (@nil (Z * V))) with 0; f_equal; lia|].
    rewrite IH. destruct (p i (fst e)); rewrite ?Zlen_cons; f_equal; lia. }
  rewrite F. set (l2 := slice r (cut i) (Zlen r)).
  assert (Er : r = l ++ l2) by (unfold l, l2; rewrite <- slice_app by lia; symmetry; apply slice_full).
  assert (Hl2 : forall e, In e l2 -> p i (fst e) = rem).
  { intros [a v] He. apply Hp; auto. destruct (In_get _ _ He) as (k & Hk & Ek). unfold l2 in Ek, Hk. rewrite Zlen_slice in Hk by lia.
    rewrite get_slice in Ek by lia. eapply Hgt; [|exact Ek]. lia. }
  assert (EQ : Zlen (filter (fun e => p i (fst e)) r) = Zlen (filter (fun e => p i (fst e)) l) + Zlen (filter (fun e => p i (fst e)) l2))
    by (rewrite Er, filter_app, Zlen_app; auto).
  rewrite EQ. clear Er EQ. destruct rem.
  - rewrite (filter_all _ l2) by auto. unfold l2. rewrite Zlen_slice by lia. fold r. f_equal. lia.
  - rewrite (filter_none _ l2) by auto. change (Zlen (@nil (Z * V))) with 0. f_equal. lia.
Qed.

Lemma count_thread t rp ps : 0 <= t < T -> Zlen rp = m + 1 -> Zlen ps = T + 1 ->
  exists rp' ps', sl_count A p rem T t (rp, ps) = Some (rp', ps') /\ Zlen rp' = m + 1 /\ Zlen ps' = T + 1 /\
    (forall i, B t <= i < B (t + 1) -> get rp' i = Some (w i - w (B t))) /\
    (forall i, ~ B t <= i < B (t + 1) -> get rp' i = get rp i) /\
    (forall k, get ps' k = if k =? t + 1 then Some (w (B (t + 1)) - w (B t)) else get ps k).
Proof.
  intros Ht Lr Lp. unfold sl_count. rewrite sl_part by auto. pose proof (Zlen_nonneg rows) as Hm.
  pose proof (simple_boundary_mono m T t ltac:(lia) ltac:(lia) ltac:(lia)) as HB.
  pose proof (simple_boundary_range m T t ltac:(lia) ltac:(lia) ltac:(lia)) as HB0.
  pose proof (simple_boundary_range m T (t + 1) ltac:(lia) ltac:(lia) ltac:(lia)) as HB1.
  destruct (forZ_rule (fun i s => snd s = w i - w (B t) /\ Zlen (fst s) = m + 1 /\
      (forall k, B t <= k < i -> get (fst s) k = Some (w k - w (B t))) /\
      (forall k, ~ B t <= k < i -> get (fst s) k = get rp k)) (B t) (B (t + 1))
     (fun i s => let '(rp, n) := s in rp <- set rp i n ;;
      lo <- get (rowptr A) i ;; hi <- ext_at A i ;;
      n <- forZ lo hi (fun j n => c <- get (colidx A) j ;; Some (if p i c then n + 1 else n)) n ;;
      if rem : bool then nx <- get (rowptr A) (i + 1) ;; Some (rp, n + (nx - hi)) else Some (rp, n)) (rp, 0))
    as ((rp' & c) & -> & E1 & E2 & E3 & E4); auto.
  - cbn [fst snd]. split; [lia|]. split; auto. split; [lia|auto].
  - intros i [rp1 c] Hi (E1 & E2 & E3 & E4). cbn [fst snd] in *.
    destruct (set_ok rp1 i c) as (rp2 & Es); [lia|]. rewrite Es.
    pose proof (count_row i c ltac:(lia)) as Q.
    destruct (get (rowptr A) i) as [lo|]; [|discriminate]. destruct (ext_at A i) as [hi|]; [|discriminate].
    destruct (forZ lo hi (fun j n => c <- get (colidx A) j ;; Some (if p i c then n + 1 else n)) c) as [n1|]; [|discriminate].
    assert (exists c', (if rem then nx <- get (rowptr A) (i + 1) ;; Some (rp2, n1 + (nx - hi)) else Some (rp2, n1)) = Some (rp2, c') /\
      c' = c + Zlen (filter (fun e => p i (fst e)) (nthl rows i))) as (c' & -> & Ec).
    { destruct rem; [destruct (get (rowptr A) (i + 1)); [|discriminate]|]; injection Q as Q; eauto. }
    exists (rp2, c'). split; auto. cbn [fst snd]. split; [rewrite w_step by lia; lia|]. split; [rewrite (set_len _ _ _ _ Es); lia|].
    split; intros k Hk; rewrite (get_set _ _ _ _ _ Es); destruct (Z.eqb_spec k i) as [->|]; try lia.
    + f_equal. lia.
    + apply E3. lia.
    + apply E4. lia.
  - cbn [fst snd] in *. destruct (set_ok ps (t + 1) c) as (ps' & Es); [lia|]. rewrite Es.
    exists rp', ps'. split; auto. split; auto. split; [rewrite (set_len _ _ _ _ Es); lia|]. split; auto. split; auto.
    intros k. rewrite (get_set _ _ _ _ _ Es). destruct (k =? t + 1); auto. now rewrite E1.
Qed.

Lemma count_ok sch rp ps : Zlen rp = m + 1 -> Zlen ps = T + 1 ->
  exists rp' ps', par sch (sl_count A p rem T) (singletons T) (rp, ps) = Some (rp', ps') /\ Zlen rp' = m + 1 /\ Zlen ps' = T + 1 /\
    (forall t i, 0 <= t < T -> B t <= i < B (t + 1) -> get rp' i = Some (w i - w (B t))) /\
    (forall t, 0 <= t < T -> get ps' (t + 1) = Some (w (B (t + 1)) - w (B t))) /\ get ps' 0 = get ps 0.
Proof.
  intros Lr Lp. pose proof (Zlen_nonneg rows) as Hm.
  destruct (par_order_inv (fun done s => Zlen (fst s) = m + 1 /\ Zlen (snd s) = T + 1 /\
     (forall t i, In t done -> 0 <= t < T -> B t <= i < B (t + 1) -> get (fst s) i = Some (w i - w (B t))) /\
     (forall t, In t done -> 0 <= t < T -> get (snd s) (t + 1) = Some (w (B (t + 1)) - w (B t))) /\ get (snd s) 0 = get ps 0)
     sch (sl_count A p rem T) (singletons T) 0 T (rp, ps)) as ((rp' & ps') & done & -> & (E1 & E2 & E3 & E4 & E5) & D).
  - apply concat_singletons.
  - cbn [fst snd]. repeat split; auto; intros t; intros; destruct H.
  - intros done t [rp1 ps1] Ht Hn Hd (E1 & E2 & E3 & E4 & E5). cbn [fst snd] in *.
    destruct (count_thread t rp1 ps1 Ht E1 E2) as (rp2 & ps2 & E & F1 & F2 & F3 & F4 & F5).
    exists (rp2, ps2). split; auto. cbn [fst snd]. split; auto. split; auto. split; [|split].
    + intros t' i [<-|Hin] Ht' Hi; auto. rewrite F4; [eapply E3; eauto|].
      assert (t <> t') by (intros ->; auto). intros Hi'. apply (simple_ranges_disjoint m T t t' i i); auto; lia.
    + intros t' [<-|Hin] Ht'; rewrite F5; [now rewrite Z.eqb_refl|].
      destruct (Z.eqb_spec (t' + 1) (t + 1)) as [Q|]; auto. assert (t' = t) as -> by lia. tauto.
    + rewrite F5. replace (0 =? t + 1) with false by lia. auto.
  - exists rp', ps'. split; auto. cbn [fst snd] in *. split; auto. split; auto. split; [|split; auto].
    + intros t i Ht. apply E3; auto. now apply D.
    + intros t Ht. apply E4; auto. now apply D.
Qed.

Lemma scan_ok rp ps : Zlen rp = m + 1 -> Zlen ps = T + 1 -> get ps 0 = Some 0 ->
  (forall t, 0 <= t < T -> get ps (t + 1) = Some (w (B (t + 1)) - w (B t))) ->
  exists rp' ps', sl_scan m T (rp, ps) = Some (rp', ps') /\ Zlen rp' = m + 1 /\ Zlen ps' = T + 1 /\
    get rp' m = Some (w m) /\ (forall i, i <> m -> get rp' i = get rp i) /\ (forall t, 0 <= t <= T -> get ps' t = Some (w (B t))).
Proof. clear Hp rem.
  intros Lr Lp P0 P1. pose proof (Zlen_nonneg rows) as Hm. unfold sl_scan.
  assert (B0 : w (B 0) = 0) by (rewrite simple_boundary_0 by lia; apply off_0).
  destruct (forZ_rule (fun i ps' => Zlen ps' = T + 1 /\ (forall t, 0 <= t <= i -> get ps' t = Some (w (B t))) /\
      (forall t, i <= t < T -> get ps' (t + 1) = Some (w (B (t + 1)) - w (B t)))) 1 T
      (fun i ps => y <- get ps (i + 1) ;; x <- get ps i ;; set ps (i + 1) (y + x)) ps) as (ps' & -> & E1 & E2 & E3); try lia.
  - split; auto. split; [|intros; apply P1; lia]. intros t Ht. assert (t = 0 \/ t = 1) as [-> | ->] by lia.
    + rewrite P0. f_equal. lia.
    + replace 1 with (0 + 1) at 1 by lia. rewrite P1 by lia. f_equal. replace (0 + 1) with 1 by lia. lia.
  - intros i ps1 Hi (E1 & E2 & E3). rewrite E3 by lia. rewrite E2 by lia.
    match goal with |- context [set ps1 ?a ?b] => destruct (set_ok ps1 a b) as (ps2 & Es); [lia|]; rewrite Es end.
    exists ps2. split; auto. split; [rewrite (set_len _ _ _ _ Es); lia|].
    split; intros t Ht; rewrite (get_set _ _ _ _ _ Es).
    + destruct (Z.eqb_spec t (i + 1)) as [->|]; [f_equal; lia|]. apply E2. lia.
    + replace (t + 1 =? i + 1) with false by lia. apply E3. lia.
  - rewrite E2 by lia. rewrite simple_boundary_last by lia.
    destruct (set_ok rp m (w m)) as (rp' & Es); [lia|]. rewrite Es. exists rp', ps'. split; auto.
    split; [rewrite (set_len _ _ _ _ Es); lia|]. split; auto. split; [apply (get_set_same _ _ _ _ Es)|].
    split; [intros i Hi; now apply (get_set_other _ _ _ _ _ Es)|]. auto.
Qed.

(** The filling loop. *)
Definition half_inv (dg : list V) (D : Z -> Prop) (s : sl_half) : Prop :=
  let '(rp, ci, vs, id) := s in
  Zlen rp = m + 1 /\ Zlen ci = w m /\ Zlen vs = w m /\ Zlen id = m /\ get rp m = Some (w m) /\
  (forall i, 0 <= i < m -> D i -> get rp i = Some (w i) /\ at_row 0 ci (Some vs) (w i) (nthl R i) /\ get id i = get dg i) /\
  (forall t i, 0 <= t < T -> B t <= i < B (t + 1) -> ~ D i -> get rp i = Some (w i - w (B t))).

Lemma select_loop i pos ci vs : 0 <= i < m -> 0 <= pos -> pos + Zlen (filter (fun e => p i (fst e)) (nthl rows i)) <= Zlen ci -> Zlen vs = Zlen ci ->
  let tgt := filter (fun e => p i (fst e)) (nthl rows i) in
  exists ci' vs', forZ (o i) (o i + Zlen (nthl rows i)) (fun j s =>
      let '(k, ci, vs) := s in
      c <- get (colidx A) j ;;
      if p i c then
        ci <- set ci k c ;; avs <- values A ;; v <- get avs j ;; vs <- set vs k v ;; Some (k + 1, ci, vs)
      else Some (k, ci, vs)) (pos, ci, vs) = Some (pos + Zlen tgt, ci', vs') /\
    at_row 0 ci' (Some vs') pos tgt /\ frame pos (pos + Zlen tgt) ci (Some vs) ci' (Some vs').
Proof. clear Hp rem.
  intros Hi Hpos Hle Hv tgt. set (r := nthl rows i) in *. set (f := fun e : Z * V => p i (fst e)) in *.
  pose proof (Zlen_nonneg r) as Hr. change (filter f r) with tgt in Hle.
  match goal with |- context [forZ _ _ ?bd _] => set (body := bd) end.
  destruct (forZ_rule (fun j s => exists ci' vs', s = (pos + Zlen (filter f (slice r 0 (j - o i))), ci', vs') /\
      at_row 0 ci' (Some vs') pos (filter f (slice r 0 (j - o i))) /\
      frame pos (pos + Zlen (filter f (slice r 0 (j - o i)))) ci (Some vs) ci' (Some vs')) (o i) (o i + Zlen r) body (pos, ci, vs))
    as (s & E & ci' & vs' & -> & H1 & H2); try lia.
  - exists ci, vs. rewrite slice_nil by lia. cbn [filter]. change (Zlen (@nil (Z * V))) with 0. rewrite Z.add_0_r. split; auto. split; [|apply frame_refl].
    split; intros; [|destruct vs]; apply get_Some_bounds in H || apply get_Some_bounds in H0; change (Zlen (@nil (Z * V))) with 0 in *; lia.
  - intros j s Hj (ci1 & vs1 & -> & H1 & H2).
    destruct (get_in_range r (j - o i)) as ([c v] & Ek); [lia|].
    pose proof (rep_col _ _ _ _ _ _ _ _ _ HR Hi Ek) as Ec. destruct (rep_val _ _ _ _ _ _ _ _ HR Hi Ek) as (avs & Ea & Ev).
    replace (o i + (j - o i)) with j in Ec, Ev by lia. rewrite Z.add_0_r in Ec.
    assert (Esl : slice r 0 (j + 1 - o i) = slice r 0 (j - o i) ++ [(c, v)]).
    { rewrite (slice_app r 0 (j - o i) (j + 1 - o i)) by lia. f_equal. rewrite (slice_cons r (j - o i) (j + 1 - o i) (c, v)) by (auto; lia).
      now rewrite slice_nil by lia. }
    rewrite Esl, filter_app. cbn [filter]. change (f (c, v)) with (p i c).
    unfold body. rewrite Ec. set (pre := filter f (slice r 0 (j - o i))) in *. pose proof (Zlen_nonneg pre) as Hpre.
    assert (Hlen : p i c = true -> Zlen pre + 1 <= Zlen tgt).
    { intros Ep. unfold tgt. rewrite <- (slice_full r). rewrite (slice_app r 0 (j + 1 - o i) (Zlen r)) by lia.
      rewrite filter_app, Zlen_app, Esl, filter_app, Zlen_app. fold pre. cbn [filter]. change (f (c, v)) with (p i c). rewrite Ep.
      change (Zlen [(c, v)]) with 1. pose proof (Zlen_nonneg (filter f (slice r (j + 1 - o i) (Zlen r)))). lia. }
    destruct (p i c) eqn:Ep.
    + specialize (Hlen eq_refl). pose proof H2 as (F1 & F2 & F3 & F4).
      destruct (set_ok ci1 (pos + Zlen pre) c) as (ci2 & Es); [lia|]. rewrite Es, Ea, Ev.
      destruct (set_ok vs1 (pos + Zlen pre) v) as (vs2 & Es2); [lia|]. rewrite Es2.
      eexists. split; [reflexivity|]. exists ci2, vs2. rewrite Zlen_app. change (Zlen [(c, v)]) with 1.
      split; [f_equal; f_equal; lia|].
      assert (HF2 : frame (pos + Zlen pre) (pos + (Zlen pre + 1)) ci1 (Some vs1) ci2 (Some vs2)).
      { split; [apply (set_len _ _ _ _ Es)|]. split; [intros k Hk; apply (get_set_other _ _ _ _ _ Es); lia|].
        split; [apply (set_len _ _ _ _ Es2)|]. intros k Hk; apply (get_set_other _ _ _ _ _ Es2); lia. }
      split.
      * apply at_row_app; [apply (at_row_frame _ _ _ _ _ _ _ _ _ HF2); auto; lia|]. split.
        -- intros q e Eq. pose proof (get_Some_bounds _ _ _ Eq) as Bq. change (Zlen [(c, v)]) with 1 in Bq.
           assert (q = 0) as -> by lia. rewrite get_cons_0 in Eq. injection Eq as <-. cbn [fst]. rewrite !Z.add_0_r. apply (get_set_same _ _ _ _ Es).
        -- intros w0 Ew q e Eq. pose proof (get_Some_bounds _ _ _ Eq) as Bq. change (Zlen [(c, v)]) with 1 in Bq. injection Ew as <-.
           assert (q = 0) as -> by lia. rewrite get_cons_0 in Eq. injection Eq as <-. cbn [snd]. rewrite !Z.add_0_r. apply (get_set_same _ _ _ _ Es2).
      * apply (frame_trans _ _ _ _ ci1 (Some vs1)); [apply (frame_weaken pos (pos + Zlen pre)); auto; lia|].
        apply (frame_weaken (pos + Zlen pre) (pos + (Zlen pre + 1))); auto; lia.
    + rewrite app_nil_r. eexists. split; [reflexivity|]. exists ci1, vs1. auto.
  - replace (o i + Zlen r - o i) with (Zlen r) in * by lia. rewrite slice_full in *. fold tgt in E, H1, H2. exists ci', vs'. auto.
Qed.

Lemma fill_step dg ps (D : Z -> Prop) t i s : idiag A = Some dg -> Zlen dg = m -> (forall t, 0 <= t <= T -> get ps t = Some (w (B t))) ->
  0 <= t < T -> B t <= i < B (t + 1) -> ~ D i -> half_inv dg D s ->
  exists s', sl_fill A p ps t i s = Some s' /\ half_inv dg (fun j => j = i \/ D j) s'.
Proof. clear Hp rem.
  intros Hdg Ldg Hps Ht Hi HD. destruct s as [[[rp ci] vs] id]. intros (L1 & L2 & L3 & L4 & Hmm & H1 & H2). unfold sl_fill.
  pose proof (Zlen_nonneg rows) as Hm. pose proof (simple_boundary_range m T t ltac:(lia) ltac:(lia) ltac:(lia)).
  pose proof (simple_boundary_range m T (t + 1) ltac:(lia) ltac:(lia) ltac:(lia)).
  rewrite (H2 t i) by auto. rewrite Hps by lia. replace (w i - w (B t) + w (B t)) with (w i) by lia.
  destruct (set_ok rp i (w i)) as (rp2 & Es); [lia|]. rewrite Es.
  rewrite (rep_rowptr _ _ _ _ _ _ HR) by lia. rewrite (rep_rowptr_S _ _ _ _ _ _ HR) by lia. rewrite !Z.add_0_l.
  pose proof (w_step i ltac:(lia)) as Wi. pose proof (off_mono (nthl R) (i + 1) m ltac:(lia)) as Wm. pose proof (off_nonneg (nthl R) i) as W0.
  destruct (select_loop i (w i) ci vs) as (ci' & vs' & -> & HA & HF); try lia. rewrite Hdg.
  destruct (get_in_range dg i) as (g & Eg); [lia|]. rewrite Eg. destruct (set_ok id i g) as (id2 & Eid); [lia|]. rewrite Eid.
  eexists. split; [reflexivity|]. cbn [half_inv]. pose proof HF as (F1 & F2 & F3 & F4).
  split; [rewrite (set_len _ _ _ _ Es); lia|]. split; [lia|]. split; [lia|]. split; [rewrite (set_len _ _ _ _ Eid); lia|].
  split; [rewrite (get_set_other _ _ _ _ _ Es) by lia; auto|]. split.
  - intros k Hk Dk. rewrite (get_set _ _ _ _ _ Es), (get_set _ _ _ _ _ Eid). destruct (Z.eqb_spec k i) as [->|Hne].
    + split; auto. split; auto. rewrite nthl_select by lia. auto.
    + destruct Dk as [|Dk]; [tauto|]. destruct (H1 k Hk Dk) as (G1 & G2 & G3). split; auto. split; auto.
      apply (at_row_frame _ _ _ _ _ _ _ _ _ HF); auto. rewrite <- Wi.
      destruct (Z_lt_ge_dec k i).
      * left. rewrite <- off_S by lia. apply off_mono. lia.
      * right. apply off_mono. lia.
  - intros t' k Ht' Hk Dk. rewrite (get_set_other _ _ _ _ _ Es); [apply H2; auto|].
    intros ->. apply Dk. auto.
Qed.
End Half.

Variable dg : list V.
Hypothesis Hdg : idiag A = Some dg.
Hypothesis Ldg : Zlen dg = m.
Notation wl := (off (nthl (select lower rows))).
Notation wu := (off (nthl (select upper rows))).

(** Position of the first remote entry of U in row [i]. *)
Definition ext_val (i : Z) : Z := wu (i + 1) - (Zlen (nthl rows i) - cut i).

Lemma ext_same D D' p s : (forall i, D i <-> D' i) -> half_inv p dg D s -> half_inv p dg D' s.
Proof.
  intros H. destruct s as [[[rp ci] vs] id]. intros (H1 & H2 & H3 & H4 & H5 & H6 & H7). cbn [half_inv].
  do 5 (split; auto). split.
  - intros i Hi HD. apply H6; auto. now apply H.
  - intros t i Ht Hi HD. apply H7; auto. rewrite H. auto.
Qed.

Lemma In_thread a t : 0 <= t < T -> In a (sl_thread m T t) <->
  match a with SlRow t' i => t' = t /\ B t <= i < B (t + 1) | SlLast t' => t' = t end.
Proof.
  intros Ht. unfold sl_thread. rewrite simple_partition_boundary by (try lia; apply Zlen_nonneg).
  rewrite in_app_iff, in_map_iff. cbn [In]. destruct a as [t' i|t']; split.
  - intros [(k & Q & Hk)|[Q|[]]]; [|discriminate]. injection Q as <- <-. rewrite In_zrange in Hk. auto.
  - intros [-> Hi]. left. exists i. rewrite In_zrange. auto.
  - intros [(k & Q & _)|[Q|[]]]; [discriminate|congruence].
  - intros ->. auto.
Qed.

Lemma NoDup_app2 {X} (l1 l2 : list X) : NoDup l1 -> NoDup l2 -> (forall x, In x l1 -> In x l2 -> False) -> NoDup (l1 ++ l2).
Proof.
  induction l1 as [|a l1 IH]; intros H1 H2 H3; cbn; auto. inversion H1; subst. constructor.
  - rewrite in_app_iff. intros [|]; auto. apply (H3 a); cbn; auto.
  - apply IH; auto. intros x Hx. apply H3. cbn; auto.
Qed.

Lemma NoDup_threads_ts (f : Z -> list sl_act) lo hi : (forall t, lo <= t < hi -> NoDup (f t)) ->
  (forall t t' a, lo <= t < hi -> lo <= t' < hi -> In a (f t) -> In a (f t') -> t = t') -> NoDup (concat (map f (zrange lo hi))).
Proof.
  intros H1 H2. remember (Z.to_nat (hi - lo)) as k eqn:Ek. revert lo Ek H1 H2. induction k as [|k IH]; intros lo Ek H1 H2.
  - rewrite zrange_nil by lia. constructor.
  - rewrite zrange_cons by lia. cbn [map concat]. apply NoDup_app2.
    + apply H1. lia.
    + apply IH; [lia| |]; intros; [apply H1; lia|]. eapply H2; eauto; lia.
    + intros a Ha Hb. apply in_concat in Hb. destruct Hb as (l & Hl & Hb). apply in_map_iff in Hl. destruct Hl as (t & <- & Ht).
      apply In_zrange in Ht. assert (lo = t) by (eapply H2; eauto; lia). lia.
Qed.

Lemma In_acts sch a : In a (merge sch (map (sl_thread m T) (zrange 0 T))) <->
  match a with SlRow t i => 0 <= t < T /\ B t <= i < B (t + 1) | SlLast t => 0 <= t < T end.
Proof.
  assert (HP := merge_perm sch (map (sl_thread m T) (zrange 0 T))).
  assert (In a (merge sch (map (sl_thread m T) (zrange 0 T))) <-> In a (concat (map (sl_thread m T) (zrange 0 T)))) as ->.
  { split; apply Permutation_in; auto. now apply Permutation_sym. }
  rewrite in_concat. split.
  - intros (l & Hl & Ha). apply in_map_iff in Hl. destruct Hl as (t & <- & Ht). apply In_zrange in Ht.
    apply In_thread in Ha; auto. destruct a; [destruct Ha as [-> Ha]|subst]; auto.
  - destruct a as [t i|t].
    + intros [Ht Hi]. exists (sl_thread m T t). split; [apply in_map, In_zrange; auto|]. apply In_thread; auto.
    + intros Ht. exists (sl_thread m T t). split; [apply in_map, In_zrange; auto|]. apply In_thread; auto.
Qed.

Lemma NoDup_acts sch : NoDup (merge sch (map (sl_thread m T) (zrange 0 T))).
Proof.
  eapply Permutation_NoDup; [apply Permutation_sym, merge_perm|]. apply NoDup_threads_ts.
  - intros t Ht. unfold sl_thread. rewrite simple_partition_boundary by (try lia; apply Zlen_nonneg). apply NoDup_app2.
    + apply FinFun.Injective_map_NoDup; [intros x y Q; congruence|apply NoDup_zrange].
    + repeat constructor; auto.
    + intros a Ha [<-|[]]. apply in_map_iff in Ha. destruct Ha as (k & Q & _). discriminate.
  - intros t t' a Ht Ht' Ha Hb. apply In_thread in Ha; auto. apply In_thread in Hb; auto. destruct a; lia.
Qed.

Definition ext_inv (e0 : option (list Z)) (done : list sl_act) (ext : option (list Z)) : Prop :=
  match extptr A with
  | None => ext = e0
  | Some _ => exists e, ext = Some e /\ Zlen e = m /\
      (forall t i, In (SlRow t i) done -> 0 <= t < T -> B t < i < B (t + 1) -> get e (i - 1) = Some (ext_val (i - 1))) /\
      (forall t, In (SlLast t) done -> 0 <= t < T -> B t < B (t + 1) -> get e (B (t + 1) - 1) = Some (ext_val (B (t + 1) - 1)))
  end.

Lemma fill_all sch ps0 ps1 hl hu e0 :
  (forall t, 0 <= t <= T -> get ps0 t = Some (wl (B t))) -> (forall t, 0 <= t <= T -> get ps1 t = Some (wu (B t))) ->
  half_inv lower dg (fun _ => False) hl -> half_inv upper dg (fun _ => False) hu ->
  (extptr A <> None -> exists e, e0 = Some e /\ Zlen e = m) ->
  exists hl' hu' e', par sch (sl_step A T ps0 ps1) (map (sl_thread m T) (zrange 0 T)) (hl, (hu, e0)) = Some (hl', (hu', e')) /\
    half_inv lower dg (fun i => 0 <= i < m) hl' /\ half_inv upper dg (fun i => 0 <= i < m) hu' /\
    (extptr A = None -> e' = e0) /\ (extptr A <> None -> exists e, e' = Some e /\ Zlen e = m /\ forall i, 0 <= i < m -> get e i = Some (ext_val i)).
Proof.
  intros Hp0 Hp1 Hl Hu He0. pose proof (Zlen_nonneg rows) as Hm.
  set (D := fun (done : list sl_act) i => exists t, In (SlRow t i) done).
  destruct (order_inv (fun done (s : sl_state) => let '(hl, (hu, ext)) := s in
     half_inv lower dg (D done) hl /\ half_inv upper dg (D done) hu /\ ext_inv e0 done ext)
     (sl_step A T ps0 ps1) (merge sch (map (sl_thread m T) (zrange 0 T))) (hl, (hu, e0))) as ((hl' & (hu' & e')) & done & E & (I1 & I2 & I3) & HD).
  - apply NoDup_acts.
  - split; [|split].
    + eapply ext_same; [|apply Hl]. intros i. split; [tauto|intros (t & [])].
    + eapply ext_same; [|apply Hu]. intros i. split; [tauto|intros (t & [])].
    + unfold ext_inv. destruct (extptr A); auto. destruct He0 as (e & -> & Le); [discriminate|]. exists e. split; auto. split; auto. split; intros t; [intros i []|intros []].
  - intros done [t i|t] [hl1 [hu1 e1]] Hin Hnd Hdone (I1 & I2 & I3); apply In_acts in Hin.
    + destruct Hin as [Ht Hi]. cbn [sl_step]. rewrite sl_part by auto.
      pose proof (simple_boundary_range m T t ltac:(lia) ltac:(lia) ltac:(lia)) as R1.
      pose proof (simple_boundary_range m T (t + 1) ltac:(lia) ltac:(lia) ltac:(lia)) as R2.
      assert (HDi : ~ D done i).
      { intros (t' & Hin'). pose proof (Hdone _ Hin') as Q. apply In_acts in Q. destruct Q as [Ht' Hi'].
        destruct (Z.eq_dec t t') as [->|Hne]; auto. eapply (simple_ranges_disjoint m T t t' i i); eauto; lia. }
      assert (HDs : forall j, (j = i \/ D done j) <-> D (SlRow t i :: done) j).
      { intros j. split.
        - intros [->|(t' & Q)]; [exists t; cbn; auto|exists t'; cbn; auto].
        - intros (t' & [Q|Q]); [injection Q as <- <-; auto|right; exists t'; auto]. }
      destruct (fill_step lower dg ps0 (D done) t i hl1) as (hl2 & -> & J1); auto.
      destruct (fill_step upper dg ps1 (D done) t i hu1) as (hu2 & -> & J2); auto.
      pose proof (ext_same _ _ _ _ HDs J1) as J1'. pose proof (ext_same _ _ _ _ HDs J2) as J2'. clear J1.
      unfold ext_inv in *. destruct (extptr A) as [er|] eqn:Ex.
      * destruct I3 as (e & -> & Le & G1 & G2). destruct (Z.ltb_spec (B t) i) as [Hlt|Hge].
        -- destruct hu2 as [[[rpu ciu] vsu] idu]. destruct J2' as (K1 & K2 & K3 & K4 & K5 & K6 & K7).
           destruct (K6 i) as (-> & _); [lia|exists t; cbn; auto|].
           rewrite (rep_rowptr _ _ _ _ _ _ HR) by lia. rewrite Z.add_0_l.
           assert (get er (i - 1) = Some (o (i - 1) + cut (i - 1))) as ->.
           { destruct (HE (i - 1)) as (Q & _); [lia|]. unfold ext_at in Q. rewrite Ex in Q. auto. }
           match goal with |- context [set e ?a ?b] => destruct (set_ok e a b) as (e2 & Es); [lia|]; rewrite Es end.
           eexists. split; [reflexivity|]. split; auto. split; [cbn [half_inv]; auto 10|].
           exists e2. split; auto. split; [rewrite (set_len _ _ _ _ Es); auto|].
           assert (Hv : wu i - (o i - (o (i - 1) + cut (i - 1))) = ext_val (i - 1)).
           { unfold ext_val. replace (i - 1 + 1) with i by lia. replace i with (i - 1 + 1) at 2 by lia. rewrite (off_S (nthl rows) (i - 1)) by lia. lia. }
           split.
           ++ intros t' i' Hin' Ht' Hi'. rewrite (get_set _ _ _ _ _ Es). destruct (Z.eqb_spec (i' - 1) (i - 1)) as [Q|Q].
              ** assert (i' = i) as -> by lia. now rewrite Hv.
              ** destruct Hin' as [Q'|Hin']; [injection Q' as <- <-; lia|]. eapply G1; eauto.
           ++ intros t' Hin' Ht' Hlt'. destruct Hin' as [Q'|Hin']; [discriminate|]. rewrite (get_set_other _ _ _ _ _ Es); [apply G2; auto|].
              intros Q. assert (B (t' + 1) = i) by lia.
              destruct (Z_lt_ge_dec t' t).
              ** pose proof (simple_boundary_le m T (t' + 1) t). lia.
              ** pose proof (simple_boundary_le m T (t + 1) (t' + 1)). lia.
        -- eexists. split; [reflexivity|]. split; auto. split; auto. exists e. split; auto. split; auto. split.
           ++ intros t' i' [Q|Hin'] Ht' Hi'; [injection Q as <- <-; lia|eapply G1; eauto].
           ++ intros t' [Q|Hin'] Ht' Hi'; [discriminate|eapply G2; eauto].
      * eexists. split; [reflexivity|]. split; auto.
    + cbn [sl_step]. rewrite sl_part by auto.
      pose proof (simple_boundary_range m T t ltac:(lia) ltac:(lia) ltac:(lia)) as R1.
      pose proof (simple_boundary_range m T (t + 1) ltac:(lia) ltac:(lia) ltac:(lia)) as R2.
      assert (HDs : forall j, D done j <-> D (SlLast t :: done) j).
      { intros j. split; intros (t' & Q); exists t'; cbn in *; auto. destruct Q; [discriminate|auto]. }
      pose proof (ext_same _ _ _ _ HDs I1) as I1'. pose proof (ext_same _ _ _ _ HDs I2) as I2'.
      unfold ext_inv in *. destruct (extptr A) as [er|] eqn:Ex.
      * destruct I3 as (e & -> & Le & G1 & G2). destruct (Z.ltb_spec (B t) (B (t + 1))) as [Hlt|Hge].
        -- rewrite Hp1 by lia. rewrite (rep_rowptr _ _ _ _ _ _ HR) by lia. rewrite Z.add_0_l.
           set (i := B (t + 1)) in *.
           assert (get er (i - 1) = Some (o (i - 1) + cut (i - 1))) as ->.
           { destruct (HE (i - 1)) as (Q & _); [lia|]. unfold ext_at in Q. rewrite Ex in Q. auto. }
           match goal with |- context [set e ?a ?b] => destruct (set_ok e a b) as (e2 & Es); [lia|]; rewrite Es end.
           eexists. split; [reflexivity|]. split; auto. split; auto. exists e2. split; auto. split; [rewrite (set_len _ _ _ _ Es); auto|].
           assert (Hv : wu i - (o i - (o (i - 1) + cut (i - 1))) = ext_val (i - 1)).
           { unfold ext_val. replace (i - 1 + 1) with i by lia. replace i with (i - 1 + 1) at 2 by lia. rewrite (off_S (nthl rows) (i - 1)) by lia. lia. }
           split.
           ++ intros t' i' [Q'|Hin'] Ht' Hi'; [discriminate|]. rewrite (get_set_other _ _ _ _ _ Es); [eapply G1; eauto|].
              intros Q. assert (i' = B (t + 1)) by (unfold i in Q; lia).
              destruct (Z_lt_ge_dec t t').
              ** pose proof (simple_boundary_le m T (t + 1) t'). lia.
              ** pose proof (simple_boundary_le m T (t' + 1) (t + 1)). lia.
           ++ intros t' Hin' Ht' Hlt'. rewrite (get_set _ _ _ _ _ Es). destruct (Z.eqb_spec (B (t' + 1) - 1) (i - 1)) as [Q|Q].
              ** rewrite Hv. f_equal. f_equal. lia.
              ** destruct Hin' as [Q'|Hin']; [injection Q' as <-; unfold i in Q; lia|]. apply G2; auto.
        -- eexists. split; [reflexivity|]. split; auto. split; auto. exists e. split; auto. split; auto. split.
           ++ intros t' i' [Q|Hin'] Ht' Hi'; [discriminate|eapply G1; eauto].
           ++ intros t' [Q|Hin'] Ht' Hi'; [injection Q as <-; lia|eapply G2; eauto].
      * eexists. split; [reflexivity|]. split; auto.
  - exists hl', hu', e'. split; auto.
    assert (Hloc : forall i, 0 <= i < m -> exists t, 0 <= t < T /\ B t <= i < B (t + 1)).
    { intros i Hi. destruct (simple_partition_tiles m T Hm HT) as (_ & _ & _ & _ & Hu').
      destruct (Hu' i Hi) as (t & (Ht & lo & hi & Q & Hr) & _). exists t. split; auto.
      rewrite simple_partition_boundary in Q by lia. injection Q as <- <-. auto. }
    assert (HDs : forall j, D done j <-> 0 <= j < m).
    { intros j. split.
      - intros (t & Q). apply HD, In_acts in Q. destruct Q as [Ht Hj].
        pose proof (simple_boundary_range m T t ltac:(lia) ltac:(lia) ltac:(lia)).
        pose proof (simple_boundary_range m T (t + 1) ltac:(lia) ltac:(lia) ltac:(lia)). lia.
      - intros Hj. destruct (Hloc j Hj) as (t & Ht & Hb). exists t. apply HD, In_acts. auto. }
    split; [eapply ext_same; eauto|]. split; [eapply ext_same; eauto|].
    unfold ext_inv in I3. destruct (extptr A) as [er|]; [|split; [auto|congruence]]. split; [discriminate|]. intros _.
    destruct I3 as (e & -> & Le & G1 & G2). exists e. split; auto. split; auto.
    intros i Hi. destruct (Hloc i Hi) as (t & Ht & Hb). destruct (Z.eq_dec (i + 1) (B (t + 1))) as [Q|Q].
    + replace i with (B (t + 1) - 1) by lia. apply G2; auto; [|lia]. apply HD, In_acts. auto.
    + replace i with (i + 1 - 1) by lia. apply (G1 t); auto; [|lia]. apply HD, In_acts. lia.
Qed.

Lemma half_rep p s : half_inv p dg (fun i => 0 <= i < m) s ->
  let '(rp, ci, vs, id) := s in
  rp = rowptr_of 0 (select p rows) /\ ci = colidx_of 0 (select p rows) /\ vs = values_of (select p rows) /\ id = dg.
Proof.
  destruct s as [[[rp ci] vs] id]. intros (L1 & L2 & L3 & L4 & Hmm & H1 & _). pose proof (Zlen_nonneg rows) as Hm.
  assert (LC : Zlen (concat (select p rows)) = off (nthl (select p rows)) m) by (rewrite Zlen_concat, Zlen_select; auto).
  destruct (at_rows_arrays 0 (select p rows) ci (Some vs) (off (nthl (select p rows)) m)) as (Q1 & Q2); auto; try lia.
  { intros w0 Ew. injection Ew as <-. auto. }
  { intros i Hi. rewrite Zlen_select in Hi. apply H1; auto. }
  specialize (Q2 vs eq_refl). rewrite LC in Q1, Q2.
  replace (off (nthl (select p rows)) m) with (Zlen ci) in Q1 at 1 by lia. replace (off (nthl (select p rows)) m) with (Zlen vs) in Q2 at 1 by lia.
  rewrite slice_full in Q1. rewrite slice_full in Q2. split; [|split; [auto|split; [auto|]]].
  - apply list_ext; [rewrite Zlen_rowptr_of, Zlen_select; lia|]. intros i Hi.
    rewrite get_rowptr_of by (rewrite Zlen_select; lia). rewrite Z.add_0_l. destruct (Z.eq_dec i m) as [->|]; auto. apply H1; lia.
  - apply list_ext; [lia|]. intros i Hi. apply H1; lia.
Qed.

Theorem splitLU0_ok sch j : sl_junk_ok m T j ->
  exists L U, splitLU0 A T sch j = Some (L, U) /\ rep true 0 n (select lower rows) L /\ rep true 0 n (select upper rows) U /\
    idiag L = Some dg /\ idiag U = Some dg /\ diagptr L = None /\ diagptr U = None /\ diag L = None /\ diag U = None /\ extptr L = None /\
    (extptr A = None -> extptr U = None) /\
    (extptr A <> None -> exists e, extptr U = Some e /\ Zlen e = m /\ forall i, 0 <= i < m -> get e i = Some (ext_val i)).
Proof.
  intros (J1 & J2 & J3 & J4 & J5 & J6 & J7 & J8). pose proof (Zlen_nonneg rows) as Hm.
  pose proof HR as (Em & En & _). unfold splitLU0. cbv zeta. rewrite Em.
  destruct (set_ok (sj_ps0 j) 0 0) as (p0 & E0); [lia|]. rewrite E0. destruct (set_ok (sj_ps1 j) 0 0) as (p1 & E1); [lia|]. rewrite E1.
  pose proof (set_len _ _ _ _ E0). pose proof (set_len _ _ _ _ E1).
  assert (PL : forall i c, 0 <= i < m -> i < c -> lower i c = false) by (unfold lower; intros; lia).
  assert (PU : forall i c, 0 <= i < m -> i < c -> upper i c = true) by (unfold upper; intros; lia).
  destruct (count_ok lower false PL (sch 0%nat) (sj_rpl j) p0) as (rl & q0 & -> & C1 & C2 & C3 & C4 & C5); try lia.
  destruct (count_ok upper true PU (sch 0%nat) (sj_rpu j) p1) as (ru & q1 & -> & D1 & D2 & D3 & D4 & D5); try lia.
  destruct (scan_ok lower rl q0) as (rl2 & q02 & -> & S1 & S2 & S3 & S4 & S5); auto. { rewrite C5. apply (get_set_same _ _ _ _ E0). }
  destruct (scan_ok upper ru q1) as (ru2 & q12 & -> & U1 & U2 & U3 & U4 & U5); auto. { rewrite D5. apply (get_set_same _ _ _ _ E1). }
  rewrite S3, U3. destruct (J8 (wl m) (off_nonneg _ _)) as (K1 & _ & K3 & _). destruct (J8 (wu m) (off_nonneg _ _)) as (_ & K2 & _ & K4).
  destruct (fill_all (sch 1%nat) q02 q12 (rl2, sj_cil j (wl m), sj_vsl j (wl m), sj_idl j) (ru2, sj_ciu j (wu m), sj_vsu j (wu m), sj_idu j)
     (match extptr A with Some _ => Some (sj_ext j) | None => None end)) as (hl & hu & e & E & I1 & I2 & I3 & I4); auto.
  - cbn [half_inv]. repeat (split; [auto; fail|]). split; [intros; tauto|]. intros t i Ht Hi _. rewrite S4; [eapply C3; eauto|].
    pose proof (simple_boundary_range m T (t + 1) ltac:(lia) ltac:(lia) ltac:(lia)). lia.
  - cbn [half_inv]. repeat (split; [auto; fail|]). split; [intros; tauto|]. intros t i Ht Hi _. rewrite U4; [eapply D3; eauto|].
    pose proof (simple_boundary_range m T (t + 1) ltac:(lia) ltac:(lia) ltac:(lia)). lia.
  - destruct (extptr A); [eauto|congruence].
  - match goal with |- context [par ?a ?b ?c ?d] => replace (par a b c d) with (Some (hl, (hu, e))) by (symmetry; exact E) end.
    apply half_rep in I1. apply half_rep in I2. destruct hl as [[[rpl cil] vsl] idl]. destruct hu as [[[rpu ciu] vsu] idu].
    destruct I1 as (-> & -> & -> & ->), I2 as (-> & -> & -> & ->). eexists _, _. split; [reflexivity|].
    split; [repeat split; cbn; auto; rewrite ?Zlen_select; auto|]. split; [repeat split; cbn; auto; rewrite ?Zlen_select; auto|]. cbn.
    repeat (split; [auto; fail|]). split; auto. intros Q. rewrite (I3 Q), Q. auto.
Qed.
End Proof.

(** Every row is made of its lower, diagonal and upper entries. *)
Lemma row_parts {V} i (r : list (Z * V)) :
  Permutation r (filter (fun e => lower i (fst e)) r ++ filter (fun e => fst e =? i) r ++ filter (fun e => upper i (fst e)) r).
Proof.
  unfold lower, upper. induction r as [|e r IH]; cbn [filter app]; auto.
  destruct (Z.ltb_spec (fst e) i), (Z.eqb_spec (fst e) i), (Z.ltb_spec i (fst e)); try lia; cbn [app].
  - now constructor.
  - apply Permutation_cons_app. exact IH.
  - rewrite app_assoc. apply Permutation_cons_app. rewrite <- app_assoc. exact IH.
Qed.

Theorem splitLU_ok {V} base n (rows lrows : rows_t V) A dg T sch j s1 s2 s3 s4 :
  base = 0 \/ base = 1 -> rep true base n rows A -> local_rows base rows A lrows -> diagptr_len A ->
  (forall i k c v, 0 <= i < Zlen rows -> Zlen (nthl lrows i) <= k -> get (nthl rows i) k = Some (c, v) -> Zlen rows <= c) ->
  (base = 1 -> extptr A <> None -> forall i, 0 <= i < Zlen rows -> Zlen (nthl lrows i) < Zlen (nthl rows i)) ->
  idiag A = Some dg -> Zlen dg = Zlen rows -> 1 <= T -> sl_junk_ok (Zlen rows) T j ->
  exists L U, splitLU A T sch j s1 s2 s3 s4 = Some (A, L, U) /\
    rep true base n (select lower rows) L /\ rep true base n (select upper rows) U /\
    extptr L = None /\ local_rows base (select upper rows) U (select upper lrows) /\ (extptr A = None <-> extptr U = None) /\
    idiag L = Some dg /\ idiag U = Some dg /\ diagptr L = None /\ diagptr U = None.
Proof.
  intros Hb HR HL HD Hrem Hlt Hdg Ldg HT Hj. unfold splitLU. rewrite (rep_base _ _ _ _ _ HR). pose proof (Zlen_nonneg rows) as Hm.
  assert (H0 : exists A0, make0Based A s1 = Some A0 /\ rep true 0 n rows A0 /\ idiag A0 = Some dg /\ extptr A0 = extptr A /\ (base = 0 -> A0 = A)).
  { destruct Hb as [-> | ->].
    - exists A. split; [|auto]. unfold make0Based. rewrite (rep_base _ _ _ _ _ HR). reflexivity.
    - destruct (make0_ok _ _ _ _ s1 HR HD) as (A0 & E & R0 & _ & I & _ & X & _). exists A0. split; auto. split; auto. split; [congruence|]. split; auto. lia. }
  destruct H0 as (A0 & E0 & R0 & I0 & X0 & B0). rewrite E0.
  pose proof HL as [LL _].
  assert (Hpre : forall i, 0 <= i < Zlen rows -> exists h, nthl rows i = nthl lrows i ++ h) by (intros; eapply local_prefix; eauto).
  set (sh := match extptr A with Some _ => base | None => 0 end).
  assert (Hsh : forall i, 0 <= i < Zlen rows -> 0 <= Zlen (nthl lrows i) + sh <= Zlen (nthl rows i)).
  { intros i Hi. destruct (Hpre i Hi) as (h & Eh). pose proof (f_equal (@Zlen _) Eh) as Q. rewrite Zlen_app in Q.
    pose proof (Zlen_nonneg h). pose proof (Zlen_nonneg (nthl lrows i)). unfold sh. destruct (extptr A) eqn:Ex; [|lia].
    destruct Hb as [-> | ->]; [lia|]. specialize (Hlt eq_refl ltac:(discriminate) i Hi). lia. }
  destruct (splitLU0_ok n rows A0 (fun i => Zlen (nthl lrows i) + sh) T R0) with (dg := dg) (sch := sch) (j := j)
    as (L & U & E & RL & RU & IL & IU & DL & DU & _ & _ & XL & XU1 & XU2); auto.
  { intros i Hi. split; [|split].
    - unfold ext_at. rewrite X0. unfold sh. destruct HL as [_ HL]. destruct (extptr A) as [e|].
      + destruct HL as [_ HL]. destruct (HL i Hi) as (h & _ & ->). f_equal. lia.
      + subst lrows. rewrite (rep_rowptr_S _ _ _ _ _ _ R0) by lia. f_equal. lia.
    - apply Hsh; auto.
    - intros k c v Hk Ek. assert (Zlen rows <= c); [|lia]. apply (Hrem i k c v); auto. unfold sh in Hk. destruct (extptr A); lia. }
  rewrite E.
  assert (HU0 : forall U', extptr U' = extptr U -> local_rows base (select upper rows) U' (select upper lrows)).
  { intros U' EU'. split; [now rewrite !Zlen_select|]. rewrite EU'. destruct (extptr A) as [e|] eqn:Ex.
    - destruct XU2 as (eu & -> & Le & Ge); [rewrite X0; discriminate|]. rewrite Zlen_select. split; auto. intros i Hi.
      destruct (Hpre i Hi) as (h & Eh). rewrite !nthl_select by lia. exists h. rewrite Eh, filter_app.
      assert (Fh : filter (fun e => upper i (fst e)) h = h).
      { apply filter_all. intros [c v] Hin. destruct (In_get _ _ Hin) as (k & Hk & Ek). unfold upper. cbn [fst].
        assert (Zlen rows <= c); [|lia]. apply (Hrem i (Zlen (nthl lrows i) + k) c v); try lia.
        rewrite Eh, get_app_r by lia. now replace (Zlen (nthl lrows i) + k - Zlen (nthl lrows i)) with k by lia. }
      rewrite Fh. split; auto. rewrite Ge by auto. unfold ext_val. rewrite off_S, nthl_select by lia. rewrite Eh, filter_app, Fh, !Zlen_app.
      f_equal. unfold sh. lia.
    - rewrite XU1 by congruence. destruct HL as [_ HL]. rewrite Ex in HL. now rewrite HL. }
  assert (HX : extptr A = None <-> extptr U = None).
  { split; [intros Q; apply XU1; congruence|]. intros Q. destruct (extptr A) eqn:Ex; auto. destruct XU2 as (e & Q' & _); [rewrite X0; discriminate|congruence]. }
  destruct Hb as [-> | ->].
  - change (1 =? 0) with false. cbv iota. exists L, U. rewrite B0 by auto. auto 15.
  - change (1 =? 1) with true. cbv iota. rewrite (make0_make1 true n rows A A0 s1 s2) by auto.
    destruct (make1_ok _ _ _ _ s3 RL) as (L1 & -> & RL1 & _ & IL1 & _ & XL1 & DL1). { intros d Q. congruence. }
    destruct (make1_ok _ _ _ _ s4 RU) as (U1 & -> & RU1 & _ & IU1 & _ & XU & DU1). { intros d Q. congruence. }
    exists L1, U1. split; auto. split; auto. split; auto. split; [congruence|]. split; [auto|]. split; [rewrite XU; auto|].
    split; [congruence|]. split; [congruence|]. rewrite DL1, DU1, DL, DU. auto.
Qed.

(** A 1-based matrix with extptr whose last row has no remote entry. *)
Theorem splitLU_ext1_fails {V} n (rows lrows : rows_t V) A T sch j s1 s2 s3 s4 :
  rep true 1 n rows A -> local_rows 1 rows A lrows -> diagptr_len A -> extptr A <> None -> 1 <= Zlen rows ->
  nthl lrows (Zlen rows - 1) = nthl rows (Zlen rows - 1) -> 1 <= T ->
  splitLU A T sch j s1 s2 s3 s4 = None.
Proof.
  intros HR HL HD HX Hm Hlast HT. unfold splitLU. rewrite (rep_base _ _ _ _ _ HR).
  destruct (make0_ok _ _ _ _ s1 HR HD) as (A0 & -> & R0 & _ & _ & _ & X & _).
  set (i := Zlen rows - 1) in *.
  destruct (simple_partition_tiles (Zlen rows) T ltac:(lia) HT) as (_ & _ & _ & _ & Hu).
  destruct (Hu i ltac:(unfold i; lia)) as (t & (Ht & lo & hi & Q0 & Hr) & _). assert (Q : simple_partition (Zlen rows) T t = (lo, hi)) by congruence.
  assert (F : splitLU0 A0 T sch j = None).
  { unfold splitLU0. cbv zeta. destruct (set (sj_ps0 j) 0 0) as [p0|]; auto. destruct (set (sj_ps1 j) 0 0) as [p1|]; auto.
    assert (G : forall p s, par (sch 0%nat) (sl_count A0 p false T) (singletons T) s = None).
    { intros p s. unfold par. apply (foldM_fail _ t).
      - apply Permutation_in with (concat (singletons T)); [apply Permutation_sym, merge_perm|]. unfold singletons.
        rewrite concat_singletons. apply In_zrange. auto.
      - intros [rp ps]. unfold sl_count. pose proof R0 as (-> & _). rewrite Q.
        unfold forZ at 1. rewrite (foldM_fail _ i); auto; [apply In_zrange; auto|].
        intros [rp1 c]. destruct (set rp1 i c); auto. rewrite (rep_rowptr _ _ _ _ _ _ R0) by (unfold i; lia).
        unfold ext_at. rewrite X. destruct HL as [_ HL]. destruct (extptr A) as [e|]; [|congruence]. destruct HL as [_ HL].
        destruct (HL i ltac:(unfold i; lia)) as (h & Eh & ->). rewrite Hlast.
        unfold forZ. rewrite (foldM_fail _ (off (nthl rows) (Zlen rows))); auto.
        + apply In_zrange. pose proof (off_S (nthl rows) i ltac:(unfold i; lia)) as OS. replace (i + 1) with (Zlen rows) in OS by (unfold i; lia).
          pose proof (Zlen_nonneg (nthl rows i)). lia.
        + intros c0. rewrite get_out; auto. destruct R0 as (_ & _ & _ & -> & _). rewrite Zlen_colidx_of. lia. }
    now rewrite G. }
  now rewrite F.
Qed.

(** A worked case. *)
Definition split_rows : rows_t Z := [[(0, 5); (2, 6); (3, 7)]; [(0, 8); (1, 9)]; [(0, 1); (1, 2); (2, 3); (4, 4)]].
Definition split_csr (b : Z) (e : list Z) : csr Z :=
  mkCSR 3 5 (map (Z.add b) [0; 3; 5; 9]) (map (Z.add b) [0; 2; 3; 0; 1; 0; 1; 2; 4]) (Some [5; 6; 7; 8; 9; 1; 2; 3; 4]) (Some [11; 12; 13]) None None (Some (map (Z.add b) e)).
Definition split_junk : @sl_junk Z :=
  mkSlJunk [7;7;7;7] [7;7;7;7] [7;7;7] [7;7;7] [7;7;7] [7;7;7] [7;7;7] (fun k => map (fun _ => 7) (zrange 0 k)) (fun k => map (fun _ => 7) (zrange 0 k)) (fun k => map (fun _ => 7) (zrange 0 k)) (fun k => map (fun _ => 7) (zrange 0 k)).
Lemma split_case_ok : rep true 0 5 split_rows (split_csr 0 [2; 5; 8]) /\
  local_rows 0 split_rows (split_csr 0 [2; 5; 8]) [[(0, 5); (2, 6)]; [(0, 8); (1, 9)]; [(0, 1); (1, 2); (2, 3)]] /\ sl_junk_ok 3 2 split_junk /\
  exists L U, splitLU (split_csr 0 [2; 5; 8]) 2 (fun _ => [1; 0]%nat) split_junk (fun _ => []) (fun _ => []) (fun _ => []) (fun _ => []) =
    Some (split_csr 0 [2; 5; 8], L, U) /\ colidx L = [0; 0; 1] /\ colidx U = [2; 3; 4] /\ extptr U = Some [1; 2; 2].
Proof.
  split; [repeat split|]. split; [|split].
  - split; [reflexivity|]. split; [reflexivity|]. intros i Hi. change (Zlen split_rows) with 3 in Hi.
    assert (i = 0 \/ i = 1 \/ i = 2) as [-> | [-> | ->]] by lia; [exists [(3, 7)] | exists [] | exists [(4, 4)]]; split; reflexivity.
  - repeat (split; [reflexivity|]). intros k Hk. cbn [split_junk sj_cil sj_ciu sj_vsl sj_vsu]. rewrite Zlen_map, Zlen_zrange. lia.
  - do 2 eexists. split; [vm_compute; reflexivity|]. repeat split.
Qed.
