(** * Coordinate lists and their conversion to CSR (/repo/COO.hpp, /repo/COO.cpp:100-184). *)
From Verif Require Import Base Spec Interleave PrefixSum Flat CountSort Csr Transpose CsrTools CsrOps Sort RowPar.
From Coq Require Import Permutation.

(** COO.hpp: the arrays of class COO (indices are 1-based). *)
Record coo (V : Type) := mkCOO { om : Z; on : Z; onnz : Z; orow : list Z; ocol : list Z; oval : list V }.
Arguments mkCOO {V}. Arguments om {V}. Arguments on {V}. Arguments onnz {V}.
Arguments orow {V}. Arguments ocol {V}. Arguments oval {V}.

Section Model.
Context {V : Type}.

(** std::is_sorted over [a + lo, a + hi) *)
Definition is_sorted_range (a : list Z) (lo hi : Z) : option bool :=
  allM (fun j => x <- get a (j - 1) ;; y <- get a j ;; Some (x <=? y)) (zrange (lo + 1) hi).

(** COO.cpp:124-127: one entry is stored. *)
Definition fill_step (rowidx cols : list Z) (vals : list V) (outBase l : Z) (s : list Z * (list Z * list V))
  : option (list Z * (list Z * list V)) :=
  let '(rp, (ci, vs)) := s in
  r <- get rowidx l ;;
  i <- get rp (r - 1) ;;
  v <- get vals l ;;
  vs <- set vs i v ;;
  c <- get cols l ;;
  ci <- set ci i (c - 1 + outBase) ;;
  rp <- set rp (r - 1) (i + 1) ;;
  Some (rp, (ci, vs)).

(** COO.cpp:138-139: one row is sorted; the assertion of line 139 is checked. *)
Definition sort_row (rp : list Z) (outBase i : Z) (s : list Z * list V) : option (list Z * list V) :=
  lo <- get rp i ;;
  hi <- get rp (i + 1) ;;
  s <- qsort (Z.to_nat (hi - lo)) s (lo - outBase) (hi - 1 - outBase) ;;
  ok <- is_sorted_range (fst s) (lo - outBase) (hi - outBase) ;;
  assert! ok ;; Some s.

(** COO.cpp:104-142.  The arrays [rp], [ci], [vs] are the caller's. *)
Definition coo2csr (sch : nat -> list nat) (m nnz : Z) (rp ci : list Z) (vs : list V)
    (rowidx cols : list Z) (vals : list V) (sort : bool) (outBase : Z) : option (list Z * (list Z * list V)) :=
  rp <- par_any (sch 0%nat) (fun i rp => set rp i 0) 0 (m + 1) rp ;;
  rp <- forZ 0 nnz (fun i rp => r <- get rowidx i ;; x <- get rp r ;; set rp r (x + 1)) rp ;;
  rp <- forZ 0 m (fun i rp => x <- get rp (i + 1) ;; y <- get rp i ;; set rp (i + 1) (x + y)) rp ;;
  ' (rp, s) <- forZ 0 nnz (fill_step rowidx cols vals outBase) (rp, (ci, vs)) ;;
  rp <- forZdown m 1 (fun i rp => x <- get rp (i - 1) ;; set rp i (x + outBase)) rp ;;
  rp <- set rp 0 outBase ;;
  s <- (if sort then par_any (sch 1%nat) (sort_row rp outBase) 0 m s else Some s) ;;
  Some (rp, s).

(** COO.cpp:165-183: the row loop that finds the diagonal entries.  The state
    is (diagptr, (idiag, diag)); [sep] is createSeparateDiagData after line 169. *)
Variable recip : V -> V.

Definition find_diag (base : Z) (sep : bool) (rp ci : list Z) (vs : list V) (i : Z)
    (s : list Z * (option (list V) * option (list V))) : option (list Z * (option (list V) * option (list V))) :=
  lo <- get rp i ;; hi <- get rp (i + 1) ;;
  forZ (lo - base) (hi - base) (fun j s =>
    c <- get ci j ;;
    if c - base =? i then
      let '(d, (id, dg)) := s in
      d <- set d i (j + base) ;;
      if sep then
        v <- get vs j ;;
        id <- id ;; id <- set id i (recip v) ;;
        dg <- dg ;; dg <- set dg i v ;;
        Some (d, (Some id, Some dg))
      else Some (d, (id, dg))
    else Some s) s.

(** COO.cpp:154-184; [A] holds the allocated arrays. *)
Definition dcoo2csr (sch : nat -> list nat) (A : csr V) (C : coo V) (outBase : Z) (separate : bool) : option (csr V) :=
  vs <- values A ;;
  ' (rp, (ci, vs)) <- coo2csr sch (om C) (onnz C) (rowptr A) (colidx A) vs (orow C) (ocol C) (oval C) true outBase ;;
  base <- get rp 0 ;;
  match diagptr A with
  | None => Some (mkCSR (om C) (on C) rp ci (Some vs) (idiag A) (diag A) None (extptr A))
  | Some d =>
      let sep := match idiag A, diag A with Some _, Some _ => separate | _, _ => false end in
      ' (d, (id, dg)) <- par_any (sch 2%nat) (find_diag base sep rp ci vs) 0 (om C) (d, (idiag A, diag A)) ;;
      Some (mkCSR (om C) (on C) rp ci (Some vs) id dg (Some d) (extptr A))
  end.
End Model.

(** ** Specification *)

(** [C] lists the entries [es], given as (row, (column, value)) with 0-based
    indices. *)
Definition coo_rep {V} (m n : Z) (es : list (Z * (Z * V))) (C : coo V) : Prop :=
  om C = m /\ on C = n /\ onnz C = Zlen es /\
  orow C = map (fun e => fst e + 1) es /\ ocol C = map (fun e => fst (snd e) + 1) es /\ oval C = map (fun e => snd (snd e)) es.
Definition coo_ok {V} (m n : Z) (es : list (Z * (Z * V))) : Prop :=
  forall r c v, In (r, (c, v)) es -> 0 <= r < m /\ 0 <= c < n.
(** Row [r] of the matrix: the entries of row [r], in the order of the list. *)
Definition coo_rows {V} (m : Z) (es : list (Z * (Z * V))) : rows_t V :=
  map (fun r => map snd (filter (fun e => fst e =? r) es)) (zrange 0 m).

(** ** Proofs *)

Lemma foldM_rule {A S} (I : list A -> S -> Prop) (f : A -> S -> option S) l s :
  I [] s ->
  (forall p a q s, l = p ++ a :: q -> I p s -> exists s', f a s = Some s' /\ I (p ++ [a]) s') ->
  exists s', foldM f l s = Some s' /\ I l s'.
Proof.
  intros H0 Hs.
  assert (G : forall q p s, l = p ++ q -> I p s -> exists s', foldM f q s = Some s' /\ I l s').
  { induction q as [|a q IH]; intros p s0 E HI.
    - exists s0. split; auto. rewrite E, app_nil_r. auto.
    - cbn [foldM]. destruct (Hs p a q s0 E HI) as (s1 & -> & I1). apply (IH (p ++ [a])); auto.
      rewrite E, <- app_assoc. reflexivity. }
  apply (G l [] s); auto.
Qed.

Lemma Zlen_coo_rows {V} m (es : list (Z * (Z * V))) : 0 <= m -> Zlen (coo_rows m es) = m.
Proof. intros. unfold coo_rows. rewrite Zlen_map, Zlen_zrange. lia. Qed.
Lemma nthl_coo_rows {V} m (es : list (Z * (Z * V))) r : 0 <= r < m ->
  nthl (coo_rows m es) r = map snd (filter (fun e => fst e =? r) es).
Proof. intros H. apply nthl_get. unfold coo_rows. rewrite get_map, get_zrange by lia. reflexivity. Qed.

Section Proof.
Context {V : Type}.
Variables (m n outBase : Z) (es : list (Z * (Z * V))).
Hypothesis Hm : 0 <= m.
Hypothesis Hes : coo_ok m n es.

Let rows := coo_rows m es.
Let o i := off (nthl rows) i.
Let cnt r (l : list (Z * (Z * V))) : Z := Zlen (filter (fun e => fst e =? r) l).

Lemma o_S r : 0 <= r < m -> o (r + 1) = o r + cnt r es.
Proof. intros Hr. unfold o. rewrite off_S by lia. unfold rows. rewrite nthl_coo_rows, Zlen_map by lia. reflexivity. Qed.
Lemma o_0 : o 0 = 0. Proof. apply off_0. Qed.

Lemma o_m : o m = Zlen es.
Proof.
  assert (G : forall k, 0 <= k -> k <= m -> o k = keys_below fst k es).
  { apply (Z_ind0 (fun k => k <= m -> o k = keys_below fst k es)).
    - intros _. rewrite o_0, keys_below_0; auto. intros [r [c v]] Hx. apply Hes in Hx. cbn. lia.
    - intros k Hk IH Hle. rewrite o_S, keys_below_S, IH by lia. reflexivity. }
  rewrite G by lia. unfold keys_below. f_equal.
  assert (H : forall (l : list (Z * (Z * V))), (forall e, In e l -> In e es) -> filter (fun e => fst e <? m) l = l).
  { induction l as [|[r [c v]] l IH]; intros H; cbn; auto. destruct (Hes r c v) as [Hr _]; [apply H; cbn; auto|].
    replace (r <? m) with true by lia. rewrite IH; auto. intros; apply H; cbn; auto. }
  auto.
Qed.

Lemma cnt_snoc r p e : cnt r (p ++ [e]) = cnt r p + (if fst e =? r then 1 else 0).
Proof. unfold cnt. rewrite filter_app, Zlen_app. cbn. destruct (fst e =? r); cbn; reflexivity. Qed.
Lemma cnt_app r p q : cnt r (p ++ q) = cnt r p + cnt r q.
Proof. unfold cnt. now rewrite filter_app, Zlen_app. Qed.
Lemma cnt_nonneg r p : 0 <= cnt r p. Proof. apply Zlen_nonneg. Qed.

Lemma count_ok rp : Zlen rp = m + 1 -> (forall i, 0 <= i <= m -> get rp i = Some 0) ->
  exists rp', forZ 0 (Zlen es) (fun i rp => r <- get (map (fun e => fst e + 1) es) i ;; x <- get rp r ;; set rp r (x + 1)) rp
     = Some rp' /\ Zlen rp' = m + 1 /\ get rp' 0 = Some 0 /\
    forall r, 0 <= r < m -> get rp' (r + 1) = Some (cnt r es).
Proof.
  intros Hl H0. change (Zlen es) with (0 + Zlen es).
  rewrite (forZ_list es 0 _ (fun e rp => x <- get rp (fst e + 1) ;; set rp (fst e + 1) (x + 1))).
  2: { intros k e s E. now rewrite Z.add_0_l, get_map, E. }
  apply (foldM_rule (fun p rp' => Zlen rp' = m + 1 /\ get rp' 0 = Some 0 /\
    forall r, 0 <= r < m -> get rp' (r + 1) = Some (cnt r p))).
  - split; auto. split; [apply H0; lia|]. intros r Hr. rewrite H0 by lia. reflexivity.
  - intros p [r [c v]] q s E (L & G0 & G). destruct (Hes r c v) as [Hr _]; [rewrite E; apply in_or_app; cbn; auto|].
    cbn [fst]. rewrite G by lia. destruct (set_ok s (r + 1) (cnt r p + 1)) as (s' & E'); [lia|]. rewrite E'.
    exists s'. split; auto. split; [rewrite (set_len _ _ _ _ E'); lia|].
    split; [rewrite (get_set_other _ _ _ _ _ E') by lia; auto|].
    intros r' Hr'. rewrite (get_set _ _ _ _ _ E'), cnt_snoc. cbn [fst].
    destruct (Z.eqb_spec (r' + 1) (r + 1)).
    + replace r' with r by lia. now rewrite Z.eqb_refl.
    + replace (r =? r') with false by lia. rewrite G, Z.add_0_r by lia. auto.
Qed.

Lemma prefix_ok rp : Zlen rp = m + 1 -> get rp 0 = Some 0 -> (forall r, 0 <= r < m -> get rp (r + 1) = Some (cnt r es)) ->
  exists rp', forZ 0 m (fun i rp => x <- get rp (i + 1) ;; y <- get rp i ;; set rp (i + 1) (x + y)) rp = Some rp' /\
    Zlen rp' = m + 1 /\ forall r, 0 <= r <= m -> get rp' r = Some (o r).
Proof.
  intros Hl H0 Hc.
  destruct (forZ_rule (fun i rp' => Zlen rp' = m + 1 /\ (forall r, 0 <= r <= i -> get rp' r = Some (o r)) /\
     (forall r, i <= r < m -> get rp' (r + 1) = Some (cnt r es))) 0 m
     (fun i rp => x <- get rp (i + 1) ;; y <- get rp i ;; set rp (i + 1) (x + y)) rp) as (rp' & E & L & G & _); auto.
  - split; auto. split; auto. intros r Hr. replace r with 0 by lia. now rewrite o_0.
  - intros i s Hi (L & G & C). rewrite C, G by lia.
    destruct (set_ok s (i + 1) (cnt i es + o i)) as (s' & E'); [lia|]. rewrite E'. exists s'. split; auto.
    split; [rewrite (set_len _ _ _ _ E'); lia|]. split.
    + intros r Hr. rewrite (get_set _ _ _ _ _ E'). destruct (Z.eqb_spec r (i + 1)) as [->|].
      * rewrite o_S by lia. f_equal. lia.
      * apply G. lia.
    + intros r Hr. rewrite (get_set_other _ _ _ _ _ E') by lia. apply C. lia.
  - exists rp'. auto.
Qed.

Lemma get_filter_snoc (p : list (Z * (Z * V))) e r k : 
  get (filter (fun x => fst x =? r) (p ++ [e])) k =
   if fst e =? r then (if k =? cnt r p then Some e else get (filter (fun x => fst x =? r) p) k)
   else get (filter (fun x => fst x =? r) p) k.
Proof.
  rewrite filter_app. cbn [filter]. destruct (fst e =? r).
  - destruct (Z.eqb_spec k (cnt r p)) as [->|Hne].
    + unfold cnt. now rewrite get_app_r, Z.sub_diag, get_cons_0 by lia.
    + fold (cnt r p) in *. destruct (Z_lt_ge_dec k (cnt r p)).
      * destruct (Z_lt_ge_dec k 0); [now rewrite !get_out by (unfold cnt in *; lia)|].
        rewrite get_app_l; auto.
      * rewrite !get_out; auto; [unfold cnt in *; lia|]. rewrite Zlen_app. unfold cnt in *. 
        change (Zlen [e]) with 1. lia.
  - now rewrite app_nil_r.
Qed.

Lemma fill_ok rp ci (vs : list V) : Zlen rp = m + 1 -> (forall r, 0 <= r <= m -> get rp r = Some (o r)) ->
  Zlen ci = Zlen es -> Zlen vs = Zlen es ->
  exists rp', forZ 0 (Zlen es) (fill_step (map (fun e => fst e + 1) es) (map (fun e => fst (snd e) + 1) es)
     (map (fun e => snd (snd e)) es) outBase) (rp, (ci, vs)) = Some (rp', (colidx_of outBase rows, values_of rows)) /\
    Zlen rp' = m + 1 /\ forall r, 0 <= r < m -> get rp' r = Some (o (r + 1)).
Proof.
  intros Hl Hrp Hci Hvs. change (Zlen es) with (0 + Zlen es).
  rewrite (forZ_list es 0 _ (fun e (s : list Z * (list Z * list V)) =>
    let '(rp, (ci, vs)) := s in
    i <- get rp (fst e) ;; vs <- set vs i (snd (snd e)) ;; ci <- set ci i (fst (snd e) + outBase) ;;
    rp <- set rp (fst e) (i + 1) ;; Some (rp, (ci, vs)))).
  2: { intros k e [rp0 [ci0 vs0]] E. unfold fill_step. rewrite !Z.add_0_l, !get_map, E. cbn [option_map].
       replace (fst e + 1 - 1) with (fst e) by lia. replace (fst (snd e) + 1 - 1 + outBase) with (fst (snd e) + outBase) by lia.
       reflexivity. }
  destruct (foldM_rule (fun p (s : list Z * (list Z * list V)) => let '(rp', (ci', vs')) := s in
     Zlen rp' = m + 1 /\ Zlen ci' = Zlen es /\ Zlen vs' = Zlen es /\
     (forall r, 0 <= r < m -> get rp' r = Some (o r + cnt r p)) /\
     (forall r k e, 0 <= r < m -> get (filter (fun x => fst x =? r) p) k = Some e ->
        get ci' (o r + k) = Some (fst (snd e) + outBase) /\ get vs' (o r + k) = Some (snd (snd e))))
     (fun e (s : list Z * (list Z * list V)) =>
    let '(rp, (ci, vs)) := s in
    i <- get rp (fst e) ;; vs <- set vs i (snd (snd e)) ;; ci <- set ci i (fst (snd e) + outBase) ;;
    rp <- set rp (fst e) (i + 1) ;; Some (rp, (ci, vs))) es (rp, (ci, vs)))
   as ([rp' [ci' vs']] & E & L1 & L2 & L3 & G1 & G2).
  - repeat split; auto.
    + intros r Hr. rewrite Hrp by lia. f_equal. cbn. lia.
    + apply get_Some_bounds in H0. cbn in H0. unfold Zlen in H0. cbn in H0. lia.
    + apply get_Some_bounds in H0. cbn in H0. unfold Zlen in H0. cbn in H0. lia.
  - intros p [r [c v]] q [rp1 [ci1 vs1]] E (L1 & L2 & L3 & G1 & G2).
    destruct (Hes r c v) as [Hr _]; [rewrite E; apply in_or_app; cbn; auto|].
    cbn [fst snd]. rewrite G1 by lia.
    assert (Hcnt : cnt r p < cnt r es).
    { rewrite E, cnt_app. replace (cnt r ((r, (c, v)) :: q)) with (1 + cnt r q).
      - pose proof (cnt_nonneg r q). lia.
      - unfold cnt. cbn [filter fst]. rewrite Z.eqb_refl, Zlen_cons. reflexivity. }
    assert (Hpos : 0 <= o r + cnt r p < Zlen es).
    { pose proof (cnt_nonneg r p). pose proof (off_nonneg (nthl rows) r). fold (o r) in *.
      pose proof (off_mono (nthl rows) (r + 1) m ltac:(lia)) as Hmono. fold (o (r + 1)) (o m) in Hmono.
      rewrite o_S, o_m in Hmono by lia. lia. }
    destruct (set_ok vs1 (o r + cnt r p) v) as (vs2 & Ev); [lia|]. rewrite Ev.
    destruct (set_ok ci1 (o r + cnt r p) (c + outBase)) as (ci2 & Ec); [lia|]. rewrite Ec.
    destruct (set_ok rp1 r (o r + cnt r p + 1)) as (rp2 & Er); [lia|]. rewrite Er.
    eexists. split; [reflexivity|]. cbv beta iota.
    split; [rewrite (set_len _ _ _ _ Er); lia|]. split; [rewrite (set_len _ _ _ _ Ec); lia|].
    split; [rewrite (set_len _ _ _ _ Ev); lia|]. split.
    + intros r' Hr'. rewrite (get_set _ _ _ _ _ Er), cnt_snoc. cbn [fst].
      destruct (Z.eqb_spec r' r) as [->|]; [rewrite Z.eqb_refl; f_equal; lia|].
      replace (r =? r') with false by lia. rewrite G1, Z.add_0_r by lia. auto.
    + intros r' k e Hr' Ek. rewrite get_filter_snoc in Ek. cbn [fst] in Ek.
      rewrite (get_set _ _ _ _ _ Ec), (get_set _ _ _ _ _ Ev).
      destruct (Z.eqb_spec r r') as [<-|Hne].
      * destruct (Z.eqb_spec k (cnt r p)) as [->|Hk].
        -- rewrite Z.eqb_refl. injection Ek as <-. auto.
        -- replace (o r + k =? o r + cnt r p) with false by lia. auto.
      * destruct (Z.eqb_spec (o r' + k) (o r + cnt r p)) as [Eq|]; [|auto].
        exfalso. apply Hne. pose proof (get_Some_bounds _ _ _ Ek) as Bk. fold (cnt r' p) in Bk.
        assert (cnt r' p <= cnt r' es) by (rewrite E, cnt_app; pose proof (cnt_nonneg r' ((r, (c, v)) :: q)); lia).
        symmetry. apply (off_unique (nthl rows) r' k r (cnt r p)); try lia; auto.
        -- unfold rows. rewrite nthl_coo_rows, Zlen_map by lia. fold (cnt r' es). lia.
        -- unfold rows. rewrite nthl_coo_rows, Zlen_map by lia. fold (cnt r es). pose proof (cnt_nonneg r p). lia.
  - exists rp'. rewrite E. split; [|split; [auto|intros r Hr; rewrite G1, o_S by lia; auto]].
    do 3 f_equal.
    + unfold colidx_of. apply list_ext.
      * rewrite Zlen_map, Zlen_concat. unfold rows. rewrite Zlen_coo_rows by lia. fold rows (o m). rewrite o_m. auto.
      * intros k Hk. rewrite L2, <- o_m in Hk. destruct (flat_locate (nthl rows) m k) as (i & q & Hi & Hq & ->); [lia|auto|].
        rewrite get_map, get_concat by (unfold rows; rewrite ?Zlen_coo_rows by lia; auto).
        unfold rows in Hq |- *. rewrite nthl_coo_rows, Zlen_map in Hq by lia. rewrite nthl_coo_rows, get_map by lia.
        destruct (get_in_range (filter (fun e : Z * (Z * V) => fst e =? i) es) q) as (e & Ee); [auto|].
        fold rows (o i). rewrite Ee. cbn [option_map]. apply (G2 i q e); auto.
    + unfold values_of. apply list_ext.
      * rewrite Zlen_map, Zlen_concat. unfold rows. rewrite Zlen_coo_rows by lia. fold rows (o m). rewrite o_m. auto.
      * intros k Hk. rewrite L3, <- o_m in Hk. destruct (flat_locate (nthl rows) m k) as (i & q & Hi & Hq & ->); [lia|auto|].
        rewrite get_map, get_concat by (unfold rows; rewrite ?Zlen_coo_rows by lia; auto).
        unfold rows in Hq |- *. rewrite nthl_coo_rows, Zlen_map in Hq by lia. rewrite nthl_coo_rows, get_map by lia.
        destruct (get_in_range (filter (fun e : Z * (Z * V) => fst e =? i) es) q) as (e & Ee); [auto|].
        fold rows (o i). rewrite Ee. cbn [option_map]. apply (G2 i q e); auto.
Qed.

Lemma shift_ok rp : Zlen rp = m + 1 -> (forall r, 0 <= r < m -> get rp r = Some (o (r + 1))) ->
  exists rp1, forZdown m 1 (fun i rp => x <- get rp (i - 1) ;; set rp i (x + outBase)) rp = Some rp1 /\
    set rp1 0 outBase = Some (rowptr_of outBase rows).
Proof.
  intros Hl Hg.
  destruct (forZdown_rule (fun i rp' => Zlen rp' = m + 1 /\ (forall r, 0 <= r < i -> r < m -> get rp' r = Some (o (r + 1))) /\
     (forall r, i <= r <= m -> get rp' r = Some (outBase + o r))) m 1
     (fun i rp => x <- get rp (i - 1) ;; set rp i (x + outBase)) rp) as (rp' & E & L & G1 & G2); [lia| | |].
  - split; auto. split; [intros; apply Hg; lia|intros; lia].
  - intros i s Hi (L & G1 & G2). rewrite G1 by lia. replace (i - 1 + 1) with i by lia.
    destruct (set_ok s i (o i + outBase)) as (s' & E'); [lia|]. rewrite E'. exists s'. split; auto.
    split; [rewrite (set_len _ _ _ _ E'); lia|]. split.
    + intros r Hr Hr'. rewrite (get_set_other _ _ _ _ _ E') by lia. apply G1; lia.
    + intros r Hr. rewrite (get_set _ _ _ _ _ E'). destruct (Z.eqb_spec r i) as [->|]; [f_equal; lia|]. apply G2; lia.
  - exists rp'. split; auto. destruct (set_ok rp' 0 outBase) as (z & Ez); [lia|]. rewrite Ez. f_equal.
    pose proof (set_len _ _ _ _ Ez) as Lz.
    apply list_ext; [rewrite Zlen_rowptr_of; unfold rows; rewrite Zlen_coo_rows; lia|].
    intros k Hk. rewrite get_rowptr_of by (unfold rows; rewrite Zlen_coo_rows by lia; lia). fold (o k).
    rewrite (get_set _ _ _ _ _ Ez). destruct (Z.eqb_spec k 0) as [->|]; [rewrite o_0; f_equal; lia|]. apply G2; lia.
Qed.
End Proof.

(** *** Sorting the rows *)

Lemma is_sorted_range_ok {W} (l : list (Z * W)) lo hi : 0 <= lo <= hi -> hi <= Zlen l -> range_sorted l lo hi ->
  is_sorted_range (map fst l) lo hi = Some true.
Proof.
  intros H1 H2 Hs. unfold is_sorted_range.
  rewrite (allM_ok _ (fun _ => true)).
  - f_equal. apply forallb_forall. auto.
  - intros j Hj. apply In_zrange in Hj.
    destruct (get_in_range l (j - 1)) as (x & Ex); [lia|]. destruct (get_in_range l j) as (y & Ey); [lia|].
    rewrite (get_map_Some fst _ _ _ Ex), (get_map_Some fst _ _ _ Ey). f_equal.
    specialize (Hs (j - 1) j x y ltac:(lia) ltac:(lia) Ex Ey). lia.
Qed.

Definition shift_row {V} (b : Z) (r : list (Z * V)) : list (Z * V) := map (fun e => (fst e + b, snd e)) r.

Lemma shift_row_inv {V} b (r : list (Z * V)) : shift_row b (shift_row (- b) r) = r.
Proof.
  unfold shift_row. rewrite map_map. rewrite (map_ext _ (fun x => x)); [apply map_id|]. intros [c v]. cbn. f_equal. lia.
Qed.
Lemma shift_row_inv' {V} b (r : list (Z * V)) : shift_row (- b) (shift_row b r) = r.
Proof. rewrite <- (Z.opp_involutive b) at 2. apply shift_row_inv. Qed.

Lemma Zlen_shift_row {V} b (r : list (Z * V)) : Zlen (shift_row b r) = Zlen r.
Proof. apply Zlen_map. Qed.
Lemma map_shift_rows_fst {V} b (rows : rows_t V) : map fst (concat (map (shift_row b) rows)) = colidx_of b rows.
Proof. unfold colidx_of, shift_row. now rewrite <- concat_map, map_map. Qed.
Lemma map_shift_rows_snd {V} b (rows : rows_t V) : map snd (concat (map (shift_row b) rows)) = values_of rows.
Proof. unfold values_of, shift_row. now rewrite <- concat_map, map_map. Qed.
Lemma nthl_map {A B} (f : list A -> list B) rows i : 0 <= i < Zlen rows -> nthl (map f rows) i = f (nthl rows i).
Proof. intros H. apply nthl_get. rewrite get_map, get_nthl by auto. reflexivity. Qed.
Lemma keys_sorted_shift {V} b (r : list (Z * V)) : keys_sorted (shift_row b r) <-> keys_sorted r.
Proof.
  unfold shift_row. rewrite !keys_sorted_get. split; intros H i j x y Hij Ex Ey.
  - specialize (H i j (fst x + b, snd x) (fst y + b, snd y) Hij). rewrite !get_map, Ex, Ey in H. cbn in H.
    specialize (H eq_refl eq_refl). lia.
  - rewrite get_map in Ex. rewrite get_map in Ey.
    destruct (get r i) as [p|] eqn:Ep; [|discriminate]. destruct (get r j) as [q|] eqn:Eq; [|discriminate].
    cbn in Ex, Ey. injection Ex as <-. injection Ey as <-. cbn. specialize (H i j p q Hij Ep Eq). lia.
Qed.

(** [rows'] has the same entries in each row, in the order of the columns. *)
Definition rows_sorted_from {V} (rows rows' : rows_t V) : Prop :=
  Zlen rows' = Zlen rows /\
  forall i, 0 <= i < Zlen rows -> Permutation (nthl rows i) (nthl rows' i) /\ row_sorted (nthl rows' i).

Lemma off_map_shift {V} b (rows : rows_t V) i : i <= Zlen rows ->
  off (nthl (map (shift_row b) rows)) i = off (nthl rows) i.
Proof.
  intros Hi. apply (off_ext _ _ (Zlen rows)); auto. intros j Hj. rewrite nthl_map by auto. apply Zlen_shift_row.
Qed.

Lemma sort_rows_ok {V} sch outBase (rows : rows_t V) :
  exists rows', par_any sch (sort_row (rowptr_of outBase rows) outBase) 0 (Zlen rows) (colidx_of outBase rows, values_of rows)
     = Some (colidx_of outBase rows', values_of rows') /\ rows_sorted_from rows rows' /\
     rowptr_of outBase rows' = rowptr_of outBase rows.
Proof.
  destruct (par_rows (fun rs : rows_t V => (map fst (concat rs), map snd (concat rs)))
     (fun i r r' => Permutation r r' /\ keys_sorted r') sch (sort_row (rowptr_of outBase rows) outBase)
     (map (shift_row outBase) rows)) as (rows2 & E & L2 & H2).
  - intros i rs Hi Lrs Hlen Hri. rewrite Zlen_map in Hi, Lrs, Hlen.
    assert (HO : forall j, j <= Zlen rows -> off (nthl rs) j = off (nthl rows) j).
    { intros j Hj. apply (off_ext _ _ (Zlen rows)); auto. intros q Hq. rewrite Hlen by lia.
      rewrite nthl_map by auto. apply Zlen_shift_row. }
    destruct (row_bounds rs i) as (B1 & B2 & B3); [lia|].
    unfold sort_row. rewrite !get_rowptr_of by lia. rewrite <- !HO by lia.
    replace (outBase + off (nthl rs) i - outBase) with (off (nthl rs) i) by lia.
    replace (outBase + off (nthl rs) (i + 1) - 1 - outBase) with (off (nthl rs) (i + 1) - 1) by lia.
    replace (outBase + off (nthl rs) (i + 1) - outBase) with (off (nthl rs) (i + 1)) by lia.
    destruct (qsort_ok (Z.to_nat (outBase + off (nthl rs) (i + 1) - (outBase + off (nthl rs) i))) (concat rs)
       (off (nthl rs) i) (off (nthl rs) (i + 1) - 1)) as (l' & E & Ll & P & O & S); try lia.
    rewrite E. cbn [fst]. replace (off (nthl rs) (i + 1) - 1 + 1) with (off (nthl rs) (i + 1)) in S by lia.
    rewrite is_sorted_range_ok by (auto; lia).
    set (r' := slice l' (off (nthl rs) i) (off (nthl rs) (i + 1))).
    assert (HR : replaced (concat rs) (off (nthl rs) i) (off (nthl rs) (i + 1)) r' l').
    { split; auto. split; auto. intros k Hk. apply O. lia. }
    assert (HP : Permutation (nthl rs i) r').
    { rewrite <- (slice_concat rs i) by lia. apply perm_inside; auto; try lia. intros k Hk. apply O. lia. }
    assert (HS : keys_sorted r') by (apply range_sorted_slice; auto; lia).
    destruct (replaced_row rs i r' l') as (Lr & El); [lia|auto|].
    clearbody r'. subst l'. exists r'. rewrite <- Hri. auto.
  - rewrite Zlen_map in E, L2, H2. rewrite map_shift_rows_fst, map_shift_rows_snd in E.
    exists (map (shift_row (- outBase)) rows2).
    assert (ER : map (shift_row outBase) (map (shift_row (- outBase)) rows2) = rows2).
    { rewrite map_map. rewrite (map_ext _ (fun x => x)); [apply map_id|]. intros r. apply shift_row_inv. }
    rewrite <- (map_shift_rows_fst outBase (map (shift_row (- outBase)) rows2)),
      <- (map_shift_rows_snd outBase (map (shift_row (- outBase)) rows2)), ER. split; auto. split.
    + split; [rewrite Zlen_map; auto|]. intros i Hi. rewrite nthl_map by lia.
      destruct (H2 i Hi) as (_ & P & S). rewrite nthl_map in P by lia. split.
      * apply (Permutation_map (fun e => (fst e + - outBase, snd e))) in P.
        fold (shift_row (- outBase) (nthl rows2 i)) in P. fold (shift_row (- outBase) (shift_row outBase (nthl rows i))) in P.
        now rewrite shift_row_inv' in P.
      * apply keys_sorted_shift. auto.
    + unfold rowptr_of. rewrite Zlen_map, L2. apply map_ext_in. intros i Hi. apply In_zrange in Hi. f_equal.
      apply (off_ext _ _ (Zlen rows)); [|lia]. intros j Hj. rewrite nthl_map by lia. rewrite Zlen_shift_row.
      destruct (H2 j Hj) as (HL & _). rewrite HL. rewrite nthl_map by auto. apply Zlen_shift_row.
Qed.

Theorem coo2csr_ok {V} sch (m n outBase : Z) (es : list (Z * (Z * V))) (sort : bool) rp ci vs :
  0 <= m -> coo_ok m n es -> Zlen rp = m + 1 -> Zlen ci = Zlen es -> Zlen vs = Zlen es ->
  exists rows', coo2csr sch m (Zlen es) rp ci vs (map (fun e => fst e + 1) es) (map (fun e => fst (snd e) + 1) es)
      (map (fun e => snd (snd e)) es) sort outBase = Some (rowptr_of outBase rows', (colidx_of outBase rows', values_of rows')) /\
    if sort then rows_sorted_from (coo_rows m es) rows' else rows' = coo_rows m es.
Proof.
  intros Hm Hes Hrp Hci Hvs. unfold coo2csr.
  destruct (par_any_write (sch 0%nat) (fun i rp => set rp i 0) (fun _ => 0) 0 (m + 1) rp) as (rp0 & E0 & L0 & G0 & _); auto; try lia.
  rewrite E0.
  destruct (count_ok m n outBase es Hm Hes rp0) as (rp1 & E1 & L1 & Z1 & G1); [lia|intros; apply G0; lia|]. rewrite E1.
  destruct (prefix_ok m es Hm rp1) as (rp2 & E2 & L2 & G2); auto. rewrite E2.
  destruct (fill_ok m n outBase es Hm Hes rp2 ci vs) as (rp3 & E3 & L3 & G3); auto. rewrite E3.
  destruct (shift_ok m outBase es Hm rp3) as (rp4 & E4 & E5); auto. rewrite E4, E5.
  destruct sort.
  - destruct (sort_rows_ok (sch 1%nat) outBase (coo_rows m es)) as (rows' & E6 & S6 & R6).
    rewrite Zlen_coo_rows in E6 by auto. rewrite E6. exists rows'. rewrite R6. auto.
  - eexists. split; [reflexivity|auto].
Qed.

(** *** The entries *)

Lemma entries_coo_rows {V} m (es : list (Z * (Z * V))) : 0 <= m -> entries (coo_rows m es) = sort_by_key fst m es.
Proof.
  intros Hm. unfold entries, sort_by_key, flat. rewrite Zlen_coo_rows by auto. f_equal. apply map_ext_in.
  intros r Hr. apply In_zrange in Hr. rewrite nthl_coo_rows, map_map by auto. unfold with_key.
  induction es as [|[q [c v]] es IH]; cbn [filter map fst snd]; auto.
  destruct (Z.eqb_spec q r) as [->|]; cbn [map snd]; now rewrite IH.
Qed.

Lemma entries_perm {V} (r1 r2 : rows_t V) : Zlen r1 = Zlen r2 ->
  (forall i, 0 <= i < Zlen r1 -> Permutation (nthl r1 i) (nthl r2 i)) -> Permutation (entries r1) (entries r2).
Proof.
  intros L H. unfold entries. rewrite <- L.
  assert (G : forall l, (forall i, In i l -> 0 <= i < Zlen r1) ->
     Permutation (concat (map (fun i => map (fun e => (i, e)) (nthl r1 i)) l))
                 (concat (map (fun i => map (fun e => (i, e)) (nthl r2 i)) l))).
  { induction l as [|i l IH]; intros Hl; cbn; auto. apply Permutation_app.
    - apply Permutation_map, H, Hl. cbn; auto.
    - apply IH. intros; apply Hl; cbn; auto. }
  apply G. intros i Hi. now apply In_zrange.
Qed.

Lemma coo_rows_perm {V} m n (es : list (Z * (Z * V))) : 0 <= m -> coo_ok m n es -> Permutation (entries (coo_rows m es)) es.
Proof.
  intros Hm H. rewrite entries_coo_rows by auto. apply sort_by_key_perm. intros [r [c v]] Hin. cbn. now apply H in Hin.
Qed.

Lemma coo_rows_ok {V} m n (es : list (Z * (Z * V))) : coo_ok m n es -> rows_ok n (coo_rows m es).
Proof.
  intros H r c v Hr Hc. unfold coo_rows in Hr. apply in_map_iff in Hr as (i & <- & Hi).
  apply in_map_iff in Hc as ([q [c' v']] & E & Hf). cbn in E. injection E as -> ->. apply filter_In in Hf as [Hin _].
  now apply H in Hin.
Qed.

Lemma rows_sorted_from_ok {V} n (r1 r2 : rows_t V) : rows_sorted_from r1 r2 -> rows_ok n r1 -> rows_ok n r2.
Proof.
  intros [L H] Hok r c v Hr Hc. apply In_get in Hr as (i & Hi & Ei). rewrite L in Hi.
  apply nthl_get in Ei. subst r. destruct (H i Hi) as [P _].
  apply (Hok (nthl r1 i) c v); [now apply nth_row_In|]. apply (Permutation_in _ (Permutation_sym P)). auto.
Qed.

(** *** The diagonal *)

(** Position and value of the last entry in column [i] of a row that starts at
    position [o]. *)
Fixpoint last_diag {V} (i o : Z) (r : list (Z * V)) : option (Z * V) :=
  match r with
  | [] => None
  | (c, v) :: r => match last_diag i (o + 1) r with
                   | Some x => Some x
                   | None => if c =? i then Some (o, v) else None
                   end
  end.

Lemma last_diag_spec {V} i (r : list (Z * V)) o :
  match last_diag i o r with
  | Some (j, v) => exists l1 l2, r = l1 ++ (i, v) :: l2 /\ (forall w, ~ In (i, w) l2) /\ j = o + Zlen l1
  | None => forall w, ~ In (i, w) r
  end.
Proof.
  revert o. induction r as [|[c v] r IH]; intros o; cbn [last_diag]; [cbn; auto|].
  specialize (IH (o + 1)). destruct (last_diag i (o + 1) r) as [[j w]|].
  - destruct IH as (l1 & l2 & -> & H & ->). exists ((c, v) :: l1), l2. split; auto. split; auto. rewrite Zlen_cons. lia.
  - destruct (Z.eqb_spec c i) as [->|Hne].
    + exists [], r. split; auto. split; auto. unfold Zlen; cbn; lia.
    + intros w [E|Hin]; [congruence|]. now apply (IH w).
Qed.

(** The last of several assignments [a[i] = g(j, v)] made in one row. *)
Lemma last_set {V X} (g : Z -> V -> X) i (r : list (Z * V)) : forall o (w : list X), 0 <= i < Zlen w ->
  foldM (fun (je : Z * (Z * V)) w => if fst (snd je) =? i then set w i (g (fst je) (snd (snd je))) else Some w)
    (combine (zrange o (o + Zlen r)) r) w =
  match last_diag i o r with Some (j, v) => set w i (g j v) | None => Some w end.
Proof.
  induction r as [|[c v] r IH]; intros o w Hi.
  - rewrite zrange_nil by (unfold Zlen; cbn; lia). reflexivity.
  - pose proof (Zlen_nonneg r). rewrite zrange_cons by (rewrite Zlen_cons; lia). cbn [combine foldM fst snd last_diag].
    replace (o + Zlen ((c, v) :: r)) with (o + 1 + Zlen r) by (rewrite Zlen_cons; lia).
    destruct (Z.eqb_spec c i) as [->|Hne].
    + destruct (set_ok w i (g o v) Hi) as (w1 & E1). rewrite E1.
      rewrite IH by (rewrite (set_len _ _ _ _ E1); auto).
      destruct (last_diag i (o + 1) r) as [[j x]|]; [|auto].
      (* a second assignment to the same element *)
      pose proof (set_len _ _ _ _ E1) as L1.
      destruct (set_ok w1 i (g j x)) as (w2 & E2); [lia|]. destruct (set_ok w i (g j x) Hi) as (w3 & E3).
      rewrite E2, E3. f_equal. apply list_ext; [rewrite (set_len _ _ _ _ E2), (set_len _ _ _ _ E3); lia|].
      intros q Hq. rewrite (get_set _ _ _ _ _ E2), (get_set _ _ _ _ _ E3), (get_set _ _ _ _ _ E1).
      now destruct (q =? i).
    + rewrite IH by auto. destruct (last_diag i (o + 1) r) as [[j x]|]; auto.
Qed.

(** The same for a parallel loop over the rows. *)
Lemma par_last_set {V X} sch (g : Z -> V -> X) (rows : rows_t V) (w0 : list X) : Zlen w0 = Zlen rows ->
  exists w, par_any sch (fun i w => match last_diag i (off (nthl rows) i) (nthl rows i) with
                                    | Some (j, v) => set w i (g j v) | None => Some w end) 0 (Zlen rows) w0 = Some w /\
    Zlen w = Zlen rows /\
    forall i, 0 <= i < Zlen rows -> get w i =
      match last_diag i (off (nthl rows) i) (nthl rows i) with Some (j, v) => Some (g j v) | None => get w0 i end.
Proof.
  intros L.
  destruct (par_any_write_rel sch (fun i w => match last_diag i (off (nthl rows) i) (nthl rows i) with
                                    | Some (j, v) => set w i (g j v) | None => Some w end)
     (fun i x => Some x = match last_diag i (off (nthl rows) i) (nthl rows i) with Some (j, v) => Some (g j v) | None => get w0 i end)
     0 (Zlen rows) w0) as (w & E & Lw & G & _); try lia.
  - intros i Hi. destruct (last_diag i (off (nthl rows) i) (nthl rows i)) as [[j v]|].
    + exists (g j v). split; auto.
    + destruct (get_in_range w0 i) as (x & Ex); [lia|]. exists x. split; auto.
      intros w' Lw' Gw'. destruct (set_ok w' i x) as (w2 & E2); [lia|]. rewrite E2. f_equal.
      apply list_ext; [rewrite (set_len _ _ _ _ E2); auto|]. intros q Hq. rewrite (get_set _ _ _ _ _ E2).
      destruct (Z.eqb_spec q i) as [->|]; congruence.
  - exists w. split; auto. split; [lia|]. intros i Hi. destruct (G i Hi) as (x & -> & ->). auto.
Qed.

Lemma foldM_ext_inv {A S} (P : S -> Prop) (f g : A -> S -> option S) l s :
  P s -> (forall a s, In a l -> P s -> f a s = g a s) -> (forall a s s', In a l -> P s -> g a s = Some s' -> P s') ->
  foldM f l s = foldM g l s.
Proof.
  revert s. induction l as [|a l IH]; intros s HP Hfg Hg; cbn [foldM]; auto.
  rewrite Hfg by (cbn; auto). destruct (g a s) as [s'|] eqn:E; auto. apply IH.
  - eapply Hg; eauto. cbn; auto.
  - intros; apply Hfg; cbn; auto.
  - intros a0 s0 s1 Hin. apply Hg. cbn; auto.
Qed.

Section DiagProof.
Context {V : Type} (recip : V -> V).

Definition seg_set {X} (g : Z -> V -> X) (rows : rows_t V) (i : Z) (w : list X) : option (list X) :=
  match last_diag i (off (nthl rows) i) (nthl rows i) with Some (j, v) => set w i (g j v) | None => Some w end.

Lemma find_diag_row (base : Z) (rows : rows_t V) i d id dg :
  0 <= i < Zlen rows -> i < Zlen d -> i < Zlen id -> i < Zlen dg ->
  find_diag recip base true (rowptr_of base rows) (colidx_of base rows) (values_of rows) i (d, (Some id, Some dg)) =
  (d <- seg_set (fun j _ => j + base) rows i d ;;
   id <- seg_set (fun _ v => recip v) rows i id ;;
   dg <- seg_set (fun _ v => v) rows i dg ;; Some (d, (Some id, Some dg))).
Proof.
  intros Hi Hd Hid Hdg. unfold find_diag. rewrite !get_rowptr_of by lia.
  replace (base + off (nthl rows) i - base) with (off (nthl rows) i) by lia.
  replace (base + off (nthl rows) (i + 1) - base) with (off (nthl rows) i + Zlen (nthl rows i)) by (rewrite off_S; lia).
  rewrite (forZ_combine _ _ _ (fun (je : Z * (Z * V)) (s : list Z * (option (list V) * option (list V))) =>
     if fst (snd je) =? i then
       let '(d, (id, dg)) := s in
       d <- set d i (fst je + base) ;; id <- id ;; id <- set id i (recip (snd (snd je))) ;;
       dg <- dg ;; dg <- set dg i (snd (snd je)) ;; Some (d, (Some id, Some dg))
     else Some s)).
  2: { intros k [c v] s E. rewrite (get_colidx_of base rows i k c v) by auto. cbn [fst snd].
       replace (c + base - base =? i) with (c =? i) by lia. destruct (c =? i); auto. destruct s as [d1 [id1 dg1]].
       rewrite (get_values_of rows i k c v) by auto. reflexivity. }
  unfold seg_set.
  rewrite <- (last_set (fun j _ => j + base) i (nthl rows i) (off (nthl rows) i) d) by lia.
  rewrite <- (last_set (fun _ v => recip v) i (nthl rows i) (off (nthl rows) i) id) by lia.
  rewrite <- (last_set (fun _ v => v) i (nthl rows i) (off (nthl rows) i) dg) by lia.
  assert (Hi0 : 0 <= i) by lia. revert Hi0 Hd Hid Hdg.
  generalize (combine (zrange (off (nthl rows) i) (off (nthl rows) i + Zlen (nthl rows i))) (nthl rows i)).
  intros l Hi0. revert d id dg. induction l as [|[j [c v]] l IH]; intros d id dg Hd Hid Hdg; cbn [foldM fst snd]; auto.
  destruct (c =? i).
  - destruct (set_ok d i (j + base)) as (d1 & E1); [lia|]. rewrite E1.
    destruct (set_ok id i (recip v)) as (id1 & E2); [lia|]. rewrite E2.
    destruct (set_ok dg i v) as (dg1 & E3); [lia|]. rewrite E3.
    apply IH; [rewrite (set_len _ _ _ _ E1)|rewrite (set_len _ _ _ _ E2)|rewrite (set_len _ _ _ _ E3)]; auto.
  - apply IH; auto.
Qed.

Lemma find_diag_row' (base : Z) (rows : rows_t V) i d id dg :
  0 <= i < Zlen rows -> i < Zlen d ->
  find_diag recip base false (rowptr_of base rows) (colidx_of base rows) (values_of rows) i (d, (id, dg)) =
  (d <- seg_set (fun j _ => j + base) rows i d ;; Some (d, (id, dg))).
Proof.
  intros Hi Hd. unfold find_diag. rewrite !get_rowptr_of by lia.
  replace (base + off (nthl rows) i - base) with (off (nthl rows) i) by lia.
  replace (base + off (nthl rows) (i + 1) - base) with (off (nthl rows) i + Zlen (nthl rows i)) by (rewrite off_S; lia).
  rewrite (forZ_combine _ _ _ (fun (je : Z * (Z * V)) (s : list Z * (option (list V) * option (list V))) =>
     if fst (snd je) =? i then
       let '(d, (id, dg)) := s in d <- set d i (fst je + base) ;; Some (d, (id, dg))
     else Some s)).
  2: { intros k [c v] s E. rewrite (get_colidx_of base rows i k c v) by auto. cbn [fst snd].
       replace (c + base - base =? i) with (c =? i) by lia. destruct (c =? i); auto. }
  unfold seg_set.
  rewrite <- (last_set (fun j _ => j + base) i (nthl rows i) (off (nthl rows) i) d) by lia.
  assert (Hi0 : 0 <= i) by lia. revert Hi0 Hd.
  generalize (combine (zrange (off (nthl rows) i) (off (nthl rows) i + Zlen (nthl rows i))) (nthl rows i)).
  intros l Hi0. revert d. induction l as [|[j [c v]] l IH]; intros d Hd; cbn [foldM fst snd]; auto.
  destruct (c =? i); [|apply IH; auto].
  destruct (set_ok d i (j + base)) as (d1 & E1); [lia|]. rewrite E1.
  apply IH; rewrite (set_len _ _ _ _ E1); auto.
Qed.

Lemma seg_set_len {X} (g : Z -> V -> X) rows i w w' : seg_set g rows i w = Some w' -> Zlen w' = Zlen w.
Proof.
  unfold seg_set. destruct (last_diag i (off (nthl rows) i) (nthl rows i)) as [[j v]|].
  - apply set_len.
  - congruence.
Qed.

Lemma In_par_any lo hi sch i : In i (merge sch (map (fun i => [i]) (zrange lo hi))) -> lo <= i < hi.
Proof.
  intros H. apply In_merge in H as (t & Ht & Hi). apply in_map_iff in Ht as (k & <- & Hk). destruct Hi as [<-|[]].
  now apply In_zrange.
Qed.

Lemma find_diag_ok sch (base : Z) (rows : rows_t V) d id dg :
  Zlen d = Zlen rows -> Zlen id = Zlen rows -> Zlen dg = Zlen rows ->
  exists d' id' dg', par_any sch (find_diag recip base true (rowptr_of base rows) (colidx_of base rows) (values_of rows))
     0 (Zlen rows) (d, (Some id, Some dg)) = Some (d', (Some id', Some dg')) /\
   Zlen d' = Zlen rows /\ Zlen id' = Zlen rows /\ Zlen dg' = Zlen rows /\
   forall i, 0 <= i < Zlen rows ->
     get d' i = match last_diag i (off (nthl rows) i) (nthl rows i) with Some (j, v) => Some (j + base) | None => get d i end /\
     get id' i = match last_diag i (off (nthl rows) i) (nthl rows i) with Some (j, v) => Some (recip v) | None => get id i end /\
     get dg' i = match last_diag i (off (nthl rows) i) (nthl rows i) with Some (j, v) => Some v | None => get dg i end.
Proof.
  intros L1 L2 L3.
  destruct (par_last_set sch (fun j (_ : V) => j + base) rows d L1) as (d' & E1 & M1 & G1).
  destruct (par_last_set sch (fun _ v => recip v) rows id L2) as (id' & E2 & M2 & G2).
  destruct (par_last_set sch (fun _ (v : V) => v) rows dg L3) as (dg' & E3 & M3 & G3).
  exists d', id', dg'. split; [|auto 10].
  fold (seg_set (fun j (_ : V) => j + base) rows) in E1. fold (seg_set (fun _ v => recip v) rows) in E2.
  fold (seg_set (fun _ (v : V) => v) rows) in E3.
  unfold par_any, par in *. revert E1 E2 E3.
  assert (HI := In_par_any 0 (Zlen rows) sch).
  revert HI. generalize (merge sch (map (fun i => [i]) (zrange 0 (Zlen rows)))). intros l HI.
  revert d id dg L1 L2 L3 G1 G2 G3. 
  assert (GG : forall l d id dg, (forall i, In i l -> 0 <= i < Zlen rows) -> Zlen d = Zlen rows -> Zlen id = Zlen rows -> Zlen dg = Zlen rows ->
    foldM (seg_set (fun j (_ : V) => j + base) rows) l d = Some d' -> foldM (seg_set (fun _ v => recip v) rows) l id = Some id' ->
    foldM (seg_set (fun _ v => v) rows) l dg = Some dg' ->
    foldM (find_diag recip base true (rowptr_of base rows) (colidx_of base rows) (values_of rows)) l (d, (Some id, Some dg)) = Some (d', (Some id', Some dg'))).
  { clear. induction l as [|i l IH]; intros d id dg HI L1 L2 L3; cbn [foldM]; [congruence|].
    destruct (HI i ltac:(cbn; auto)) as [Hi0 Hi1].
    rewrite find_diag_row by lia.
    destruct (seg_set (fun j (_ : V) => j + base) rows i d) as [d1|] eqn:E1; [|discriminate].
    destruct (seg_set (fun _ v => recip v) rows i id) as [id1|] eqn:E2; [|discriminate].
    destruct (seg_set (fun _ (v : V) => v) rows i dg) as [dg1|] eqn:E3; [|discriminate].
    apply IH; [intros; apply HI; cbn; auto| | |];
      [rewrite (seg_set_len _ _ _ _ _ E1)|rewrite (seg_set_len _ _ _ _ _ E2)|rewrite (seg_set_len _ _ _ _ _ E3)]; auto. }
  intros d id dg L1 L2 L3 _ _ _. apply GG; auto.
Qed.

Lemma find_diag_ok' sch (base : Z) (rows : rows_t V) d id dg :
  Zlen d = Zlen rows ->
  exists d', par_any sch (find_diag recip base false (rowptr_of base rows) (colidx_of base rows) (values_of rows))
     0 (Zlen rows) (d, (id, dg)) = Some (d', (id, dg)) /\
   Zlen d' = Zlen rows /\
   forall i, 0 <= i < Zlen rows ->
     get d' i = match last_diag i (off (nthl rows) i) (nthl rows i) with Some (j, v) => Some (j + base) | None => get d i end.
Proof.
  intros L1.
  destruct (par_last_set sch (fun j (_ : V) => j + base) rows d L1) as (d' & E1 & M1 & G1).
  exists d'. split; [|auto 10].
  fold (seg_set (fun j (_ : V) => j + base) rows) in E1.
  unfold par_any, par in *. revert E1.
  assert (HI := In_par_any 0 (Zlen rows) sch).
  revert HI. generalize (merge sch (map (fun i => [i]) (zrange 0 (Zlen rows)))). intros l HI.
  assert (GG : forall l d, (forall i, In i l -> 0 <= i < Zlen rows) -> Zlen d = Zlen rows ->
    foldM (seg_set (fun j (_ : V) => j + base) rows) l d = Some d' ->
    foldM (find_diag recip base false (rowptr_of base rows) (colidx_of base rows) (values_of rows)) l (d, (id, dg)) = Some (d', (id, dg))).
  { clear. induction l as [|i l IH]; intros d HI L1; cbn [foldM]; [congruence|].
    destruct (HI i ltac:(cbn; auto)) as [Hi0 Hi1].
    rewrite find_diag_row' by lia.
    destruct (seg_set (fun j (_ : V) => j + base) rows i d) as [d1|] eqn:E1; [|discriminate].
    apply IH; [intros; apply HI; cbn; auto|]. rewrite (seg_set_len _ _ _ _ _ E1); auto. }
  apply GG; auto.
Qed.

(** [w] holds [g] of the last diagonal entry of each row that has one, and the
    old contents elsewhere. *)
Definition diag_array {X} (g : V -> X) (rows : rows_t V) (old w : list X) : Prop :=
  Zlen w = Zlen rows /\
  forall i, 0 <= i < Zlen rows ->
    (exists l1 v l2, nthl rows i = l1 ++ (i, v) :: l2 /\ (forall x, ~ In (i, x) l2) /\ get w i = Some (g v)) \/
    ((forall x, ~ In (i, x) (nthl rows i)) /\ get w i = get old i).

Theorem dcoo2csr_ok sch (m n outBase : Z) (es : list (Z * (Z * V))) (C : coo V) (A : csr V) vs0 separate :
  0 <= m -> coo_rep m n es C -> coo_ok m n es ->
  Zlen (rowptr A) = m + 1 -> Zlen (colidx A) = Zlen es -> values A = Some vs0 -> Zlen vs0 = Zlen es ->
  (forall d, diagptr A = Some d -> Zlen d = m) -> (forall d, idiag A = Some d -> Zlen d = m) ->
  (forall d, diag A = Some d -> Zlen d = m) ->
  exists rows' A', dcoo2csr recip sch A C outBase separate = Some A' /\
    rep true outBase n rows' A' /\ rows_sorted_from (coo_rows m es) rows' /\
    match diagptr A, diagptr A' with
    | Some d0, Some d => diag_pointers outBase rows' d0 d /\
        match idiag A, diag A, idiag A', diag A' with
        | Some i0, Some g0, Some i1, Some g1 =>
            if separate then diag_array recip rows' i0 i1 /\ diag_array (fun v => v) rows' g0 g1 else i1 = i0 /\ g1 = g0
        | i0, g0, i1, g1 => i1 = i0 /\ g1 = g0
        end
    | None, None => idiag A' = idiag A /\ diag A' = diag A
    | _, _ => False
    end.
Proof.
  intros Hm (C1 & C2 & C3 & C4 & C5 & C6) Hes Hrp Hci Hvs Lvs Hd Hid Hdg.
  unfold dcoo2csr. rewrite Hvs, C1, C2, C3, C4, C5, C6.
  destruct (coo2csr_ok sch m n outBase es true (rowptr A) (colidx A) vs0) as (rows' & E & S); auto.
  rewrite E. rewrite get_rowptr_of by (pose proof (Zlen_nonneg rows'); lia). rewrite off_0, Z.add_0_r.
  assert (Lr : Zlen rows' = m) by (destruct S as [-> _]; apply Zlen_coo_rows; auto).
  exists rows'.
  assert (DP : forall d0 d, Zlen d = Zlen rows' -> (forall i, 0 <= i < Zlen rows' ->
     get d i = match last_diag i (off (nthl rows') i) (nthl rows' i) with Some (j, v) => Some (j + outBase) | None => get d0 i end) ->
     diag_pointers outBase rows' d0 d).
  { intros d0 d L G. split; auto. intros i Hi. rewrite G by auto.
    pose proof (last_diag_spec i (nthl rows' i) (off (nthl rows') i)) as HS.
    destruct (last_diag i (off (nthl rows') i) (nthl rows' i)) as [[j v]|]; [left|right; auto].
    destruct HS as (l1 & l2 & H1 & H2 & ->). exists l1, v, l2. repeat split; auto. f_equal. lia. }
  assert (DA : forall (g : V -> V) d0 d, Zlen d = Zlen rows' -> (forall i, 0 <= i < Zlen rows' ->
     get d i = match last_diag i (off (nthl rows') i) (nthl rows' i) with Some (j, v) => Some (g v) | None => get d0 i end) ->
     diag_array g rows' d0 d).
  { intros g d0 d L G. split; auto. intros i Hi. rewrite G by auto.
    pose proof (last_diag_spec i (nthl rows' i) (off (nthl rows') i)) as HS.
    destruct (last_diag i (off (nthl rows') i) (nthl rows' i)) as [[j v]|]; [left|right; auto].
    destruct HS as (l1 & l2 & H1 & H2 & ->). exists l1, v, l2. repeat split; auto. }
  destruct (diagptr A) as [d0|].
  - assert (Ld : Zlen d0 = Zlen rows') by (rewrite Lr; auto).
    destruct (idiag A) as [i0|]; [destruct (diag A) as [g0|]; [destruct separate|]|].
    + destruct (find_diag_ok (sch 2%nat) outBase rows' d0 i0 g0) as (d' & id' & dg' & E' & X1 & X2 & X3 & G); auto;
        try (rewrite Lr; auto).
      rewrite Lr in E'. rewrite E'. eexists. split; [reflexivity|]. split; [split; [symmetry; exact Lr|repeat split]|]. split; auto. cbn.
      split; [apply DP; auto; intros; now apply G|]. split; apply DA; auto; intros; now apply G.
    + destruct (find_diag_ok' (sch 2%nat) outBase rows' d0 (Some i0) (Some g0)) as (d' & E' & X1 & G); auto.
      rewrite Lr in E'. rewrite E'. eexists. split; [reflexivity|]. split; [split; [symmetry; exact Lr|repeat split]|]. split; auto. cbn.
      split; [apply DP; auto|auto].
    + destruct (find_diag_ok' (sch 2%nat) outBase rows' d0 (Some i0) None) as (d' & E' & X1 & G); auto.
      rewrite Lr in E'. rewrite E'. eexists. split; [reflexivity|]. split; [split; [symmetry; exact Lr|repeat split]|]. split; auto. cbn.
      split; [apply DP; auto|auto].
    + destruct (find_diag_ok' (sch 2%nat) outBase rows' d0 None (diag A)) as (d' & E' & X1 & G); auto.
      rewrite Lr in E'. rewrite E'. eexists. split; [reflexivity|]. split; [split; [symmetry; exact Lr|repeat split]|]. split; auto. cbn.
      split; [apply DP; auto|auto].
  - eexists. split; [reflexivity|]. split; [split; [symmetry; exact Lr|repeat split]|]. split; auto. cbn. auto.
Qed.
End DiagProof.

(** ** On the arrays of a COO matrix *)
Theorem coo2csr_rep {V} sch (m n outBase : Z) (es : list (Z * (Z * V))) (C : coo V) (sort : bool) rp ci vs :
  0 <= m -> coo_rep m n es C -> coo_ok m n es -> Zlen rp = m + 1 -> Zlen ci = Zlen es -> Zlen vs = Zlen es ->
  exists rp' ci' vs' rows', coo2csr sch m (onnz C) rp ci vs (orow C) (ocol C) (oval C) sort outBase = Some (rp', (ci', vs')) /\
    rep true outBase n rows' (mkCSR m n rp' ci' (Some vs') None None None None) /\ rows_ok n rows' /\
    Permutation (entries rows') es /\
    (forall r, 0 <= r < m -> Permutation (nthl rows' r) (map snd (filter (fun e => fst e =? r) es))) /\
    (sort = true -> rows_sorted rows') /\ (sort = false -> rows' = coo_rows m es).
Proof.
  intros Hm (C1 & C2 & C3 & C4 & C5 & C6) Hes Hrp Hci Hvs. rewrite C3, C4, C5, C6.
  destruct (coo2csr_ok sch m n outBase es sort rp ci vs) as (rows' & E & S); auto.
  assert (HS : Zlen rows' = m /\ (forall r, 0 <= r < m -> Permutation (nthl rows' r) (nthl (coo_rows m es) r)) /\
     rows_ok n rows' /\ (sort = true -> rows_sorted rows')).
  { destruct sort.
    - pose proof S as [L H]. rewrite Zlen_coo_rows in L, H by auto. split; auto. split.
      + intros r Hr. apply Permutation_sym, H. auto.
      + split; [eapply rows_sorted_from_ok; eauto; now apply coo_rows_ok|]. intros _ r Hr.
        apply In_get in Hr as (i & Hi & Ei). apply nthl_get in Ei. subst r. rewrite L in Hi. now apply H.
    - subst rows'. split; [now apply Zlen_coo_rows|]. split; [intros; apply Permutation_refl|].
      split; [now apply coo_rows_ok|discriminate]. }
  destruct HS as (L & P & Hok & Hsort).
  eexists _, _, _, rows'. split; [exact E|]. split; [repeat split; auto|]. split; auto. split.
  - eapply Permutation_trans; [|apply (coo_rows_perm m n es); auto]. apply entries_perm; [rewrite Zlen_coo_rows by auto; lia|].
    intros i Hi. apply P. lia.
  - split; [intros r Hr; rewrite <- (nthl_coo_rows m) by (exact Hr); apply P; auto|]. split; auto. intros ->. auto.
Qed.
