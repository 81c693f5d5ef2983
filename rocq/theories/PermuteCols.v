(** * CSR::permuteColsInPlace (/repo/Permute.cpp:114-233) *)
From Verif Require Import Base Spec Interleave PermUtils Flat Csr Transpose CsrTools CsrOps Sort RowPar Fill Permute PermuteMain.
From Coq Require Import Permutation.

(** Insertion sort of the column indices alone (Permute.cpp:180-202): the same
    loop without the statements on values. *)
Definition ins_cols (lo hi : Z) (ci : list Z) : option (list Z) :=
  ' (ci, _) <- insertion_sort lo hi (ci, map (fun _ => tt) ci) ;; Some ci.

Section Model.
Context {V : Type}.
Implicit Types A : csr V.

Definition ins_part (lo hi : Z) (ci : list Z) (vs : option (list V)) : option (list Z * option (list V)) :=
  match vs with
  | Some w => ' (ci, w) <- insertion_sort lo hi (ci, w) ;; Some (ci, Some w)
  | None => ci <- ins_cols lo hi ci ;; Some (ci, None)
  end.

(** Permute.cpp:131-137 *)
Definition pc_rename (nd : bool) (base m : Z) (perm : list Z) (i j : Z) (s : list Z * Z) : option (list Z * Z) :=
  let (ci, dc) := s in
  c <- get ci (j - base) ;;
  assert! (nd || ((0 <=? c) && (c <? m))) ;;
  nc <- get perm (c - base) ;;
  ci <- set ci (j - base) (nc + base) ;;
  assert! (nd || ((0 <=? nc) && (nc <? m))) ;;
  Some (ci, if c =? i + base then nc + base else dc).

(** Permute.cpp:130-220, row [i] (from 0); state: colidx, values, diagptr. *)
Definition pc_row (nd : bool) A (base : Z) (perm : list Z) (i : Z) (s : list Z * option (list V) * option (list Z)) :=
  let '(ci, vs, dp) := s in
  b <- get (rowptr A) i ;; e <- local_end (rowptr A) (extptr A) i ;;
  ' (ci, dc) <- foldM (pc_rename nd base (cm A) perm i) (zrange b e) (ci, -1) ;;
  match dp with
  | Some d =>
      p <- findM (fun j => c <- get ci (j - base) ;; Some (c =? dc)) (zrange b e) ;;
      d <- match p with Some j => set d i j | None => Some d end ;;
      g <- get d i ;;
      ' (ci, vs) <- ins_part (b - base) (g - base) ci vs ;;
      ' (ci, vs) <- ins_part (g + 1 - base) (e - base) ci vs ;;
      Some (ci, vs, Some d)
  | None =>
      if b + 1 <? e then
        w <- vs ;; ' (ci, w) <- insertion_sort (b - base) (e - base) (ci, w) ;; Some (ci, Some w, None)
      else Some (ci, vs, None)
  end.

Definition permuteColsInPlace (nd : bool) A (perm : list Z) (sch : list nat) : option (csr V) :=
  base <- getBase A ;;
  assert! (nd || (base =? 0) || (base =? 1)) ;;
  ' (ci, vs, dp) <- par_any sch (pc_row nd A base perm) 0 (cm A) (colidx A, values A, diagptr A) ;;
  Some (mkCSR (cm A) (cn A) (rowptr A) ci vs (idiag A) (diag A) dp (extptr A)).
End Model.

(** ** Specification: row [i] with local part [l] becomes local part [l']. *)
Definition pc_spec {V} (hasd : bool) (perm : list Z) (i : Z) (l l' : list (Z * V)) (q : Z) : Prop :=
  if hasd then
    exists u1 v u2, rename perm l = u1 ++ (perm_col perm i, v) :: u2 /\ (forall x, In x u1 -> fst x <> perm_col perm i) /\
      l' = isort u1 ++ (perm_col perm i, v) :: isort u2 /\ q = Zlen u1
  else l' = isort (rename perm l).

(** ** Proofs *)
Section Naturality.
Context {V W : Type} (f : V -> W).
Notation mp := (map (fun e : Z * V => (fst e, f (snd e)))).
Lemma insert_map e l : insert (fst e, f (snd e)) (mp l) = mp (insert e l).
Proof. induction l as [|x l IH]; cbn; auto. destruct (fst e <? fst x); cbn; congruence. Qed.
Lemma isort_map l : isort (mp l) = mp (isort l).
Proof. induction l as [|e l IH] using rev_ind; auto. rewrite map_app. cbn [map]. rewrite !isort_snoc, IH. apply insert_map. Qed.
End Naturality.

Section Sorting.
Context {V : Type}.
Lemma ins_part_ok base ci (vs : option (list V)) pos (r : list (Z * V)) : 0 <= pos -> pos + Zlen r <= Zlen ci ->
  (forall w, vs = Some w -> Zlen w = Zlen ci) -> at_row base ci vs pos r ->
  exists ci' vs', ins_part pos (pos + Zlen r) ci vs = Some (ci', vs') /\
    at_row base ci' vs' pos (isort r) /\ frame pos (pos + Zlen r) ci vs ci' vs'.
Proof.
  intros Hp Hle Hw HA. unfold ins_part. destruct vs as [w|].
  - destruct (sort_segment_ok base ci w pos r) as (ci' & w' & E & A1 & F1); auto. rewrite E. eauto.
  - unfold ins_cols. set (r0 := map (fun e : Z * V => (fst e, tt)) r).
    assert (L0 : Zlen r0 = Zlen r) by apply Zlen_map.
    destruct (sort_segment_ok base ci (map (fun _ => tt) ci) pos r0) as (ci' & w' & E & [A1 _] & F1); auto.
    + lia.
    + apply Zlen_map.
    + destruct HA as [H1 _]. split.
      * intros q e Eq. unfold r0 in Eq. rewrite get_map in Eq. destruct (get r q) as [[c v]|] eqn:Er; [|discriminate].
        injection Eq as <-. apply (H1 q _ Er).
      * intros w Q q e Eq. injection Q as <-. rewrite get_map. destruct (get_in_range ci (pos + q)) as (x & ->).
        { apply get_Some_bounds in Eq. lia. }
        now destruct (snd e).
    + rewrite L0 in E, F1. rewrite E. exists ci', None. split; auto. split.
      * split; [|discriminate]. intros q e Eq. unfold r0 in A1. rewrite (isort_map (fun _ => tt)) in A1.
        apply (A1 q (fst e, tt)). rewrite get_map, Eq. reflexivity.
      * destruct F1 as (G1 & G2 & _). split; auto.
Qed.
End Sorting.

Lemma pc_spec_len {V} hasd perm i (l l' : list (Z * V)) q : pc_spec hasd perm i l l' q -> Zlen l' = Zlen l.
Proof.
  unfold pc_spec. destruct hasd.
  - intros (u1 & v & u2 & E & _ & -> & _). rewrite <- (Zlen_rename perm l), E. now rewrite !Zlen_app, !Zlen_cons, !Zlen_isort.
  - intros ->. rewrite Zlen_isort. apply Zlen_rename.
Qed.

Lemma at_row_split {V} base ci (vs : option (list V)) pos r1 r2 : at_row base ci vs pos (r1 ++ r2) ->
  at_row base ci vs pos r1 /\ at_row base ci vs (pos + Zlen r1) r2.
Proof.
  intros [H1 H2]. split; split.
  - intros q e E. apply H1. pose proof (get_Some_bounds _ _ _ E). rewrite get_app_l by lia. auto.
  - intros w Hw q e E. apply (H2 w Hw). pose proof (get_Some_bounds _ _ _ E). rewrite get_app_l by lia. auto.
  - intros q e E. pose proof (get_Some_bounds _ _ _ E). rewrite <- Z.add_assoc. apply H1. rewrite get_app_r by lia. rewrite <- E. f_equal. lia.
  - intros w Hw q e E. pose proof (get_Some_bounds _ _ _ E). rewrite <- Z.add_assoc. apply (H2 w Hw). rewrite get_app_r by lia. rewrite <- E. f_equal. lia.
Qed.

Section Cols.
Context {V : Type}.
Variables (nd : bool) (base n : Z) (hasv : bool) (rows lrows : rows_t V) (A : csr V) (perm : list Z).
Hypothesis HR : rep hasv base n rows A.
Hypothesis HL : local_rows base rows A lrows.
Hypothesis Hbase : 0 <= base.
Notation m := (Zlen rows).
Hypothesis Hperm : forall r c v, In r lrows -> In (c, v) r -> 0 <= c < m /\ exists c', get perm c = Some c' /\ 0 <= c' < m.
Hypothesis Hnd : nd = true \/ base = 0.
Hypothesis Hv : diagptr A = None -> hasv = true.
Hypothesis Hdp : forall d, diagptr A = Some d -> Zlen d = m.
Hypothesis Hdiag : diagptr A <> None -> forall i, 0 <= i < m -> exists v, In (i, v) (nthl lrows i).
Notation o i := (off (nthl rows) i).
Notation ll i := (nthl lrows i).

Lemma pc_parts k : 0 <= k < m -> exists h, nthl rows k = ll k ++ h /\
  local_end (rowptr A) (extptr A) k = Some (base + o k + Zlen (ll k)) /\ (extptr A = None -> h = []).
Proof.
  intros Hk. destruct HL as [L1 L2]. unfold local_end. destruct (extptr A) as [e|].
  - destruct L2 as [L2 L3]. destruct (L3 k Hk) as (h & H1 & H2). exists h. split; auto. split; [auto|discriminate].
  - exists []. subst lrows. split; [now rewrite app_nil_r|]. split; auto.
    rewrite (rep_rowptr_S _ _ _ _ _ _ HR) by auto. f_equal. lia.
Qed.

Lemma pc_rename_ok i ci vs : 0 <= i < m -> o i + Zlen (ll i) <= Zlen ci -> at_row base ci vs (o i) (ll i) ->
  exists ci', foldM (pc_rename nd base m perm i) (zrange (base + o i) (base + o i + Zlen (ll i))) (ci, -1) =
      Some (ci', if existsb (fun e => fst e =? i) (ll i) then perm_col perm i + base else -1) /\
    at_row base ci' vs (o i) (rename perm (ll i)) /\ frame (o i) (o i + Zlen (ll i)) ci vs ci' vs.
Proof.
  intros Hi Hle HA. pose proof (Zlen_nonneg (ll i)) as Hl0. pose proof (off_nonneg (nthl rows) i) as Ho.
  set (b := base + o i).
  destruct (forZ_rule (fun j (s : list Z * Z) => exists ci', s = (ci', if existsb (fun e => fst e =? i) (slice (ll i) 0 (j - b)) then perm_col perm i + base else -1) /\
     Zlen ci' = Zlen ci /\ (forall q e, 0 <= q < j - b -> get (ll i) q = Some e -> get ci' (o i + q) = Some (perm_col perm (fst e) + base)) /\
     (forall k, k < o i \/ o i + (j - b) <= k -> get ci' k = get ci k)) b (b + Zlen (ll i)) (pc_rename nd base m perm i) (ci, -1))
    as (s & E & ci' & -> & L1 & H1 & H2); try lia.
  - exists ci. rewrite Z.sub_diag, slice_nil by lia. split; auto. split; auto. split; [intros; lia|auto].
  - intros j s Hj (ci1 & -> & L1 & H1 & H2). destruct (get_in_range (ll i) (j - b)) as ([c v] & Ec); [lia|].
    destruct (Hperm (ll i) c v) as (Hc & c' & Ecp & Hc').
    { apply nth_row_In'. destruct HL. lia. }
    { apply (get_In _ _ _ Ec). }
    unfold pc_rename. replace (j - base) with (o i + (j - b)) by lia. rewrite H2 by lia.
    destruct HA as [HA _]. rewrite (HA _ _ Ec). cbn [fst].
    replace (nd || (0 <=? c + base) && (c + base <? m)) with true by (destruct Hnd as [->| ->]; [auto|destruct nd; lia]).
    replace (c + base - base) with c by lia. rewrite Ecp.
    destruct (set_ok ci1 (o i + (j - b)) (c' + base)) as (ci2 & E2); [lia|]. rewrite E2.
    replace (nd || (0 <=? c') && (c' <? m)) with true by (destruct nd; lia).
    eexists. split; [reflexivity|]. exists ci2. split; [|split; [rewrite (set_len _ _ _ _ E2); auto|split]].
    + f_equal. rewrite (slice_app (ll i) 0 (j - b) (j + 1 - b)) by lia.
      rewrite (slice_cons (ll i) (j - b) (j + 1 - b) (c, v)), (slice_nil _ (j - b + 1) (j + 1 - b)) by (auto; lia).
      rewrite existsb_app. cbn [existsb fst]. rewrite orb_false_r. replace (c + base =? i + base) with (c =? i) by lia.
      destruct (Z.eqb_spec c i) as [->|]; [|rewrite orb_false_r; auto].
      rewrite orb_true_r. unfold perm_col. now rewrite Ecp.
    + intros q e Hq Eq. rewrite (get_set _ _ _ _ _ E2). destruct (Z.eqb_spec (o i + q) (o i + (j - b))) as [Q|].
      * replace q with (j - b) in Eq by lia. rewrite Ec in Eq. injection Eq as <-. unfold perm_col. cbn [fst]. now rewrite Ecp.
      * apply H1; auto. lia.
    + intros k Hk. rewrite (get_set_other _ _ _ _ _ E2) by lia. apply H2. lia.
  - replace (b + Zlen (ll i) - b) with (Zlen (ll i)) in * by lia. rewrite slice_full in E. exists ci'. split; [exact E|]. split.
    + destruct HA as [_ HA2]. split.
      * intros q e Eq. unfold rename in Eq. rewrite get_map in Eq. destruct (get (ll i) q) as [x|] eqn:Ex; [|discriminate].
        injection Eq as <-. cbn [fst]. apply H1; auto. apply get_Some_bounds in Ex. lia.
      * intros w Ew q e Eq. unfold rename in Eq. rewrite get_map in Eq. destruct (get (ll i) q) as [x|] eqn:Ex; [|discriminate].
        injection Eq as <-. cbn [snd]. eauto.
    + split; auto. split; auto. destruct vs; auto.
Qed.

Definition hasd := if diagptr A then true else false.

Lemma pc_row_ok i ci vs dp : 0 <= i < m -> Zlen ci = Zlen (concat rows) -> vals_ok hasv (Zlen ci) vs -> shape (diagptr A) m dp ->
  at_row base ci vs (o i) (nthl rows i) ->
  exists ci' vs' dp' l' h q, pc_row nd A base perm i (ci, vs, dp) = Some (ci', vs', dp') /\
    nthl rows i = ll i ++ h /\ (extptr A = None -> h = []) /\
    pc_spec hasd perm i (ll i) l' q /\ at_row base ci' vs' (o i) (l' ++ h) /\ frame (o i) (o (i + 1)) ci vs ci' vs' /\
    match dp with
    | None => dp' = None
    | Some d => exists d', dp' = Some d' /\ set d i (base + o i + q) = Some d'
    end.
Proof.
  intros Hi LC HV HS HA. destruct (pc_parts i Hi) as (h & Hh & Hend & Hnil). rewrite Hh in HA.
  destruct (at_row_split _ _ _ _ _ _ HA) as [HA1 HA2].
  destruct (row_bounds rows i Hi) as (B1 & B2 & B3).
  assert (Hll : Zlen (nthl rows i) = Zlen (ll i) + Zlen h) by (rewrite Hh, Zlen_app; auto).
  pose proof (Zlen_nonneg h) as Hh0. pose proof (Zlen_nonneg (ll i)) as Hl0.
  pose proof HR as (R1 & R2 & R3 & R4 & R5).
  unfold pc_row. rewrite (rep_rowptr _ _ _ _ _ _ HR), Hend, R1 by lia.
  destruct (pc_rename_ok i ci vs Hi) as (ci1 & E1 & A1 & F1); auto; [lia|]. rewrite E1. pose proof F1 as (L1 & _).
  pose proof (frame_vals _ _ _ _ _ _ _ _ F1 HV) as HV1.
  assert (HA2' : at_row base ci1 vs (o i + Zlen (ll i)) h).
  { apply (at_row_frame _ _ _ _ _ _ _ _ _ F1); auto. lia. }
  assert (HVL : forall N (w : list V), vals_ok hasv N (Some w) -> Zlen w = N) by (intros N w [_ Q]; auto).
  unfold shape, pc_spec, hasd in *. pose proof Hdiag as Hdiag'. pose proof Hv as Hv'. destruct (diagptr A) as [d0|].
  - destruct HS as (d & -> & Ld). destruct (Hdiag' ltac:(discriminate) i Hi) as (v0 & Hin0).
    rewrite (proj2 (existsb_In i (ll i))) by eauto.
    set (u := rename perm (ll i)) in *. assert (Lu : Zlen u = Zlen (ll i)) by apply Zlen_rename. rewrite <- Lu.
    destruct (findM_list u (base + o i) (fun j => c <- get ci1 (j - base) ;; Some (c =? perm_col perm i + base))
      (fun e => fst e =? perm_col perm i)) as [(u1 & e & u2 & HLe & G1 & G2 & G3)|[G1 _]].
    + intros q e Eq. destruct A1 as [A1 _]. replace (base + o i + q - base) with (o i + q) by lia. rewrite (A1 q e Eq).
      f_equal. lia.
    + rewrite G3. destruct e as [c v]. cbn [fst] in G2. apply Z.eqb_eq in G2. subst c.
      destruct (set_ok d i (base + o i + Zlen u1)) as (d' & Ed); [lia|]. rewrite Ed, (get_set_same _ _ _ _ Ed).
      rewrite HLe in A1, Lu. destruct (at_row_split _ _ _ _ _ _ A1) as [A11 A12].
      change ((perm_col perm i, v) :: u2) with ([(perm_col perm i, v)] ++ u2) in A12.
      destruct (at_row_split _ _ _ _ _ _ A12) as [A13 A14]. change (Zlen [(perm_col perm i, v)]) with 1 in A14.
      rewrite Zlen_app, Zlen_cons in Lu. pose proof (Zlen_nonneg u1). pose proof (Zlen_nonneg u2).
      destruct (ins_part_ok base ci1 vs (o i) u1) as (ci2 & vs2 & E2 & A2 & F2); auto; try lia.
      { intros w ->. rewrite L1. apply HVL; auto. }
      replace (base + o i - base) with (o i) by lia. replace (base + o i + Zlen u1 - base) with (o i + Zlen u1) by lia. rewrite E2.
      pose proof F2 as (L2 & _). pose proof (frame_vals _ _ _ _ _ _ _ _ F2 HV1) as HV2.
      destruct (ins_part_ok base ci2 vs2 (o i + Zlen u1 + 1) u2) as (ci3 & vs3 & E3 & A3 & F3); try lia.
      { intros w ->. rewrite L2, L1. apply HVL; auto. }
      { apply (at_row_frame _ _ _ _ _ _ _ _ _ F2); auto. lia. }
      replace (base + o i + Zlen u1 + 1 - base) with (o i + Zlen u1 + 1) by lia.
      replace (base + o i + Zlen u - base) with (o i + Zlen u1 + 1 + Zlen u2) by (rewrite HLe, Zlen_app, Zlen_cons; lia). rewrite E3.
      exists ci3, vs3, (Some d'), (isort u1 ++ (perm_col perm i, v) :: isort u2), h, (Zlen u1).
      split; [reflexivity|]. split; auto. split; auto. split.
      { exists u1, v, u2. split; auto. split; [intros x Hx; specialize (G1 x Hx); lia|auto]. }
      split; [|split; [|eauto]].
      * change ((perm_col perm i, v) :: isort u2) with ([(perm_col perm i, v)] ++ isort u2). rewrite <- !app_assoc.
        apply at_row_app; [|apply at_row_app; [|apply at_row_app]]; rewrite ?Zlen_isort; change (Zlen [(perm_col perm i, v)]) with 1.
        -- apply (at_row_frame _ _ _ _ _ _ _ _ _ F3); auto. rewrite Zlen_isort. lia.
        -- apply (at_row_frame _ _ _ _ _ _ _ _ _ F3); [change (Zlen [(perm_col perm i, v)]) with 1; lia|].
           apply (at_row_frame _ _ _ _ _ _ _ _ _ F2); auto. lia.
        -- auto.
        -- replace (o i + Zlen u1 + 1 + Zlen u2) with (o i + Zlen (ll i)) by lia.
           apply (at_row_frame _ _ _ _ _ _ _ _ _ F3); [lia|]. apply (at_row_frame _ _ _ _ _ _ _ _ _ F2); auto. lia.
      * apply (frame_trans _ _ _ _ ci1 vs); [apply (frame_weaken (o i) (o i + Zlen (ll i))); auto; lia|].
        apply (frame_trans _ _ _ _ ci2 vs2); [apply (frame_weaken (o i) (o i + Zlen u1)); auto; lia|].
        apply (frame_weaken (o i + Zlen u1 + 1) (o i + Zlen u1 + 1 + Zlen u2)); auto; lia.
    + exfalso. assert (Hin' : In (perm_col perm i, v0) u) by (unfold u, rename; apply in_map_iff; exists (i, v0); auto).
      specialize (G1 _ Hin'). cbn in G1. lia.
  - subst dp. specialize (Hv' eq_refl).
    set (u := rename perm (ll i)) in *. assert (Lu : Zlen u = Zlen (ll i)) by apply Zlen_rename.
    destruct (Z.ltb_spec (base + o i + 1) (base + o i + Zlen (ll i))) as [Hlt|Hge].
    + destruct vs as [w|]; [|cbn in HV; congruence].
      destruct (sort_segment_ok base ci1 w (o i) u) as (ci2 & w2 & E2 & A2 & F2); auto; try lia.
      { rewrite L1. apply HVL; auto. }
      replace (base + o i - base) with (o i) by lia. replace (base + o i + Zlen (ll i) - base) with (o i + Zlen u) by lia. rewrite E2.
      exists ci2, (Some w2), None, (isort u), h, 0. split; [reflexivity|]. split; auto. split; auto. split; auto. split; [|split; auto].
      * apply at_row_app; auto. rewrite Zlen_isort, Lu. apply (at_row_frame _ _ _ _ _ _ _ _ _ F2); auto. lia.
      * apply (frame_trans _ _ _ _ ci1 (Some w)); [apply (frame_weaken (o i) (o i + Zlen (ll i))); auto; lia|].
        apply (frame_weaken (o i) (o i + Zlen u)); auto; lia.
    + exists ci1, vs, None, (isort u), h, 0. split; [reflexivity|]. split; auto. split; auto. split; auto. split; [|split; auto].
      * apply at_row_app; [|rewrite Zlen_isort, Lu; auto].
        replace (isort u) with u; auto. unfold u. destruct (ll i) as [|a [|b l]]; auto. exfalso. rewrite !Zlen_cons in Hge. pose proof (Zlen_nonneg l). lia.
      * apply (frame_weaken (o i) (o i + Zlen (ll i))); auto; lia.
Qed.

Definition pc_inv (done : list Z) (s : list Z * option (list V) * option (list Z)) : Prop :=
  let '(ci, vs, dp) := s in
  Zlen ci = Zlen (concat rows) /\ vals_ok hasv (Zlen ci) vs /\ shape (diagptr A) m dp /\
  (forall i, 0 <= i < m -> ~ In i done -> at_row base ci vs (o i) (nthl rows i)) /\
  (forall i, 0 <= i < m -> In i done -> exists l' h q,
     nthl rows i = ll i ++ h /\ (extptr A = None -> h = []) /\ pc_spec hasd perm i (ll i) l' q /\
     at_row base ci vs (o i) (l' ++ h) /\ (forall d, dp = Some d -> get d i = Some (base + o i + q))).

Lemma pc_par_ok sch : exists s, par_any sch (pc_row nd A base perm) 0 m (colidx A, values A, diagptr A) = Some s /\ pc_inv (zrange 0 m) s.
Proof.
  pose proof HR as (R1 & R2 & R3 & R4 & R5).
  destruct (par_any_inv pc_inv sch (pc_row nd A base perm) 0 m (colidx A, values A, diagptr A)) as (s & done & E & HI & D).
  - unfold pc_inv. split; [rewrite R4; apply Zlen_map|]. split; [|split; [|split]].
    + rewrite R4, R5. unfold vals_ok. destruct hasv; auto. split; auto. unfold values_of, colidx_of. now rewrite !Zlen_map.
    + unfold shape. pose proof Hdp as Hdp'. destruct (diagptr A) as [d|]; auto. exists d. auto.
    + intros i Hi _. split.
      * intros q [c v] Eq. now apply (rep_col _ _ _ _ _ _ _ _ _ HR Hi Eq).
      * intros w Ew q [c v] Eq. rewrite R5 in Ew. destruct hasv; [|discriminate]. injection Ew as <-. now apply (get_values_of rows i q c v).
    + cbn. tauto.
  - intros done i [[ci vs] dp] Hi Hn Hd (I1 & I2 & I3 & I4 & I5).
    destruct (pc_row_ok i ci vs dp) as (ci' & vs' & dp' & l' & h & q & E & Hh & Hnil & HS & HA & HF & HD); auto.
    exists (ci', vs', dp'). split; auto. pose proof HF as (L & _).
    assert (HO : forall j, 0 <= j < m -> j <> i -> o j + Zlen (nthl rows j) <= o i \/ o (i + 1) <= o j).
    { intros j Hj Hne. destruct (Z_lt_ge_dec j i).
      - left. pose proof (off_mono (nthl rows) (j + 1) i) as HM. rewrite off_S in HM by lia. lia.
      - right. apply off_mono; lia. }
    unfold pc_inv. split; [lia|]. split; [rewrite L; apply (frame_vals _ _ _ _ _ _ _ _ HF); auto|]. split; [|split].
    + unfold shape in *. destruct (diagptr A).
      * destruct I3 as (d & -> & Ld). destruct HD as (d' & -> & Es). exists d'. split; auto. rewrite (set_len _ _ _ _ Es). auto.
      * subst dp. auto.
    + intros j Hj Hnj. cbn in Hnj. apply (at_row_frame _ _ _ _ _ _ _ _ _ HF); [apply HO; auto|]. apply I4; auto.
    + intros j Hj [<-|Hin].
      * exists l', h, q. split; auto. split; auto. split; auto. split; auto. intros d0 ->. destruct dp as [d|]; [|discriminate].
        destruct HD as (d' & Q & Es). injection Q as <-. apply (get_set_same _ _ _ _ Es).
      * assert (j <> i) by congruence. destruct (I5 j Hj Hin) as (l1 & h1 & q1 & K1 & K2 & K3 & K4 & K5).
        exists l1, h1, q1. split; auto. split; auto. split; auto. split.
        -- apply (at_row_frame _ _ _ _ _ _ _ _ _ HF); auto. rewrite Zlen_app, (pc_spec_len _ _ _ _ _ _ K3).
           rewrite <- Zlen_app, <- K1. apply HO; auto.
        -- intros d0 ->. destruct dp as [d|]; [|discriminate]. destruct HD as (d' & Q & Es). injection Q as <-.
           rewrite (get_set_other _ _ _ _ _ Es) by auto. auto.
  - exists s. split; auto. destruct s as [[ci vs] dp]. destruct HI as (I1 & I2 & I3 & I4 & I5).
    unfold pc_inv. split; auto. split; auto. split; auto. split.
    + intros i Hi Hn. exfalso. apply Hn. now apply In_zrange.
    + intros i Hi _. apply I5; auto. now apply D.
Qed.

Theorem permuteCols_ok sch : base = 0 \/ base = 1 ->
  exists A' rows' lrows', permuteColsInPlace nd A perm sch = Some A' /\ rep hasv base n rows' A' /\ local_rows base rows' A' lrows' /\
    Zlen rows' = m /\ idiag A' = idiag A /\ diag A' = diag A /\ extptr A' = extptr A /\ shape (diagptr A) m (diagptr A') /\
    forall i, 0 <= i < m -> exists h q, nthl rows i = ll i ++ h /\ nthl rows' i = nthl lrows' i ++ h /\
      pc_spec hasd perm i (ll i) (nthl lrows' i) q /\
      forall d, diagptr A' = Some d -> get d i = Some (base + off (nthl rows') i + q).
Proof.
  intros Hb. pose proof HR as (R1 & R2 & R3 & R4 & R5). pose proof (Zlen_nonneg rows) as Hm0.
  unfold permuteColsInPlace. rewrite (rep_base _ _ _ _ _ HR).
  replace (nd || (base =? 0) || (base =? 1)) with true by (destruct nd; lia). rewrite R1.
  destruct (pc_par_ok sch) as ([[ci vs] dp] & E & (I1 & I2 & I3 & _ & I5)). rewrite E.
  destruct (finite_choice (fun i (p : list (Z * V) * list (Z * V) * Z) => let '(l', h, q) := p in
     nthl rows i = ll i ++ h /\ (extptr A = None -> h = []) /\ pc_spec hasd perm i (ll i) l' q /\
     at_row base ci vs (o i) (l' ++ h) /\ (forall d, dp = Some d -> get d i = Some (base + o i + q))) 0 m) as (ps0 & Hps0).
  { intros i Hi. destruct (I5 i Hi ltac:(apply In_zrange; lia)) as (l' & h & q & K). exists (l', h, q). exact K. }
  set (ps := slice ps0 0 m).
  assert (Lps0 : m <= Zlen ps0).
  { destruct (Z.eq_dec m 0); [pose proof (Zlen_nonneg ps0); lia|]. destruct (Hps0 (m - 1) ltac:(lia)) as (v & Q & _).
    apply get_Some_bounds in Q. lia. }
  assert (Lps : Zlen ps = m) by (unfold ps; rewrite Zlen_slice; lia).
  assert (Hps : forall i, 0 <= i < m -> exists l' h q, get ps i = Some (l', h, q) /\
     nthl rows i = ll i ++ h /\ (extptr A = None -> h = []) /\ pc_spec hasd perm i (ll i) l' q /\
     at_row base ci vs (o i) (l' ++ h) /\ (forall d, dp = Some d -> get d i = Some (base + o i + q))).
  { intros i Hi. destruct (Hps0 i Hi) as ([[l' h] q] & Q & K). exists l', h, q. split; auto. unfold ps.
    rewrite get_slice, Z.add_0_l by lia. rewrite Z.sub_0_r in Q. auto. }
  clearbody ps. clear Hps0 Lps0 ps0.
  set (rows' := map (fun p : list (Z * V) * list (Z * V) * Z => fst (fst p) ++ snd (fst p)) ps).
  set (lrows' := map (fun p : list (Z * V) * list (Z * V) * Z => fst (fst p)) ps).
  assert (Lr' : Zlen rows' = m) by (unfold rows'; rewrite Zlen_map; auto).
  assert (HN : forall i, 0 <= i < m -> exists h q, nthl rows' i = nthl lrows' i ++ h /\ nthl rows i = ll i ++ h /\ (extptr A = None -> h = []) /\
     pc_spec hasd perm i (ll i) (nthl lrows' i) q /\ at_row base ci vs (o i) (nthl rows' i) /\ (forall d, dp = Some d -> get d i = Some (base + o i + q))).
  { intros i Hi. destruct (Hps i Hi) as (l' & h & q & Q & K). exists h, q.
    assert (nthl rows' i = l' ++ h) as -> by (apply nthl_get; unfold rows'; rewrite get_map, Q; auto).
    assert (nthl lrows' i = l') as -> by (apply nthl_get; unfold lrows'; rewrite get_map, Q; auto). tauto. }
  assert (Ho : forall i, i <= m -> off (nthl rows') i = o i).
  { intros i Hi. apply (off_ext _ _ m); auto. intros k Hk. destruct (HN k Hk) as (h & q & -> & -> & _ & S & _).
    rewrite !Zlen_app. now rewrite (pc_spec_len _ _ _ _ _ _ S). }
  assert (LC : Zlen (concat rows') = Zlen (concat rows)) by (rewrite !Zlen_concat, Lr', Ho; auto; lia).
  destruct (at_rows_arrays base rows' ci vs (Zlen (concat rows))) as [K1 K2]; auto; try lia.
  { intros w ->. destruct I2. lia. }
  { intros i Hi. rewrite Lr' in Hi. rewrite Ho by lia. destruct (HN i Hi) as (h & q & _ & _ & _ & _ & K & _). auto. }
  rewrite LC in K1, K2.
  exists (mkCSR m (cn A) (rowptr A) ci vs (idiag A) (diag A) dp (extptr A)), rows', lrows'.
  split; [reflexivity|]. split; [|split; [|split; [auto|split; [auto|split; [auto|split; [auto|split; [auto|]]]]]]].
  - unfold rep. cbn [cm cn rowptr colidx values]. split; auto. split; auto. split; [|split].
    + rewrite R3. unfold rowptr_of. rewrite Lr'. apply map_ext_in. intros i Hi. apply In_zrange in Hi. now rewrite Ho by lia.
    + rewrite <- K1. rewrite <- I1. symmetry. apply slice_full.
    + destruct vs as [w|]; cbn in I2.
      * destruct I2 as [-> Lw]. f_equal. rewrite <- (K2 w eq_refl), <- I1, <- Lw. symmetry. apply slice_full.
      * now rewrite I2.
  - split; [unfold rows', lrows'; now rewrite !Zlen_map|]. cbn [extptr]. pose proof HL as [L1 L2].
    destruct (extptr A) as [e|].
    + destruct L2 as [L2 L3]. rewrite Lr'. split; auto. intros i Hi. destruct (HN i Hi) as (h & q & K3 & K4 & _ & S & _).
      exists h. split; auto. rewrite Ho by lia. destruct (L3 i Hi) as (_ & _ & ->). now rewrite (pc_spec_len _ _ _ _ _ _ S).
    + apply list_ext; [unfold rows', lrows'; now rewrite !Zlen_map|]. intros i Hi.
      assert (Hi' : 0 <= i < m) by (unfold lrows' in Hi; rewrite Zlen_map in Hi; lia).
      rewrite !get_nthl by lia. destruct (HN i Hi') as (h & q & K3 & _ & K5 & _). now rewrite K3, K5, app_nil_r by auto.
  - intros i Hi. destruct (HN i Hi) as (h & q & K3 & K4 & _ & S & _ & K). exists h, q. split; auto. split; auto. split; auto.
    cbn [diagptr]. intros d Hd. rewrite Ho by lia. auto.
Qed.
End Cols.

Definition cols1_case : csr Z := mkCSR 2 2 [1; 3; 4] [1; 2; 2] (Some [10; 20; 30]) None None None None.
Lemma cols1_fails :
  permuteColsInPlace false cols1_case [0; 1] [] = None /\ (exists A', permuteColsInPlace true cols1_case [0; 1] [] = Some A').
Proof. split; [vm_compute; reflexivity|]. eexists. vm_compute. reflexivity. Qed.
