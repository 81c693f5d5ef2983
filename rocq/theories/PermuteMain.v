(** * CSR::permute and CSR::permuteRows (/repo/Permute.cpp:81-112, 235-432) *)
From Verif Require Import Base Spec Interleave Partition PrefixSum PermUtils Flat Csr Transpose CsrTools CsrOps Sort RowPar Fill Permute.
From Coq Require Import Permutation.

Section Model.
Context {V : Type}.
Implicit Types A : csr V.

(** [extptr[row]], or [rowptr[row + 1]] without extptr (Permute.cpp:244). *)
Definition local_end (rp : list Z) (ext : option (list Z)) (r : Z) : option Z :=
  match ext with Some e => get e r | None => get rp (r + 1) end.

(** [newValues[k] = values[j]]; either pointer NULL is an error. *)
Definition copy_val A (base j k : Z) (vs : option (list V)) : option (option (list V)) :=
  vA <- values A ;; v <- get vA (j - base) ;; w <- vs ;; w <- set w (k - base) v ;; Some (Some w).

(** Permute.cpp:274-280 *)
Definition pm_copy1 A (base : Z) (cp : list Z) (j : Z) (s : Z * list Z * option (list V) * Z) :=
  let '(k, ci, vs, dc) := s in
  c <- get (colidx A) (j - base) ;;
  nc <- get cp (c - base) ;;
  ci <- set ci (k - base) (nc + base) ;;
  vs <- copy_val A base j k vs ;;
  Some (k + 1, ci, vs, dc).

(** Permute.cpp:297-307; [row] counts from the base. *)
Definition pm_copy A (base : Z) (cp : list Z) (row : Z) (j : Z) (s : Z * list Z * option (list V) * Z) :=
  let '(k, ci, vs, dc) := s in
  c <- get (colidx A) (j - base) ;;
  nc <- get cp (c - base) ;;
  ci <- set ci (k - base) (nc + base) ;;
  vs <- (if values A then copy_val A base j k vs else Some vs) ;;
  Some (k + 1, ci, vs, if (if diagptr A then true else false) && (c =? row) then nc + base else dc).

(** Permute.cpp:282-285, 309-312 *)
Definition pm_remote A (base : Z) (j : Z) (s : Z * list Z * option (list V) * Z) :=
  let '(k, ci, vs, dc) := s in
  c <- get (colidx A) (j - base) ;;
  ci <- set ci (k - base) c ;;
  vs <- copy_val A base j k vs ;;
  Some (k + 1, ci, vs, dc).
Definition pm_remotes A (base e r : Z) (s : Z * list Z * option (list V) * Z) :=
  match extptr A with
  | None => Some s
  | Some _ => e2 <- get (rowptr A) (r + 1) ;; foldM (pm_remote A base) (zrange e e2) s
  end.

(** The arrays of [out] written by permuteMain_: colidx, values, idiag, diagptr. *)
Definition pm_state : Type := list Z * option (list V) * option (list V) * option (list Z).

(** Permute.cpp:269-286: the common case, row [i] (from 0). *)
Definition pm_common A (base : Z) (cp : list Z) (inv : option (list Z)) (rp : list Z) (i : Z) (s : pm_state) : option pm_state :=
  let '(ci, vs, idg, dp) := s in
  p <- inv ;; r <- get p i ;;
  b <- get (rowptr A) r ;; e <- local_end (rowptr A) (extptr A) r ;;
  nb <- get rp i ;;
  s <- foldM (pm_copy1 A base cp) (zrange b e) (nb, ci, vs, -1) ;;
  ' (_, ci, vs, _) <- pm_remotes A base e r s ;;
  Some (ci, vs, idg, dp).

(** Permute.cpp:291-344: the general case. *)
Definition pm_row (nd sort : bool) A (base : Z) (cp : list Z) (inv : option (list Z)) (rp : list Z) (ext : option (list Z))
    (i : Z) (s : pm_state) : option pm_state :=
  let '(ci, vs, idg, dp) := s in
  r <- row_of inv i ;;
  b <- get (rowptr A) r ;; e <- local_end (rowptr A) (extptr A) r ;;
  nb <- get rp i ;;
  s <- foldM (pm_copy A base cp (r + base)) (zrange b e) (nb, ci, vs, -1) ;;
  ' (_, ci, vs, dc) <- pm_remotes A base e r s ;;
  assert! (nd || negb (if diagptr A then true else false) || negb (dc =? -1)) ;;
  ' (ci, vs) <- (if sort then
                   ne <- local_end rp ext i ;;
                   if nb + 1 <? ne then
                     w <- vs ;; ' (ci, w) <- insertion_sort (nb - base) (ne - base) (ci, w) ;; Some (ci, Some w)
                   else Some (ci, vs)
                 else Some (ci, vs)) ;;
  idg <- match idiag A with
         | None => Some idg
         | Some d => x <- get d r ;; g <- idg ;; g <- set g i x ;; Some (Some g)
         end ;;
  dp <- match diagptr A with
        | None => Some dp
        | Some _ =>
            ne <- local_end rp ext i ;;
            p <- findM (fun j => c <- get ci (j - base) ;; Some (c =? dc)) (zrange nb ne) ;;
            match p with
            | None => Some dp
            | Some j => d <- dp ;; d <- set d i j ;; Some (Some d)
            end
        end ;;
  Some (ci, vs, idg, dp).

Definition is_common A (inv : option (list Z)) (sort : bool) : bool :=
  (if inv then true else false) && (if values A then true else false) && negb (if idiag A then true else false) &&
  negb (if diagptr A then true else false) && negb sort.

(** Freshly allocated memory. *)
Record junk := mkJunk { j_rp : list Z; j_ext : list Z; j_ci : list Z; j_vs : list V; j_idg : list V; j_dp : list Z; j_ws : list Z }.

(** Permute.cpp:81-112: the sizes are those of the allocations there. *)
Definition junk_ok A (T : Z) (j : junk) : Prop :=
  exists N, get (rowptr A) (cm A) = Some N /\
    Zlen (j_rp j) = cm A + 1 /\ Zlen (j_ci j) = N /\
    (extptr A <> None -> Zlen (j_ext j) = cm A) /\ (values A <> None -> Zlen (j_vs j) = N) /\
    (idiag A <> None -> Zlen (j_idg j) = cm A) /\ (diagptr A <> None -> Zlen (j_dp j) = cm A) /\
    T + 1 <= Zlen (j_ws j).
Definition alloc_like {X Y} (p : option X) (y : Y) : option Y := match p with Some _ => Some y | None => None end.

(** Permute.cpp:420-425 with 81-112 and 235-371.  The arrays colidx and values of
    the result are allocated with rowptr[m] elements, which for base 1 is one
    more than the number of non-zeros; the model keeps the elements in use. *)
Definition permute (nd sort : bool) A (cp : list Z) (inv : option (list Z)) (T : Z) (sch : nat -> list nat) (j : junk) : option (csr V) :=
  base <- getBase A ;;
  ' (rp, ext) <- permuteRowptr nd A inv T sch (j_rp j) (alloc_like (extptr A) (j_ext j)) (j_ws j) ;;
  let out := mkCSR (cm A) (cn A) rp (j_ci j) (alloc_like (values A) (j_vs j)) (alloc_like (idiag A) (j_idg j)) None
               (alloc_like (diagptr A) (j_dp j)) ext in
  ts <- lb_rows out T ;;
  ' (ci, vs, idg, dp) <- par (sch 4%nat)
     (if is_common A inv sort then pm_common A base cp inv rp else pm_row nd sort A base cp inv rp ext) ts
     (colidx out, values out, idiag out, diagptr out) ;;
  nnz <- getNnz out ;;
  Some (mkCSR (cm A) (cn A) rp (slice ci 0 nnz) (option_map (fun w => slice w 0 nnz) vs) idg None dp ext).

(** Permute.cpp:392-405.  The code indexes out->rowptr, out->diagptr and
    out->idiag without shifting by the base, although [i] runs from the base. *)
Definition prm_row A (base : Z) (inv : option (list Z)) (rp : list Z) (i : Z) (s : pm_state) : option pm_state :=
  let '(ci, vs, idg, dp) := s in
  r <- row_of inv i ;;
  b <- get (rowptr A) r ;; e <- get (rowptr A) (r + 1) ;;
  nb <- get rp (i + base) ;;
  let nb := nb - base in
  vs <- match values A with
        | None => Some vs
        | Some vA => w <- vs ;; w <- forZ 0 (e - b) (fun q w => x <- get vA (b - base + q) ;; set w (nb + q) x) w ;; Some (Some w)
        end ;;
  ci <- forZ 0 (e - b) (fun q ci => x <- get (colidx A) (b - base + q) ;; set ci (nb + q) x) ci ;;
  dp <- match diagptr A with
        | None => Some dp
        | Some d =>
            x <- get d r ;; o <- get rp (i + base) ;; p <- dp ;; p <- set p (i + base) (o + (x - b)) ;; Some (Some p)
        end ;;
  idg <- match idiag A with
         | None => Some idg
         | Some d => x <- get d r ;; g <- idg ;; g <- set g (i + base) x ;; Some (Some g)
         end ;;
  Some (ci, vs, idg, dp).

(** Permute.cpp:385-390: the partition is computed from [out->rowptr + BASE]. *)
Definition prm_threads (rp : list Z) (base m T : Z) : option (list (list Z)) :=
  mapM (fun t => ' (b, e) <- load_balanced_partition (slice rp base (Zlen rp)) m T t ;; Some (zrange b e)) (zrange 0 T).

(** Permute.cpp:427-432 with 373-418. *)
Definition permuteRows (nd : bool) A (inv : option (list Z)) (T : Z) (sch : nat -> list nat) (j : junk) : option (csr V) :=
  base <- getBase A ;;
  ' (rp, ext) <- permuteRowptr nd A inv T sch (j_rp j) (alloc_like (extptr A) (j_ext j)) (j_ws j) ;;
  ts <- prm_threads rp base (cm A) T ;;
  ' (ci, vs, idg, dp) <- par (sch 4%nat) (prm_row A base inv rp) ts
     (j_ci j, alloc_like (values A) (j_vs j), alloc_like (idiag A) (j_idg j), alloc_like (diagptr A) (j_dp j)) ;;
  nnz <- getNnz A ;;
  Some (mkCSR (cm A) (cn A) rp (slice ci 0 nnz) (option_map (fun w => slice w 0 nnz) vs) idg None dp ext).
End Model.
Arguments junk V : clear implicits.

(** ** Specification *)

(** Column [c] of the input becomes [perm_col cp c]. *)
Definition perm_col (cp : list Z) (c : Z) : Z := match get cp c with Some x => x | None => c end.
Definition rename {V} (cp : list Z) (r : list (Z * V)) : list (Z * V) := map (fun e => (perm_col cp (fst e), snd e)) r.
Definition perm_local {V} (sort : bool) (cp : list Z) (l : list (Z * V)) : list (Z * V) :=
  if sort then isort (rename cp l) else rename cp l.
(** Row [l ++ h] with local part [l] and remote part [h]. *)
Definition perm_row {V} (sort : bool) (cp : list Z) (l r : list (Z * V)) : list (Z * V) :=
  perm_local sort cp l ++ slice r (Zlen l) (Zlen r).
Definition perm_rows {V} (sort : bool) (cp : list Z) (idx : list Z) (lrows rows : rows_t V) : rows_t V :=
  map (fun k => perm_row sort cp (nthl lrows k) (nthl rows k)) idx.
(** Where [c] first occurs among the columns of a row. *)
Definition first_col {V} (c : Z) (r : list (Z * V)) (q : Z) : Prop :=
  exists l1 v l2, r = l1 ++ (c, v) :: l2 /\ Zlen l1 = q /\ forall x, In x l1 -> fst x <> c.

(** ** Proofs *)

Lemma Zlen_rename {V} cp (r : list (Z * V)) : Zlen (rename cp r) = Zlen r.
Proof. apply Zlen_map. Qed.
Lemma Zlen_perm_local {V} sort cp (r : list (Z * V)) : Zlen (perm_local sort cp r) = Zlen r.
Proof. unfold perm_local. destruct sort; rewrite ?Zlen_isort; apply Zlen_rename. Qed.

Lemma Zlen_perm_rows {V} sort cp idx (lrows rows : rows_t V) : Zlen (perm_rows sort cp idx lrows rows) = Zlen idx.
Proof. apply Zlen_map. Qed.
Lemma nthl_perm_rows {V} sort cp idx (lrows rows : rows_t V) i k : get idx i = Some k ->
  nthl (perm_rows sort cp idx lrows rows) i = perm_row sort cp (nthl lrows k) (nthl rows k).
Proof. intros H. apply nthl_get. unfold perm_rows. now rewrite get_map, H. Qed.

Lemma slice_tail {X} (l h : list X) : slice (l ++ h) (Zlen l) (Zlen (l ++ h)) = h.
Proof.
  pose proof (Zlen_nonneg l). pose proof (Zlen_nonneg h).
  apply list_ext; [rewrite Zlen_slice; rewrite Zlen_app; lia|]. intros q Hq. rewrite Zlen_slice in Hq by (rewrite ?Zlen_app; lia).
  rewrite Zlen_app in Hq. rewrite get_slice, get_app_r by (rewrite ?Zlen_app; lia). f_equal. lia.
Qed.

Lemma existsb_In {V} c (l : list (Z * V)) : existsb (fun e => fst e =? c) l = true <-> exists v, In (c, v) l.
Proof.
  rewrite existsb_exists. split.
  - intros ([a v] & H & E). cbn in E. apply Z.eqb_eq in E. subst. eauto.
  - intros (v & H). exists (c, v). split; auto. cbn. apply Z.eqb_refl.
Qed.

Section Main.
Context {V : Type}.
Variables (nd sort : bool) (base n : Z) (hasv : bool) (rows lrows : rows_t V) (A : csr V) (inv : option (list Z)) (cp : list Z).
Hypothesis HR : rep hasv base n rows A.
Hypothesis HL : local_rows base rows A lrows.
Hypothesis Hbase : 0 <= base.
Notation m := (Zlen rows).
Hypothesis Hinv : inv_ok nd m inv.
Hypothesis Hcp : forall r c v, In r lrows -> In (c, v) r -> 0 <= c /\ exists c', get cp c = Some c' /\ 0 <= c'.
Hypothesis Hext : extptr A <> None -> hasv = true.
Hypothesis Hsort : sort = true -> hasv = true.
Hypothesis Hidg : forall d, idiag A = Some d -> Zlen d = m.
Hypothesis Hdiag : nd = false -> diagptr A <> None -> forall i, 0 <= i < m -> exists v, In (i, v) (nthl lrows i).

Notation idx := (sources m inv).
Notation rows1 := (rows_at rows idx).
Notation lrows1 := (rows_at lrows idx).
Notation o i := (off (nthl (rows_at rows idx)) i).
Notation out := (perm_rows sort cp idx lrows rows).

Lemma idx_get i : 0 <= i < m -> exists k, row_of inv i = Some k /\ get idx i = Some k /\ 0 <= k < m.
Proof.
  intros Hi. destruct (is_perm_get m idx i) as (k & Ek & Hk); auto.
  - apply (sources_perm nd); auto. apply Zlen_nonneg.
  - apply Zlen_nonneg.
  - exists k. split; auto. rewrite (row_of_source m inv nd); auto. apply Zlen_nonneg.
Qed.

(** Local and remote part of row [k]. *)
Lemma row_parts k : 0 <= k < m -> exists h, nthl rows k = nthl lrows k ++ h /\
  slice (nthl rows k) (Zlen (nthl lrows k)) (Zlen (nthl rows k)) = h /\
  local_end (rowptr A) (extptr A) k = Some (base + off (nthl rows) k + Zlen (nthl lrows k)) /\ (extptr A = None -> h = []).
Proof.
  intros Hk. destruct HL as [L1 L2]. unfold local_end. destruct (extptr A) as [e|].
  - destruct L2 as [L2 L3]. destruct (L3 k Hk) as (h & H1 & H2). exists h. split; auto. split; [|split; [auto|discriminate]].
    rewrite H1. apply slice_tail.
  - exists []. subst lrows. split; [now rewrite app_nil_r|]. split; [apply slice_nil; lia|]. split; auto.
    rewrite (rep_rowptr_S _ _ _ _ _ _ HR) by auto. f_equal. lia.
Qed.

Lemma local_col k c v : 0 <= k < m -> In (c, v) (nthl lrows k) -> 0 <= c /\ exists c', get cp c = Some c' /\ 0 <= c'.
Proof. intros Hk Hin. apply (Hcp (nthl lrows k) c v); auto. apply nth_row_In'. destruct HL. lia. Qed.

Lemma copy_val_ok k q c v j p vs vs' : 0 <= k < m -> get (nthl rows k) q = Some (c, v) -> hasv = true ->
  vals_ok hasv j vs -> put_val p v vs = Some vs' ->
  copy_val A base (base + off (nthl rows) k + q) (base + p) vs = Some vs'.
Proof.
  clear Hcp Hext Hsort Hidg Hdiag HL Hinv. intros Hk Eq Hv HV HP. unfold copy_val. pose proof HR as HR'. rewrite Hv in HR'.
  destruct (rep_val _ _ _ _ _ _ _ _ HR' Hk Eq) as (vA & E1 & E2). rewrite E1.
  replace (base + off (nthl rows) k + q - base) with (off (nthl rows) k + q) by lia. rewrite E2.
  destruct vs as [w|]; [|cbn in HV; congruence]. unfold put_val in HP. now replace (base + p - base) with p by lia.
Qed.

Lemma values_hasv : (if values A then true else false) = hasv.
Proof. destruct HR as (_ & _ & _ & _ & ->). now destruct hasv. Qed.

Definition dcol (k q : Z) : Z :=
  if (if diagptr A then true else false) && existsb (fun e => fst e =? k) (slice (nthl lrows k) 0 q) then perm_col cp k + base else -1.

Lemma local_copy_ok i k ci vs : 0 <= i < m -> get idx i = Some k -> 0 <= k < m -> o (i + 1) <= Zlen ci -> vals_ok hasv (Zlen ci) vs ->
  exists ci' vs', foldM (pm_copy A base cp (k + base)) (zrange (base + off (nthl rows) k) (base + off (nthl rows) k + Zlen (nthl lrows k)))
       (base + o i, ci, vs, -1) = Some (base + (o i + Zlen (nthl lrows k)), ci', vs', dcol k (Zlen (nthl lrows k))) /\
    at_row base ci' vs' (o i) (rename cp (nthl lrows k)) /\ frame (o i) (o (i + 1)) ci vs ci' vs'.
Proof.
  intros Hi Ek Hk Hle HV. destruct (row_parts k Hk) as (h & Hh & Hsl & _ & _).
  assert (Ho : o (i + 1) = o i + Zlen (nthl rows k)) by (rewrite off_S, (nthl_rows_at _ _ _ _ Ek) by lia; auto).
  pose proof (off_nonneg (nthl rows1) i) as Ho0.
  assert (Hll : Zlen (nthl rows k) = Zlen (nthl lrows k) + Zlen h) by (rewrite Hh, Zlen_app; auto). pose proof (Zlen_nonneg h).
  destruct (fill_ok hasv base (pm_copy A base cp (k + base)) (rename cp (nthl lrows k)) (dcol k) (base + off (nthl rows) k) (o i) ci vs)
    as (ci' & vs' & E & HA & HF); auto; rewrite ?Zlen_rename; try lia.
  - intros q e ci1 vs1 ci2 vs2 Eq HV1 E2 E3. unfold rename in Eq. rewrite get_map in Eq.
    destruct (get (nthl lrows k) q) as [[c v]|] eqn:Ec; [|discriminate]. cbn in Eq. injection Eq as <-.
    assert (Ec' : get (nthl rows k) q = Some (c, v)).
    { pose proof (get_Some_bounds _ _ _ Ec). rewrite Hh, get_app_l by lia. auto. }
    destruct (local_col k c v Hk (get_In _ _ _ Ec)) as (Hc & c' & Ecp & Hc').
    assert (Epc : perm_col cp c = c') by (unfold perm_col; now rewrite Ecp).
    unfold pm_copy. replace (base + off (nthl rows) k + q - base) with (off (nthl rows) k + q) by lia.
    rewrite (rep_col _ _ _ _ _ _ _ _ _ HR Hk Ec'). replace (c + base - base) with c by lia. rewrite Ecp.
    cbn [fst snd] in E2. rewrite Epc in E2. replace (base + (o i + q) - base) with (o i + q) by lia. rewrite E2.
    assert (G : (if values A then copy_val A base (base + off (nthl rows) k + q) (base + (o i + q)) vs1 else Some vs1) = Some vs2).
    { pose proof values_hasv as VH. destruct (values A).
      - apply (copy_val_ok k q c v (Zlen ci)); auto.
      - subst hasv. unfold put_val in E3. destruct vs1; [cbn in HV1; destruct HV1; congruence|congruence]. }
    rewrite G. f_equal. f_equal. unfold dcol.
    pose proof (get_Some_bounds _ _ _ Ec) as Bq.
    rewrite (slice_app _ 0 q (q + 1)) by lia. rewrite (slice_cons (nthl lrows k) q (q + 1) (c, v)), (slice_nil _ (q + 1) (q + 1)) by (auto; lia).
    rewrite existsb_app. cbn [existsb fst]. rewrite orb_false_r.
    replace (c + base =? k + base) with (c =? k) by lia.
    destruct (if diagptr A then true else false); [|reflexivity]. rewrite !andb_true_l.
    destruct (Z.eqb_spec c k) as [->|].
    + rewrite orb_true_r, Epc. auto.
    + rewrite orb_false_r. auto.
  - rewrite Zlen_rename in *. replace (dcol k 0) with (-1) in E.
    + exists ci', vs'. split; auto. split; auto. apply (frame_weaken (o i) (o i + Zlen (nthl lrows k))); auto; lia.
    + unfold dcol. rewrite slice_nil by lia. now destruct (diagptr A).
Qed.

Lemma dcol_in k v : 0 <= k < m -> diagptr A <> None -> In (k, v) (nthl lrows k) -> dcol k (Zlen (nthl lrows k)) = perm_col cp k + base /\ 0 <= perm_col cp k.
Proof.
  intros Hk Hd Hin. unfold dcol. rewrite slice_full.
  rewrite (proj2 (existsb_In k (nthl lrows k))) by eauto. split; [now destruct (diagptr A)|].
  destruct (local_col k k v Hk Hin) as (_ & c' & Ec & Hc). unfold perm_col. now rewrite Ec.
Qed.
Lemma dcol_out k : (forall v, ~ In (k, v) (nthl lrows k)) -> dcol k (Zlen (nthl lrows k)) = -1.
Proof.
  intros H. unfold dcol. rewrite slice_full. destruct (existsb (fun e => fst e =? k) (nthl lrows k)) eqn:E; [|now rewrite andb_false_r].
  exfalso. apply existsb_In in E as (v & Hv). exact (H v Hv).
Qed.
Lemma remotes_ok i k h ci vs dc : 0 <= i < m -> get idx i = Some k -> 0 <= k < m -> o (i + 1) <= Zlen ci -> vals_ok hasv (Zlen ci) vs ->
  nthl rows k = nthl lrows k ++ h ->  (extptr A = None -> h = []) ->
  exists k' ci' vs', pm_remotes A base (base + off (nthl rows) k + Zlen (nthl lrows k)) k (base + (o i + Zlen (nthl lrows k)), ci, vs, dc) = Some (k', ci', vs', dc) /\
    at_row base ci' vs' (o i + Zlen (nthl lrows k)) h /\ frame (o i + Zlen (nthl lrows k)) (o (i + 1)) ci vs ci' vs'.
Proof.
  intros Hi Ek Hk Hle HV Hh Hn. pose proof Hext as Hext'. unfold pm_remotes.
  assert (Ho : o (i + 1) = o i + Zlen (nthl rows k)) by (rewrite off_S, (nthl_rows_at _ _ _ _ Ek) by lia; auto).
  assert (Hll : Zlen (nthl rows k) = Zlen (nthl lrows k) + Zlen h) by (rewrite Hh, Zlen_app; auto). pose proof (Zlen_nonneg h).
  pose proof (off_nonneg (nthl rows1) i) as Ho0. pose proof (Zlen_nonneg (nthl lrows k)).
  destruct (extptr A) as [ex|].
  - rewrite (rep_rowptr_S _ _ _ _ _ _ HR) by auto.
    replace (base + (off (nthl rows) k + Zlen (nthl rows k))) with (base + off (nthl rows) k + Zlen (nthl lrows k) + Zlen h) by lia.
    destruct (fill_ok hasv base (pm_remote A base) h (fun _ => dc) (base + off (nthl rows) k + Zlen (nthl lrows k)) (o i + Zlen (nthl lrows k)) ci vs)
      as (ci' & vs' & E & HA & HF); auto; try lia.
    + intros q [c v] ci1 vs1 ci2 vs2 Eq HV1 E2 E3. cbn [fst snd] in *.
      assert (Ec : get (nthl rows k) (Zlen (nthl lrows k) + q) = Some (c, v)).
      { rewrite Hh, get_app_r by (apply get_Some_bounds in Eq; lia). rewrite <- Eq. f_equal. lia. }
      unfold pm_remote.
      replace (base + off (nthl rows) k + Zlen (nthl lrows k) + q - base) with (off (nthl rows) k + (Zlen (nthl lrows k) + q)) by lia.
      rewrite (rep_col _ _ _ _ _ _ _ _ _ HR Hk Ec).
      replace (base + (o i + Zlen (nthl lrows k) + q) - base) with (o i + Zlen (nthl lrows k) + q) by lia. rewrite E2.
      replace (base + off (nthl rows) k + Zlen (nthl lrows k) + q) with (base + off (nthl rows) k + (Zlen (nthl lrows k) + q)) by lia.
      erewrite copy_val_ok; eauto. apply Hext'. discriminate.
    + exists (base + (o i + Zlen (nthl lrows k) + Zlen h)), ci', vs'. split; auto. split; auto.
      apply (frame_weaken (o i + Zlen (nthl lrows k)) (o i + Zlen (nthl lrows k) + Zlen h)); auto; lia.
  - rewrite (Hn eq_refl). eexists _, ci, vs. split; [reflexivity|]. split; [|apply frame_refl].
    split; intros; exfalso.
    + apply get_Some_bounds in H1. change (Zlen (@nil (Z * V))) with 0 in H1. lia.
    + apply get_Some_bounds in H2. change (Zlen (@nil (Z * V))) with 0 in H2. lia.
Qed.

(** The new extptr, as computed by permuteRowptr. *)
Definition ext_spec (ext : option (list Z)) : Prop :=
  (ext = None <-> extptr A = None) /\
  forall e, ext = Some e -> Zlen e = m /\ forall i, 0 <= i < m -> get e i = Some (base + o i + Zlen (nthl lrows1 i)).

Lemma Zlen_idx : Zlen idx = m.
Proof. apply is_perm_len; [apply (sources_perm nd); auto|]; apply Zlen_nonneg. Qed.

Lemma new_local_end ext i k : ext_spec ext -> 0 <= i < m -> get idx i = Some k -> 0 <= k < m ->
  local_end (rowptr_of base rows1) ext i = Some (base + o i + Zlen (nthl lrows k)).
Proof.
  intros (H1 & H2) Hi Ek Hk. unfold local_end. destruct ext as [e|].
  - destruct (H2 e eq_refl) as [_ G]. rewrite G by auto. now rewrite (nthl_rows_at _ _ _ _ Ek).
  - rewrite get_rowptr_of by (rewrite Zlen_rows_at, Zlen_idx; lia). f_equal. rewrite off_S by lia.
    rewrite (nthl_rows_at _ _ _ _ Ek). destruct (row_parts k Hk) as (h & Hh & _ & _ & Hn).
    rewrite Hh, Hn, app_nil_r by (apply H1; auto). lia.
Qed.

Definition idg_step (i k : Z) (idg idg' : option (list V)) : Prop :=
  match idiag A with
  | None => idg' = idg
  | Some d => exists g g' x, idg = Some g /\ idg' = Some g' /\ get d k = Some x /\ set g i x = Some g'
  end.
Definition dp_step (i k : Z) (dp dp' : option (list Z)) : Prop :=
  match diagptr A with
  | None => dp' = dp
  | Some _ => exists d d', dp = Some d /\ dp' = Some d' /\ Zlen d' = Zlen d /\ (forall j, j <> i -> get d' j = get d j) /\
      forall v, In (k, v) (nthl lrows k) -> exists q, get d' i = Some (base + o i + q) /\ first_col (perm_col cp k) (perm_local sort cp (nthl lrows k)) q
  end.

Lemma pm_row_ok ext i ci vs idg dp : ext_spec ext -> 0 <= i < m -> Zlen (concat rows1) <= Zlen ci -> vals_ok hasv (Zlen ci) vs ->
  (idiag A <> None -> exists g, idg = Some g /\ Zlen g = m) -> (diagptr A <> None -> exists d, dp = Some d /\ Zlen d = m) ->
  exists k ci' vs' idg' dp', get idx i = Some k /\
    pm_row nd sort A base cp inv (rowptr_of base rows1) ext i (ci, vs, idg, dp) = Some (ci', vs', idg', dp') /\
    at_row base ci' vs' (o i) (perm_row sort cp (nthl lrows k) (nthl rows k)) /\ frame (o i) (o (i + 1)) ci vs ci' vs' /\
    idg_step i k idg idg' /\ dp_step i k dp dp'.
Proof.
  intros HE Hi Hle HV Hg Hd. destruct (idx_get i Hi) as (k & Er & Ek & Hk). destruct (row_parts k Hk) as (h & Hh & Hsl & Hle' & Hnil).
  assert (Ho : o (i + 1) = o i + Zlen (nthl rows k)) by (rewrite off_S, (nthl_rows_at _ _ _ _ Ek) by lia; auto).
  assert (Hll : Zlen (nthl rows k) = Zlen (nthl lrows k) + Zlen h) by (rewrite Hh, Zlen_app; auto).
  pose proof (Zlen_nonneg h) as Hh0. pose proof (off_nonneg (nthl rows1) i) as Ho0. pose proof (Zlen_nonneg (nthl lrows k)) as Hl0.
  assert (Hle1 : o (i + 1) <= Zlen ci).
  { destruct (row_bounds rows1 i) as (_ & B & _); [rewrite Zlen_rows_at, Zlen_idx; lia|]. lia. }
  unfold pm_row. rewrite Er, (rep_rowptr _ _ _ _ _ _ HR), Hle' by lia.
  rewrite get_rowptr_of by (rewrite Zlen_rows_at, Zlen_idx; lia).
  destruct (local_copy_ok i k ci vs) as (ci1 & vs1 & E1 & A1 & F1); auto. rewrite E1.
  pose proof (frame_vals _ _ _ _ _ _ _ _ F1 HV) as HV1. pose proof F1 as (L1 & _).
  destruct (remotes_ok i k h ci1 vs1 (dcol k (Zlen (nthl lrows k)))) as (k' & ci2 & vs2 & E2 & A2 & F2); auto; [lia|now rewrite L1|].
  rewrite E2. pose proof F2 as (L2 & _).
  assert (As : (nd || negb (if diagptr A then true else false) || negb (dcol k (Zlen (nthl lrows k)) =? -1)) = true).
  { pose proof Hdiag as HD0. pose proof (dcol_in k) as Din. destruct nd; auto. destruct (diagptr A) eqn:EA; auto.
    destruct (HD0 eq_refl ltac:(discriminate) k Hk) as (v & Hin). destruct (Din v Hk ltac:(discriminate) Hin) as [D1 D2]. rewrite D1. cbn. lia. }
  rewrite As. rewrite (new_local_end ext i k) by auto.
  assert (A1' : at_row base ci2 vs2 (o i) (rename cp (nthl lrows k))).
  { apply (at_row_frame _ _ _ _ _ _ _ _ _ F2); auto. rewrite Zlen_rename. lia. }
  pose proof (frame_vals hasv (Zlen ci) _ _ _ _ _ _ F2 HV1) as HV2.
  assert (HS : exists ci3 vs3, (if sort then
                   if base + o i + 1 <? base + o i + Zlen (nthl lrows k) then
                     w <- vs2 ;; ' (ci, w) <- insertion_sort (base + o i - base) (base + o i + Zlen (nthl lrows k) - base) (ci2, w) ;; Some (ci, Some w)
                   else Some (ci2, vs2)
                 else Some (ci2, vs2)) = Some (ci3, vs3) /\
      at_row base ci3 vs3 (o i) (perm_local sort cp (nthl lrows k)) /\ frame (o i) (o i + Zlen (nthl lrows k)) ci2 vs2 ci3 vs3).
  { unfold perm_local. pose proof Hsort as Hsort'. destruct sort; [|exists ci2, vs2; split; auto; split; auto; apply frame_refl].
    destruct (Z.ltb_spec (base + o i + 1) (base + o i + Zlen (nthl lrows k))) as [Hlt|Hge].
    - destruct vs2 as [w|]; [|cbn in HV2; rewrite Hsort' in HV2 by auto; discriminate].
      destruct (sort_segment_ok base ci2 w (o i) (rename cp (nthl lrows k))) as (ci3 & w3 & E3 & A3 & F3); auto.
      + rewrite Zlen_rename. lia.
      + destruct HV2. lia.
      + rewrite Zlen_rename in E3, F3. replace (base + o i - base) with (o i) by lia.
        replace (base + o i + Zlen (nthl lrows k) - base) with (o i + Zlen (nthl lrows k)) by lia. rewrite E3.
        eauto 6.
    - exists ci2, vs2. split; auto. split; [|apply frame_refl].
      replace (isort (rename cp (nthl lrows k))) with (rename cp (nthl lrows k)); auto.
      destruct (nthl lrows k) as [|a [|b l]]; auto. exfalso. rewrite !Zlen_cons in Hge. pose proof (Zlen_nonneg l). lia. }
  destruct HS as (ci3 & vs3 & E3 & A3 & F3). cbv zeta in E3.
  replace (if sort
     then
      if base + o i + 1 <? base + o i + Zlen (nthl lrows k)
      then
       ' w <- vs2;;
       ' (ci0, w0) <- insertion_sort (base + o i - base) (base + o i + Zlen (nthl lrows k) - base) (ci2, w);;
       Some (ci0, Some w0)
      else Some (ci2, vs2)
     else Some (ci2, vs2)) with (Some (ci3, vs3)) by (symmetry; exact E3).
  assert (HI : exists idg', match idiag A with
         | None => Some idg
         | Some d => x <- get d k ;; g <- idg ;; g <- set g i x ;; Some (Some g)
         end = Some idg' /\ idg_step i k idg idg').
  { unfold idg_step. pose proof Hidg as Hidg'. destruct (idiag A) as [d|]; [|eauto].
    destruct (Hg ltac:(discriminate)) as (g & -> & Lg). destruct (get_in_range d k) as (x & Ex); [rewrite (Hidg' d eq_refl); auto|].
    rewrite Ex. destruct (set_ok g i x) as (g' & Eg); [lia|]. rewrite Eg. eexists. split; [reflexivity|]. eauto 8. }
  destruct HI as (idg' & E4 & I4). rewrite E4.
  assert (HD : exists dp', match diagptr A with
        | None => Some dp
        | Some _ =>
            p <- findM (fun j => c <- get ci3 (j - base) ;; Some (c =? dcol k (Zlen (nthl lrows k)))) (zrange (base + o i) (base + o i + Zlen (nthl lrows k))) ;;
            match p with
            | None => Some dp
            | Some j => d <- dp ;; d <- set d i j ;; Some (Some d)
            end
        end = Some dp' /\ dp_step i k dp dp').
  { unfold dp_step. pose proof (dcol_in k) as Din. destruct (diagptr A) as [d0|]; [|eauto].
    destruct (Hd ltac:(discriminate)) as (d & -> & Ld).
    set (L := perm_local sort cp (nthl lrows k)) in *. assert (LL : Zlen L = Zlen (nthl lrows k)) by apply Zlen_perm_local.
    set (D := dcol k (Zlen (nthl lrows k))) in *.
    rewrite <- LL. destruct (findM_list L (base + o i) (fun j => c <- get ci3 (j - base) ;; Some (c =? D))
      (fun e => fst e + base =? D)) as [(l1 & e & l2 & HLe & H1 & H2 & H3)|[H1 H3]].
    - intros q e Eq. destruct A3 as [A3 _]. replace (base + o i + q - base) with (o i + q) by lia. rewrite (A3 q e Eq).
      f_equal.
    - rewrite H3. destruct (set_ok d i (base + o i + Zlen l1)) as (d' & Ed); [lia|]. rewrite Ed. eexists. split; [reflexivity|].
      exists d, d'. split; auto. split; auto. split; [now rewrite (set_len _ _ _ _ Ed)|]. split; [intros j Hj; now rewrite (get_set_other _ _ _ _ _ Ed)|].
      intros v Hin. destruct (Din v Hk ltac:(discriminate) Hin) as [D1 D2]. exists (Zlen l1). rewrite (get_set _ _ _ _ _ Ed), Z.eqb_refl. split; auto.
      destruct e as [c w]. cbn [fst] in H2. assert (c = perm_col cp k) as -> by lia.
      exists l1, w, l2. split; auto. split; auto. intros x Hx. specialize (H1 x Hx). lia.
    - rewrite H3. eexists. split; [reflexivity|]. exists d, d. repeat (split; auto). intros v Hin. exfalso.
      destruct (Din v Hk ltac:(discriminate) Hin) as [D1 D2].
      assert (Hin' : In (perm_col cp k, v) L).
      { assert (In (perm_col cp k, v) (rename cp (nthl lrows k))) by (unfold rename; apply in_map_iff; exists (k, v); auto).
        unfold L, perm_local. destruct sort; auto. eapply Permutation_in; [apply Permutation_sym, isort_perm|auto]. }
      specialize (H1 _ Hin'). cbn [fst] in H1. lia. }
  destruct HD as (dp' & E5 & I5). cbv zeta in E5. rewrite E5.
  exists k, ci3, vs3, idg', dp'. split; auto. split; auto. split; [|split; [|auto]].
  - unfold perm_row. rewrite Hsl. apply at_row_app; auto. rewrite Zlen_perm_local.
    apply (at_row_frame _ _ _ _ _ _ _ _ _ F3); auto. lia.
  - apply (frame_trans _ _ _ _ ci1 vs1); auto. apply (frame_trans _ _ _ _ ci2 vs2).
    + apply (frame_weaken (o i + Zlen (nthl lrows k)) (o (i + 1))); auto; lia.
    + apply (frame_weaken (o i) (o i + Zlen (nthl lrows k))); auto; lia.
Qed.

Lemma pm_common_eq ext i s : is_common A inv sort = true ->
  pm_common A base cp inv (rowptr_of base rows1) i s = pm_row nd sort A base cp inv (rowptr_of base rows1) ext i s.
Proof.
  clear Hcp Hext Hsort Hidg Hdiag HL Hinv HR.
  unfold is_common. destruct s as [[[ci vs] idg] dp]. unfold pm_common, pm_row. destruct inv as [p|]; [|discriminate].
  destruct (values A) as [vA|] eqn:EV; [|discriminate]. destruct (idiag A) eqn:EI; [discriminate|].
  destruct (diagptr A) eqn:ED; [discriminate|]. destruct sort; [discriminate|]. intros _. cbn [row_of negb orb].
  destruct (get p i) as [r|]; auto. destruct (get (rowptr A) r) as [b|]; auto.
  destruct (local_end (rowptr A) (extptr A) r) as [e|]; auto.
  destruct (get (rowptr_of base (rows_at rows (sources m (Some p)))) i) as [nb|]; auto.
  rewrite (foldM_ext (pm_copy1 A base cp) (pm_copy A base cp (r + base))).
  - destruct (foldM (pm_copy A base cp (r + base)) (zrange b e) (nb, ci, vs, -1)) as [s|]; auto.
    destruct (pm_remotes A base e r s) as [[[[a1 a2] a3] a4]|]; auto. rewrite orb_true_r. auto.
  - intros j [[[k c] w] d] _. unfold pm_copy1, pm_copy. rewrite EV, ED. reflexivity.
Qed.

Definition shape {X Y} (p : option X) (N : Z) (q : option (list Y)) : Prop :=
  match p with None => q = None | Some _ => exists g, q = Some g /\ Zlen g = N end.

(** What is known of the output arrays once the rows [done] are finished. *)
Definition pm_inv (N : Z) (done : list Z) (s : @pm_state V) : Prop :=
  let '(ci, vs, idg, dp) := s in
  Zlen ci = N /\ vals_ok hasv N vs /\ shape (idiag A) m idg /\ shape (diagptr A) m dp /\
  (forall i k, 0 <= i < m -> In i done -> get idx i = Some k -> at_row base ci vs (o i) (perm_row sort cp (nthl lrows k) (nthl rows k))) /\
  (forall d g i k, idiag A = Some d -> idg = Some g -> 0 <= i < m -> In i done -> get idx i = Some k -> get g i = get d k) /\
  (forall d i k v, dp = Some d -> 0 <= i < m -> In i done -> get idx i = Some k -> In (k, v) (nthl lrows k) ->
     exists q, get d i = Some (base + o i + q) /\ first_col (perm_col cp k) (perm_local sort cp (nthl lrows k)) q).

Lemma perm_row_len k : 0 <= k < m -> Zlen (perm_row sort cp (nthl lrows k) (nthl rows k)) = Zlen (nthl rows k).
Proof.
  intros Hk. destruct (row_parts k Hk) as (h & Hh & Hsl & _). unfold perm_row. rewrite Hsl, Zlen_app, Zlen_perm_local, Hh, Zlen_app. auto.
Qed.

Lemma off_out i : 0 <= i <= m -> off (nthl out) i = o i.
Proof.
  intros Hi. apply (off_ext _ _ m); [|lia]. intros j Hj. destruct (idx_get j Hj) as (k & _ & Ek & Hk).
  rewrite (nthl_perm_rows _ _ _ _ _ _ _ Ek), (nthl_rows_at _ _ _ _ Ek). now apply perm_row_len.
Qed.

Lemma nnz_out : Zlen (concat out) = Zlen (concat rows).
Proof.
  rewrite (Zlen_concat out), (Zlen_concat rows), Zlen_perm_rows, Zlen_idx, off_out by (pose proof (Zlen_nonneg rows); lia).
  apply rows_at_nnz. apply (sources_perm nd); auto. apply Zlen_nonneg.
Qed.

Lemma pm_par_ok sch ext ts N ci vs idg dp : ext_spec ext -> concat ts = zrange 0 m -> Zlen ci = N -> Zlen (concat rows) <= N -> vals_ok hasv N vs ->
  shape (idiag A) m idg -> shape (diagptr A) m dp ->
  exists s, par sch (if is_common A inv sort then pm_common A base cp inv (rowptr_of base rows1)
                     else pm_row nd sort A base cp inv (rowptr_of base rows1) ext) ts (ci, vs, idg, dp) = Some s /\
    pm_inv N (zrange 0 m) s.
Proof.
  intros HE Hts HN Hle HV Hg Hd.
  assert (EF : forall i s, (if is_common A inv sort then pm_common A base cp inv (rowptr_of base rows1)
                     else pm_row nd sort A base cp inv (rowptr_of base rows1) ext) i s =
               pm_row nd sort A base cp inv (rowptr_of base rows1) ext i s).
  { intros i s. destruct (is_common A inv sort) eqn:EC; auto. now apply pm_common_eq. }
  destruct (par_order_inv (pm_inv N) sch (if is_common A inv sort then pm_common A base cp inv (rowptr_of base rows1)
                     else pm_row nd sort A base cp inv (rowptr_of base rows1) ext) ts 0 m (ci, vs, idg, dp) Hts)
    as (s & done & E & HI & D).
  - unfold pm_inv. split; auto. split; auto. split; auto. split; auto. split; [|split]; cbn; tauto.
  - intros done i [[[ci1 vs1] idg1] dp1] Hi Hnd Hdone (I1 & I2 & I3 & I4 & I5 & I6 & I7). rewrite EF.
    assert (LC : Zlen (concat rows1) = Zlen (concat rows)).
    { rewrite !Zlen_concat, Zlen_rows_at, Zlen_idx. apply rows_at_nnz. apply (sources_perm nd); auto. apply Zlen_nonneg. }
    destruct (pm_row_ok ext i ci1 vs1 idg1 dp1) as (k & ci2 & vs2 & idg2 & dp2 & Ek & E & A2 & F2 & G2 & D2); auto.
    + lia.
    + now rewrite I1.
    + intros Hx. unfold shape in I3. destruct (idiag A); [auto|congruence].
    + intros Hx. unfold shape in I4. destruct (diagptr A); [auto|congruence].
    + exists (ci2, vs2, idg2, dp2). split; auto. pose proof F2 as (L2 & _).
      assert (HO : forall j k', 0 <= j < m -> get idx j = Some k' -> j <> i -> o j + Zlen (nthl rows k') <= o i \/ o (i + 1) <= o j).
      { intros j k' Hj Ej Hne. destruct (Z_lt_ge_dec j i).
        - left. pose proof (off_mono (nthl rows1) (j + 1) i). rewrite off_S, (nthl_rows_at _ _ _ _ Ej) in H by lia. lia.
        - right. apply off_mono; lia. }
      unfold pm_inv. split; [lia|]. split; [apply (frame_vals _ _ _ _ _ _ _ _ F2); auto|].
      split; [|split; [|split; [|split]]].
      * unfold shape, idg_step in *. destruct (idiag A) as [d|]; [|congruence].
        destruct G2 as (g & g' & x & G2 & -> & _ & Es). destruct I3 as (g0 & I3 & L). rewrite G2 in I3. injection I3 as <-.
        exists g'. split; auto. rewrite (set_len _ _ _ _ Es). auto.
      * unfold shape, dp_step in *. destruct (diagptr A) as [d|]; [|congruence].
        destruct D2 as (g & g' & D2 & -> & Es & _). destruct I4 as (g0 & I4 & L). rewrite D2 in I4. injection I4 as <-.
        exists g'. split; auto. rewrite Es. auto.
      * intros j k' Hj [<-|Hin] Ej; [rewrite Ek in Ej; injection Ej as <-; auto|].
        assert (j <> i) by congruence. apply (at_row_frame _ _ _ _ _ _ _ _ _ F2); auto.
        rewrite perm_row_len; [apply HO; auto|]. destruct (idx_get j Hj) as (k2 & _ & Ek2 & Hk2). congruence.
      * intros d g j k' Hd2 Hg2 Hj Hin Ej. unfold idg_step in G2. rewrite Hd2 in G2.
        destruct G2 as (g1 & g1' & x & -> & G2 & Ex & Es). rewrite Hg2 in G2. injection G2 as <-.
        rewrite (get_set _ _ _ _ _ Es). destruct (Z.eqb_spec j i) as [->|]; [congruence|].
        destruct Hin as [<-|Hin]; [congruence|]. eapply I6; eauto.
      * intros d j k' v Hd2 Hj Hin Ej Hv. unfold dp_step, shape in *. destruct (diagptr A) as [d0|].
        -- destruct D2 as (d1 & d1' & -> & D2 & Ls & Ho2 & Hf). rewrite Hd2 in D2. injection D2 as <-.
           destruct (Z.eq_dec j i) as [->|].
           ++ assert (k' = k) as -> by congruence. eauto.
           ++ rewrite Ho2 by auto. destruct Hin as [<-|Hin]; [congruence|]. eapply I7; eauto.
        -- rewrite D2 in Hd2. congruence.
  - exists s. split; auto. destruct s as [[[ci1 vs1] idg1] dp1]. destruct HI as (I1 & I2 & I3 & I4 & I5 & I6 & I7).
    unfold pm_inv. split; auto. split; auto. split; auto. split; auto. split; [|split].
    + intros. apply I5; auto. now apply D.
    + intros. eapply I6; eauto. now apply D.
    + intros. eapply I7; eauto. now apply D.
Qed.

Theorem permute_ok T sch j : 1 <= T -> junk_ok A T j ->
  exists A', permute nd sort A cp inv T sch j = Some A' /\ rep hasv base n out A' /\
    local_rows base out A' (map (perm_local sort cp) lrows1) /\ (extptr A' = None <-> extptr A = None) /\
    diag A' = None /\ shape (idiag A) m (idiag A') /\ shape (diagptr A) m (diagptr A') /\
    (forall d g i k, idiag A = Some d -> idiag A' = Some g -> get idx i = Some k -> get g i = get d k) /\
    (forall d i k v, diagptr A' = Some d -> get idx i = Some k -> In (k, v) (nthl lrows k) ->
       exists q, get d i = Some (base + off (nthl out) i + q) /\ first_col (perm_col cp k) (perm_local sort cp (nthl lrows k)) q).
Proof.
  intros HT (N & HN & J1 & J2 & J3 & J4 & J5 & J6 & J7). pose proof HR as (R1 & R2 & R3 & R4 & R5). pose proof (Zlen_nonneg rows) as Hm0.
  rewrite R1, R3, get_rowptr_of in HN by lia. injection HN as <-. rewrite R1 in *.
  unfold permute. rewrite (rep_base _ _ _ _ _ HR).
  destruct (permuteRowptr_ok nd base n hasv rows lrows A inv T HR HL HT Hinv sch (j_rp j) (alloc_like (extptr A) (j_ext j)) (j_ws j))
    as (ext & E1 & X1 & X2); auto.
  { intros e He. unfold alloc_like in He. destruct (extptr A); [|discriminate]. injection He as <-. apply J3. discriminate. }
  { unfold alloc_like. destruct (extptr A); split; auto; discriminate. }
  rewrite E1. assert (HE : ext_spec ext) by (split; auto).
  assert (LC : Zlen (concat rows1) = Zlen (concat rows)).
  { rewrite !Zlen_concat, Zlen_rows_at, Zlen_idx. apply rows_at_nnz. apply (sources_perm nd); auto. }
  set (X := mkCSR (cm A) (cn A) (rowptr_of base rows1) (colidx_of base rows1) (if hasv then Some (values_of rows1) else None) None None None None).
  assert (RX : rep hasv base n rows1 X).
  { unfold rep, X. cbn [cm cn rowptr colidx values]. rewrite Zlen_rows_at, Zlen_idx. auto. }
  destruct (lb_rows_ok hasv base n rows1 X T RX HT) as (ts & Ets & Hts & _). rewrite Zlen_rows_at, Zlen_idx in Hts.
  cbv zeta. replace (lb_rows _ T) with (Some ts) by (symmetry; exact Ets).
  cbn [colidx values idiag diagptr].
  assert (LCR : Zlen (concat rows) = off (nthl rows) m) by apply Zlen_concat.
  destruct (pm_par_ok (sch 4%nat) ext ts (base + off (nthl rows) m) (j_ci j) (alloc_like (values A) (j_vs j)) (alloc_like (idiag A) (j_idg j))
     (alloc_like (diagptr A) (j_dp j))) as ([[[ci vs] idg] dp] & E2 & (I1 & I2 & I3 & I4 & I5 & I6 & I7)); auto.
  { lia. }
  { rewrite R5 in *. unfold alloc_like, vals_ok. destruct hasv; auto. split; [auto|apply J4; discriminate]. }
  { unfold shape, alloc_like. destruct (idiag A); auto. eexists. split; eauto. apply J5. discriminate. }
  { unfold shape, alloc_like. destruct (diagptr A); auto. eexists. split; eauto. apply J6. discriminate. }
  rewrite E2.
  match goal with |- context [getNnz ?o] => assert (EN : getNnz o = Some (Zlen (concat rows))) end.
  { change (getNnz X = Some (Zlen (concat rows))). rewrite (rep_nnz _ _ _ _ _ RX). congruence. }
  rewrite EN. eexists. split; [reflexivity|].
  assert (LO : Zlen out = m) by (rewrite Zlen_perm_rows; apply Zlen_idx).
  assert (HAR : forall i, 0 <= i < Zlen out -> at_row base ci vs (off (nthl out) i) (nthl out i)).
  { intros i Hi. rewrite LO in Hi. destruct (idx_get i Hi) as (k & _ & Ek & Hk). rewrite off_out by lia.
    rewrite (nthl_perm_rows _ _ _ _ _ _ _ Ek). apply I5; auto. now apply In_zrange. }
  destruct (at_rows_arrays base out ci vs (base + off (nthl rows) m)) as [K1 K2]; auto.
  { rewrite nnz_out. lia. }
  { intros w Hw. rewrite Hw in I2. apply I2. }
  rewrite nnz_out in K1, K2.
  assert (RPO : rowptr_of base rows1 = rowptr_of base out).
  { unfold rowptr_of. rewrite Zlen_rows_at, LO, Zlen_idx. apply map_ext_in. intros i Hi. apply In_zrange in Hi.
    f_equal. symmetry. apply off_out. lia. }
  split; [|split; [|split; [|split; [|split; [|split; [|split]]]]]].
  - unfold rep. cbn [cm cn rowptr colidx values]. rewrite LO. split; auto. split; auto. split; auto. split; auto.
    destruct vs as [w|]; cbn in I2 |- *.
    + destruct I2 as [-> _]. now rewrite (K2 w eq_refl).
    + now rewrite I2.
  - split; [rewrite Zlen_map, Zlen_rows_at, LO; apply Zlen_idx|]. cbn [extptr].
    destruct ext as [e|].
    + destruct (X2 e eq_refl) as [X3 X4]. rewrite LO. split; auto. intros i Hi. destruct (idx_get i Hi) as (k & _ & Ek & Hk).
      assert (NL : nthl (map (perm_local sort cp) lrows1) i = perm_local sort cp (nthl lrows k)).
      { apply nthl_get. unfold rows_at. rewrite !get_map, Ek. reflexivity. }
      rewrite NL, (nthl_perm_rows _ _ _ _ _ _ _ Ek), off_out by lia. eexists. split; [reflexivity|].
      rewrite X4 by auto. rewrite (nthl_rows_at _ _ _ _ Ek), Zlen_perm_local. auto.
    + unfold perm_rows, rows_at. rewrite map_map. apply map_ext_in. intros k Hk. unfold perm_row.
      assert (Hk' : 0 <= k < m).
      { apply In_zrange. eapply Permutation_in; [|exact Hk]. apply (sources_perm nd); auto. }
      destruct (row_parts k Hk') as (h & _ & -> & _ & Hn). rewrite Hn by (apply X1; auto). now rewrite app_nil_r.
  - exact X1.
  - reflexivity.
  - auto.
  - auto.
  - cbn [idiag]. intros d g i k Hd Hg Ek. pose proof (get_Some_bounds _ _ _ Ek) as B. rewrite Zlen_idx in B.
    apply (I6 d g i k); auto. now apply In_zrange.
  - cbn [diagptr]. intros d i k v Hd Ek Hv. pose proof (get_Some_bounds _ _ _ Ek) as B. rewrite Zlen_idx in B.
    rewrite off_out by lia. apply (I7 d i k v); auto. now apply In_zrange.
Qed.
End Main.

(** ** permuteRows *)

Lemma memcpy_ok {X} (src w : list X) s d L : 0 <= s -> 0 <= d -> 0 <= L -> s + L <= Zlen src -> d + L <= Zlen w ->
  exists w', forZ 0 L (fun q w => x <- get src (s + q) ;; set w (d + q) x) w = Some w' /\ Zlen w' = Zlen w /\
    (forall q, 0 <= q < L -> get w' (d + q) = get src (s + q)) /\ (forall k, k < d \/ d + L <= k -> get w' k = get w k).
Proof.
  intros Hs Hd HL H1 H2.
  destruct (forZ_rule (fun j w' => Zlen w' = Zlen w /\ (forall q, 0 <= q < j -> get w' (d + q) = get src (s + q)) /\
     (forall k, k < d \/ d + j <= k -> get w' k = get w k)) 0 L (fun q w => x <- get src (s + q) ;; set w (d + q) x) w) as (w' & E & H); auto.
  - split; auto. split; [intros; lia|auto].
  - intros j w1 Hj (K1 & K2 & K3). destruct (get_in_range src (s + j)) as (x & Ex); [lia|]. rewrite Ex.
    destruct (set_ok w1 (d + j) x) as (w2 & E2); [lia|]. rewrite E2. eexists. split; [reflexivity|].
    rewrite (set_len _ _ _ _ E2). split; auto. split.
    + intros q Hq. rewrite (get_set _ _ _ _ _ E2). destruct (Z.eqb_spec (d + q) (d + j)) as [Q|].
      * replace q with j by lia. auto.
      * apply K2. lia.
    + intros k Hk. rewrite (get_set_other _ _ _ _ _ E2) by lia. apply K3. lia.
  - eauto.
Qed.

Section RowsMain.
Context {V : Type}.
Variables (nd : bool) (n : Z) (hasv : bool) (rows lrows : rows_t V) (A : csr V) (inv : option (list Z)).
Hypothesis HR : rep hasv 0 n rows A.
Hypothesis HL : local_rows 0 rows A lrows.
Notation m := (Zlen rows).
Hypothesis Hinv : inv_ok nd m inv.
Hypothesis Hidg : forall d, idiag A = Some d -> Zlen d = m.
Hypothesis Hdp : forall d, diagptr A = Some d -> Zlen d = m.

Notation idx := (sources m inv).
Notation rows1 := (rows_at rows idx).
Notation o i := (off (nthl (rows_at rows idx)) i).

Definition prm_inv (N : Z) (done : list Z) (s : @pm_state V) : Prop :=
  let '(ci, vs, idg, dp) := s in
  Zlen ci = N /\ vals_ok hasv N vs /\ shape (idiag A) m idg /\ shape (diagptr A) m dp /\
  (forall i k, 0 <= i < m -> In i done -> get idx i = Some k -> at_row 0 ci vs (o i) (nthl rows k)) /\
  (forall d g i k, idiag A = Some d -> idg = Some g -> 0 <= i < m -> In i done -> get idx i = Some k -> get g i = get d k) /\
  (forall d g i k x, diagptr A = Some d -> dp = Some g -> 0 <= i < m -> In i done -> get idx i = Some k -> get d k = Some x ->
     get g i = Some (o i + (x - off (nthl rows) k))).

Lemma prm_par_ok sch ts N ci vs idg dp : concat ts = zrange 0 m -> Zlen ci = N -> Zlen (concat rows) <= N -> vals_ok hasv N vs ->
  shape (idiag A) m idg -> shape (diagptr A) m dp ->
  exists s, par sch (prm_row A 0 inv (rowptr_of 0 rows1)) ts (ci, vs, idg, dp) = Some s /\ prm_inv N (zrange 0 m) s.
Proof.
  intros Hts HN Hle HV Hg Hd. pose proof (Zlen_nonneg rows) as Hm0.
  assert (LI : Zlen idx = m) by (apply is_perm_len; [apply (sources_perm nd)|]; auto).
  assert (LC : Zlen (concat rows1) = Zlen (concat rows)).
  { rewrite !Zlen_concat, Zlen_rows_at, LI. apply rows_at_nnz. apply (sources_perm nd); auto. }
  destruct (par_order_inv (prm_inv N) sch (prm_row A 0 inv (rowptr_of 0 rows1)) ts 0 m (ci, vs, idg, dp) Hts) as (s & done & E & HI & D).
  - unfold prm_inv. split; auto. split; auto. split; auto. split; auto. split; [|split]; cbn; tauto.
  - intros done i [[[ci1 vs1] idg1] dp1] Hi Hnd Hdone (I1 & I2 & I3 & I4 & I5 & I6 & I7).
    assert (exists k, row_of inv i = Some k /\ get idx i = Some k /\ 0 <= k < m) as (k & Er & Ek & Hk).
    { destruct (is_perm_get m idx i) as (k & Ek & Hk); auto; [apply (sources_perm nd); auto|].
      exists k. split; auto. rewrite (row_of_source m inv nd); auto. }
    assert (Ho : o (i + 1) = o i + Zlen (nthl rows k)) by (rewrite off_S, (nthl_rows_at _ _ _ _ Ek) by lia; auto).
    pose proof (off_nonneg (nthl rows1) i) as Ho0. pose proof (off_nonneg (nthl rows) k) as Hk0.
    assert (Hle1 : o (i + 1) <= N).
    { destruct (row_bounds rows1 i) as (_ & B & _); [rewrite Zlen_rows_at, LI; lia|]. lia. }
    destruct (row_bounds rows k Hk) as (_ & Bk & Bk'). pose proof (Zlen_nonneg (nthl rows k)) as Hlk.
    pose proof HR as (R1 & R2 & R3 & R4 & R5).
    unfold prm_row. rewrite Er, (rep_rowptr _ _ _ _ _ _ HR), (rep_rowptr_S _ _ _ _ _ _ HR) by lia. rewrite Z.add_0_r.
    rewrite get_rowptr_of by (rewrite Zlen_rows_at, LI; lia).
    replace (0 + (off (nthl rows) k + Zlen (nthl rows k)) - (0 + off (nthl rows) k)) with (Zlen (nthl rows k)) by lia.
    replace (0 + o i - 0) with (o i) by lia. replace (0 + off (nthl rows) k - 0) with (off (nthl rows) k) by lia.
    assert (HVS : exists vs2, match values A with
        | None => Some vs1
        | Some vA => w <- vs1 ;; w <- forZ 0 (Zlen (nthl rows k)) (fun q w => x <- get vA (off (nthl rows) k + q) ;; set w (o i + q) x) w ;; Some (Some w)
        end = Some vs2 /\ (forall w, vs2 = Some w -> forall q e, get (nthl rows k) q = Some e -> get w (o i + q) = Some (snd e)) /\
        match vs1, vs2 with
        | None, None => True
        | Some w, Some w' => Zlen w' = Zlen w /\ forall p, p < o i \/ o (i + 1) <= p -> get w' p = get w p
        | _, _ => False
        end).
    { rewrite R5. unfold vals_ok in I2. destruct hasv; destruct vs1 as [w|]; try (destruct I2; discriminate); try discriminate.
      - destruct I2 as [_ I2]. destruct (memcpy_ok (values_of rows) w (off (nthl rows) k) (o i) (Zlen (nthl rows k))) as (w' & Ew & Lw & W1 & W2); try lia.
        { unfold values_of. rewrite Zlen_map. lia. }
        rewrite Ew. exists (Some w'). split; auto. split; [|split; auto; intros; apply W2; lia].
        intros w0 Q q [c v] Eq. injection Q as <-. rewrite W1 by (apply get_Some_bounds in Eq; lia). now apply (get_values_of rows k q c v).
      - exists None. split; auto. split; auto. discriminate. }
    destruct HVS as (vs2 & Evs & V1 & V2). rewrite Evs.
    destruct (memcpy_ok (colidx A) ci1 (off (nthl rows) k) (o i) (Zlen (nthl rows k))) as (ci2 & Eci & Lci & C1 & C2); try lia.
    { rewrite R4. unfold colidx_of. rewrite Zlen_map. lia. }
    rewrite Eci.
    assert (F2 : frame (o i) (o (i + 1)) ci1 vs1 ci2 vs2).
    { split; auto. split; [intros p Hp; apply C2; lia|auto]. }
    assert (A2 : at_row 0 ci2 vs2 (o i) (nthl rows k)).
    { split; auto. intros q [c v] Eq. rewrite C1 by (apply get_Some_bounds in Eq; lia). now apply (rep_col _ _ _ _ _ _ _ _ _ HR Hk Eq). }
    assert (HDP : exists dp2, match diagptr A with
        | None => Some dp1
        | Some d => x <- get d k ;; p <- dp1 ;; p <- set p i (0 + o i + (x - (0 + off (nthl rows) k))) ;; Some (Some p)
        end = Some dp2 /\ shape (diagptr A) m dp2 /\
        forall d g2 j k' x, diagptr A = Some d -> dp2 = Some g2 -> 0 <= j < m -> In j (i :: done) -> get idx j = Some k' -> get d k' = Some x ->
          get g2 j = Some (o j + (x - off (nthl rows) k'))).
    { unfold shape in *. pose proof Hdp as Hdp'. destruct (diagptr A) as [d|]; [|exists dp1; split; auto; split; auto; intros; discriminate].
      destruct I4 as (g & -> & Lg). destruct (get_in_range d k) as (x & Ex); [rewrite (Hdp' d eq_refl); auto|]. rewrite Ex.
      destruct (set_ok g i (0 + o i + (x - (0 + off (nthl rows) k)))) as (g2 & Eg); [lia|]. rewrite Eg.
      exists (Some g2). split; auto. split; [exists g2; rewrite (set_len _ _ _ _ Eg); auto|].
      intros d0 g0 j k' x' Q1 Q2 Hj Hin Ej Ex'. injection Q1 as <-. injection Q2 as <-. rewrite (get_set _ _ _ _ _ Eg).
      destruct (Z.eqb_spec j i) as [->|].
      - assert (k' = k) as -> by congruence. f_equal. assert (x' = x) by congruence. lia.
      - destruct Hin as [<-|Hin]; [congruence|]. apply (I7 d g j k' x'); auto. }
    destruct HDP as (dp2 & Edp & S2 & D2). rewrite Edp.
    assert (HID : exists idg2, match idiag A with
         | None => Some idg1
         | Some d => x <- get d k ;; g <- idg1 ;; g <- set g i x ;; Some (Some g)
         end = Some idg2 /\ shape (idiag A) m idg2 /\
         forall d g2 j k', idiag A = Some d -> idg2 = Some g2 -> 0 <= j < m -> In j (i :: done) -> get idx j = Some k' -> get g2 j = get d k').
    { unfold shape in *. pose proof Hidg as Hidg'. destruct (idiag A) as [d|]; [|exists idg1; split; auto; split; auto; intros; discriminate].
      destruct I3 as (g & -> & Lg). destruct (get_in_range d k) as (x & Ex); [rewrite (Hidg' d eq_refl); auto|]. rewrite Ex.
      destruct (set_ok g i x) as (g2 & Eg); [lia|]. rewrite Eg.
      exists (Some g2). split; auto. split; [exists g2; rewrite (set_len _ _ _ _ Eg); auto|].
      intros d0 g0 j k' Q1 Q2 Hj Hin Ej. injection Q1 as <-. injection Q2 as <-. rewrite (get_set _ _ _ _ _ Eg).
      destruct (Z.eqb_spec j i) as [->|]; [congruence|].
      destruct Hin as [<-|Hin]; [congruence|]. apply (I6 d g j k'); auto. }
    destruct HID as (idg2 & Eid & S3 & D3). rewrite Eid.
    eexists. split; [reflexivity|]. unfold prm_inv. split; [lia|]. split; [apply (frame_vals _ _ _ _ _ _ _ _ F2); auto|].
    split; auto. split; auto. split; [|split; auto].
    intros j k' Hj [<-|Hin] Ej; [rewrite Ek in Ej; injection Ej as <-; auto|].
    assert (j <> i) by congruence. apply (at_row_frame _ _ _ _ _ _ _ _ _ F2); auto.
    destruct (Z_lt_ge_dec j i).
    + left. pose proof (off_mono (nthl rows1) (j + 1) i) as HM. rewrite off_S, (nthl_rows_at _ _ _ _ Ej) in HM by lia. lia.
    + right. apply off_mono; lia.
  - exists s. split; auto. destruct s as [[[ci1 vs1] idg1] dp1]. destruct HI as (I1 & I2 & I3 & I4 & I5 & I6 & I7).
    unfold prm_inv. split; auto. split; auto. split; auto. split; auto. split; [|split].
    + intros. apply I5; auto. now apply D.
    + intros. eapply I6; eauto. now apply D.
    + intros. eapply I7; eauto. now apply D.
Qed.

Theorem permuteRows_ok T sch j : 1 <= T -> junk_ok A T j ->
  exists A', permuteRows nd A inv T sch j = Some A' /\ rep hasv 0 n rows1 A' /\
    local_rows 0 rows1 A' (rows_at lrows idx) /\ (extptr A' = None <-> extptr A = None) /\
    diag A' = None /\ shape (idiag A) m (idiag A') /\ shape (diagptr A) m (diagptr A') /\
    (forall d g i k, idiag A = Some d -> idiag A' = Some g -> get idx i = Some k -> get g i = get d k) /\
    (forall d g i k x, diagptr A = Some d -> diagptr A' = Some g -> get idx i = Some k -> get d k = Some x ->
       get g i = Some (o i + (x - off (nthl rows) k))).
Proof.
  intros HT (N & HN & J1 & J2 & J3 & J4 & J5 & J6 & J7). pose proof HR as (R1 & R2 & R3 & R4 & R5). pose proof (Zlen_nonneg rows) as Hm0.
  rewrite R1, R3, get_rowptr_of, Z.add_0_l in HN by lia. injection HN as <-. rewrite R1 in *.
  assert (LI : Zlen idx = m) by (apply is_perm_len; [apply (sources_perm nd)|]; auto).
  unfold permuteRows. rewrite (rep_base _ _ _ _ _ HR).
  destruct (permuteRowptr_ok nd 0 n hasv rows lrows A inv T HR HL HT Hinv sch (j_rp j) (alloc_like (extptr A) (j_ext j)) (j_ws j))
    as (ext & E1 & X1 & X2); auto.
  { intros e He. unfold alloc_like in He. destruct (extptr A); [|discriminate]. injection He as <-. apply J3. discriminate. }
  { unfold alloc_like. destruct (extptr A); split; auto; discriminate. }
  rewrite E1.
  assert (LC : Zlen (concat rows1) = Zlen (concat rows)).
  { rewrite !Zlen_concat, Zlen_rows_at, LI. apply rows_at_nnz. apply (sources_perm nd); auto. }
  set (X := mkCSR (cm A) (cn A) (rowptr_of 0 rows1) (colidx_of 0 rows1) (if hasv then Some (values_of rows1) else None) None None None None).
  assert (RX : rep hasv 0 n rows1 X).
  { unfold rep, X. cbn [cm cn rowptr colidx values]. rewrite Zlen_rows_at, LI. auto. }
  destruct (lb_rows_ok hasv 0 n rows1 X T RX HT) as (ts & Ets & Hts & _). rewrite Zlen_rows_at, LI in Hts.
  unfold prm_threads. rewrite slice_full. rewrite R1. unfold lb_rows, X in Ets. cbn [rowptr cm] in Ets. rewrite R1 in Ets. rewrite Ets.
  assert (LCR : Zlen (concat rows) = off (nthl rows) m) by apply Zlen_concat.
  destruct (prm_par_ok (sch 4%nat) ts (off (nthl rows) m) (j_ci j) (alloc_like (values A) (j_vs j)) (alloc_like (idiag A) (j_idg j))
     (alloc_like (diagptr A) (j_dp j))) as ([[[ci vs] idg] dp] & E2 & (I1 & I2 & I3 & I4 & I5 & I6 & I7)); auto.
  { lia. }
  { rewrite R5 in *. unfold alloc_like, vals_ok. destruct hasv; auto. split; [auto|apply J4; discriminate]. }
  { unfold shape, alloc_like. destruct (idiag A); auto. eexists. split; [reflexivity|apply J5; discriminate]. }
  { unfold shape, alloc_like. destruct (diagptr A); auto. eexists. split; [reflexivity|apply J6; discriminate]. }
  rewrite E2, (rep_nnz _ _ _ _ _ HR). eexists. split; [reflexivity|].
  assert (HG : forall i, 0 <= i < m -> exists k, get idx i = Some k /\ 0 <= k < m).
  { intros i Hi. apply is_perm_get; auto. apply (sources_perm nd); auto. }
  destruct (at_rows_arrays 0 rows1 ci vs (off (nthl rows) m)) as [K1 K2]; auto.
  { lia. }
  { intros w Hw. rewrite Hw in I2. apply I2. }
  { intros i Hi. rewrite Zlen_rows_at, LI in Hi. destruct (HG i Hi) as (k & Ek & Hk). rewrite (nthl_rows_at _ _ _ _ Ek).
    apply I5; auto. now apply In_zrange. }
  rewrite LC in K1, K2.
  split; [|split; [|split; [|split; [|split; [|split; [|split]]]]]].
  - unfold rep. cbn [cm cn rowptr colidx values]. rewrite Zlen_rows_at, LI. split; auto. split; auto. split; auto. split; auto.
    destruct vs as [w|]; cbn in I2 |- *.
    + destruct I2 as [-> _]. now rewrite (K2 w eq_refl).
    + now rewrite I2.
  - split; [now rewrite !Zlen_rows_at|]. cbn [extptr]. pose proof HL as [L1 L2].
    destruct ext as [e|].
    + destruct (X2 e eq_refl) as [X3 X4]. rewrite Zlen_rows_at, LI. split; auto. intros i Hi. destruct (HG i Hi) as (k & Ek & Hk).
      rewrite !(nthl_rows_at _ _ _ _ Ek). destruct (extptr A) as [e0|]; [|destruct X1 as [_ X1]; discriminate X1; auto].
      destruct L2 as [_ L2]. destruct (L2 k Hk) as (h & Hh & _). exists h. split; auto. rewrite X4 by auto.
      now rewrite (nthl_rows_at _ _ _ _ Ek).
    + destruct (extptr A) as [e0|]; [destruct X1 as [X1 _]; discriminate X1; auto|]. now rewrite L2.
  - exact X1.
  - reflexivity.
  - auto.
  - auto.
  - cbn [idiag]. intros d g i k Hd Hg Ek. pose proof (get_Some_bounds _ _ _ Ek) as B. rewrite LI in B.
    apply (I6 d g i k); auto. now apply In_zrange.
  - cbn [diagptr]. intros d g i k x Hd Hg Ek Ex. pose proof (get_Some_bounds _ _ _ Ek) as B. rewrite LI in B.
    apply (I7 d g i k x); auto. now apply In_zrange.
Qed.
End RowsMain.

(** With base 1 the partition reads past the end of out->rowptr, whatever the matrix. *)
Theorem permuteRows_base1 {V} nd n hasv (rows lrows : rows_t V) A inv T sch j : rep hasv 1 n rows A -> local_rows 1 rows A lrows ->
  inv_ok nd (Zlen rows) inv -> 1 <= T -> junk_ok A T j -> permuteRows nd A inv T sch j = None.
Proof.
  intros HR HL Hinv HT (N & HN & J1 & J2 & J3 & J4 & J5 & J6 & J7). pose proof HR as (R1 & R2 & R3 & R4 & R5). pose proof (Zlen_nonneg rows) as Hm0.
  rewrite R1 in *. unfold permuteRows. rewrite (rep_base _ _ _ _ _ HR).
  destruct (permuteRowptr_ok nd 1 n hasv rows lrows A inv T HR HL HT Hinv sch (j_rp j) (alloc_like (extptr A) (j_ext j)) (j_ws j))
    as (ext & E1 & X1 & X2); auto.
  { intros e He. unfold alloc_like in He. destruct (extptr A); [|discriminate]. injection He as <-. apply J3. discriminate. }
  { unfold alloc_like. destruct (extptr A); split; auto; discriminate. }
  rewrite E1. unfold prm_threads. rewrite R1.
  assert (LI : Zlen (sources (Zlen rows) inv) = Zlen rows) by (apply is_perm_len; [apply (sources_perm nd)|]; auto).
  assert (HZ : get (slice (rowptr_of 1 (rows_at rows (sources (Zlen rows) inv))) 1 (Zlen (rowptr_of 1 (rows_at rows (sources (Zlen rows) inv))))) (Zlen rows) = None).
  { apply get_out. rewrite Zlen_slice; rewrite Zlen_rowptr_of, Zlen_rows_at, LI; lia. }
  rewrite zrange_cons by lia. cbn [mapM]. unfold load_balanced_partition at 1. rewrite HZ.
  now destruct (get (slice (rowptr_of 1 (rows_at rows (sources (Zlen rows) inv))) 1 _) 0).
Qed.
