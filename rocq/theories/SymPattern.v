(** * The symmetrised pattern (SymGS.cpp:120-314).

    The asserts at the end are not modelled.  A fetch-and-add followed by the store
    into the slot it reserved is one step.  Allocation from the memory pool is not
    distinguished from malloc. *)
From Coq Require Import Permutation.
From Verif Require Import Base Interleave Spec Search Partition Flat Csr Transpose CsrTools CsrOps RowPar PermUtils Exec Kernels Tasks LevelsCsr TaskGraph TaskGraphLists TaskGraphCsr Components SplitLU Fused.

(** ** Model *)
(** Elements [lo, hi) of an array; memcpy and std::sort on [pos, pos + length). *)
Definition csub (l : list Z) (lo hi : Z) : option (list Z) :=
  if (0 <=? lo) && (lo <=? hi) && (hi <=? Zlen l) then Some (slice l lo hi) else None.
Definition store_seg (src : list Z) (pos : Z) (dst : list Z) : option (list Z) :=
  foldM (fun kv b => set b (pos + fst kv) (snd kv)) (combine (zrange 0 (Zlen src)) src) dst.
Definition sort_seg (l : list Z) (lo hi : Z) : option (list Z) := s <- csub l lo hi ;; store_seg (zsort s) lo l.

Section Model.
Context {V : Type}.
Implicit Types A : csr V.
(** :173 and 237; [c] and [i] as stored, with the base *)
Definition mirrored A (base c i : Z) : option bool :=
  lo <- get (rowptr A) (c - base) ;; hi <- ext_at A (c - base) ;; binary_search (colidx A) (lo - base) (hi - base) i.
(** :170-178: the columns of row [i] without a mirrored entry *)
Definition unmatched A (base i : Z) : option (list (Z * Z)) :=
  lo <- get (rowptr A) i ;; hi <- ext_at A i ;;
  cs <- mapM (get (colidx A)) (zrange (lo - base) (hi - base)) ;;
  l <- keepM (fun c => mirrored A base c (i + base)) cs ;; Some (map (pair (i + base)) l).
(** :175 *)
Definition count_act (base : Z) (a : Z * Z) (w : list Z) : option (list Z) :=
  x <- get w (snd a - base + 1) ;; set w (snd a - base + 1) (x + 1).
(** :219-224; cnts is not shifted by the base *)
Definition forward_row A (base : Z) (rp : list Z) (i : Z) (s : list Z * list Z) : option (list Z * list Z) :=
  let '(cnts, cols) := s in
  r <- get (rowptr A) i ;; e <- ext_at A i ;; cnts' <- set cnts (i + base) (e - r) ;;
  p <- get rp i ;; src <- csub (colidx A) (r - base) (e - base) ;; cols' <- store_seg src (p - base) cols ;; Some (cnts', cols').
(** :239-240 *)
Definition backward_act (base : Z) (rp : list Z) (a : Z * Z) (s : list Z * list Z) : option (list Z * list Z) :=
  let '(cnts, cols) := s in let '(i, c) := a in
  cnt <- get cnts c ;; cnts' <- set cnts c (cnt + 1) ;; p <- get rp (c - base) ;; cols' <- set cols (p - base + cnt) i ;; Some (cnts', cols').
(** :253-264 *)
Definition finish_row A (base : Z) (rp cnts : list Z) (i : Z) (s : list Z * option (list Z) * list Z) : option (list Z * option (list Z) * list Z) :=
  let '(cols, ext, dp) := s in
  p <- get rp i ;; p' <- get rp (i + 1) ;; n <- get cnts (i + base) ;;
  cols1 <- sort_seg cols (p - base) (p - base + n) ;;
  e <- ext_at A i ;; r' <- get (rowptr A) (i + 1) ;; src <- csub (colidx A) (e - base) (r' - base) ;;
  cols2 <- store_seg src (p - base + n) cols1 ;;
  ext' <- match ext with None => Some None | Some x => x' <- set x i (p + n) ;; Some (Some x') end ;;
  dp' <- foldM (fun j d => c <- get cols2 (j - base) ;; if c =? i + base then set d i j else Some d) (zrange p p') dp ;;
  Some (cols2, ext', dp').

(** Previous contents of the arrays. *)
Record sym_junk := mkSymJunk { j_rp : list Z; j_cols : Z -> list Z; j_dp : list Z; j_ext : list Z; j_cnts : list Z }.
Definition sym_junk_ok (m : Z) (j : sym_junk) : Prop :=
  Zlen (j_rp j) = m + 1 /\ (forall n, 0 <= n -> Zlen (j_cols j n) = n) /\ Zlen (j_dp j) = m + 1 /\ Zlen (j_ext j) = m + 1 /\ Zlen (j_cnts j) = m.
Record sym_arrays := mkSymArrays { sy_rowptr : list Z; sy_colidx : list Z; sy_extptr : option (list Z); sy_diagptr : list Z }.

(** The result and, when it is false, the arrays.  The shifts of the pointers at
    :272-277 are by 0 for base 0; with base 1 they are not reached (cnts). *)
Definition getSymmetricNnzPattern A (T : Z) (sch : nat -> list nat) (j : sym_junk) : option (bool * option sym_arrays) :=
  base <- getBase A ;;
  let m := cm A in let ts := simple_rows m T in
  rp0 <- set (j_rp j) 0 base ;;
  rp1 <- par (sch 0%nat) (fun i w => b <- get (rowptr A) (i + 1) ;; a <- get (rowptr A) i ;; set w (i + 1) (b - a)) ts rp0 ;;
  acts <- mapM (fun rs => ls <- mapM (unmatched A base) rs ;; Some (concat ls)) ts ;;
  rp2 <- par (sch 1%nat) (count_act base) acts rp1 ;;
  match concat acts with
  | [] => Some (true, None)
  | _ =>
      rp <- foldM (fun i w => b <- get w (i + 1) ;; a <- get w i ;; set w (i + 1) (b + a)) (zrange 0 m) rp2 ;;
      n <- get rp (m - base) ;;
      ' (cnts1, cols1) <- par (sch 2%nat) (forward_row A base rp) ts (j_cnts j, j_cols j n) ;;
      ' (cnts2, cols2) <- par (sch 3%nat) (backward_act base rp) acts (cnts1, cols1) ;;
      ' (cols, ext, dp) <- par (sch 4%nat) (finish_row A base rp cnts2) ts (cols2, option_map (fun _ => j_ext j) (extptr A), j_dp j) ;;
      Some (false, Some (mkSymArrays rp cols ext dp))
  end.
End Model.
Arguments sym_junk_ok m j : clear implicits.

(** ** Specification *)
(** [ps] lists, in increasing order, the columns of the union of the pattern and
    its transpose. *)
Definition union_pattern {V} (lrows : rows_t V) (ps : list (list Z)) : Prop :=
  Zlen ps = Zlen lrows /\
  forall i, 0 <= i < Zlen lrows -> ssortedZ (nthl ps i) /\ forall c, In c (nthl ps i) <-> entry lrows i c \/ entry lrows c i.
(** The arrays store, row by row, the columns [ps] followed by the columns of
    [rows] behind extptr. *)
Definition sym_stored {V} (rows lrows : rows_t V) (ps : list (list Z)) (hasext : bool) (a : sym_arrays) : Prop :=
  exists full, Zlen full = Zlen rows /\
  (forall i, 0 <= i < Zlen rows -> exists h, nthl rows i = nthl lrows i ++ h /\ nthl full i = nthl ps i ++ map fst h) /\
  Zlen (sy_rowptr a) = Zlen rows + 1 /\ (forall i, 0 <= i <= Zlen rows -> get (sy_rowptr a) i = Some (off (nthl full) i)) /\
  sy_colidx a = concat full /\
  match sy_extptr a with
  | Some e => hasext = true /\ forall i, 0 <= i < Zlen rows -> get e i = Some (off (nthl full) i + Zlen (nthl ps i))
  | None => hasext = false end /\
  forall i, 0 <= i < Zlen rows -> entry lrows i i -> exists k, get (nthl ps i) k = Some i /\ get (sy_diagptr a) i = Some (off (nthl full) i + k).
Definition symmetric_pattern {V} (lrows : rows_t V) : Prop := forall i c, 0 <= i < Zlen lrows -> entry lrows i c -> entry lrows c i.

(** ** Proof *)
Lemma csub_ok l lo hi : 0 <= lo <= hi -> hi <= Zlen l -> csub l lo hi = Some (slice l lo hi).
Proof. intros H1 H2. unfold csub. replace ((0 <=? lo) && (lo <=? hi) && (hi <=? Zlen l)) with true; auto. symmetry. rewrite !andb_true_iff. repeat split; lia. Qed.
Lemma store_ok src pos dst : 0 <= pos -> pos + Zlen src <= Zlen dst ->
  exists d', store_seg src pos dst = Some d' /\ Zlen d' = Zlen dst /\ (forall k, 0 <= k < Zlen src -> get d' (pos + k) = get src k) /\ (forall i, i < pos \/ pos + Zlen src <= i -> get d' i = get dst i).
Proof.
  intros H1 H2. destruct (copy_one src pos dst H1 H2) as (d' & E & L & F1 & F2). exists d'. repeat split; auto.
  intros k Hk. destruct (get_in_range src k Hk) as (x & Ex). rewrite Ex. auto.
Qed.
Lemma sort_ok l lo hi : 0 <= lo <= hi -> hi <= Zlen l ->
  exists l', sort_seg l lo hi = Some l' /\ Zlen l' = Zlen l /\ (forall k, 0 <= k < hi - lo -> get l' (lo + k) = get (zsort (slice l lo hi)) k) /\ (forall i, i < lo \/ hi <= i -> get l' i = get l i).
Proof.
  intros H1 H2. unfold sort_seg. rewrite csub_ok by auto.
  assert (L : Zlen (zsort (slice l lo hi)) = hi - lo). { rewrite (Zlen_perm _ _ (zsort_perm _)), Zlen_slice; lia. }
  destruct (store_ok (zsort (slice l lo hi)) lo l) as (l' & E & L' & F1 & F2); [lia|lia|].
  exists l'. rewrite L in *. repeat split; auto. intros i Hi. apply F2. lia.
Qed.

Lemma mapM_total {X Y} (f : X -> option Y) l : (forall a, In a l -> exists b, f a = Some b) -> exists l', mapM f l = Some l'.
Proof. induction l as [|a l IH]; intros H; cbn; eauto. destruct (H a (or_introl eq_refl)) as (b & ->). destruct IH as (l' & ->); eauto. intros; apply H; now right. Qed.
Lemma mapM_get_slice_eq {X} (l : list X) lo hi : 0 <= lo <= hi -> hi <= Zlen l -> mapM (get l) (zrange lo hi) = Some (slice l lo hi).
Proof.
  intros H1 H2. assert (E : exists r, mapM (get l) (zrange lo hi) = Some r). { apply mapM_total. intros i Hi. apply In_zrange in Hi. destruct (get_in_range l i) as (x & ->); eauto. lia. }
  destruct E as (r & E). rewrite E. f_equal. assert (L : Zlen r = hi - lo). { apply mapM_length in E. unfold Zlen. rewrite E. pose proof (Zlen_zrange lo hi). unfold Zlen in *. lia. }
  apply list_ext; [rewrite Zlen_slice; lia|]. intros k Hk. rewrite get_slice by lia. rewrite L in Hk. apply (mapM_get _ _ _ _ _ E). rewrite get_zrange by lia. reflexivity.
Qed.

Lemma ssorted_NoDup' l : ssortedZ l -> NoDup l.
Proof. intros H. induction H as [|x l H IH F]; constructor; auto. intros X. rewrite Forall_forall in F. apply F in X. lia. Qed.

Section Proof.
Context {V : Type}.
Variables (hasv : bool) (n : Z) (rows lrows : rows_t V) (A : csr V).
Hypothesis HR : rep hasv 0 n rows A.
Hypothesis Hl : local_rows 0 rows A lrows.
Hypothesis Hh : halo_last rows lrows.
Hypothesis Hs : forall i, 0 <= i < Zlen rows -> ssortedZ (map fst (nthl lrows i)).
Hypothesis Hpos : forall i c v, 0 <= i < Zlen rows -> In (c, v) (nthl lrows i) -> 0 <= c.
Notation m := (Zlen rows).
Let cs i := map fst (nthl lrows i).
Let has i c := existsb (Z.eqb c) (cs i).
Let hs i := map fst (skipn (length (nthl lrows i)) (nthl rows i)).

Lemma sp_m : Zlen lrows = m. Proof. apply Hl. Qed.
Lemma sp_split i : 0 <= i < m -> map fst (nthl rows i) = cs i ++ hs i /\ nthl rows i = nthl lrows i ++ skipn (length (nthl lrows i)) (nthl rows i).
Proof.
  intros Hi. destruct (Hh i Hi) as (h & E & _). unfold cs, hs. rewrite E. rewrite skipn_app, skipn_all, Nat.sub_diag. cbn [skipn app]. now rewrite map_app.
Qed.
Lemma sp_range i c : 0 <= i < m -> In c (cs i) -> 0 <= c < m.
Proof.
  intros Hi H. apply in_map_iff in H as ((c' & v) & <- & H). split; [eapply Hpos; eauto|]. destruct (Hh i Hi) as (h & _ & H1 & _). eauto.
Qed.
Lemma sp_halo i c : 0 <= i < m -> In c (hs i) -> m <= c.
Proof.
  intros Hi H. apply in_map_iff in H as ((c' & v) & <- & H). destruct (Hh i Hi) as (h & E & _ & H2).
  rewrite E, skipn_app, skipn_all, Nat.sub_diag in H. cbn [skipn app] in H. eauto.
Qed.
Lemma sp_len i : 0 <= i < m -> Zlen (nthl rows i) = Zlen (cs i) + Zlen (hs i).
Proof. intros Hi. destruct (sp_split i Hi) as (E & _). apply (f_equal (@Zlen Z)) in E. rewrite Zlen_map, Zlen_app in E. exact E. Qed.
Lemma has_In i c : has i c = true <-> In c (cs i).
Proof. unfold has. rewrite existsb_exists. split; [intros (x & H & E); apply Z.eqb_eq in E; now subst|intros H; exists c; split; auto; apply Z.eqb_refl]. Qed.
Lemma has_entry i c : In c (cs i) <-> entry lrows i c.
Proof. unfold cs, entry. rewrite in_map_iff. split; [intros ((c' & v) & <- & H); eauto|intros (v & H); exists (c, v); auto]. Qed.

Lemma sp_rowptr i : 0 <= i <= m -> get (rowptr A) i = Some (off (nthl rows) i).
Proof. intros Hi. rewrite (rep_rowptr hasv 0 n rows A i HR Hi). f_equal. Qed.
Lemma sp_ext i : 0 <= i < m -> ext_at A i = Some (off (nthl rows) i + Zlen (cs i)).
Proof. intros Hi. rewrite (ext_at_ok hasv 0 n rows lrows A HR Hl i Hi). unfold cs. now rewrite Zlen_map. Qed.
Lemma sp_col i k : 0 <= i < m -> 0 <= k < Zlen (nthl rows i) -> get (colidx A) (off (nthl rows) i + k) = get (map fst (nthl rows i)) k.
Proof.
  intros Hi Hk. destruct (get_in_range (nthl rows i) k Hk) as ((c & v) & E). pose proof (rep_col hasv 0 n rows A i k c v HR Hi E) as X.
  rewrite X, get_map, E. cbn. f_equal. lia.
Qed.
Lemma sp_total : Zlen (colidx A) = off (nthl rows) m.
Proof. destruct HR as (_ & _ & _ & -> & _). unfold colidx_of. rewrite Zlen_map, concat_flat, Zlen_flat; auto. apply Zlen_nonneg. Qed.
Lemma sp_bounds i : 0 <= i < m -> 0 <= off (nthl rows) i /\ off (nthl rows) i + Zlen (nthl rows i) <= Zlen (colidx A).
Proof. intros Hi. split; [apply off_nonneg|]. rewrite sp_total, <- off_S by lia. apply off_mono. lia. Qed.
Lemma sp_slice i lo hi : 0 <= i < m -> 0 <= lo <= hi -> hi <= Zlen (nthl rows i) ->
  slice (colidx A) (off (nthl rows) i + lo) (off (nthl rows) i + hi) = slice (map fst (nthl rows i)) lo hi.
Proof.
  intros Hi H1 H2. destruct (sp_bounds i Hi). apply list_ext; [rewrite !Zlen_slice by (rewrite ?Zlen_map; lia); lia|].
  intros k Hk. rewrite Zlen_slice in Hk by lia. rewrite !get_slice by lia. rewrite <- Z.add_assoc. apply sp_col; lia.
Qed.
Lemma sp_local i : 0 <= i < m -> slice (colidx A) (off (nthl rows) i) (off (nthl rows) i + Zlen (cs i)) = cs i.
Proof.
  intros Hi. pose proof (sp_len i Hi). pose proof (Zlen_nonneg (cs i)). pose proof (Zlen_nonneg (hs i)).
  replace (off (nthl rows) i) with (off (nthl rows) i + 0) at 1 by lia. rewrite sp_slice by lia. destruct (sp_split i Hi) as (-> & _). apply slice_app_l.
Qed.
Lemma sp_remote i : 0 <= i < m -> slice (colidx A) (off (nthl rows) i + Zlen (cs i)) (off (nthl rows) i + Zlen (nthl rows i)) = hs i.
Proof.
  intros Hi. pose proof (sp_len i Hi). pose proof (Zlen_nonneg (cs i)). pose proof (Zlen_nonneg (hs i)). rewrite sp_slice by lia. destruct (sp_split i Hi) as (-> & _).
  apply list_ext; [rewrite Zlen_slice by (rewrite ?Zlen_app; lia); lia|]. intros k Hk. rewrite Zlen_slice in Hk by (rewrite ?Zlen_app; lia). rewrite get_slice by lia. rewrite get_app_r by lia. f_equal. lia.
Qed.

(** The columns found without a mirrored entry. *)
Let miss i := filter (fun c => negb (has c i)) (cs i).
Lemma mono_local i : 0 <= i < m -> monotone_on (colidx A) (off (nthl rows) i) (off (nthl rows) i + Zlen (cs i)).
Proof.
  intros Hi. assert (M : forall k l x y, k <= l -> get (cs i) k = Some x -> get (cs i) l = Some y -> x <= y).
  { intros k l x y H X Y. destruct (Z.eq_dec k l) as [->|N]; [rewrite X in Y; injection Y; lia|]. pose proof (ssorted_get (cs i) k l x y (Hs i Hi) ltac:(lia) X Y). lia. }
  intros a b x y H1 H2 H4 H5. pose proof (sp_len i Hi). pose proof (Zlen_nonneg (hs i)). destruct (sp_split i Hi) as (E & _).
  replace a with (off (nthl rows) i + (a - off (nthl rows) i)) in H4 by lia. replace b with (off (nthl rows) i + (b - off (nthl rows) i)) in H5 by lia.
  rewrite sp_col in H4, H5 by lia. rewrite E in H4, H5. rewrite get_app_l in H4, H5 by lia. eapply M; [|exact H4|exact H5]. lia.
Qed.
Lemma mirrored_ok c i : 0 <= c < m -> mirrored A 0 c i = Some (has c i).
Proof.
  intros Hc. unfold mirrored. rewrite !Z.sub_0_r. rewrite sp_rowptr, sp_ext by lia. rewrite !Z.sub_0_r.
  destruct (sp_bounds c Hc). pose proof (sp_len c Hc). pose proof (Zlen_nonneg (cs c)). pose proof (Zlen_nonneg (hs c)).
  destruct (binary_search_spec (colidx A) (off (nthl rows) c) (off (nthl rows) c + Zlen (cs c)) i) as (b & -> & Hb); [lia|lia|now apply mono_local|].
  f_equal. apply eq_true_iff_eq. rewrite Hb, has_In. destruct (sp_split c Hc) as (E & _). split.
  - intros (k & Hk & G). replace k with (off (nthl rows) c + (k - off (nthl rows) c)) in G by lia. rewrite sp_col in G by lia. rewrite E, get_app_l in G by lia. eapply get_In; eauto.
  - intros G. apply In_get in G as (k & Hk & G). exists (off (nthl rows) c + k). split; [lia|]. rewrite sp_col by lia. rewrite E, get_app_l by lia. exact G.
Qed.
Lemma unmatched_ok i : 0 <= i < m -> unmatched A 0 i = Some (map (pair i) (miss i)).
Proof.
  intros Hi. unfold unmatched. rewrite sp_rowptr, sp_ext by lia. rewrite !Z.sub_0_r, Z.add_0_r.
  replace (mapM (get (colidx A)) (zrange (off (nthl rows) i) (off (nthl rows) i + Zlen (cs i)))) with (Some (cs i)).
  - rewrite (keepM_ok _ (fun c => has c i)); [reflexivity|]. intros c Hc. apply mirrored_ok. eapply sp_range; eauto.
  - symmetry. destruct (sp_bounds i Hi). pose proof (sp_len i Hi). pose proof (Zlen_nonneg (cs i)). pose proof (Zlen_nonneg (hs i)).
    rewrite <- (sp_local i Hi) at 2. apply mapM_get_slice_eq; lia.
Qed.

(** All pairs without a mirrored entry; the new columns and the final row [c]. *)
Let acts := concat (map (fun i => map (pair i) (miss i)) (zrange 0 m)).
Let adds c := filter (fun i => has i c && negb (has c i)) (zrange 0 m).
Let loc c := filter (fun j => has c j || has j c) (zrange 0 m).
Let fin c := loc c ++ hs c.
Let sel c (done : list (Z * Z)) := map fst (filter (fun a => snd a =? c) done).

Lemma cs_NoDup i : 0 <= i < m -> NoDup (cs i).
Proof.
  intros Hi. apply ssorted_NoDup'. now apply Hs.
Qed.
Lemma In_miss i c : 0 <= i < m -> In c (miss i) <-> In c (cs i) /\ has c i = false.
Proof. intros Hi. unfold miss. rewrite filter_In, negb_true_iff. tauto. Qed.
Lemma In_acts i c : In (i, c) acts <-> 0 <= i < m /\ has i c = true /\ has c i = false.
Proof.
  unfold acts. rewrite in_concat. split.
  - intros (l & Hl1 & Hl2). apply in_map_iff in Hl1 as (i' & <- & Hi'). apply In_zrange in Hi'. apply in_map_iff in Hl2 as (c' & E & Hc'). injection E as -> ->. apply In_miss in Hc' as (H1 & H2); auto. rewrite has_In. auto.
  - intros (Hi & H1 & H2). exists (map (pair i) (miss i)). split; [apply in_map_iff; exists i; split; auto; now apply In_zrange|]. apply in_map. apply In_miss; auto. split; auto. now apply has_In.
Qed.
Lemma acts_c i c : In (i, c) acts -> 0 <= c < m.
Proof. intros H. apply In_acts in H as (H1 & H2 & _). apply has_In in H2. eapply sp_range; eauto. Qed.
Lemma acts_NoDup : NoDup acts.
Proof.
  unfold acts. assert (G : forall lo hi, 0 <= lo -> hi <= m -> NoDup (concat (map (fun i => map (pair i) (miss i)) (zrange lo hi)))).
  { intros lo hi Hlo Hhi. destruct (Z_lt_ge_dec hi lo); [rewrite zrange_nil by lia; constructor|]. remember (hi - lo) as d eqn:Ed. assert (Hd : 0 <= d) by lia. revert lo Hlo g Ed. pattern d. revert d Hd. apply Z_ind0.
    - intros lo Hlo _ E. rewrite zrange_nil by lia. constructor.
    - intros d Hd IH lo Hlo _ E. rewrite zrange_cons by lia. cbn [map concat]. apply NoDup_app2.
      + apply FinFun.Injective_map_NoDup; [intros x y H; congruence|]. apply NoDup_filter, cs_NoDup. lia.
      + apply IH; lia.
      + intros (a & b) H1 H2. apply in_map_iff in H1 as (c & H1 & _). injection H1 as <- <-. apply in_concat in H2 as (l & H2 & H3). apply in_map_iff in H2 as (i & <- & Hi). apply In_zrange in Hi. apply in_map_iff in H3 as (x & H3 & _). injection H3 as -> _. lia. }
  apply G; lia.
Qed.
Lemma In_sel c done i : In i (sel c done) <-> In (i, c) done.
Proof.
  unfold sel. rewrite in_map_iff. split.
  - intros ((x & y) & <- & H). apply filter_In in H as (H & E). apply Z.eqb_eq in E. cbn in E. now subst.
  - intros H. exists (i, c). split; auto. apply filter_In. split; auto. apply Z.eqb_refl.
Qed.
Lemma sel_NoDup c done : NoDup done -> NoDup (sel c done).
Proof.
  intros H. unfold sel. induction done as [|(x & y) done IH]; [constructor|]. inversion H as [|? ? H1 H2]; subst. cbn [filter snd]. destruct (y =? c) eqn:E; [|auto]. apply Z.eqb_eq in E. subst y. cbn [map fst]. constructor; [|auto]. intros X. apply H1. now apply In_sel.
Qed.
Lemma In_adds c i : In i (adds c) <-> In (i, c) acts.
Proof. unfold adds. rewrite filter_In, In_zrange, andb_true_iff, negb_true_iff, In_acts. tauto. Qed.
Lemma adds_NoDup c : NoDup (adds c).
Proof. apply NoDup_filter, NoDup_zrange. Qed.
Lemma sel_perm c done : NoDup done -> (forall a, In a done <-> In a acts) -> Permutation (sel c done) (adds c).
Proof. intros H1 H2. apply NoDup_Permutation; [now apply sel_NoDup|apply adds_NoDup|]. intros i. rewrite In_sel, In_adds. apply H2. Qed.
Lemma sel_cons c i c' done : sel c ((i, c') :: done) = if c' =? c then i :: sel c done else sel c done.
Proof. unfold sel. cbn [filter snd]. destruct (c' =? c); reflexivity. Qed.
Lemma sel_lt c i done : NoDup done -> (forall a, In a done -> In a acts) -> In (i, c) acts -> ~ In (i, c) done -> Zlen (sel c done) < Zlen (adds c).
Proof.
  intros H1 H2 H3 H4. assert (X : (length (i :: sel c done) <= length (adds c))%nat).
  { apply NoDup_incl_length; [constructor; [rewrite In_sel; auto|now apply sel_NoDup]|]. intros x [<-|Hx]; [now apply In_adds|]. apply In_adds, H2, In_sel, Hx. }
  cbn [length] in X. unfold Zlen. lia.
Qed.
Lemma loc_perm c l : 0 <= c < m -> Permutation l (adds c) -> Permutation (loc c) (cs c ++ l).
Proof.
  intros Hc P. apply NoDup_Permutation; [apply NoDup_filter, NoDup_zrange| |].
  - apply NoDup_app2; [now apply cs_NoDup|apply (Permutation_NoDup (Permutation_sym P)), adds_NoDup|]. intros x H1 H2. apply (Permutation_in _ P) in H2. apply filter_In in H2 as (_ & H2). apply andb_true_iff in H2 as (_ & H2). apply negb_true_iff in H2. apply has_In in H1. congruence.
  - intros x. unfold loc. rewrite filter_In, In_zrange, orb_true_iff, in_app_iff. split.
    + intros (H & [E|E]); [left; now apply has_In|]. destruct (has c x) eqn:E'; [left; now apply has_In|]. right. apply (Permutation_in _ (Permutation_sym P)). apply filter_In. rewrite In_zrange, E, E'. auto.
    + intros [H|H]; [split; [eapply sp_range; eauto|left; now apply has_In]|]. apply (Permutation_in _ P) in H. apply filter_In in H as (H1 & H2). apply In_zrange in H1. apply andb_true_iff in H2 as (H2 & _). auto.
Qed.
Lemma loc_len c : 0 <= c < m -> Zlen (loc c) = Zlen (cs c) + Zlen (adds c).
Proof. intros Hc. rewrite (Zlen_perm _ _ (loc_perm c _ Hc (Permutation_refl _))), Zlen_app. reflexivity. Qed.
Lemma seg_sorted c l : 0 <= c < m -> Permutation l (adds c) -> zsort (cs c ++ l) = loc c.
Proof. intros Hc P. apply mono_unique; [apply zsort_mono|apply filter_mono, zrange_mono|]. rewrite zsort_perm. symmetry. now apply loc_perm. Qed.
Lemma fin_len c : 0 <= c < m -> Zlen (fin c) = Zlen (cs c) + Zlen (adds c) + Zlen (hs c).
Proof. intros Hc. unfold fin. rewrite Zlen_app, loc_len by auto. lia. Qed.
Lemma loc_sorted c : ssortedZ (loc c).
Proof. apply ssorted_filter, ssorted_zrange. Qed.
Lemma loc_In c x : 0 <= c < m -> In x (loc c) <-> entry lrows c x \/ entry lrows x c.
Proof.
  intros Hc. unfold loc. rewrite filter_In, In_zrange, orb_true_iff, !has_In, !has_entry. split; [tauto|]. intros [H|H].
  - split; auto. apply has_entry in H. eapply sp_range; eauto.
  - split; auto. destruct (Z_lt_ge_dec x 0) as [Hx|Hx]; [|destruct (Z_lt_ge_dec x m); [lia|]]; destruct H as (v & H); exfalso; unfold nthl in H; rewrite get_out in H by (rewrite ?sp_m; lia); destruct H.
Qed.

(** *** The phases *)
Variables (T : Z) (sch : nat -> list nat).
Hypothesis HT : 1 <= T.
Let ts := simple_rows m T.
Lemma sp_ts : concat ts = zrange 0 m.
Proof. apply simple_rows_ok; auto. apply Zlen_nonneg. Qed.

Lemma phase0 junk : Zlen junk = m + 1 -> exists rp1, (rp0 <- set junk 0 0 ;; par (sch 0%nat) (fun i w => b <- get (rowptr A) (i + 1) ;; a <- get (rowptr A) i ;; set w (i + 1) (b - a)) ts rp0) = Some rp1 /\
  Zlen rp1 = m + 1 /\ get rp1 0 = Some 0 /\ forall i, 0 <= i < m -> get rp1 (i + 1) = Some (Zlen (nthl rows i)).
Proof.
  intros HJ. pose proof (Zlen_nonneg rows). destruct (set_ok junk 0 0 ltac:(lia)) as (rp0 & E0). rewrite E0.
  destruct (par_order_inv (fun done w => Zlen w = m + 1 /\ get w 0 = Some 0 /\ forall i, In i done -> get w (i + 1) = Some (Zlen (nthl rows i))) (sch 0%nat) (fun i w => b <- get (rowptr A) (i + 1) ;; a <- get (rowptr A) i ;; set w (i + 1) (b - a)) ts 0 m rp0) as (w & done & E & (L & Z0 & F) & D).
  - apply sp_ts.
  - split; [erewrite set_len by eassumption; auto|]. split; [eapply get_set_same; eauto|intros i []].
  - intros done i w Hi Hn Hd (L & Z0 & F). rewrite !sp_rowptr by lia. rewrite off_S by lia. destruct (set_ok w (i + 1) (off (nthl rows) i + Zlen (nthl rows i) - off (nthl rows) i) ltac:(lia)) as (w' & E). rewrite E. exists w'. split; auto.
    split; [erewrite set_len by eassumption; auto|]. split; [erewrite get_set_other by (eauto; lia); auto|]. intros j [<-|Hj]; [erewrite get_set_same by eassumption; f_equal; lia|]. erewrite get_set_other; [now apply F|eassumption|]. intros X. apply Hn. replace i with j by lia. auto.
  - exists w. rewrite E. repeat split; auto. intros i Hi. apply F. now apply D.
Qed.

Let ats := map (fun rs => concat (map (fun i => map (pair i) (miss i)) rs)) ts.
Lemma concat_concat_map {X Y} (f : X -> list Y) ls : concat (map (fun l => concat (map f l)) ls) = concat (map f (concat ls)).
Proof. induction ls as [|l ls IH]; auto. cbn [map concat]. rewrite map_app, concat_app. now f_equal. Qed.
Lemma ats_concat : concat ats = acts.
Proof. unfold ats. rewrite concat_concat_map, sp_ts. reflexivity. Qed.
Lemma ats_ok : mapM (fun rs => ls <- mapM (unmatched A 0) rs ;; Some (concat ls)) ts = Some ats.
Proof.
  apply mapM_Some. intros rs Hrs. rewrite (mapM_Some _ (fun i => map (pair i) (miss i))); [reflexivity|]. intros i Hi. apply unmatched_ok. apply In_zrange. rewrite <- sp_ts. apply in_concat. eauto.
Qed.
Lemma par_acts {S} (I : list (Z * Z) -> S -> Prop) k (f : Z * Z -> S -> option S) s : I [] s ->
  (forall done i c s, In (i, c) acts -> ~ In (i, c) done -> NoDup done -> (forall a, In a done -> In a acts) -> I done s -> exists s', f (i, c) s = Some s' /\ I ((i, c) :: done) s') ->
  exists s' done, par (sch k) f ats s = Some s' /\ NoDup done /\ (forall a, In a done <-> In a acts) /\ I done s'.
Proof.
  intros H0 Hstep. assert (P : Permutation (merge (sch k) ats) acts) by (rewrite <- ats_concat; apply merge_perm).
  destruct (order_inv (fun done s => NoDup done /\ I done s) f (merge (sch k) ats) s) as (s' & done & E & (N & HI) & D).
  - apply (Permutation_NoDup (Permutation_sym P)), acts_NoDup.
  - split; auto. constructor.
  - intros done (i & c) s0 Ha Hn Hd (N & HI). destruct (Hstep done i c s0) as (s1 & E1 & I1); auto.
    + now apply (Permutation_in _ P).
    + intros a Ha'. apply (Permutation_in _ P). auto.
    + exists s1. split; auto. split; auto. constructor; auto.
  - exists s', done. repeat split; auto; intros Ha; [apply (Permutation_in _ P), D, Ha|apply D, (Permutation_in _ (Permutation_sym P)), Ha].
Qed.

Lemma phase1 rp1 : Zlen rp1 = m + 1 -> get rp1 0 = Some 0 -> (forall i, 0 <= i < m -> get rp1 (i + 1) = Some (Zlen (nthl rows i))) ->
  exists rp2, par (sch 1%nat) (count_act 0) ats rp1 = Some rp2 /\ Zlen rp2 = m + 1 /\ get rp2 0 = Some 0 /\ forall i, 0 <= i < m -> get rp2 (i + 1) = Some (Zlen (fin i)).
Proof.
  intros L Z0 F.
  destruct (par_acts (fun done w => Zlen w = m + 1 /\ get w 0 = Some 0 /\ forall i, 0 <= i < m -> get w (i + 1) = Some (Zlen (nthl rows i) + Zlen (sel i done))) 1%nat (count_act 0) rp1) as (rp2 & done & E & N & D & L2 & Z2 & F2).
  - repeat split; auto. intros i Hi. change (Zlen (sel i [])) with 0. rewrite Z.add_0_r. auto.
  - intros done i c w Ha Hn Nd Hd (L1 & Z1 & F1). pose proof (acts_c i c Ha) as Hc. unfold count_act. cbn [snd]. rewrite Z.sub_0_r. rewrite F1 by auto.
    destruct (set_ok w (c + 1) (Zlen (nthl rows c) + Zlen (sel c done) + 1) ltac:(lia)) as (w' & E). rewrite E. exists w'. split; auto.
    split; [erewrite set_len by eassumption; auto|]. split; [erewrite get_set_other by (eauto; lia); auto|]. intros j Hj. rewrite (get_set _ _ _ _ _ E), sel_cons. destruct (c =? j) eqn:Ej.
    + apply Z.eqb_eq in Ej. subst j. rewrite Z.eqb_refl, Zlen_cons. f_equal. lia.
    + replace (j + 1 =? c + 1) with false by lia. auto.
  - exists rp2. repeat split; auto. intros i Hi. rewrite F2 by auto. f_equal. rewrite fin_len, sp_len by auto. rewrite (Zlen_perm _ _ (sel_perm i done N D)). lia.
Qed.

Lemma phase2 rp2 : Zlen rp2 = m + 1 -> get rp2 0 = Some 0 -> (forall i, 0 <= i < m -> get rp2 (i + 1) = Some (Zlen (fin i))) ->
  exists rp, foldM (fun i w => b <- get w (i + 1) ;; a <- get w i ;; set w (i + 1) (b + a)) (zrange 0 m) rp2 = Some rp /\ Zlen rp = m + 1 /\ forall i, 0 <= i <= m -> get rp i = Some (off fin i).
Proof.
  intros L Z0 F.
  enough (G : forall k, 0 <= k -> k <= m -> exists rp, foldM (fun i w => b <- get w (i + 1) ;; a <- get w i ;; set w (i + 1) (b + a)) (zrange 0 k) rp2 = Some rp /\ Zlen rp = m + 1 /\ (forall i, 0 <= i <= k -> get rp i = Some (off fin i)) /\ forall i, k <= i < m -> get rp (i + 1) = Some (Zlen (fin i))).
  { destruct (G m) as (rp & E & L' & F' & _); [apply Zlen_nonneg|lia|]. eauto. }
  intros k Hk. pattern k. revert k Hk. apply Z_ind0.
  - intros _. exists rp2. rewrite zrange_nil by lia. cbn [foldM]. repeat split; auto. intros i Hi. replace i with 0 by lia. rewrite off_0. auto.
  - intros k Hk IH Hm. destruct IH as (rp & E & L1 & F1 & F2); [lia|]. rewrite zrange_snoc by lia. rewrite foldM_app, E. cbn [foldM]. rewrite F2, F1 by lia.
    destruct (set_ok rp (k + 1) (Zlen (fin k) + off fin k) ltac:(lia)) as (rp' & E'). rewrite E'. exists rp'. split; auto. split; [erewrite set_len by eassumption; auto|]. split.
    + intros i Hi. rewrite (get_set _ _ _ _ _ E'). destruct (i =? k + 1) eqn:Ei; [|apply F1; lia]. apply Z.eqb_eq in Ei. subst i. rewrite off_S by lia. f_equal. lia.
    + intros i Hi. rewrite (get_set _ _ _ _ _ E'). replace (i + 1 =? k + 1) with false by lia. apply F2. lia.
Qed.

Section Phases.
Variable rp : list Z.
Hypothesis Hrp : forall i, 0 <= i <= m -> get rp i = Some (off fin i).
Lemma fin_bounds i : 0 <= i < m -> 0 <= off fin i /\ off fin i + Zlen (fin i) <= off fin m.
Proof. intros Hi. split; [apply off_nonneg|]. rewrite <- off_S by lia. apply off_mono. lia. Qed.
Lemma fin_out i j k : 0 <= i -> 0 <= j -> i <> j -> 0 <= k < Zlen (fin j) -> off fin j + k < off fin i \/ off fin i + Zlen (fin i) <= off fin j + k.
Proof.
  intros Hi Hj N Hk. rewrite <- off_S by lia. destruct (Z_lt_ge_dec j i).
  - left. assert (off fin (j + 1) <= off fin i) by (apply off_mono; lia). rewrite off_S in H by lia. lia.
  - right. assert (off fin (i + 1) <= off fin j) by (apply off_mono; lia). lia.
Qed.

Lemma phase3 cnts cols : Zlen cnts = m -> Zlen cols = off fin m ->
  exists cnts1 cols1, par (sch 2%nat) (forward_row A 0 rp) ts (cnts, cols) = Some (cnts1, cols1) /\ Zlen cnts1 = m /\ Zlen cols1 = off fin m /\
    forall i, 0 <= i < m -> get cnts1 i = Some (Zlen (cs i)) /\ forall k, 0 <= k < Zlen (cs i) -> get cols1 (off fin i + k) = get (cs i) k.
Proof.
  intros L1 L2.
  destruct (par_order_inv (fun done s => Zlen (fst s) = m /\ Zlen (snd s) = off fin m /\ forall i, In i done -> 0 <= i < m -> get (fst s) i = Some (Zlen (cs i)) /\ forall k, 0 <= k < Zlen (cs i) -> get (snd s) (off fin i + k) = get (cs i) k)
    (sch 2%nat) (forward_row A 0 rp) ts 0 m (cnts, cols)) as ((c1 & l1) & done & E & (I1 & I2 & I3) & D).
  - apply sp_ts.
  - cbn [fst snd]. split; [auto|]. split; [auto|]. intros i [].
  - intros done i (c0 & l0) Hi Hn Hd (I1 & I2 & I3). cbn [fst snd] in *. unfold forward_row. rewrite sp_rowptr, sp_ext, Hrp by lia. rewrite !Z.sub_0_r, Z.add_0_r.
    destruct (set_ok c0 i (off (nthl rows) i + Zlen (cs i) - off (nthl rows) i) ltac:(lia)) as (c' & Ec). rewrite Ec.
    destruct (sp_bounds i Hi). pose proof (sp_len i Hi). pose proof (Zlen_nonneg (cs i)). pose proof (Zlen_nonneg (hs i)). pose proof (Zlen_nonneg (adds i)). destruct (fin_bounds i Hi) as (B1 & B2). rewrite fin_len in B2 by auto.
    rewrite csub_ok by lia. rewrite sp_local by auto.
    destruct (store_ok (cs i) (off fin i) l0) as (l' & El & Ll & F1 & F2); [lia|lia|]. rewrite El. exists (c', l'). split; auto. cbn [fst snd].
    split; [erewrite set_len by eassumption; auto|]. split; [lia|]. intros j [<-|Hj] Hjm.
    + split; [erewrite get_set_same by eassumption; f_equal; lia|auto].
    + assert (N : i <> j) by congruence. destruct (I3 j Hj Hjm) as (G1 & G2). split; [erewrite get_set_other by (eauto; lia); auto|]. intros k Hk. pose proof (Zlen_nonneg (adds j)). pose proof (Zlen_nonneg (hs j)). rewrite F2; [auto|]. destruct (fin_out i j k) as [X|X]; try lia; [rewrite fin_len by auto; lia|]. rewrite fin_len in X by auto. lia.
  - exists c1, l1. cbn [fst snd] in *. split; auto. split; auto. split; auto. intros i Hi. apply I3; auto. now apply D.
Qed.

Lemma phase4 cnts1 cols1 : Zlen cnts1 = m -> Zlen cols1 = off fin m ->
  (forall i, 0 <= i < m -> get cnts1 i = Some (Zlen (cs i)) /\ forall k, 0 <= k < Zlen (cs i) -> get cols1 (off fin i + k) = get (cs i) k) ->
  exists cnts2 cols2, par (sch 3%nat) (backward_act 0 rp) ats (cnts1, cols1) = Some (cnts2, cols2) /\ Zlen cnts2 = m /\ Zlen cols2 = off fin m /\
    forall i, 0 <= i < m -> exists l, Permutation l (adds i) /\ get cnts2 i = Some (Zlen (loc i)) /\ forall k, 0 <= k < Zlen (loc i) -> get cols2 (off fin i + k) = get (cs i ++ l) k.
Proof.
  intros L1 L2 F.
  destruct (par_acts (fun done s => Zlen (fst s) = m /\ Zlen (snd s) = off fin m /\ forall i, 0 <= i < m -> get (fst s) i = Some (Zlen (cs i) + Zlen (sel i done)) /\
     forall k, 0 <= k < Zlen (cs i) + Zlen (sel i done) -> get (snd s) (off fin i + k) = get (cs i ++ rev (sel i done)) k) 3%nat (backward_act 0 rp) (cnts1, cols1)) as ((c2 & l2) & done & E & N & D & I1 & I2 & I3).
  - cbn [fst snd]. repeat split; auto; change (Zlen (sel i [])) with 0; rewrite Z.add_0_r; [apply F; auto|]. change (rev (sel i [])) with (@nil Z). rewrite app_nil_r. now apply F.
  - intros done i c (c0 & l0) Ha Hn Nd Hd (I1 & I2 & I3). cbn [fst snd] in *. pose proof (acts_c i c Ha) as Hc. destruct (I3 c Hc) as (G1 & G2).
    unfold backward_act. rewrite Z.sub_0_r, G1, Hrp by lia. rewrite Z.sub_0_r. set (x := Zlen (cs c) + Zlen (sel c done)) in *.
    destruct (set_ok c0 c (x + 1) ltac:(lia)) as (c' & Ec). rewrite Ec.
    pose proof (sel_lt c i done Nd Hd Ha Hn). pose proof (Zlen_nonneg (cs c)). pose proof (Zlen_nonneg (hs c)). pose proof (Zlen_nonneg (sel c done)). destruct (fin_bounds c Hc) as (B1 & B2). rewrite fin_len in B2 by auto.
    destruct (set_ok l0 (off fin c + x) i ltac:(lia)) as (l' & El). rewrite El. exists (c', l'). split; auto. cbn [fst snd].
    split; [erewrite set_len by eassumption; auto|]. split; [erewrite set_len by eassumption; auto|]. intros j Hj. rewrite sel_cons. destruct (c =? j) eqn:Ej.
    + apply Z.eqb_eq in Ej. subst j. rewrite Zlen_cons. split; [erewrite get_set_same by eassumption; f_equal; lia|]. intros k Hk. cbn [rev]. rewrite app_assoc. rewrite (get_set _ _ _ _ _ El).
      assert (Lr : Zlen (cs c ++ rev (sel c done)) = x). { rewrite Zlen_app. unfold x. unfold Zlen. now rewrite rev_length. }
      destruct (Z.eq_dec k x) as [->|Nk].
      * rewrite Z.eqb_refl. rewrite get_app_r by lia. rewrite Lr, Z.sub_diag. reflexivity.
      * replace (off fin c + k =? off fin c + x) with false by lia. rewrite get_app_l by lia. apply G2. lia.
    + assert (Nj : c <> j) by lia. destruct (I3 j Hj) as (G3 & G4). split; [erewrite get_set_other by (eauto; lia); auto|]. intros k Hk. erewrite get_set_other; [now apply G4|eassumption|].
      assert (Zlen (sel j done) <= Zlen (adds j)). { unfold Zlen. apply inj_le. apply NoDup_incl_length; [now apply sel_NoDup|]. intros y Hy. apply In_adds, Hd, In_sel, Hy. }
      pose proof (Zlen_nonneg (hs j)). destruct (fin_out c j k) as [X|X]; try lia; [rewrite fin_len by auto; lia|]. rewrite fin_len in X by auto. lia.
  - exists c2, l2. cbn [fst snd] in *. split; auto. split; auto. split; auto. intros i Hi. destruct (I3 i Hi) as (G1 & G2). exists (rev (sel i done)).
    pose proof (sel_perm i done N D) as P. rewrite (Zlen_perm _ _ P), <- loc_len in G1, G2 by auto. repeat split; auto. rewrite <- P. symmetry. apply Permutation_rev.
Qed.

Lemma scan_dp i cols d : 0 <= i < m -> (forall k, 0 <= k < Zlen (fin i) -> get cols (off fin i + k) = get (fin i) k) -> i < Zlen d ->
  exists d', foldM (fun j d => c <- get cols (j - 0) ;; if c =? i then set d i j else Some d) (zrange (off fin i) (off fin (i + 1))) d = Some d' /\ Zlen d' = Zlen d /\
    (forall j, j <> i -> get d' j = get d j) /\ forall k, get (loc i) k = Some i -> get d' i = Some (off fin i + k).
Proof.
  intros Hi Hc Hd. rewrite off_S by lia. assert (U : forall k k', get (fin i) k = Some i -> get (fin i) k' = Some i -> k = k' /\ get (loc i) k = Some i).
  { assert (X : forall k, get (fin i) k = Some i -> get (loc i) k = Some i). { intros k Hk. unfold fin in Hk. destruct (Z_lt_ge_dec k (Zlen (loc i))); [now rewrite get_app_l in Hk by lia|]. rewrite get_app_r in Hk by lia. apply get_In in Hk. apply sp_halo in Hk; lia. }
    intros k k' H1 H2. split; [|auto]. apply X in H1, H2. apply (ssorted_inj _ _ _ _ (loc_sorted i) H1 H2). }
  enough (G : forall K, 0 <= K -> K <= Zlen (fin i) -> exists d', foldM (fun j d => c <- get cols (j - 0) ;; if c =? i then set d i j else Some d) (zrange (off fin i) (off fin i + K)) d = Some d' /\ Zlen d' = Zlen d /\
    (forall j, j <> i -> get d' j = get d j) /\ forall k, k < K -> get (fin i) k = Some i -> get d' i = Some (off fin i + k)).
  { destruct (G (Zlen (fin i))) as (d' & E & L & F1 & F2); [apply Zlen_nonneg|lia|]. exists d'. repeat split; auto. intros k Hk. pose proof (get_Some_bounds _ _ _ Hk) as B. apply F2; unfold fin; rewrite ?Zlen_app; [pose proof (Zlen_nonneg (hs i)); lia|]. rewrite get_app_l by lia. auto. }
  intros K HK. pattern K. revert K HK. apply Z_ind0.
  - intros _. exists d. rewrite zrange_nil by lia. cbn [foldM]. repeat split; auto. intros k Hk X. apply get_Some_bounds in X. lia.
  - intros K HK IH HL. destruct IH as (d1 & E & L & F1 & F2); [lia|]. rewrite Z.add_assoc. rewrite zrange_snoc by (pose proof (off_nonneg fin i); lia). rewrite foldM_app, E. cbn [foldM]. rewrite Z.sub_0_r, Hc by lia.
    destruct (get_in_range (fin i) K ltac:(lia)) as (x & Ex). rewrite Ex. destruct (x =? i) eqn:Exi.
    + apply Z.eqb_eq in Exi. subst x. destruct (set_ok d1 i (off fin i + K) ltac:(lia)) as (d2 & E2). rewrite E2. exists d2. split; auto. split; [erewrite set_len by eassumption; auto|]. split.
      * intros j Hj. erewrite get_set_other by (eauto; lia). auto.
      * intros k Hk Hg. erewrite get_set_same by eassumption. destruct (U _ _ Hg Ex) as (-> & _). reflexivity.
    + exists d1. repeat split; auto. intros k Hk Hg. apply F2; auto. destruct (Z.eq_dec k K) as [->|]; [|lia]. rewrite Ex in Hg. injection Hg as ->. lia.
Qed.

Lemma phase5 cnts2 cols2 ext dp : Zlen cols2 = off fin m -> Zlen dp = m + 1 -> match ext with Some e => Zlen e = m + 1 | None => True end ->
  (forall i, 0 <= i < m -> exists l, Permutation l (adds i) /\ get cnts2 i = Some (Zlen (loc i)) /\ forall k, 0 <= k < Zlen (loc i) -> get cols2 (off fin i + k) = get (cs i ++ l) k) ->
  exists cols ext' dp', par (sch 4%nat) (finish_row A 0 rp cnts2) ts (cols2, ext, dp) = Some (cols, ext', dp') /\
    cols = flat fin m /\ match ext, ext' with Some _, Some e => forall i, 0 <= i < m -> get e i = Some (off fin i + Zlen (loc i)) | None, None => True | _, _ => False end /\
    forall i k, 0 <= i < m -> get (loc i) k = Some i -> get dp' i = Some (off fin i + k).
Proof.
  intros L1 L2 L3 F.
  destruct (par_order_inv (fun done s => let '(cols, e, d) := s in Zlen cols = off fin m /\ Zlen d = m + 1 /\ match ext, e with Some _, Some e => Zlen e = m + 1 /\ forall i, In i done -> get e i = Some (off fin i + Zlen (loc i)) | None, None => True | _, _ => False end /\
     forall i, 0 <= i < m -> if in_dec Z.eq_dec i done then (forall k, 0 <= k < Zlen (fin i) -> get cols (off fin i + k) = get (fin i) k) /\ (forall k, get (loc i) k = Some i -> get d i = Some (off fin i + k))
       else forall k, 0 <= k < Zlen (loc i) -> get cols (off fin i + k) = get cols2 (off fin i + k))
    (sch 4%nat) (finish_row A 0 rp cnts2) ts 0 m (cols2, ext, dp)) as (((cols & e) & d) & done & E & (I1 & I2 & I3 & I4) & D).
  - apply sp_ts.
  - split; [auto|]. split; [auto|]. split; [destruct ext; auto; split; auto; intros i []|]. intros i Hi. destruct (in_dec Z.eq_dec i []) as [[]|_]. auto.
  - intros done i ((c0 & e0) & d0) Hi Hn Hd (I1 & I2 & I3 & I4). unfold finish_row. rewrite !Hrp by lia. rewrite !Z.add_0_r, !Z.sub_0_r.
    destruct (F i Hi) as (l & Pl & Gn & Gc). rewrite Gn. destruct (fin_bounds i Hi) as (B1 & B2). pose proof (Zlen_nonneg (loc i)). pose proof (Zlen_nonneg (hs i)). unfold fin in B2 at 2. rewrite Zlen_app in B2.
    destruct (sort_ok c0 (off fin i) (off fin i + Zlen (loc i))) as (c1 & E1 & Lc1 & S1 & S2); [lia|lia|]. rewrite E1.
    assert (X : slice c0 (off fin i) (off fin i + Zlen (loc i)) = cs i ++ l).
    { assert (Ll : Zlen (loc i) = Zlen (cs i ++ l)) by (apply Zlen_perm, loc_perm; auto).
      apply list_ext; [rewrite Zlen_slice by lia; lia|]. intros k Hk. rewrite Zlen_slice in Hk by lia. rewrite get_slice by lia. specialize (I4 i Hi). destruct (in_dec Z.eq_dec i done) as [|_]; [contradiction|]. rewrite I4 by lia. apply Gc. lia. }
    rewrite X, seg_sorted in S1 by auto.
    rewrite sp_ext, sp_rowptr by lia. rewrite !Z.sub_0_r, (off_S (nthl rows)) by lia. destruct (sp_bounds i Hi). pose proof (sp_len i Hi). pose proof (Zlen_nonneg (cs i)). rewrite csub_ok by lia. rewrite sp_remote by auto.
    destruct (store_ok (hs i) (off fin i + Zlen (loc i)) c1) as (c2 & E2 & Lc2 & S3 & S4); [lia|lia|]. rewrite E2.
    assert (Hfin : forall k, 0 <= k < Zlen (fin i) -> get c2 (off fin i + k) = get (fin i) k).
    { intros k Hk. unfold fin in Hk. unfold fin at 2. rewrite Zlen_app in Hk. destruct (Z_lt_ge_dec k (Zlen (loc i))).
      - rewrite S4 by lia. rewrite get_app_l by lia. rewrite S1 by lia. reflexivity.
      - rewrite get_app_r by lia. replace (off fin i + k) with (off fin i + Zlen (loc i) + (k - Zlen (loc i))) by lia. apply S3. lia. }
    destruct (scan_dp i c2 d0 Hi Hfin ltac:(lia)) as (d1 & E3 & Ld & S5 & S6).
    assert (Hfix : exists e1, match e0 with None => Some None | Some x => x' <- set x i (off fin i + Zlen (loc i)) ;; Some (Some x') end = Some e1 /\
      match ext, e1 with Some _, Some e => Zlen e = m + 1 /\ forall j, In j (i :: done) -> get e j = Some (off fin j + Zlen (loc j)) | None, None => True | _, _ => False end).
    { destruct ext as [ex|], e0 as [e0|]; try contradiction; [|exists None; auto]. destruct I3 as (I3 & I3'). destruct (set_ok e0 i (off fin i + Zlen (loc i)) ltac:(lia)) as (e1 & Ee). rewrite Ee. exists (Some e1). split; auto.
      split; [erewrite set_len by eassumption; auto|]. intros j [<-|Hj]; [eapply get_set_same; eauto|]. erewrite get_set_other; [now apply I3'|eassumption|congruence]. }
    destruct Hfix as (e1 & Ee & He1). rewrite Ee, E3. exists (c2, e1, d1). split; auto. split; [lia|]. split; [lia|]. split; auto.
    intros j Hj. specialize (I4 j Hj). destruct (Z.eq_dec i j) as [<-|Nij].
    + destruct (in_dec Z.eq_dec i (i :: done)) as [_|Y]; [split; auto|]. exfalso. apply Y. now left.
    + assert (Keep : forall k, 0 <= k < Zlen (fin j) -> get c2 (off fin j + k) = get c0 (off fin j + k)).
      { intros k Hk. assert (Lf : Zlen (fin i) = Zlen (loc i) + Zlen (hs i)) by (unfold fin; apply Zlen_app). destruct (fin_out i j k) as [Y|Y]; try lia; rewrite S4, S2; auto; lia. }
      destruct (in_dec Z.eq_dec j done) as [Y|Y], (in_dec Z.eq_dec j (i :: done)) as [Y'|Y']; try (exfalso; cbn in *; tauto).
      * destruct I4 as (G1 & G2). split; [intros k Hk; rewrite Keep; auto|]. intros k Hk. rewrite S5; auto.
      * intros k Hk. rewrite Keep; [auto|]. unfold fin. rewrite Zlen_app. pose proof (Zlen_nonneg (hs j)). lia.
  - exists cols, e, d. split; auto. split; [|split].
    + apply flat_intro; [apply Zlen_nonneg|auto|]. intros i k Hi Hk. specialize (I4 i Hi). destruct (in_dec Z.eq_dec i done) as [_|Y]; [now apply I4|]. exfalso. apply Y, D, Hi.
    + destruct ext, e; auto. intros i Hi. apply I3. now apply D.
    + intros i k Hi Hk. specialize (I4 i Hi). destruct (in_dec Z.eq_dec i done) as [_|Y]; [now apply I4|]. exfalso. apply Y, D, Hi.
Qed.
End Phases.

Lemma loc_union : union_pattern lrows (map loc (zrange 0 m)).
Proof.
  split; [rewrite Zlen_map, Zlen_zrange, sp_m; pose proof (Zlen_nonneg rows); lia|]. rewrite sp_m. intros i Hi.
  assert (E : nthl (map loc (zrange 0 m)) i = loc i). { apply nthl_get. rewrite get_map, get_zrange by lia. reflexivity. }
  rewrite E. split; [apply loc_sorted|]. intros c. now apply loc_In.
Qed.
Lemma acts_nil : acts = [] <-> symmetric_pattern lrows.
Proof.
  unfold symmetric_pattern. rewrite sp_m. split.
  - intros E i c Hi Hc. apply has_entry, has_In. apply has_entry, has_In in Hc. destruct (has c i) eqn:X; auto. exfalso. assert (Y : In (i, c) acts) by (apply In_acts; auto). rewrite E in Y. destruct Y.
  - intros H. destruct acts as [|(i & c) l] eqn:E; auto. exfalso. assert (Y : In (i, c) acts) by (rewrite E; now left). apply In_acts in Y as (Hi & H1 & H2). apply has_In, has_entry in H1. apply H in H1; auto. apply has_entry, has_In in H1. congruence.
Qed.

Theorem symmetrise_ok j : sym_junk_ok m j -> exists b r, getSymmetricNnzPattern A T sch j = Some (b, r) /\ (b = true <-> symmetric_pattern lrows) /\
  match r with None => b = true | Some a => b = false /\ exists ps, union_pattern lrows ps /\ sym_stored rows lrows ps (match extptr A with Some _ => true | None => false end) a end.
Proof.
  intros (J1 & J2 & J3 & J4 & J5). unfold getSymmetricNnzPattern. rewrite (rep_base hasv 0 n rows A HR).
  assert (Hm : cm A = m) by apply HR. rewrite Hm. fold ts. rewrite Z.sub_0_r.
  destruct (phase0 (j_rp j) J1) as (rp1 & E0 & L1 & Z1 & F1). destruct (set (j_rp j) 0 0) as [rp0|]; [|discriminate]. rewrite E0, ats_ok.
  destruct (phase1 rp1 L1 Z1 F1) as (rp2 & E1 & L2 & Z2 & F2). rewrite E1, ats_concat.
  destruct acts as [|a0 al] eqn:Ea.
  { exists true, None. split; auto. split; auto. rewrite <- acts_nil. tauto. }
  destruct (phase2 rp2 L2 Z2 F2) as (rp & E2 & L3 & F3). rewrite E2. rewrite F3 by (pose proof (Zlen_nonneg rows); lia).
  destruct (phase3 rp F3 (j_cnts j) (j_cols j (off fin m)) J5 (J2 _ (off_nonneg _ _))) as (c1 & l1 & E3 & L4 & L5 & F4). rewrite E3.
  destruct (phase4 rp F3 c1 l1 L4 L5 F4) as (c2 & l2 & E4 & L6 & L7 & F5). rewrite E4.
  destruct (phase5 rp F3 c2 l2 (option_map (fun _ => j_ext j) (extptr A)) (j_dp j) L7 J3 ltac:(destruct (extptr A); cbn; auto) F5) as (cols & ext & dp & E5 & F6 & F7 & F8). rewrite E5.
  exists false, (Some (mkSymArrays rp cols ext dp)). split; auto. split. { rewrite <- acts_nil, Ea. split; discriminate. }
  split; auto. exists (map loc (zrange 0 m)). split; [apply loc_union|].
  assert (Hn : forall f i, 0 <= i < m -> nthl (map f (zrange 0 m)) i = f i :> list Z). { intros f i Hi. apply nthl_get. rewrite get_map, get_zrange by lia. reflexivity. }
  assert (Ho : forall i, 0 <= i <= m -> off (nthl (map fin (zrange 0 m))) i = off fin i). { intros i Hi. apply (off_ext _ _ m); [|lia]. intros k Hk. now rewrite Hn. }
  exists (map fin (zrange 0 m)). cbn [sy_rowptr sy_colidx sy_extptr sy_diagptr]. split; [rewrite Zlen_map, Zlen_zrange; pose proof (Zlen_nonneg rows); lia|]. split.
  { intros i Hi. exists (skipn (length (nthl lrows i)) (nthl rows i)). split; [apply sp_split; auto|]. rewrite !Hn by auto. reflexivity. }
  split; auto. split; [intros i Hi; rewrite Ho by auto; auto|]. split; [exact F6|]. split.
  { destruct ext as [e|], (extptr A) as [x|]; cbn [option_map] in F7; try contradiction; auto. split; auto. intros i Hi. rewrite Ho, Hn by lia. auto. }
  intros i Hi Hd. apply has_entry in Hd. assert (X : In i (loc i)). { unfold loc. apply filter_In. rewrite In_zrange. apply has_In in Hd. rewrite Hd. auto. }
  apply In_get in X as (k & _ & X). exists k. rewrite Hn, Ho by lia. auto.
Qed.
End Proof.

(** The pattern and the arrays are determined. *)
Lemma ssorted_unique l : forall l', ssortedZ l -> ssortedZ l' -> (forall x, In x l <-> In x l') -> l = l'.
Proof.
  intros l' H1 H2 H. apply mono_unique.
  - intros i j a b Hij X Y. destruct (Z.eq_dec i j) as [->|N]; [rewrite X in Y; injection Y; lia|]. pose proof (ssorted_get l i j a b H1 ltac:(lia) X Y). lia.
  - intros i j a b Hij X Y. destruct (Z.eq_dec i j) as [->|N]; [rewrite X in Y; injection Y; lia|]. pose proof (ssorted_get l' i j a b H2 ltac:(lia) X Y). lia.
  - apply NoDup_Permutation; auto using ssorted_NoDup'.
Qed.
Lemma union_unique {V} (lrows : rows_t V) ps ps' : union_pattern lrows ps -> union_pattern lrows ps' -> ps = ps'.
Proof.
  intros (L1 & H1) (L2 & H2). apply list_ext; [congruence|]. intros i Hi. rewrite !get_nthl by lia. f_equal. destruct (H1 i ltac:(lia)) as (S1 & I1), (H2 i ltac:(lia)) as (S2 & I2). apply ssorted_unique; auto. intros x. rewrite I1, I2. tauto.
Qed.
Lemma stored_unique {V} (rows lrows : rows_t V) ps he a a' : sym_stored rows lrows ps he a -> sym_stored rows lrows ps he a' ->
  sy_rowptr a = sy_rowptr a' /\ sy_colidx a = sy_colidx a' /\ match sy_extptr a, sy_extptr a' with Some e, Some e' => forall i, 0 <= i < Zlen rows -> get e i = get e' i | None, None => True | _, _ => False end.
Proof.
  intros (f & L & H1 & H2 & H3 & H4 & H5 & _) (f' & L' & H1' & H2' & H3' & H4' & H5' & _).
  assert (f = f') as <-.
  { apply list_ext; [congruence|]. intros i Hi. rewrite !get_nthl by lia. f_equal. destruct (H1 i ltac:(lia)) as (h & E & ->), (H1' i ltac:(lia)) as (h' & E' & ->). rewrite E in E'. apply app_inv_head in E'. now subst. }
  split. { apply list_ext; [lia|]. intros i Hi. rewrite H3, H3' by lia. auto. } split; [congruence|].
  destruct (sy_extptr a), (sy_extptr a'); auto.
  - intros i Hi. destruct H5 as (_ & H5), H5' as (_ & H5'). rewrite H5, H5'; auto.
  - destruct H5 as (H5 & _). congruence.
  - destruct H5' as (H5' & _). congruence.
Qed.

Lemma determined {V} (rows lrows : rows_t V) ps ps' he a a' : union_pattern lrows ps -> union_pattern lrows ps' -> sym_stored rows lrows ps he a -> sym_stored rows lrows ps' he a' ->
  sy_rowptr a = sy_rowptr a' /\ sy_colidx a = sy_colidx a' /\ match sy_extptr a, sy_extptr a' with Some e, Some e' => forall i, 0 <= i < Zlen rows -> get e i = get e' i | None, None => True | _, _ => False end.
Proof. intros H1 H2. rewrite (union_unique _ _ _ H1 H2). apply stored_unique. Qed.

(** ** Worked cases *)
Definition uns_rows : rows_t Z := [[(0, 5); (1, 1); (2, 7); (4, 9)]; [(1, 5); (3, 8)]; [(1, 3); (2, 5)]].
Definition uns_lrows : rows_t Z := [[(0, 5); (1, 1); (2, 7)]; [(1, 5)]; [(1, 3); (2, 5)]].
Definition uns_A : csr Z := mkCSR 3 5 (rowptr_of 0 uns_rows) (colidx_of 0 uns_rows) (Some (values_of uns_rows)) None None None (Some [3; 5; 8]).
Definition uns_junk : sym_junk := mkSymJunk [9; 9; 9; 9] (fun n => map (fun _ => 7) (zrange 0 n)) [6; 6; 6; 6] [5; 5; 5; 5] [8; 8; 8].
Lemma uns_run : getSymmetricNnzPattern uns_A 2 (fun k => [0; 1; 1; 0]%nat) uns_junk =
  Some (false, Some (mkSymArrays [0; 4; 8; 11] [0; 1; 2; 4; 0; 1; 2; 3; 0; 1; 2] (Some [3; 7; 11; 5]) [0; 5; 10; 6])).
Proof. vm_compute. reflexivity. Qed.
Lemma uns_hyps : rep true 0 5 uns_rows uns_A /\ local_rows 0 uns_rows uns_A uns_lrows /\ halo_last uns_rows uns_lrows /\
  (forall i, 0 <= i < 3 -> ssortedZ (map fst (nthl uns_lrows i))) /\ (forall i c v, 0 <= i < 3 -> In (c, v) (nthl uns_lrows i) -> 0 <= c) /\ sym_junk_ok 3 uns_junk.
Proof.
  assert (C : forall i, 0 <= i < 3 -> i = 0 \/ i = 1 \/ i = 2) by lia.
  split; [repeat split|]. split. { split; [reflexivity|]. cbn [extptr uns_A]. split; [reflexivity|]. intros i Hi. destruct (C i Hi) as [->|[->| ->]]; [exists [(4, 9)]|exists [(3, 8)]|exists []]; split; reflexivity. }
  split. { intros i Hi. destruct (C i Hi) as [->|[->| ->]]; [exists [(4, 9)]|exists [(3, 8)]|exists []]; (split; [reflexivity|]); change (Zlen uns_rows) with 3; split; intros c v H; cbn in H; repeat destruct H as [H|H]; try injection H as <- <-; try contradiction; lia. }
  split. { intros i Hi. destruct (C i Hi) as [->|[->| ->]]; cbn; repeat constructor. }
  split. { intros i c v Hi H. destruct (C i Hi) as [->|[->| ->]]; cbn in H; repeat destruct H as [H|H]; try injection H as <- <-; try contradiction; lia. }
  repeat split. intros n Hn. cbn [j_cols uns_junk]. rewrite Zlen_map, Zlen_zrange. lia.
Qed.
(** With base 1 the row counters are written one place too far. *)
Lemma base1_run : getSymmetricNnzPattern (csr_of 1 2 [[(0, 5); (1, 1)]; [(1, 5)]]) 1 (fun _ => []) (mkSymJunk [9; 9; 9] (fun n => map (fun _ => 7) (zrange 0 n)) [6; 6; 6] [5; 5; 5] [8; 8]) = None.
Proof. vm_compute. reflexivity. Qed.
Lemma base1_refuted : exists (rows : rows_t Z) A T sch j, rep true 1 (Zlen rows) rows A /\ rows_ok (Zlen rows) rows /\ local_rows 1 rows A rows /\ (forall i, 0 <= i < Zlen rows -> ssortedZ (map fst (nthl rows i))) /\ sym_junk_ok (Zlen rows) j /\ 1 <= T /\
  getSymmetricNnzPattern A T sch j = None.
Proof.
  assert (C : forall i, 0 <= i < 2 -> i = 0 \/ i = 1) by lia.
  exists [[(0, 5); (1, 1)]; [(1, 5)]]. eexists _, _, _, _. split; [|split; [|split; [|split; [|split; [|split; [|exact base1_run]]]]]].
  - apply csr_of_rep.
  - intros r c v H1 H2. cbn in H1. repeat destruct H1 as [<-|H1]; try contradiction; cbn in H2; repeat destruct H2 as [H2|H2]; try injection H2 as <- <-; try contradiction; unfold Zlen; cbn; lia.
  - apply csr_of_local.
  - intros i Hi. change (0 <= i < 2) in Hi. destruct (C i Hi) as [->| ->]; cbn; repeat constructor.
  - repeat split. intros n Hn. cbn [j_cols]. rewrite Zlen_map, Zlen_zrange. lia.
  - lia.
Qed.
