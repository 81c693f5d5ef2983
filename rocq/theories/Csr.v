(** * Compressed sparse rows (/repo/CSR.hpp:37-75).

    The arrays of class CSR as lists; a NULL pointer is [None].  The functions of
    CSR.cpp shift the pointers by the index base ([rowptr - base] and so on) and
    then index from [base]; the models index the arrays themselves, that is,
    they write [i - base] where the code writes [i] after the shift. *)
From Verif Require Import Base Spec PrefixSum Flat.

Record csr (V : Type) := mkCSR {
  cm : Z;                        (* m *)
  cn : Z;                        (* n *)
  rowptr : list Z;
  colidx : list Z;
  values : option (list V);
  idiag : option (list V);
  diag : option (list V);
  diagptr : option (list Z);
  extptr : option (list Z) }.
Arguments mkCSR {V}. Arguments cm {V}. Arguments cn {V}. Arguments rowptr {V}. Arguments colidx {V}.
Arguments values {V}. Arguments idiag {V}. Arguments diag {V}. Arguments diagptr {V}. Arguments extptr {V}.

(** CSR.hpp:177 getBase *)
Definition getBase {V} (A : csr V) : option Z := get (rowptr A) 0.
(** CSR.hpp:176 getNnz *)
Definition getNnz {V} (A : csr V) : option Z :=
  e <- get (rowptr A) (cm A) ;; b <- getBase A ;; Some (e - b).

(** ** Specification side: a sparse matrix is the list of its rows *)

(** A row lists (column, value) with 0-based columns, in storage order. *)
Definition rows_t (V : Type) : Type := list (list (Z * V)).

Definition rowptr_of {V} (base : Z) (rows : rows_t V) : list Z :=
  map (fun i => base + off (nthl rows) i) (zrange 0 (Zlen rows + 1)).
Definition colidx_of {V} (base : Z) (rows : rows_t V) : list Z :=
  map (fun e => fst e + base) (concat rows).
Definition values_of {V} (rows : rows_t V) : list V := map snd (concat rows).

(** [A] stores [rows] with index base [base]; [hasv] tells whether the values
    are stored.  Nothing is said about the derived arrays. *)
Definition rep {V} (hasv : bool) (base n : Z) (rows : rows_t V) (A : csr V) : Prop :=
  cm A = Zlen rows /\ cn A = n /\ rowptr A = rowptr_of base rows /\
  colidx A = colidx_of base rows /\
  values A = (if hasv then Some (values_of rows) else None).

Definition rows_ok {V} (n : Z) (rows : rows_t V) : Prop :=
  forall r c v, In r rows -> In (c, v) r -> 0 <= c < n.

(** The conditions on the arrays themselves. *)
Definition csr_wf {V} (base : Z) (A : csr V) : Prop :=
  0 <= cm A /\ Zlen (rowptr A) = cm A + 1 /\
  get (rowptr A) 0 = Some base /\ monotone (rowptr A) /\
  get (rowptr A) (cm A) = Some (base + Zlen (colidx A)) /\
  (forall vs, values A = Some vs -> Zlen vs = Zlen (colidx A)).

(** ** Access to a represented matrix *)

Section Access.
Context {V : Type}.
Variables (base : Z) (rows : rows_t V).
Notation row i := (nthl rows i).

Lemma Zlen_rowptr_of : Zlen (rowptr_of base rows) = Zlen rows + 1.
Proof. unfold rowptr_of. rewrite Zlen_map, Zlen_zrange. pose proof (Zlen_nonneg rows). lia. Qed.

Lemma get_rowptr_of i : 0 <= i <= Zlen rows -> get (rowptr_of base rows) i = Some (base + off (nthl rows) i).
Proof. intros H. unfold rowptr_of. rewrite get_map, get_zrange by lia. reflexivity. Qed.

Lemma rowptr_of_monotone : monotone (rowptr_of base rows).
Proof.
  intros i j a b Hij Ha Hb.
  pose proof (get_Some_bounds _ _ _ Ha). pose proof (get_Some_bounds _ _ _ Hb). rewrite Zlen_rowptr_of in *.
  rewrite get_rowptr_of in Ha, Hb by lia. injection Ha as <-. injection Hb as <-.
  pose proof (off_mono (nthl rows) i j Hij). lia.
Qed.

Lemma Zlen_concat : Zlen (concat rows) = off (nthl rows) (Zlen rows).
Proof. rewrite concat_flat. apply Zlen_flat, Zlen_nonneg. Qed.

Lemma get_concat i k : 0 <= i < Zlen rows -> 0 <= k < Zlen (row i) ->
  get (concat rows) (off (nthl rows) i + k) = get (row i) k.
Proof. intros Hi Hk. rewrite concat_flat. now apply get_flat. Qed.

Lemma slice_concat i : 0 <= i < Zlen rows ->
  slice (concat rows) (off (nthl rows) i) (off (nthl rows) (i + 1)) = row i.
Proof. intros Hi. rewrite concat_flat. now apply slice_flat. Qed.

Lemma get_colidx_of i k c v : 0 <= i < Zlen rows -> get (row i) k = Some (c, v) ->
  get (colidx_of base rows) (off (nthl rows) i + k) = Some (c + base).
Proof.
  intros Hi E. unfold colidx_of. pose proof (get_Some_bounds _ _ _ E).
  now rewrite get_map, get_concat, E by auto.
Qed.

Lemma get_values_of i k c v : 0 <= i < Zlen rows -> get (row i) k = Some (c, v) ->
  get (values_of rows) (off (nthl rows) i + k) = Some v.
Proof.
  intros Hi E. unfold values_of. pose proof (get_Some_bounds _ _ _ E).
  now rewrite get_map, get_concat, E by auto.
Qed.

Lemma Zlen_colidx_of : Zlen (colidx_of base rows) = off (nthl rows) (Zlen rows).
Proof. unfold colidx_of. now rewrite Zlen_map, Zlen_concat. Qed.
Lemma Zlen_values_of : Zlen (values_of rows) = off (nthl rows) (Zlen rows).
Proof. unfold values_of. now rewrite Zlen_map, Zlen_concat. Qed.

Lemma nth_row_In i : 0 <= i < Zlen rows -> In (row i) rows.
Proof. intros H. apply (get_In _ i). now apply get_nthl. Qed.
End Access.

(** A loop over the positions of a list is a fold over the list. *)
Lemma forZ_list {A S} (l : list A) o (body : Z -> S -> option S) (g : A -> S -> option S) s :
  (forall k e s, get l k = Some e -> body (o + k) s = g e s) ->
  forZ o (o + Zlen l) body s = foldM g l s.
Proof.
  revert o s. induction l as [|a l IH]; intros o s H.
  - rewrite forZ_nil; auto. unfold Zlen; cbn; lia.
  - pose proof (Zlen_nonneg l). rewrite forZ_cons by (rewrite Zlen_cons; lia). cbn [foldM].
    rewrite <- (Z.add_0_r o) at 1. rewrite (H 0 a) by apply get_cons_0.
    destruct (g a s) as [s'|]; auto.
    replace (o + Zlen (a :: l)) with (o + 1 + Zlen l) by (rewrite Zlen_cons; lia).
    apply IH. intros k e s0 Ek. replace (o + 1 + k) with (o + (k + 1)) by lia. apply H.
    rewrite get_cons_S; auto. now apply get_Some_bounds in Ek.
Qed.

Lemma mapM_list {A B} (l : list A) o (body : Z -> option B) (g : A -> B) :
  (forall k e, get l k = Some e -> body (o + k) = Some (g e)) ->
  mapM body (zrange o (o + Zlen l)) = Some (map g l).
Proof.
  revert o. induction l as [|a l IH]; intros o H.
  - rewrite zrange_nil; auto. unfold Zlen; cbn; lia.
  - pose proof (Zlen_nonneg l). rewrite zrange_cons by (rewrite Zlen_cons; lia). cbn [mapM map].
    rewrite <- (Z.add_0_r o) at 1. rewrite (H 0 a) by apply get_cons_0.
    replace (o + Zlen (a :: l)) with (o + 1 + Zlen l) by (rewrite Zlen_cons; lia).
    rewrite IH; auto. intros k e Ek. replace (o + 1 + k) with (o + (k + 1)) by lia. apply H.
    rewrite get_cons_S; auto. now apply get_Some_bounds in Ek.
Qed.

(** ** Every well-formed CSR stores a list of rows *)

Definition row_of {V} (d : V) (A : csr V) (base lo hi : Z) : list (Z * V) :=
  map (fun j => (match get (colidx A) j with Some c => c - base | None => 0 end,
                 match values A with
                 | Some vs => match get vs j with Some v => v | None => d end
                 | None => d end))
      (zrange (lo - base) (hi - base)).

Lemma map_get_slice {A} (l : list A) (d : A) lo hi :
  0 <= lo <= hi -> hi <= Zlen l ->
  map (fun j => match get l j with Some c => c | None => d end) (zrange lo hi) = slice l lo hi.
Proof.
  intros H1 H2. apply list_ext.
  - rewrite Zlen_map, Zlen_zrange, Zlen_slice by lia. lia.
  - intros k Hk. rewrite Zlen_map, Zlen_zrange in Hk.
    rewrite get_map, get_zrange, get_slice by lia. cbn.
    destruct (get_in_range l (lo + k)) as (x & E); [lia|]. now rewrite E.
Qed.

Theorem csr_wf_rep {V} (d : V) base (A : csr V) :
  csr_wf base A ->
  exists rows, rep (match values A with Some _ => true | None => false end) base (cn A) rows A.
Proof.
  intros (Hm & Hl & H0 & Hmon & Hlast & Hv).
  set (P := fun i => match get (rowptr A) i with Some x => x | None => 0 end).
  assert (HP : forall i, 0 <= i <= cm A -> get (rowptr A) i = Some (P i)).
  { intros i Hi. unfold P. destruct (get_in_range (rowptr A) i) as (x & E); [lia|]. now rewrite E. }
  assert (HPm : forall i j, 0 <= i <= j -> j <= cm A -> P i <= P j).
  { intros i j Hi Hj. apply (Hmon i j); [lia| |]; apply HP; lia. }
  assert (P 0 = base) as HP0 by (rewrite HP in H0 by lia; congruence).
  assert (P (cm A) = base + Zlen (colidx A)) as HPn by (rewrite HP in Hlast by lia; congruence).
  set (rw := fun i => row_of d A base (P i) (P (i + 1))).
  set (rows := map rw (zrange 0 (cm A))).
  assert (Zlen rows = cm A) as HR by (unfold rows; rewrite Zlen_map, Zlen_zrange; lia).
  assert (Hrw : forall i, 0 <= i < cm A -> nthl rows i = rw i).
  { intros i Hi. apply nthl_get. unfold rows. rewrite get_map, get_zrange by lia. reflexivity. }
  assert (Hoff : forall i, 0 <= i -> i <= cm A -> off (nthl rows) i = P i - base).
  { apply (Z_ind0 (fun i => i <= cm A -> off (nthl rows) i = P i - base)).
    - intros _. rewrite off_0. lia.
    - intros i Hi IH Hle. rewrite off_S, IH, Hrw by lia. unfold rw, row_of.
      rewrite Zlen_map, Zlen_zrange. pose proof (HPm i (i + 1)). lia. }
  assert (Hcat : concat rows = map (fun j => (match get (colidx A) j with Some c => c - base | None => 0 end,
                 match values A with
                 | Some vs => match get vs j with Some v => v | None => d end
                 | None => d end)) (zrange 0 (Zlen (colidx A)))).
  { unfold rows, rw, row_of. rewrite <- (map_map (fun i => zrange (P i - base) (P (i + 1) - base))).
    rewrite <- concat_map. f_equal.
    rewrite (concat_zrange_tiling (fun i => P i - base)); try lia.
    - f_equal; lia.
    - intros i Hi. pose proof (HPm i (i + 1)). lia. }
  exists rows. split; [lia|]. split; auto. split; [|split].
  - apply list_ext.
    + rewrite Zlen_rowptr_of. lia.
    + intros i Hi. rewrite get_rowptr_of, HP, Hoff by lia. f_equal. lia.
  - unfold colidx_of. rewrite Hcat, map_map. cbn [fst]. symmetry.
    rewrite (map_ext_in _ (fun j => match get (colidx A) j with Some c => c | None => 0 end)).
    + rewrite map_get_slice, slice_full; auto; pose proof (Zlen_nonneg (colidx A)); lia.
    + intros j Hj. apply In_zrange in Hj. destruct (get_in_range (colidx A) j) as (x & E); [lia|].
      rewrite E. lia.
  - destruct (values A) as [vs|]; auto. f_equal. unfold values_of. rewrite Hcat, map_map. cbn [snd].
    rewrite <- (Hv vs eq_refl). rewrite map_get_slice, slice_full; auto; pose proof (Zlen_nonneg vs); lia.
Qed.

Theorem rep_csr_wf {V} hasv base n rows (A : csr V) : rep hasv base n rows A -> csr_wf base A.
Proof.
  intros (H1 & H2 & H3 & H4 & H5). pose proof (Zlen_nonneg rows). unfold csr_wf.
  rewrite H1, H3, H4, Zlen_rowptr_of, Zlen_colidx_of, !get_rowptr_of, off_0 by lia.
  split; auto. split; auto. split; [f_equal; lia|]. split; [apply rowptr_of_monotone|]. split; auto.
  intros vs E. rewrite H5 in E. destruct hasv; [|discriminate]. injection E as <-. apply Zlen_values_of.
Qed.

Example csr_case : csr_wf 1
  (mkCSR 3 3 [1; 3; 3; 5] [1; 3; 2; 1] (Some [10; 20; 30; 40]) None None None None)
  /\ rep true 1 3 [[(0, 10); (2, 20)]; []; [(1, 30); (0, 40)]]
  (mkCSR 3 3 [1; 3; 3; 5] [1; 3; 2; 1] (Some [10; 20; 30; 40]) None None None None).
Proof.
  assert (R : rep true 1 3 [[(0, 10); (2, 20)]; []; [(1, 30); (0, 40)]]
  (mkCSR 3 3 [1; 3; 3; 5] [1; 3; 2; 1] (Some [10; 20; 30; 40]) None None None None))
    by (repeat split).
  split; auto. eapply rep_csr_wf; eauto.
Qed.

(** ** Entries *)

(** All stored entries, as (row, (column, value)), in storage order. *)
Definition entries {V} (rows : rows_t V) : list (Z * (Z * V)) :=
  concat (map (fun i => map (fun e => (i, e)) (nthl rows i)) (zrange 0 (Zlen rows))).

(** Columns in non-decreasing order. *)
Definition row_sorted {V} (r : list (Z * V)) : Prop := sortedZ (map fst r).
Definition rows_sorted {V} (rows : rows_t V) : Prop := forall r, In r rows -> row_sorted r.

Lemma In_entries {V} (rows : rows_t V) i e :
  In (i, e) (entries rows) <-> 0 <= i < Zlen rows /\ In e (nthl rows i).
Proof.
  unfold entries. rewrite in_concat. split.
  - intros (l & Hl & He). apply in_map_iff in Hl as (i' & <- & Hi). apply In_zrange in Hi.
    apply in_map_iff in He as (e' & E & He). injection E as -> ->. auto.
  - intros [Hi He]. exists (map (fun e => (i, e)) (nthl rows i)). split.
    + apply (in_map (fun i => map (fun e => (i, e)) (nthl rows i))). now apply In_zrange.
    + now apply in_map.
Qed.

Lemma map_snd_entries {V} (rows : rows_t V) : map snd (entries rows) = concat rows.
Proof.
  unfold entries. rewrite concat_map, map_map, (concat_flat rows). unfold flat. f_equal.
  apply map_ext. intros i. rewrite map_map. apply map_id.
Qed.

Lemma rows_ext {V} (r1 r2 : rows_t V) : Zlen r1 = Zlen r2 ->
  (forall i, 0 <= i < Zlen r1 -> nthl r1 i = nthl r2 i) -> r1 = r2.
Proof.
  intros L H. apply list_ext; auto. intros i Hi. rewrite !get_nthl by lia. f_equal. auto.
Qed.
