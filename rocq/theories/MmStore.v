(** * Writing Matrix Market files, and building a matrix from one
    (CSR.cpp:276-304, COO.cpp:53-74, mm_io.cpp:704-760, CSR.cpp:101-125). *)
From Coq Require Import Permutation String.
From Verif Require Import Base Spec Flat Csr CsrOps Transpose Coo MmText MmIo MmLoad.
Open Scope Z_scope.

(** ** Model *)

Section Model.
Context {V : Type}.
(** "%20.16g" *)
Variable pr_v : V -> list Z.

(** The line "%d %d %20.16g" *)
Definition entry_line (x y : Z) (v : V) : list Z := pr_int x ++ [32] ++ pr_int y ++ [32] ++ pr_v v ++ [NL].
(** The banner line and the line of sizes (CSR.cpp:283-294, mm_io.cpp:727-735). *)
Definition file_head (t : typecode) (m n nnz : Z) : option (list Z) :=
  s <- mm_typecode_to_str t ;; w <- s ;;
  Some ((sBanner ++ [32] ++ w ++ [NL]) ++ pr_int m ++ [32] ++ pr_int n ++ [32] ++ pr_int nnz ++ [NL]).
(** mm_initialize_typecode, mm_set_matrix, mm_set_sparse, mm_set_real *)
Definition sparse_real : typecode := mkTC cM cC cR (tsym clear_typecode).

(** CSR.cpp:276-304; the text written. *)
Definition csr_store (A : csr V) : option (list Z) :=
  base <- getBase A ;;
  e <- get (rowptr A) (cm A) ;;
  h <- file_head sparse_real (cm A) (cn A) (e - base) ;;
  forZ 0 (cm A) (fun i out =>
    lo <- get (rowptr A) i ;; hi <- get (rowptr A) (i + 1) ;;
    forZ (lo - base) (hi - base) (fun j out =>
      c <- get (colidx A) j ;; vs <- values A ;; v <- get vs j ;;
      Some (out ++ entry_line (i + 1) (c - base + 1) v)) out) h.

(** mm_io.cpp:704-760: the return code and the text. *)
Definition mm_write_mtx_crd (M N nz : Z) (I J : list Z) (val : list V) (t : typecode) : option (Z * list Z) :=
  h <- file_head t M N nz ;;
  if tdata t =? cP then
    out <- forZ 0 nz (fun i out => x <- get I i ;; y <- get J i ;; Some (out ++ pr_int x ++ [32] ++ pr_int y ++ [NL])) h ;; Some (0, out)
  else if tdata t =? cR then
    out <- forZ 0 nz (fun i out => x <- get I i ;; y <- get J i ;; v <- get val i ;; Some (out ++ entry_line x y v)) h ;; Some (0, out)
  else if tdata t =? cC then
    out <- forZ 0 nz (fun i out => x <- get I i ;; y <- get J i ;; v <- get val (2 * i) ;; w <- get val (2 * i + 1) ;;
      Some (out ++ pr_int x ++ [32] ++ pr_int y ++ [32] ++ pr_v v ++ [32] ++ pr_v w ++ [NL])) h ;; Some (0, out)
  else Some (MM_UNSUPPORTED_TYPE, h).
(** COO.cpp:53-74.  The file is opened here once more, and this second handle is
    never used nor closed. *)
Definition coo_store (C : coo V) : option (Z * list Z) := mm_write_mtx_crd (om C) (on C) (onnz C) (orow C) (ocol C) (oval C) sparse_real.

Variables (scan_g : list Z -> option (V * list Z)) (of_ll : Z -> V) (one : V) (recip : V -> V).

(** CSR.cpp:52-74: the arrays of a fresh matrix hold what [ji] and [jd] say. *)
Definition csr_alloc (ji : nat -> Z -> list Z) (jd : nat -> Z -> list V) (m nnz n0 : Z) : csr V :=
  mkCSR m n0 (ji 0%nat (m + 1)) (ji 1%nat nnz) (Some (jd 0%nat nnz)) (Some (jd 1%nat m)) (Some (jd 2%nat m)) (Some (ji 2%nat m)) None.
(** CSR.cpp:117-123, for the name of a Matrix Market file.  When the file cannot
    be loaded the sizes of [Acoo] are not initialised. *)
Definition csr_from_file (fuel : nat) (sch1 : list nat) (sch : nat -> list nat) (j : mm_junk V) (ji : nat -> Z -> list Z) (jd : nat -> Z -> list V) (n0 : Z)
    (file : list Z) (base : Z) (force : bool) (pad : Z) : option (csr V) :=
  ' (_, C) <- loadMatrixMarket scan_g of_ll one fuel sch1 j file false force pad ;;
  C <- C ;;
  dcoo2csr recip sch (csr_alloc ji jd (om C) (onnz C) n0) C base true.
End Model.

(** ** Specification *)

Definition junk_sizes {V} (ji : nat -> Z -> list Z) (jd : nat -> Z -> list V) : Prop := forall k z, 0 <= z -> Zlen (ji k z) = z /\ Zlen (jd k z) = z.
(** Both matrices have the same entries, up to a relation of the values. *)
Definition rows_rel {V W} (P : V -> W -> Prop) : rows_t V -> rows_t W -> Prop := Forall2 (Forall2 (fun e e' => fst e = fst e' /\ P (snd e) (snd e'))).
(** The printed text of [v] is white space and a number that is read as [u]. *)
Definition rereads {V} (pr_v : V -> list Z) (scan_g : list Z -> option (V * list Z)) (v u : V) : Prop :=
  exists w t, pr_v v = w ++ t /\ all_ws w /\ number_text scan_g u t.
(** Numbered from 1. *)
Definition from_one {V} (es : list (Z * (Z * V))) : list (Z * (Z * V)) := map (fun e => (fst e + 1, (fst (snd e) + 1, snd (snd e)))) es.

(** ** Proofs *)

Section Proofs.
Context {V : Type}.
Variable pr_v : V -> list Z.
Notation line e := (entry_line pr_v (fst e) (fst (snd e)) (snd (snd e))).

Lemma head_real m n nnz : file_head sparse_real m n nnz =
  Some ((str "%%MatrixMarket" ++ [32] ++ str "matrix" ++ [32] ++ str (format_word Coordinate) ++ [32] ++ str (data_word Real) ++ [32] ++ str (storage_word General)) ++ NL ::
        (pr_int m ++ [32] ++ pr_int n ++ [32] ++ pr_int nnz) ++ [NL]).
Proof. unfold file_head. change sparse_real with (code Coordinate Real General). rewrite code_to_str. f_equal. rewrite <- !app_assoc. reflexivity. Qed.

Lemma csr_store_ok base n rows (A : csr V) : rep true base n rows A -> exists h, file_head sparse_real (Zlen rows) n (Zlen (concat rows)) = Some h /\
  csr_store pr_v A = Some (h ++ concat (map (fun e => line e) (from_one (entries rows)))).
Proof.
  intros HR. pose proof (rep_nnz _ _ _ _ _ HR) as HN. unfold getNnz in HN. pose proof (rep_base _ _ _ _ _ HR) as HB. unfold csr_store. rewrite HB in *.
  destruct (get (rowptr A) (cm A)) as [e|]; [|discriminate]. assert (e - base = Zlen (concat rows)) as -> by congruence. pose proof HR as (E1 & E2 & _). rewrite E1, E2.
  destruct (file_head sparse_real (Zlen rows) n (Zlen (concat rows))) as [h|] eqn:Eh; [|rewrite head_real in Eh; discriminate]. exists h. split; auto.
  destruct (forZ_rule (fun i out => out = h ++ concat (map (fun e => line e) (from_one (concat (map (fun i => map (fun e => (i, e)) (nthl rows i)) (zrange 0 i)))))) 0 (Zlen rows) (fun i out =>
    lo <- get (rowptr A) i ;; hi <- get (rowptr A) (i + 1) ;;
    forZ (lo - base) (hi - base) (fun j out =>
      c <- get (colidx A) j ;; vs <- values A ;; v <- get vs j ;;
      Some (out ++ entry_line pr_v (i + 1) (c - base + 1) v)) out) h) as (s' & F & ->); auto using Zlen_nonneg.
  - rewrite zrange_nil by lia. cbn. now rewrite app_nil_r.
  - intros i s Hi ->. rewrite (rep_rowptr _ _ _ _ _ _ HR) by lia. rewrite (rep_rowptr_S _ _ _ _ _ _ HR) by lia.
    replace (base + off (nthl rows) i - base) with (off (nthl rows) i) by lia. replace (base + (off (nthl rows) i + Zlen (nthl rows i)) - base) with (off (nthl rows) i + Zlen (nthl rows i)) by lia.
    rewrite (forZ_list (nthl rows i) _ _ (fun e out => Some (out ++ entry_line pr_v (i + 1) (fst e + 1) (snd e)))).
    2: { intros k (c, v) s Hk. rewrite (rep_col _ _ _ _ _ i k c v HR Hi Hk). destruct (rep_val _ _ _ _ i k c v HR Hi Hk) as (vs & -> & ->). do 2 f_equal. cbn [fst snd]. f_equal. lia. }
    eexists. split.
    { assert (G : forall l s, foldM (fun (e : Z * V) out => Some (out ++ entry_line pr_v (i + 1) (fst e + 1) (snd e))) l s = Some (s ++ concat (map (fun e => entry_line pr_v (i + 1) (fst e + 1) (snd e)) l))).
      { induction l as [|a l IH]; intros s; cbn [foldM map concat]; [now rewrite app_nil_r|]. rewrite IH, <- app_assoc. reflexivity. }
      apply G. }
    rewrite zrange_snoc, map_app, concat_app by lia. unfold from_one. rewrite map_app, map_app, concat_app, <- app_assoc. do 2 f_equal. cbn [map concat]. rewrite app_nil_r, !map_map. cbn [fst snd]. reflexivity.
Qed.

Lemma coo_store_ok m n es (C : coo V) : coo_rep m n es C -> exists h, file_head sparse_real m n (Zlen es) = Some h /\
  coo_store pr_v C = Some (0, h ++ concat (map (fun e => line e) (from_one es))).
Proof.
  intros (H1 & H2 & H3 & H4 & H5 & H6). unfold coo_store, mm_write_mtx_crd. rewrite H1, H2, H3, H4, H5, H6. change (tdata sparse_real =? cP) with false. change (tdata sparse_real =? cR) with true. cbv iota.
  destruct (file_head sparse_real m n (Zlen es)) as [h|] eqn:Eh; [|rewrite head_real in Eh; discriminate]. exists h. split; auto.
  change (forZ 0 (Zlen es)) with (@forZ (list Z) 0 (0 + Zlen es)).
  rewrite (forZ_list es 0 _ (fun e out => Some (out ++ entry_line pr_v (fst e + 1) (fst (snd e) + 1) (snd (snd e))))).
  2: { intros k e s Hk. rewrite Z.add_0_l, !get_map, Hk. reflexivity. }
  assert (G : forall l s, foldM (fun (e : Z * (Z * V)) out => Some (out ++ entry_line pr_v (fst e + 1) (fst (snd e) + 1) (snd (snd e)))) l s = Some (s ++ concat (map (fun e => line e) (from_one l)))).
  { induction l as [|a l IH]; intros s; cbn [foldM map concat from_one]; [now rewrite app_nil_r|]. rewrite IH, <- app_assoc. reflexivity. }
  now rewrite G.
Qed.

Lemma pr_pos_length fuel : forall x acc, (List.length (pr_pos fuel x acc) <= fuel + List.length acc)%nat.
Proof. induction fuel as [|fuel IH]; intros x acc; cbn [pr_pos]; [lia|]. destruct (x <? 10); [cbn [List.length]; lia|]. eapply Nat.le_trans; [apply IH|]. cbn [List.length]. lia. Qed.
Lemma pr_int_length x : int32 x -> (List.length (pr_int x) <= 40)%nat.
Proof.
  intros Hx. unfold int32 in Hx. assert (G : forall y, 0 <= y < 2 ^ 32 -> (List.length (pr_nat y) <= 33)%nat).
  { intros y Hy. unfold pr_nat. eapply Nat.le_trans; [apply pr_pos_length|]. cbn [List.length]. assert (Z.log2 y < 32); [|pose proof (Z.log2_nonneg y); lia].
    destruct (Z.eq_dec y 0) as [->|]; [reflexivity|]. apply Z.log2_lt_pow2; lia. }
  unfold pr_int. destruct (Z.ltb_spec x 0); [cbn [List.length]|]; pose proof (G (Z.abs x) ltac:(lia)); [replace (- x) with (Z.abs x) by lia|replace x with (Z.abs x) by lia]; lia.
Qed.
Lemma pr_int_line x : line_chars (pr_int x).
Proof. destruct (dec_text_chars x _ (pr_int_dec x)) as (_ & H). revert H. apply Forall_impl. intros c (H & H' & _). split; auto. intros ->. discriminate. Qed.

Variables (scan_g : list Z -> option (V * list Z)) (of_ll : Z -> V) (one : V).
Notation file_of := (coordinate_file scan_g of_ll one).

Lemma lines_text es es' w : all_ws w ->
  Forall2 (fun e e' : Z * (Z * V) => fst e = fst e' /\ fst (snd e) = fst (snd e') /\ rereads pr_v scan_g (snd (snd e)) (snd (snd e'))) es es' ->
  Forall (fun e => int32 (fst e) /\ int32 (fst (snd e))) es -> entries_text scan_g of_ll one Real es' (w ++ concat (map (fun e => line e) es)).
Proof.
  intros Hw HF. revert w Hw. induction HF as [|(x, (y, v)) (x', (y', v')) es es' (E1 & E2 & H) HF IH]; intros w Hw HI; cbn [map concat].
  - rewrite app_nil_r. now constructor.
  - cbn [fst snd] in *. subst x' y'. inversion HI as [|? ? (I1 & I2) HI']; subst. cbn [fst snd] in *. destruct H as (ws & t & E & W & N).
    unfold entry_line at 1. rewrite E. replace (w ++ (pr_int x ++ [32] ++ pr_int y ++ [32] ++ (ws ++ t) ++ [NL]) ++ concat (map (fun e => line e) es)) with (w ++ (pr_int x ++ [32] ++ pr_int y ++ (32 :: ws) ++ t) ++ [NL] ++ concat (map (fun e => line e) es)).
    2: { repeat (rewrite <- app_assoc; cbn [app]). reflexivity. }
    apply (next_entry _ _ _ _ w x y v' (pr_int x ++ [32] ++ pr_int y ++ (32 :: ws) ++ t) es' ([NL] ++ List.concat (map (fun e => line e) es))); [exact Hw| |exact (eq_refl true)|].
    + apply real_entry; auto using pr_int_dec; try discriminate. * repeat constructor. * constructor; auto.
    + apply IH; auto. repeat constructor.
Qed.

(** What is stored is a coordinate file of the re-read entries. *)
Lemma stored_file m n (es es' : list (Z * (Z * V))) h :
  int32 m -> int32 n -> int32 (Zlen es) -> Forall (fun e => int32 (fst e) /\ int32 (fst (snd e))) (from_one es) ->
  Forall2 (fun e e' : Z * (Z * V) => fst e = fst e' /\ fst (snd e) = fst (snd e') /\ rereads pr_v scan_g (snd (snd e)) (snd (snd e'))) es es' ->
  file_head sparse_real m n (Zlen es) = Some h ->
  file_of Real General [m; n; Zlen es] (from_one es') (h ++ concat (map (fun e => line e) (from_one es))).
Proof.
  intros Hm Hn Hk HI HF Hh. rewrite head_real in Hh.
  match type of Hh with Some ?x = _ => assert (h = x) as -> by congruence end. clear Hh.
  exists (str "%%MatrixMarket" ++ [32] ++ str "matrix" ++ [32] ++ str (format_word Coordinate) ++ [32] ++ str (data_word Real) ++ [32] ++ str (storage_word General)),
    [], (pr_int m ++ [32] ++ pr_int n ++ [32] ++ pr_int (Zlen es)), (List.concat (map (fun e => line e) (from_one es))).
  split; [|split; [apply (printed_banner Coordinate Real General)|split; [apply Forall_nil|split; [|split]]]].
  - generalize (pr_int m ++ [32] ++ pr_int n ++ [32] ++ pr_int (Zlen es)), (List.concat (map (fun e => line e) (from_one es))). intros b c. rewrite <- app_assoc. f_equal. cbn [map concat app]. now rewrite <- app_assoc.
  - split.
    + unfold line_chars. rewrite !Forall_app. repeat split; try apply pr_int_line; repeat constructor; discriminate.
    + rewrite !app_length. cbn [List.length]. pose proof (pr_int_length m Hm). pose proof (pr_int_length n Hn). pose proof (pr_int_length _ Hk). lia.
  - apply (next_int [] m); auto using pr_int_dec; [constructor|reflexivity|]. apply (next_int [32] n); auto using pr_int_dec; [repeat constructor; discriminate|reflexivity|].
    replace (pr_int (Zlen es)) with (pr_int (Zlen es) ++ []) by apply app_nil_r. apply (next_int [32] (Zlen es)); auto using pr_int_dec; [repeat constructor; discriminate|exact I|constructor].
  - apply (lines_text (from_one es) (from_one es') []); auto; [constructor|]. clear HI Hk. unfold from_one. induction HF as [|e e' l l' (E1 & E2 & E3) HF IH]; cbn [map]; constructor; auto. cbn [fst snd]. rewrite E1, E2. auto.
Qed.
End Proofs.

(** *** The entries of a matrix *)

Lemma coo_rows_entries {V} (rows : rows_t V) : coo_rows (Zlen rows) (entries rows) = rows.
Proof.
  apply rows_ext; [now rewrite Zlen_coo_rows by apply Zlen_nonneg|]. rewrite Zlen_coo_rows by apply Zlen_nonneg. intros r Hr. rewrite nthl_coo_rows by auto.
  unfold entries. rewrite filter_concat, map_map.
  assert (G : forall i, filter (fun e : Z * (Z * V) => fst e =? r) (map (fun e => (i, e)) (nthl rows i)) = if i =? r then map (fun e => (i, e)) (nthl rows i) else []).
  { intros i. rewrite filter_map_comm. cbn [fst]. destruct (i =? r); f_equal; induction (nthl rows i); auto. cbn [filter]. congruence. }
  rewrite (map_ext _ _ G). clear G. rewrite (zrange_app 0 r) by lia. rewrite (zrange_cons r) by lia. rewrite map_app, concat_app. cbn [map concat]. rewrite Z.eqb_refl.
  assert (N : forall lo hi, (forall i, lo <= i < hi -> i <> r) -> concat (map (fun i => if i =? r then map (fun e => (i, e)) (nthl rows i) else []) (zrange lo hi)) = []).
  { intros lo hi H. rewrite (map_ext_in _ (fun _ => [])). - induction (zrange lo hi); auto. - intros i Hi. apply In_zrange in Hi. apply H in Hi. destruct (Z.eqb_spec i r); [contradiction|auto]. }
  rewrite !N by lia. rewrite app_nil_r. cbn [app]. rewrite map_map. apply map_id.
Qed.

Lemma Forall2_len {A B} (R : A -> B -> Prop) l l' : Forall2 R l l' -> List.length l = List.length l'.
Proof. intros H. induction H; cbn [List.length]; auto. Qed.

Lemma rows_rel_len {V W} (P : V -> W -> Prop) rows rows' : rows_rel P rows rows' -> Zlen rows = Zlen rows'.
Proof. intros H. unfold Zlen. f_equal. now apply Forall2_len in H. Qed.

Lemma nthl_out {A} (l : list (list A)) i : i < 0 \/ Zlen l <= i -> nthl l i = [].
Proof. intros H. unfold nthl. now rewrite get_out. Qed.

Lemma Forall2_nthl {A B} (R : A -> B -> Prop) l l' i : Forall2 (Forall2 R) l l' -> Forall2 R (nthl l i) (nthl l' i).
Proof.
  intros H. destruct (Z_lt_le_dec i 0) as [L|L]; [|destruct (Z_lt_le_dec i (Zlen l)) as [L'|L']].
  - rewrite !nthl_out by lia; constructor.
  - revert i L L'. induction H as [|x y l l' Hx H IH]; intros i L L'; [change (Zlen (@nil (list A))) with 0 in L'; lia|].
    rewrite Zlen_cons in L'. destruct (Z.eq_dec i 0) as [->|N]; [exact Hx|]. assert (E : forall {X} (a : list X) b, nthl (a :: b) i = nthl b (i - 1)).
    { intros X a b. unfold nthl. replace i with ((i - 1) + 1) at 1 by lia. now rewrite get_cons_S by lia. }
    rewrite !E. apply IH; lia.
  - assert (Zlen l = Zlen l') by (unfold Zlen; f_equal; now apply Forall2_len in H). rewrite !nthl_out by lia; constructor.
Qed.

Lemma entries_rel {V W} (P : V -> W -> Prop) rows rows' : rows_rel P rows rows' ->
  Forall2 (fun (e : Z * (Z * V)) (e' : Z * (Z * W)) => fst e = fst e' /\ fst (snd e) = fst (snd e') /\ P (snd (snd e)) (snd (snd e'))) (entries rows) (entries rows').
Proof.
  intros H. unfold entries. rewrite <- (rows_rel_len _ _ _ H). induction (zrange 0 (Zlen rows)) as [|i l IH]; cbn [map concat]; [constructor|]. apply Forall2_app; auto.
  pose proof (Forall2_nthl _ _ _ i H) as F. induction F as [|e e' l1 l2 (E1 & E2) F IHF]; cbn [map]; constructor; auto.
Qed.

Lemma rows_rel_exists {V W} (P : V -> W -> Prop) (rows : rows_t V) : (forall r c v, In r rows -> In (c, v) r -> exists u, P v u) -> exists rows', rows_rel P rows rows'.
Proof.
  induction rows as [|r rows IH]; intros H; [exists []; constructor|]. destruct IH as (rows' & IH); [intros; eapply H; eauto; now right|].
  assert (exists r', Forall2 (fun (e : Z * V) (e' : Z * W) => fst e = fst e' /\ P (snd e) (snd e')) r r') as (r' & Hr).
  { assert (H' : forall c v, In (c, v) r -> exists u, P v u) by (intros; eapply H; eauto; now left). clear - H'. induction r as [|(c, v) r IH]; [exists []; constructor|].
    destruct IH as (r' & IH); [intros; eapply H'; right; eauto|]. destruct (H' c v) as (u & Hu); [now left|]. exists ((c, u) :: r'). constructor; auto. }
  exists (r' :: rows'). now constructor.
Qed.

(** Sorting a row that is already in strictly increasing order changes nothing. *)
Lemma strict_perm {V} (l l' : list (Z * V)) : ssortedZ (map fst l) -> row_sorted l' -> Permutation l l' -> l' = l.
Proof.
  revert l'. induction l as [|a l IH]; intros l' H1 H2 HP; [now apply Permutation_nil in HP|].
  destruct l' as [|b l']; [apply Permutation_sym, Permutation_nil in HP; discriminate|]. inversion H1 as [|? ? S1 F1]; subst. inversion H2 as [|? ? S2 F2]; subst.
  rewrite Forall_forall in F1, F2. assert (b = a) as ->.
  { assert (In b (a :: l)) as [->|Hb] by (eapply Permutation_in; [apply Permutation_sym; eauto|now left]); auto. assert (fst a < fst b) by (apply F1; now apply in_map).
    assert (In a (b :: l')) as [->|Ha] by (eapply Permutation_in; [eauto|now left]); [lia|]. assert (fst b <= fst a) by (apply F2; now apply in_map). lia. }
  f_equal. apply IH; auto. eapply Permutation_cons_inv; eauto.
Qed.

Lemma from_one_base {V} (es : list (Z * (Z * V))) : from_base 1 (from_one es) = es.
Proof. unfold from_base, from_one. rewrite map_map. rewrite <- (map_id es) at 2. apply map_ext. intros (x, (y, v)). cbn [fst snd]. repeat f_equal; lia. Qed.

Section Trip.
Context {V : Type}.
Variables (pr_v : V -> list Z) (scan_g : list Z -> option (V * list Z)) (of_ll : Z -> V) (one : V).

(** The sizes fit in an int. *)
Definition sizes_ok (m n nnz : Z) : Prop := 0 <= m < 2 ^ 31 /\ 0 <= n < 2 ^ 31 /\ nnz < 2 ^ 31.

(** *** Storing and loading a coordinate list *)
Theorem coo_trip m n es (C : coo V) fuel sch j : coo_rep m n es C -> coo_ok m n es -> sizes_ok m n (Zlen es) -> mm_junk_ok j ->
  (forall e, In e es -> exists u, rereads pr_v scan_g (snd (snd e)) u) ->
  exists file es' C', coo_store pr_v C = Some (0, file) /\
    Forall2 (fun e e' : Z * (Z * V) => fst e = fst e' /\ fst (snd e) = fst (snd e') /\ rereads pr_v scan_g (snd (snd e)) (snd (snd e'))) es es' /\
    loadMatrixMarket scan_g of_ll one fuel sch j file false false 1 = Some (false, Some C') /\ coo_rep m n es' C'.
Proof.
  intros HC HO (Sm & Sn & Sk) HJ HP. destruct (coo_store_ok pr_v m n es C HC) as (h & Eh & ->). pose proof (Zlen_nonneg es).
  assert (exists es', Forall2 (fun e e' : Z * (Z * V) => fst e = fst e' /\ fst (snd e) = fst (snd e') /\ rereads pr_v scan_g (snd (snd e)) (snd (snd e'))) es es') as (es' & HF).
  { clear - HP. induction es as [|(x, (y, v)) es IH]; [exists []; constructor|]. destruct IH as (es' & IH); [intros; apply HP; now right|]. destruct (HP (x, (y, v))) as (u & Hu); [now left|]. exists ((x, (y, u)) :: es'). constructor; auto. }
  assert (HL : Zlen es' = Zlen es) by (unfold Zlen; f_equal; symmetry; now apply Forall2_len in HF).
  assert (HO' : coo_ok m n es').
  { clear - HO HF. intros r c v Hi. induction HF as [|(x, (y, u)) e' es es' (E1 & E2 & _) HF IH]; [destruct Hi|]. destruct Hi as [->|Hi]; [cbn [fst snd] in *; subst; eapply HO; left; reflexivity|]. apply IH; auto. intros ? ? ? H. eapply HO. right. eauto. }
  pose proof (stored_file pr_v scan_g of_ll one m n es es' h) as SF.
  destruct (load_general scan_g of_ll one fuel sch j Real General m n (from_one es') (h ++ concat (map (fun e => entry_line pr_v (fst e) (fst (snd e)) (snd (snd e))) (from_one es))) false 1 m n 1) as (C' & L & R); try lia; auto.
  - replace (Zlen (from_one es')) with (Zlen es) by (unfold from_one; rewrite Zlen_map; auto). apply SF; auto; try (unfold int32; lia).
    apply Forall_forall. intros e' He. unfold from_one in He. apply in_map_iff in He as ((x, (y, v)) & <- & He). apply HO in He. cbn [fst snd]. unfold int32. lia.
  - split; intros (H1 & H2); discriminate.
  - discriminate.
  - split; [apply Z.divide_1_l|]. lia.
  - split; [apply Z.divide_1_l|]. lia.
  - split; [|auto]. intros x y v Hi. unfold from_one in Hi. apply in_map_iff in Hi as ((x', (y', v')) & E & Hi). apply HO' in Hi. injection E as <- <- <-. cbn [fst snd]. lia.
  - eexists _, es', C'. split; [reflexivity|]. split; auto. split; [exact L|]. rewrite from_one_base in R. unfold unit_diag in R. rewrite zrange_nil, app_nil_r in R by lia. exact R.
Qed.

Variable recip : V -> V.

(** *** Storing a matrix and building it again from the file *)
Theorem csr_trip base n rows (A : csr V) fuel sch1 sch j ji jd n0 base' :
  rep true base n rows A -> rows_ok n rows -> sizes_ok (Zlen rows) n (Zlen (concat rows)) -> mm_junk_ok j -> junk_sizes ji jd ->
  (forall r c v, In r rows -> In (c, v) r -> exists u, rereads pr_v scan_g v u) ->
  exists file rows1 rows' A', csr_store pr_v A = Some file /\
    csr_from_file scan_g of_ll one recip fuel sch1 sch j ji jd n0 file base' false 1 = Some A' /\
    rows_rel (rereads pr_v scan_g) rows rows1 /\ rep true base' n rows' A' /\ rows_sorted_from rows1 rows' /\
    ((forall r, In r rows -> ssortedZ (map fst r)) -> rows' = rows1).
Proof.
  intros HR HO HS HJ HU HP. destruct (rows_rel_exists (rereads pr_v scan_g) rows HP) as (rows1 & HF). pose proof (entries_rel _ _ _ HF) as HE. pose proof (Zlen_nonneg rows).
  destruct (csr_store_ok pr_v base n rows A HR) as (h & Eh & ES). rewrite ES.
  assert (HC : coo_rep (Zlen rows) n (entries rows) (mkCOO (Zlen rows) n (Zlen (entries rows)) (map (fun e => fst e + 1) (entries rows)) (map (fun e => fst (snd e) + 1) (entries rows)) (map (fun e => snd (snd e)) (entries rows)))) by (repeat split).
  assert (LE : Zlen (entries rows) = Zlen (concat rows)) by (rewrite <- (map_snd_entries rows), Zlen_map; auto).
  assert (HK : coo_ok (Zlen rows) n (entries rows)). { intros r c v Hi. apply In_entries in Hi as (Hi & Hc). split; auto. eapply HO; eauto. now apply nth_row_In. }
  assert (HL : Zlen rows1 = Zlen rows) by (symmetry; eapply rows_rel_len; eauto).
  assert (exists C', loadMatrixMarket scan_g of_ll one fuel sch1 j (h ++ concat (map (fun e => entry_line pr_v (fst e) (fst (snd e)) (snd (snd e))) (from_one (entries rows)))) false false 1 = Some (false, Some C') /\ coo_rep (Zlen rows) n (entries rows1) C' /\ coo_ok (Zlen rows) n (entries rows1)) as (C' & L & R & O').
  { assert (HO' : coo_ok (Zlen rows) n (entries rows1)).
    { clear - HK HE. revert HK HE. generalize (entries rows), (entries rows1), (Zlen rows). intros es es' m HK HE. intros r c v Hi. induction HE as [|(x, (y, u)) e' es es' (E1 & E2 & _) HE IH]; [destruct Hi|]. destruct Hi as [->|Hi]; [cbn [fst snd] in *; subst; eapply HK; left; reflexivity|]. apply IH; auto. intros ? ? ? H. eapply HK. right. eauto. }
    assert (LE' : Zlen (entries rows1) = Zlen (entries rows)) by (unfold Zlen; f_equal; symmetry; now apply Forall2_len in HE). destruct HS as (Sm & Sn & Sk). pose proof (Zlen_nonneg (concat rows)).
    destruct (load_general scan_g of_ll one fuel sch1 j Real General (Zlen rows) n (from_one (entries rows1)) (h ++ concat (map (fun e => entry_line pr_v (fst e) (fst (snd e)) (snd (snd e))) (from_one (entries rows)))) false 1 (Zlen rows) n 1) as (C' & L & R); try lia; auto.
    - replace (Zlen (from_one (entries rows1))) with (Zlen (entries rows)) by (unfold from_one; rewrite Zlen_map; auto). apply stored_file; auto; try (unfold int32; lia).
      + apply Forall_forall. intros e' He. unfold from_one in He. apply in_map_iff in He as ((x, (y, v)) & <- & He). apply HK in He. cbn [fst snd]. unfold int32. lia.
      + now rewrite LE.
    - split; intros (H1 & H2); discriminate.
    - discriminate.
    - split; [apply Z.divide_1_l|]. lia.
    - split; [apply Z.divide_1_l|]. lia.
    - split; [|auto]. intros x y v Hi. unfold from_one in Hi. apply in_map_iff in Hi as ((x', (y', v')) & E & Hi). apply HO' in Hi. injection E as <- <- <-. cbn [fst snd]. lia.
    - exists C'. split; [exact L|]. split; [|exact HO']. rewrite from_one_base in R. unfold unit_diag in R. rewrite zrange_nil, app_nil_r in R by lia. exact R. }
  pose proof R as (R1 & R2 & R3 & _). destruct (HU 0%nat (Zlen rows + 1)) as (U1 & _); [lia|]. destruct (HU 1%nat (Zlen (entries rows1))) as (U2 & _); [apply Zlen_nonneg|].
  destruct (HU 0%nat (Zlen (entries rows1))) as (_ & U3); [apply Zlen_nonneg|].
  destruct (dcoo2csr_ok recip sch (Zlen rows) n base' (entries rows1) C' (csr_alloc ji jd (om C') (onnz C') n0) (jd 0%nat (onnz C')) true) as (rows' & A' & E & RA & RS & _); auto; unfold csr_alloc; cbn [rowptr colidx values diagptr idiag diag]; rewrite ?R1, ?R3; auto.
  1,2,3: intros d Hd; injection Hd as <-; apply HU; lia.
  exists (h ++ concat (map (fun e => entry_line pr_v (fst e) (fst (snd e)) (snd (snd e))) (from_one (entries rows)))), rows1, rows', A'. split; auto. split; [unfold csr_from_file; rewrite L; exact E|]. split; auto. split; auto.
  rewrite <- HL, coo_rows_entries in RS. split; auto. intros HSS. destruct RS as (RL & RS). apply rows_ext; auto. rewrite RL. intros i Hi. destruct (RS i Hi) as (P1 & P2). apply strict_perm; auto.
  pose proof (Forall2_nthl _ _ _ i HF) as F. assert (map fst (nthl rows1 i) = map fst (nthl rows i)) as ->. { clear - F. induction F as [|e e' l l' (E & _) F IH]; auto. cbn [map]. congruence. }
  apply HSS. apply nth_row_In. lia.
Qed.
End Trip.
