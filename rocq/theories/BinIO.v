(** * Binary matrix files (CSR.cpp:306-397).

    A file is a list of bytes.  An int is four bytes, little endian, two's
    complement; a double is eight bytes, its representation in memory ([encd],
    [decd]).  A short read leaves memory uninitialised and is an error here.  The
    messages to stderr are not modelled. *)
From Coq Require Import Permutation.
From Verif Require Import Base Interleave Spec PrefixSum Flat Csr Transpose CsrTools CsrOps RowPar SymPattern.

(** ** Model *)
Definition enc32 (x : Z) : list Z := [x mod 256; x / 256 mod 256; x / 65536 mod 256; x / 16777216 mod 256].
Definition dec32 (a b c d : Z) : Z := let u := a + 256 * b + 65536 * c + 16777216 * d in if u <? 2147483648 then u else u - 4294967296.
Definition int32 (x : Z) : Prop := - 2147483648 <= x < 2147483648.
(** fread of one int, of [k] ints *)
Definition rd32 (f : list Z) : option (Z * list Z) := match f with a :: b :: c :: d :: f' => Some (dec32 a b c d, f') | _ => None end.
Fixpoint rd32s (k : nat) (f : list Z) : option (list Z * list Z) :=
  match k with O => Some ([], f) | S k => ' (x, f1) <- rd32 f ;; ' (l, f2) <- rd32s k f1 ;; Some (x :: l, f2) end.

Section Model.
Context {V : Type}.
Variables (encd : V -> list Z) (decd : list Z -> V) (inv : V -> V).
Implicit Types A : csr V.
Fixpoint rdds (k : nat) (f : list Z) : option (list V * list Z) :=
  match k with
  | O => Some ([], f)
  | S k => match f with
           | a :: b :: c :: d :: e :: g :: h :: i :: f1 => ' (l, f2) <- rdds k f1 ;; Some (decd [a; b; c; d; e; g; h; i] :: l, f2)
           | _ => None end
  end.

(** :306 *)
Definition classid : Z := 1211216.
(** CSR.cpp:361-397.  [ok] tells whether fopen succeeds.  The file and the matrix
    afterwards. *)
Definition storeBin A (sch sch' : nat -> list nat) (ok : bool) : option (option (list Z) * csr V) :=
  b <- getBase A ;;
  A0 <- (if 1 =? b then make0Based A sch else Some A) ;;
  if ok then
    nnz <- getNnz A0 ;;
    rn <- mapM (fun i => y <- get (rowptr A0) (i + 1) ;; x <- get (rowptr A0) i ;; Some (y - x)) (zrange 0 (cm A0)) ;;
    ci <- csub (colidx A0) 0 nnz ;;
    vs <- values A0 ;; vs' <- (if (0 <=? nnz) && (nnz <=? Zlen vs) then Some (slice vs 0 nnz) else None) ;;
    let file := enc32 classid ++ enc32 (cm A0) ++ enc32 (cn A0) ++ enc32 nnz ++ concat (map enc32 rn) ++ concat (map enc32 ci) ++ concat (map encd vs') in
    A' <- (if 1 =? b then make1Based A0 sch' else Some A0) ;; Some (Some file, A')
  else Some (None, A0).

(** :339-346 *)
Definition diag_entry (rp ci : list Z) (vs : list V) (i j : Z) (s : list Z * list V * list V) : option (list Z * list V * list V) :=
  let '(dp, dg, idg) := s in
  c <- get ci j ;;
  if c =? i then v <- get vs j ;; dp' <- set dp i j ;; dg' <- set dg i v ;; idg' <- set idg i (inv v) ;; Some (dp', dg', idg')
  else Some s.
Definition diag_row (rp ci : list Z) (vs : list V) (i : Z) (s : list Z * list V * list V) : option (list Z * list V * list V) :=
  b <- get rp i ;; e <- get rp (i + 1) ;; forZ b e (diag_entry rp ci vs i) s.
(** CSR.cpp:308-359 after the file is open; [jd], [jv], [ji] are the previous
    contents of diagptr, diag and idiag.  The file ID is not used. *)
Definition loadBin (f : list Z) (base : Z) (sch sch' : nat -> list nat) (jd : Z -> list Z) (jv ji : Z -> list V) : option (csr V) :=
  ' (id, f0) <- rd32 f ;; ' (m, f1) <- rd32 f0 ;; ' (n, f2) <- rd32 f1 ;; ' (nnz, f3) <- rd32 f2 ;;
  if (m <? 0) || (nnz <? 0) then None else
  ' (rn, f4) <- rd32s (Z.to_nat m) f3 ;;
  rp <- forZ 1 m (fun i w => y <- get w (i + 1) ;; x <- get w i ;; set w (i + 1) (y + x)) (0 :: rn) ;;
  ' (ci, f5) <- rd32s (Z.to_nat nnz) f4 ;;
  ' (vs, f6) <- rdds (Z.to_nat nnz) f5 ;;
  ' (dp, dg, idg) <- par_any (sch 0%nat) (diag_row rp ci vs) 0 m (jd m, jv m, ji m) ;;
  let A := mkCSR m n rp ci (Some vs) (Some idg) (Some dg) (Some dp) None in
  if 1 =? base then make1Based A sch' else Some A.
End Model.

(** ** Specification *)
(** diagptr, diag and idiag describe the last diagonal entry of every row that has
    one. *)
Definition diag_described {V} (inv : V -> V) (base : Z) (rows : rows_t V) (A : csr V) : Prop :=
  exists dp dg idg, diagptr A = Some dp /\ diag A = Some dg /\ idiag A = Some idg /\ Zlen dp = Zlen rows /\ Zlen dg = Zlen rows /\ Zlen idg = Zlen rows /\
  forall i l1 v l2, 0 <= i < Zlen rows -> nthl rows i = l1 ++ (i, v) :: l2 -> (forall w, ~ In (i, w) l2) ->
    get dp i = Some (base + off (nthl rows) i + Zlen l1) /\ get dg i = Some v /\ get idg i = Some (inv v).
(** The numbers of the matrix fit an int. *)
Definition fits_int {V} (n : Z) (rows : rows_t V) : Prop :=
  int32 (Zlen rows) /\ int32 n /\ int32 (Zlen (concat rows)) /\ (forall r c v, In r rows -> In (c, v) r -> int32 c).

(** ** Proof *)
Lemma slice_snoc {X} (l : list X) lo hi x : 0 <= lo <= hi -> get l hi = Some x -> slice l lo (hi + 1) = slice l lo hi ++ [x].
Proof.
  intros H E. pose proof (get_Some_bounds _ _ _ E). rewrite (slice_app l lo hi (hi + 1)) by lia. f_equal. apply list_ext; [rewrite Zlen_slice by lia; change (Zlen [x]) with 1; lia|].
  intros i Hi. rewrite Zlen_slice in Hi by lia. replace i with 0 by lia. rewrite get_slice by lia. rewrite Z.add_0_r, E. reflexivity.
Qed.
Lemma dec_enc x : int32 x -> rd32 (enc32 x) = Some (x, []).
Proof.
  intros H. unfold int32 in H. unfold rd32, enc32, dec32. f_equal. f_equal.
  assert (E : x mod 256 + 256 * (x / 256 mod 256) + 65536 * (x / 65536 mod 256) + 16777216 * (x / 16777216 mod 256) = x mod 4294967296).
  { replace (x / 65536) with (x / 256 / 256) by (rewrite Z.div_div; auto; lia). replace (x / 16777216) with (x / 256 / 256 / 256) by (rewrite !Z.div_div by lia; reflexivity).
    assert (D1 := Z.div_mod x 256 ltac:(lia)). assert (D2 := Z.div_mod (x / 256) 256 ltac:(lia)). assert (D3 := Z.div_mod (x / 256 / 256) 256 ltac:(lia)). assert (D4 := Z.div_mod (x / 256 / 256 / 256) 256 ltac:(lia)).
    assert (M1 := Z.mod_pos_bound x 256 ltac:(lia)). assert (M2 := Z.mod_pos_bound (x / 256) 256 ltac:(lia)). assert (M3 := Z.mod_pos_bound (x / 256 / 256) 256 ltac:(lia)). assert (M4 := Z.mod_pos_bound (x / 256 / 256 / 256) 256 ltac:(lia)).
    apply (Z.mod_unique _ _ (x / 256 / 256 / 256 / 256)); lia. }
  rewrite E. destruct (Z.ltb_spec (x mod 4294967296) 2147483648).
  - destruct (Z_lt_ge_dec x 0); [|apply Z.mod_small; lia]. rewrite <- (Z_mod_plus_full x 1 4294967296) in H0. rewrite Z.mod_small in H0; lia.
  - destruct (Z_lt_ge_dec x 0); [|rewrite Z.mod_small in H0; lia]. rewrite <- (Z_mod_plus_full x 1 4294967296). rewrite Z.mod_small; lia.
Qed.
Lemma rd32_enc x f : int32 x -> rd32 (enc32 x ++ f) = Some (x, f).
Proof. intros H. pose proof (dec_enc x H) as E. unfold rd32, enc32 in *. cbn [app]. injection E as ->. reflexivity. Qed.
Lemma rd32s_enc l f : (forall x, In x l -> int32 x) -> rd32s (length l) (concat (map enc32 l) ++ f) = Some (l, f).
Proof.
  induction l as [|x l IH]; intros H; auto. cbn [length map concat rd32s]. rewrite <- app_assoc. rewrite rd32_enc by (apply H; now left). rewrite IH by (intros; apply H; now right). reflexivity.
Qed.
Lemma prefix_load (rn : list Z) : exists rp, forZ 1 (Zlen rn) (fun i w => y <- get w (i + 1) ;; x <- get w i ;; set w (i + 1) (y + x)) (0 :: rn) = Some rp /\ Zlen rp = Zlen rn + 1 /\
  forall i, 0 <= i <= Zlen rn -> get rp i = Some (zsum (slice rn 0 i)).
Proof.
  destruct rn as [|x rn']; [exists [0]; repeat split; intros i Hi; change (Zlen (@nil Z)) with 0 in Hi; replace i with 0 by lia; reflexivity|]. set (rn := x :: rn').
  assert (L : 1 <= Zlen rn) by (unfold rn; rewrite Zlen_cons; pose proof (Zlen_nonneg rn'); lia).
  enough (G : forall k, 0 <= k -> k + 1 <= Zlen rn -> exists rp, forZ 1 (k + 1) (fun i w => y <- get w (i + 1) ;; x <- get w i ;; set w (i + 1) (y + x)) (0 :: rn) = Some rp /\ Zlen rp = Zlen rn + 1 /\
     (forall i, 0 <= i <= k + 1 -> get rp i = Some (zsum (slice rn 0 i))) /\ forall i, k + 1 < i <= Zlen rn -> get rp i = get rn (i - 1)).
  { destruct (G (Zlen rn - 1)) as (rp & E & L1 & F & _); [lia|lia|]. replace (Zlen rn - 1 + 1) with (Zlen rn) in * by lia. eauto. }
  intros k Hk. pattern k. revert k Hk. apply Z_ind0.
  - intros _. exists (0 :: rn). split; [reflexivity|]. split; [rewrite Zlen_cons; lia|]. split.
    + intros i Hi. assert (i = 0 \/ i = 1) as [->| ->] by lia; [reflexivity|]. change (get (0 :: rn) 1) with (Some x). change (slice rn 0 1) with [x]. change (zsum [x]) with (x + 0). f_equal. lia.
    + intros i Hi. rewrite get_cons_pos by lia. reflexivity.
  - intros k Hk IH HL. destruct IH as (rp & E & L1 & F1 & F2); [lia|]. unfold forZ in *. rewrite zrange_snoc by lia. rewrite foldM_app, E. cbn [foldM]. rewrite (F2 (k + 1 + 1)), (F1 (k + 1)) by lia.
    replace (k + 1 + 1 - 1) with (k + 1) by lia. destruct (get_in_range rn (k + 1) ltac:(lia)) as (y & Ey). rewrite Ey.
    destruct (set_ok rp (k + 1 + 1) (y + zsum (slice rn 0 (k + 1))) ltac:(lia)) as (rp' & E'). rewrite E'. exists rp'. split; auto. split; [erewrite set_len by eassumption; auto|]. split.
    + intros i Hi. rewrite (get_set _ _ _ _ _ E'). destruct (i =? k + 1 + 1) eqn:Ei; [|apply F1; lia]. apply Z.eqb_eq in Ei. subst i. f_equal. rewrite (slice_snoc rn 0 (k + 1) y) by (auto; lia). rewrite zsum_app. cbn. lia.
    + intros i Hi. rewrite (get_set _ _ _ _ _ E'). replace (i =? k + 1 + 1) with false by lia. apply F2. lia.
Qed.

Section Proof.
Context {V : Type}.
Variables (encd : V -> list Z) (decd : list Z -> V) (inv : V -> V).
Hypothesis Henc : forall v, Zlen (encd v) = 8.
Hypothesis Hdec : forall v, decd (encd v) = v.

Lemma rdds_enc vs f : rdds decd (length vs) (concat (map encd vs) ++ f) = Some (vs, f).
Proof.
  induction vs as [|v vs IH]; auto. cbn [length map concat rdds]. pose proof (Henc v) as L. pose proof (Hdec v) as D.
  destruct (encd v) as [|a [|b [|c [|d [|e [|g [|h [|i [|? ?]]]]]]]]]; unfold Zlen in L; cbn [length] in L; try lia.
  cbn [app]. rewrite IH, D. reflexivity.
Qed.

(** One row of the diagonal search. *)
Lemma diag_scan3 (r : list (Z * V)) o i rp ci vs : (forall k c v, get r k = Some (c, v) -> get ci (o + k) = Some c /\ get vs (o + k) = Some v) ->
  forall dp dg idg, 0 <= i -> i < Zlen dp -> i < Zlen dg -> i < Zlen idg ->
  exists dp' dg' idg', forZ o (o + Zlen r) (diag_entry inv rp ci vs i) (dp, dg, idg) = Some (dp', dg', idg') /\ Zlen dp' = Zlen dp /\ Zlen dg' = Zlen dg /\ Zlen idg' = Zlen idg /\
    (forall q, q <> i -> get dp' q = get dp q /\ get dg' q = get dg q /\ get idg' q = get idg q) /\
    forall l1 v l2, r = l1 ++ (i, v) :: l2 -> (forall w, ~ In (i, w) l2) -> get dp' i = Some (o + Zlen l1) /\ get dg' i = Some v /\ get idg' i = Some (inv v).
Proof.
  induction r as [|(c & v) r IH] using rev_ind; intros Hr dp dg idg H0 H1 H2 H3.
  - exists dp, dg, idg. unfold forZ. rewrite zrange_nil by (change (Zlen (@nil (Z * V))) with 0; lia). cbn [foldM]. repeat split; auto; intros; destruct l1; discriminate.
  - rewrite Zlen_app. change (Zlen [(c, v)]) with 1. pose proof (Zlen_nonneg r).
    destruct (IH (fun k c v E => Hr k c v ltac:(rewrite get_app_l; [auto|apply get_Some_bounds in E; lia])) dp dg idg H0 H1 H2 H3) as (dp' & dg' & idg' & E & L1 & L2 & L3 & O & D).
    unfold forZ in *. rewrite Z.add_assoc. rewrite zrange_snoc by lia. rewrite foldM_app, E. cbn [foldM].
    destruct (Hr (Zlen r) c v) as (Ec & Ev). { rewrite get_app_r by lia. rewrite Z.sub_diag. reflexivity. }
    unfold diag_entry at 1. rewrite Ec. destruct (c =? i) eqn:Eci.
    + apply Z.eqb_eq in Eci. subst c. rewrite Ev.
      destruct (set_ok dp' i (o + Zlen r) ltac:(lia)) as (a & Ea). destruct (set_ok dg' i v ltac:(lia)) as (b & Eb). destruct (set_ok idg' i (inv v) ltac:(lia)) as (d & Ed). rewrite Ea, Eb, Ed. exists a, b, d.
      split; auto. split; [now rewrite (set_len _ _ _ _ Ea)|]. split; [now rewrite (set_len _ _ _ _ Eb)|]. split; [now rewrite (set_len _ _ _ _ Ed)|]. split.
      * intros q Hq. destruct (O q Hq) as (O1 & O2 & O3). rewrite (get_set_other _ _ _ _ _ Ea Hq), (get_set_other _ _ _ _ _ Eb Hq), (get_set_other _ _ _ _ _ Ed Hq). auto.
      * intros l1 w l2 E1 E2. destruct l2 as [|x l2] using rev_ind.
        -- apply app_inj_tail in E1 as (-> & Ei). injection Ei as <-. rewrite (get_set_same _ _ _ _ Ea), (get_set_same _ _ _ _ Eb), (get_set_same _ _ _ _ Ed). auto.
        -- exfalso. rewrite app_comm_cons, app_assoc in E1. apply app_inj_tail in E1 as (_ & <-). apply (E2 v). apply in_or_app. right. now left.
    + exists dp', dg', idg'. repeat split; auto; try apply O; auto.
      all: destruct l2 as [|x l2] using rev_ind; [apply app_inj_tail in H4 as (_ & Ei); injection Ei as -> _; lia|];
        rewrite app_comm_cons, app_assoc in H4; apply app_inj_tail in H4 as (Er & _); destruct (D l1 v0 l2 Er) as (D1 & D2 & D3); auto; intros w Hw; apply (H5 w); apply in_or_app; auto.
Qed.

(** The rows of the diagonal search in any order. *)
Lemma load_diag sch n rows A : rep true 0 n rows A -> forall jd jv ji vs, values A = Some vs -> Zlen jd = Zlen rows -> Zlen jv = Zlen rows -> Zlen ji = Zlen rows ->
  exists dp dg idg, par_any sch (diag_row inv (rowptr A) (colidx A) vs) 0 (Zlen rows) (jd, jv, ji) = Some (dp, dg, idg) /\ Zlen dp = Zlen rows /\ Zlen dg = Zlen rows /\ Zlen idg = Zlen rows /\
    forall i l1 v l2, 0 <= i < Zlen rows -> nthl rows i = l1 ++ (i, v) :: l2 -> (forall w, ~ In (i, w) l2) -> get dp i = Some (off (nthl rows) i + Zlen l1) /\ get dg i = Some v /\ get idg i = Some (inv v).
Proof.
  intros HR jd jv ji vs Hv L1 L2 L3.
  destruct (par_any_inv (fun done (s : list Z * list V * list V) => let '(dp, dg, idg) := s in Zlen dp = Zlen rows /\ Zlen dg = Zlen rows /\ Zlen idg = Zlen rows /\
     forall i l1 v l2, In i done -> nthl rows i = l1 ++ (i, v) :: l2 -> (forall w, ~ In (i, w) l2) -> get dp i = Some (off (nthl rows) i + Zlen l1) /\ get dg i = Some v /\ get idg i = Some (inv v))
     sch (diag_row inv (rowptr A) (colidx A) vs) 0 (Zlen rows) (jd, jv, ji)) as (((dp & dg) & idg) & done & E & (D1 & D2 & D3 & D) & Hd).
  - repeat split; auto; intros; contradiction.
  - intros done i ((dp & dg) & idg) Hi Hn Hin (D1 & D2 & D3 & D). unfold diag_row.
    rewrite (rep_rowptr _ _ _ _ _ _ HR), (rep_rowptr_S _ _ _ _ _ _ HR) by lia.
    replace (0 + (off (nthl rows) i + Zlen (nthl rows i))) with ((0 + off (nthl rows) i) + Zlen (nthl rows i)) by lia.
    destruct (diag_scan3 (nthl rows i) (0 + off (nthl rows) i) i (rowptr A) (colidx A) vs) with (dp := dp) (dg := dg) (idg := idg) as (dp' & dg' & idg' & E & M1 & M2 & M3 & O & F); try lia.
    { intros k c v Ek. pose proof (rep_col _ _ _ _ _ _ _ _ _ HR Hi Ek) as Ec. pose proof (rep_val _ _ _ _ _ _ _ _ HR Hi Ek) as Ev. rewrite Hv in Ev. rewrite Z.add_0_l.
      split; [|]. { rewrite Ec. f_equal. lia. } destruct Ev as (vs' & Evs & Ev); injection Evs as <-; exact Ev. }
    rewrite E. eexists. split; [reflexivity|]. split; [lia|]. split; [lia|]. split; [lia|]. intros q l1 v l2 [<-|Hq] Hr Hl.
    + destruct (F l1 v l2 Hr Hl) as (F1 & F2 & F3). rewrite Z.add_0_l in F1. auto.
    + assert (q <> i) by (intros ->; contradiction). destruct (O q H) as (-> & -> & ->). eapply D; eauto.
  - exists dp, dg, idg. split; [auto|]. split; [auto|]. split; [auto|]. split; [auto|]. intros. apply (D i l1 v l2); auto. now apply Hd.
Qed.

(** The file that describes [rows]. *)
Definition file_of (n : Z) (rows : rows_t V) : list Z :=
  enc32 classid ++ enc32 (Zlen rows) ++ enc32 n ++ enc32 (Zlen (concat rows)) ++ concat (map enc32 (map Zlen rows)) ++ concat (map enc32 (map fst (concat rows))) ++ concat (map encd (map snd (concat rows))).

Lemma Zlen_In_concat {X} (ls : list (list X)) l : In l ls -> Zlen l <= Zlen (concat ls).
Proof. induction ls as [|a ls IH]; [contradiction|]. cbn [concat]. rewrite Zlen_app. pose proof (Zlen_nonneg a). pose proof (Zlen_nonneg (concat ls)). intros [->|H1]; [lia|]. apply IH in H1. lia. Qed.
Lemma zsum_off (rows : rows_t V) i : 0 <= i -> i <= Zlen rows -> zsum (slice (map Zlen rows) 0 i) = off (nthl rows) i.
Proof.
  intros Hi. pattern i. revert i Hi. apply Z_ind0; [intros; rewrite off_0; reflexivity|]. intros i Hi IH HL. rewrite off_S by lia.
  rewrite (slice_snoc (map Zlen rows) 0 i (Zlen (nthl rows i))); [|lia|rewrite get_map, get_nthl by lia; reflexivity].
  rewrite zsum_app, IH by lia. change (zsum [Zlen (nthl rows i)]) with (Zlen (nthl rows i) + 0). lia.
Qed.

Theorem load_file n rows base sch sch' jd jv ji : fits_int n rows -> (forall k, 0 <= k -> Zlen (jd k) = k /\ Zlen (jv k) = k /\ Zlen (ji k) = k) -> base = 0 \/ base = 1 ->
  exists B, loadBin decd inv (file_of n rows) base sch sch' jd jv ji = Some B /\ rep true base n rows B /\ extptr B = None /\ diag_described inv base rows B.
Proof.
  intros (F1 & F2 & F3 & F4) HJ Hb. unfold loadBin, file_of. rewrite rd32_enc by (unfold int32, classid; lia). rewrite !rd32_enc by auto.
  pose proof (Zlen_nonneg rows) as N1. pose proof (Zlen_nonneg (concat rows)) as N2. replace ((Zlen rows <? 0) || (Zlen (concat rows) <? 0)) with false by lia.
  replace (Z.to_nat (Zlen rows)) with (length (map Zlen rows)) by (rewrite map_length; unfold Zlen; lia). rewrite rd32s_enc.
  2:{ intros x Hx. apply in_map_iff in Hx as (r & <- & Hr). pose proof (Zlen_In_concat rows r Hr). pose proof (Zlen_nonneg r). unfold int32 in *. lia. }
  destruct (prefix_load (map Zlen rows)) as (rp & E & L & G). rewrite Zlen_map in E, L, G. rewrite E.
  assert (rp = rowptr_of 0 rows) as ->.
  { apply list_ext; [rewrite Zlen_rowptr_of; lia|]. intros i Hi. rewrite get_rowptr_of, G, zsum_off by lia. reflexivity. }
  replace (Z.to_nat (Zlen (concat rows))) with (length (map fst (concat rows))) by (rewrite map_length; unfold Zlen; lia). rewrite rd32s_enc.
  2:{ intros x Hx. apply in_map_iff in Hx as ((c & v) & <- & Hx). apply in_concat in Hx as (r & Hr & Hx). eapply F4; eauto. }
  replace (length (map fst (concat rows))) with (length (map snd (concat rows))) by (rewrite !map_length; reflexivity).
  rewrite <- (app_nil_r (concat (map encd (map snd (concat rows))))). rewrite rdds_enc.
  assert (HC : map fst (concat rows) = colidx_of 0 rows). { unfold colidx_of. apply map_ext. intros; lia. } rewrite HC.
  assert (HR : rep true 0 n rows (mkCSR (Zlen rows) n (rowptr_of 0 rows) (colidx_of 0 rows) (Some (map snd (concat rows))) None None None None)) by (unfold rep; cbn; auto).
  destruct (HJ (Zlen rows) N1) as (J1 & J2 & J3).
  destruct (load_diag (sch 0%nat) n rows _ HR (jd (Zlen rows)) (jv (Zlen rows)) (ji (Zlen rows)) _ eq_refl J1 J2 J3) as (dp & dg & idg & ED & D1 & D2 & D3 & D). cbn [rowptr colidx] in ED. rewrite ED.
  set (B := mkCSR _ _ _ _ _ _ _ _ _). assert (HB : rep true 0 n rows B) by (unfold rep; cbn; auto).
  destruct Hb as [-> | ->].
  - change (1 =? 0) with false. exists B. repeat split; auto. exists dp, dg, idg. repeat split; auto; eapply D; eauto.
  - change (1 =? 1) with true. cbv iota. destruct (make1_ok true n rows B sch' HB) as (B' & EB & HB' & V1 & V2 & V3 & V4 & V5). { intros d Ed. injection Ed as <-. auto. }
    exists B'. split; auto. split; auto. split; auto. exists (map (fun x => x + 1) dp), dg, idg. rewrite V2, V3, V5, Zlen_map. split; [reflexivity|]. split; [reflexivity|]. split; [reflexivity|]. split; auto. split; auto. split; auto.
    intros i l1 v l2 Hi Hr Hl. destruct (D i l1 v l2 Hi Hr Hl) as (-> & G2 & G3) || (destruct (D i l1 v l2 Hi Hr Hl) as (G1 & G2 & G3); rewrite get_map, G1). cbn [option_map]. split; auto. f_equal. lia.
Qed.

(** storeBin writes that file, and leaves the matrix as it was. *)
Lemma store_rows n rows (A0 : csr V) : rep true 0 n rows A0 ->
  mapM (fun i => y <- get (rowptr A0) (i + 1) ;; x <- get (rowptr A0) i ;; Some (y - x)) (zrange 0 (cm A0)) = Some (map Zlen rows).
Proof.
  intros HR. assert (Hm := proj1 HR). rewrite Hm. rewrite (mapM_Some _ (fun i => Zlen (nthl rows i))).
  - f_equal. apply list_ext; [rewrite !Zlen_map, Zlen_zrange; pose proof (Zlen_nonneg rows); lia|]. intros i Hi. rewrite !Zlen_map, Zlen_zrange in Hi. pose proof (Zlen_nonneg rows).
    rewrite !get_map, get_zrange, get_nthl by lia. cbn [option_map]. reflexivity.
  - intros i Hi. apply In_zrange in Hi. rewrite (rep_rowptr_S _ _ _ _ _ _ HR), (rep_rowptr _ _ _ _ _ _ HR) by lia. f_equal. lia.
Qed.
Lemma store0 n rows (A0 : csr V) : rep true 0 n rows A0 ->
  exists vs, getNnz A0 = Some (Zlen (concat rows)) /\ csub (colidx A0) 0 (Zlen (concat rows)) = Some (map fst (concat rows)) /\
    values A0 = Some vs /\ (0 <=? Zlen (concat rows)) && (Zlen (concat rows) <=? Zlen vs) = true /\ slice vs 0 (Zlen (concat rows)) = map snd (concat rows).
Proof.
  intros HR. pose proof (rep_nnz _ _ _ _ _ HR) as N. destruct HR as (Hm & Hn & Hr & Hc & Hv). exists (values_of rows). pose proof (Zlen_nonneg (concat rows)) as P. split; auto. unfold colidx_of in Hc. unfold values_of. rewrite Hc.
  rewrite csub_ok by (rewrite ?Zlen_map; lia). split; [|split; [auto|split; [rewrite Zlen_map; lia|]]].
  - f_equal. rewrite (map_ext _ fst) by (intros; lia). rewrite <- (Zlen_map fst). apply slice_full.
  - rewrite <- (Zlen_map snd). apply slice_full.
Qed.
Theorem store_ok base n rows A sch sch' : rep true base n rows A -> diagptr_len A -> base = 0 \/ base = 1 -> storeBin encd A sch sch' true = Some (Some (file_of n rows), A).
Proof.
  intros HR HD Hb. unfold storeBin. rewrite (rep_base _ _ _ _ _ HR).
  assert (S0 : exists A0, (if 1 =? base then make0Based A sch else Some A) = Some A0 /\ rep true 0 n rows A0 /\ (if 1 =? base then make1Based A0 sch' else Some A0) = Some A).
  { destruct Hb as [-> | ->]; [exists A; auto|]. change (1 =? 1) with true. cbv iota. destruct (make0_ok true n rows A sch HR HD) as (A0 & E & H0 & _). exists A0. split; auto. split; auto. eapply make0_make1; eauto. }
  destruct S0 as (A0 & -> & H0 & E1). destruct (store0 n rows A0 H0) as (vs & E2 & E3 & E4 & E5 & E6). rewrite E2, (store_rows _ _ _ H0), E3, E4, E5, E6, E1.
  destruct H0 as (-> & -> & _). reflexivity.
Qed.

Theorem bin_round_trip base n rows A s1 s2 : rep true base n rows A -> diagptr_len A -> base = 0 \/ base = 1 -> fits_int n rows ->
  exists f, storeBin encd A s1 s2 true = Some (Some f, A) /\
  forall base' s3 s4 jd jv ji, base' = 0 \/ base' = 1 -> (forall k, 0 <= k -> Zlen (jd k) = k /\ Zlen (jv k) = k /\ Zlen (ji k) = k) ->
  exists B, loadBin decd inv f base' s3 s4 jd jv ji = Some B /\ rep true base' n rows B /\ extptr B = None /\ diag_described inv base' rows B.
Proof. intros HR HD Hb HF. exists (file_of n rows). split; [now apply (store_ok base n rows)|]. intros. now apply load_file. Qed.

(** Two matrices have the same file exactly when they have the same shape and rows. *)
Theorem file_inj n1 n2 r1 r2 : fits_int n1 r1 -> fits_int n2 r2 -> file_of n1 r1 = file_of n2 r2 -> n1 = n2 /\ r1 = r2.
Proof.
  intros F1 F2 E. destruct (load_file n1 r1 0 (fun _ => []) (fun _ => []) (fun k => repeat 0 (Z.to_nat k)) (fun k => repeat (decd []) (Z.to_nat k)) (fun k => repeat (decd []) (Z.to_nat k)) F1) as (B1 & E1 & R1 & _); auto.
  { intros k Hk. unfold Zlen. rewrite !repeat_length. lia. }
  destruct (load_file n2 r2 0 (fun _ => []) (fun _ => []) (fun k => repeat 0 (Z.to_nat k)) (fun k => repeat (decd []) (Z.to_nat k)) (fun k => repeat (decd []) (Z.to_nat k)) F2) as (B2 & E2 & R2 & _); auto.
  { intros k Hk. unfold Zlen. rewrite !repeat_length. lia. }
  rewrite E in E1. rewrite E1 in E2. injection E2 as ->. split; [destruct R1 as (_ & R1 & _), R2 as (_ & R2 & _); congruence|].
  destruct (rep_inj _ _ _ _ _ _ _ _ R1 R2) as (_ & _ & _ & H). auto.
Qed.
End Proof.

(** The failure path of storeBin. *)
Theorem store_fail_base0 {V} (encd : V -> list Z) n rows (A : csr V) s1 s2 : rep true 0 n rows A -> storeBin encd A s1 s2 false = Some (None, A).
Proof. intros HR. unfold storeBin. rewrite (rep_base _ _ _ _ _ HR). reflexivity. Qed.
Theorem store_fail_base1 {V} (encd : V -> list Z) n rows (A : csr V) s1 s2 : rep true 1 n rows A -> diagptr_len A ->
  exists A', storeBin encd A s1 s2 false = Some (None, A') /\ rep true 0 n rows A' /\ A' <> A.
Proof.
  intros HR HD. unfold storeBin. rewrite (rep_base _ _ _ _ _ HR). change (1 =? 1) with true. cbv iota. destruct (make0_ok true n rows A s1 HR HD) as (A0 & -> & H0 & _). exists A0. split; auto. split; auto.
  intros ->. pose proof (rep_base _ _ _ _ _ HR). rewrite (rep_base _ _ _ _ _ H0) in H. discriminate.
Qed.

(** ** Worked cases; values are bytes. *)
Definition enc8 (v : Z) : list Z := [v; 0; 0; 0; 0; 0; 0; 0].
Definition dec8 (l : list Z) : Z := match l with v :: _ => v | [] => 0 end.
Lemma enc8_ok : (forall v, Zlen (enc8 v) = 8) /\ forall v, dec8 (enc8 v) = v.
Proof. split; reflexivity. Qed.
Definition bin_rows : rows_t Z := [[(0, 5); (2, 7)]; []; [(1, 3); (2, 9)]].
Definition bin_matrix : csr Z := mkCSR 3 3 [1; 3; 3; 5] [1; 3; 2; 3] (Some [5; 7; 3; 9]) None None None None.
Definition junk (k : Z) : list Z := repeat (-1) (Z.to_nat k).
Definition bin_file : list Z := file_of enc8 3 bin_rows.
Lemma bin_matrix_ok : rep true 1 3 bin_rows bin_matrix /\ diagptr_len bin_matrix /\ fits_int 3 bin_rows.
Proof.
  split; [repeat split; reflexivity|]. split; [intros d; discriminate|]. unfold fits_int, int32. split; [vm_compute; intuition congruence|]. split; [lia|]. split; [vm_compute; intuition congruence|].
  intros r c v Hr Hc. cbn in Hr. destruct Hr as [<-|[<-|[<-|[]]]]; cbn in Hc; intuition (try congruence); injection H as <- <- || injection H0 as <- <-; lia.
Qed.
Lemma bin_store_run : storeBin enc8 bin_matrix (fun _ => []) (fun _ => []) true = Some (Some bin_file, bin_matrix) /\ Zlen bin_file = 76.
Proof. split; vm_compute; reflexivity. Qed.
Lemma bin_load_run : loadBin dec8 Z.opp bin_file 1 (fun _ => []) (fun _ => []) junk junk junk =
  Some (mkCSR 3 3 [1; 3; 3; 5] [1; 3; 2; 3] (Some [5; 7; 3; 9]) (Some [-5; -1; -9]) (Some [5; -1; 9]) (Some [1; 0; 4]) None).
Proof. vm_compute. reflexivity. Qed.

(** The magic number is printed but not used: a file that starts with any other
    int loads all the same. *)
Theorem wrong_id_accepted {V} (decd : list Z -> V) (inv : V -> V) id id' f base s1 s2 jd jv ji : int32 id -> int32 id' ->
  loadBin decd inv (enc32 id ++ f) base s1 s2 jd jv ji = loadBin decd inv (enc32 id' ++ f) base s1 s2 jd jv ji.
Proof. intros H H'. unfold loadBin. rewrite !rd32_enc by auto. reflexivity. Qed.
(** A file whose row lengths add up to more than its number of entries makes
    loadBin read outside its arrays, whatever was in memory. *)
Definition bad_file : list Z := enc32 classid ++ enc32 1 ++ enc32 1 ++ enc32 0 ++ enc32 1.
Theorem bad_file_out_of_bounds s1 s2 jd jv ji : loadBin dec8 Z.opp bad_file 0 s1 s2 jd jv ji = None.
Proof.
  unfold loadBin, bad_file. rewrite !rd32_enc by (unfold int32, classid; lia). change ((1 <? 0) || (0 <? 0)) with false. cbv iota.
  rewrite <- (app_nil_r (enc32 1)). change (enc32 1) with (concat (map enc32 [1])). change (Z.to_nat 1) with (length [1]). rewrite rd32s_enc by (intros x [<-|[]]; unfold int32; lia).
  change (length [1]) with 1%nat. change (forZ 1 1 _ [0; 1]) with (Some [0; 1]). change (Z.to_nat 0) with 0%nat. cbn [rd32s rdds]. cbv iota.
  unfold par_any, par. change (map (fun i => [i]) (zrange 0 1)) with [[0]].
  assert (merge (s1 0%nat) [[0]] = [0]) as ->. { apply Permutation_length_1_inv. symmetry. apply (merge_perm (s1 0%nat) [[0]]). }
  reflexivity.
Qed.
