(** * Matrices named on the command line (CSR.cpp:101-125) and the converter of
    Matrix Market files to binary files (test/mtx2bin.cpp). *)
From Coq Require Import Permutation String.
From Verif Require Import Base Interleave Spec Flat Csr CsrOps Transpose Coo SymPattern BinIO Laplacian MmText MmIo MmLoad MmStore MmSym MmVec MmCases.
Open Scope Z_scope.

(** ** Model *)

(** The files, by name. *)
Definition files : Type := list Z -> option (list Z).
Definition write_file (fs : files) (name text : list Z) : files := fun x => if zeqs x name then Some text else fs x.

(** atoi: 0 without digits; a number that does not fit an int is undefined. *)
Definition atoi (s : list Z) : option Z := ' (x, _) <- scan_d int32b s ;; match x with Got v => Some v | _ => Some 0 end.

(** The schedules of the parallel loops and the contents of uninitialised memory. *)
Record runtime (V : Type) := mkRun {
  r_fuel : nat; r_s1 : list nat; r_s2 : list nat; r_s3 : nat -> list nat; r_s4 : nat -> list nat;
  r_mm : mm_junk V; r_ints : nat -> Z -> list Z; r_nums : nat -> Z -> list V; r_n0 : Z; r_v : Z -> V }.
Arguments mkRun {V}. Arguments r_fuel {V}. Arguments r_s1 {V}. Arguments r_s2 {V}. Arguments r_s3 {V}. Arguments r_s4 {V}.
Arguments r_mm {V}. Arguments r_ints {V}. Arguments r_nums {V}. Arguments r_n0 {V}. Arguments r_v {V}.

Section Model.
Context {V : Type}.
Variables (scan_g : list Z -> option (V * list Z)) (of_ll : Z -> V) (one : V) (recip : V -> V).
Variables (encd : V -> list Z) (decd : list Z -> V).
(** The diagonal of the Laplacian, its inverse, the other entries. *)
Variables (d di o : V).

(** CSR.cpp:101-125.  [None] for a binary file that cannot be opened (the sizes are
    then never set), and for a forced symmetric binary file (the assertion). *)
Definition csr_named (R : runtime V) (fs : files) (name : list Z) (base : Z) (force : bool) (pad : Z) : option (csr V) :=
  m <- atoi name ;;
  let l := Zlen name in
  if zeqs (pr_int m) name then laplacian d di o m m m base (r_s2 R) (r_s3 R) (r_ints R 0%nat) (r_nums R 0%nat)
  else if (4 <? l) && zeqs (slice name (l - 4) l) (str ".bin") then
    if force then None else
    f <- fs name ;; loadBin decd recip f base (r_s3 R) (r_s4 R) (r_ints R 0%nat) (r_nums R 0%nat) (r_nums R 1%nat)
  else
    f <- fs name ;; csr_from_file scan_g of_ll one recip (r_fuel R) (r_s1 R) (r_s3 R) (r_mm R) (r_ints R) (r_nums R) (r_n0 R) f base force pad.

(** mtx2bin.cpp:30-32: one number and the white space behind it.  When there is no
    number [v] is not initialised; what such a failed conversion takes from the file
    is not modelled (nothing is taken here). *)
Definition read_v (R : runtime V) (i : Z) (s : list Z * list V) : option (list Z * list V) :=
  match scan_g (skip_ws (fst s)) with
  | Some (v, f) => a <- set (snd s) i v ;; Some (skip_ws f, a)
  | None => a <- set (snd s) i (r_v R i) ;; Some (skip_ws (fst s), a)
  end.

(** mtx2bin.cpp:9-62, without the messages.  [args] are the arguments behind the
    name of the program, [opens] tells whether the output file can be opened.  The
    result and the files afterwards.  An input file that does not exist is
    undefined behaviour (fgets of NULL). *)
Definition mtx2bin (R : runtime V) (fs : files) (opens : bool) (args : list (list Z)) : option (Z * files) :=
  match args with
  | a1 :: a2 :: _ =>
      f <- fs a1 ;;
      ' (rc, t, f) <- mm_read_banner f ;;
      ' (sz, f) <- mm_read_mtx_array_size (r_fuel R) f ;;
      match (if (0 =? rc) && mm_is_valid t && (tfmt t =? cA) then sz else None) with
      | Some (nrows :: _) =>
          if nrows <? 0 then None else
          ' (_, a) <- forZ 0 nrows (read_v R) (f, r_nums R 0%nat nrows) ;;
          if opens then Some (0, write_file fs a2 (enc32 nrows ++ concat (map encd a))) else Some (-1, fs)
      | _ =>
          A <- csr_named R fs a1 0 false 1 ;;
          ' (out, _) <- storeBin encd A (r_s3 R) (r_s4 R) opens ;;
          match out with Some b => Some (0, write_file fs a2 b) | None => Some (0, fs) end
      end
  | _ => Some (-1, fs)
  end.
End Model.

(** ** Specification *)
Definition runtime_ok {V} (R : runtime V) : Prop := mm_junk_ok (r_mm R) /\ junk_sizes (r_ints R) (r_nums R).
(** The number at the start of the name, if there is one, fits an int. *)
Definition small_lead (name : list Z) : Prop := forall w t r x, name = w ++ t ++ r -> all_ws w -> dec_text x t -> no_digit r -> int32 x.
Definition bin_name (name : list Z) : Prop := small_lead name /\ exists stem, stem <> [] /\ name = stem ++ str ".bin".
(** Any other name that is not the notation of an int. *)
Definition text_name (name : list Z) : Prop :=
  small_lead name /\ (forall m, name <> pr_int m) /\ (forall stem, stem <> [] -> name <> stem ++ str ".bin").

(** ** Proofs: the name *)
Lemma span_split p f : exists a b, span p f = (a, b) /\ f = a ++ b /\ Forall (fun c => p c = true) a /\ match b with [] => True | c :: _ => p c = false end.
Proof.
  induction f as [|c f IH]; cbn [span]; [exists [], []; auto|]. destruct IH as (a & b & E & Ef & HF & HB). destruct (p c) eqn:Pc.
  - exists (c :: a), b. rewrite E. cbn [app]. subst f. auto.
  - exists [], (c :: f). auto.
Qed.
Lemma skip_ws_idem f : skip_ws (skip_ws f) = skip_ws f.
Proof. unfold skip_ws. destruct (span_split isspace f) as (a & b & -> & _ & _ & Hb). cbn [snd]. destruct b as [|c b]; auto. cbn [span]. now rewrite Hb. Qed.

Lemma atoi_ok name : small_lead name -> exists m, atoi name = Some m.
Proof.
  intros HS. unfold atoi, scan_d. unfold skip_ws. destruct (span_split isspace name) as (w & g & -> & Eq & Hw & Hg). cbn [snd]. subst name. destruct g as [|c g]; [eauto|].
  assert (exists sg h, scan_sign (c :: g) = (match sg with c :: _ => c =? 45 | [] => false end, h) /\ c :: g = sg ++ h /\ (sg = [] \/ sg = [43] \/ sg = [45])) as (sg & h & -> & E & Hs).
  { cbn [scan_sign]. destruct (Z.eqb_spec c 45) as [->|N1]; [exists [45], g; auto|]. destruct (Z.eqb_spec c 43) as [->|N2]; [exists [43], g; auto|]. exists [], (c :: g). auto. }
  rewrite E in *. destruct (span_split isdigit h) as (ds & r & -> & Eh & Hd & Hr). subst h. destruct ds as [|x ds]; [eauto|].
  set (ds' := x :: ds) in *. assert (D : forall v, v = (if match sg with c :: _ => c =? 45 | [] => false end then - digits_val ds' else digits_val ds') -> int32 v).
  { intros v Hv. apply (HS w (sg ++ ds') r v); auto; [now rewrite <- app_assoc|]. exists sg, ds'. split; auto. split; [discriminate|]. split.
    - unfold all_digits. eapply Forall_impl; [|exact Hd]. cbn. unfold isdigit. intros; lia.
    - destruct Hs as [-> | [-> | ->]]; cbn in Hv; auto. }
  specialize (D _ eq_refl). apply int32b_iff in D. rewrite D. eauto.
Qed.
Lemma atoi_int m : int32 m -> atoi (pr_int m) = Some m.
Proof.
  intros H. unfold atoi. pose proof (scan_d_text int32b m (pr_int m) [] [] (pr_int_dec m)) as E. rewrite app_nil_r in E. cbn [app] in E. rewrite E; auto.
  - now apply int32b_iff.
  - constructor.
  - exact I.
Qed.
Lemma suffix_bin name : (4 <? Zlen name) && zeqs (slice name (Zlen name - 4) (Zlen name)) (str ".bin") = true <-> exists stem, stem <> [] /\ name = stem ++ str ".bin".
Proof.
  rewrite andb_true_iff, zeqs_eq. split.
  - intros (L & E). exists (slice name 0 (Zlen name - 4)). split.
    + intros H. apply (f_equal Zlen) in H. rewrite Zlen_slice in H by lia. change (Zlen (@nil Z)) with 0 in H. lia.
    + rewrite <- E, <- slice_app by lia. now rewrite slice_full.
  - intros (stem & N & ->). change (Zlen (stem ++ str ".bin")) with (Zlen (stem ++ str ".bin")). rewrite Zlen_app. change (Zlen (str ".bin")) with 4.
    assert (0 < Zlen stem) by (destruct stem; [easy|rewrite Zlen_cons; pose proof (Zlen_nonneg stem); lia]). split; [lia|].
    replace (Zlen stem + 4 - 4) with (Zlen stem) by lia. apply list_ext; [rewrite Zlen_slice by (rewrite ?Zlen_app; change (Zlen (str ".bin")) with 4; lia); change (Zlen (str ".bin")) with 4; lia|].
    intros i Hi. rewrite Zlen_slice in Hi by (rewrite ?Zlen_app; change (Zlen (str ".bin")) with 4; lia). rewrite get_slice by lia. rewrite get_app_r by lia. f_equal. lia.
Qed.
Lemma bin_not_int stem m : stem ++ str ".bin" <> pr_int m.
Proof.
  intros E. destruct (pr_int_dec m) as (sg & ds & Ep & Hne & Hd & _). rewrite Ep in E.
  destruct (exists_last Hne) as (ds' & x & ->). assert (48 <= x <= 57). { apply Forall_app in Hd as (_ & Hd). now inversion Hd. }
  assert (S4 : str ".bin" = [46; 98; 105] ++ [110]) by reflexivity. rewrite S4, !app_assoc in E. apply app_inj_tail in E as (_ & E). lia.
Qed.

Section Proofs.
Context {V : Type}.
Variables (scan_g : list Z -> option (V * list Z)) (of_ll : Z -> V) (one : V) (recip : V -> V).
Variables (encd : V -> list Z) (decd : list Z -> V).
Variables (d di o : V).
Notation named := (csr_named scan_g of_ll one recip decd d di o).
Notation convert := (mtx2bin scan_g of_ll one recip encd decd d di o).

(** A notation of an int: the Laplacian of that size; no file is looked at. *)
Theorem named_size m : 1 <= m -> int32 m ->
  exists rows, laplacian_rows d o m m m rows /\
  forall R fs base force pad, runtime_ok R -> base = 0 \/ base = 1 ->
  exists A, named R fs (pr_int m) base force pad = Some A /\ rep true base (m * m * m) rows A /\ diag_described (fun _ => di) base rows A.
Proof.
  clear encd. intros Hm HI. destruct (laplacian_correct d di o m m m) as (rows & HL & HR); try lia. exists rows. split; auto. intros R fs base force pad (_ & HJ) Hb.
  destruct (HR base (r_s2 R) (r_s3 R) (r_ints R 0%nat) (r_nums R 0%nat) Hb) as (A & E & H1 & _ & H2); [intros; now apply HJ|].
  exists A. unfold csr_named. rewrite atoi_int by auto. rewrite zeqs_refl. auto.
Qed.

Lemma named_text R fs name base force pad : text_name name ->
  named R fs name base force pad = (f <- fs name ;; csr_from_file scan_g of_ll one recip (r_fuel R) (r_s1 R) (r_s3 R) (r_mm R) (r_ints R) (r_nums R) (r_n0 R) f base force pad).
Proof.
  intros (HS & HN & HB). unfold csr_named. destruct (atoi_ok name HS) as (m & ->). destruct (zeqs (pr_int m) name) eqn:E; [apply zeqs_eq in E; now destruct (HN m)|].
  destruct ((4 <? Zlen name) && zeqs (slice name (Zlen name - 4) (Zlen name)) (str ".bin")) eqn:E2; [|reflexivity]. apply suffix_bin in E2 as (stem & N & E2). now destruct (HB stem).
Qed.
Lemma named_bin R fs name base pad : bin_name name ->
  named R fs name base false pad = (f <- fs name ;; loadBin decd recip f base (r_s3 R) (r_s4 R) (r_ints R 0%nat) (r_nums R 0%nat) (r_nums R 1%nat)).
Proof.
  intros (HS & stem & HN & Eq). unfold csr_named. destruct (atoi_ok name HS) as (m & ->). destruct (zeqs (pr_int m) name) eqn:E; [apply zeqs_eq in E; rewrite Eq in E; symmetry in E; now apply bin_not_int in E|].
  replace ((4 <? Zlen name) && zeqs (slice name (Zlen name - 4) (Zlen name)) (str ".bin")) with true by (symmetry; apply suffix_bin; eauto). reflexivity.
Qed.

Lemma ints_prefix ns ks l : ints_text (ns ++ ks) l -> ints_text ns l.
Proof. revert l. induction ns as [|x ns IH]; intros l H; [constructor|]. cbn [app] in H. inversion H; subst. constructor; auto. Qed.
Lemma head_two fuel b c m n k es file : coordinate_file scan_g of_ll one b c [m; n; k] es file ->
  exists f body, mm_read_banner file = Some (0, code Coordinate b c, f) /\ mm_read_mtx_array_size fuel f = Some (Some [m; n], body).
Proof.
  intros (banner & comments & size & body & E & HB & HC & HS & HI & HE).
  assert (HF : coordinate_file scan_g of_ll one b c [m; n] es file) by (exists banner, comments, size, body; do 4 (split; [auto|]); split; auto; now apply (ints_prefix _ [k])).
  destruct (header_ok scan_g of_ll one fuel b c m [n] es file HF) as (f & r & E1 & E2 & _). eauto.
Qed.
Lemma sorted_entries m n (es : list (Z * (Z * V))) rows : 0 <= m -> coo_ok m n es -> rows_sorted_from (coo_rows m es) rows -> Zlen rows = m /\ Zlen (concat rows) = Zlen es /\ rows_ok n rows.
Proof.
  intros Hm HO HS. assert (L : Zlen rows = m) by (destruct HS as (-> & _); now apply Zlen_coo_rows). split; auto. split; [|eapply rows_sorted_from_ok; eauto; now apply coo_rows_ok].
  assert (P : Permutation (entries rows) es). { eapply perm_trans; [|eapply coo_rows_perm; eauto]. symmetry. destruct HS as (L1 & HS). apply entries_perm; auto. intros i Hi. now apply HS. }
  rewrite <- (map_snd_entries rows), Zlen_map. unfold Zlen. f_equal. now apply Permutation_length.
Qed.

(** The converter on a file that the loader of coordinate files reads as [es]. *)
Lemma convert_core R fs name1 name2 more file b c m0 n0 k0 es0 s C M N es :
  runtime_ok R -> text_name name1 -> fs name1 = Some file -> coordinate_file scan_g of_ll one b c [m0; n0; k0] es0 file ->
  loadMatrixMarket scan_g of_ll one (r_fuel R) (r_s1 R) (r_mm R) file false false 1 = Some (s, Some C) -> coo_rep M N es C -> coo_ok M N es -> 0 <= M ->
  exists rows A, rows_sorted_from (coo_rows M es) rows /\ named R fs name1 0 false 1 = Some A /\ rep true 0 N rows A /\
    convert R fs true (name1 :: name2 :: more) = Some (0, write_file fs name2 (file_of encd N rows)) /\ convert R fs false (name1 :: name2 :: more) = Some (0, fs).
Proof.
  intros (_ & HU) HT HF HC HL HR HO HM. pose proof HR as (R1 & R2 & R3 & _). pose proof (Zlen_nonneg es) as Ne.
  destruct (HU 0%nat (M + 1)) as (U1 & _); [lia|]. destruct (HU 1%nat (Zlen es)) as (U2 & _); [lia|]. destruct (HU 0%nat (Zlen es)) as (_ & U3); [lia|].
  destruct (dcoo2csr_ok recip (r_s3 R) M N 0 es C (csr_alloc (r_ints R) (r_nums R) (om C) (onnz C) (r_n0 R)) (r_nums R 0%nat (onnz C)) true) as (rows & A & E & RA & RS & _); auto; unfold csr_alloc; cbn [rowptr colidx values diagptr idiag diag]; rewrite ?R1, ?R3; auto.
  1,2,3: intros dd Hd; injection Hd as <-; apply HU; lia.
  assert (EA : named R fs name1 0 false 1 = Some A). { rewrite named_text, HF by auto. unfold csr_from_file. rewrite HL. exact E. }
  exists rows, A. split; auto. split; auto. split; auto.
  destruct (head_two (r_fuel R) b c m0 n0 k0 es0 file HC) as (f & body & E1 & E2).
  unfold mtx2bin. rewrite HF, E1, E2. change (tfmt (code Coordinate b c) =? cA) with false. rewrite andb_false_r. rewrite EA.
  unfold storeBin. rewrite (rep_base _ _ _ _ _ RA). change (1 =? 0) with false. cbv iota. destruct (store0 N rows A RA) as (vs & G2 & G3 & G4 & G5 & G6).
  rewrite G2, (store_rows _ _ _ RA), G3, G4, G5, G6. destruct RA as (-> & -> & _). auto.
Qed.

Lemma based_ok base m n (es : list (Z * (Z * V))) : based base m n es -> coo_ok m n (from_base base es).
Proof. intros HB x y v Hi. unfold from_base in Hi. apply in_map_iff in Hi as ((x', (y', v')) & E & Hi). apply (proj1 HB) in Hi. injection E as <- <- <-. cbn [fst snd]. lia. Qed.

(** A general file: the entries as listed, numbered from 0 or from 1. *)
Theorem convert_general R fs name1 name2 more file b c m n es base :
  runtime_ok R -> text_name name1 -> fs name1 = Some file -> coordinate_file scan_g of_ll one b c [m; n; Zlen es] es file -> kind_ok b c -> c <> Symmetric ->
  0 <= m -> 0 <= n -> based base m n es ->
  exists rows A, rows_sorted_from (coo_rows m (from_base base es)) rows /\ named R fs name1 0 false 1 = Some A /\ rep true 0 n rows A /\
    convert R fs true (name1 :: name2 :: more) = Some (0, write_file fs name2 (file_of encd n rows)).
Proof.
  intros HR HT HF HC HK Hc Hm Hn HB. pose proof HR as (HJ & _).
  destruct (load_general scan_g of_ll one (r_fuel R) (r_s1 R) (r_mm R) b c m n es file false 1 m n base) as (C & L & RC); auto; try lia.
  1,2: split; [apply Z.divide_1_l|lia].
  unfold unit_diag in RC. rewrite zrange_nil, app_nil_r in RC by lia.
  destruct (convert_core R fs name1 name2 more file b c m n (Zlen es) es false C m n (from_base base es)) as (rows & A & H1 & H2 & H3 & H4 & _); auto; [now apply based_ok|]. exists rows, A. auto.
Qed.
(** A symmetric file: the entries as listed, and the mirror images. *)
Theorem convert_symmetric R fs name1 name2 more file b m es :
  runtime_ok R -> text_name name1 -> fs name1 = Some file -> coordinate_file scan_g of_ll one b Symmetric [m; m; Zlen es] es file -> kind_ok b Symmetric ->
  0 <= m -> (forall x y v, In (x, (y, v)) es -> 1 <= x <= m /\ 1 <= y <= m) ->
  let E := from_base 1 es in
  exists rows A, rows_sorted_from (coo_rows m (E ++ mirror_images E)) rows /\ named R fs name1 0 false 1 = Some A /\ rep true 0 m rows A /\
    convert R fs true (name1 :: name2 :: more) = Some (0, write_file fs name2 (file_of encd m rows)).
Proof.
  intros HR HT HF HC HK Hm HB E. pose proof HR as (HJ & _).
  destruct (load_symmetric scan_g of_ll one (r_fuel R) (r_s1 R) (r_mm R) b Symmetric m es file false false false 1 m) as (C & L & RC); auto; try lia.
  1: split; [apply Z.divide_1_l|lia].
  cbv zeta in RC. fold E in RC. unfold unit_diag in RC. rewrite zrange_nil in RC by lia. cbn [map app] in RC.
  assert (HE : forall x y v, In (x, (y, v)) E -> 0 <= x < m /\ 0 <= y < m).
  { intros x y v Hi. unfold E, from_base in Hi. apply in_map_iff in Hi as ((x', (y', v')) & Eq & Hi). apply HB in Hi. injection Eq as <- <- <-. cbn [fst snd]. lia. }
  destruct (convert_core R fs name1 name2 more file b Symmetric m m (Zlen es) es true C m m (E ++ mirror_images E)) as (rows & A & H1 & H2 & H3 & H4 & _); auto; [|exists rows, A; auto].
  intros x y v Hi. apply in_app_iff in Hi as [Hi|Hi]; [now apply HE in Hi|]. unfold mirror_images, flip in Hi. apply in_map_iff in Hi as ((x', (y', v')) & Eq & Hi). apply filter_In in Hi as (Hi & _). apply HE in Hi. injection Eq as <- <- <-. cbn [fst snd]. lia.
Qed.

(** An output file that cannot be opened: nothing is written, and the result is 0. *)
Theorem convert_unopened R fs name1 name2 more file b c m n es base :
  runtime_ok R -> text_name name1 -> fs name1 = Some file -> coordinate_file scan_g of_ll one b c [m; n; Zlen es] es file -> kind_ok b c -> c <> Symmetric ->
  0 <= m -> 0 <= n -> based base m n es -> convert R fs false (name1 :: name2 :: more) = Some (0, fs).
Proof.
  intros HR HT HF HC HK Hc Hm Hn HB. pose proof HR as (HJ & _).
  destruct (load_general scan_g of_ll one (r_fuel R) (r_s1 R) (r_mm R) b c m n es file false 1 m n base) as (C & L & RC); auto; try lia.
  1,2: split; [apply Z.divide_1_l|lia].
  unfold unit_diag in RC. rewrite zrange_nil, app_nil_r in RC by lia.
  destruct (convert_core R fs name1 name2 more file b c m n (Zlen es) es false C m n (from_base base es)) as (rows & A & _ & _ & _ & _ & H); auto. now apply based_ok.
Qed.

(** *** Arrays: the number of rows and the first column *)
Lemma numbers_skip x xs f g : numbers_text scan_g (x :: xs) g -> skip_ws f = skip_ws g -> exists r, scan_g (skip_ws f) = Some (x, r) /\ numbers_text scan_g xs r.
Proof.
  intros H E. inversion H as [|w x' t xs' r Hw Hx Hr HT]; subst. rewrite E, (number_skip scan_g x) by auto. exists r. split; auto. now apply Hx.
Qed.
Lemma read_all R xs m body a0 : numbers_text scan_g xs body -> 0 <= m <= Zlen xs -> Zlen a0 = m ->
  exists f, forZ 0 m (read_v scan_g R) (body, a0) = Some (f, slice xs 0 m).
Proof.
  intros HT Hm La.
  destruct (forZ_rule (fun i s => exists g, skip_ws (fst s) = skip_ws g /\ numbers_text scan_g (slice xs i (Zlen xs)) g /\ Zlen (snd s) = m /\ filled (snd s) (slice xs 0 i)) 0 m (read_v scan_g R) (body, a0)) as ((f & a) & E & HI); [lia| | |].
  - exists body. cbn [fst snd]. rewrite slice_full, slice_nil by lia. do 3 (split; [auto|]). apply filled_nil.
  - intros i (f, a) Hi (g & Eg & HG & La' & HF). cbn [fst snd] in *. destruct (get_in_range xs i) as (x & Ex); [lia|]. rewrite (slice_cons xs i (Zlen xs) x) in HG by (auto; lia).
    destruct (numbers_skip _ _ _ _ HG Eg) as (r & Er & HT'). unfold read_v. cbn [fst snd]. rewrite Er. destruct (set_ok a i x) as (a' & Ea); [lia|]. rewrite Ea. eexists. split; [reflexivity|].
    exists r. cbn [fst snd]. split; [apply skip_ws_idem|]. split; auto. split; [rewrite (set_len _ _ _ _ Ea); auto|].
    rewrite (slice_snoc xs 0 i x) by (auto; lia). apply filled_snoc with a; auto. rewrite Zlen_slice by lia. now rewrite Z.sub_0_r.
  - destruct HI as (g & _ & _ & La' & HF). cbn [fst snd] in *. exists f. rewrite E. do 2 f_equal. rewrite <- (slice_full a), La'.
    replace m with (Zlen (slice xs 0 m)) at 1 by (rewrite Zlen_slice by lia; lia). apply filled_slice; auto. rewrite Zlen_slice by lia. lia.
Qed.
Theorem convert_array R fs name1 name2 more file b c m n xs :
  runtime_ok R -> fs name1 = Some file -> array_file scan_g b c m n xs file -> b <> Pattern -> ~ (b = Real /\ c = Hermitian) -> 0 <= m <= Zlen xs ->
  convert R fs true (name1 :: name2 :: more) = Some (0, write_file fs name2 (enc32 m ++ concat (map encd (slice xs 0 m)))) /\
  convert R fs false (name1 :: name2 :: more) = Some (-1, fs).
Proof.
  intros (_ & HU) HF HA Hb Hh Hm. destruct (array_header scan_g (r_fuel R) b c m n xs file HA) as (f & body & E1 & E2 & HT).
  unfold mtx2bin. rewrite HF, E1. unfold mm_read_mtx_array_size. rewrite E2.
  replace (mm_is_valid (code Array b c)) with true by (destruct b, c; try reflexivity; exfalso; intuition congruence). change (tfmt (code Array b c) =? cA) with true. cbn [andb Z.eqb].
  replace (m <? 0) with false by lia. destruct (read_all R xs m body (r_nums R 0%nat m) HT Hm) as (f' & ->); [apply HU; lia|]. auto.
Qed.

(** *** Reading the binary file *)
Hypothesis encd_8 : forall v, Zlen (encd v) = 8.
Hypothesis decd_encd : forall v, decd (encd v) = v.
Theorem named_binary fs name n rows : bin_name name -> fits_int n rows -> fs name = Some (file_of encd n rows) ->
  forall R base pad, runtime_ok R -> base = 0 \/ base = 1 -> exists B, named R fs name base false pad = Some B /\ rep true base n rows B /\ diag_described recip base rows B.
Proof.
  intros HN HI HF R base pad (_ & HU) Hb. rewrite named_bin, HF by auto.
  destruct (load_file encd decd recip encd_8 decd_encd n rows base (r_s3 R) (r_s4 R) (r_ints R 0%nat) (r_nums R 0%nat) (r_nums R 1%nat)) as (B & E & H1 & _ & H2); auto; [|eauto].
  intros k Hk. split; [now apply HU|]. split; now apply HU.
Qed.
Lemma fits_sorted m n (es : list (Z * (Z * V))) rows : 0 <= m < 2 ^ 31 -> 0 <= n < 2 ^ 31 -> Zlen es < 2 ^ 31 -> coo_ok m n es -> rows_sorted_from (coo_rows m es) rows -> fits_int n rows.
Proof.
  intros Hm Hn He HO HS. destruct (sorted_entries m n es rows ltac:(lia) HO HS) as (L1 & L2 & L3). pose proof (Zlen_nonneg es). unfold fits_int, BinIO.int32. rewrite L1, L2. do 3 (split; [lia|]).
  intros r c v Hr Hc. specialize (L3 _ _ _ Hr Hc). lia.
Qed.

(** Converting a general file and reading the result: the matrix is the same as the
    one read from the text. *)
Theorem convert_reads R fs name1 name2 more file b c m n es base :
  runtime_ok R -> text_name name1 -> fs name1 = Some file -> coordinate_file scan_g of_ll one b c [m; n; Zlen es] es file -> kind_ok b c -> c <> Symmetric ->
  0 <= m < 2 ^ 31 -> 0 <= n < 2 ^ 31 -> Zlen es < 2 ^ 31 -> based base m n es -> bin_name name2 ->
  exists rows A fs', named R fs name1 0 false 1 = Some A /\ rep true 0 n rows A /\ rows_sorted_from (coo_rows m (from_base base es)) rows /\
    convert R fs true (name1 :: name2 :: more) = Some (0, fs') /\ (forall x, x <> name2 -> fs' x = fs x) /\
    forall R' base' pad, runtime_ok R' -> base' = 0 \/ base' = 1 -> exists B, named R' fs' name2 base' false pad = Some B /\ rep true base' n rows B /\ diag_described recip base' rows B.
Proof.
  intros HR HT HF HC HK Hc Hm Hn He HB HN.
  destruct (convert_general R fs name1 name2 more file b c m n es base) as (rows & A & H1 & H2 & H3 & H4); auto; try lia.
  exists rows, A, (write_file fs name2 (file_of encd n rows)). do 4 (split; [auto|]). split.
  - intros x Hx. unfold write_file. destruct (zeqs x name2) eqn:E; auto. now apply zeqs_eq in E.
  - apply named_binary; auto; [|unfold write_file; now rewrite zeqs_refl]. apply fits_sorted with m (from_base base es); auto; [now unfold from_base; rewrite Zlen_map|now apply based_ok].
Qed.
End Proofs.

(** ** Cases *)
Lemma small_lead_letter c s : isspace c = false -> isdigit c = false -> c <> 43 -> c <> 45 -> small_lead (c :: s).
Proof.
  intros H1 H2 H3 H4 w t r x E Hw (sg & ds & -> & Hne & Hd & Hs) _. exfalso. destruct w as [|y w]; [|injection E as <- _; inversion Hw; congruence].
  destruct Hs as [(-> & _)|[(-> & _)|(-> & _)]]; cbn [app] in E; [|injection E as -> _; lia|injection E as -> _; lia].
  destruct ds as [|y ds]; [easy|]. injection E as -> _. inversion Hd. unfold isdigit in H2. lia.
Qed.
Lemma name_text : text_name (str "a.mtx").
Proof.
  split; [now apply small_lead_letter|]. split.
  - intros m E. destruct (pr_int_dec m) as (sg & ds & Ep & Hne & Hd & _). rewrite Ep in E. destruct (exists_last Hne) as (ds' & x & ->). assert (48 <= x <= 57) by (apply Forall_app in Hd as (_ & Hd); now inversion Hd).
    change (str "a.mtx") with ([97; 46; 109; 116] ++ [120]) in E. rewrite app_assoc in E. apply app_inj_tail in E as (_ & E). lia.
  - intros stem _ E. change (str "a.mtx") with ([97; 46; 109; 116] ++ [120]) in E. change (str ".bin") with ([46; 98; 105] ++ [110]) in E. rewrite app_assoc in E. apply app_inj_tail in E as (_ & E). discriminate.
Qed.
Lemma name_bin : bin_name (str "a.bin").
Proof. split; [now apply small_lead_letter|]. exists (str "a"). split; [discriminate|reflexivity]. Qed.

(** Numbers are integers; the first of the eight bytes is the number. *)
Definition zenc (v : Z) : list Z := [v; 0; 0; 0; 0; 0; 0; 0].
Definition zdec (l : list Z) : Z := match l with v :: _ => v | [] => 0 end.
Definition zrun : runtime Z :=
  mkRun 10 [] [] (fun _ => []) (fun _ => []) (zjunk 2) (fun _ k => repeat 77 (Z.to_nat k)) (fun _ k => repeat 88 (Z.to_nat k)) 99 (fun i => 1000 + i).
Definition zconvert := mtx2bin scan_num (fun x => x) 1 (fun x => x) zenc zdec 26 260 (-1) zrun.
Definition znamed := csr_named scan_num (fun x => x) 1 (fun x => x) zdec 26 260 (-1) zrun.
Definition one_file (name text : list Z) : files := write_file (fun _ => None) name text.

Lemma zrun_ok : runtime_ok zrun.
Proof. split; [apply zjunk_ok|]. intros k z Hz. cbn. rewrite !Zlen_repeat. lia. Qed.
Lemma zenc_ok : (forall v, Zlen (zenc v) = 8) /\ (forall v, zdec (zenc v) = v). Proof. split; reflexivity. Qed.
Definition reads (r : option (Z * files)) (name : list Z) : option (Z * option (list Z)) := ' (rc, fs) <- r ;; Some (rc, fs name).

Lemma convert_case : reads (zconvert (one_file (str "a.mtx") f_general) true [str "a.mtx"; str "a.bin"]) (str "a.bin") =
  Some (0, Some (file_of zenc 3 [[(2, 7)]; [(0, -5)]])).
Proof. vm_compute. reflexivity. Qed.
Lemma convert_column : reads (zconvert (one_file (str "v.mtx") f_column) true [str "v.mtx"; str "v.bin"]) (str "v.bin") = Some (0, Some (enc32 3 ++ zenc 4 ++ zenc 5 ++ zenc 6)).
Proof. vm_compute. reflexivity. Qed.
(** Fewer than two names. *)
Lemma convert_usage : reads (zconvert (one_file (str "v.mtx") f_column) true [str "v.mtx"]) (str "v.bin") = Some (-1, None).
Proof. vm_compute. reflexivity. Qed.

(** Two arrays that differ in the second column become the same file. *)
Definition f_array2 := lines ["%%MatrixMarket matrix array integer general"; "2 2"; "1"; "2"; "8"; "9"]%string.
Lemma file_array2 : array_file scan_num Integer General 2 2 [1; 2; 8; 9] f_array2.
Proof.
  exists (str "%%MatrixMarket matrix array integer general"), [], (str "2 2"), (concat [str "1" ++ [NL]; str "2" ++ [NL]; str "8" ++ [NL]; str "9" ++ [NL]]).
  split; [reflexivity|]. split; [exact (printed_banner Array Integer General)|]. split; [constructor|]. split; [line_txt|]. split.
  - apply (next_int [] 2 (str "2") [2] (str " 2")); [ws_txt|dec_txt|unfold int32; lia|reflexivity|].
    apply (next_int [32] 2 (str "2") [] []); [ws_txt|dec_txt|unfold int32; lia|exact I|constructor].
  - apply (num_lines [1; 2; 8; 9] []). constructor.
Qed.
Lemma columns_lost : array_file scan_num Integer General 2 2 [1; 2; 3; 4] f_array /\ array_file scan_num Integer General 2 2 [1; 2; 8; 9] f_array2 /\
  reads (zconvert (one_file (str "v.mtx") f_array) true [str "v.mtx"; str "v.bin"]) (str "v.bin") =
  reads (zconvert (one_file (str "v.mtx") f_array2) true [str "v.mtx"; str "v.bin"]) (str "v.bin").
Proof. split; [exact file_array|]. split; [exact file_array2|]. vm_compute. reflexivity. Qed.
(** A file that ends early: the contents of uninitialised memory are written, and
    the result is 0. *)
Definition f_cut_column := lines ["%%MatrixMarket matrix array integer general"; "3 1"; "4"]%string.
Lemma cut_written : reads (zconvert (one_file (str "v.mtx") f_cut_column) true [str "v.mtx"; str "v.bin"]) (str "v.bin") = Some (0, Some (enc32 3 ++ zenc 4 ++ zenc 1001 ++ zenc 1002)).
Proof. vm_compute. reflexivity. Qed.
(** A file whose name is a number is not read: the Laplacian of that size is made. *)
Lemma number_name : option_map (fun A => (cm A, cn A)) (znamed (one_file (str "2") f_general) (str "2") 0 false 1) = Some (8, 8) /\
  option_map (fun A => (cm A, cn A)) (znamed (one_file (str "02") f_general) (str "02") 0 false 1) = Some (2, 3).
Proof. split; vm_compute; reflexivity. Qed.
(** The output is not read back when its name does not end in ".bin". *)
Lemma other_name : exists fs', zconvert (one_file (str "a.mtx") f_general) true [str "a.mtx"; str "a.out"] = Some (0, fs') /\ znamed fs' (str "a.out") 0 false 1 = None.
Proof. eexists. split; [vm_compute; reflexivity|]. vm_compute. reflexivity. Qed.
(** A missing input file. *)
Lemma missing_input : zconvert (fun _ => None) true [str "a.mtx"; str "a.bin"] = None.
Proof. reflexivity. Qed.
