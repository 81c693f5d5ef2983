(** * Matrix Market files: files with too many entries, and worked cases *)
From Coq Require Import String.
From Verif Require Import Base Interleave Spec Csr Transpose Coo Tasks SymPattern MmText MmIo MmLoad MmSym MmVec.
Open Scope Z_scope.

(** *** A file with more entries than its header says *)

Section TooMany.
Context {V : Type}.
Variable scan_g : list Z -> option (V * list Z).
Variable of_ll : Z -> V.
Variable one : V.

Lemma entries_inv b x y v es f : entries_text scan_g of_ll one b ((x, (y, v)) :: es) f ->
  exists w te r, f = w ++ te ++ r /\ all_ws w /\ entry_text scan_g of_ll one b x y v te /\ delimited r.
Proof. intros H. inversion H; subst. eauto 10. Qed.

(** The entry after the last that fits is stored outside the arrays. *)
Lemma load_overflows fuel sch j b c m0 n0 nnz es file (tr : bool) :
  coordinate_file scan_g of_ll one b c [m0; n0; nnz] es file -> kind_ok b c -> c <> Symmetric -> mm_junk_ok j -> 0 <= m0 -> 0 <= n0 -> 0 <= nnz < Zlen es ->
  (forall x y v, In (x, (y, v)) es -> x <= m0 /\ y <= n0) ->
  loadMatrixMarket_ scan_g of_ll one fuel sch j file false false tr 1 = None.
Proof.
  intros HF HK Hc HJ Hm Hn Hz HR. destruct (header_ok scan_g of_ll one fuel _ _ _ _ _ _ HF) as (f & body & E1 & E2 & HE).
  unfold loadMatrixMarket_. rewrite E1. cbn [Z.eqb negb]. rewrite kind_valid by auto.
  unfold mm_read_mtx_crd_size. change 3%nat with (List.length [m0; n0; nnz]). rewrite E2. cbv beta iota.
  replace (negb (tr && false)) with true by (destruct tr; reflexivity). cbv beta iota zeta. replace (1 =? 0) with false by reflexivity.
  set (oM := if tr then n0 else m0). set (oN := if tr then m0 else n0).
  replace (Z.quot (oM + 1 - 1) 1 * 1) with oM by (rewrite Z.quot_1_r; lia). replace (Z.quot (oN + 1 - 1) 1 * 1) with oN by (rewrite Z.quot_1_r; lia).
  replace (false || (tsym (code Coordinate b c) =? cS)) with false by (destruct c; [reflexivity|contradiction|reflexivity|reflexivity]). cbn [orb andb].
  replace (nnz + (Z.min oM oN - Z.min oM oN)) with nnz by lia. replace (nnz <? 0) with false by lia. destruct (HJ nnz) as (J1 & J2 & J3 & _); [lia|].
  destruct (get_in_range es nnz) as ((x, (y, v)) & Ge); [lia|].
  assert (Es : es = slice es 0 nnz ++ (x, (y, v)) :: slice es (nnz + 1) (Zlen es)).
  { rewrite <- (slice_full es) at 1. rewrite (slice_app es 0 nnz (Zlen es)) by lia. f_equal. apply slice_cons; auto; lia. }
  assert (L1 : Zlen (slice es 0 nnz) = nnz) by (rewrite Zlen_slice; lia).
  assert (HR' : forall x y v, In (x, (y, v)) (swapped tr (slice es 0 nnz)) -> x <= oM /\ y <= oN /\ (false = true -> 0 <= x <= oM)).
  { intros x' y' v' Hi. apply In_swapped in Hi. unfold oM, oN. destruct tr; apply In_slice, HR in Hi; repeat split; try lia; discriminate. }
  rewrite Es in HE.
  destruct (read_loop_steps scan_g of_ll one b c tr false oM oN nnz oM ((x, (y, v)) :: slice es (nnz + 1) (Zlen es)) 1 (slice es 0 nnz) body []
    (jri j nnz, jci j nnz, jvs j nnz, repeat 0 (Z.to_nat (oM + 1))) (jri j nnz) (jci j nnz) (jvs j nnz) (repeat 0 (Z.to_nat (oM + 1))))
    as (f' & ri' & ci' & vs' & rc' & T & E & R1 & _); try apply filled_nil; auto; try discriminate.
  { rewrite Zlen_nil. lia. }
  replace (List.length (slice es 0 nnz) + 1)%nat with (S (Z.to_nat nnz)) in E by (unfold Zlen in L1; lia).
  change (Zlen (@nil (Z * (Z * V)))) with 0 in E. cbn [app zero_based existsb] in E. rewrite E. clear E.
  destruct (entries_inv _ _ _ _ _ _ T) as (w & te & r & -> & Hw & He & Hr).
  destruct (read_entry_ok scan_g of_ll one b c x y v te w r He Hw Hr) as (re & r' & E' & _). cbn [read_loop]. rewrite E'.
  assert (Hin : In (x, (y, v)) es) by (now apply get_In in Ge). apply HR in Hin.
  replace ((oM <? (if tr then y else x)) || (oN <? (if tr then x else y))) with false by (unfold oM, oN; destruct tr; lia).
  rewrite L1, Z.add_0_l. replace (set ri' nnz (if tr then y else x)) with (@None (list Z)); [reflexivity|].
  symmetry. apply set_none. lia.
Qed.
End TooMany.

(** ** Worked cases: the values are integers *)

Definition scan_num (f : list Z) : option (Z * list Z) := match scan_d (fun _ => true) f with Some (Got x, r) => Some (x, r) | _ => None end.
Definition zjunk (x : Z) : mm_junk Z := let a k := repeat x (Z.to_nat k) in mkMmJunk a a a a.
Definition lines (ls : list string) : list Z := concat (map (fun s => str s ++ [NL]) ls).
Definition zload := @loadMatrixMarket Z scan_num (fun x => x) 1 10 [] (zjunk 2).
Definition zloadT := @loadMatrixMarketTransposed Z scan_num (fun x => x) 1 10 [] (zjunk 2).

Lemma zjunk_ok x : mm_junk_ok (zjunk x).
Proof. intros k Hk. cbn. repeat split; rewrite Zlen_repeat; lia. Qed.

Definition f_general := lines ["%%MatrixMarket matrix coordinate integer general"; "% a comment"; " 2  3 2"; "1 3 7"; "2 1 -5"]%string.
Definition f_zero := lines ["%%MatrixMarket matrix coordinate integer general"; "2 3 2"; "0 2 7"; "1 0 -5"]%string.
Definition f_symmetric := lines ["%%MatrixMarket matrix coordinate integer symmetric"; "3 3 3"; "1 1 4"; "2 1 7"; "3 2 9"]%string.
Definition f_many := lines ["%%MatrixMarket matrix coordinate integer general"; "2 2 1"; "1 1 5"; "2 2 6"]%string.
Definition f_few := lines ["%%MatrixMarket matrix coordinate integer general"; "2 2 2"; "1 1 5"]%string.
Definition f_far := lines ["%%MatrixMarket matrix coordinate integer general"; "2 2 1"; "1 3 5"]%string.
Definition f_negative := lines ["%%MatrixMarket matrix coordinate integer general"; "2 2 1"; "-1 1 5"]%string.
Definition f_negative_sym := lines ["%%MatrixMarket matrix coordinate integer symmetric"; "2 2 1"; "-1 1 5"]%string.
Definition f_word := lines ["%%MatrixMarket matrix coordinate integer generalgeneralgeneralgeneralgeneralgeneralgeneralgeneralgeneralgeneral"; "1 1 0"]%string.
Definition f_hang := lines ["%%MatrixMarket matrix coordinate integer general"; "size"; "size"; "1 1 1"; "1 1 1"]%string.
Definition f_lower := lines ["%%MatrixMarket matrix coordinate integer general"; "2 2 1"; "2 1 5"]%string.
Definition f_zero_sym := lines ["%%MatrixMarket matrix coordinate integer symmetric"; "3 3 3"; "0 0 4"; "1 0 7"; "2 1 9"]%string.
Definition f_empty_sym := lines ["%%MatrixMarket matrix coordinate integer symmetric"; "3 3 0"]%string.
Definition f_wide := lines ["%%MatrixMarket matrix coordinate integer general"; "2 4 1"; "1 4 5"]%string.
Definition f_edge := lines ["%%MatrixMarket matrix coordinate integer general"; "2 2 2"; "0 0 5"; "2 1 6"]%string.


Ltac dec_txt := match goal with |- dec_text ?x _ => exact (pr_int_dec x) end.
Ltac ws_txt := repeat (constructor; [first [reflexivity|split; [reflexivity|discriminate]]|]); constructor.
Ltac line_txt := split; [repeat (constructor; [split; discriminate|]); constructor|cbn; lia].

Lemma banner_case b c : banner_line Coordinate b c (str "%%MatrixMarket matrix coordinate " ++ str (data_word b) ++ [32] ++ str (storage_word c)).
Proof. exact (printed_banner Coordinate b c). Qed.

Lemma int_entry x y k : int32 x -> int32 y -> - 2 ^ 63 <= k < 2 ^ 63 -> entry_text scan_num (fun x => x) 1 Integer x y k (pr_int x ++ [32] ++ pr_int y ++ [32] ++ pr_int k).
Proof. intros. apply (integer_entry scan_num (fun x => x) 1 x y k); auto using pr_int_dec; try discriminate; ws_txt. Qed.

(** Lines of entries. *)
Lemma int_entries es : (forall x y k, In (x, (y, k)) es -> int32 x /\ int32 y /\ - 2 ^ 63 <= k < 2 ^ 63) -> forall w, all_ws w ->
  entries_text scan_num (fun x => x) 1 Integer es (w ++ concat (map (fun e => (pr_int (fst e) ++ [32] ++ pr_int (fst (snd e)) ++ [32] ++ pr_int (snd (snd e))) ++ [NL]) es)).
Proof.
  induction es as [|(x, (y, k)) es IH]; intros H w Hw; cbn [map concat].
  - rewrite app_nil_r. now constructor.
  - cbn [fst snd]. rewrite <- (app_assoc _ [NL]). constructor; auto.
    + destruct (H x y k) as (? & ? & ?); [now left|]. now apply int_entry.
    + reflexivity.
    + apply IH; [intros; apply H; now right|]. ws_txt.
Qed.

Lemma file_general : coordinate_file scan_num (fun x => x) 1 Integer General [2; 3; 2] [(1, (3, 7)); (2, (1, -5))] f_general.
Proof.
  exists (str "%%MatrixMarket matrix coordinate integer general"), [str "% a comment"], (str " 2  3 2"), (concat [str "1 3 7" ++ [NL]; str "2 1 -5" ++ [NL]]).
  split; [reflexivity|]. split; [exact (banner_case Integer General)|]. split; [constructor; [|constructor]; split; [line_txt|eexists; reflexivity]|]. split; [line_txt|]. split.
  - apply (next_int [32] 2 (str "2") [3; 2] (str "  3 2")); [ws_txt|dec_txt|unfold int32; lia|reflexivity|].
    apply (next_int [32; 32] 3 (str "3") [2] (str " 2")); [ws_txt|dec_txt|unfold int32; lia|reflexivity|].
    apply (next_int [32] 2 (str "2") [] []); [ws_txt|dec_txt|unfold int32; lia|exact I|constructor].
  - apply (int_entries [(1, (3, 7)); (2, (1, -5))]) with (w := []); [|constructor]. intros x y k [H|[H|[]]]; injection H as <- <- <-; unfold int32; lia.
Qed.

Lemma file_symmetric : coordinate_file scan_num (fun x => x) 1 Integer Symmetric [3; 3; 3] [(1, (1, 4)); (2, (1, 7)); (3, (2, 9))] f_symmetric.
Proof.
  exists (str "%%MatrixMarket matrix coordinate integer symmetric"), [], (str "3 3 3"), (concat [str "1 1 4" ++ [NL]; str "2 1 7" ++ [NL]; str "3 2 9" ++ [NL]]).
  split; [reflexivity|]. split; [exact (banner_case Integer Symmetric)|]. split; [constructor|]. split; [line_txt|]. split.
  - apply (next_int [] 3 (str "3") [3; 3] (str " 3 3")); [ws_txt|dec_txt|unfold int32; lia|reflexivity|].
    apply (next_int [32] 3 (str "3") [3] (str " 3")); [ws_txt|dec_txt|unfold int32; lia|reflexivity|].
    apply (next_int [32] 3 (str "3") [] []); [ws_txt|dec_txt|unfold int32; lia|exact I|constructor].
  - apply (int_entries [(1, (1, 4)); (2, (1, 7)); (3, (2, 9))]) with (w := []); [|constructor]. intros x y k [H|[H|[H|[]]]]; injection H as <- <- <-; unfold int32; lia.
Qed.

Lemma file_many : coordinate_file scan_num (fun x => x) 1 Integer General [2; 2; 1] [(1, (1, 5)); (2, (2, 6))] f_many.
Proof.
  exists (str "%%MatrixMarket matrix coordinate integer general"), [], (str "2 2 1"), (concat [str "1 1 5" ++ [NL]; str "2 2 6" ++ [NL]]).
  split; [reflexivity|]. split; [exact (banner_case Integer General)|]. split; [constructor|]. split; [line_txt|]. split.
  - apply (next_int [] 2 (str "2") [2; 1] (str " 2 1")); [ws_txt|dec_txt|unfold int32; lia|reflexivity|].
    apply (next_int [32] 2 (str "2") [1] (str " 1")); [ws_txt|dec_txt|unfold int32; lia|reflexivity|].
    apply (next_int [32] 1 (str "1") [] []); [ws_txt|dec_txt|unfold int32; lia|exact I|constructor].
  - apply (int_entries [(1, (1, 5)); (2, (2, 6))]) with (w := []); [|constructor]. intros x y k [H|[H|[]]]; injection H as <- <- <-; unfold int32; lia.
Qed.

Lemma general_case : zload f_general false false 1 = Some (false, Some (mkCOO 2 3 2 [1; 2] [3; 1] [7; -5])).
Proof. vm_compute. reflexivity. Qed.
Lemma padded_case : zload f_general false false 4 = Some (false, Some (mkCOO 4 4 4 [1; 2; 3; 4] [3; 1; 3; 4] [7; -5; 1; 1])).
Proof. vm_compute. reflexivity. Qed.
Lemma transposed_case : zloadT f_general false 1 = Some (false, Some (mkCOO 3 2 2 [3; 1] [1; 2] [7; -5])).
Proof. vm_compute. reflexivity. Qed.
Lemma zero_based_case : zload f_zero false false 1 = Some (false, Some (mkCOO 2 3 2 [1; 2] [3; 1] [7; -5])).
Proof. vm_compute. reflexivity. Qed.
Lemma symmetric_case : zload f_symmetric false false 4 = Some (true, Some (mkCOO 4 4 6 [1; 2; 3; 4; 1; 2] [1; 1; 2; 4; 2; 3] [4; 7; 9; 1; 7; 9])).
Proof. vm_compute. reflexivity. Qed.
Lemma rejected_case : zload f_few false false 1 = Some (false, None) /\ zload f_far false false 1 = Some (false, None).
Proof. split; vm_compute; reflexivity. Qed.
Lemma many_case : zload f_many false false 1 = None.
Proof. vm_compute. reflexivity. Qed.

(** *** What the loader gets wrong *)

Lemma negative_case : zload f_negative false false 1 = Some (false, Some (mkCOO 2 2 1 [-1] [1] [5])).
Proof. vm_compute. reflexivity. Qed.
Lemma edge_case : zload f_edge false false 1 = Some (false, Some (mkCOO 2 2 2 [1; 3] [1; 2] [5; 6])).
Proof. vm_compute. reflexivity. Qed.
Lemma zero_padded_case : zload f_zero false false 4 = Some (false, Some (mkCOO 4 4 4 [1; 2; 4; 5] [3; 1; 4; 5] [7; -5; 1; 1])).
Proof. vm_compute. reflexivity. Qed.
Lemma zero_symmetric_case : zload f_zero_sym false false 1 = Some (true, Some (mkCOO 3 3 4 [1; 2; 3; 2] [1; 1; 2; 3] [4; 7; 9; 9])).
Proof. vm_compute. reflexivity. Qed.
Lemma unsafe_cases : zload f_negative_sym false false 1 = None /\ zload f_word false false 1 = None /\ zload f_lower true false 1 = None /\
  zload f_empty_sym false false 4 = None /\ zload f_wide false true 1 = None.
Proof. repeat split; vm_compute; reflexivity. Qed.
(** The same file without the earlier symmetric load is read. *)
Lemma lower_case : zload f_lower false false 1 = Some (false, Some (mkCOO 2 2 1 [2] [1] [5])).
Proof. vm_compute. reflexivity. Qed.

(** A size line without a number: the loop that looks for the sizes reads the same
    text again and again. *)
Lemma hang_case fuel sch j : loadMatrixMarket_ scan_num (fun x => x) 1 fuel sch j f_hang false false false 1 = None.
Proof.
  assert (E1 : mm_read_banner f_hang = Some (0, code Coordinate Integer General, lines ["size"; "size"; "1 1 1"; "1 1 1"]%string)) by (vm_compute; reflexivity).
  unfold loadMatrixMarket_. rewrite E1. cbn [Z.eqb negb]. rewrite kind_valid by (split; intuition congruence).
  assert (E2 : mm_read_mtx_crd_size fuel (lines ["size"; "size"; "1 1 1"; "1 1 1"]%string) = None); [|now rewrite E2].
  change (mm_read_mtx_crd_size fuel (lines ["size"; "size"; "1 1 1"; "1 1 1"]%string)) with (size_loop fuel 3 (lines ["size"; "1 1 1"; "1 1 1"]%string)).
  induction fuel as [|fuel IH]; [reflexivity|]. exact IH.
Qed.

(** *** Array files *)

Definition f_column := lines ["%%MatrixMarket matrix array integer general"; "3 1"; "4"; "5"; "6"]%string.
Definition f_array := lines ["%%MatrixMarket matrix array integer general"; "2 2"; "1"; "2"; "3"; "4"]%string.
Definition f_no_column := lines ["%%MatrixMarket matrix array integer general"; "2 0"; "7"; "8"]%string.

Lemma num_text x : number_text scan_num x (pr_int x).
Proof.
  split.
  - destruct (dec_text_chars _ _ (pr_int_dec x)) as (N & F). destruct (pr_int x); [easy|]. now inversion F.
  - intros r Hr. unfold scan_num. change (pr_int x ++ r) with ([] ++ pr_int x ++ r). rewrite (scan_d_text (fun _ => true) x); auto using pr_int_dec; [constructor|now apply delim_no_digit].
Qed.

Lemma num_lines xs : forall w, all_ws w -> numbers_text scan_num xs (w ++ concat (map (fun x => pr_int x ++ [NL]) xs)).
Proof.
  induction xs as [|x xs IH]; intros w Hw; cbn [map concat]; [constructor|]. rewrite <- (app_assoc _ [NL]). constructor; auto using num_text; [reflexivity|]. apply IH. ws_txt.
Qed.

Lemma file_column : array_file scan_num Integer General 3 1 [4; 5; 6] f_column.
Proof.
  exists (str "%%MatrixMarket matrix array integer general"), [], (str "3 1"), (concat [str "4" ++ [NL]; str "5" ++ [NL]; str "6" ++ [NL]]).
  split; [reflexivity|]. split; [exact (printed_banner Array Integer General)|]. split; [constructor|]. split; [line_txt|]. split.
  - apply (next_int [] 3 (str "3") [1] (str " 1")); [ws_txt|dec_txt|unfold int32; lia|reflexivity|].
    apply (next_int [32] 1 (str "1") [] []); [ws_txt|dec_txt|unfold int32; lia|exact I|constructor].
  - apply (num_lines [4; 5; 6] []). constructor.
Qed.

Lemma file_array : array_file scan_num Integer General 2 2 [1; 2; 3; 4] f_array.
Proof.
  exists (str "%%MatrixMarket matrix array integer general"), [], (str "2 2"), (concat [str "1" ++ [NL]; str "2" ++ [NL]; str "3" ++ [NL]; str "4" ++ [NL]]).
  split; [reflexivity|]. split; [exact (printed_banner Array Integer General)|]. split; [constructor|]. split; [line_txt|]. split.
  - apply (next_int [] 2 (str "2") [2] (str " 2")); [ws_txt|dec_txt|unfold int32; lia|reflexivity|].
    apply (next_int [32] 2 (str "2") [] []); [ws_txt|dec_txt|unfold int32; lia|exact I|constructor].
  - apply (num_lines [1; 2; 3; 4] []). constructor.
Qed.

Lemma array_cases : let load := loadVectorMatrixMarket scan_num 10 (fun k => repeat 0 (Z.to_nat k)) in
  load f_column = Some (Some (3, 1, [4; 5; 6])) /\ load f_array = Some (Some (2, 2, [1; 2; 3; 4])) /\ load f_no_column = None.
Proof. repeat split; vm_compute; reflexivity. Qed.

(** The element in row 0 and column 1 of the file is 3, the array has 2 there. *)
Lemma array_transposed : exists fuel junk file xs v, array_file scan_num Integer General 2 2 xs file /\ Zlen xs = 2 * 2 /\ (forall k, 0 <= k -> Zlen (junk k) = k) /\
  loadVectorMatrixMarket scan_num fuel junk file = Some (Some (2, 2, v)) /\ get v (0 * 2 + 1) = Some 2 /\ array_element 2 xs 0 1 = Some 3.
Proof.
  exists 10%nat, (fun k => repeat 0 (Z.to_nat k)), f_array, [1; 2; 3; 4], [1; 2; 3; 4]. split; [exact file_array|]. split; [reflexivity|]. split; [intros; rewrite Zlen_repeat; lia|].
  split; [apply array_cases|]. split; reflexivity.
Qed.
