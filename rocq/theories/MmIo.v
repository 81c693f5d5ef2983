(** * The Matrix Market library: banner, sizes, entries (mm_io.cpp) *)
From Coq Require Import String.
From Verif Require Import Base Spec MmText.
Open Scope Z_scope.

(** ** Type codes: mm_io.h:46-84 *)

Record typecode := mkTC { tobj : Z; tfmt : Z; tdata : Z; tsym : Z }.

(** The characters 'M' 'C' 'A' 'R' 'P' 'I' 'S' 'G' 'K' 'H' ' '. *)
Definition cM := 77. Definition cC := 67. Definition cA := 65. Definition cR := 82. Definition cP := 80.
Definition cI := 73. Definition cS := 83. Definition cG := 71. Definition cK := 75. Definition cH := 72. Definition cBlank := 32.

(** mm_io.h:86-87 *)
Definition clear_typecode : typecode := mkTC cBlank cBlank cBlank cG.

(** mm_io.cpp:11-51 *)
Definition mm_is_valid (t : typecode) : bool :=
  if negb (tobj t =? cM) then false
  else if (tfmt t =? cA) && (tdata t =? cP) then false
  else if (tdata t =? cR) && (tsym t =? cH) then false
  else if (tdata t =? cP) && ((tsym t =? cH) || (tsym t =? cK)) then false
  else true.

Definition MM_PREMATURE_EOF := 12. Definition MM_NO_HEADER := 14. Definition MM_UNSUPPORTED_TYPE := 15. Definition MM_COULD_NOT_WRITE_FILE := 17.

Definition sBanner := str "%%MatrixMarket". Definition sMatrix := str "matrix".
Definition sArray := str "array". Definition sCoordinate := str "coordinate".
Definition sComplex := str "complex". Definition sReal := str "real". Definition sInteger := str "integer". Definition sPattern := str "pattern".
Definition sGeneral := str "general". Definition sSymmetric := str "symmetric". Definition sHermitian := str "hermitian". Definition sSkew := str "skew-symmetric".

(** mm_io.cpp:72-88: the five words of the first line.  The result [Some None]
    is a line with fewer words; [None] is a word that overflows its buffer of 64
    characters (MM_MAX_TOKEN_LENGTH). *)
Fixpoint scan_words (k : nat) (f : list Z) : option (option (list (list Z))) :=
  match k with
  | O => Some (Some [])
  | S k => match scan_s f with
           | None => Some None
           | Some (w, r) => if Zlen w <? 64 then ws <- scan_words k r ;; Some (option_map (cons w) ws) else None
           end
  end.

(** mm_io.cpp:54-158.  The result: error code, type code, rest of the file.
    [None] is undefined behaviour. *)
Definition mm_read_banner (f : list Z) : option (Z * typecode * list Z) :=
  let t0 := clear_typecode in
  match fgets 1024 f with
  | None => Some (MM_PREMATURE_EOF, t0, f)
  | Some (line, f) =>
      ws <- scan_words 5 (cstr line) ;;
      match ws with
      | Some [banner; mtx; crd; data; storage] =>
          let mtx := lower mtx in let crd := lower crd in let data := lower data in let storage := lower storage in
          if negb (prefixb sBanner banner) then Some (MM_NO_HEADER, t0, f)
          else if negb (zeqs mtx sMatrix) then Some (MM_UNSUPPORTED_TYPE, t0, f)
          else
            let t1 := mkTC cM (tfmt t0) (tdata t0) (tsym t0) in
            match (if zeqs crd sCoordinate then Some cC else if zeqs crd sArray then Some cA else None) with
            | None => Some (MM_UNSUPPORTED_TYPE, t1, f)
            | Some c1 =>
                let t2 := mkTC cM c1 (tdata t0) (tsym t0) in
                match (if zeqs data sReal then Some cR else if zeqs data sComplex then Some cC
                       else if zeqs data sPattern then Some cP else if zeqs data sInteger then Some cI else None) with
                | None => Some (MM_UNSUPPORTED_TYPE, t2, f)
                | Some c2 =>
                    let t3 := mkTC cM c1 c2 (tsym t0) in
                    match (if zeqs storage sGeneral then Some cG else if zeqs storage sSymmetric then Some cS
                           else if zeqs storage sHermitian then Some cH else if zeqs storage sSkew then Some cK else None) with
                    | None => Some (MM_UNSUPPORTED_TYPE, t3, f)
                    | Some c3 => Some (0, mkTC cM c1 c2 c3, f)
                    end
                end
            end
      | _ => Some (MM_PREMATURE_EOF, t0, f)
      end
  end.

(** mm_io.cpp:582-652.  [None]: types[0] is read uninitialised; [Some None]: NULL. *)
Definition mm_typecode_to_str (t : typecode) : option (option (list Z)) :=
  match (if tfmt t =? cC then Some sCoordinate else if tfmt t =? cA then Some sArray else None) with
  | None => Some None
  | Some w1 =>
      match (if tdata t =? cR then Some sReal else if tdata t =? cC then Some sComplex
             else if tdata t =? cP then Some sPattern else if tdata t =? cI then Some sInteger else None) with
      | None => Some None
      | Some w2 =>
          match (if tsym t =? cG then Some sGeneral else if tsym t =? cS then Some sSymmetric
                 else if tsym t =? cH then Some sHermitian else if tsym t =? cK then Some sSkew else None) with
          | None => Some None
          | Some w3 => if tobj t =? cM then Some (Some (sMatrix ++ [32] ++ w1 ++ [32] ++ w2 ++ [32] ++ w3)) else None
          end
      end
  end.

(** The comment lines: mm_io.cpp:195-201 and 442-448.  [fuel]: the length of the file. *)
Fixpoint skip_comments (fuel : nat) (f : list Z) : option (list Z * list Z) :=
  match fuel with
  | O => None
  | S fuel => ' (line, r) <- fgets 1024 f ;; if match line with c :: _ => c =? 37 | [] => false end then skip_comments fuel r else Some (line, r)
  end.

(** The loop of mm_io.cpp:211-219 and 458-465.  With [fuel] exhausted it has not
    ended: [None]. *)
Fixpoint size_loop (fuel k : nat) (f : list Z) : option (option (list Z) * list Z) :=
  match fuel with
  | O => None
  | S fuel => ' (l, e, r) <- scan_ints k f ;;
              if Nat.eqb (List.length l) k then Some (Some l, r)
              else match l, e with [], true => Some (None, r) | _, _ => size_loop fuel k r end
  end.

(** mm_io.cpp:404-468 with [k] = 3 and mm_io.cpp:161-222 with [k] = 2: the sizes, or [Some (None, _)] for an
    error code. *)
Definition read_sizes (fuel k : nat) (f : list Z) : option (option (list Z) * list Z) :=
  match skip_comments (S (List.length f)) f with
  | None => Some (None, [])
  | Some (line, r) =>
      ' (l, _, _) <- scan_ints k (cstr line) ;;
      if Nat.eqb (List.length l) k then Some (Some l, r) else size_loop fuel k r
  end.
Definition mm_read_mtx_crd_size fuel f := read_sizes fuel 3 f.
Definition mm_read_mtx_array_size fuel f := read_sizes fuel 2 f.

Section Values.
Context {V : Type}.
(** [%lg]: read a number at the start of the text; [None] if there is none.  White
    space in front has been skipped. *)
Variable scan_g : list Z -> option (V * list Z).
(** conversion from long long to double *)
Variable of_ll : Z -> V.

(** mm_io.cpp:357-401.  The entry as (row, column, value); the value of a pattern
    entry is not set ([None]).  [Some None]: an error code. *)
Definition read_entry (t : typecode) (f : list Z) : option (option (Z * Z * option V * list Z)) :=
  ' (l, _, r) <- scan_ints 2 f ;;
  match l with
  | [x; y] =>
      if tdata t =? cC then
        match scan_g (skip_ws r) with
        | Some (re, r) => match scan_g (skip_ws r) with Some (_, r) => Some (Some (x, y, Some re, r)) | None => Some None end
        | None => Some None
        end
      else if tdata t =? cR then
        match scan_g (skip_ws r) with Some (re, r) => Some (Some (x, y, Some re, skip_ws r)) | None => Some None end
      else if tdata t =? cI then
        ' (k, r) <- scan_d int64b r ;; match k with Got k => Some (Some (x, y, Some (of_ll k), skip_ws r)) | _ => Some None end
      else if tdata t =? cP then Some (Some (x, y, None, r))
      else Some None
  | _ => Some None
  end.
End Values.

(** ** Writers *)

(** mm_io.cpp:655-702, 765-790: return code and text written.  [fprintf]
    returns the number of characters. *)
Definition mm_write_banner (t : typecode) : option (Z * list Z) :=
  s <- mm_typecode_to_str t ;; w <- s ;;
  let out := sBanner ++ [32] ++ w ++ [NL] in Some (if negb (Zlen out =? 2) then MM_COULD_NOT_WRITE_FILE else 0, out).
Definition mm_write_mtx_array_size (M N : Z) : Z * list Z :=
  let out := pr_int M ++ [32] ++ pr_int N ++ [NL] in (if negb (Zlen out =? 2) then MM_COULD_NOT_WRITE_FILE else 0, out).
Definition mm_write_mtx_crd_size (M N nz : Z) : Z * list Z :=
  let out := pr_int M ++ [32] ++ pr_int N ++ [32] ++ pr_int nz ++ [NL] in (if negb (Zlen out =? 3) then MM_COULD_NOT_WRITE_FILE else 0, out).

(** ** Specification: the four words of a banner and what they mean *)

Inductive obj_format := Coordinate | Array.
Inductive data_type := Real | Complex | Pattern | Integer.
Inductive storage := General | Symmetric | Hermitian | Skew.

Definition format_word (x : obj_format) : string := match x with Coordinate => "coordinate" | Array => "array" end.
Definition data_word (x : data_type) : string := match x with Real => "real" | Complex => "complex" | Pattern => "pattern" | Integer => "integer" end.
Definition storage_word (x : storage) : string :=
  match x with General => "general" | Symmetric => "symmetric" | Hermitian => "hermitian" | Skew => "skew-symmetric" end.

Definition format_char (x : obj_format) : Z := match x with Coordinate => 67 | Array => 65 end.
Definition data_char (x : data_type) : Z := match x with Real => 82 | Complex => 67 | Pattern => 80 | Integer => 73 end.
Definition storage_char (x : storage) : Z := match x with General => 71 | Symmetric => 83 | Hermitian => 72 | Skew => 75 end.
(** The type code of a matrix. *)
Definition code (a : obj_format) (b : data_type) (c : storage) : typecode := mkTC 77 (format_char a) (data_char b) (storage_char c).

(** [l] reads as [w] when upper case is not distinguished from lower case *)
Definition spelled (w : string) (l : list Z) : Prop := lower l = str w.

Definition line_chars (l : list Z) : Prop := Forall (fun c => c <> 10 /\ c <> 0) l.

(** The first line of a file, without its newline. *)
Definition banner_line (a : obj_format) (b : data_type) (c : storage) (l : list Z) : Prop :=
  line_chars l /\ (List.length l < 1024)%nat /\
  exists w1 w2 w3 w4 s0 s1 s2 s3 s4 s5,
    l = s0 ++ str "%%MatrixMarket" ++ s1 ++ w1 ++ s2 ++ w2 ++ s3 ++ w3 ++ s4 ++ w4 ++ s5 /\
    blanks s0 /\ blanks s1 /\ blanks s2 /\ blanks s3 /\ blanks s4 /\ delimited s5 /\ s1 <> [] /\ s2 <> [] /\ s3 <> [] /\ s4 <> [] /\
    spelled "matrix" w1 /\ spelled (format_word a) w2 /\ spelled (data_word b) w3 /\ spelled (storage_word c) w4.

(** ** Lemmas *)

Lemma tolower_nonspace c : isspace (tolower c) = false -> isspace c = false.
Proof. unfold tolower, isspace. destruct ((65 <=? c) && (c <=? 90)) eqn:E; lia. Qed.

Lemma spelled_word w l : Forall (fun c => isspace c = false) (str w) -> spelled w l -> Forall (fun c => isspace c = false) l /\ Zlen l = Zlen (str w).
Proof.
  unfold spelled, lower. intros H E. rewrite <- E in H. split.
  - rewrite Forall_map in H. eapply Forall_impl; [|exact H]. cbn. apply tolower_nonspace.
  - rewrite <- E. now rewrite Zlen_map.
Qed.

Lemma words_ok : forall w, In w ["matrix"; "%%MatrixMarket"; "coordinate"; "array"; "real"; "complex"; "pattern"; "integer"; "general"; "symmetric"; "hermitian"; "skew-symmetric"]%string ->
  Forall (fun c => isspace c = false) (str w) /\ 0 < Zlen (str w) < 64.
Proof. intros w H. cbn [In] in H. repeat (destruct H as [<-|H]; [split; [repeat constructor|vm_compute; easy]|]). easy. Qed.

Lemma scan_words_step k s t r w : blanks s -> In w ["matrix"; "%%MatrixMarket"; "coordinate"; "array"; "real"; "complex"; "pattern"; "integer"; "general"; "symmetric"; "hermitian"; "skew-symmetric"]%string ->
  lower t = lower (str w) \/ spelled w t -> delimited r -> scan_words (S k) (s ++ t ++ r) = (ws <- scan_words k r ;; Some (option_map (cons t) ws)).
Proof.
  intros Hs Hw Ht Hr. destruct (words_ok w Hw) as (H1 & H2).
  assert (Hc : Forall (fun c => isspace c = false) t /\ Zlen t = Zlen (str w)).
  { destruct Ht as [E|E]; [|now apply spelled_word].
    unfold lower in E. split. 2: { rewrite <- (Zlen_map tolower t), E. now rewrite Zlen_map. }
    assert (H3 : Forall (fun c => isspace c = false) (map tolower (str w))).
    { rewrite Forall_map. eapply Forall_impl; [|exact H1]. cbn. unfold tolower, isspace. intros c. destruct ((65 <=? c) && (c <=? 90)) eqn:B; lia. }
    rewrite <- E, Forall_map in H3. eapply Forall_impl; [|exact H3]. cbn. apply tolower_nonspace. }
  destruct Hc as (Hc & Hl). cbn [scan_words]. rewrite scan_s_word; auto.
  - replace (Zlen t <? 64) with true by lia. reflexivity.
  - now apply blanks_ws.
  - intros ->. change (Zlen (@nil Z)) with 0 in Hl. lia.
Qed.

Lemma blank_delim s r : blanks s -> s <> [] -> delimited (s ++ r).
Proof. intros H N. destruct s as [|c s]; [easy|]. cbn. now inversion H. Qed.

Lemma format_in a : In (format_word a) ["matrix"; "%%MatrixMarket"; "coordinate"; "array"; "real"; "complex"; "pattern"; "integer"; "general"; "symmetric"; "hermitian"; "skew-symmetric"]%string.
Proof. destruct a; cbn; tauto. Qed.
Lemma data_in a : In (data_word a) ["matrix"; "%%MatrixMarket"; "coordinate"; "array"; "real"; "complex"; "pattern"; "integer"; "general"; "symmetric"; "hermitian"; "skew-symmetric"]%string.
Proof. destruct a; cbn; tauto. Qed.
Lemma storage_in a : In (storage_word a) ["matrix"; "%%MatrixMarket"; "coordinate"; "array"; "real"; "complex"; "pattern"; "integer"; "general"; "symmetric"; "hermitian"; "skew-symmetric"]%string.
Proof. destruct a; cbn; tauto. Qed.

Lemma fgets_line l f : line_chars l -> (List.length l < 1024)%nat -> fgets 1024 (l ++ NL :: f) = Some (l ++ [NL], f).
Proof.
  intros H L. unfold fgets. destruct (l ++ NL :: f) eqn:E; [destruct l; discriminate|]. rewrite <- E. f_equal.
  apply take_line_line; auto. eapply Forall_impl; [|exact H]. cbn. tauto.
Qed.

Lemma cstr_line l : line_chars l -> cstr (l ++ [NL]) = l ++ [NL].
Proof. intros H. apply cstr_id. apply Forall_app. split; [eapply Forall_impl; [|exact H]; cbn; tauto|]. constructor; [discriminate|constructor]. Qed.

(** A banner line is read as its type code, whatever its spacing and case. *)
Lemma read_banner_line a b c l f : banner_line a b c l -> mm_read_banner (l ++ NL :: f) = Some (0, code a b c, f).
Proof.
  intros (Hl & Hn & w1 & w2 & w3 & w4 & s0 & s1 & s2 & s3 & s4 & s5 & -> & B0 & B1 & B2 & B3 & B4 & B5 & N1 & N2 & N3 & N4 & W1 & W2 & W3 & W4).
  unfold mm_read_banner. rewrite fgets_line by auto. rewrite cstr_line by auto.
  rewrite <- !app_assoc.
  rewrite (scan_words_step 4 s0 _ _ "%%MatrixMarket"); [|auto|cbn; tauto|left; reflexivity|now apply blank_delim].
  rewrite (scan_words_step 3 s1 _ _ "matrix"); [|auto|cbn; tauto|now right|now apply blank_delim].
  rewrite (scan_words_step 2 s2 _ _ (format_word a)); [|auto|apply format_in|now right|now apply blank_delim].
  rewrite (scan_words_step 1 s3 _ _ (data_word b)); [|auto|apply data_in|now right|now apply blank_delim].
  rewrite (scan_words_step 0 s4 _ _ (storage_word c)); [|auto|apply storage_in|now right|].
  2: { destruct s5; cbn; auto. }
  cbn [scan_words option_map].
  unfold spelled in *. rewrite W1, W2, W3, W4. unfold sBanner.
  replace (prefixb (str "%%MatrixMarket") (str "%%MatrixMarket")) with true by reflexivity.
  destruct a, b, c; reflexivity.
Qed.

(** The parser reports success only for a banner made of known words. *)
Lemma read_banner_inv f t r : mm_read_banner f = Some (0, t, r) -> exists a b c, t = code a b c.
Proof.
  unfold mm_read_banner. destruct (fgets 1024 f) as [(line, f')|]; [|discriminate].
  destruct (scan_words 5 (cstr line)) as [[[|w0 [|w1 [|w2 [|w3 [|w4 [|]]]]]]|]|]; try discriminate.
  destruct (negb _); [discriminate|]. destruct (negb _); [discriminate|].
  destruct (zeqs (lower w2) sCoordinate); [|destruct (zeqs (lower w2) sArray); [|discriminate]];
  (destruct (zeqs (lower w3) sReal); [|destruct (zeqs (lower w3) sComplex); [|destruct (zeqs (lower w3) sPattern); [|destruct (zeqs (lower w3) sInteger); [|discriminate]]]]);
  (destruct (zeqs (lower w4) sGeneral); [|destruct (zeqs (lower w4) sSymmetric); [|destruct (zeqs (lower w4) sHermitian); [|destruct (zeqs (lower w4) sSkew); [|discriminate]]]]);
  intros H; injection H as <- <-;
  first [now exists Coordinate, Real, General|now exists Coordinate, Real, Symmetric|now exists Coordinate, Real, Hermitian|now exists Coordinate, Real, Skew
        |now exists Coordinate, Complex, General|now exists Coordinate, Complex, Symmetric|now exists Coordinate, Complex, Hermitian|now exists Coordinate, Complex, Skew
        |now exists Coordinate, Pattern, General|now exists Coordinate, Pattern, Symmetric|now exists Coordinate, Pattern, Hermitian|now exists Coordinate, Pattern, Skew
        |now exists Coordinate, Integer, General|now exists Coordinate, Integer, Symmetric|now exists Coordinate, Integer, Hermitian|now exists Coordinate, Integer, Skew
        |now exists Array, Real, General|now exists Array, Real, Symmetric|now exists Array, Real, Hermitian|now exists Array, Real, Skew
        |now exists Array, Complex, General|now exists Array, Complex, Symmetric|now exists Array, Complex, Hermitian|now exists Array, Complex, Skew
        |now exists Array, Pattern, General|now exists Array, Pattern, Symmetric|now exists Array, Pattern, Hermitian|now exists Array, Pattern, Skew
        |now exists Array, Integer, General|now exists Array, Integer, Symmetric|now exists Array, Integer, Hermitian|now exists Array, Integer, Skew].
Qed.

(** ** The words of a line *)

(** [ws] are the first words of [l], separated by white space. *)
Inductive starts_with_words : list (list Z) -> list Z -> Prop :=
| no_word : forall l, starts_with_words [] l
| one_word : forall s w ws r, all_ws s -> w <> [] -> Forall (fun c => isspace c = false) w -> delimited r ->
    starts_with_words ws r -> starts_with_words (w :: ws) (s ++ w ++ r).

Lemma span_inv p f a b : span p f = (a, b) -> f = a ++ b /\ Forall (fun c => p c = true) a /\ match b with [] => True | c :: _ => p c = false end.
Proof.
  revert a b. induction f as [|c f IH]; intros a b; cbn [span].
  - intros H. injection H as <- <-. auto.
  - destruct (p c) eqn:E.
    + destruct (span p f) as (a', b') eqn:F. intros H. injection H as <- <-. destruct (IH _ _ eq_refl) as (-> & H1 & H2). auto.
    + intros H. injection H as <- <-. auto.
Qed.

Lemma scan_s_inv f w r : scan_s f = Some (w, r) -> exists s, f = s ++ w ++ r /\ all_ws s /\ w <> [] /\ Forall (fun c => isspace c = false) w /\ delimited r.
Proof.
  unfold scan_s, skip_ws. destruct (span isspace f) as (s, g) eqn:E. cbn [snd]. apply span_inv in E as (-> & Hs & Hg).
  destruct g as [|c g]; [discriminate|]. intros H. assert (H' : span (fun c => negb (isspace c)) (c :: g) = (w, r)) by congruence. apply span_inv in H' as (E & Hw & Hr). exists s. rewrite E. split; auto.
  split; auto. split.
  - intros ->. cbn in E. subst r. rewrite Hg in Hr. discriminate.
  - split; [eapply Forall_impl; [|exact Hw]; cbn; intros x; now destruct (isspace x)|]. destruct r as [|x r]; cbn; auto. now destruct (isspace x).
Qed.

Lemma scan_words_inv k f ws : scan_words k f = Some (Some ws) -> starts_with_words ws f /\ List.length ws = k.
Proof.
  revert f ws. induction k as [|k IH]; intros f ws; cbn [scan_words].
  - intros H. injection H as <-. split; [constructor|auto].
  - destruct (scan_s f) as [(w, r)|] eqn:E; [|discriminate]. destruct (Zlen w <? 64); [|discriminate].
    destruct (scan_words k r) as [[ws'|]|] eqn:F; try discriminate. cbn [option_map]. intros H. injection H as <-.
    destruct (IH _ _ F) as (H1 & H2). apply scan_s_inv in E as (s & -> & ? & ? & ? & ?). split; [now constructor|cbn; lia].
Qed.

Lemma take_line_inv k f a b : take_line k f = (a, b) -> f = a ++ b.
Proof.
  revert f a b. induction k as [|k IH]; intros f a b; cbn [take_line]. { intros H. now injection H as <- <-. }
  destruct f as [|c f]. { intros H. now injection H as <- <-. } destruct (c =? NL). { intros H. now injection H as <- <-. }
  destruct (take_line k f) as (a', b') eqn:F. intros H. injection H as <- <-. cbn. f_equal. eauto.
Qed.

(** Success means that the file starts with a banner of known words. *)
Lemma read_banner_words f t r : mm_read_banner f = Some (0, t, r) ->
  exists a b c line w0 w1 w2 w3 w4, f = line ++ r /\ starts_with_words [w0; w1; w2; w3; w4] (cstr line) /\ prefixb (str "%%MatrixMarket") w0 = true /\
    spelled "matrix" w1 /\ spelled (format_word a) w2 /\ spelled (data_word b) w3 /\ spelled (storage_word c) w4 /\ t = code a b c.
Proof.
  unfold mm_read_banner. destruct (fgets 1024 f) as [(line, f')|] eqn:G; [|discriminate].
  assert (f = line ++ f'). { unfold fgets in G. destruct f as [|x f]; [discriminate|]. assert (G' : take_line 1024 (x :: f) = (line, f')) by congruence. now apply take_line_inv in G'. } clear G.
  destruct (scan_words 5 (cstr line)) as [[ws|]|] eqn:W; try discriminate.
  apply scan_words_inv in W as (W & _). destruct ws as [|w0 [|w1 [|w2 [|w3 [|w4 [|]]]]]]; try discriminate.
  destruct (prefixb sBanner w0) eqn:E0; [|discriminate]. destruct (zeqs (lower w1) sMatrix) eqn:E1; [|discriminate]. cbn [negb].
  apply zeqs_eq in E1.
  set (c1 := if zeqs (lower w2) sCoordinate then _ else _). set (c2 := if zeqs (lower w3) sReal then _ else _). set (c3 := if zeqs (lower w4) sGeneral then _ else _).
  assert (H1 : forall x, c1 = Some x -> exists a, spelled (format_word a) w2 /\ x = format_char a).
  { intros x. unfold c1. destruct (zeqs (lower w2) sCoordinate) eqn:E. { intros H1. injection H1 as <-. apply zeqs_eq in E. now exists Coordinate. }
    clear E. destruct (zeqs (lower w2) sArray) eqn:E. { intros H1. injection H1 as <-. apply zeqs_eq in E. now exists Array. } discriminate. }
  assert (H2 : forall x, c2 = Some x -> exists a, spelled (data_word a) w3 /\ x = data_char a).
  { intros x. unfold c2. destruct (zeqs (lower w3) sReal) eqn:E. { intros H2. injection H2 as <-. apply zeqs_eq in E. now exists Real. }
    clear E. destruct (zeqs (lower w3) sComplex) eqn:E. { intros H2. injection H2 as <-. apply zeqs_eq in E. now exists Complex. }
    clear E. destruct (zeqs (lower w3) sPattern) eqn:E. { intros H2. injection H2 as <-. apply zeqs_eq in E. now exists Pattern. }
    clear E. destruct (zeqs (lower w3) sInteger) eqn:E. { intros H2. injection H2 as <-. apply zeqs_eq in E. now exists Integer. } discriminate. }
  assert (H3 : forall x, c3 = Some x -> exists a, spelled (storage_word a) w4 /\ x = storage_char a).
  { intros x. unfold c3. destruct (zeqs (lower w4) sGeneral) eqn:E. { intros H3. injection H3 as <-. apply zeqs_eq in E. now exists General. }
    clear E. destruct (zeqs (lower w4) sSymmetric) eqn:E. { intros H3. injection H3 as <-. apply zeqs_eq in E. now exists Symmetric. }
    clear E. destruct (zeqs (lower w4) sHermitian) eqn:E. { intros H3. injection H3 as <-. apply zeqs_eq in E. now exists Hermitian. }
    clear E. destruct (zeqs (lower w4) sSkew) eqn:E. { intros H3. injection H3 as <-. apply zeqs_eq in E. now exists Skew. } discriminate. }
  destruct c1 as [x1|]; [|discriminate]. destruct c2 as [x2|]; [|discriminate]. destruct c3 as [x3|]; [|discriminate].
  destruct (H1 _ eq_refl) as (a & Ha & ->). destruct (H2 _ eq_refl) as (b & Hb & ->). destruct (H3 _ eq_refl) as (c & Hc & ->).
  intros E. injection E as <- <-. exists a, b, c, line, w0, w1, w2, w3, w4. do 7 (split; [assumption|]). reflexivity.
Qed.

(** ** Round trip *)

Lemma to_str_code t s : mm_typecode_to_str t = Some (Some s) ->
  exists a b c, t = code a b c /\ s = str "matrix" ++ [32] ++ str (format_word a) ++ [32] ++ str (data_word b) ++ [32] ++ str (storage_word c).
Proof.
  destruct t as [t0 t1 t2 t3]. unfold mm_typecode_to_str. cbn [tobj tfmt tdata tsym].
  set (c1 := if t1 =? cC then _ else _). set (c2 := if t2 =? cR then _ else _). set (c3 := if t3 =? cG then _ else _).
  assert (H1 : forall x, c1 = Some x -> exists a, t1 = format_char a /\ x = str (format_word a)).
  { intros x. unfold c1. destruct (Z.eqb_spec t1 cC) as [->|]. { intros H1. injection H1 as <-. now exists Coordinate. }
    destruct (Z.eqb_spec t1 cA) as [->|]. { intros H1. injection H1 as <-. now exists Array. } discriminate. }
  assert (H2 : forall x, c2 = Some x -> exists a, t2 = data_char a /\ x = str (data_word a)).
  { intros x. unfold c2. destruct (Z.eqb_spec t2 cR) as [->|]. { intros H2. injection H2 as <-. now exists Real. }
    destruct (Z.eqb_spec t2 cC) as [->|]. { intros H2. injection H2 as <-. now exists Complex. }
    destruct (Z.eqb_spec t2 cP) as [->|]. { intros H2. injection H2 as <-. now exists Pattern. }
    destruct (Z.eqb_spec t2 cI) as [->|]. { intros H2. injection H2 as <-. now exists Integer. } discriminate. }
  assert (H3 : forall x, c3 = Some x -> exists a, t3 = storage_char a /\ x = str (storage_word a)).
  { intros x. unfold c3. destruct (Z.eqb_spec t3 cG) as [->|]. { intros H3. injection H3 as <-. now exists General. }
    destruct (Z.eqb_spec t3 cS) as [->|]. { intros H3. injection H3 as <-. now exists Symmetric. }
    destruct (Z.eqb_spec t3 cH) as [->|]. { intros H3. injection H3 as <-. now exists Hermitian. }
    destruct (Z.eqb_spec t3 cK) as [->|]. { intros H3. injection H3 as <-. now exists Skew. } discriminate. }
  destruct c1 as [x1|]; [|discriminate]. destruct c2 as [x2|]; [|discriminate]. destruct c3 as [x3|]; [|discriminate].
  destruct (H1 _ eq_refl) as (a & -> & ->). destruct (H2 _ eq_refl) as (b & -> & ->). destruct (H3 _ eq_refl) as (c & -> & ->).
  destruct (Z.eqb_spec t0 cM) as [->|]; [|discriminate]. intros E. injection E as <-. exists a, b, c. auto.
Qed.

Lemma code_to_str a b c : mm_typecode_to_str (code a b c) =
  Some (Some (str "matrix" ++ [32] ++ str (format_word a) ++ [32] ++ str (data_word b) ++ [32] ++ str (storage_word c))).
Proof. destruct a, b, c; reflexivity. Qed.

Lemma printed_banner a b c : banner_line a b c (str "%%MatrixMarket" ++ [32] ++ str "matrix" ++ [32] ++ str (format_word a) ++ [32] ++ str (data_word b) ++ [32] ++ str (storage_word c)).
Proof.
  split. { unfold line_chars. destruct a, b, c; vm_compute; repeat (apply Forall_cons; [split; discriminate|]); apply Forall_nil. }
  split. { destruct a, b, c; vm_compute; lia. }
  exists (str "matrix"), (str (format_word a)), (str (data_word b)), (str (storage_word c)), [], [32], [32], [32], [32], [].
  split. { now rewrite !app_nil_r. } repeat (split; [first [now constructor|repeat constructor; discriminate|discriminate|exact I]|]).
  split; [destruct a; reflexivity|]. split; [destruct b; reflexivity|destruct c; reflexivity].
Qed.

Lemma banner_round_trip t rc text f : mm_write_banner t = Some (rc, text) -> mm_read_banner (text ++ f) = Some (0, t, f).
Proof.
  unfold mm_write_banner. destruct (mm_typecode_to_str t) as [[w|]|] eqn:E; try discriminate. intros H. assert (text = sBanner ++ [32] ++ w ++ [NL]) as -> by congruence. clear H.
  apply to_str_code in E as (a & b & c & -> & ->).
  rewrite <- (read_banner_line a b c (str "%%MatrixMarket" ++ [32] ++ str "matrix" ++ [32] ++ str (format_word a) ++ [32] ++ str (data_word b) ++ [32] ++ str (storage_word c)) f)
    by apply printed_banner.
  f_equal. unfold sBanner. rewrite <- !app_assoc. reflexivity.
Qed.

(** Printing a type code fails exactly for the codes the banner cannot express. *)
Lemma write_banner_defined t : (exists rc text, mm_write_banner t = Some (rc, text)) <-> exists a b c, t = code a b c.
Proof.
  split.
  - intros (rc & text & H). unfold mm_write_banner in H. destruct (mm_typecode_to_str t) as [[w|]|] eqn:E; try discriminate. apply to_str_code in E as (a & b & c & -> & _). eauto.
  - intros (a & b & c & ->). unfold mm_write_banner. rewrite code_to_str. eauto.
Qed.

(** ** The writers always report failure *)

Lemma Zlen_pr_int x : 1 <= Zlen (pr_int x).
Proof. destruct (dec_text_chars x _ (pr_int_dec x)) as (H & _). destruct (pr_int x); [easy|]. rewrite Zlen_cons. pose proof (Zlen_nonneg l). lia. Qed.

Lemma writers_fail : (forall t rc out, mm_write_banner t = Some (rc, out) -> rc = 17) /\
  (forall M N, fst (mm_write_mtx_array_size M N) = 17) /\ (forall M N nz, fst (mm_write_mtx_crd_size M N nz) = 17).
Proof.
  split; [|split].
  - intros t rc out. unfold mm_write_banner. destruct (mm_typecode_to_str t) as [[w|]|]; try discriminate.
    intros H. assert (rc = if negb (Zlen (sBanner ++ [32] ++ w ++ [NL]) =? 2) then MM_COULD_NOT_WRITE_FILE else 0) as -> by congruence. rewrite Zlen_app. change (Zlen sBanner) with 14. replace (14 + _ =? 2) with false; [reflexivity|]. pose proof (Zlen_nonneg ([32] ++ w ++ [NL])). lia.
  - intros M N. unfold mm_write_mtx_array_size. cbn [fst]. rewrite !Zlen_app. change (Zlen [32]) with 1. change (Zlen [NL]) with 1.
    pose proof (Zlen_pr_int M). pose proof (Zlen_pr_int N). replace (_ =? 2) with false by lia. reflexivity.
  - intros M N nz. unfold mm_write_mtx_crd_size. cbn [fst]. rewrite !Zlen_app. change (Zlen [32]) with 1. change (Zlen [NL]) with 1.
    pose proof (Zlen_pr_int M). pose proof (Zlen_pr_int N). pose proof (Zlen_pr_int nz). replace (_ =? 3) with false by lia. reflexivity.
Qed.
