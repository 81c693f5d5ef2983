(** * Text: characters, [fgets], the conversions of [scanf], printing of integers.

    A file is the list of its bytes; a byte is an integer 0..255.  These are the
    parts of the C library the Matrix Market reader and writer (mm_io.cpp,
    COO.cpp:186-359, CSR.cpp:276-304, Vector.cpp:10-64) call. *)
From Coq Require Import String Ascii.
From Verif Require Import Base Spec.

Definition str (s : string) : list Z := map (fun a => Z.of_N (N_of_ascii a)) (list_ascii_of_string s).

Definition NL : Z := 10.
(** [isspace] in the C locale *)
Definition isspace (c : Z) : bool := (c =? 32) || ((9 <=? c) && (c <=? 13)).
Definition isdigit (c : Z) : bool := (48 <=? c) && (c <=? 57).
(** [tolower] in the C locale *)
Definition tolower (c : Z) : Z := if (65 <=? c) && (c <=? 90) then c + 32 else c.
Definition lower (w : list Z) : list Z := map tolower w.

Fixpoint zeqs (a b : list Z) : bool :=
  match a, b with [], [] => true | x :: a, y :: b => (x =? y) && zeqs a b | _, _ => false end.
(** [strncmp(a, b, strlen(b)) == 0] *)
Fixpoint prefixb (b a : list Z) : bool :=
  match b, a with [], _ => true | x :: b, y :: a => (x =? y) && prefixb b a | _, [] => false end.

Fixpoint span (p : Z -> bool) (f : list Z) : list Z * list Z :=
  match f with
  | [] => ([], [])
  | c :: r => if p c then let (a, b) := span p r in (c :: a, b) else ([], f)
  end.

Definition skip_ws (f : list Z) : list Z := snd (span isspace f).

(** [fgets(line, k + 1, f)]: up to [k] characters, up to and including the first
    newline; [None] at the end of the file. *)
Fixpoint take_line (k : nat) (f : list Z) : list Z * list Z :=
  match k, f with
  | S k, c :: r => if c =? NL then ([c], r) else let (a, b) := take_line k r in (c :: a, b)
  | _, _ => ([], f)
  end.
Definition fgets (k : nat) (f : list Z) : option (list Z * list Z) := match f with [] => None | _ => Some (take_line k f) end.

(** The characters of a buffer up to the first NUL. *)
Definition cstr (l : list Z) : list Z := fst (span (fun c => negb (c =? 0)) l).

(** [%s]: skip white space, then the longest run of other characters; [None] at the end of the input. *)
Definition scan_s (f : list Z) : option (list Z * list Z) :=
  match skip_ws f with [] => None | g => Some (span (fun c => negb (isspace c)) g) end.

Definition int32 (x : Z) : Prop := - 2147483648 <= x < 2147483648.
Definition int32b (x : Z) : bool := (- 2147483648 <=? x) && (x <? 2147483648).
Definition int64b (x : Z) : bool := (- 9223372036854775808 <=? x) && (x <? 9223372036854775808).

Definition digits_val (ds : list Z) : Z := fold_left (fun a d => 10 * a + (d - 48)) ds 0.

(** Outcome of one conversion. *)
Inductive scan (A : Type) := Got (a : A) | NoMatch | AtEnd.
Arguments Got {A}. Arguments NoMatch {A}. Arguments AtEnd {A}.

(** An optional sign. *)
Definition scan_sign (f : list Z) : bool * list Z :=
  match f with c :: r => if c =? 45 then (true, r) else if c =? 43 then (false, r) else (false, f) | [] => (false, f) end.

(** [%d] and [%lld]: skip white space, optional sign, digits.  The outer [None]
    is a number that does not fit ([fits]), undefined behaviour in C. *)
Definition scan_d (fits : Z -> bool) (f : list Z) : option (scan Z * list Z) :=
  match skip_ws f with
  | [] => Some (AtEnd, [])
  | g =>
      let (neg, h) := scan_sign g in let (ds, r) := span isdigit h in
      match ds with
      | [] => Some (NoMatch, r)
      | _ => let v := if neg then - digits_val ds else digits_val ds in if fits v then Some (Got v, r) else None
      end
  end.

(** [fscanf(f, "%d %d ... %d", ...)] with [k] conversions: the numbers read, what
    stopped it (if anything) and the rest of the input.  The white space in the
    format adds nothing, as %d skips white space itself. *)
Fixpoint scan_ints (k : nat) (f : list Z) : option (list Z * bool * list Z) :=
  match k with
  | O => Some ([], false, f)
  | S k => ' (x, r) <- scan_d int32b f ;;
           match x with
           | Got v => ' (l, e, r) <- scan_ints k r ;; Some (v :: l, e, r)
           | NoMatch => Some ([], false, r)
           | AtEnd => Some ([], true, r)
           end
  end.

(** [%d] of printf *)
Fixpoint pr_pos (fuel : nat) (x : Z) (acc : list Z) : list Z :=
  match fuel with
  | O => acc
  | S fuel => if x <? 10 then (48 + x) :: acc else pr_pos fuel (x / 10) ((48 + x mod 10) :: acc)
  end.
Definition pr_nat (x : Z) : list Z := pr_pos (S (Z.to_nat (Z.log2 x))) x [].
Definition pr_int (x : Z) : list Z := if x <? 0 then 45 :: pr_nat (- x) else pr_nat x.

(** ** What the texts are: specification *)

Definition all_ws (w : list Z) : Prop := Forall (fun c => isspace c = true) w.
(** Blanks inside one line. *)
Definition blanks (w : list Z) : Prop := Forall (fun c => isspace c = true /\ c <> NL) w.
Definition all_digits (w : list Z) : Prop := Forall (fun c => 48 <= c <= 57) w.

(** [t] is a decimal notation of [x]. *)
Definition dec_text (x : Z) (t : list Z) : Prop :=
  exists sg ds, t = sg ++ ds /\ ds <> [] /\ all_digits ds /\
    ((sg = [] /\ x = digits_val ds) \/ (sg = [43] /\ x = digits_val ds) \/ (sg = [45] /\ x = - digits_val ds)).

(** The text does not go on with a digit / with a character of a word. *)
Definition no_digit (r : list Z) : Prop := match r with [] => True | c :: _ => isdigit c = false end.
Definition delimited (r : list Z) : Prop := match r with [] => True | c :: _ => isspace c = true end.

(** ** Lemmas *)

Lemma zeqs_eq a b : zeqs a b = true <-> a = b.
Proof.
  revert b. induction a as [|x a IH]; intros [|y b]; cbn [zeqs]; split; intros H; try easy.
  - apply andb_true_iff in H as (E & H). apply IH in H. apply Z.eqb_eq in E. congruence.
  - injection H as -> ->. rewrite Z.eqb_refl. now apply IH.
Qed.

Lemma zeqs_refl a : zeqs a a = true.
Proof. now apply zeqs_eq. Qed.

Lemma prefixb_app b r : prefixb b (b ++ r) = true.
Proof. induction b as [|x b IH]; cbn; auto. now rewrite Z.eqb_refl. Qed.

Lemma span_app p a b : Forall (fun c => p c = true) a -> match b with [] => True | c :: _ => p c = false end -> span p (a ++ b) = (a, b).
Proof.
  intros H Hb. induction H as [|c a Hc _ IH]; cbn [app span].
  - destruct b as [|c b]; cbn [span]; auto. now rewrite Hb.
  - now rewrite Hc, IH.
Qed.

Lemma skip_ws_app w f : all_ws w -> match f with [] => True | c :: _ => isspace c = false end -> skip_ws (w ++ f) = f.
Proof. intros H Hf. unfold skip_ws. now rewrite (span_app _ w f). Qed.

Lemma blanks_ws w : blanks w -> all_ws w.
Proof. unfold blanks, all_ws. rewrite !Forall_forall. intros H c Hc. now apply H. Qed.

Lemma take_line_line k l r : Forall (fun c => c <> NL) l -> (length l < k)%nat -> take_line k (l ++ NL :: r) = (l ++ [NL], r).
Proof.
  intros H. revert k. induction H as [|c l Hc _ IH]; intros [|k] Hk; cbn [length] in Hk; try lia; cbn [app take_line].
  - reflexivity.
  - replace (c =? NL) with false by lia. rewrite IH by lia. reflexivity.
Qed.

Lemma cstr_id l : Forall (fun c => c <> 0) l -> cstr l = l.
Proof.
  intros H. unfold cstr. rewrite <- (app_nil_r l) at 1. rewrite span_app; auto.
  eapply Forall_impl; [|exact H]. cbn. intros c Hc. lia.
Qed.

Lemma scan_s_word w t r : all_ws w -> t <> [] -> Forall (fun c => isspace c = false) t -> delimited r -> scan_s (w ++ t ++ r) = Some (t, r).
Proof.
  intros Hw Ht Hc Hr. unfold scan_s. destruct t as [|c t]; [easy|].
  rewrite skip_ws_app; auto. 2: { cbn [app]. now inversion Hc. }
  cbn [app]. f_equal. change (c :: t ++ r) with ((c :: t) ++ r). apply span_app.
  - eapply Forall_impl; [|exact Hc]. cbn. intros x ->. reflexivity.
  - destruct r; auto. cbn in Hr. now rewrite Hr.
Qed.

Lemma scan_d_text fits x t w r : dec_text x t -> fits x = true -> all_ws w -> no_digit r -> scan_d fits (w ++ t ++ r) = Some (Got x, r).
Proof.
  intros (sg & ds & -> & Hne & Hd & Hs) Hf Hw Hr. unfold scan_d.
  assert (Hsp : span isdigit (ds ++ r) = (ds, r)).
  { apply span_app. - eapply Forall_impl; [|exact Hd]. cbn. unfold isdigit. intros; lia. - destruct r; auto. }
  destruct ds as [|d ds]; [easy|]. assert (48 <= d <= 57) by now inversion Hd.
  rewrite skip_ws_app; auto. 2: { destruct Hs as [(-> & _)|[(-> & _)|(-> & _)]]; cbn [app]; unfold isspace; try reflexivity. lia. }
  assert (Hss : scan_sign ((sg ++ d :: ds) ++ r) = (match sg with c :: _ => c =? 45 | [] => false end, (d :: ds) ++ r)).
  { destruct Hs as [(-> & _)|[(-> & _)|(-> & _)]]; try reflexivity. cbn [app scan_sign].
    replace (d =? 45) with false by lia. now replace (d =? 43) with false by lia. }
  destruct ((sg ++ d :: ds) ++ r) as [|c q] eqn:E. { destruct sg; discriminate. }
  rewrite Hss, Hsp. destruct Hs as [(-> & ->)|[(-> & ->)|(-> & ->)]]; cbn [Z.eqb Pos.eqb]; now rewrite Hf.
Qed.

Lemma pr_pos_spec fuel x acc : 0 <= x < 2 ^ Z.of_nat fuel -> (0 < fuel)%nat ->
  exists ds, pr_pos fuel x acc = ds ++ acc /\ ds <> [] /\ all_digits ds /\ digits_val ds = x.
Proof.
  revert x acc. induction fuel as [|fuel IH]; intros x acc Hx Hf; [lia|]. cbn [pr_pos]. destruct (Z.ltb_spec x 10) as [L|L].
  - exists [48 + x]. split; auto. split; [easy|]. split; [constructor; [lia|constructor]|]. unfold digits_val. cbn [fold_left]. lia.
  - assert (0 < fuel)%nat by (destruct fuel; [change (2 ^ Z.of_nat 1) with 2 in Hx; lia|lia]).
    destruct (IH (x / 10) ((48 + x mod 10) :: acc)) as (ds & E & Hne & Hd & V); [|auto|].
    { split; [apply Z.div_pos; lia|]. apply Z.div_lt_upper_bound; [lia|]. rewrite Nat2Z.inj_succ, Z.pow_succ_r in Hx by lia. lia. }
    exists (ds ++ [48 + x mod 10]). rewrite E, <- app_assoc. split; auto. split; [now destruct ds|].
    pose proof (Z.mod_pos_bound x 10 ltac:(lia)). split. { apply Forall_app. split; auto. constructor; [lia|constructor]. }
    unfold digits_val in *. rewrite fold_left_app, V. cbn [fold_left]. pose proof (Z_div_mod_eq_full x 10). lia.
Qed.

Lemma pr_nat_spec x : 0 <= x -> pr_nat x <> [] /\ all_digits (pr_nat x) /\ digits_val (pr_nat x) = x.
Proof.
  intros H. unfold pr_nat. destruct (pr_pos_spec (S (Z.to_nat (Z.log2 x))) x []) as (ds & E & Hne & Hd & V); [|lia|].
  - destruct (Z.eq_dec x 0) as [->|Hn]; [cbn; lia|]. pose proof (Z.log2_spec x ltac:(lia)). pose proof (Z.log2_nonneg x).
    replace (Z.of_nat (S (Z.to_nat (Z.log2 x)))) with (Z.succ (Z.log2 x)) by lia. lia.
  - rewrite E, app_nil_r. auto.
Qed.

Lemma pr_int_dec x : dec_text x (pr_int x).
Proof.
  unfold pr_int, dec_text. destruct (Z.ltb_spec x 0) as [L|L].
  - destruct (pr_nat_spec (- x) ltac:(lia)) as (H1 & H2 & H3). exists [45], (pr_nat (- x)). do 3 (split; [auto|]). right. right. split; auto. lia.
  - destruct (pr_nat_spec x ltac:(lia)) as (H1 & H2 & H3). exists [], (pr_nat x). do 3 (split; [auto|]). left. auto.
Qed.

Lemma dec_text_chars x t : dec_text x t -> t <> [] /\ Forall (fun c => isspace c = false /\ c <> 0 /\ c <> 37) t.
Proof.
  intros (sg & ds & -> & Hne & Hd & Hs). split; [destruct sg; [easy|discriminate]|].
  apply Forall_app. split.
  - destruct Hs as [(-> & _)|[(-> & _)|(-> & _)]]; repeat constructor; discriminate.
  - eapply Forall_impl; [|exact Hd]. cbn. unfold isspace. intros; lia.
Qed.

Lemma int32b_iff x : int32b x = true <-> int32 x.
Proof. unfold int32b, int32. lia. Qed.
