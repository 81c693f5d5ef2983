(** * Loading a dense array file (Vector.cpp:10-64) *)
From Coq Require Import String.
From Verif Require Import Base Interleave Spec Csr Coo BinIO MmText MmIo MmLoad.
Open Scope Z_scope.

(** ** Model *)

Section Model.
Context {V : Type}.
Variable scan_g : list Z -> option (V * list Z).

(** The state of the loops: [None] once fscanf has failed, else the rest of the file and the array. *)
Definition vstate : Type := option (list Z * list V).

(** Vector.cpp:47-52 and 54-59: one number stored at position [k].  The trailing
    newline in the format of the second skips white space, as the next [%lg] does
    anyway. *)
Definition read_num (k : Z) (s : vstate) : option vstate :=
  match s with
  | None => Some None
  | Some (f, v) => match scan_g (skip_ws f) with None => Some None | Some (x, r) => v <- set v k x ;; Some (Some (r, v)) end
  end.

(** Vector.cpp:10-64.  [Some None]: false is returned.  [junk]: the memory from malloc.
    Overflow of m*n is not modelled. *)
Definition loadVectorMatrixMarket (fuel : nat) (junk : Z -> list V) (file : list Z) : option (option (Z * Z * list V)) :=
  ' (err, t, f) <- mm_read_banner file ;;
  if negb (err =? 0) then Some None
  else if negb (mm_is_valid t) then Some None
  else if negb (tfmt t =? cA) then Some None
  else
    ' (sz, f) <- mm_read_mtx_array_size fuel f ;;
    match sz with
    | Some [m; n] =>
        s <- forZ 0 m (fun i s => s <- forZ 0 (n - 1) (fun j s => read_num (i * n + j) s) s ;; read_num (i * n + n - 1) s) (Some (f, junk (m * n))) ;;
        Some (option_map (fun s => (m, n, snd s)) s)
    | _ => Some None
    end.

(** ** Specification *)

(** The numbers [xs] in order, separated by white space; anything may follow. *)
Inductive numbers_text : list V -> list Z -> Prop :=
| no_number : forall r, numbers_text [] r
| next_number : forall w x t xs r, all_ws w -> number_text scan_g x t -> delimited r -> numbers_text xs r -> numbers_text (x :: xs) (w ++ t ++ r).

Definition array_file (b : data_type) (c : storage) (m n : Z) (xs : list V) (file : list Z) : Prop :=
  exists banner comments size body,
    file = banner ++ NL :: concat (map (fun l => l ++ [NL]) comments) ++ size ++ NL :: body /\
    banner_line Array b c banner /\ Forall comment_line comments /\ text_line size /\ ints_text [m; n] size /\ numbers_text xs body.

(** The format lists the elements of an m by n array column by column. *)
Definition array_element (m : Z) (xs : list V) (i j : Z) : option V := get xs (j * m + i).

(** ** Proofs *)

Lemma array_header fuel b c m n xs file : array_file b c m n xs file ->
  exists f body, mm_read_banner file = Some (0, code Array b c, f) /\ read_sizes fuel 2 f = Some (Some [m; n], body) /\ numbers_text xs body.
Proof.
  intros (banner & comments & size & body & -> & HB & HC & HS & HI & HE).
  exists (concat (map (fun l => l ++ [NL]) comments) ++ size ++ NL :: body), body. split; [now apply read_banner_line|]. split; auto.
  set (f := concat (map (fun l => l ++ [NL]) comments) ++ size ++ NL :: body).
  assert (Hf : (List.length comments <= List.length f)%nat).
  { unfold f. clear. rewrite app_length. induction comments as [|l cs IH]; cbn [map concat List.length]; [lia|]. rewrite !app_length in *. cbn [List.length] in *. lia. }
  unfold read_sizes. replace (S (List.length f)) with (S (List.length comments + (List.length f - List.length comments))) by lia.
  unfold f at 2. rewrite skip_comments_ok by (auto; eapply ints_text_first; eauto).
  rewrite cstr_line by apply HS. destruct (scan_ints_line _ _ (ints_text_app _ _ HI)) as (r & Er). change 2%nat with (List.length [m; n]). rewrite Er. now rewrite Nat.eqb_refl.
Qed.

(** What has been read after [k] numbers. *)
Definition vec_inv (cap : Z) (xs : list V) (k : Z) (s : vstate) : Prop :=
  exists f v, s = Some (f, v) /\ Zlen v = cap /\ numbers_text (slice xs k (Zlen xs)) f /\ filled v (slice xs 0 k).

Lemma read_num_ok cap xs k s : Zlen xs = cap -> 0 <= k < cap -> vec_inv cap xs k s -> exists s', read_num k s = Some s' /\ vec_inv cap xs (k + 1) s'.
Proof.
  intros L Hk (f & v & -> & Lv & HT & HF). destruct (get_in_range xs k) as (x & Ex); [lia|].
  rewrite (slice_cons xs k (Zlen xs) x) in HT by (auto; lia). inversion HT as [|w x' t xs' r Hw Hx Hr HT']; subst x' xs' f. clear HT.
  cbn [read_num]. rewrite (number_skip scan_g x) by auto. rewrite (proj2 Hx) by auto.
  destruct (set_ok v k x) as (v' & E); [lia|]. rewrite E. eexists. split; [reflexivity|]. exists r, v'. split; auto. split; [rewrite (set_len _ _ _ _ E); auto|]. split; auto.
  rewrite (slice_snoc xs 0 k x) by (auto; lia). apply filled_snoc with v; auto. rewrite Zlen_slice by lia. now rewrite Z.sub_0_r.
Qed.

(** The numbers are stored in the order of the file. *)
Lemma load_vector_ok fuel junk b c m n xs file : array_file b c m n xs file -> b <> Pattern -> ~ (b = Real /\ c = Hermitian) ->
  (forall k, 0 <= k -> Zlen (junk k) = k) -> 0 <= m -> 1 <= n -> Zlen xs = m * n -> loadVectorMatrixMarket fuel junk file = Some (Some (m, n, xs)).
Proof.
  intros HF Hb Hh HJ Hm Hn HX. destruct (array_header fuel _ _ _ _ _ _ HF) as (f & body & E1 & E2 & HT). unfold loadVectorMatrixMarket. rewrite E1. cbn [Z.eqb negb].
  replace (mm_is_valid (code Array b c)) with true by (destruct b, c; try reflexivity; exfalso; intuition congruence). change (tfmt (code Array b c) =? cA) with true. cbn [negb].
  unfold mm_read_mtx_array_size. rewrite E2. cbv beta iota.
  destruct (forZ_rule (fun i s => vec_inv (m * n) xs (i * n) s) 0 m (fun i s => s <- forZ 0 (n - 1) (fun j s => read_num (i * n + j) s) s ;; read_num (i * n + n - 1) s) (Some (body, junk (m * n)))) as (s & E & HI); [lia| | |].
  - exists body, (junk (m * n)). split; auto. split; [apply HJ; nia|]. rewrite Z.mul_0_l, slice_full, slice_nil by lia. split; auto. apply filled_nil.
  - intros i s Hi HI. destruct (forZ_rule (fun j s => vec_inv (m * n) xs (i * n + j) s) 0 (n - 1) (fun j s => read_num (i * n + j) s) s) as (s1 & E & HI1); [lia|now rewrite Z.add_0_r| |].
    + intros j s1 Hj HI1. rewrite Z.add_assoc. apply read_num_ok; auto. nia.
    + rewrite E. replace (i * n + n - 1) with (i * n + (n - 1)) by lia. replace ((i + 1) * n) with (i * n + (n - 1) + 1) by lia. apply read_num_ok; auto. nia.
  - rewrite E. destruct HI as (f' & v & -> & Lv & _ & HF'). cbn [option_map snd]. do 3 f_equal.
    rewrite <- HX, slice_full in HF'. rewrite <- (slice_full v), Lv, <- HX. apply filled_slice; auto. lia.
Qed.
End Model.

(** One column: element (i, 0) is at position i. *)
Lemma load_column_ok {V} (scan_g : list Z -> option (V * list Z)) fuel junk b c m xs file : array_file scan_g b c m 1 xs file -> b <> Pattern -> ~ (b = Real /\ c = Hermitian) ->
  (forall k, 0 <= k -> Zlen (junk k) = k) -> 0 <= m -> Zlen xs = m ->
  exists v, loadVectorMatrixMarket scan_g fuel junk file = Some (Some (m, 1, v)) /\ Zlen v = m /\ forall i, 0 <= i < m -> get v i = array_element m xs i 0.
Proof.
  intros HF Hb Hh HJ Hm HX. exists xs. split; [eapply load_vector_ok; eauto; lia|]. split; auto.
Qed.
