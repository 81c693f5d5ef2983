(** * The text of mm_write_mtx_crd (mm_io.cpp:704-760) for its three kinds of
    values. *)
From Coq Require Import String.
From Verif Require Import Base Spec Csr Coo MmText MmIo MmLoad MmStore.
Open Scope Z_scope.

(** ** Specification: one line for each entry (row, column, real and imaginary part) *)
Definition crd_line {V} (pr_v : V -> list Z) (d : data_type) (e : Z * Z * V * V) : list Z :=
  let '(x, y, re, im) := e in
  let at_ := pr_int x ++ [32] ++ pr_int y in
  match d with
  | Pattern => at_ ++ [NL]
  | Complex => at_ ++ [32] ++ pr_v re ++ [32] ++ pr_v im ++ [NL]
  | _ => at_ ++ [32] ++ pr_v re ++ [NL]
  end.
Definition crd_head (d : data_type) (s : storage) (M N nz : Z) : list Z :=
  str "%%MatrixMarket matrix coordinate " ++ str (data_word d) ++ [32] ++ str (storage_word s) ++ [NL] ++
  pr_int M ++ [32] ++ pr_int N ++ [32] ++ pr_int nz ++ [NL].
(** The array of values holds one number for each entry, or two if complex. *)
Definition crd_values {V} (d : data_type) (es : list (Z * Z * V * V)) : list V :=
  concat (map (fun e => let '(_, _, re, im) := e in match d with Complex => [re; im] | _ => [re] end) es).

(** ** Proof *)
Section Proof.
Context {V : Type}.
Variable pr_v : V -> list Z.
Notation row e := (let '(x, _, _, _) := e in x).
Notation col e := (let '(_, y, _, _) := e in y).

Lemma crd_head_ok d s M N nz : file_head (code Coordinate d s) M N nz = Some (crd_head d s M N nz).
Proof.
  unfold file_head. rewrite code_to_str. unfold crd_head. f_equal. rewrite <- !app_assoc. destruct d, s; reflexivity.
Qed.
Lemma foldM_text {A} (f : A -> list Z) l s : foldM (fun a out => Some (out ++ f a)) l s = Some (s ++ concat (map f l)).
Proof. revert s. induction l as [|a l IH]; intros s; cbn [foldM map concat]; [now rewrite app_nil_r|]. rewrite IH, <- app_assoc. reflexivity. Qed.
Lemma get_pairs {A} (f g : A -> V) l i a : get l i = Some a ->
  get (concat (map (fun e => [f e; g e]) l)) (2 * i) = Some (f a) /\ get (concat (map (fun e => [f e; g e]) l)) (2 * i + 1) = Some (g a).
Proof.
  revert i. induction l as [|x l IH]; intros i H; [apply get_Some_bounds in H; unfold Zlen in H; cbn [length] in H; lia|].
  destruct (Z.eq_dec i 0) as [->|N].
  - rewrite get_cons_0 in H. injection H as <-. split; reflexivity.
  - pose proof (get_Some_bounds _ _ _ H). rewrite get_cons_pos in H by lia. destruct (IH _ H) as (A1 & A2). cbn [map concat app].
    rewrite !(get_cons_pos (f x)) by lia. rewrite !(get_cons_pos (g x)) by lia.
    replace (2 * i - 1 - 1) with (2 * (i - 1)) by lia. replace (2 * i + 1 - 1 - 1) with (2 * (i - 1) + 1) by lia. auto.
Qed.

Theorem crd_text d s M N es : d = Pattern \/ d = Real \/ d = Complex ->
  mm_write_mtx_crd pr_v M N (Zlen es) (map (fun e => row e) es) (map (fun e => col e) es) (crd_values d es) (code Coordinate d s)
  = Some (0, crd_head d s M N (Zlen es) ++ concat (map (crd_line pr_v d) es)).
Proof.
  intros Hd. unfold mm_write_mtx_crd. rewrite crd_head_ok.
  assert (G : forall f, (forall i e out, get es i = Some e -> f i out = Some (out ++ crd_line pr_v d e)) ->
              forZ 0 (Zlen es) f (crd_head d s M N (Zlen es)) = Some (crd_head d s M N (Zlen es) ++ concat (map (crd_line pr_v d) es))).
  { intros f Hf. rewrite <- (foldM_text (crd_line pr_v d)).
    destruct (forZ_rule (fun i o => o = crd_head d s M N (Zlen es) ++ concat (map (crd_line pr_v d) (slice es 0 i))) 0 (Zlen es) f (crd_head d s M N (Zlen es))) as (o & E & ->).
    - apply Zlen_nonneg.
    - rewrite slice_nil by lia. cbn. now rewrite app_nil_r.
    - intros i o Hi ->. destruct (get_in_range es i Hi) as (e & Ge). rewrite (Hf i e _ Ge). eexists. split; [reflexivity|].
      rewrite (slice_app es 0 i (i + 1)) by lia. rewrite map_app, concat_app, <- app_assoc. do 2 f_equal. rewrite (slice_cons _ _ _ e) by (auto; lia). rewrite slice_nil by lia. cbn [map concat]. now rewrite app_nil_r.
    - rewrite E, slice_full, foldM_text. reflexivity. }
  destruct Hd as [Hd|Hd]; [|destruct Hd as [Hd|Hd]]; subst d; cbn [code tdata].
  - change (data_char Pattern =? cP) with true. cbv iota. rewrite G; auto. intros i [[[x y] re] im] out Ge. rewrite !get_map, Ge. cbn [option_map crd_line]. now rewrite <- !app_assoc.
  - change (data_char Real =? cP) with false. change (data_char Real =? cR) with true. cbv iota. rewrite G; auto. intros i [[[x y] re] im] out Ge. rewrite !get_map, Ge. cbn [option_map crd_line].
    assert (E : crd_values Real es = map (fun e => let '(_, _, re, _) := e in re) es) by (unfold crd_values; clear; induction es as [|[[[x y] re] im] l IH]; cbn [map concat app]; f_equal; auto).
    rewrite E, get_map, Ge. cbn [option_map]. unfold entry_line. now rewrite <- !app_assoc.
  - change (data_char Complex =? cP) with false. change (data_char Complex =? cR) with false. change (data_char Complex =? cC) with true. cbv iota. rewrite G; auto. intros i [[[x y] re] im] out Ge. rewrite !get_map, Ge. cbn [option_map crd_line].
    assert (E : crd_values Complex es = concat (map (fun e => [(let '(_, _, re, _) := e in re); (let '(_, _, _, im) := e in im)]) es)) by (unfold crd_values; f_equal; apply map_ext; intros [[[? ?] ?] ?]; reflexivity).
    destruct (get_pairs (fun e => let '(_, _, re, _) := e in re) (fun e => let '(_, _, _, im) := e in im) es i (x, y, re, im) Ge) as (A1 & A2). rewrite E, A1, A2. now rewrite <- !app_assoc.
Qed.
End Proof.

(** ** A case: two complex entries of a skew-symmetric matrix, values printed as integers. *)
Lemma crd_case : mm_write_mtx_crd pr_int 2 3 2 [1; 2] [3; 1] [4; 5; -6; 7] (code Coordinate Complex Skew) =
  Some (0, str "%%MatrixMarket matrix coordinate complex skew-symmetric" ++ [10] ++ str "2 3 2" ++ [10] ++ str "1 3 4 5" ++ [10] ++ str "2 1 -6 7" ++ [10]).
Proof. vm_compute. reflexivity. Qed.
