(** * Reading whole coordinate files with the library functions
    (mm_io.cpp:225-354, 471-555). *)
From Coq Require Import String QArith Qabs.
From Verif Require Import Base Spec Csr Coo MmText MmIo MmLoad MmStore MmFloat MmRound MmTrip MmCrd.
Open Scope Z_scope.

(** ** Model *)
Definition MM_COULD_NOT_READ_FILE := 11.

Section Model.
Context {V : Type}.
(** [%lg], and what is left of the text when it finds no number. *)
Variable scan_g : list Z -> option (V * list Z).
Variable fail_g : list Z -> list Z.

(** mm_io.cpp:304-354.  A conversion that fails ends the call; what was converted
    before it has been stored.  The result: error code and the three arrays. *)
Fixpoint data_loop (t : typecode) (is : list Z) (f : list Z) (ri ci : list Z) (val : list V) : option (Z * (list Z * list Z * list V)) :=
  match is with
  | [] => Some (0, (ri, ci, val))
  | i :: is =>
      ' (l, _, r) <- scan_ints 2 f ;;
      match l with
      | [] => Some (MM_PREMATURE_EOF, (ri, ci, val))
      | [x] => ri <- set ri i x ;; Some (MM_PREMATURE_EOF, (ri, ci, val))
      | x :: y :: _ =>
          ri <- set ri i x ;; ci <- set ci i y ;;
          if tdata t =? cC then
            match scan_g (skip_ws r) with
            | None => Some (MM_PREMATURE_EOF, (ri, ci, val))
            | Some (re, r) =>
                val <- set val (2 * i) re ;;
                match scan_g (skip_ws r) with
                | None => Some (MM_PREMATURE_EOF, (ri, ci, val))
                | Some (im, r) => val <- set val (2 * i + 1) im ;; data_loop t is r ri ci val
                end
            end
          else if tdata t =? cR then
            match scan_g (skip_ws r) with
            | None => Some (MM_PREMATURE_EOF, (ri, ci, val))
            | Some (re, r) => val <- set val i re ;; data_loop t is (skip_ws r) ri ci val
            end
          else data_loop t is r ri ci val
      end
  end.
Definition mm_read_mtx_crd_data (f : list Z) (nz : Z) (ri ci : list Z) (val : list V) (t : typecode) : option (Z * (list Z * list Z * list V)) :=
  if (tdata t =? cC) || (tdata t =? cR) || (tdata t =? cP) then data_loop t (zrange 0 nz) f ri ci val else Some (MM_UNSUPPORTED_TYPE, (ri, ci, val)).

(** What mm_read_mtx_crd leaves: the error code; the type code; the sizes, [None]
    if they were not read; the arrays, [None] for a null pointer or one not set. *)
Record crd_result := mkCrd { rd_code : Z; rd_type : typecode; rd_sizes : option (Z * Z * Z); rd_I : option (list Z); rd_J : option (list Z); rd_val : option (list V) }.
Definition crd_fail (c : Z) (t : typecode) : crd_result := mkCrd c t None None None None.
(** Memory from malloc: for row and column numbers, and for values. *)
Record crd_junk := mkCrdJunk { cj_I : Z -> list Z; cj_J : Z -> list Z; cj_val : Z -> list V }.
(** mm_io.cpp:225-301.  [file]: what the name stands for, [None] if it cannot be
    opened.  On an error neither the file nor the arrays are released. *)
Definition mm_read_mtx_crd (fuel : nat) (j : crd_junk) (file : option (list Z)) (t0 : typecode) : option crd_result :=
  match file with
  | None => Some (crd_fail MM_COULD_NOT_READ_FILE t0)
  | Some f =>
      ' (rc, t, f) <- mm_read_banner f ;;
      if negb (rc =? 0) then Some (crd_fail rc t)
      else if negb (mm_is_valid t && (tfmt t =? cC) && (tobj t =? cM)) then Some (crd_fail MM_UNSUPPORTED_TYPE t)
      else
        ' (sz, f) <- mm_read_mtx_crd_size fuel f ;;
        match sz with
        | Some [M; N; nz] =>
            let ri := cj_I j nz in let ci := cj_J j nz in
            if tdata t =? cC then
              ' (rc, (ri, ci, val)) <- mm_read_mtx_crd_data f nz ri ci (cj_val j (2 * nz)) t ;; Some (mkCrd rc t (Some (M, N, nz)) (Some ri) (Some ci) (Some val))
            else if tdata t =? cR then
              ' (rc, (ri, ci, val)) <- mm_read_mtx_crd_data f nz ri ci (cj_val j nz) t ;; Some (mkCrd rc t (Some (M, N, nz)) (Some ri) (Some ci) (Some val))
            else if tdata t =? cP then
              ' (rc, (ri, ci, _)) <- mm_read_mtx_crd_data f nz ri ci [] t ;; Some (mkCrd rc t (Some (M, N, nz)) (Some ri) (Some ci) None)
            else Some (mkCrd 0 t (Some (M, N, nz)) (Some ri) (Some ci) None)
        | _ => Some (crd_fail MM_PREMATURE_EOF t)
        end
  end.

(** mm_io.cpp:543-551.  The result of fscanf is not looked at: the loop goes on with
    what is left of the text, and decrements what the arrays hold. *)
Definition dec (a : list Z) (i : Z) : option (list Z) := x <- get a i ;; assert! int32b (x - 1) ;; set a i (x - 1).
Fixpoint unsym_loop (is : list Z) (f : list Z) (ri ci : list Z) (val : list V) : option (list Z * list Z * list V) :=
  match is with
  | [] => Some (ri, ci, val)
  | i :: is =>
      ' (l, _, r) <- scan_ints 2 f ;;
      ri <- (match l with x :: _ => set ri i x | _ => Some ri end) ;;
      ci <- (match l with _ :: y :: _ => set ci i y | _ => Some ci end) ;;
      ' (val, r) <- (match l with
                    | _ :: _ :: _ => match scan_g (skip_ws r) with Some (v, r) => val <- set val i v ;; Some (val, skip_ws r) | None => Some (val, fail_g (skip_ws r)) end
                    | _ => Some (val, r) end) ;;
      ri <- dec ri i ;; ci <- dec ci i ;;
      unsym_loop is r ri ci val
  end.
(** mm_io.cpp:471-555; the result is the value returned, the sizes and the arrays. *)
Definition mm_read_unsymmetric_sparse (fuel : nat) (j : crd_junk) (file : option (list Z)) : option (Z * option (Z * Z * Z * list V * list Z * list Z)) :=
  match file with
  | None => Some (-1, None)
  | Some f =>
      ' (rc, t, f) <- mm_read_banner f ;;
      if negb (rc =? 0) then Some (-1, None)
      else if negb ((tdata t =? cR) && (tobj t =? cM) && (tfmt t =? cC)) then Some (-1, None)
      else
        ' (sz, f) <- mm_read_mtx_crd_size fuel f ;;
        match sz with
        | Some [M; N; nz] => ' (ri, ci, val) <- unsym_loop (zrange 0 nz) f (cj_I j nz) (cj_J j nz) (cj_val j nz) ;; Some (0, Some (M, N, nz, val, ri, ci))
        | _ => Some (-1, None)
        end
  end.
(** malloc of a negative size gives no memory. *)
Definition crd_junk_ok (j : crd_junk) : Prop := forall k, 0 <= k -> Zlen (cj_I j k) = k /\ Zlen (cj_J j k) = k /\ Zlen (cj_val j k) = k.

(** ** Specification: the text of entries (row, column, real and imaginary part) *)
Inductive crd_entry : data_type -> Z * Z * V * V -> list Z -> Prop :=
| pattern_crd : forall x y re im tx w ty, int32 x -> int32 y -> dec_text x tx -> dec_text y ty -> all_ws w -> w <> [] -> crd_entry Pattern (x, y, re, im) (tx ++ w ++ ty)
| real_crd : forall x y re im tx w ty w2 tr, int32 x -> int32 y -> dec_text x tx -> dec_text y ty -> number_text scan_g re tr -> all_ws w -> w <> [] -> all_ws w2 -> w2 <> [] ->
    crd_entry Real (x, y, re, im) (tx ++ w ++ ty ++ w2 ++ tr)
| complex_crd : forall x y re im tx w ty w2 tr w3 ti, int32 x -> int32 y -> dec_text x tx -> dec_text y ty -> number_text scan_g re tr -> number_text scan_g im ti ->
    all_ws w -> w <> [] -> all_ws w2 -> w2 <> [] -> all_ws w3 -> w3 <> [] -> crd_entry Complex (x, y, re, im) (tx ++ w ++ ty ++ w2 ++ tr ++ w3 ++ ti).
(** The text is these entries with white space in front of each, then [rest]. *)
Inductive crd_body (d : data_type) (rest : list Z) : list (Z * Z * V * V) -> list Z -> Prop :=
| crd_end : crd_body d rest [] rest
| crd_next : forall w e te es r, all_ws w -> crd_entry d e te -> delimited r -> crd_body d rest es r -> crd_body d rest (e :: es) (w ++ te ++ r).
(** No integer starts here: white space, then the end or a character that starts no number. *)
Definition no_number (f : list Z) : Prop :=
  exists w r, f = w ++ r /\ all_ws w /\ match r with [] => True | c :: _ => isspace c = false /\ isdigit c = false /\ c <> 43 /\ c <> 45 end.
(** A file with banner, comments, sizes and a body. *)
Definition crd_file (d : data_type) (s : storage) (M N nz : Z) (body file : list Z) : Prop :=
  exists banner comments size,
    file = banner ++ NL :: concat (map (fun l => l ++ [NL]) comments) ++ size ++ NL :: body /\
    banner_line Coordinate d s banner /\ Forall comment_line comments /\ text_line size /\ ints_text [M; N; nz] size.
Definition crd_row (e : Z * Z * V * V) : Z := let '(x, _, _, _) := e in x.
Definition crd_col (e : Z * Z * V * V) : Z := let '(_, y, _, _) := e in y.
(** The kinds of matrix that are read: no hermitian real matrices, no hermitian or skew patterns. *)
Definition crd_kind (d : data_type) (s : storage) : Prop :=
  match d with Real => s <> Hermitian | Pattern => s = General \/ s = Symmetric | Complex => True | Integer => False end.
End Model.
Arguments crd_junk : clear implicits.
Arguments crd_result : clear implicits.

(** ** Proofs *)
Section Proofs.
Context {V : Type}.
Variable scan_g : list Z -> option (V * list Z).
Notation entry := (crd_entry scan_g).
Notation body := (crd_body scan_g).

Lemma crd_first d e te : entry d e te -> match te with [] => False | c :: _ => isspace c = false end.
Proof.
  assert (D : forall x t r, dec_text x t -> match t ++ r with [] => False | c :: _ => isspace c = false end).
  { intros x' t r D. destruct (dec_text_chars _ _ D) as (N & F). destruct t; [easy|]. cbn. now inversion F. }
  intros H. destruct H as [x y re im tx w ty X Y DX|x y re im tx w ty w2 tr X Y DX|x y re im tx w ty w2 tr w3 ti X Y DX]; exact (D x tx _ DX).
Qed.
Lemma crd_skip d rest es r : body d rest es r -> es <> [] -> body d rest es (skip_ws r).
Proof.
  intros H N. destruct H as [|w e te es r Hw He Hr H]; [easy|]. rewrite skip_ws_app; auto.
  - change (te ++ r) with ([] ++ te ++ r). constructor; auto. constructor.
  - apply crd_first in He. destruct te; [easy|exact He].
Qed.
Lemma no_number_skip r : no_number r -> no_number (skip_ws r).
Proof.
  intros (w & r' & -> & Hw & H). rewrite skip_ws_app; auto.
  - exists [], r'. split; [reflexivity|]. split; [constructor|auto].
  - destruct r' as [|c r']; auto. apply H.
Qed.
Lemma no_number_scan r : no_number r -> exists e r', scan_ints 2 r = Some ([], e, r').
Proof.
  intros (w & r' & -> & Hw & H). cbn [scan_ints]. unfold scan_d. rewrite skip_ws_app; auto. 2: { destruct r' as [|c r']; auto. apply H. }
  destruct r' as [|c r']; [eauto|]. destruct H as (H1 & H2 & H3 & H4). cbn [scan_sign]. replace (c =? 45) with false by lia. replace (c =? 43) with false by lia. cbn [span]. rewrite H2. eauto.
Qed.

(** *** The entries *)
Notation num e := (let '(_, _, re, _) := e in re).
Notation imag e := (let '(_, _, _, im) := e in im).
(** How many numbers each entry has in the array of values. *)
Definition width (d : data_type) : Z := match d with Complex => 2 | Pattern => 0 | _ => 1 end.
Definition nums (d : data_type) (es : list (Z * Z * V * V)) : list V := match d with Pattern => [] | _ => crd_values d es end.
Lemma nums_snoc d p e : nums d (p ++ [e]) = nums d p ++ nums d [e].
Proof. destruct d; cbn [nums]; unfold crd_values; rewrite ?map_app, ?concat_app; reflexivity. Qed.
Lemma Zlen_nums d p : Zlen (nums d p) = width d * Zlen p.
Proof.
  induction p as [|e p IH]; [destruct d; reflexivity|]. destruct e as [[[x y] re] im]. rewrite Zlen_cons. revert IH.
  destruct d; cbn [nums width]; unfold crd_values; cbn [map concat app]; rewrite ?Zlen_cons; try lia.
Qed.

(** One turn of the loop. *)
Lemma data_step d s e te w r p is ri ci val cap : d <> Integer -> entry d e te -> all_ws w -> delimited r ->
  Zlen ri = cap -> Zlen ci = cap -> Zlen val = width d * cap -> Zlen p < cap ->
  filled ri (map crd_row p) -> filled ci (map crd_col p) -> filled val (nums d p) ->
  exists ri' ci' val' r', data_loop scan_g (code Coordinate d s) (Zlen p :: is) (w ++ te ++ r) ri ci val = data_loop scan_g (code Coordinate d s) is r' ri' ci' val' /\
    (r' = r \/ r' = skip_ws r) /\ Zlen ri' = cap /\ Zlen ci' = cap /\ Zlen val' = width d * cap /\
    filled ri' (map crd_row (p ++ [e])) /\ filled ci' (map crd_col (p ++ [e])) /\ filled val' (nums d (p ++ [e])).
Proof.
  intros HI He Hw Hr L1 L2 L3 Lp F1 F2 F3. pose proof (Zlen_nonneg p).
  assert (HS : forall x y, exists ri' ci', set ri (Zlen p) x = Some ri' /\ set ci (Zlen p) y = Some ci' /\ Zlen ri' = cap /\ Zlen ci' = cap /\
            filled ri' (map crd_row p ++ [x]) /\ filled ci' (map crd_col p ++ [y])).
  { intros x y. destruct (set_ok ri (Zlen p) x) as (ri1 & E1); [lia|]. destruct (set_ok ci (Zlen p) y) as (ci1 & E2); [lia|].
    exists ri1, ci1. split; auto. split; auto. split; [now rewrite (set_len _ _ _ _ E1)|]. split; [now rewrite (set_len _ _ _ _ E2)|].
    split; [apply filled_snoc with ri|apply filled_snoc with ci]; auto; now rewrite Zlen_map. }
  assert (E0 : forall l z, filled val (nums d p) -> z = width d * Zlen p -> set val z l = set val (Zlen (nums d p)) l) by (intros; subst; now rewrite Zlen_nums).
  cbn [data_loop]. pose proof (Zlen_nums d p) as Ln. rewrite nums_snoc, !map_app. cbn [map].
  destruct He as [x y re im tx w1 ty X Y DX DY W1 N1|x y re im tx w1 ty w2 tr X Y DX DY NV W1 N1 W2 N2|x y re im tx w1 ty w2 tr w3 ti X Y DX DY NV NI W1 N1 W2 N2 W3 N3];
    cbn [code tdata data_char width] in *; rewrite <- !app_assoc; destruct (HS x y) as (ri1 & ci1 & E1 & E2 & R1 & R2 & G1 & G2).
  - rewrite (scan_ints_2 x y); auto; [|now apply delim_no_digit]. rewrite E1, E2. cbn [Z.eqb Pos.eqb cC cR].
    exists ri1, ci1, val, r. split; [reflexivity|]. split; [auto|]. do 5 (split; [assumption|]). cbn [nums app] in *. exact F3.
  - rewrite (scan_ints_2 x y); auto; [|now apply ws_no_digit]. rewrite E1, E2. cbn [Z.eqb Pos.eqb cC cR].
    rewrite (number_skip scan_g re) by auto. rewrite (proj2 NV) by auto.
    destruct (set_ok val (Zlen (nums Real p)) re) as (v1 & E3); [lia|]. pose proof E3 as E4. rewrite Ln, Z.mul_1_l in E4. rewrite E4.
    exists ri1, ci1, v1, (skip_ws r). split; [reflexivity|]. split; [auto|]. do 2 (split; [assumption|]). split; [now rewrite (set_len _ _ _ _ E3)|]. do 2 (split; [assumption|]).
    apply filled_snoc with val; auto.
  - rewrite (scan_ints_2 x y); auto; [|now apply ws_no_digit]. rewrite E1, E2. cbn [Z.eqb Pos.eqb cC cR].
    rewrite (number_skip scan_g re) by auto. rewrite (proj2 NV) by now apply ws_delim. replace (2 * Zlen p) with (Zlen (nums Complex p)) by lia.
    destruct (set_ok val (Zlen (nums Complex p)) re) as (v1 & E3); [lia|]. rewrite E3. pose proof (set_len _ _ _ _ E3) as L4. pose proof (filled_snoc _ _ _ _ F3 E3) as F4.
    rewrite (number_skip scan_g im) by auto. rewrite (proj2 NI) by auto. replace (Zlen (nums Complex p) + 1) with (Zlen (nums Complex p ++ [re])) by (rewrite Zlen_app; reflexivity).
    destruct (set_ok v1 (Zlen (nums Complex p ++ [re])) im) as (v2 & E4); [rewrite Zlen_app; change (Zlen [re]) with 1; lia|]. rewrite E4. pose proof (filled_snoc _ _ _ _ F4 E4) as F5. rewrite <- app_assoc in F5.
    exists ri1, ci1, v2, r. split; [reflexivity|]. split; [auto|]. do 2 (split; [assumption|]). split; [rewrite (set_len _ _ _ _ E4); lia|]. do 2 (split; [assumption|]). exact F5.
Qed.

Lemma data_loop_steps d s rest cap tl es : d <> Integer -> forall f p ri ci val is,
  body d rest (es ++ tl) f -> Zlen ri = cap -> Zlen ci = cap -> Zlen val = width d * cap -> Zlen p + Zlen es <= cap ->
  filled ri (map crd_row p) -> filled ci (map crd_col p) -> filled val (nums d p) ->
  exists f' ri' ci' val', (body d rest tl f' \/ tl = [] /\ f' = skip_ws rest) /\
    data_loop scan_g (code Coordinate d s) (zrange (Zlen p) (Zlen p + Zlen es) ++ is) f ri ci val = data_loop scan_g (code Coordinate d s) is f' ri' ci' val' /\
    Zlen ri' = cap /\ Zlen ci' = cap /\ Zlen val' = width d * cap /\
    filled ri' (map crd_row (p ++ es)) /\ filled ci' (map crd_col (p ++ es)) /\ filled val' (nums d (p ++ es)).
Proof.
  intros HI. induction es as [|e es IH]; intros f p ri ci val is HB L1 L2 L3 LC F1 F2 F3.
  - rewrite Zlen_nil, Z.add_0_r, zrange_nil, app_nil_r by lia. exists f, ri, ci, val. auto 10.
  - cbn [app] in HB. inversion HB as [|w e' te es' r Hw He Hr HB']; subst. rewrite Zlen_cons in *. pose proof (Zlen_nonneg es). rewrite zrange_cons by lia. cbn [app].
    destruct (data_step d s e te w r p (zrange (Zlen p + 1) (Zlen p + (1 + Zlen es)) ++ is) ri ci val (Zlen ri)) as (ri1 & ci1 & v1 & r1 & E & Hr1 & R1 & R2 & R3 & G1 & G2 & G3); auto; [lia|].
    rewrite E. assert (Lp : Zlen (p ++ [e]) = Zlen p + 1) by (rewrite Zlen_app; reflexivity).
    assert (Eap : p ++ e :: es = (p ++ [e]) ++ es) by (rewrite <- app_assoc; reflexivity). rewrite Eap.
    destruct (list_eq_dec Z.eq_dec r1 r) as [->|Nr].
    + destruct (IH r (p ++ [e]) ri1 ci1 v1 is) as (f' & ri' & ci' & v' & Q); auto; [lia|]. rewrite Lp in Q. replace (Zlen p + 1 + Zlen es) with (Zlen p + (1 + Zlen es)) in Q by lia. exists f', ri', ci', v'. exact Q.
    + destruct Hr1 as [->| ->]; [easy|]. destruct (es ++ tl) as [|a q] eqn:Eq.
      * apply app_eq_nil in Eq as (-> & ->). inversion HB'; subst. exists (skip_ws r), ri1, ci1, v1. rewrite app_nil_r. split; [auto|].
        replace (Zlen p + (1 + Zlen (@nil (Z * Z * V * V)))) with (Zlen p + 1) by (rewrite Zlen_nil; lia). rewrite zrange_nil by lia. auto 10.
      * rewrite <- Eq in *. destruct (IH (skip_ws r) (p ++ [e]) ri1 ci1 v1 is) as (f' & ri' & ci' & v' & Q); auto; [apply crd_skip; [exact HB'|congruence]|lia|].
        rewrite Lp in Q. replace (Zlen p + 1 + Zlen es) with (Zlen p + (1 + Zlen es)) in Q by lia. exists f', ri', ci', v'. exact Q.
Qed.

Lemma filled_full {A} (a l : list A) : filled a l -> Zlen a = Zlen l -> a = l.
Proof. intros F L. rewrite <- (filled_slice a l F) by lia. rewrite <- L. symmetry. apply slice_full. Qed.

(** Enough entries. *)
Lemma data_ok d s rest tl es f ri ci val : d <> Integer -> body d rest (es ++ tl) f -> Zlen ri = Zlen es -> Zlen ci = Zlen es -> Zlen val = width d * Zlen es ->
  data_loop scan_g (code Coordinate d s) (zrange 0 (Zlen es)) f ri ci val = Some (0, (map crd_row es, map crd_col es, nums d es)).
Proof.
  intros HI HB L1 L2 L3. destruct (data_loop_steps d s rest (Zlen es) tl es HI f [] ri ci val []) as (f' & ri' & ci' & v' & _ & E & R1 & R2 & R3 & G1 & G2 & G3); auto using filled_nil; try (rewrite Zlen_nil; lia).
  1,2: apply filled_nil.
  { replace (nums d []) with (@nil V) by (destruct d; reflexivity). apply filled_nil. }
  rewrite app_nil_r, Zlen_nil, Z.add_0_l in E. rewrite E. cbn [data_loop app] in *. do 2 f_equal. f_equal; [f_equal|]; apply filled_full; auto; rewrite ?Zlen_map, ?Zlen_nums; lia.
Qed.
(** Too few. *)
Lemma data_short d s rest es f ri ci val nz : d <> Integer -> body d rest es f -> no_number rest -> Zlen es < nz -> Zlen ri = nz -> Zlen ci = nz -> Zlen val = width d * nz ->
  exists a, data_loop scan_g (code Coordinate d s) (zrange 0 nz) f ri ci val = Some (MM_PREMATURE_EOF, a).
Proof.
  intros HI HB HN LN L1 L2 L3. pose proof (Zlen_nonneg es). rewrite <- (app_nil_r es) in HB.
  destruct (data_loop_steps d s rest nz [] es HI f [] ri ci val (zrange (Zlen es) nz)) as (f' & ri' & ci' & v' & Hf & E & _); auto using filled_nil; try (rewrite Zlen_nil; lia).
  1,2: apply filled_nil.
  { replace (nums d []) with (@nil V) by (destruct d; reflexivity). apply filled_nil. }
  rewrite Zlen_nil, Z.add_0_l, <- zrange_app in E by lia. rewrite E.
  assert (Hf' : no_number f'). { destruct Hf as [Hf|(_ & ->)]; [now inversion Hf; subst|now apply no_number_skip]. }
  destruct (no_number_scan f' Hf') as (e & r' & Es). rewrite zrange_cons by lia. cbn [data_loop]. rewrite Es. eauto.
Qed.

(** *** The whole file *)
Lemma crd_header fuel d s M N nz bd file : crd_file d s M N nz bd file ->
  exists f, mm_read_banner file = Some (0, code Coordinate d s, f) /\ mm_read_mtx_crd_size fuel f = Some (Some [M; N; nz], bd).
Proof.
  intros (banner & comments & size & -> & HB & HC & HS & HI).
  exists (concat (map (fun l => l ++ [NL]) comments) ++ size ++ NL :: bd). split; [now apply read_banner_line|].
  set (f := concat (map (fun l => l ++ [NL]) comments) ++ size ++ NL :: bd).
  assert (Hf : (List.length comments <= List.length f)%nat).
  { unfold f. clear. rewrite app_length. induction comments as [|l cs IH]; cbn [map concat List.length]; [lia|]. rewrite !app_length in *. cbn [List.length] in *. lia. }
  unfold mm_read_mtx_crd_size, read_sizes. replace (S (List.length f)) with (S (List.length comments + (List.length f - List.length comments))) by lia.
  unfold f at 2. rewrite skip_comments_ok by (auto; eapply ints_text_first; eauto).
  rewrite cstr_line by apply HS. destruct (scan_ints_line _ _ (ints_text_app _ _ HI)) as (r & E). cbn [List.length] in E. rewrite E. reflexivity.
Qed.
Lemma crd_kind_valid d s : crd_kind d s -> d <> Integer /\ negb (mm_is_valid (code Coordinate d s) && (tfmt (code Coordinate d s) =? cC) && (tobj (code Coordinate d s) =? cM)) = false.
Proof. destruct d, s; cbn; intuition congruence. Qed.

Theorem read_crd fuel j d s M N file rest es tl bd t0 : crd_kind d s -> crd_junk_ok j -> crd_file d s M N (Zlen es) bd file -> body d rest (es ++ tl) bd ->
  mm_read_mtx_crd scan_g fuel j (Some file) t0 =
    Some (mkCrd 0 (code Coordinate d s) (Some (M, N, Zlen es)) (Some (map crd_row es)) (Some (map crd_col es)) (match d with Pattern => None | _ => Some (crd_values d es) end)).
Proof.
  intros HK HJ HF HB. destruct (crd_kind_valid _ _ HK) as (HI & HV). destruct (crd_header fuel _ _ _ _ _ _ _ HF) as (f & E1 & E2). unfold mm_read_mtx_crd. rewrite E1, HV, E2. cbv iota beta. change (negb (0 =? 0)) with false. cbv iota.
  pose proof (Zlen_nonneg es). destruct (HJ (Zlen es)) as (J1 & J2 & J3); [lia|]. destruct (HJ (2 * Zlen es)) as (_ & _ & J4); [lia|].
  unfold mm_read_mtx_crd_data. cbn [code tdata]. destruct d; cbn [data_char Z.eqb Pos.eqb cC cR cP orb]; try easy.
  - rewrite (data_ok Real s rest tl es); auto. cbn [width]. lia.
  - rewrite (data_ok Complex s rest tl es); auto.
  - rewrite (data_ok Pattern s rest tl es); auto.
Qed.
Theorem read_crd_short fuel j d s M N nz file rest es bd t0 : crd_kind d s -> crd_junk_ok j -> crd_file d s M N nz bd file -> body d rest es bd -> no_number rest -> Zlen es < nz ->
  exists r, mm_read_mtx_crd scan_g fuel j (Some file) t0 = Some r /\ rd_code r = MM_PREMATURE_EOF.
Proof.
  intros HK HJ HF HB HN LN. destruct (crd_kind_valid _ _ HK) as (HI & HV). destruct (crd_header fuel _ _ _ _ _ _ _ HF) as (f & E1 & E2). unfold mm_read_mtx_crd. rewrite E1, HV, E2. cbv iota beta. change (negb (0 =? 0)) with false. cbv iota.
  pose proof (Zlen_nonneg es). destruct (HJ nz) as (J1 & J2 & J3); [lia|]. destruct (HJ (2 * nz)) as (_ & _ & J4); [lia|].
  unfold mm_read_mtx_crd_data. cbn [code tdata]. destruct d; cbn [data_char Z.eqb Pos.eqb cC cR cP orb]; try easy.
  - destruct (data_short Real s rest es bd (cj_I j nz) (cj_J j nz) (cj_val j nz) nz) as ([[a1 a2] a3] & ->); auto; [cbn [width]; lia|]. eauto.
  - destruct (data_short Complex s rest es bd (cj_I j nz) (cj_J j nz) (cj_val j (2 * nz)) nz) as ([[a1 a2] a3] & ->); auto. eauto.
  - destruct (data_short Pattern s rest es bd (cj_I j nz) (cj_J j nz) [] nz) as ([[a1 a2] a3] & ->); auto. eauto.
Qed.
(** Integer files: nothing is read, and the call succeeds. *)
Theorem read_crd_integer fuel j s M N nz file bd t0 : crd_file Integer s M N nz bd file ->
  mm_read_mtx_crd scan_g fuel j (Some file) t0 = Some (mkCrd 0 (code Coordinate Integer s) (Some (M, N, nz)) (Some (cj_I j nz)) (Some (cj_J j nz)) None).
Proof.
  intros HF. destruct (crd_header fuel _ _ _ _ _ _ _ HF) as (f & E1 & E2). unfold mm_read_mtx_crd. rewrite E1, E2. destruct s; reflexivity.
Qed.

(** *** Nothing of the memory's old contents is left *)
Definition agree {A} (k : Z) (a b : list A) : Prop := Zlen a = Zlen b /\ forall i, i < k -> get a i = get b i.
Lemma agree_set {A} k (a b a' : list A) v : agree k a b -> set a k v = Some a' -> exists b', set b k v = Some b' /\ agree (k + 1) a' b'.
Proof.
  intros (L & G) E. pose proof (proj1 (set_Some_inv _ _ _ _ E)) as B. destruct (set_ok b k v) as (b' & E'); [lia|]. exists b'. split; auto.
  split; [now rewrite (set_len _ _ _ _ E), (set_len _ _ _ _ E')|]. intros i Hi. rewrite (get_set _ _ _ _ _ E), (get_set _ _ _ _ _ E'). destruct (i =? k) eqn:N; auto. apply G. lia.
Qed.
Lemma agree_full {A} k (a b : list A) : agree k a b -> Zlen a <= k -> a = b.
Proof. intros (L & G) H. apply list_ext; auto. intros i Hi. apply G. lia. Qed.

Lemma data_indep t nz n : forall k f ri ci v ri2 ci2 v2 a, Z.to_nat (nz - k) = n -> 0 <= k ->
  agree k ri ri2 -> agree k ci ci2 -> agree (if tdata t =? cC then 2 * k else if tdata t =? cR then k else 0) v v2 ->
  Zlen ri <= Z.max 0 nz -> Zlen ci <= Z.max 0 nz -> Zlen v <= (if tdata t =? cC then 2 * Z.max 0 nz else if tdata t =? cR then Z.max 0 nz else 0) -> k <= Z.max 0 nz ->
  data_loop scan_g t (zrange k nz) f ri ci v = Some (0, a) -> data_loop scan_g t (zrange k nz) f ri2 ci2 v2 = Some (0, a).
Proof.
  induction n as [|n IH]; intros k f ri ci v ri2 ci2 v2 a En Hk A1 A2 A3 L1 L2 L3 Lk.
  - rewrite zrange_nil by lia. cbn [data_loop]. rewrite (agree_full _ _ _ A1), (agree_full _ _ _ A2) by lia. rewrite (agree_full _ _ _ A3); auto.
    destruct (tdata t =? cC); [lia|]. destruct (tdata t =? cR); lia.
  - rewrite zrange_cons by lia. cbn [data_loop]. destruct (scan_ints 2 f) as [((l, e), r)|]; [|discriminate]. destruct l as [|x [|y l]]; [discriminate|destruct (set ri k x); discriminate|].
    destruct (set ri k x) as [ri'|] eqn:E1; [|discriminate]. destruct (set ci k y) as [ci'|] eqn:E2; [|discriminate].
    destruct (agree_set _ _ _ _ _ A1 E1) as (ri2' & -> & B1). destruct (agree_set _ _ _ _ _ A2 E2) as (ci2' & -> & B2).
    pose proof (set_len _ _ _ _ E1). pose proof (set_len _ _ _ _ E2).
    destruct (tdata t =? cC) eqn:TC; [|destruct (tdata t =? cR) eqn:TR].
    + destruct (scan_g (skip_ws r)) as [(re, r1)|]; [|discriminate]. destruct (set v (2 * k) re) as [v'|] eqn:E3; [|discriminate]. destruct (agree_set _ _ _ _ _ A3 E3) as (v2' & -> & B3).
      destruct (scan_g (skip_ws r1)) as [(im, r2)|]; [|discriminate]. destruct (set v' (2 * k + 1) im) as [v''|] eqn:E4; [|discriminate]. destruct (agree_set _ _ _ _ _ B3 E4) as (v2'' & -> & B4).
      pose proof (set_len _ _ _ _ E3). pose proof (set_len _ _ _ _ E4). apply IH; try lia; auto. replace (2 * (k + 1)) with (2 * k + 1 + 1) by lia. exact B4.
    + destruct (scan_g (skip_ws r)) as [(re, r1)|]; [|discriminate]. destruct (set v k re) as [v'|] eqn:E3; [|discriminate]. destruct (agree_set _ _ _ _ _ A3 E3) as (v2' & -> & B3).
      pose proof (set_len _ _ _ _ E3). apply IH; try lia; auto.
    + apply IH; try lia; auto.
Qed.
(** Whatever the bytes of the file: after a successful call, nothing in the result
    depends on what the new memory held. *)
Theorem read_crd_indep fuel j j2 file t0 r : (forall k, Zlen (cj_I j k) = Z.max 0 k /\ Zlen (cj_J j k) = Z.max 0 k /\ Zlen (cj_val j k) = Z.max 0 k) ->
  (forall k, Zlen (cj_I j2 k) = Z.max 0 k /\ Zlen (cj_J j2 k) = Z.max 0 k /\ Zlen (cj_val j2 k) = Z.max 0 k) ->
  mm_read_mtx_crd scan_g fuel j file t0 = Some r -> rd_code r = 0 -> tdata (rd_type r) <> cI -> mm_read_mtx_crd scan_g fuel j2 file t0 = Some r.
Proof.
  intros HJ HJ2. unfold mm_read_mtx_crd. destruct file as [f|]; [|auto]. destruct (mm_read_banner f) as [((rc, t), f1)|] eqn:EB; [|auto].
  destruct (negb (rc =? 0)) eqn:N0; [auto|]. destruct (negb (mm_is_valid t && (tfmt t =? cC) && (tobj t =? cM))) eqn:N1; [auto|]. destruct (mm_read_mtx_crd_size fuel f1) as [(sz, f2)|]; [|auto].
  destruct sz as [[|M [|N [|nz [|]]]]|]; auto. destruct (HJ nz) as (J1 & J2 & J3). destruct (HJ2 nz) as (K1 & K2 & K3). destruct (HJ (2 * nz)) as (_ & _ & J4). destruct (HJ2 (2 * nz)) as (_ & _ & K4).
  assert (A0 : forall A (a b : list A), Zlen a = Zlen b -> agree 0 a b) by (intros A a b L; split; auto; intros i Hi; rewrite !get_out by lia; auto).
  unfold mm_read_mtx_crd_data. destruct (tdata t =? cC) eqn:TC; [|destruct (tdata t =? cR) eqn:TR; [|destruct (tdata t =? cP) eqn:TP]]; cbn [orb].
  1,2,3: match goal with |- context [data_loop scan_g ?t ?l ?f ?a ?b ?c] => destruct (data_loop scan_g t l f a b c) as [(rc', ((a1, a2), a3))|] eqn:ED; [|discriminate] end;
    intros E; injection E as <-; cbn [rd_code rd_type]; intros -> _.
  - rewrite (data_indep t nz _ 0 f2 (cj_I j nz) (cj_J j nz) (cj_val j (2 * nz)) _ _ _ (a1, a2, a3) eq_refl); auto; try lia; try (rewrite TC); try (apply A0); try lia.
  - rewrite (data_indep t nz _ 0 f2 (cj_I j nz) (cj_J j nz) (cj_val j nz) _ _ _ (a1, a2, a3) eq_refl); auto; try lia; try (rewrite TC, TR); try (apply A0); try lia.
  - rewrite (data_indep t nz _ 0 f2 (cj_I j nz) (cj_J j nz) [] _ _ _ (a1, a2, a3) eq_refl); auto; try lia; try (rewrite TC, TR); try (apply A0); try lia; try reflexivity.
  - intros E; injection E as <-; cbn [rd_code rd_type]. intros _ HT. exfalso. apply Bool.negb_false_iff, Z.eqb_eq in N0. subst rc. apply read_banner_inv in EB as (a & b & c & ->). cbn [code tdata] in *. destruct b; try discriminate TC; try discriminate TR; try discriminate TP; apply HT; reflexivity.
Qed.

End Proofs.

(** *** mm_read_unsymmetric_sparse *)
Section Unsym.
Context {V : Type}.
Variable scan_g : list Z -> option (V * list Z).
Variable fail_g : list Z -> list Z.
Notation body := (crd_body scan_g).
Lemma set_set {A} (a a1 : list A) i u v : set a i u = Some a1 -> set a1 i v = set a i v.
Proof.
  intros E. pose proof (proj1 (set_Some_inv _ _ _ _ E)) as B. pose proof (set_len _ _ _ _ E) as L. destruct (set_ok a1 i v) as (a2 & E2); [lia|]. destruct (set_ok a i v) as (a3 & E3); [lia|]. rewrite E2, E3. f_equal.
  apply list_ext; [rewrite (set_len _ _ _ _ E2), (set_len _ _ _ _ E3); lia|]. intros k _. rewrite (get_set _ _ _ _ _ E2), (get_set _ _ _ _ _ E3), (get_set _ _ _ _ _ E). destruct (k =? i); auto.
Qed.
Lemma dec_set a a1 i x : set a i x = Some a1 -> int32 x -> - 2 ^ 31 < x -> dec a1 i = set a i (x - 1).
Proof.
  intros E Hx Hm. unfold dec. rewrite (get_set_same _ _ _ _ E). replace (int32b (x - 1)) with true by (unfold int32b, int32 in *; lia). now apply set_set with x.
Qed.
Lemma unsym_steps rest cap tl es : forall f p ri ci val is,
  body Real rest (es ++ tl) f -> Zlen ri = cap -> Zlen ci = cap -> Zlen val = cap -> Zlen p + Zlen es <= cap ->
  (forall e, In e es -> - 2 ^ 31 < crd_row e /\ - 2 ^ 31 < crd_col e) ->
  filled ri (map (fun e => crd_row e - 1) p) -> filled ci (map (fun e => crd_col e - 1) p) -> filled val (nums Real p) ->
  exists f' ri' ci' val', 
    unsym_loop scan_g fail_g (zrange (Zlen p) (Zlen p + Zlen es) ++ is) f ri ci val = unsym_loop scan_g fail_g is f' ri' ci' val' /\
    Zlen ri' = cap /\ Zlen ci' = cap /\ Zlen val' = cap /\
    filled ri' (map (fun e => crd_row e - 1) (p ++ es)) /\ filled ci' (map (fun e => crd_col e - 1) (p ++ es)) /\ filled val' (nums Real (p ++ es)).
Proof.
  induction es as [|e es IH]; intros f p ri ci val is HB L1 L2 L3 LC HM F1 F2 F3.
  - rewrite Zlen_nil, Z.add_0_r, zrange_nil, app_nil_r by lia. exists f, ri, ci, val. auto 10.
  - cbn [app] in HB. inversion HB as [|w e' te es' r Hw He Hr HB']; subst. rewrite Zlen_cons in *. pose proof (Zlen_nonneg es). pose proof (Zlen_nonneg p). rewrite zrange_cons by lia. cbn [app unsym_loop].
    inversion He as [|x y re im tx w1 ty w2 tr X Y DX DY NV W1 N1 W2 N2|]; subst. destruct (HM _ (or_introl eq_refl)) as (M1 & M2). cbn [crd_row crd_col] in M1, M2.
    rewrite <- !app_assoc. rewrite (scan_ints_2 x y); auto; [|now apply ws_no_digit].
    destruct (set_ok ri (Zlen p) x) as (ri1 & E1); [lia|]. destruct (set_ok ci (Zlen p) y) as (ci1 & E2); [lia|]. rewrite E1, E2.
    rewrite (number_skip scan_g re) by auto. rewrite (proj2 NV) by auto. pose proof (Zlen_nums Real p) as Ln. cbn [width] in Ln.
    destruct (set_ok val (Zlen (nums Real p)) re) as (v1 & E3); [lia|]. pose proof E3 as E4. rewrite Ln, Z.mul_1_l in E4. rewrite E4.
    rewrite (dec_set ri ri1 _ x), (dec_set ci ci1 _ y) by auto.
    destruct (set_ok ri (Zlen p) (x - 1)) as (ri2 & E5); [lia|]. destruct (set_ok ci (Zlen p) (y - 1)) as (ci2 & E6); [lia|]. rewrite E5, E6.
    set (e0 := (x, y, re, im)) in *. assert (Lp : Zlen (p ++ [e0]) = Zlen p + 1) by (rewrite Zlen_app; reflexivity).
    assert (Eap : p ++ e0 :: es = (p ++ [e0]) ++ es) by (rewrite <- app_assoc; reflexivity). rewrite Eap.
    assert (G1 : filled ri2 (map (fun e => crd_row e - 1) (p ++ [e0]))) by (rewrite map_app; apply filled_snoc with ri; auto; now rewrite Zlen_map).
    assert (G2 : filled ci2 (map (fun e => crd_col e - 1) (p ++ [e0]))) by (rewrite map_app; apply filled_snoc with ci; auto; now rewrite Zlen_map).
    assert (G3 : filled v1 (nums Real (p ++ [e0]))) by (rewrite nums_snoc; apply filled_snoc with val; auto).
    pose proof (set_len _ _ _ _ E4). pose proof (set_len _ _ _ _ E5). pose proof (set_len _ _ _ _ E6).
    destruct (es ++ tl) as [|a q] eqn:Eq.
    + apply app_eq_nil in Eq as (-> & ->). exists (skip_ws r), ri2, ci2, v1. rewrite app_nil_r. rewrite zrange_nil by (rewrite Zlen_nil; lia). cbn [app]. split; [auto|]. do 3 (split; [lia|]). auto.
    + rewrite <- Eq in *. destruct (IH (skip_ws r) (p ++ [e0]) ri2 ci2 v1 is) as (f' & ri' & ci' & v' & Q); auto; try lia.
      * apply crd_skip; [exact HB'|congruence].
      * intros e He'. apply HM. now right.
      * rewrite Lp in Q. replace (Zlen p + 1 + Zlen es) with (Zlen p + (1 + Zlen es)) in Q by lia. exists f', ri', ci', v'. exact Q.
Qed.
Theorem read_unsym fuel j s M N file rest es tl bd : crd_junk_ok j -> crd_file Real s M N (Zlen es) bd file -> body Real rest (es ++ tl) bd ->
  (forall e, In e es -> - 2 ^ 31 < crd_row e /\ - 2 ^ 31 < crd_col e) ->
  mm_read_unsymmetric_sparse scan_g fail_g fuel j (Some file) =
    Some (0, Some (M, N, Zlen es, crd_values Real es, map (fun e => crd_row e - 1) es, map (fun e => crd_col e - 1) es)).
Proof.
  intros HJ HF HB HM. destruct (crd_header scan_g fuel _ _ _ _ _ _ _ HF) as (f & E1 & E2). unfold mm_read_unsymmetric_sparse. rewrite E1. cbn [code tdata tobj tfmt data_char format_char]. cbv iota beta. change (negb (0 =? 0)) with false. change (negb _) with false. cbv iota. rewrite E2.
  pose proof (Zlen_nonneg es). destruct (HJ (Zlen es)) as (J1 & J2 & J3); [lia|].
  destruct (unsym_steps rest (Zlen es) tl es bd [] (cj_I j (Zlen es)) (cj_J j (Zlen es)) (cj_val j (Zlen es)) []) as (f' & ri' & ci' & v' & E & R1 & R2 & R3 & G1 & G2 & G3); auto; try apply filled_nil; try (rewrite Zlen_nil; lia).
  rewrite app_nil_r, Zlen_nil, Z.add_0_l in E. rewrite E. cbn [unsym_loop app] in *. pose proof (Zlen_nums Real es) as Ln. cbn [width] in Ln.
  rewrite (filled_full _ _ G1), (filled_full _ _ G2), (filled_full _ _ G3) by (rewrite ?Zlen_map; lia). reflexivity.
Qed.
End Unsym.

(** ** What mm_write_mtx_crd writes is read back *)
Section Trip.
Context {V : Type}.
Variables (pr_v : V -> list Z) (scan_g : list Z -> option (V * list Z)).
(** The same position, and numbers that the printed text is read as. *)
Definition same_entry (d : data_type) (e e' : Z * Z * V * V) : Prop :=
  let '(x, y, re, im) := e in let '(x', y', re', im') := e' in
  x' = x /\ y' = y /\ (d <> Pattern -> rereads pr_v scan_g re re') /\ (d = Complex -> rereads pr_v scan_g im im').

Lemma written_body d es es' w : d <> Integer -> all_ws w -> Forall2 (same_entry d) es es' -> Forall (fun e => int32 (crd_row e) /\ int32 (crd_col e)) es ->
  exists rest, all_ws rest /\ crd_body scan_g d rest es' (w ++ concat (map (crd_line pr_v d) es)).
Proof.
  intros HI Hw HF. revert w Hw. induction HF as [|[[[x y] re] im] [[[x' y'] re'] im'] es es' (-> & -> & H1 & H2) HF IH]; intros w Hw HA; cbn [map concat].
  - exists (w ++ []). split; [now rewrite app_nil_r|constructor].
  - inversion HA as [|? ? (I1 & I2) HA']; subst. cbn [crd_row crd_col] in I1, I2. destruct (IH [NL]) as (rest & Hrest & HB); [repeat constructor|auto|]. exists rest. split; auto.
    assert (G : forall te, crd_line pr_v d (x, y, re, im) = te ++ [NL] -> crd_entry scan_g d (x, y, re', im') te -> crd_body scan_g d rest ((x, y, re', im') :: es') (w ++ crd_line pr_v d (x, y, re, im) ++ List.concat (map (crd_line pr_v d) es))).
    { intros te -> He. rewrite <- (app_assoc te). apply crd_next; auto. reflexivity. }
    destruct d; [|  | |easy].
    + destruct (H1 ltac:(discriminate)) as (ws & t & E & W & N). apply (G (pr_int x ++ [32] ++ pr_int y ++ (32 :: ws) ++ t)).
      * cbn [crd_line]. rewrite E. repeat (rewrite <- app_assoc; cbn [app]). reflexivity.
      * apply real_crd; auto using pr_int_dec; try discriminate; repeat constructor; auto.
    + destruct (H1 ltac:(discriminate)) as (ws & t & E & W & N). destruct (H2 eq_refl) as (ws2 & t2 & E2 & W2 & N2).
      apply (G (pr_int x ++ [32] ++ pr_int y ++ (32 :: ws) ++ t ++ (32 :: ws2) ++ t2)).
      * cbn [crd_line]. rewrite E, E2. repeat (rewrite <- app_assoc; cbn [app]). reflexivity.
      * apply complex_crd; auto using pr_int_dec; try discriminate; repeat constructor; auto.
    + apply (G (pr_int x ++ [32] ++ pr_int y)).
      * cbn [crd_line]. repeat (rewrite <- app_assoc; cbn [app]). reflexivity.
      * apply pattern_crd; auto using pr_int_dec; try discriminate; repeat constructor; auto.
Qed.
Lemma written_file d s M N nz bd : int32 M -> int32 N -> int32 nz -> crd_file d s M N nz bd (crd_head d s M N nz ++ bd).
Proof.
  intros Hm Hn Hk. exists (str "%%MatrixMarket" ++ [32] ++ str "matrix" ++ [32] ++ str (format_word Coordinate) ++ [32] ++ str (data_word d) ++ [32] ++ str (storage_word s)), [], (pr_int M ++ [32] ++ pr_int N ++ [32] ++ pr_int nz).
  split; [|split; [apply (printed_banner Coordinate d s)|split; [apply Forall_nil|split]]].
  - cbn [map List.concat]. unfold crd_head. repeat (rewrite <- app_assoc; cbn [app]). destruct d, s; reflexivity.
  - split.
    + unfold line_chars. rewrite !Forall_app. repeat split; try apply pr_int_line; repeat constructor; discriminate.
    + rewrite !app_length. cbn [List.length]. pose proof (pr_int_length M Hm). pose proof (pr_int_length N Hn). pose proof (pr_int_length _ Hk). lia.
  - apply (next_int [] M); auto using pr_int_dec; [constructor|reflexivity|]. apply (next_int [32] N); auto using pr_int_dec; [repeat constructor; discriminate|reflexivity|].
    replace (pr_int nz) with (pr_int nz ++ []) by apply app_nil_r. apply (next_int [32] nz); auto using pr_int_dec; [repeat constructor; discriminate|exact I|constructor].
Qed.
Theorem write_read fuel j d s M N es es' t0 : crd_kind d s -> crd_junk_ok j -> int32 M -> int32 N -> int32 (Zlen es) ->
  Forall (fun e => int32 (crd_row e) /\ int32 (crd_col e)) es -> Forall2 (same_entry d) es es' ->
  exists text, mm_write_mtx_crd pr_v M N (Zlen es) (map crd_row es) (map crd_col es) (crd_values d es) (code Coordinate d s) = Some (0, text) /\
    mm_read_mtx_crd scan_g fuel j (Some text) t0 =
      Some (mkCrd 0 (code Coordinate d s) (Some (M, N, Zlen es)) (Some (map crd_row es)) (Some (map crd_col es)) (match d with Pattern => None | _ => Some (crd_values d es') end)).
Proof.
  intros HK HJ Hm Hn Hz HA HF. destruct (crd_kind_valid _ _ HK) as (HI & _). eexists. split. { apply crd_text. destruct d; auto. easy. }
  destruct (written_body d es es' [] HI) as (rest & _ & HB); auto; [constructor|]. cbn [app] in HB.
  assert (L : Zlen es' = Zlen es) by (unfold Zlen; f_equal; symmetry; eapply Forall2_len; eauto).
  assert (E1 : map crd_row es' = map crd_row es) by (clear - HF; induction HF as [|[[[x y] re] im] [[[x' y'] re'] im'] es es' (-> & -> & _) HF IH]; cbn [map crd_row]; congruence).
  assert (E2 : map crd_col es' = map crd_col es) by (clear - HF; induction HF as [|[[[x y] re] im] [[[x' y'] re'] im'] es es' (-> & -> & _) HF IH]; cbn [map crd_col]; congruence).
  rewrite <- E1, <- E2, <- L. apply (read_crd scan_g fuel j d s M N _ rest es' [] (List.concat (map (crd_line pr_v d) es))); auto.
  - rewrite L. apply written_file; auto.
  - now rewrite app_nil_r.
Qed.
End Trip.

(** Doubles: the values come back as %20.16g leaves them. *)
Definition kept (v u : dbl) : Prop := close_number v u /\ (short v -> same_number v u).
Definition kept_entry (e e' : Z * Z * dbl * dbl) : Prop :=
  let '(x, y, re, im) := e in let '(x', y', re', im') := e' in x' = x /\ y' = y /\ kept re re' /\ kept im im'.
Definition in_range (v : dbl) : Prop := is_double v /\ (Qabs (dval v) <= (10 # 1) ^ 308)%Q.
Theorem write_read_doubles rnd fuel j d s M N es t0 : nearest rnd -> crd_kind d s -> crd_junk_ok j -> int32 M -> int32 N -> int32 (Zlen es) ->
  Forall (fun e => int32 (crd_row e) /\ int32 (crd_col e)) es -> (forall x y re im, In (x, y, re, im) es -> in_range re /\ in_range im) ->
  exists text es', mm_write_mtx_crd print_g20 M N (Zlen es) (map crd_row es) (map crd_col es) (crd_values d es) (code Coordinate d s) = Some (0, text) /\
    mm_read_mtx_crd (scan_lg rnd) fuel j (Some text) t0 =
      Some (mkCrd 0 (code Coordinate d s) (Some (M, N, Zlen es)) (Some (map crd_row es)) (Some (map crd_col es)) (match d with Pattern => None | _ => Some (crd_values d es') end)) /\
    Forall2 kept_entry es es'.
Proof.
  intros HR HK HJ Hm Hn Hz HA HV.
  assert (exists es', Forall2 (same_entry print_g20 (scan_lg rnd) d) es es' /\ Forall2 kept_entry es es') as (es' & F1 & F2).
  { clear - HV HR. induction es as [|[[[x y] re] im] es IH]; [exists []; split; constructor|]. destruct IH as (es' & F1 & F2); [intros; eapply HV; right; eauto|].
    destruct (HV x y re im) as ((D1 & B1) & (D2 & B2)); [now left|]. destruct (printed_rereads rnd re) as (u & U1 & U2 & U3). destruct (printed_rereads rnd im) as (u' & U1' & U2' & U3').
    exists ((x, y, u, u') :: es'). split; constructor; auto; repeat split; auto; apply U3 || apply U3'; auto. }
  destruct (write_read print_g20 (scan_lg rnd) fuel j d s M N es es' t0) as (text & E1 & E2); auto. exists text, es'. auto.
Qed.

(** ** Cases *)
Definition some_cj : crd_junk dbl := mkCrdJunk (fun k => repeat 77 (Z.to_nat k)) (fun k => repeat 78 (Z.to_nat k)) (fun k => repeat (7, 7) (Z.to_nat k)).
Lemma some_cj_ok : crd_junk_ok some_cj.
Proof. intros k Hk. cbn [cj_I cj_J cj_val some_cj]. rewrite !Zlen_repeat. lia. Qed.
(** Two complex entries of a 2 by 3 matrix, spread over lines at will. *)
Definition cplx_text : list Z := str "%%MatrixMarket matrix coordinate complex general
% a comment
2 3 2
1 3 -2500 0.5
2
 1 3 0
".
Lemma cplx_case : mm_read_mtx_crd (scan_lg strtod) 9 some_cj (Some cplx_text) clear_typecode =
  Some (mkCrd 0 (code Coordinate Complex General) (Some (2, 3, 2)) (Some [1; 2]) (Some [3; 1]) (Some [(-5497558138880000, -41); (4503599627370496, -53); (6755399441055744, -51); (0, 0)])).
Proof. vm_compute. reflexivity. Qed.
(** The same entries as a list, and the file that holds them. *)
Definition cplx_es : list (Z * Z * dbl * dbl) := [(1, 3, (-625, 2), (1, -1)); (2, 1, (3, 0), (0, 0))].
Lemma cplx_es_case : crd_kind Complex General /\ Forall (fun e => int32 (crd_row e) /\ int32 (crd_col e)) cplx_es /\ (forall x y re im, In (x, y, re, im) cplx_es -> in_range re /\ in_range im) /\
  exists bd file rest es', crd_file Complex General 2 3 2 bd file /\ crd_body (scan_lg strtod) Complex rest es' bd /\ no_number rest /\ map crd_row es' = [1; 2] /\ Zlen es' = 2.
Proof.
  assert (HA : Forall (fun e => int32 (crd_row e) /\ int32 (crd_col e)) cplx_es) by (repeat constructor; cbn; lia).
  split; [exact I|]. split; [exact HA|]. split.
  { intros x y re im [E|[E|[]]]; injection E as <- <- <- <-; split; (split; [unfold is_double; cbn [fst snd]; lia|vm_compute; discriminate]). }
  assert (exists es', Forall2 (same_entry print_g20 (scan_lg strtod) Complex) cplx_es es') as (es' & HF).
  { unfold cplx_es. destruct (printed_rereads strtod (-625, 2)) as (u1 & U1 & _). destruct (printed_rereads strtod (1, -1)) as (u2 & U2 & _). destruct (printed_rereads strtod (3, 0)) as (u3 & U3 & _). destruct (printed_rereads strtod (0, 0)) as (u4 & U4 & _).
    exists [(1, 3, u1, u2); (2, 1, u3, u4)]. repeat constructor; auto. }
  destruct (written_body print_g20 (scan_lg strtod) Complex cplx_es es' []) as (rest & HW & HB); auto; [discriminate|constructor|]. cbn [app] in HB.
  exists (concat (map (crd_line print_g20 Complex) cplx_es)), (crd_head Complex General 2 3 2 ++ concat (map (crd_line print_g20 Complex) cplx_es)), rest, es'.
  split; [apply (written_file (scan_lg strtod)); unfold int32; lia|]. split; [exact HB|]. split; [exists rest, []; split; [now rewrite app_nil_r|auto]|].
  inversion HF as [|[[[? ?] ?] ?] [[[? ?] ?] ?] ? ? (E1 & E2 & _) HF']; subst. inversion HF' as [|[[[? ?] ?] ?] [[[? ?] ?] ?] ? ? (E3 & E4 & _) HF'']; subst. inversion HF''; subst. split; reflexivity.
Qed.

(** A file of integers: success is reported and nothing was read. *)
Definition ints_file : list Z := str "%%MatrixMarket matrix coordinate integer general
2 2 1
1 2 5
".
Lemma integer_unread : mm_read_mtx_crd (scan_lg strtod) 9 some_cj (Some ints_file) clear_typecode =
  Some (mkCrd 0 (code Coordinate Integer General) (Some (2, 2, 1)) (Some [77]) (Some [78]) None).
Proof. vm_compute. reflexivity. Qed.
(** A file cut off after its first entry: one reader reports it, the other does not. *)
Definition cut_file : list Z := str "%%MatrixMarket matrix coordinate real general
2 2 2
1 2 5
".
Lemma cut_unnoticed : option_map (@rd_code dbl) (mm_read_mtx_crd (scan_lg strtod) 9 some_cj (Some cut_file) clear_typecode) = Some 12 /\
  forall fail_g, mm_read_unsymmetric_sparse (scan_lg strtod) fail_g 9 some_cj (Some cut_file) =
    Some (0, Some (2, 2, 2, [(5629499534213120, -50); (7, 7)], [0; 76], [1; 77])).
Proof. split; [vm_compute; reflexivity|]. intros fail_g. vm_compute. reflexivity. Qed.
(** Only one half of a symmetric matrix is stored, and that half is all the caller gets. *)
Definition sym_file : list Z := str "%%MatrixMarket matrix coordinate real symmetric
2 2 1
2 1 5
".
Lemma symmetric_halved : forall fail_g, mm_read_unsymmetric_sparse (scan_lg strtod) fail_g 9 some_cj (Some sym_file) =
    Some (0, Some (2, 2, 1, [(5629499534213120, -50)], [1], [0])).
Proof. intros fail_g. vm_compute. reflexivity. Qed.
