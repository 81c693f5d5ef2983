(** * Loading a Matrix Market file (COO.cpp:186-369) *)
From Coq Require Import String.
From Verif Require Import Base Interleave Spec Search Flat Csr CsrTools Transpose RowPar Coo Tasks SymPattern MmText MmIo.
Open Scope Z_scope.

(** ** Model *)

Section Model.
Context {V : Type}.
Variable scan_g : list Z -> option (V * list Z).
Variable of_ll : Z -> V.
Variable one : V.

(** The arrays being filled: rowidx, colidx, values, rowcnt. *)
Definition larr : Type := list Z * list Z * list V * list Z.

(** COO.cpp:258-282.  The result: count, base and the arrays; [Some None] if a
    coordinate is out of range.  Every iteration stores into element [count] of
    arrays of [cap] elements, hence [cap + 1] iterations are enough fuel: one
    more would already have stored outside the array. *)
Fixpoint read_loop (fuel : nat) (t : typecode) (tr sym : bool) (oM oN : Z) (f : list Z) (count base : Z) (a : larr) : option (option (Z * Z * larr)) :=
  match fuel with
  | O => None
  | S fuel =>
      e <- read_entry scan_g of_ll t f ;;
      match e with
      | None => Some (Some (count, base, a))
      | Some (x0, y0, re, r) =>
          let x := if tr then y0 else x0 in let y := if tr then x0 else y0 in
          if (oM <? x) || (oN <? y) then Some None
          else
            let '(ri, ci, vs, rc) := a in
            ri <- set ri count x ;; ci <- set ci count y ;;
            v <- (if tdata t =? cP then Some one else re) ;; vs <- set vs count v ;;
            rc <- (if sym then k <- get rc x ;; set rc x (k + 1) else Some rc) ;;
            read_loop fuel t tr sym oM oN r (count + 1) (if (0 =? x) || (0 =? y) then 0 else base) (ri, ci, vs, rc)
      end
  end.

(** COO.cpp:284-289 *)
Definition pad_loop (lo hi count : Z) (s : list Z * list Z * list V) : option (list Z * list Z * list V) :=
  forZ lo hi (fun i s => let '(ri, ci, vs) := s in let k := count + (i - lo) in
    ri <- set ri k (i + 1) ;; ci <- set ci k (i + 1) ;; vs <- set vs k one ;; Some (ri, ci, vs)) s.

(** COO.cpp:293-296 *)
Definition incr_all (count : Z) (w : list Z) : option (list Z) := forZ 0 count (fun i w => x <- get w i ;; set w i (x + 1)) w.
(** COO.cpp:298-300 and 322-324 *)
Definition shift_down (m : Z) (rc : list Z) : option (list Z) := forZdown m 1 (fun i rc => x <- get rc (i - 1) ;; set rc i x) rc.

(** COO.cpp:317-321 *)
Definition temp_step (ri ci : list Z) (i : Z) (s : list Z * list Z) : option (list Z * list Z) :=
  let '(ct, rc) := s in
  r <- get ri i ;; j <- get rc (r - 1) ;; c <- get ci i ;; ct <- set ct j c ;; rc <- set rc (r - 1) (j + 1) ;; Some (ct, rc).

(** COO.cpp:332-343 *)
Definition mirror_step (ct rc : list Z) (i : Z) (s : Z * list Z * list Z * list V) : option (Z * list Z * list Z * list V) :=
  let '(k, ri, ci, vs) := s in
  x <- get ri i ;; y <- get ci i ;;
  if x =? y then Some s
  else
    lo <- get rc (y - 1) ;; hi <- get rc y ;; b <- binary_search ct lo hi x ;;
    if b then Some s
    else v <- get vs i ;; ri <- set ri k y ;; ci <- set ci k x ;; vs <- set vs k v ;; Some (k + 1, ri, ci, vs).

(** COO.cpp:310-348.  The iterations of the parallel loop sort disjoint segments. *)
Definition add_mirrored (sch : list nat) (m count : Z) (ct rc ri ci : list Z) (vs : list V) : option (Z * list Z * list Z * list V) :=
  rc <- forZ 0 m (fun i rc => x <- get rc (i + 1) ;; y <- get rc i ;; set rc (i + 1) (x + y)) rc ;;
  ' (ct, rc) <- forZ 0 count (temp_step ri ci) (ct, rc) ;;
  rc <- shift_down m rc ;; rc <- set rc 0 0 ;;
  ct <- par_any sch (fun i ct => lo <- get rc i ;; hi <- get rc (i + 1) ;; sort_seg ct lo hi) 0 m ct ;;
  forZ 0 count (mirror_step ct rc) (count, ri, ci, vs).

(** Memory from malloc: arbitrary contents of the requested size. *)
Record mm_junk := mkMmJunk { jri : Z -> list Z; jci : Z -> list Z; jvs : Z -> list V; jct : Z -> list Z }.

(** COO.cpp:186-359.  [wasSym]: the member isSymmetric of the COO object before the
    call.  The result: isSymmetric afterwards, and the loaded matrix unless the
    function returns false.  A malloc of a negative (hence huge) size fails.  The
    result keeps the first nnz elements of the arrays, the rest is not used.
    Overflow of 2*nnz and of the padded sizes is not modelled. *)
Definition loadMatrixMarket_ (fuel : nat) (sch : list nat) (j : mm_junk) (file : list Z) (wasSym force tr : bool) (pad : Z) : option (bool * option (coo V)) :=
  ' (err, t, f) <- mm_read_banner file ;;
  if negb (err =? 0) then Some (wasSym, None)
  else if negb (mm_is_valid t) || (tfmt t =? cA) then Some (wasSym, None)
  else
    ' (sz, f) <- mm_read_mtx_crd_size fuel f ;;
    match sz with
    | Some [m0; n0; nnz] =>
        assert! (negb (tr && force)) ;;
        let oM := if tr then n0 else m0 in let oN := if tr then m0 else n0 in
        if pad =? 0 then None else
        let m := Z.quot (oM + pad - 1) pad * pad in let n := Z.quot (oN + pad - 1) pad * pad in
        let both := force || (tsym t =? cS) in let sym := wasSym || both in
        let cnt := if both then 2 * nnz else nnz in
        let cap := cnt + (Z.min m n - Z.min oM oN) in
        if cap <? 0 then Some (sym, None)
        else if sym && ((cnt <? 0) || (m + 1 <? 0)) then Some (sym, None)
        else
          r <- read_loop (S (Z.to_nat cap)) t tr sym oM oN f 0 1 (jri j cap, jci j cap, jvs j cap, repeat 0 (Z.to_nat (m + 1))) ;;
          match r with
          | None => Some (sym, None)
          | Some (lines, base, (ri, ci, vs, rc)) =>
              ' (ri, ci, vs) <- pad_loop (Z.min oM oN) (Z.min m n) lines (ri, ci, vs) ;;
              let count := lines + Z.max 0 (Z.min m n - Z.min oM oN) in
              ' (ri, ci, rc) <- (if 0 =? base then
                                   ri <- incr_all count ri ;; ci <- incr_all count ci ;;
                                   rc <- (if sym then shift_down m rc else Some rc) ;; Some (ri, ci, rc)
                                 else Some (ri, ci, rc)) ;;
              if negb (lines =? nnz) then Some (sym, None)
              else
                ' (count, ri, ci, vs) <- (if sym then add_mirrored sch m count (jct j cnt) rc ri ci vs else Some (count, ri, ci, vs)) ;;
                Some (sym, Some (mkCOO m n count (slice ri 0 count) (slice ci 0 count) (slice vs 0 count)))
          end
    | _ => Some (wasSym, None)
    end.

(** COO.cpp:361-369 *)
Definition loadMatrixMarketTransposed fuel sch j file wasSym pad := loadMatrixMarket_ fuel sch j file wasSym false true pad.
Definition loadMatrixMarket fuel sch j file wasSym force pad := loadMatrixMarket_ fuel sch j file wasSym force false pad.

Definition mm_junk_ok (j : mm_junk) : Prop :=
  forall k, 0 <= k -> Zlen (jri j k) = k /\ Zlen (jci j k) = k /\ Zlen (jvs j k) = k /\ Zlen (jct j k) = k.

(** ** Specification: what a coordinate file is *)

(** [t] is a text that %lg reads as [v], up to the next white space. *)
Definition number_text (v : V) (t : list Z) : Prop :=
  match t with [] => False | c :: _ => isspace c = false end /\ forall r, delimited r -> scan_g (t ++ r) = Some (v, r).

(** The text of one entry, without the white space in front: row, column, value. *)
Inductive entry_text : data_type -> Z -> Z -> V -> list Z -> Prop :=
| real_entry : forall x y v tx w1 ty w2 tv, int32 x -> int32 y -> dec_text x tx -> dec_text y ty -> number_text v tv ->
    all_ws w1 -> w1 <> [] -> all_ws w2 -> w2 <> [] -> entry_text Real x y v (tx ++ w1 ++ ty ++ w2 ++ tv)
| complex_entry : forall x y v im tx w1 ty w2 tv w3 ti, int32 x -> int32 y -> dec_text x tx -> dec_text y ty -> number_text v tv -> number_text im ti ->
    all_ws w1 -> w1 <> [] -> all_ws w2 -> w2 <> [] -> all_ws w3 -> w3 <> [] -> entry_text Complex x y v (tx ++ w1 ++ ty ++ w2 ++ tv ++ w3 ++ ti)
| integer_entry : forall x y k tx w1 ty w2 tk, int32 x -> int32 y -> - 2 ^ 63 <= k < 2 ^ 63 -> dec_text x tx -> dec_text y ty -> dec_text k tk ->
    all_ws w1 -> w1 <> [] -> all_ws w2 -> w2 <> [] -> entry_text Integer x y (of_ll k) (tx ++ w1 ++ ty ++ w2 ++ tk)
| pattern_entry : forall x y tx w1 ty, int32 x -> int32 y -> dec_text x tx -> dec_text y ty -> all_ws w1 -> w1 <> [] -> entry_text Pattern x y one (tx ++ w1 ++ ty).

Inductive entries_text (b : data_type) : list (Z * (Z * V)) -> list Z -> Prop :=
| no_entry : forall w, all_ws w -> entries_text b [] w
| next_entry : forall w x y v te es r, all_ws w -> entry_text b x y v te -> delimited r -> entries_text b es r ->
    entries_text b ((x, (y, v)) :: es) (w ++ te ++ r).

(** A line that starts with these integers. *)
Inductive ints_text : list Z -> list Z -> Prop :=
| no_int : forall r, ints_text [] r
| next_int : forall w x t ns r, blanks w -> dec_text x t -> int32 x -> no_digit r -> ints_text ns r -> ints_text (x :: ns) (w ++ t ++ r).

Definition text_line (l : list Z) : Prop := line_chars l /\ (List.length l < 1024)%nat.
Definition comment_line (l : list Z) : Prop := text_line l /\ exists r, l = 37 :: r.

(** A file with the given banner, sizes and entries. *)
Definition coordinate_file (b : data_type) (c : storage) (sizes : list Z) (es : list (Z * (Z * V))) (file : list Z) : Prop :=
  exists banner comments size body,
    file = banner ++ NL :: concat (map (fun l => l ++ [NL]) comments) ++ size ++ NL :: body /\
    banner_line Coordinate b c banner /\ Forall comment_line comments /\ text_line size /\ ints_text sizes size /\ entries_text b es body.
End Model.
Arguments mm_junk : clear implicits.
Arguments mkMmJunk {V}. Arguments jri {V}. Arguments jci {V}. Arguments jvs {V}. Arguments jct {V}.

(** The entries of a file numbered from [base], numbered from 0; the rows and columns exchanged. *)
Definition from_base {V} (base : Z) (es : list (Z * (Z * V))) : list (Z * (Z * V)) := map (fun e => (fst e - base, (fst (snd e) - base, snd (snd e)))) es.
Definition flip {V} (es : list (Z * (Z * V))) : list (Z * (Z * V)) := map (fun e => (fst (snd e), (fst e, snd (snd e)))) es.
(** A unit diagonal from row [lo] to row [hi - 1]. *)
Definition unit_diag {V} (one : V) (lo hi : Z) : list (Z * (Z * V)) := map (fun i => (i, (i, one))) (zrange lo hi).
(** Whether position (r, c) is listed. *)
Definition listed {V} (es : list (Z * (Z * V))) (r c : Z) : bool := existsb (fun e => (fst e =? r) && (fst (snd e) =? c)) es.
(** The mirror images of the off-diagonal entries whose mirror position is not listed. *)
Definition mirror_images {V} (es : list (Z * (Z * V))) : list (Z * (Z * V)) :=
  flip (filter (fun e => negb (fst e =? fst (snd e)) && negb (listed es (fst (snd e)) (fst e))) es).

(** ** Reading the text *)

Lemma delim_no_digit r : delimited r -> no_digit r.
Proof. destruct r as [|c r]; cbn; auto. unfold isspace, isdigit. lia. Qed.
Lemma ws_delim w r : all_ws w -> w <> [] -> delimited (w ++ r).
Proof. intros H N. destruct w; [easy|]. cbn. now inversion H. Qed.
Lemma ws_no_digit w r : all_ws w -> w <> [] -> no_digit (w ++ r).
Proof. intros. now apply delim_no_digit, ws_delim. Qed.

Lemma scan_ints_2 x y tx ty w0 w1 r : int32 x -> int32 y -> dec_text x tx -> dec_text y ty -> all_ws w0 -> all_ws w1 -> w1 <> [] -> no_digit r ->
  scan_ints 2 (w0 ++ tx ++ w1 ++ ty ++ r) = Some ([x; y], false, r).
Proof.
  intros X Y DX DY W0 W1 N1 NR. unfold scan_ints. rewrite (scan_d_text int32b x tx); auto; [|now apply int32b_iff|now apply ws_no_digit].
  rewrite (scan_d_text int32b y ty); auto. now apply int32b_iff.
Qed.

Lemma scan_ints_line ns l : ints_text ns l -> exists r, scan_ints (List.length ns) l = Some (ns, false, r).
Proof.
  induction 1 as [r|w x t ns r Hw Ht Hx Hr _ (r' & IH)]; [now exists r|]. cbn [List.length scan_ints].
  rewrite (scan_d_text int32b x t); auto; [|now apply int32b_iff|now apply blanks_ws]. rewrite IH. eauto.
Qed.

(** *** The header *)

Lemma ints_text_app ns l : ints_text ns l -> ints_text ns (l ++ [NL]).
Proof.
  induction 1 as [r|w x t ns r Hw Ht Hx Hr _ IH]; [constructor|]. rewrite <- !app_assoc. constructor; auto. destruct r; [reflexivity|exact Hr].
Qed.
Lemma ints_text_first x ns l : ints_text (x :: ns) l -> match l with c :: _ => c =? 37 | [] => false end = false.
Proof.
  intros H. inversion H as [|w x' t ns' r Hw Ht Hx Hr HT]; subst. destruct w as [|c w].
  - destruct (dec_text_chars _ _ Ht) as (N & F). destruct t as [|c t]; [easy|]. cbn. inversion F; subst. lia.
  - cbn. inversion Hw as [|? ? (Hc & _) _]; subst. unfold isspace in Hc. lia.
Qed.

Lemma skip_comments_ok comments size body k : Forall comment_line comments -> text_line size -> match size with c :: _ => c =? 37 | [] => false end = false ->
  skip_comments (S (List.length comments + k)) (concat (map (fun l => l ++ [NL]) comments) ++ size ++ NL :: body) = Some (size ++ [NL], body).
Proof.
  intros HC (HS & HL) H1. induction HC as [|l comments ((Hl & Ll) & r & El) _ IH].
  - cbn [map concat app List.length Nat.add skip_comments]. rewrite fgets_line by auto. destruct size as [|ch size]; [reflexivity|]. cbn [app]. now rewrite H1.
  - cbn [map concat List.length Nat.add]. rewrite <- !app_assoc. cbn [app].
    change (skip_comments (S (S (List.length comments + k)))) with (fun f => ' (line, r) <- fgets 1024 f ;; if match line with c :: _ => c =? 37 | [] => false end then skip_comments (S (List.length comments + k)) r else Some (line, r)).
    cbv beta. rewrite fgets_line by auto. rewrite El at 1. cbn [app]. rewrite Z.eqb_refl. exact IH.
Qed.

(** An array starts with [l]. *)
Definition filled {A} (a l : list A) : Prop := forall k x, get l k = Some x -> get a k = Some x.

Lemma filled_snoc {A} (a a' l : list A) x : filled a l -> set a (Zlen l) x = Some a' -> filled a' (l ++ [x]).
Proof.
  intros F E k y Hk. rewrite (get_set _ _ _ _ _ E). destruct (Z.eqb_spec k (Zlen l)) as [->|N].
  - rewrite get_app_r, Z.sub_diag in Hk by lia. exact Hk.
  - apply F. pose proof (get_Some_bounds _ _ _ Hk) as B. rewrite Zlen_app in B. change (Zlen [x]) with 1 in B. rewrite get_app_l in Hk by lia. exact Hk.
Qed.

Lemma filled_slice {A} (a l : list A) : filled a l -> Zlen l <= Zlen a -> slice a 0 (Zlen l) = l.
Proof.
  intros F L. pose proof (Zlen_nonneg l). apply list_ext; [rewrite Zlen_slice; lia|].
  intros k Hk. rewrite Zlen_slice in Hk by lia. rewrite get_slice by lia. destruct (get_in_range l k) as (x & E); [lia|]. rewrite E. now apply F.
Qed.

Lemma filled_nil {A} (a : list A) : filled a [].
Proof. intros k x H. apply get_Some_bounds in H. change (Zlen (@nil A)) with 0 in H. lia. Qed.

Section Reading.
Context {V : Type}.
Variable scan_g : list Z -> option (V * list Z).
Variable of_ll : Z -> V.
Variable one : V.
Notation entry_text := (entry_text scan_g of_ll one).
Notation entries_text := (entries_text scan_g of_ll one).
Notation rloop := (read_loop scan_g of_ll one).

Lemma number_skip v t w r : number_text scan_g v t -> all_ws w -> skip_ws (w ++ t ++ r) = t ++ r.
Proof. intros (H & _) Hw. apply skip_ws_app; auto. destruct t; [easy|]. exact H. Qed.

Lemma read_entry_ok b c x y v te w r : entry_text b x y v te -> all_ws w -> delimited r ->
  exists re r', read_entry scan_g of_ll (code Coordinate b c) (w ++ te ++ r) = Some (Some (x, y, re, r')) /\
    (r' = r \/ r' = skip_ws r) /\ (if data_char b =? cP then Some one else re) = Some v.
Proof.
  intros H Hw Hr. unfold read_entry, code. cbn [tdata].
  destruct H as [x y v tx w1 ty w2 tv X Y DX DY NV W1 N1 W2 N2|x y v im tx w1 ty w2 tv w3 ti X Y DX DY NV NI W1 N1 W2 N2 W3 N3
                |x y k tx w1 ty w2 tk X Y KK DX DY DK W1 N1 W2 N2|x y tx w1 ty X Y DX DY W1 N1]; cbn [data_char]; rewrite <- !app_assoc.
  - rewrite (scan_ints_2 x y); auto; [|now apply ws_no_digit]. cbn [Z.eqb Pos.eqb cC cR cP].
    rewrite (number_skip v) by auto. rewrite (proj2 NV) by auto. eauto 10.
  - rewrite (scan_ints_2 x y); auto; [|now apply ws_no_digit]. cbn [Z.eqb Pos.eqb cC cR cP].
    rewrite (number_skip v) by auto. rewrite (proj2 NV) by now apply ws_delim.
    rewrite (number_skip im) by auto. rewrite (proj2 NI) by auto. eauto 10.
  - rewrite (scan_ints_2 x y); auto; [|now apply ws_no_digit]. cbn [Z.eqb Pos.eqb cC cR cP cI].
    rewrite (scan_d_text int64b k); auto; [eauto 10|unfold int64b; lia|now apply delim_no_digit].
  - rewrite (scan_ints_2 x y); auto; [|now apply delim_no_digit]. cbn [Z.eqb Pos.eqb cC cR cP cI]. eauto 10.
Qed.

Lemma read_entry_end b c w : all_ws w -> read_entry scan_g of_ll (code Coordinate b c) w = Some None.
Proof.
  intros H. unfold read_entry. cbn [scan_ints]. unfold scan_d. replace (skip_ws w) with (@nil Z); [reflexivity|].
  rewrite <- (app_nil_r w). symmetry. now apply skip_ws_app.
Qed.

Lemma entry_first b x y v te : entry_text b x y v te -> match te with [] => False | c :: _ => isspace c = false end.
Proof.
  assert (D : forall x t r, dec_text x t -> match t ++ r with [] => False | c :: _ => isspace c = false end).
  { intros x' t r D. destruct (dec_text_chars _ _ D) as (N & F). destruct t; [easy|]. cbn. now inversion F. }
  intros H. destruct H as [x y v tx w1 ty w2 tv X Y DX|x y v im tx w1 ty w2 tv w3 ti X Y DX|x y k tx w1 ty w2 tk X Y K DX|x y tx w1 ty X Y DX]; exact (D x tx _ DX).
Qed.

Lemma entries_skip b es r : entries_text b es r -> entries_text b es (skip_ws r).
Proof.
  intros H. destruct H as [w Hw|w x y v te es r Hw He Hr H].
  - replace (skip_ws w) with (@nil Z); [constructor; constructor|]. rewrite <- (app_nil_r w). symmetry. now apply skip_ws_app.
  - rewrite skip_ws_app; auto.
    + change (te ++ r) with ([] ++ te ++ r). constructor; auto. constructor.
    + apply entry_first in He. destruct te; [easy|exact He].
Qed.

Definition fstc (e : Z * (Z * V)) : Z := fst e.
Definition sndc (e : Z * (Z * V)) : Z := fst (snd e).
Definition valc (e : Z * (Z * V)) : V := snd (snd e).
(** Number of entries in row [r]. *)
Definition rcount (r : Z) (l : list (Z * (Z * V))) : Z := Zlen (filter (fun e => fst e =? r) l).

Lemma rcount_snoc r p e : rcount r (p ++ [e]) = rcount r p + (if fst e =? r then 1 else 0).
Proof. unfold rcount. rewrite filter_app, Zlen_app. cbn [filter]. destruct (fst e =? r); reflexivity. Qed.

Definition zero_based (l : list (Z * (Z * V))) : bool := existsb (fun e => (0 =? fst e) || (0 =? fst (snd e))) l.

Definition swapped (tr : bool) (es : list (Z * (Z * V))) := if tr then flip es else es.

(** The read loop stores the entries of the text. *)
Lemma read_loop_steps b c (tr sym : bool) oM oN cap m tl fuel es : forall f p a ri ci vs rc,
  entries_text b (es ++ tl) f -> a = (ri, ci, vs, rc) ->
  Zlen ri = cap -> Zlen ci = cap -> Zlen vs = cap -> Zlen p + Zlen es <= cap ->
  filled ri (map fstc p) -> filled ci (map sndc p) -> filled vs (map valc p) ->
  (forall x y v, In (x, (y, v)) (swapped tr es) -> x <= oM /\ y <= oN /\ (sym = true -> 0 <= x <= m)) ->
  (sym = true -> Zlen rc = m + 1 /\ forall r, 0 <= r <= m -> get rc r = Some (rcount r p)) ->
  exists f' ri' ci' vs' rc', entries_text b tl f' /\
    rloop (List.length es + fuel) (code Coordinate b c) tr sym oM oN f (Zlen p) (if zero_based p then 0 else 1) a =
    rloop fuel (code Coordinate b c) tr sym oM oN f' (Zlen p + Zlen es) (if zero_based (p ++ swapped tr es) then 0 else 1) (ri', ci', vs', rc') /\
    Zlen ri' = cap /\ Zlen ci' = cap /\ Zlen vs' = cap /\
    filled ri' (map fstc (p ++ swapped tr es)) /\ filled ci' (map sndc (p ++ swapped tr es)) /\ filled vs' (map valc (p ++ swapped tr es)) /\
    (sym = true -> Zlen rc' = m + 1 /\ forall r, 0 <= r <= m -> get rc' r = Some (rcount r (p ++ swapped tr es))).
Proof.
  induction es as [|(x0, (y0, v0)) es IH]; intros f p a ri ci vs rc HT -> L1 L2 L3 HC F1 F2 F3 HR Hrc.
  - replace (swapped tr []) with (@nil (Z * (Z * V))) by (destruct tr; reflexivity). rewrite app_nil_r. change (Zlen (@nil (Z * (Z * V)))) with 0. rewrite Z.add_0_r.
    exists f, ri, ci, vs, rc. do 8 (split; [auto|]). auto.
  - cbn [app] in HT. inversion HT as [|w x y v te es' r Hw He Hr HT']; subst.
    destruct (read_entry_ok b c x0 y0 v0 te w r He Hw Hr) as (re & r' & E & Hr' & Ev). cbn [List.length Nat.add read_loop]. rewrite E. clear E.
    rewrite Zlen_cons in HC. pose proof (Zlen_nonneg es). pose proof (Zlen_nonneg p).
    assert (Esw : swapped tr ((x0, (y0, v0)) :: es) = (if tr then y0 else x0, (if tr then x0 else y0, v0)) :: swapped tr es) by (destruct tr; reflexivity).
    set (x := if tr then y0 else x0) in *. set (y := if tr then x0 else y0) in *.
    destruct (HR x y v0) as (Rx & Ry & Rs); [rewrite Esw; now left|].
    replace ((oM <? x) || (oN <? y)) with false by lia.
    destruct (set_ok ri (Zlen p) x) as (ri1 & E1); [lia|]. rewrite E1.
    destruct (set_ok ci (Zlen p) y) as (ci1 & E2); [lia|]. rewrite E2.
    change (tdata (code Coordinate b c)) with (data_char b). rewrite Ev.
    destruct (set_ok vs (Zlen p) v0) as (vs1 & E3); [lia|]. rewrite E3.
    assert (Hrc1 : exists rc1, (if sym then k <- get rc x ;; set rc x (k + 1) else Some rc) = Some rc1 /\
       (sym = true -> Zlen rc1 = m + 1 /\ forall r, 0 <= r <= m -> get rc1 r = Some (rcount r (p ++ [(x, (y, v0))])))).
    { destruct sym. 2: { exists rc. split; [auto|discriminate]. }
      destruct (Hrc eq_refl) as (Lr & Gr). specialize (Rs eq_refl). rewrite Gr by auto.
      destruct (set_ok rc x (rcount x p + 1)) as (rc1 & E4); [lia|]. exists rc1. split; auto. intros _. split; [rewrite (set_len _ _ _ _ E4); lia|].
      intros q Hq. rewrite (get_set _ _ _ _ _ E4), rcount_snoc. cbn [fst].
      destruct (Z.eqb_spec q x) as [->|]; [rewrite Z.eqb_refl; f_equal; lia|]. replace (x =? q) with false by lia. rewrite Gr, Z.add_0_r by lia. auto. }
    destruct Hrc1 as (rc1 & -> & Hrc1).
    replace (if (0 =? x) || (0 =? y) then 0 else if zero_based p then 0 else 1) with (if zero_based (p ++ [(x, (y, v0))]) then 0 else 1).
    2: { unfold zero_based. rewrite existsb_app. cbn [existsb fst snd]. destruct (existsb _ p), ((0 =? x) || (0 =? y)); reflexivity. }
    assert (Lp : Zlen (p ++ [(x, (y, v0))]) = Zlen p + 1) by (rewrite Zlen_app; reflexivity). rewrite <- Lp.
    destruct (IH r' (p ++ [(x, (y, v0))]) (ri1, ci1, vs1, rc1) ri1 ci1 vs1 rc1) as (f' & ri' & ci' & vs' & rc' & T & E & R1 & R2 & R3 & R4 & R5 & R6 & R7).
    + destruct Hr' as [->| ->]; auto. now apply entries_skip.
    + reflexivity.
    + rewrite (set_len _ _ _ _ E1). auto.
    + rewrite (set_len _ _ _ _ E2). auto.
    + rewrite (set_len _ _ _ _ E3). auto.
    + lia.
    + rewrite map_app. cbn [map fstc fst]. apply filled_snoc with ri; auto. now rewrite Zlen_map.
    + rewrite map_app. cbn [map sndc fst snd]. apply filled_snoc with ci; auto. now rewrite Zlen_map.
    + rewrite map_app. cbn [map valc fst snd]. apply filled_snoc with vs; auto. now rewrite Zlen_map.
    + intros x' y' v' Hi. apply (HR x' y' v'). rewrite Esw. now right.
    + auto.
    + exists f', ri', ci', vs', rc'. rewrite Esw. rewrite E, <- app_assoc in *. cbn [app] in *. split; [auto|]. split; [|auto 10].
      replace (Zlen p + Zlen ((x0, (y0, v0)) :: es)) with (Zlen (p ++ [(x, (y, v0))]) + Zlen es) by (rewrite Lp, Zlen_cons; lia). reflexivity.
Qed.

Lemma Zlen_flip (es : list (Z * (Z * V))) : Zlen (flip es) = Zlen es. Proof. apply Zlen_map. Qed.
Lemma Zlen_swapped tr (es : list (Z * (Z * V))) : Zlen (swapped tr es) = Zlen es. Proof. destruct tr; auto. apply Zlen_flip. Qed.

Lemma rcount_nil r : rcount r [] = 0. Proof. reflexivity. Qed.

(** All entries within range. *)
Lemma read_loop_all b c (tr sym : bool) oM oN cap m es f ri ci vs rc :
  entries_text b es f -> Zlen ri = cap -> Zlen ci = cap -> Zlen vs = cap -> Zlen es <= cap ->
  (forall x y v, In (x, (y, v)) (swapped tr es) -> x <= oM /\ y <= oN /\ (sym = true -> 0 <= x <= m)) ->
  (sym = true -> Zlen rc = m + 1 /\ forall r, 0 <= r <= m -> get rc r = Some 0) ->
  exists ri' ci' vs' rc',
    rloop (S (Z.to_nat cap)) (code Coordinate b c) tr sym oM oN f 0 1 (ri, ci, vs, rc) =
      Some (Some (Zlen es, if zero_based (swapped tr es) then 0 else 1, (ri', ci', vs', rc'))) /\
    Zlen ri' = cap /\ Zlen ci' = cap /\ Zlen vs' = cap /\
    filled ri' (map fstc (swapped tr es)) /\ filled ci' (map sndc (swapped tr es)) /\ filled vs' (map valc (swapped tr es)) /\
    (sym = true -> Zlen rc' = m + 1 /\ forall r, 0 <= r <= m -> get rc' r = Some (rcount r (swapped tr es))).
Proof.
  intros HT L1 L2 L3 HC HR Hrc. assert (Hn : (List.length es <= Z.to_nat cap)%nat) by (unfold Zlen in HC; lia).
  destruct (read_loop_steps b c tr sym oM oN cap m [] (S (Z.to_nat cap - List.length es)) es f [] (ri, ci, vs, rc) ri ci vs rc)
    as (f' & ri' & ci' & vs' & rc' & T & E & R); try apply filled_nil; auto; try (rewrite app_nil_r; exact HT); try (rewrite Zlen_nil; lia).
  change (Zlen (@nil (Z * (Z * V)))) with 0 in E. rewrite !Z.add_0_l in E. cbn [app zero_based existsb] in E.
  replace (List.length es + S (Z.to_nat cap - List.length es))%nat with (S (Z.to_nat cap)) in E by lia.
  exists ri', ci', vs', rc'. split; [|exact R]. rewrite E. inversion T as [w Hw|]; subst. cbn [read_loop]. now rewrite read_entry_end by auto.
Qed.

(** An entry out of range. *)
Lemma read_loop_bad b c (tr sym : bool) oM oN cap m es e tl f ri ci vs rc :
  entries_text b (es ++ e :: tl) f -> Zlen ri = cap -> Zlen ci = cap -> Zlen vs = cap -> Zlen es <= cap ->
  (forall x y v, In (x, (y, v)) (swapped tr es) -> x <= oM /\ y <= oN /\ (sym = true -> 0 <= x <= m)) ->
  (sym = true -> Zlen rc = m + 1 /\ forall r, 0 <= r <= m -> get rc r = Some 0) ->
  (oM < (if tr then fst (snd e) else fst e) \/ oN < (if tr then fst e else fst (snd e))) ->
  rloop (S (Z.to_nat cap)) (code Coordinate b c) tr sym oM oN f 0 1 (ri, ci, vs, rc) = Some None.
Proof.
  intros HT L1 L2 L3 HC HR Hrc Hbad. assert (Hn : (List.length es <= Z.to_nat cap)%nat) by (unfold Zlen in HC; lia).
  destruct (read_loop_steps b c tr sym oM oN cap m (e :: tl) (S (Z.to_nat cap - List.length es)) es f [] (ri, ci, vs, rc) ri ci vs rc)
    as (f' & ri' & ci' & vs' & rc' & T & E & R); try apply filled_nil; auto; try (rewrite Zlen_nil; lia).
  change (Zlen (@nil (Z * (Z * V)))) with 0 in E. rewrite !Z.add_0_l in E. cbn [app zero_based existsb] in E.
  replace (List.length es + S (Z.to_nat cap - List.length es))%nat with (S (Z.to_nat cap)) in E by lia.
  rewrite E. inversion T as [|w x y v te es' r Hw He Hr HT']; subst. cbn [fst snd] in Hbad.
  destruct (read_entry_ok b c x y v te w r He Hw Hr) as (re & r' & E' & _). cbn [read_loop]. rewrite E'.
  replace ((oM <? (if tr then y else x)) || (oN <? (if tr then x else y))) with true by lia. reflexivity.
Qed.

Lemma header_ok fuel b c x ns es file : coordinate_file scan_g of_ll one b c (x :: ns) es file ->
  exists f body, mm_read_banner file = Some (0, code Coordinate b c, f) /\ read_sizes fuel (List.length (x :: ns)) f = Some (Some (x :: ns), body) /\ entries_text b es body.
Proof.
  intros (banner & comments & size & body & -> & HB & HC & HS & HI & HE).
  exists (concat (map (fun l => l ++ [NL]) comments) ++ size ++ NL :: body), body. split; [now apply read_banner_line|]. split; auto.
  set (f := concat (map (fun l => l ++ [NL]) comments) ++ size ++ NL :: body).
  assert (Hf : (List.length comments <= List.length f)%nat).
  { unfold f. clear. rewrite app_length. induction comments as [|l cs IH]; cbn [map concat List.length]; [lia|]. rewrite !app_length in *. cbn [List.length] in *. lia. }
  unfold read_sizes. replace (S (List.length f)) with (S (List.length comments + (List.length f - List.length comments))) by lia.
  unfold f at 2. rewrite skip_comments_ok by (auto; eapply ints_text_first; eauto).
  rewrite cstr_line by apply HS. destruct (scan_ints_line _ _ (ints_text_app _ _ HI)) as (r & ->). now rewrite Nat.eqb_refl.
Qed.

End Reading.

(** *** Padding and the change of base *)
Section Padding.
Context {V : Type}.
Variable one : V.

Lemma pad_loop_ok lo hi (p : list (Z * (Z * V))) cap ri ci vs :
  filled ri (map fstc p) -> filled ci (map sndc p) -> filled vs (map valc p) -> Zlen ri = cap -> Zlen ci = cap -> Zlen vs = cap ->
  Zlen p + Z.max 0 (hi - lo) <= cap ->
  let q := p ++ map (fun i => (i + 1, (i + 1, one))) (zrange lo hi) in
  exists ri' ci' vs', pad_loop one lo hi (Zlen p) (ri, ci, vs) = Some (ri', ci', vs') /\
    Zlen ri' = cap /\ Zlen ci' = cap /\ Zlen vs' = cap /\ filled ri' (map fstc q) /\ filled ci' (map sndc q) /\ filled vs' (map valc q).
Proof.
  intros F1 F2 F3 L1 L2 L3 HC q. unfold q. clear q. destruct (Z_le_gt_dec hi lo) as [Hle|Hgt].
  { unfold pad_loop. rewrite forZ_nil by lia. unfold zrange. replace (Z.to_nat (hi - lo)) with O by lia. cbn [map seq]. rewrite app_nil_r. exists ri, ci, vs. auto 10. }
  unfold pad_loop.
  destruct (forZ_rule (fun i (s : list Z * list Z * list V) => let '(ri, ci, vs) := s in
      let q := p ++ map (fun i => (i + 1, (i + 1, one))) (zrange lo i) in
      Zlen ri = cap /\ Zlen ci = cap /\ Zlen vs = cap /\ filled ri (map fstc q) /\ filled ci (map sndc q) /\ filled vs (map valc q)) lo hi
    (fun i s => let '(ri, ci, vs) := s in let k := Zlen p + (i - lo) in
       ri <- set ri k (i + 1) ;; ci <- set ci k (i + 1) ;; vs <- set vs k one ;; Some (ri, ci, vs)) (ri, ci, vs)) as (((ri', ci'), vs') & E & I); [lia| | |].
  - unfold zrange. replace (Z.to_nat (lo - lo)) with O by lia. cbn [map seq]. rewrite app_nil_r. auto 10.
  - intros i ((r, c), v) Hi (A1 & A2 & A3 & B1 & B2 & B3). cbv beta zeta. pose proof (Zlen_nonneg p).
    destruct (set_ok r (Zlen p + (i - lo)) (i + 1)) as (r' & E1); [lia|]. destruct (set_ok c (Zlen p + (i - lo)) (i + 1)) as (c' & E2); [lia|].
    destruct (set_ok v (Zlen p + (i - lo)) one) as (v' & E3); [lia|]. rewrite E1, E2, E3. eexists. split; [reflexivity|]. cbv beta iota.
    rewrite (set_len _ _ _ _ E1), (set_len _ _ _ _ E2), (set_len _ _ _ _ E3).
    replace (zrange lo (i + 1)) with (zrange lo i ++ [i]) by (rewrite zrange_snoc by lia; f_equal; f_equal; lia).
    set (q := p ++ map (fun i => (i + 1, (i + 1, one))) (zrange lo i)) in *.
    rewrite (map_app (fun i => (i + 1, (i + 1, one)))), app_assoc. fold q. cbv zeta. rewrite !map_app. cbn [map fstc sndc valc fst snd].
    assert (Lq : Zlen q = Zlen p + (i - lo)) by (unfold q; rewrite Zlen_app, Zlen_map, Zlen_zrange; lia).
    rewrite <- Lq in E1, E2, E3. do 3 (split; [auto|]).
    split; [|split]; eapply filled_snoc; eauto; rewrite Zlen_map; auto.
  - exists ri', ci', vs'. split; [exact E|exact I].
Qed.

Lemma incr_all_ok w l : filled w l -> Zlen l <= Zlen w -> exists w', incr_all (Zlen l) w = Some w' /\ Zlen w' = Zlen w /\ filled w' (map (fun x => x + 1) l).
Proof.
  intros F L. unfold incr_all. pose proof (Zlen_nonneg l).
  destruct (forZ_rule (fun i w' => Zlen w' = Zlen w /\ forall k x, get l k = Some x -> get w' k = Some (if k <? i then x + 1 else x)) 0 (Zlen l)
    (fun i w => x <- get w i ;; set w i (x + 1)) w) as (w' & E & L' & G); [lia| | |].
  - split; auto. intros k x Hk. pose proof (get_Some_bounds _ _ _ Hk). replace (k <? 0) with false by lia. now apply F.
  - intros i s Hi (Ls & G). destruct (get_in_range l i) as (x & Ex); [lia|]. rewrite (G _ _ Ex). replace (i <? i) with false by lia.
    destruct (set_ok s i (x + 1)) as (s' & E'); [lia|]. rewrite E'. exists s'. split; auto. split; [rewrite (set_len _ _ _ _ E'); auto|].
    intros k y Hk. rewrite (get_set _ _ _ _ _ E'). destruct (Z.eqb_spec k i) as [->|]; [replace (i <? i + 1) with true by lia; congruence|].
    rewrite (G _ _ Hk). f_equal. destruct (k <? i) eqn:?, (k <? i + 1) eqn:?; lia.
  - exists w'. split; [exact E|]. split; auto. intros k y Hk. rewrite get_map in Hk. destruct (get l k) as [x|] eqn:Ex; [|discriminate].
    rewrite (G _ _ Ex). pose proof (get_Some_bounds _ _ _ Ex). replace (k <? Zlen l) with true by lia. exact Hk.
Qed.
End Padding.

(** [M] is [k] rounded up to a multiple of [pad]. *)
Definition padded (pad k M : Z) : Prop := (pad | M) /\ k <= M < k + pad.

Lemma padded_eq pad k M : 1 <= pad -> 0 <= k -> padded pad k M -> Z.quot (k + pad - 1) pad * pad = M.
Proof.
  intros Hp Hk ((q & ->) & Hr). f_equal. rewrite Z.quot_div_nonneg by lia. symmetry. apply Z.div_unique with (k + pad - 1 - q * pad); lia.
Qed.

(** The kinds of coordinate files the format has. *)
Definition kind_ok (b : data_type) (c : storage) : Prop :=
  ~ (b = Real /\ c = Hermitian) /\ ~ (b = Pattern /\ (c = Hermitian \/ c = Skew)).
Lemma kind_valid b c : kind_ok b c -> negb (mm_is_valid (code Coordinate b c)) || (tfmt (code Coordinate b c) =? cA) = false.
Proof. unfold kind_ok. intros H. destruct b, c; try reflexivity; exfalso; intuition congruence. Qed.

Section Based.
Context {V : Type}.
(** The conditions under which the entries are numbered from [base]. *)
Definition based (base m0 n0 : Z) (es : list (Z * (Z * V))) : Prop :=
  (forall x y v, In (x, (y, v)) es -> base <= x < m0 + base /\ base <= y < n0 + base) /\
  (base = 1 \/ base = 0 /\ exists x y v, In (x, (y, v)) es /\ (x = 0 \/ y = 0)).

Lemma In_swapped (tr : bool) x y v (es : list (Z * (Z * V))) : In (x, (y, v)) (swapped tr es) <-> In (if tr then (y, (x, v)) else (x, (y, v))) es.
Proof.
  destruct tr; cbn [swapped]; [|tauto]. unfold flip. rewrite in_map_iff. split.
  - intros ((a, (b, c)) & E & H). cbn in E. congruence.
  - intros H. exists (y, (x, v)). auto.
Qed.

Lemma based_zero base m0 n0 (es : list (Z * (Z * V))) tr : based base m0 n0 es -> (if zero_based (swapped tr es) then 0 else 1) = base.
Proof.
  intros (HR & HB). destruct (zero_based (swapped tr es)) eqn:E.
  - unfold zero_based in E. apply existsb_exists in E as ((x, (y, v)) & Hi & H0). apply In_swapped in Hi. cbn [fst snd] in H0. destruct tr; apply HR in Hi; destruct HB as [->|(-> & _)]; lia.
  - destruct HB as [->|(-> & x & y & v & Hi & H0)]; auto. exfalso. assert (zero_based (swapped tr es) = true); [|congruence]. unfold zero_based. apply existsb_exists.
    exists (if tr then (y, (x, v)) else (x, (y, v))). split; [destruct tr; apply In_swapped; exact Hi|]. destruct tr; cbn [fst snd]; lia.
Qed.

(** The arrays of the result. *)
Lemma result_rep M N (q : list (Z * (Z * V))) base ri ci vs :
  filled ri (map (fun e => fst e + (1 - base)) q) -> filled ci (map (fun e => fst (snd e) + (1 - base)) q) -> filled vs (map valc q) ->
  Zlen q <= Zlen ri -> Zlen q <= Zlen ci -> Zlen q <= Zlen vs ->
  coo_rep M N (from_base base q) (mkCOO M N (Zlen q) (slice ri 0 (Zlen q)) (slice ci 0 (Zlen q)) (slice vs 0 (Zlen q))).
Proof.
  intros F1 F2 F3 L1 L2 L3. unfold coo_rep, from_base. cbn [om on onnz orow ocol oval]. rewrite Zlen_map, !map_map. cbn [fst snd].
  repeat (split; [reflexivity|]).
  apply filled_slice in F1; [|now rewrite Zlen_map]. apply filled_slice in F2; [|now rewrite Zlen_map]. apply filled_slice in F3; [|now rewrite Zlen_map].
  rewrite !Zlen_map in *. rewrite F1, F2, F3. split; [|split]; apply map_ext; intros (x, (y, v)); cbn [fst snd]; first [reflexivity|lia|idtac].
Qed.

End Based.

Section Loading.
Context {V : Type}.
Variable scan_g : list Z -> option (V * list Z).
Variable of_ll : Z -> V.
Variable one : V.
Notation load := (loadMatrixMarket_ scan_g of_ll one).
Notation is_file := (coordinate_file scan_g of_ll one).

Lemma from_base_app base (p q : list (Z * (Z * V))) : from_base base (p ++ q) = from_base base p ++ from_base base q.
Proof. apply map_app. Qed.

Lemma from_base_diag base lo hi : from_base base (map (fun i => (i + base, (i + base, one))) (zrange lo hi)) = unit_diag one lo hi.
Proof. unfold from_base, unit_diag. rewrite map_map. apply map_ext. intros i. cbn. repeat f_equal; lia. Qed.

Theorem load_general fuel sch j b c m0 n0 es file (tr : bool) pad M N base :
  is_file b c [m0; n0; Zlen es] es file -> kind_ok b c -> c <> Symmetric -> mm_junk_ok j -> 0 <= m0 -> 0 <= n0 -> 1 <= pad ->
  let oM := if tr then n0 else m0 in let oN := if tr then m0 else n0 in
  padded pad oM M -> padded pad oN N -> based base m0 n0 es -> (base = 0 -> Z.min M N = Z.min oM oN) ->
  exists C, load fuel sch j file false false tr pad = Some (false, Some C) /\
    coo_rep M N (from_base base (if tr then flip es else es) ++ unit_diag one (Z.min oM oN) (Z.min M N)) C.
Proof.
  intros HF HK Hc HJ Hm Hn Hp oM oN PM PN HB H0. destruct (header_ok scan_g of_ll one fuel _ _ _ _ _ _ HF) as (f & body & E1 & E2 & HE).
  unfold loadMatrixMarket_. rewrite E1. cbn [Z.eqb negb]. rewrite kind_valid by auto.
  unfold mm_read_mtx_crd_size. change 3%nat with (List.length [m0; n0; Zlen es]). rewrite E2. cbv beta iota.
  replace (negb (tr && false)) with true by (destruct tr; reflexivity). cbv beta iota zeta. fold oM oN. replace (pad =? 0) with false by lia.
  rewrite (padded_eq pad oM M), (padded_eq pad oN N) by (auto; unfold oM, oN; destruct tr; auto).
  replace (false || (tsym (code Coordinate b c) =? cS)) with false by (destruct c; [reflexivity|contradiction|reflexivity|reflexivity]). cbn [orb andb].
  assert (Hx : 0 <= Z.min M N - Z.min oM oN) by (destruct PM, PN; lia). set (ex := Z.min M N - Z.min oM oN) in *.
  pose proof (Zlen_nonneg es). replace (Zlen es + ex <? 0) with false by lia.
  destruct (HJ (Zlen es + ex)) as (J1 & J2 & J3 & _); [lia|].
  destruct (read_loop_all scan_g of_ll one b c tr false oM oN (Zlen es + ex) M es body (jri j (Zlen es + ex)) (jci j (Zlen es + ex)) (jvs j (Zlen es + ex)) (repeat 0 (Z.to_nat (M + 1))))
    as (ri & ci & vs & rc & E & A1 & A2 & A3 & F1 & F2 & F3 & _); auto; [lia| |discriminate|].
  { intros x y v Hi. apply In_swapped in Hi. unfold oM, oN. destruct HB as (HR & HB). destruct tr; apply HR in Hi; (split; [|split; [|discriminate]]); destruct HB as [->|(-> & _)]; lia. }
  rewrite E. clear E. rewrite (based_zero base m0 n0) by auto.
  destruct (pad_loop_ok one (Z.min oM oN) (Z.min M N) (swapped tr es) (Zlen es + ex) ri ci vs) as (ri1 & ci1 & vs1 & E & B1 & B2 & B3 & G1 & G2 & G3); auto.
  { rewrite Zlen_swapped. lia. }
  rewrite Zlen_swapped in E. rewrite E. clear E.
  set (q := swapped tr es ++ map (fun i => (i + 1, (i + 1, one))) (zrange (Z.min oM oN) (Z.min M N))) in *.
  assert (Lq : Zlen q = Zlen es + ex) by (unfold q; rewrite Zlen_app, Zlen_map, Zlen_zrange, Zlen_swapped; unfold ex; lia).
  replace (Zlen es + Z.max 0 ex) with (Zlen q) by lia. rewrite Z.eqb_refl. cbn [negb].
  destruct HB as (HR & [->|(-> & HZ)]).
  - cbn [Z.eqb]. eexists. split; [reflexivity|]. replace (from_base 1 (if tr then flip es else es) ++ unit_diag one (Z.min oM oN) (Z.min M N)) with (from_base 1 q).
    2: { unfold q. now rewrite from_base_app, from_base_diag. }
    apply result_rep; try lia; auto.
    + eapply eq_ind; [exact G1|]. apply map_ext. intros e. unfold fstc. lia.
    + eapply eq_ind; [exact G2|]. apply map_ext. intros e. unfold sndc. lia.
  - cbn [Z.eqb]. assert (Zx : ex = 0) by (unfold ex; lia).
    assert (Eq : q = swapped tr es). { unfold q. unfold zrange. replace (Z.to_nat (Z.min M N - Z.min oM oN)) with O by (unfold ex in Zx; lia). cbn [map seq]. apply app_nil_r. }
    rewrite Eq in *. destruct (incr_all_ok ri1 _ G1) as (ri2 & E3 & C1 & K1); [rewrite Zlen_map; lia|]. rewrite Zlen_map in E3. rewrite E3.
    destruct (incr_all_ok ci1 _ G2) as (ci2 & E4 & C2 & K2); [rewrite Zlen_map; lia|]. rewrite Zlen_map in E4. rewrite E4.
    eexists. split; [reflexivity|]. replace (from_base 0 (if tr then flip es else es) ++ unit_diag one (Z.min oM oN) (Z.min M N)) with (from_base 0 (swapped tr es)).
    2: { unfold unit_diag, zrange. replace (Z.to_nat (Z.min M N - Z.min oM oN)) with O by (unfold ex in Zx; lia). cbn [map seq]. now rewrite app_nil_r. }
    apply result_rep; try lia; auto.
    + rewrite map_map in K1. exact K1.
    + rewrite map_map in K2. exact K2.
Qed.
End Loading.
