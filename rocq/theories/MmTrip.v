(** * Doubles through a Matrix Market file *)
From Coq Require Import String QArith Qpower Qabs Permutation.
From Verif Require Import Base Spec Csr Coo MmText MmIo MmLoad MmStore MmFloat MmRound.
Open Scope Z_scope.

(** Equal as numbers; equal up to one unit of the 16th digit. *)
Definition same_number (v u : dbl) : Prop := (dval u == dval v)%Q.
Definition close_number (v u : dbl) : Prop :=
  (dval v == 0 -> dval u == 0)%Q /\ forall Y, ((10 # 1) ^ Y <= Qabs (dval v) < (10 # 1) ^ (Y + 1))%Q -> (Qabs (dval u - dval v) <= (10 # 1) ^ (Y - 15))%Q.

Lemma rereads_unique {V} (pr_v : V -> list Z) scan_g v u u' : rereads pr_v scan_g v u -> rereads pr_v scan_g v u' -> u = u'.
Proof.
  intros (w & t & E & Hw & Ht & Hs) (w' & t' & E' & Hw' & Ht' & Hs'). specialize (Hs [] I). specialize (Hs' [] I). rewrite app_nil_r in Hs, Hs'.
  assert (t = t') as ->; [|congruence]. rewrite E in E'. rewrite <- (skip_ws_app w t), <- (skip_ws_app w' t'); auto.
  - now rewrite E'.
  - destruct t'; [contradiction|auto].
  - destruct t; [contradiction|auto].
Qed.

Lemma printed_rereads rnd v : exists u, rereads print_g20 (scan_lg rnd) v u /\
  (nearest rnd -> is_double v -> short v -> same_number v u) /\ (nearest rnd -> is_double v -> (Qabs (dval v) <= (10 # 1) ^ 308)%Q -> close_number v u).
Proof.
  destruct (scan_printed rnd v) as (u & H1 & H2 & H3). destruct (print_g_ok v) as (N & x & D & _). exists u. split; [|split; auto].
  - exists (repeat 32 (20 - List.length (print_g v))), (print_g v). split; [reflexivity|]. assert (W : all_ws (repeat 32 (20 - List.length (print_g v)))) by (apply Forall_forall; intros c Hc; apply repeat_spec in Hc as ->; reflexivity).
    split; auto. pose proof (dec_num_first _ _ _ D) as F. split; auto. intros r Hr. specialize (H1 [] r). cbn [app] in H1. rewrite <- H1; auto; [|constructor]. unfold print_g20. rewrite <- app_assoc, skip_ws_app; auto. destruct (print_g v); [contradiction|auto].
  - intros HR Hv Hb. split; [|auto]. intros Z. rewrite <- Z. apply H2; auto. exists 0, 0. split; [reflexivity|]. rewrite Z. reflexivity.
Qed.

Section Doubles.
Variables (rnd : Z -> Z -> dbl) (of_ll : Z -> dbl) (one : dbl).
Hypothesis NR : nearest rnd.

Lemma rows_rel_impl {V W} (P Q : V -> W -> Prop) rows rows' : (forall r c v u, In r rows -> In (c, v) r -> P v u -> Q v u) -> rows_rel P rows rows' -> rows_rel Q rows rows'.
Proof.
  intros H HF. unfold rows_rel in *. induction HF as [|r r' rows rows' Hr HF IH]; constructor.
  - assert (H' : forall c v u, In (c, v) r -> P v u -> Q v u) by (intros c v u Hi; apply (H r c v u); [now left|auto]). clear - H' Hr. induction Hr as [|(c, v) e' r r' (E1 & E2) Hr IH]; constructor.
    + split; auto. apply (H' c v); [now left|auto].
    + apply IH. intros c0 v0 u0 Hi. apply (H' c0 v0 u0). now right.
  - apply IH. intros r0 c v u Hi. apply (H r0 c v u). now right.
Qed.

(** A coordinate list stored and loaded. *)
Theorem coo_doubles m n es (C : coo dbl) fuel sch j : coo_rep m n es C -> coo_ok m n es -> sizes_ok m n (Zlen es) -> mm_junk_ok j ->
  (forall e, In e es -> is_double (snd (snd e)) /\ (Qabs (dval (snd (snd e))) <= (10 # 1) ^ 308)%Q) ->
  exists file es' C', coo_store print_g20 C = Some (0, file) /\ loadMatrixMarket (scan_lg rnd) of_ll one fuel sch j file false false 1 = Some (false, Some C') /\ coo_rep m n es' C' /\
    Forall2 (fun e e' : Z * (Z * dbl) => fst e = fst e' /\ fst (snd e) = fst (snd e') /\ close_number (snd (snd e)) (snd (snd e')) /\ (short (snd (snd e)) -> same_number (snd (snd e)) (snd (snd e')))) es es'.
Proof.
  intros HC HO HS HJ HD. destruct (coo_trip print_g20 (scan_lg rnd) of_ll one m n es C fuel sch j) as (file & es' & C' & E1 & E2 & E3 & E4); auto.
  - intros e _. destruct (printed_rereads rnd (snd (snd e))) as (u & Hu & _). eauto.
  - exists file, es', C'. do 3 (split; auto). clear - E2 HD NR. induction E2 as [|e e' es es' (H1 & H2 & H3) E2 IH]; constructor.
    + split; auto. split; auto. destruct (HD e ltac:(now left)) as (D1 & D2). destruct (printed_rereads rnd (snd (snd e))) as (u' & K1 & K2 & K3). rewrite (rereads_unique _ _ _ _ _ H3 K1). auto.
    + apply IH. intros e0 Hi. apply HD. now right.
Qed.
Variable recip : dbl -> dbl.

(** The matrix built from the stored file. *)
Theorem csr_doubles base n rows (A : csr dbl) fuel sch1 sch j ji jd n0 base' :
  rep true base n rows A -> rows_ok n rows -> sizes_ok (Zlen rows) n (Zlen (concat rows)) -> mm_junk_ok j -> junk_sizes ji jd ->
  (forall r c v, In r rows -> In (c, v) r -> is_double v) ->
  exists file rows1 rows' A', csr_store print_g20 A = Some file /\
    csr_from_file (scan_lg rnd) of_ll one recip fuel sch1 sch j ji jd n0 file base' false 1 = Some A' /\ rep true base' n rows' A' /\
    rows_sorted_from rows1 rows' /\ ((forall r, In r rows -> ssortedZ (map fst r)) -> rows' = rows1) /\
    ((forall r c v, In r rows -> In (c, v) r -> (Qabs (dval v) <= (10 # 1) ^ 308)%Q) -> rows_rel close_number rows rows1) /\
    ((forall r c v, In r rows -> In (c, v) r -> short v) -> rows_rel same_number rows rows1).
Proof.
  intros HR HO HS HJ HU HD. destruct (csr_trip print_g20 (scan_lg rnd) of_ll one recip base n rows A fuel sch1 sch j ji jd n0 base') as (file & rows1 & rows' & A' & E1 & E2 & E3 & E4 & E5 & E6); auto.
  - intros r c v _ _. destruct (printed_rereads rnd v) as (u & Hu & _). eauto.
  - exists file, rows1, rows', A'. do 5 (split; auto). split; intros HV; (eapply rows_rel_impl; [|exact E3]); intros r c v u H1 H2 H3; destruct (printed_rereads rnd v) as (u' & K1 & K2 & K3); rewrite (rereads_unique _ _ _ _ _ H3 K1); eauto.
Qed.

End Doubles.

(** ** A case *)

(** 2 by 3: entries 0.1 and -2500 in row 0 (out of order), 3 * 2^100 in row 1. *)
Definition trip_rows : rows_t dbl := [[(2, (7205759403792794, -56)); (0, (-625, 2))]; [(1, (3, 100))]].
Definition trip_csr : csr dbl := mkCSR 2 3 [0; 2; 3] [2; 0; 1] (Some [(7205759403792794, -56); (-625, 2); (3, 100)]) None None None None.
Definition trip_ji (k : nat) (z : Z) : list Z := repeat 77 (Z.to_nat z).
Definition trip_jd (k : nat) (z : Z) : list dbl := repeat (7, 7) (Z.to_nat z).
Definition trip_mmj : mm_junk dbl := mkMmJunk (trip_ji 0) (trip_ji 0) (trip_jd 0) (trip_ji 0).
Definition trip_text : list Z := str "%%MatrixMarket matrix coordinate real general
2 3 3
1 3                  0.1
1 1                -2500
2 2 3.802951800684688e+30
".

Lemma trip_case : rep true 0 3 trip_rows trip_csr /\ rows_ok 3 trip_rows /\ sizes_ok 2 3 3 /\ mm_junk_ok trip_mmj /\ junk_sizes trip_ji trip_jd /\
  (forall r c v, In r trip_rows -> In (c, v) r -> is_double v /\ (Qabs (dval v) <= (10 # 1) ^ 308)%Q) /\
  csr_store print_g20 trip_csr = Some trip_text /\
  csr_from_file (scan_lg strtod) (fun k => (k, 0)) (1, 0) (fun v => v) 9 [] (fun _ => []) trip_mmj trip_ji trip_jd 0 trip_text 1 false 1 =
    Some (mkCSR 2 3 [1; 3; 4] [1; 3; 2] (Some [(-5497558138880000, -41); (7205759403792794, -56); (6755399441055744, 49)])
      (Some [(-5497558138880000, -41); (6755399441055744, 49)]) (Some [(-5497558138880000, -41); (6755399441055744, 49)]) (Some [1; 3]) None).
Proof.
  split; [repeat split|]. split. { intros r c v [<-|[<-|[]]] Hc; cbn in Hc; repeat (destruct Hc as [E|Hc]; [injection E as <- <-; lia|]); destruct Hc. }
  split; [unfold sizes_ok; lia|]. assert (L : forall X (x : X) z, 0 <= z -> Zlen (repeat x (Z.to_nat z)) = z) by (intros; rewrite Zlen_repeat; lia).
  split; [intros k Hk; cbn [jri jci jvs jct trip_mmj]; repeat split; apply L; auto|]. split; [intros k z Hz; split; apply L; auto|]. split.
  { intros r c v [<-|[<-|[]]] Hc; cbn in Hc; repeat (destruct Hc as [E|Hc]; [injection E as <- <-; split; [unfold is_double; cbn [fst snd]; lia|vm_compute; discriminate]|]); destruct Hc. }
  split; vm_compute; reflexivity.
Qed.

(** -2500 and 3 are short, 0.1 (as a double) is not. *)
Lemma short_case : short (-625, 2) /\ short (3, 0).
Proof. split; [exists (-2500), 0|exists 3, 0]; split; reflexivity. Qed.
