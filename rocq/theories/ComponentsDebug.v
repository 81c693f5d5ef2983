(** * The checks at the end of the component search in debug builds
    (/repo/reordering/ConnectedComponents.cpp:297-320, compiled without NDEBUG). *)
From Coq Require Import Relations Permutation.
From Verif Require Import Base Spec Interleave Partition PrefixSum PermUtils Flat CountSort Csr UnionFind Components.

(** ** Model *)
(** Lines 313-318: element [j] of component [i] whose root is [r]. *)
Definition check_elem (p : list Z) (res : cc_result) (i r j : Z) (_ : unit) : option unit :=
  v <- get (cc_nodes res) j ;; q <- get p v ;; assert! q =? r ;;
  e <- get (cc_starts res) (i + 1) ;;
  if j <? e - 1 then v' <- get (cc_nodes res) (j + 1) ;; assert! v <? v' ;; Some tt else Some tt.
(** Lines 304-319: component [i]. *)
Definition check_comp (p : list Z) (res : cc_result) (i : Z) (_ : unit) : option unit :=
  s <- get (cc_starts res) i ;; z <- get (cc_sizes res) i ;;
  _ <- (if i <? cc_n res - 1 then s' <- get (cc_starts res) (i + 1) ;; assert! s' - s =? z ;; Some tt else Some tt) ;;
  r <- get (cc_roots res) i ;;
  _ <- (if 0 <? z then v <- get (cc_nodes res) s ;; assert! r =? v ;; Some tt else Some tt) ;;
  forZ s (s + z) (check_elem p res i r) tt.
(** Lines 297-320; [n] is the number of nodes searched. *)
Definition cc_check (n : Z) (p : list Z) (res : cc_result) : option unit :=
  cnt <- forZ 0 (cc_n res) (fun i a => v <- get (cc_sizes res) i ;; Some (a + v)) 0 ;;
  assert! cnt =? n ;;
  forZ 0 (cc_n res) (check_comp p res) tt.

(** ** The checks pass if the entry after the last start is not beyond the nodes *)
Section Check.
Variables (m : Z) (P : Z -> Prop) (p : list Z) (res : cc_result) (n e : Z).
Hypothesis Hp : forall x, 0 <= x < m -> P x -> exists r, get p x = Some r /\ 0 <= r <= x /\ get p r = Some r /\ P r.
Hypothesis HL : rest_listing m P (fun x y => get p x = get p y) res.
Hypothesis Hn : forall l, NoDup l -> (forall v, In v l <-> 0 <= v < m /\ P v) -> Zlen l = n.
Hypothesis He : get (cc_starts res) (cc_n res) = Some e.
Hypothesis Hen : e <= n.

Lemma slice_len_off (gs : list (list Z)) c : 0 <= c <= Zlen gs -> zsum (slice (map Zlen gs) 0 c) = off (nthl gs) c.
Proof.
  intros (H0 & H1). revert H1. pattern c. revert c H0. apply Z_ind0.
  - intros _. rewrite slice_nil by lia. now rewrite off_0.
  - intros k Hk IH Hle. rewrite (slice_app _ 0 k (k + 1)) by (rewrite ?Zlen_map; lia). rewrite zsum_app, IH, off_S by lia.
    rewrite (slice_cons _ k (k + 1) (Zlen (nthl gs k))) by (rewrite ?Zlen_map; try lia; now rewrite get_map, get_nthl by lia).
    rewrite slice_nil by lia. unfold zsum. cbn [fold_right]. lia.
Qed.

Theorem cc_check_listed : cc_check n p res = Some tt.
Proof.
  destruct HL as (gs & G1 & G2 & G3 & G4 & G5 & G6 & G7 & G8 & G9 & G10). set (K := cc_n res) in *. set (G := nthl gs).
  assert (Hcn : Zlen (concat gs) = n) by (apply Hn; auto). rewrite concat_flat, G1 in G2, Hcn, G8, G9. fold G in G2, Hcn, G8, G9.
  assert (K0 : 0 <= K) by (rewrite <- G1; apply Zlen_nonneg). rewrite Zlen_flat in Hcn by lia.
  assert (Sz : forall c, 0 <= c < K -> get (cc_sizes res) c = Some (Zlen (G c))) by (intros c Hc; rewrite G3, get_map, get_nthl by lia; reflexivity).
  assert (St : forall c, 0 <= c < K -> get (cc_starts res) c = Some (off G c)) by (intros c Hc; rewrite G4, G3, slice_len_off by lia; reflexivity).
  assert (Nd : forall c k, 0 <= c < K -> 0 <= k < Zlen (G c) -> get (cc_nodes res) (off G c + k) = get (G c) k).
  { intros c k Hc Hk. rewrite G2; [now apply get_flat|]. rewrite Zlen_flat by lia. pose proof (off_nonneg G c). pose proof (off_mono G (c + 1) K ltac:(lia)). rewrite off_S in * by lia. lia. }
  assert (Ig : forall c, 0 <= c < K -> In (G c) gs) by (intros c Hc; apply (get_In gs c); apply get_nthl; lia).
  assert (Rg : forall c v, 0 <= c < K -> In v (G c) -> 0 <= v < m /\ P v). { intros c v Hc Hv. apply G9. unfold flat. apply in_concat. exists (G c). split; auto. apply in_map. now apply In_zrange. }
  assert (Rt : forall c, 0 <= c < K -> exists r, get (cc_roots res) c = Some r /\ get (G c) 0 = Some r).
  { intros c Hc. assert (get (map Some (cc_roots res)) c = get (map (@hd_error Z) gs) c) as E by now rewrite G5. rewrite !get_map in E. rewrite (get_nthl gs c) in E by lia. cbn [option_map] in E. fold (G c) in E.
    destruct (get (cc_roots res) c) as [r|]; [|discriminate]. exists r. split; auto. cbn [option_map] in E. destruct (G c) as [|h l]; [discriminate|]. cbn [hd_error] in E. rewrite get_cons_0. congruence. }
  assert (Lab : forall c v r, 0 <= c < K -> In v (G c) -> get (G c) 0 = Some r -> get p v = Some r).
  { intros c v r Hc Hv Er. pose proof (get_In _ _ _ Er) as Hr. destruct (Rg c v Hc Hv) as (V1 & V2). destruct (Rg c r Hc Hr) as (R1 & R2).
    destruct (Hp v V1 V2) as (q & Q1 & Q2 & Q3 & Q4). assert (In q (G c)) as Hq.
    { destruct (proj1 (G10 v q V1 ltac:(lia) V2 Q4)) as (g & H1 & H2 & H3); [congruence|]. apply In_get in H1 as (c' & _ & Hc'). pose proof (get_Some_bounds _ _ _ Hc') as B. rewrite G1 in B. assert (g = G c') by (unfold G; symmetry; now apply nthl_get). subst g.
      enough (c' = c) by now subst. apply In_get in H2 as (k' & _ & K1). apply In_get in Hv as (k & _ & K2). pose proof (get_Some_bounds _ _ _ K1). pose proof (get_Some_bounds _ _ _ K2).
      assert (get (flat G K) (off G c' + k') = Some v) as F1 by (rewrite get_flat; auto). assert (get (flat G K) (off G c + k) = Some v) as F2 by (rewrite get_flat; auto).
      assert (off G c' + k' = off G c + k) as F by (eapply NoDup_get_inj; eauto). apply (off_unique G c' k' c k); auto; lia. }
    destruct (Hp r R1 R2) as (r' & T1 & T2 & T3 & T4).
    assert (get p q = get p r) as E. { apply G10; auto; [lia|]. exists (G c). auto. }
    assert (q <= r) as L1 by (assert (r' = q) by congruence; lia).
    assert (r <= q) as L2. { destruct (G c) as [|h l] eqn:Eg; [destruct Hq|]. rewrite get_cons_0 in Er. injection Er as ->. destruct Hq as [->|Hq]; [lia|]. specialize (G7 _ (Ig c Hc)). rewrite Eg in G7. apply StronglySorted_inv in G7 as (_ & F). rewrite Forall_forall in F. specialize (F q Hq). lia. }
    assert (q = r) by lia. now subst. }
  unfold cc_check. fold K.
  destruct (forZ_rule (fun i a => a = off G i) 0 K (fun i a => v <- get (cc_sizes res) i ;; Some (a + v)) 0) as (cnt & Ec & Ic); [lia|now rewrite off_0| |].
  { intros i a Hi ->. rewrite Sz by lia. eexists. split; [reflexivity|]. now rewrite off_S by lia. }
  rewrite Ec, Ic, Hcn, Z.eqb_refl.
  destruct (forZ_rule (fun _ _ => True) 0 K (check_comp p res) tt) as ([] & E & _); auto. intros i [] Hi _. exists tt. split; auto.
  unfold check_comp. rewrite St, Sz by lia. fold K. destruct (Rt i Hi) as (r & Er & Eg). rewrite Er.
  assert ((if i <? K - 1 then s' <- get (cc_starts res) (i + 1) ;; assert! s' - off G i =? Zlen (G i) ;; Some tt else Some tt) = Some tt) as ->.
  { destruct (Z.ltb_spec i (K - 1)); auto. rewrite St, off_S by lia. replace (off G i + Zlen (G i) - off G i) with (Zlen (G i)) by lia. now rewrite Z.eqb_refl. }
  pose proof (get_Some_bounds _ _ _ Eg) as Bg. replace (0 <? Zlen (G i)) with true by lia. rewrite <- (Z.add_0_r (off G i)) at 1. rewrite Nd, Eg, Z.eqb_refl by lia.
  destruct (forZ_rule (fun _ _ => True) (off G i) (off G i + Zlen (G i)) (check_elem p res i r) tt) as ([] & E & _); auto; [lia|]. intros j [] Hj _. exists tt. split; auto.
  unfold check_elem. destruct (get_in_range (G i) (j - off G i) ltac:(lia)) as (v & Ev). replace j with (off G i + (j - off G i)) at 1 by lia. rewrite Nd, Ev by lia.
  rewrite (Lab i v r Hi) by (auto; eapply get_In; eauto). rewrite Z.eqb_refl.
  assert (exists s, get (cc_starts res) (i + 1) = Some s /\ s <= off G (i + 1)) as (s & Es & Hs).
  { destruct (Z.eq_dec (i + 1) K) as [E|E]; [rewrite E; exists e; split; auto; lia|exists (off G (i + 1)); rewrite St by lia; split; auto; lia]. }
  rewrite Es. destruct (Z.ltb_spec j (s - 1)); auto. rewrite off_S in Hs by lia.
  destruct (get_in_range (G i) (j + 1 - off G i) ltac:(lia)) as (v' & Ev'). replace (j + 1) with (off G i + (j + 1 - off G i)) by lia. rewrite Nd, Ev' by lia.
  assert (v < v') by (apply (ssorted_get (G i) (j - off G i) (j + 1 - off G i)); auto; lia). now replace (v <? v') with true by lia.
Qed.
End Check.

(** With two or more threads they pass, whatever the execution. *)
Theorem cc_check_ok {V} hasv base rows (A : csr V) T us cs sch j work u c :
  rep hasv base (Zlen rows) rows A -> rows_ok (Zlen rows) rows -> 1 <= Zlen rows -> 2 <= T ->
  junk_ok (Zlen rows) T j ->
  mapM (cc_work A base T) (zrange 0 T) = Some work ->
  union_run (cm A) work us = Some u -> all_done u ->
  compress_run (cm A) T (fst u) cs = Some c -> call_done c ->
  exists res, cc_run A T us cs sch j = Some (u, c, res) /\ cc_check (Zlen rows) (fst c) res = Some tt.
Proof.
  intros HR Hok Hm HT HJ EW EU DU EC DC. pose proof HR as (H1 & H2 & H3 & H4 & _).
  destruct (cc_work_ok hasv base _ rows A T HR ltac:(lia)) as (work' & EW' & Hcat & _).
  assert (work' = work) by congruence. subst work'. rewrite H1 in *.
  assert (forall w e, In w work -> In e w -> 0 <= fst e < Zlen rows /\ 0 <= snd e < Zlen rows) as Hwr.
  { intros w e Hw He. apply edges_range with (rows := rows); auto. rewrite <- Hcat. apply in_concat. eauto. }
  destruct (union_sound (Zlen rows) work us u ltac:(lia) Hwr EU) as (Lu & Hroot & Hsound).
  assert (forall x, 0 <= x < Zlen rows -> exists y, get (fst u) x = Some y /\ 0 <= y <= x) as Hd.
  { pose proof (uinit_inv (Zlen rows) work ltac:(lia) Hwr) as HI.
    apply (urun_inv _ _ us _ u) in HI; auto. destruct HI as [[_ Hf] _].
    intros x Hx. destruct (Hf x Hx) as (y & Ey & Hy & _). eauto. }
  destruct (compress_result (Zlen rows) T (fst u) cs c Hm ltac:(lia) Lu Hd EC DC) as (Lc & Hc & Hths).
  destruct c as [p ths]. cbn [fst snd] in *.
  destruct (number_on_ok (Zlen rows) T (zrange 0 (Zlen rows)) (cc_chunk (Zlen rows) T) p) with (sch := sch) (j := j) (ths := ths) as (res & E & _ & HL & He); auto; try lia.
  - apply ssorted_zrange.
  - intros x Hx. now apply In_zrange in Hx.
  - rewrite zrange_cons by lia. discriminate.
  - apply chunks_concat; lia.
  - intros x Hx. apply In_zrange in Hx. destruct (Hc x Hx) as (r & Er & Hr & Er' & _). exists r. rewrite In_zrange. repeat split; auto; lia.
  - destruct (He HT) as (e & Ee & Hle). rewrite Zlen_zrange in Hle. exists res. split.
    + unfold cc_run, getBase. rewrite H3, get_rowptr_of, off_0, Z.add_0_r by lia. rewrite EW, H1, EU. cbn [fst]. rewrite EC. unfold cc_number. now rewrite E.
    + apply (cc_check_listed (Zlen rows) (fun v => In v (zrange 0 (Zlen rows)))) with (e := e); auto; [| |lia].
      * intros x Hx _. destruct (Hc x Hx) as (r & Er & Hr & Er' & _). exists r. rewrite In_zrange. repeat split; auto; lia.
      * intros l Nl Hl. assert (Permutation l (zrange 0 (Zlen rows))) as Hp. { apply NoDup_Permutation; auto using NoDup_zrange. intros v. rewrite Hl, In_zrange. tauto. }
        pose proof (Permutation_length Hp). pose proof (Zlen_zrange 0 (Zlen rows)). unfold Zlen in *. lia.
Qed.

(** ** Worked cases
    The 1-based matrix with the components {0,2} and {1,3,4}. *)
Definition dbg_matrix : csr Z := mkCSR 5 5 [1; 2; 4; 5; 6; 7] [3; 2; 4; 1; 2; 4] None None None None None.
Definition dbg_rows : rows_t Z := [[(2, 0)]; [(1, 0); (3, 0)]; [(0, 0)]; [(1, 0)]; [(3, 0)]].
Definition dbg_run (T : Z) (us cs : list Z) : option unit :=
  ' (_, c, r) <- cc_run dbg_matrix T us cs (fun _ => []) (junk77 T 5) ;; cc_check 5 (fst c) r.
Lemma dbg_two_threads : dbg_run 2 (concat (repeat [0; 1] 60)) (concat (repeat [1; 0] 40)) = Some tt.
Proof. vm_compute. reflexivity. Qed.
(** One thread: compSizePrefixSum[nComp] has never been written (line 315). *)
Lemma dbg_one_thread : rep false 1 5 dbg_rows dbg_matrix /\ rows_ok 5 dbg_rows /\ junk_ok 5 1 (junk77 1 5) /\
  exists u c r, cc_run dbg_matrix 1 (repeat 0 200) (repeat 0 100) (fun _ => []) (junk77 1 5) = Some (u, c, r) /\ all_done u /\ call_done c /\
    get (cc_starts r) (cc_n r) = get (j_prefix (junk77 1 5) (cc_n r)) (cc_n r) /\ cc_check 5 (fst c) r = None.
Proof.
  split; [repeat split|]. split; [|split].
  - intros r c v Hr Hc. cbn [dbg_rows In] in Hr. repeat (destruct Hr as [<-|Hr]; [cbn [In] in Hc; repeat (destruct Hc as [Hc|Hc]; [injection Hc as <- _; lia|]); destruct Hc|]). destruct Hr.
  - repeat split; cbn [j_c2r j_sizes j_prefix junk77]; rewrite Zlen_repeat; lia.
  - do 3 eexists. split; [vm_compute; reflexivity|]. split; [|split; [|split; vm_compute; reflexivity]].
    + intros th H. cbn [snd In] in H. repeat (destruct H as [<-|H]; [reflexivity|]). destruct H.
    + intros pc todo n H. cbn [snd In] in H. repeat (destruct H as [H|H]; [injection H as <- <- <-; auto|]). destruct H.
Qed.
