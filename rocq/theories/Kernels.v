(** * Gauss-Seidel sweeps and triangular solves over a level schedule
    (test/gs_test.cpp, test/trsv_test.cpp, test/pcg.cpp).

    Numbers are any type with any operations.  A row is executed as a sequence
    of steps, each with at most one access to an element of y owned by another
    row: load of b, one step per matrix entry, store of y. *)
From Coq Require Import Relations Permutation.
From Verif Require Import Base Interleave Spec PermUtils Flat Csr CsrTools CsrOps SpMV P2P P2PProg Phased Exec.

(** ** What it means for an execution to compute [fin] *)
Section Computes.
Context {V L O : Type}.
Variables (exec : O -> L -> list V -> option (L * list V)) (l0 : L) (ops : Z -> list O).
(** Point-to-point: no interleaving has undefined behaviour, none is stuck before
    the end, at the end the memory is [fin], and every fair execution ends.
    [flags] and [locs] are the initial contents of taskFinished and of the local
    variables. *)
Definition p2p_computes (fwd : bool) (S : schedule) (rowof : Z -> option Z) (T : Z) (y fin : list V) : Prop :=
  forall rsch flags locs, Zlen flags = ntasks S -> Zlen locs = T ->
  (forall sched, (forall t, In t sched -> 0 <= t < T) ->
     exists code s, p2p_run exec l0 ops fwd S rowof T rsch sched flags locs y = Some (code, s) /\ Zlen code = T /\
       (finished code s -> mem s = fin) /\
       (finished code s \/ exists t, 0 <= t < T /\ exists s', mstep exec l0 ops code t s = Some s' /\ s' <> s)) /\
  (forall f : nat -> Z, (forall n, 0 <= f n < T) -> (forall t N, 0 <= t < T -> exists n, (N <= n)%nat /\ f n = t) ->
     exists N code s, p2p_run exec l0 ops fwd S rowof T rsch (map f (seq 0 N)) flags locs y = Some (code, s) /\ finished code s /\ mem s = fin).
(** With barriers: every interleaving of every phase is defined and ends with [fin]. *)
Definition barrier_computes (fwd : bool) (S : schedule) (rowof : Z -> option Z) (T : Z) (y fin : list V) : Prop :=
  forall sch locs, Zlen locs = T -> exists locs', barrier_run exec l0 ops fwd S rowof T sch locs y = Some (locs', fin).
End Computes.

(** [r] comes before [r'] in [order]. *)
Definition precedes (order : list Z) (r r' : Z) : Prop := exists l1 l2 l3, order = l1 ++ r :: l2 ++ r' :: l3.
(** Row [r] has an entry in column [c]. *)
Definition entry {V} (rows : rows_t V) (r c : Z) : Prop := exists v, In (c, v) (nthl rows r).
(** The schedule orders the positions of adjacent rows like the sequential [order]. *)
Definition covers {V} (fwd : bool) (S : schedule) (rowof : Z -> option Z) (rows : rows_t V) (order : list Z) : Prop :=
  forall i i' r r', 0 <= i < Zlen rows -> 0 <= i' < Zlen rows -> rowof i = Some r -> rowof i' = Some r' ->
  entry rows r r' \/ entry rows r' r -> precedes order r r' -> pos_before fwd S i i'.
Definition covers_barrier {V} (fwd : bool) (S : schedule) (rowof : Z -> option Z) (rows : rows_t V) (order : list Z) : Prop :=
  forall i i' r r', 0 <= i < Zlen rows -> 0 <= i' < Zlen rows -> rowof i = Some r -> rowof i' = Some r' ->
  entry rows r r' \/ entry rows r' r -> precedes order r r' -> pos_phase_before fwd S i i'.
Definition same_task_counts (S : schedule) : Prop :=
  exists K, 0 <= K /\ forall t b e, get (threadBoundaries S) t = Some b -> get (threadBoundaries S) (t + 1) = Some e -> e = b + K.

(** ** From an order to the numbering used by the executors *)
Section Order.
Variables (m : Z) (order : list Z).
Hypothesis Ho : Permutation order (zrange 0 m).
Hypothesis Hm : 0 <= m.
Definition ord_ro (n : Z) : Z := zget order n.
Definition ord_so (r : Z) : Z := zfind (fun n => zget order n =? r) m.
Lemma order_len : Zlen order = m.
Proof. unfold Zlen. rewrite (Permutation_length Ho). fold (Zlen (zrange 0 m)). rewrite Zlen_zrange. lia. Qed.
Lemma order_nd : NoDup order.
Proof. eapply Permutation_NoDup; [apply Permutation_sym, Ho|apply NoDup_zrange]. Qed.
Lemma ro_range n : 0 <= n < m -> 0 <= ord_ro n < m.
Proof.
  intros Hn. pose proof (zget_ok order n ltac:(rewrite order_len; lia)) as E. apply get_In in E. apply (Permutation_in _ Ho) in E. now apply In_zrange in E.
Qed.
Lemma ro_inj n n' : 0 <= n < m -> 0 <= n' < m -> ord_ro n = ord_ro n' -> n = n'.
Proof.
  intros Hn Hn' E. pose proof order_len as HL. pose proof (zget_ok order n ltac:(lia)) as E1. pose proof (zget_ok order n' ltac:(lia)) as E2.
  unfold ord_ro in E. rewrite E in E1. eapply NoDup_get_inj; eauto using order_nd.
Qed.
Lemma so_ok r : 0 <= r < m -> 0 <= ord_so r < m /\ ord_ro (ord_so r) = r.
Proof.
  intros Hr. assert (Hin : In r order) by (apply (Permutation_in _ (Permutation_sym Ho)); apply In_zrange; lia).
  apply In_get in Hin as (n & B & E). rewrite order_len in B.
  destruct (zfind_ok (fun n => zget order n =? r) m n) as (C & D); auto. { unfold zget. rewrite E. lia. }
  split; auto. fold (ord_so r) in D. unfold ord_ro. lia.
Qed.
Lemma ro_ok n : 0 <= n < m -> 0 <= ord_ro n < m /\ ord_so (ord_ro n) = n.
Proof. intros Hn. pose proof (ro_range n Hn) as R. split; auto. destruct (so_ok _ R) as (A & B). apply ro_inj; auto. Qed.
Lemma order_map : map ord_ro (zrange 0 m) = order.
Proof.
  apply list_ext. { rewrite Zlen_map, Zlen_zrange, order_len. lia. }
  intros i Hi. rewrite Zlen_map, Zlen_zrange in Hi. rewrite get_map, get_zrange by lia. cbn [option_map]. unfold ord_ro. symmetry. apply zget_ok. rewrite order_len. lia.
Qed.
Lemma so_precedes r r' : 0 <= r < m -> 0 <= r' < m -> ord_so r < ord_so r' -> precedes order r r'.
Proof.
  intros Hr Hr' Hlt. destruct (so_ok r Hr) as (A & B). destruct (so_ok r' Hr') as (A' & B'). pose proof order_map as E.
  rewrite (zrange_app 0 (ord_so r) m), (zrange_cons (ord_so r)), (zrange_app (ord_so r + 1) (ord_so r') m), (zrange_cons (ord_so r')) in E by lia.
  rewrite map_app in E. cbn [map] in E. rewrite map_app in E. cbn [map] in E. rewrite B, B' in E. eexists _, _, _. symmetry. exact E.
Qed.
End Order.

Section General.
Context {V L O : Type}.
Variables (exec : O -> L -> list V -> option (L * list V)) (l0 : L) (ops : Z -> list O).
Variables (fwd : bool) (T : Z) (W : Type) (rows : rows_t W) (S : schedule) (rowof : Z -> option Z) (order : list Z) (own : Z -> Z) (y fin : list V).
Let m := Zlen rows.
Hypothesis HS : sched_ok T m S rowof.
Hypothesis Ho : Permutation order (zrange 0 m).
Hypothesis Kframe : forall r o l s l' s', 0 <= r < m -> In o (ops r) -> exec o l s = Some (l', s') ->
  Zlen s' = Zlen s /\ forall p, own p <> r -> get s' p = get s p.
Hypothesis Klocal : forall r o l s1 s2 l' s1', 0 <= r < m -> In o (ops r) -> Zlen s1 = Zlen s2 ->
  (forall p, own p = r \/ entry rows r (own p) \/ ~ (0 <= own p < m) -> get s1 p = get s2 p) -> exec o l s1 = Some (l', s1') ->
  exists s2', exec o l s2 = Some (l', s2') /\ forall p, own p = r -> get s2' p = get s1' p.
Hypothesis Kseq : foldM (row_run exec l0 ops) order y = Some fin.
Lemma Hm0 : 0 <= m.
Proof. apply Zlen_nonneg. Qed.
Lemma Kseq' : foldM (row_run exec l0 ops) (map (ord_ro order) (zrange 0 m)) y = Some fin.
Proof. rewrite order_map by (auto using Hm0). exact Kseq. Qed.
Theorem general_p2p : waits_ok fwd S -> waits_ranked fwd S -> covers fwd S rowof rows order ->
  p2p_computes exec l0 ops fwd S rowof T y fin.
Proof.
  intros HW HR HC rsch flags locs Hf Hl.
  assert (KC : forall i i' r r', 0 <= i < m -> 0 <= i' < m -> rowof i = Some r -> rowof i' = Some r' ->
    entry rows r r' \/ entry rows r' r -> ord_so m order r < ord_so m order r' -> pos_before fwd S i i').
  { intros i i' r r' Hi Hi' E E' D Hlt. eapply HC; eauto. apply (so_precedes m order Ho Hm0); auto.
    - destruct (so_rows _ _ _ _ HS i Hi) as (r0 & E0 & R0). congruence.
    - destruct (so_rows _ _ _ _ HS i' Hi') as (r0 & E0 & R0). congruence. }
  pose proof (ro_ok m order Ho Hm0) as HRO. pose proof (so_ok m order Ho Hm0) as HSO.
  split.
  - intros sched Hs. destruct (p2p_run_ok exec l0 ops fwd T m S rowof HS (ord_ro order) (ord_so m order) own (entry rows) y fin HRO HSO Kframe Klocal Kseq' HW KC rsch sched flags locs Hf Hl Hs) as (s & E & _ & F).
    eexists _, s. split; [exact E|]. split. { unfold p2p_run in E. destruct (all_code _ _ _ _ _) as [code|] eqn:EC; [|discriminate].
      destruct (reset_flags _ _ _ _); [|discriminate]. destruct (mrun _ _ _ _ _ _); [|discriminate]. injection E as <- _.
      unfold all_code in EC. apply mapM_length in EC. unfold Zlen. rewrite EC. fold (Zlen (zrange 0 T)). rewrite Zlen_zrange. pose proof (so_T _ _ _ _ HS). lia. }
    split; auto.
    destruct (p2p_no_deadlock exec l0 ops fwd T m S rowof HS Hm0 (ord_ro order) (ord_so m order) own (entry rows) y fin HRO HSO Kframe Klocal Kseq' HW KC HR rsch sched flags locs s Hf Hl Hs E) as [D|(t & Ht & M)]; [auto|]. right. exists t. split; auto. destruct M as (s' & n0 & M1 & M2 & M3). exists s'. split; auto. intros ->. rewrite M2 in M3. injection M3. lia.
  - intros f Hr Hfair. destruct (p2p_fair exec l0 ops fwd T m S rowof HS Hm0 (ord_ro order) (ord_so m order) own (entry rows) y fin HRO HSO Kframe Klocal Kseq' HW KC HR rsch flags locs f Hf Hl Hr Hfair) as (N & s & A & B & C).
    eauto 6.
Qed.
Theorem general_barrier : same_task_counts S -> covers_barrier fwd S rowof rows order -> barrier_computes exec l0 ops fwd S rowof T y fin.
Proof.
  intros (K & HK & HKt) HC sch locs Hl.
  apply (barrier_run_ok exec l0 ops fwd T m S rowof HS (ord_ro order) (ord_so m order) own (entry rows) y fin (ro_ok m order Ho Hm0) (so_ok m order Ho Hm0) Kframe Klocal Kseq' K HK HKt); auto.
  intros i i' r r' Hi Hi' E E' D Hlt. eapply HC; eauto. apply (so_precedes m order Ho Hm0); auto.
  - destruct (so_rows _ _ _ _ HS i Hi) as (r0 & E0 & R0). congruence.
  - destruct (so_rows _ _ _ _ HS i' Hi') as (r0 & E0 & R0). congruence.
Qed.
End General.

(** A loop over positions, upwards or downwards, is a fold over the entries. *)
Lemma foldM_positions {A St} (l : list A) o (d : bool) (f : Z -> St -> option St) (g : A -> St -> option St) s :
  (forall q e s, get l q = Some e -> f (o + q) s = g e s) -> foldM f (dirZ d o (o + Zlen l)) s = foldM g (if d then l else rev l) s.
Proof.
  intros H. unfold dirZ. destruct d. { apply forZ_list; auto. }
  revert s H. induction l as [|a l IH] using rev_ind; intros s H. { rewrite zrange_nil by (change (Zlen (@nil A)) with 0; lia). reflexivity. }
  pose proof (Zlen_nonneg l). rewrite Zlen_app, Zlen_cons. change (Zlen (@nil A)) with 0. replace (o + (Zlen l + (1 + 0))) with (o + Zlen l + 1) by lia.
  rewrite zrange_snoc by lia. rewrite !rev_app_distr. cbn [rev app foldM]. rewrite (H (Zlen l) a).
  2:{ rewrite get_app_r by lia. rewrite Z.sub_diag. apply get_cons_0. }
  destruct (g a s); auto. apply IH. intros q e s' E. apply H. rewrite get_app_l; auto. now apply get_Some_bounds in E.
Qed.

(** ** Rows of a sweep *)
Section Rows.
Context {V : Type}.
Variables (add sub mul : V -> V -> V).

(** How a row ends: y[row] += sum*idiag[row] (gs_test.cpp:106, 145 and so on),
    y[row] = sum*idiag[row] (trsv_test.cpp:105, 147, 228, pcg.cpp:80, 127),
    y[row] = sum (trsv_test.cpp:118, 180, 277). *)
Inductive ending := AddScaled | Scaled | Plain.
Definition store (k : ending) (idiag : list V) (r : Z) (old s : V) : option V :=
  match k with
  | AddScaled => d <- get idiag r ;; Some (add old (mul s d))
  | Scaled => d <- get idiag r ;; Some (mul s d)
  | Plain => Some s
  end.

Inductive rop := RLoad (r : Z) | RAcc (j : Z) | RStore (r : Z) | RBad.
(** The local variable is [sum]. *)
Definition rexec (k : ending) (A : csr V) (base : Z) (vals idiag b : list V) (o : rop) (l : option V) (y : list V) : option (option V * list V) :=
  match o with
  | RLoad r => v <- get b r ;; Some (Some v, y)
  | RAcc j => s <- l ;; a <- get vals (j - base) ;; c <- get (colidx A) (j - base) ;; x <- get y (c - base) ;; Some (Some (sub s (mul a x)), y)
  | RStore r => s <- l ;; old <- get y r ;; w <- store k idiag r old s ;; y' <- set y r w ;; Some (l, y')
  | RBad => None
  end.
(** gs_test.cpp:141-145 (ascending), 174-178 (descending), and alike in the other
    executors. *)
Definition rops (asc : bool) (A : csr V) (r : Z) : list rop :=
  match get (rowptr A) r, get (rowptr A) (r + 1) with
  | Some lo, Some hi => RLoad r :: map RAcc (dirZ asc lo hi) ++ [RStore r]
  | _, _ => [RBad]
  end.

(** The reference loops: gs_test.cpp:92-118, trsv_test.cpp:96-120; j always ascends. *)
Definition ref_row (k : ending) (A : csr V) (base : Z) (vals idiag b : list V) (r : Z) (y : list V) : option (list V) :=
  lo <- get (rowptr A) r ;; hi <- get (rowptr A) (r + 1) ;; b0 <- get b r ;;
  s <- forZ lo hi (fun j s => a <- get vals (j - base) ;; c <- get (colidx A) (j - base) ;; x <- get y (c - base) ;; Some (sub s (mul a x))) b0 ;;
  old <- get y r ;; w <- store k idiag r old s ;; set y r w.
Definition ref_sweep (k : ending) (fwd : bool) (A : csr V) (base : Z) (vals idiag b y : list V) : option (list V) :=
  foldM (ref_row k A base vals idiag b) (dirZ fwd 0 (cm A)) y.

(** Specification: the update of one unknown, from the rows of the matrix. *)
Definition update (k : ending) (asc : bool) (rows : rows_t V) (idiag b : list V) (r : Z) (y : list V) : option (list V) :=
  row <- get rows r ;; b0 <- get b r ;;
  s <- foldM (fun e s => x <- get y (fst e) ;; Some (sub s (mul (snd e) x))) (if asc then row else rev row) b0 ;;
  old <- get y r ;; w <- store k idiag r old s ;; set y r w.
Definition updates k asc rows idiag b (order : list Z) (y : list V) := foldM (update k asc rows idiag b) order y.
Definition needs_idiag (k : ending) : bool := match k with Plain => false | _ => true end.

Section Proof.
Variables (k : ending) (asc : bool) (base n : Z) (rows : rows_t V) (A : csr V) (idiag b : list V).
Hypothesis HR : rep true base n rows A.
Hypothesis Hok : rows_ok n rows.
Let m := Zlen rows.
Notation vals := (values_of rows).
Notation ex := (rexec k A base vals idiag b).
Lemma rops_eq r : 0 <= r < m -> rops asc A r = RLoad r :: map RAcc (dirZ asc (base + off (nthl rows) r) (base + off (nthl rows) r + Zlen (nthl rows r))) ++ [RStore r].
Proof.
  intros Hr. unfold rops. rewrite (rep_rowptr _ _ _ _ _ _ HR) by (unfold m in Hr; lia). rewrite (rep_rowptr_S _ _ _ _ _ _ HR) by (unfold m in Hr; lia).
  now rewrite Z.add_assoc.
Qed.
Lemma col_at r q c v : 0 <= r < m -> get (nthl rows r) q = Some (c, v) ->
  get vals (base + off (nthl rows) r + q - base) = Some v /\ get (colidx A) (base + off (nthl rows) r + q - base) = Some (c + base) /\ 0 <= c < n.
Proof.
  intros Hr E. replace (base + off (nthl rows) r + q - base) with (off (nthl rows) r + q) by lia. destruct HR as (_ & _ & _ & EC & _). rewrite EC.
  split; [eapply get_values_of; eauto|]. split; [eapply get_colidx_of; eauto|]. eapply Hok; [|eapply get_In; eauto]. apply nth_row_In. auto.
Qed.
(** The steps of a row. *)
Lemma acc_steps r y s0 : 0 <= r < m ->
  foldM (fun o ls => ex o (fst ls) (snd ls)) (map RAcc (dirZ asc (base + off (nthl rows) r) (base + off (nthl rows) r + Zlen (nthl rows r)))) (Some s0, y) =
  (s <- foldM (fun e s => x <- get y (fst e) ;; Some (sub s (mul (snd e) x))) (if asc then nthl rows r else rev (nthl rows r)) s0 ;; Some (Some s, y)).
Proof.
  intros Hr. rewrite foldM_map.
  rewrite (foldM_positions (nthl rows r) _ asc _ (fun e ls => s <- fst ls ;; x <- get (snd ls) (fst e) ;; Some (Some (sub s (mul (snd e) x)), snd ls))).
  - generalize (if asc then nthl rows r else rev (nthl rows r)). intros l. revert s0. induction l as [|e l IH]; intros s0; cbn [foldM fst snd]; auto.
    destruct (get y (fst e)) as [x|]; auto.
  - intros q (c, v) (l, y') E. cbn [rexec fst snd]. destruct (col_at r q c v Hr E) as (-> & -> & _). now replace (c + base - base) with c by lia.
Qed.
Lemma row_run_update r y : 0 <= r < m -> row_run ex None (rops asc A) r y = update k asc rows idiag b r y.
Proof.
  intros Hr. unfold row_run, update. rewrite rops_eq by auto. rewrite (get_nthl rows r Hr). cbn [foldM fst snd rexec].
  destruct (get b r) as [b0|]; auto. rewrite foldM_app, acc_steps by auto.
  destruct (foldM _ (if asc then nthl rows r else rev (nthl rows r)) b0) as [s|]; auto. cbn [foldM fst snd rexec].
  destruct (get y r) as [old|]; auto. destruct (store k idiag r old s) as [w|]; auto. destruct (set y r w); auto.
Qed.
Lemma in_rops r o : 0 <= r < m -> In o (rops asc A r) -> o = RLoad r \/ o = RStore r \/ exists q e, get (nthl rows r) q = Some e /\ o = RAcc (base + off (nthl rows) r + q).
Proof.
  intros Hr Hin. rewrite rops_eq in Hin by auto. destruct Hin as [<-|Hin]; auto. apply in_app_iff in Hin as [Hin|[<-|[]]]; auto.
  apply in_map_iff in Hin as (j & <- & Hj). apply In_dirZ in Hj. right. right. exists (j - (base + off (nthl rows) r)).
  destruct (get_in_range (nthl rows r) (j - (base + off (nthl rows) r))) as (e & E); [lia|]. exists e. split; auto. f_equal. lia.
Qed.
Lemma rows_frame r o l s l' s' : 0 <= r < m -> In o (rops asc A r) -> ex o l s = Some (l', s') ->
  Zlen s' = Zlen s /\ forall p, p <> r -> get s' p = get s p.
Proof.
  intros Hr Ho E. destruct (in_rops r o Hr Ho) as [->|[->|(q & (c, v) & Eq & ->)]]; cbn [rexec] in E.
  - destruct (get b r); [|discriminate]. injection E as _ <-. auto.
  - destruct l as [sm|]; [|discriminate]. destruct (get s r) as [old|]; [|discriminate]. destruct (store k idiag r old sm) as [w|]; [|discriminate].
    destruct (set s r w) as [y'|] eqn:ES; [|discriminate]. injection E as _ <-. split; [eapply set_len; eauto|]. intros p Hp. eapply get_set_other; eauto.
  - destruct l as [sm|]; [|discriminate]. destruct (col_at r q c v Hr Eq) as (E1 & E2 & _). rewrite E1, E2 in E. destruct (get s (c + base - base)); [|discriminate].
    injection E as _ <-. auto.
Qed.
Lemma rows_local r o l s1 s2 l' s1' : 0 <= r < m -> In o (rops asc A r) -> Zlen s1 = Zlen s2 ->
  (forall p, p = r \/ entry rows r p \/ ~ (0 <= p < m) -> get s1 p = get s2 p) -> ex o l s1 = Some (l', s1') ->
  exists s2', ex o l s2 = Some (l', s2') /\ forall p, p = r -> get s2' p = get s1' p.
Proof.
  intros Hr Ho HL HA E. destruct (in_rops r o Hr Ho) as [->|[->|(q & (c, v) & Eq & ->)]]; cbn [rexec] in *.
  - destruct (get b r); [|discriminate]. injection E as <- <-. exists s2. split; auto. intros p ->. symmetry. apply HA. auto.
  - destruct l as [sm|]; [|discriminate]. rewrite <- (HA r) by auto. destruct (get s1 r) as [old|] eqn:Eg; [|discriminate]. destruct (store k idiag r old sm) as [w|]; [|discriminate].
    destruct (set s1 r w) as [y'|] eqn:ES; [|discriminate]. injection E as <- <-.
    destruct (set_ok s2 r w) as (y2 & E2). { pose proof (get_Some_bounds _ _ _ Eg). lia. } rewrite E2. exists y2. split; auto. intros p ->.
    rewrite (get_set_same _ _ _ _ ES). eapply get_set_same; eauto.
  - destruct l as [sm|]; [|discriminate]. destruct (col_at r q c v Hr Eq) as (E1 & E2 & _). rewrite E1, E2 in *. replace (c + base - base) with c in * by lia.
    rewrite <- (HA c). 2:{ right. left. exists v. eapply get_In; eauto. }
    destruct (get s1 c) as [x|]; [|discriminate]. injection E as <- <-. exists s2. split; auto. intros p ->. symmetry. apply HA. auto.
Qed.
Lemma update_ok r y : 0 <= r < m -> m <= n -> n <= Zlen y -> m <= Zlen b -> (needs_idiag k = true -> m <= Zlen idiag) ->
  exists y', update k asc rows idiag b r y = Some y' /\ Zlen y' = Zlen y.
Proof.
  intros Hr Hmn Hy Hb Hd. unfold update. rewrite (get_nthl rows r Hr). destruct (get_in_range b r) as (b0 & ->); [lia|].
  assert (Hin : forall e, In e (if asc then nthl rows r else rev (nthl rows r)) -> 0 <= fst e < Zlen y).
  { intros (c, v) He. assert (In (c, v) (nthl rows r)) by (destruct asc; auto; now apply in_rev). cbn [fst]. pose proof (Hok _ _ _ (nth_row_In rows r Hr) H). lia. }
  assert (HF : forall l s, (forall e, In e l -> 0 <= fst e < Zlen y) -> exists s', foldM (fun e s => x <- get y (fst e) ;; Some (sub s (mul (snd e) x))) l s = Some s').
  { induction l as [|e l IH]; intros s Hl; cbn [foldM]; eauto. destruct (get_in_range y (fst e)) as (x & ->); [apply Hl; cbn; auto|]. apply IH. intros; apply Hl; cbn; auto. }
  destruct (HF _ b0 Hin) as (s & ->). destruct (get_in_range y r) as (old & ->); [lia|].
  assert (HSt : exists w, store k idiag r old s = Some w).
  { unfold store. destruct k; eauto; destruct (get_in_range idiag r) as (d & ->); eauto; specialize (Hd eq_refl); lia. }
  destruct HSt as (w & ->). destruct (set_ok y r w) as (y' & E); [lia|]. rewrite E. exists y'. split; auto. eapply set_len; eauto.
Qed.
Lemma updates_ok order y : (forall r, In r order -> 0 <= r < m) -> m <= n -> n <= Zlen y -> m <= Zlen b -> (needs_idiag k = true -> m <= Zlen idiag) ->
  exists y', updates k asc rows idiag b order y = Some y' /\ Zlen y' = Zlen y.
Proof.
  unfold updates. revert y. induction order as [|r order IH]; intros y Ho Hmn Hy Hb Hd; cbn [foldM]; eauto.
  destruct (update_ok r y) as (y1 & E & L); auto. { apply Ho. cbn; auto. } rewrite E. destruct (IH y1) as (y2 & E2 & L2); auto; try lia.
  { intros; apply Ho; cbn; auto. } exists y2. split; auto. lia.
Qed.
Lemma ref_row_update r y : 0 <= r < m -> asc = true -> ref_row k A base vals idiag b r y = update k true rows idiag b r y.
Proof.
  intros Hr Ha. unfold ref_row, update. rewrite (rep_rowptr _ _ _ _ _ _ HR) by (unfold m in Hr; lia). rewrite (rep_rowptr_S _ _ _ _ _ _ HR) by (unfold m in Hr; lia).
  rewrite (get_nthl rows r Hr). destruct (get b r) as [b0|]; auto. rewrite Z.add_assoc.
  rewrite (forZ_list (nthl rows r) _ _ (fun e s => x <- get y (fst e) ;; Some (sub s (mul (snd e) x)))); auto.
  intros q (c, v) s E. cbn [fst snd]. destruct (col_at r q c v Hr E) as (-> & -> & _). now replace (c + base - base) with c by lia.
Qed.
End Proof.

Lemma ref_sweep_updates k fwd base n rows (A : csr V) idiag b y : rep true base n rows A -> rows_ok n rows ->
  ref_sweep k fwd A base (values_of rows) idiag b y = updates k true rows idiag b (dirZ fwd 0 (Zlen rows)) y.
Proof.
  intros HR Hok. unfold ref_sweep, updates. rewrite (proj1 HR). apply foldM_ext_in. intros r s Hr. apply In_dirZ in Hr. eapply ref_row_update; eauto.
Qed.

Section Main.
Variables (k : ending) (asc fwd : bool) (T base n : Z) (rows : rows_t V) (A : csr V) (idiag b y : list V) (S : schedule) (rowof : Z -> option Z) (order : list Z).
Hypothesis HR : rep true base n rows A.
Hypothesis Hok : rows_ok n rows.
Hypothesis Hn : Zlen rows <= n.
Hypothesis Hy : n <= Zlen y.
Hypothesis Hb : Zlen rows <= Zlen b.
Hypothesis Hd : needs_idiag k = true -> Zlen rows <= Zlen idiag.
Hypothesis HS : sched_ok T (Zlen rows) S rowof.
Hypothesis Ho : Permutation order (zrange 0 (Zlen rows)).
Lemma sweep_seq : exists fin, updates k asc rows idiag b order y = Some fin /\
  foldM (row_run (rexec k A base (values_of rows) idiag b) None (rops asc A)) order y = Some fin.
Proof.
  assert (Hin : forall r, In r order -> 0 <= r < Zlen rows). { intros r Hr. apply (Permutation_in _ Ho) in Hr. now apply In_zrange in Hr. }
  destruct (updates_ok k asc n rows idiag b Hok order y) as (fin & E & _); auto. exists fin. split; auto. rewrite <- E. unfold updates.
  apply foldM_ext_in. intros r s Hr. eapply row_run_update; eauto.
Qed.
Theorem sweep_p2p : waits_ok fwd S -> waits_ranked fwd S -> covers fwd S rowof rows order ->
  exists fin, updates k asc rows idiag b order y = Some fin /\
    p2p_computes (rexec k A base (values_of rows) idiag b) None (rops asc A) fwd S rowof T y fin.
Proof.
  intros HW HK HC. destruct sweep_seq as (fin & E & Q). exists fin. split; auto.
  apply (general_p2p _ _ _ fwd T V rows S rowof order (fun p => p) y fin HS Ho); auto.
  - intros. eapply rows_frame; eauto.
  - intros. eapply rows_local; eauto.
Qed.
Theorem sweep_barrier : same_task_counts S -> covers_barrier fwd S rowof rows order ->
  exists fin, updates k asc rows idiag b order y = Some fin /\
    barrier_computes (rexec k A base (values_of rows) idiag b) None (rops asc A) fwd S rowof T y fin.
Proof.
  intros HK HC. destruct sweep_seq as (fin & E & Q). exists fin. split; auto.
  apply (general_barrier _ _ _ fwd T V rows S rowof order (fun p => p) y fin HS Ho); auto.
  - intros. eapply rows_frame; eauto.
  - intros. eapply rows_local; eauto.
Qed.
End Main.
End Rows.
