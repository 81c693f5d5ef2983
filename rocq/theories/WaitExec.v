(** * Sweeps with the barrier itself between the tasks (test/gs_test.cpp:124-183, 287-341,
    test/trsv_test.cpp:126-185, synk/barrier.cpp:189-274).

    Exec.v runs the tasks in phases that all threads finish before any thread
    starts the next.  Here the threads call [Barrier::wait] after each task: the
    single steps of the sweep and of wait (Barrier.v) interleave in any order,
    and nothing but wait keeps the threads together. *)
From Coq Require Import Permutation.
From Verif Require Import Base Interleave Spec Flat Csr RowPar P2P P2PProg Phased Exec Kernels RcmPipe UnionSome.
From Verif Require Barrier.

(** Sums in which one summand changes. *)
Lemma zsum_lt_one {X} (g h : X -> Z) l a : In a l -> g a < h a -> (forall x, In x l -> g x <= h x) -> zsum (map g l) < zsum (map h l).
Proof.
  assert (Le : forall l, (forall x, In x l -> g x <= h x) -> zsum (map g l) <= zsum (map h l)).
  { clear l. induction l as [|b l IH]; intros H; [reflexivity|]. cbn [map]. unfold zsum in *. cbn [fold_right]. specialize (IH (fun x Hx => H x (or_intror Hx))). pose proof (H b (or_introl eq_refl)). lia. }
  induction l as [|b l IH]; [intros []|]. intros Ha Hlt H. cbn [map]. unfold zsum in *. cbn [fold_right].
  pose proof (Le l (fun x Hx => H x (or_intror Hx))). destruct Ha as [->|Ha]; [lia|]. specialize (IH Ha Hlt (fun x Hx => H x (or_intror Hx))). pose proof (H b (or_introl eq_refl)). lia.
Qed.

Lemma mapM_Zlen {X Y} (g : X -> option Y) l l' : mapM g l = Some l' -> Zlen l' = Zlen l.
Proof. intros E. unfold Zlen. now rewrite (mapM_length _ _ _ E). Qed.
Lemma mapM_def {X Y} (g : X -> option Y) l : (forall a, In a l -> exists b, g a = Some b) -> exists l', mapM g l = Some l'.
Proof.
  induction l as [|a l IH]; intros H; [exists []; reflexivity|]. destruct (H a (or_introl eq_refl)) as (b & E). destruct (IH (fun x Hx => H x (or_intror Hx))) as (l' & E').
  exists (b :: l'). cbn [mapM]. now rewrite E, E'.
Qed.

(** Entering counts the call, the other steps inside wait do not; leaving counts the return. *)
Lemma step_counts n tpc L c t (s s' : Barrier.state) : Barrier.step n tpc L c t s = Some s' ->
  Barrier.entered s' c t = (Barrier.entered s c t + match Barrier.pc s c t with Barrier.Out => 1 | _ => 0 end)%nat /\
  (Barrier.left s c t <= Barrier.left s' c t <= Barrier.left s c t + 1)%nat /\
  (Barrier.pc s' c t <> Barrier.Out -> Barrier.left s' c t = Barrier.left s c t) /\
  (Barrier.pc s c t = Barrier.Out -> Barrier.left s' c t = Barrier.left s c t /\ (Barrier.pc s' c t = Barrier.WThr 1 \/ Barrier.pc s' c t = Barrier.WCore)).
Proof.
  intros E. unfold Barrier.step in E.
  destruct (Barrier.pc s c t) as [|i|r0|r0| | |] eqn:Epc;
    try destruct (i <? tpc)%nat;
    try destruct (Bool.eqb (Barrier.tsense s c i) (Barrier.csense s c));
    try destruct (Bool.eqb (Barrier.flag s c (Barrier.par s c) r0) (Barrier.sns s c));
    try destruct (Bool.eqb (Barrier.csense s c) (Barrier.tsense s c t));
    try discriminate E; injection E as <-; cbn [Barrier.entered Barrier.left Barrier.pc]; rewrite ?Barrier.upd2_same;
    repeat split; try lia; try discriminate; try congruence.
  all: destruct (t =? 0)%nat; auto.
Qed.

Section Machine.
Context {A S : Type}.
Variables (f : A -> S -> option S) (n tpc : nat).
(** For each thread its tasks, each a list of atomic actions. *)
Variable prog : list (list (list A)).

Let L := Barrier.rounds n.
(** barrier.cpp:133-134: the core of thread [tid] and its number in the core. *)
Definition coreOf (t : Z) : nat := (Z.to_nat t / tpc)%nat.
Definition inCore (t : Z) : nat := (Z.to_nat t mod tpc)%nat.

(** The barrier, for each thread the number of its current task and how much of
    the task it has executed, and the memory of the sweep. *)
Record xst := mkX { x_bar : Barrier.state; x_task : list Z; x_pos : list Z; x_mem : S }.

Definition xpc (s : xst) (t : Z) : Barrier.pcT := Barrier.pc (x_bar s) (coreOf t) (inCore t).

(** One step of thread [t] (gs_test.cpp:138-149, 171-181): an action of the
    current task; after the last one the call of wait, which is the end of this
    pass of the loop; inside wait a step of Barrier.v.  A spinning thread and a
    thread behind its loop leave the state alone. *)
Definition xstep (t : Z) (s : xst) : option xst :=
  match xpc s t with
  | Barrier.Out =>
      k <- get (x_task s) t ;; p <- get (x_pos s) t ;; tasks <- get prog t ;;
      match get tasks k with
      | None => Some s
      | Some acts =>
          match get acts p with
          | Some a => m' <- f a (x_mem s) ;; ps <- set (x_pos s) t (p + 1) ;; Some (mkX (x_bar s) (x_task s) ps m')
          | None =>
              match Barrier.step n tpc L (coreOf t) (inCore t) (x_bar s) with
              | None => Some s
              | Some b' => ks <- set (x_task s) t (k + 1) ;; ps <- set (x_pos s) t 0 ;; Some (mkX b' ks ps (x_mem s))
              end
          end
      end
  | _ =>
      match Barrier.step n tpc L (coreOf t) (inCore t) (x_bar s) with
      | None => Some s
      | Some b' => Some (mkX b' (x_task s) (x_pos s) (x_mem s))
      end
  end.
Definition xrun (sched : list Z) (s : xst) : option xst := foldM xstep sched s.
Definition xstart (b : Barrier.state) (s : S) : xst := mkX b (map (fun _ => 0) prog) (map (fun _ => 0) prog) s.
(** Thread [t] is behind its loop. *)
Definition xended (s : xst) (t : Z) : Prop := xpc s t = Barrier.Out /\ get (x_task s) t = Some (Zlen (nthl prog t)).
Definition xfinished (s : xst) : Prop := forall t, 0 <= t < Zlen prog -> xended s t.
(** A barrier that is in use by nobody; everybody has called wait [e] times. *)
Definition quiet (b : Barrier.state) (e : nat) : Prop := Barrier.reachable n tpc L b /\ forall c t, (c < n)%nat -> (t < tpc)%nat -> Barrier.pc b c t = Barrier.Out /\ Barrier.left b c t = e.

(** The phases of Exec.v: all tasks number [k], any interleaving. *)
Definition column (k : Z) : list (list A) := map (fun tasks => nthl tasks k) prog.
Definition phased (sch : Z -> list nat) (K : Z) (s : S) : option S := foldM (fun k s => par (sch k) f (column k) s) (zrange 0 K) s.

(** ** Proof *)
Hypothesis Hn : (1 <= n)%nat.
Hypothesis Ht : (1 <= tpc)%nat.
Let T := Zlen prog.
Hypothesis HT : T = Z.of_nat (n * tpc).

Let HL1 : (1 <= L)%nat := proj1 (Barrier.rounds_ok n Hn).
Let HL2 : (n <= 2 ^ L)%nat := proj2 (Barrier.rounds_ok n Hn).

Lemma core_ok t : 0 <= t < T -> (coreOf t < n)%nat /\ (inCore t < tpc)%nat.
Proof. intros H. unfold coreOf, inCore. split; [apply Nat.div_lt_upper_bound; nia|apply Nat.mod_upper_bound; lia]. Qed.
Lemma core_inj t t' : 0 <= t < T -> 0 <= t' < T -> coreOf t = coreOf t' -> inCore t = inCore t' -> t = t'.
Proof.
  intros H H' E1 E2. unfold coreOf, inCore in *. pose proof (Nat.div_mod (Z.to_nat t) tpc ltac:(lia)). pose proof (Nat.div_mod (Z.to_nat t') tpc ltac:(lia)). rewrite E1, E2 in *. lia.
Qed.
Lemma core_onto c u : (c < n)%nat -> (u < tpc)%nat -> exists t, 0 <= t < T /\ coreOf t = c /\ inCore t = u.
Proof.
  intros Hc Hu. exists (Z.of_nat (c * tpc + u)). split; [nia|]. unfold coreOf, inCore. rewrite Nat2Z.id. split.
  - rewrite Nat.div_add_l by lia. rewrite Nat.div_small; lia.
  - rewrite Nat.add_comm, Nat.mod_add by lia. apply Nat.mod_small; auto.
Qed.
Definition ent (s : xst) (t : Z) : Z := Z.of_nat (Barrier.entered (x_bar s) (coreOf t) (inCore t)).
Definition lft (s : xst) (t : Z) : Z := Z.of_nat (Barrier.left (x_bar s) (coreOf t) (inCore t)).

Lemma ent_lft s t : Barrier.reachable n tpc L (x_bar s) -> 0 <= t < T -> lft s t <= ent s t /\ (xpc s t = Barrier.Out -> ent s t = lft s t) /\ (xpc s t <> Barrier.Out -> ent s t = lft s t + 1).
Proof.
  intros R H. destruct (core_ok t H) as (Hc & Hu). pose proof (Barrier.i_loc _ _ _ _ (Barrier.reachable_inv _ _ _ Hn Ht HL1 HL2 _ R) _ Hc) as Hl.
  unfold ent, lft, xpc. destruct (Nat.eq_dec (inCore t) 0) as [Eu|Nu].
  - rewrite Eu. pose proof (Barrier.i_e0 _ _ _ _ _ Hl) as E. unfold Barrier.q in E. destruct (Barrier.pc (x_bar s) (coreOf t) 0); split; try lia; split; intros; try congruence; lia.
  - destruct (Barrier.i_et _ _ _ _ _ Hl (inCore t) ltac:(lia)) as (_ & _ & E). destruct (Barrier.pc (x_bar s) (coreOf t) (inCore t)); split; try lia; split; intros; try congruence; lia.
Qed.
Lemma lft_ent s t t' : Barrier.reachable n tpc L (x_bar s) -> 0 <= t < T -> 0 <= t' < T -> lft s t <= ent s t'.
Proof.
  intros R H H'. destruct (core_ok t H), (core_ok t' H'). unfold lft, ent. pose proof (Barrier.barrier_safe n tpc L Hn Ht HL1 HL2 (x_bar s) (coreOf t) (inCore t) (coreOf t') (inCore t') R). lia.
Qed.

Lemma other_thread s s' t t' b' : Barrier.step n tpc L (coreOf t) (inCore t) (x_bar s) = Some b' -> x_bar s' = b' -> 0 <= t < T -> 0 <= t' < T -> t' <> t ->
  xpc s' t' = xpc s t' /\ ent s' t' = ent s t' /\ lft s' t' = lft s t'.
Proof.
  intros E <- H H' N. destruct (Barrier.only_moves_step n tpc L Hn Ht HL1 HL2 _ _ _ _ E) as (O & _). unfold xpc, ent, lft.
  destruct (O (coreOf t') (inCore t')) as (-> & -> & -> & _); auto.
  destruct (Nat.eq_dec (coreOf t') (coreOf t)) as [E1|]; [|auto]. right. intros E2. apply N. now apply core_inj.
Qed.

(** The number of calls of wait is the number of passes of the loop. *)
Lemma xrun_counts b e0 s0 sched s : quiet b e0 -> (forall t, In t sched -> 0 <= t < T) -> xrun sched (xstart b s0) = Some s ->
  Barrier.reachable n tpc L (x_bar s) /\ forall t, 0 <= t < T -> exists j, get (x_task s) t = Some j /\ ent s t = Z.of_nat e0 + j.
Proof.
  intros (R & Q) Hs. assert (G : forall l s1, (forall t, In t l -> 0 <= t < T) -> xrun l s1 = Some s ->
    Barrier.reachable n tpc L (x_bar s1) /\ (forall t, 0 <= t < T -> exists j, get (x_task s1) t = Some j /\ ent s1 t = Z.of_nat e0 + j) ->
    Barrier.reachable n tpc L (x_bar s) /\ forall t, 0 <= t < T -> exists j, get (x_task s) t = Some j /\ ent s t = Z.of_nat e0 + j).
  { clear Hs. induction l as [|t l IH]; intros s1 Hs E I; [injection E as <-; auto|]. unfold xrun in E. cbn [foldM] in E. destruct (xstep t s1) as [s2|] eqn:E2; [|discriminate].
    apply (IH s2); auto; [intros; apply Hs; now right|]. destruct I as (R1 & J). pose proof (Hs t (or_introl eq_refl)) as H'. destruct (core_ok t H') as (Hc & Hu). unfold xstep in E2.
    assert (B : forall b', xpc s1 t <> Barrier.Out -> Barrier.step n tpc L (coreOf t) (inCore t) (x_bar s1) = Some b' -> forall s2, x_bar s2 = b' -> x_task s2 = x_task s1 ->
      Barrier.reachable n tpc L (x_bar s2) /\ forall t, 0 <= t < T -> exists j, get (x_task s2) t = Some j /\ ent s2 t = Z.of_nat e0 + j).
    { intros b' Hpc Es s3 Eb Ek. split; [rewrite Eb; eapply Barrier.reach_step; eauto|]. intros u Hu'. destruct (J u Hu') as (j & J1 & J2). exists j. rewrite Ek. split; auto. rewrite <- J2. destruct (Z.eq_dec u t) as [->|N].
      - unfold ent. rewrite Eb. destruct (step_counts _ _ _ _ _ _ _ Es) as (C & _). rewrite C. unfold xpc in Hpc. destruct (Barrier.pc (x_bar s1) (coreOf t) (inCore t)); try congruence; lia.
      - apply (other_thread s1 s3 t u b'); auto. }
    destruct (xpc s1 t) eqn:Epc;
      try (destruct (Barrier.step n tpc L (coreOf t) (inCore t) (x_bar s1)) as [b'|] eqn:Es; [|injection E2 as <-; split; assumption]; injection E2 as <-; eapply B; eauto; congruence).
    destruct (J t H') as (j & J1 & J2). rewrite J1 in E2. destruct (get (x_pos s1) t) as [p|]; [|discriminate]. destruct (get prog t) as [tasks|]; [|discriminate].
    destruct (get tasks j) as [acts|]; [|injection E2 as <-; split; assumption]. destruct (get acts p) as [a|].
    - destruct (f a (x_mem s1)) as [m'|]; [|discriminate]. destruct (set (x_pos s1) t (p + 1)) as [ps|]; [|discriminate]. injection E2 as <-. split; auto.
    - destruct (Barrier.step n tpc L (coreOf t) (inCore t) (x_bar s1)) as [b'|] eqn:Es; [|injection E2 as <-; split; assumption].
      destruct (set (x_task s1) t (j + 1)) as [ks|] eqn:Ek; [|discriminate]. destruct (set (x_pos s1) t 0) as [ps|]; [|discriminate]. injection E2 as <-. split; [eapply Barrier.reach_step; eauto|].
      intros u Hu'. destruct (Z.eq_dec u t) as [->|N].
      + exists (j + 1). cbn [x_task]. split; [apply (get_set_same _ _ _ _ Ek)|]. unfold ent in *. cbn [x_bar]. destruct (step_counts _ _ _ _ _ _ _ Es) as (C & _). rewrite C. unfold xpc in Epc. rewrite Epc. lia.
      + destruct (J u Hu') as (i & I1 & I2). exists i. cbn [x_task]. split; [rewrite (get_set_other _ _ _ _ _ Ek); auto|]. rewrite <- I2. apply (other_thread s1 _ t u b'); auto. }
  intros E. apply (G sched _ Hs E). split; [exact R|]. intros t H'. destruct (core_ok t H') as (Hc & Hu). destruct (Q _ _ Hc Hu) as (Q1 & Q2).
  destruct (ent_lft (xstart b s0) t R H') as (_ & X & _). unfold xpc, lft in X. cbn [xstart x_bar] in X. specialize (X Q1). rewrite Q2 in X.
  destruct (get_in_range prog t H') as (p & Ep). exists 0. cbn [xstart x_task]. rewrite get_map, Ep. split; auto. lia.
Qed.
(** Threads with different numbers of tasks never all get behind their loops. *)
Theorem unequal_never b e0 s0 sched s : quiet b e0 -> (forall t, In t sched -> 0 <= t < T) -> xrun sched (xstart b s0) = Some s -> xfinished s ->
  forall t t', 0 <= t < T -> 0 <= t' < T -> Zlen (nthl prog t) = Zlen (nthl prog t').
Proof.
  intros Q Hs E F. destruct (xrun_counts b e0 s0 sched s Q Hs E) as (R & J).
  assert (G : forall t t', 0 <= t < T -> 0 <= t' < T -> Zlen (nthl prog t) <= Zlen (nthl prog t')).
  { intros t t' H' H''. destruct (F t H') as (F1 & F2), (F t' H'') as (_ & F4). destruct (J t H') as (j & J1 & J2), (J t' H'') as (j' & J3 & J4). rewrite F2 in J1. injection J1 as <-. rewrite F4 in J3. injection J3 as <-.
    destruct (ent_lft s t R H') as (_ & X & _). specialize (X F1). pose proof (lft_ent s t t' R H' H''). lia. }
  intros t t' H' H''. pose proof (G t t' H' H''). pose proof (G t' t H'' H'). lia.
Qed.

Variables (K : Z) (e0 : nat) (s0 : S).
Hypothesis HK : forall t, 0 <= t < T -> Zlen (nthl prog t) = K.
Hypothesis Hdef : forall sch, phased sch K s0 <> None.

Definition code (k t : Z) : list A := nthl (nthl prog t) k.
Lemma code_column k t : 0 <= t < T -> get (column k) t = Some (code k t).
Proof. intros H. unfold column, code. rewrite get_map. destruct (get_in_range prog t H) as (p & E). rewrite E. cbn [option_map]. now rewrite (nthl_get _ _ _ E). Qed.
Lemma code_end t : 0 <= t < T -> code K t = [].
Proof. intros H. unfold code, nthl at 1. destruct (get (nthl prog t) K) as [r|] eqn:E; auto. apply get_Some_bounds in E. rewrite HK in E by auto. lia. Qed.
Lemma K_nonneg : 0 <= K.
Proof. rewrite <- (HK 0); [apply Zlen_nonneg|]. rewrite HT. nia. Qed.

Lemma phase_total sch k s1 tr : 0 <= k < K -> phased sch k s0 = Some s1 -> interleave (column k) tr ->
  exists s2, foldM f tr s1 = Some s2 /\ exists sch', phased sch' (k + 1) s0 = Some s2.
Proof.
  intros Hk E1 H. destruct (interleave_merge _ _ H) as (sd & Em). set (sch' := fun j => if j =? k then sd else sch j).
  assert (E2 : phased sch' k s0 = Some s1).
  { rewrite <- E1. unfold phased. apply foldM_ext_in. intros j s Hj. apply In_zrange in Hj. unfold sch'. destruct (Z.eqb_spec j k); [lia|reflexivity]. }
  assert (E3 : phased sch' (k + 1) s0 = foldM f tr s1).
  { unfold phased in *. rewrite zrange_snoc by lia. rewrite foldM_app, E2. cbn [foldM]. unfold par. unfold sch' at 1. rewrite Z.eqb_refl, Em. now destruct (foldM f tr s1). }
  pose proof (Hdef sch') as D. unfold phased in D at 1. rewrite (zrange_app 0 (k + 1) K) in D by lia. rewrite foldM_app in D. fold (phased sch' (k + 1) s0) in D. rewrite E3 in D.
  destruct (foldM f tr s1) as [s2|] eqn:Ef; [|congruence]. exists s2. split; auto. exists sch'. congruence.
Qed.

Definition thread_inv (s : xst) (k : Z) (rests : list (list A)) (t : Z) : Prop :=
  exists j p, get (x_task s) t = Some j /\ get (x_pos s) t = Some p /\ ent s t = Z.of_nat e0 + j /\ k <= j <= k + 1 /\ j <= K /\ lft s t <= Z.of_nat e0 + k /\
    0 <= p <= Zlen (code j t) /\ (xpc s t <> Barrier.Out -> p = 0) /\ get rests t = Some (if j =? k then skipn (Z.to_nat p) (code k t) else []).
Definition xinv (s : xst) : Prop :=
  Barrier.reachable n tpc L (x_bar s) /\ Zlen (x_task s) = T /\ Zlen (x_pos s) = T /\
  exists k sch s1 tr rests, 0 <= k <= K /\ phased sch k s0 = Some s1 /\ foldM f tr s1 = Some (x_mem s) /\
    (forall tr', interleave rests tr' -> interleave (column k) (tr ++ tr')) /\ Zlen rests = T /\ forall t, 0 <= t < T -> thread_inv s k rests t.

Lemma start_inv b : quiet b e0 -> xinv (xstart b s0).
Proof.
  intros (R & Q). split; [exact R|]. split; [cbn; now rewrite Zlen_map|]. split; [cbn; now rewrite Zlen_map|].
  exists 0, (fun _ => []), s0, [], (column 0). pose proof K_nonneg. split; [lia|]. split; [reflexivity|]. split; [reflexivity|]. split; [auto|]. split; [unfold column; now rewrite Zlen_map|].
  intros t H'. destruct (core_ok t H') as (Hc & Hu). destruct (Q _ _ Hc Hu) as (Q1 & Q2).
  destruct (ent_lft (xstart b s0) t R H') as (_ & X & _). unfold xpc, lft in X. cbn [xstart x_bar] in X. specialize (X Q1). rewrite Q2 in X.
  destruct (get_in_range prog t H') as (p & Ep). exists 0, 0. cbn [xstart x_task x_pos]. rewrite !get_map, Ep. cbn [option_map]. split; auto. split; auto. split; [lia|]. split; [lia|]. split; [lia|].
  split; [unfold lft; cbn [xstart x_bar]; rewrite Q2; lia|]. split; [pose proof (Zlen_nonneg (code 0 t)); lia|]. split; auto. cbn [Z.eqb Z.to_nat skipn]. now apply code_column.
Qed.

(** *** The measure *)
Definition BIG : Z := Z.of_nat tpc + 2 * Z.of_nat L + 4.
Definition mu (s : xst) (t : Z) : Z :=
  match get (x_task s) t, get (x_pos s) t with
  | Some j, Some p => zsum (map (fun i => Zlen (code i t) + BIG) (zrange j K)) - p + Z.of_nat (Barrier.rem tpc L (xpc s t))
  | _, _ => 0
  end.
Definition Mu (s : xst) : Z := zsum (map (mu s) (zrange 0 T)).
Lemma mu_lt s s' t : 0 <= t < T -> mu s' t < mu s t -> (forall t', 0 <= t' < T -> t' <> t -> mu s' t' = mu s t') -> Mu s' < Mu s.
Proof.
  intros H Hlt Ho. apply zsum_lt_one with t; auto; [apply In_zrange; lia|]. intros x Hx. apply In_zrange in Hx. destruct (Z.eq_dec x t) as [->|N]; [lia|]. rewrite Ho by auto. lia.
Qed.
Lemma Mu_nonneg s : xinv s -> 0 <= Mu s.
Proof.
  intros (R & L1 & L2 & k & sch & s1 & tr & rests & Hk & _ & _ & _ & _ & TI). apply zsum_map_nonneg. intros t H'. apply In_zrange in H'.
  destruct (TI t H') as (j & p & E1 & E2 & _ & B & B2 & _ & P & _). unfold mu. rewrite E1, E2.
  destruct (Z.eq_dec j K) as [->|N].
  - rewrite zrange_nil by lia. rewrite code_end in P by auto. change (Zlen []) with 0 in P. cbn [map]. change (zsum []) with 0. lia.
  - rewrite zrange_cons by lia. cbn [map]. unfold zsum. cbn [fold_right]. fold (zsum (map (fun i => Zlen (code i t) + BIG) (zrange (j + 1) K))).
    assert (0 <= zsum (map (fun i => Zlen (code i t) + BIG) (zrange (j + 1) K))).
    { apply zsum_map_nonneg. intros i _. pose proof (Zlen_nonneg (code i t)). unfold BIG. lia. }
    unfold BIG in *. lia.
Qed.

(** *** Steps of the barrier *)
Lemma bar_step_inv s t b' j' : xinv s -> 0 <= t < T -> xpc s t <> Barrier.Out ->
  Barrier.step n tpc L (coreOf t) (inCore t) (x_bar s) = Some b' -> j' = mkX b' (x_task s) (x_pos s) (x_mem s) -> xinv j' /\ Mu j' < Mu s.
Proof.
  intros (R & L1 & L2 & k & sch & s1 & tr & rests & Hk & E1 & E2 & HI & LR & TI) H' Hpc Es ->. set (s' := mkX b' (x_task s) (x_pos s) (x_mem s)).
  destruct (core_ok t H') as (Hc & Hu).
  assert (R' : Barrier.reachable n tpc L (x_bar s')) by (eapply Barrier.reach_step; eauto).
  assert (O : forall t', 0 <= t' < T -> t' <> t -> xpc s' t' = xpc s t' /\ ent s' t' = ent s t' /\ lft s' t' = lft s t').
  { intros t' Ht' N. eapply other_thread; eauto. }
  destruct (step_counts _ _ _ _ _ _ _ Es) as (C1 & C2 & C3 & _).
  assert (Ent : forall t', 0 <= t' < T -> ent s' t' = ent s t').
  { intros t' Ht'. destruct (Z.eq_dec t' t) as [->|N]; [|apply (O t' Ht' N)]. unfold ent. cbn [s' x_bar]. rewrite C1. unfold xpc in Hpc. destruct (Barrier.pc (x_bar s) (coreOf t) (inCore t)); try congruence; lia. }
  split.
  2:{ apply mu_lt with t; auto.
      - destruct (TI t H') as (j & p & A1 & A2 & _). unfold mu. cbn [s' x_task x_pos]. rewrite A1, A2.
        pose proof (Barrier.rem_step n tpc L Hn Ht HL1 HL2 (x_bar s) (coreOf t) (inCore t) b' (Barrier.reachable_inv _ _ _ Hn Ht HL1 HL2 _ R) Hc Hu Hpc Es). unfold xpc. cbn [s' x_bar]. lia.
      - intros t' Ht' N. unfold mu. cbn [s' x_task x_pos]. destruct (O t' Ht' N) as (-> & _). reflexivity. }
  split; auto. split; auto. split; auto.
  destruct (Z_le_gt_dec (lft s' t) (Z.of_nat e0 + k)) as [Hle|Hgt].
  - exists k, sch, s1, tr, rests. split; auto. split; auto. split; auto. split; auto. split; auto. intros t' Ht'. destruct (TI t' Ht') as (j & p & A1 & A2 & A3 & A4 & A5 & A6 & A7 & A8 & A9).
    exists j, p. cbn [s' x_task x_pos]. rewrite Ent by auto. split; auto. split; auto. split; auto. split; auto. split; auto. split; [destruct (Z.eq_dec t' t) as [->|N]; auto; destruct (O t' Ht' N) as (_ & _ & ->); auto|].
    split; auto. split; [|auto]. destruct (Z.eq_dec t' t) as [->|N]; [intros _; now apply A8|]. destruct (O t' Ht' N) as (-> & _); auto.
  - (* the first thread leaves the wait of this phase: all have arrived *)
    assert (All : forall t', 0 <= t' < T -> get (x_task s) t' = Some (k + 1) /\ get (x_pos s) t' = Some 0 /\ get rests t' = Some []).
    { intros t' Ht'. destruct (TI t' Ht') as (j & p & A1 & A2 & A3 & A4 & A5 & A6 & A7 & A8 & A9). pose proof (lft_ent s' t t' R' H' Ht') as X. rewrite Ent in X by auto. rewrite A3 in X.
      assert (j = k + 1) by lia. subst j. split; auto. destruct (ent_lft s t' R Ht') as (_ & X1 & _).
      assert (P0 : p = 0). { apply A8. intros Q. specialize (X1 Q). lia. } subst p. split; auto. rewrite A9. destruct (Z.eqb_spec (k + 1) k); [lia|reflexivity]. }
    assert (IL : interleave (column k) tr).
    { rewrite <- (app_nil_r tr). apply HI. constructor. intros r Hr. apply In_get in Hr as (i & Bi & Gi). destruct (All i ltac:(lia)) as (_ & _ & X). congruence. }
    assert (Hk1 : k + 1 <= K). { destruct (TI t H') as (j & p & A1 & _ & _ & _ & A5 & _). destruct (All t H') as (X & _). rewrite X in A1. injection A1 as <-. lia. }
    destruct (phase_total sch k s1 tr ltac:(lia) E1 IL) as (s2 & F1 & sch' & F2). rewrite E2 in F1. injection F1 as <-.
    exists (k + 1), sch', (x_mem s), [], (column (k + 1)). split; [lia|]. split; auto. split; [reflexivity|]. split; [auto|]. split; [unfold column; now rewrite Zlen_map|].
    intros t' Ht'. destruct (All t' Ht') as (B1 & B2 & _). destruct (TI t' Ht') as (j & p & A1 & A2 & A3 & A4 & A5 & A6 & A7 & A8 & A9). rewrite B1 in A1. injection A1 as <-. rewrite B2 in A2. injection A2 as <-.
    exists (k + 1), 0. cbn [s' x_task x_pos]. split; auto. split; auto. rewrite Ent by auto. split; auto. split; [lia|]. split; auto.
    split; [destruct (ent_lft s' t' R' Ht') as (Y & _); rewrite Ent in Y by auto; lia|]. split; [pose proof (Zlen_nonneg (code (k + 1) t')); lia|]. split; auto.
    rewrite Z.eqb_refl. cbn [Z.to_nat skipn]. now apply code_column.
Qed.

Lemma xstep_inv s t : xinv s -> 0 <= t < T -> exists s', xstep t s = Some s' /\ xinv s' /\ (Mu s' < Mu s \/ s' = s).
Proof.
  intros I H'. assert (I0 := I). destruct I as (R & L1 & L2 & k & sch & s1 & tr & rests & Hk & E1 & E2 & HI & LR & TI). unfold xstep. destruct (core_ok t H') as (Hc & Hu).
  destruct (xpc s t) eqn:Epc;
    try (destruct (Barrier.step n tpc L (coreOf t) (inCore t) (x_bar s)) as [b'|] eqn:Es; [|exists s; auto];
         destruct (bar_step_inv s t b' _ I0 H' ltac:(congruence) Es eq_refl) as (I' & M'); eexists; split; [reflexivity|]; split; [exact I'|left; exact M']).
  destruct (TI t H') as (j & p & A1 & A2 & A3 & A4 & A5 & A6 & A7 & A8 & A9). rewrite A1, A2. destruct (get_in_range prog t H') as (tasks & Et). rewrite Et.
  destruct (ent_lft s t R H') as (_ & X1 & _). specialize (X1 Epc). assert (j = k) by lia. subst j. rewrite Z.eqb_refl in A9.
  assert (Ec : code k t = nthl tasks k) by (unfold code; now rewrite (nthl_get _ _ _ Et)).
  destruct (get tasks k) as [acts|] eqn:Ek; [|exists s; auto]. rewrite (nthl_get _ _ _ Ek) in Ec.
  assert (Hk2 : k < K). { apply get_Some_bounds in Ek. pose proof (HK t H') as X. rewrite (nthl_get _ _ _ Et) in X. lia. }
  destruct (get acts p) as [a|] eqn:Ea.
  - (* an action of the task *)
    pose proof (get_Some_bounds _ _ _ Ea) as Bp.
    assert (Esk : skipn (Z.to_nat p) (code k t) = a :: skipn (Z.to_nat (p + 1)) (code k t)).
    { rewrite Ec. unfold get in Ea. destruct (Z.ltb_spec p 0); [lia|]. replace (Z.to_nat (p + 1)) with (Datatypes.S (Z.to_nat p)) by lia. revert Ea. generalize (Z.to_nat p). clear. intros i. revert acts. induction i as [|i IH]; intros [|b l] E; cbn in E; try discriminate; [now injection E as ->|]. cbn [skipn]. now apply IH. }
    rewrite Esk in A9. set (q := skipn (Z.to_nat (p + 1)) (code k t)) in *.
    assert (Ers : exists r1 r2, rests = r1 ++ (a :: q) :: r2 /\ Zlen r1 = t).
    { unfold get in A9. destruct (Z.ltb_spec t 0); [lia|]. apply nth_error_split in A9 as (r1 & r2 & -> & Q). exists r1, r2. split; auto. unfold Zlen. lia. }
    destruct Ers as (r1 & r2 & -> & Lr1).
    assert (HI' : forall tr', interleave (r1 ++ q :: r2) tr' -> interleave (column k) ((tr ++ [a]) ++ tr')).
    { intros tr' Hi. rewrite <- app_assoc. apply HI. cbn [app]. now constructor. }
    destruct (phase_total sch k s1 _ ltac:(lia) E1 (HI' _ (interleave_concat _))) as (s2 & F1 & _).
    rewrite !foldM_app, E2 in F1. cbn [foldM] in F1. destruct (f a (x_mem s)) as [m'|] eqn:Ef; [|discriminate].
    destruct (set_ok (x_pos s) t (p + 1)) as (ps & Eps); [lia|]. rewrite Eps. set (s' := mkX (x_bar s) (x_task s) ps m').
    assert (Gps : forall t', t' <> t -> get ps t' = get (x_pos s) t') by (intros t' N; apply (get_set_other _ _ _ _ _ Eps); auto).
    exists s'. split; auto. split.
    + split; auto. split; auto. split; [cbn [s' x_pos]; now rewrite (set_len _ _ _ _ Eps)|].
      exists k, sch, s1, (tr ++ [a]), (r1 ++ q :: r2). split; [lia|]. split; auto. split; [rewrite foldM_app, E2; cbn [foldM]; now rewrite Ef|]. split; auto.
      split; [rewrite Zlen_app, Zlen_cons in *; lia|]. intros t' Ht'. destruct (Z.eq_dec t' t) as [->|N].
      * exists k, (p + 1). cbn [s' x_task x_pos]. rewrite (get_set_same _ _ _ _ Eps). split; auto. split; auto. split; auto. split; [lia|]. split; [lia|]. split; auto. split; [rewrite Ec; lia|].
        split; [intros Q; exfalso; apply Q; exact Epc|]. rewrite Z.eqb_refl. rewrite get_app_r by lia. replace (t - Zlen r1) with 0 by lia. reflexivity.
      * destruct (TI t' Ht') as (j & p' & B1 & B2 & B3 & B4 & B5 & B6 & B7 & B8 & B9). exists j, p'. cbn [s' x_task x_pos]. rewrite Gps by auto. split; auto. split; auto. split; auto. split; auto. split; auto. split; auto. split; auto. split; auto.
        rewrite <- B9. destruct (Z_lt_le_dec t' t); [now rewrite !get_app_l by lia|]. rewrite !get_app_r by lia. now rewrite !get_cons_pos by lia.
    + left. apply mu_lt with t; auto.
      * unfold mu. cbn [s' x_task x_pos]. rewrite A1, A2, (get_set_same _ _ _ _ Eps). change (xpc s' t) with (xpc s t). lia.
      * intros t' Ht' N. unfold mu. cbn [s' x_task x_pos]. rewrite Gps by auto. reflexivity.
  - (* the call of wait *)
    assert (Ep : p = Zlen (code k t)). { rewrite Ec in *. destruct (Z.eq_dec p (Zlen acts)); auto. destruct (get_in_range acts p) as (x & Ex); [lia|congruence]. }
    destruct (Barrier.step n tpc L (coreOf t) (inCore t) (x_bar s)) as [b'|] eqn:Es; [|exists s; auto].
    destruct (set_ok (x_task s) t (k + 1)) as (ks & Eks); [lia|]. rewrite Eks. destruct (set_ok (x_pos s) t 0) as (ps & Eps); [lia|]. rewrite Eps. set (s' := mkX b' ks ps (x_mem s)).
    assert (Gks : forall t', t' <> t -> get ks t' = get (x_task s) t') by (intros t' N; apply (get_set_other _ _ _ _ _ Eks); auto).
    assert (Gps : forall t', t' <> t -> get ps t' = get (x_pos s) t') by (intros t' N; apply (get_set_other _ _ _ _ _ Eps); auto).
    assert (O : forall t', 0 <= t' < T -> t' <> t -> xpc s' t' = xpc s t' /\ ent s' t' = ent s t' /\ lft s' t' = lft s t').
    { intros t' Ht' N. eapply other_thread; eauto. }
    destruct (step_counts _ _ _ _ _ _ _ Es) as (C1 & _ & _ & C4). unfold xpc in Epc. rewrite Epc in C1. destruct (C4 Epc) as (C5 & C6).
    exists s'. split; auto. split.
    + split; [eapply Barrier.reach_step; eauto|]. split; [cbn [s' x_task]; now rewrite (set_len _ _ _ _ Eks)|]. split; [cbn [s' x_pos]; now rewrite (set_len _ _ _ _ Eps)|].
      exists k, sch, s1, tr, rests. split; [lia|]. split; auto. split; auto. split; auto. split; auto. intros t' Ht'. destruct (Z.eq_dec t' t) as [->|N].
      * exists (k + 1), 0. cbn [s' x_task x_pos]. rewrite (get_set_same _ _ _ _ Eks), (get_set_same _ _ _ _ Eps). split; auto. split; auto. split; [unfold ent in *; cbn [s' x_bar]; rewrite C1; lia|]. split; [lia|]. split; [lia|].
        split; [unfold lft in *; cbn [s' x_bar]; rewrite C5; lia|]. split; [pose proof (Zlen_nonneg (code (k + 1) t)); lia|]. split; auto.
        destruct (Z.eqb_spec (k + 1) k); [lia|]. rewrite A9. f_equal. apply skipn_all2. unfold Zlen in Ep. lia.
      * destruct (TI t' Ht') as (j & p' & B1 & B2 & B3 & B4 & B5 & B6 & B7 & B8 & B9). destruct (O t' Ht' N) as (O1 & O2 & O3). exists j, p'. cbn [s' x_task x_pos]. rewrite Gps, Gks, O1, O2, O3 by auto. repeat (split; auto).
    + left. apply mu_lt with t; auto.
      * unfold mu. cbn [s' x_task x_pos]. rewrite A1, A2, (get_set_same _ _ _ _ Eks), (get_set_same _ _ _ _ Eps). rewrite (zrange_cons k K) by lia. cbn [map]. unfold zsum at 2. cbn [fold_right]. fold (zsum (map (fun i => Zlen (code i t) + BIG) (zrange (k + 1) K))).
        assert (RB : Z.of_nat (Barrier.rem tpc L (xpc s' t)) < BIG).
        { unfold xpc. cbn [s' x_bar]. unfold BIG. destruct C6 as [-> | ->]; cbn [Barrier.rem]; lia. }
        lia.
      * intros t' Ht' N. unfold mu. cbn [s' x_task x_pos]. rewrite Gps, Gks by auto. destruct (O t' Ht' N) as (-> & _). reflexivity.
Qed.

(** *** The end, and that it is reached *)
Lemma finished_inv s : xinv s -> xfinished s -> (exists sch, phased sch K s0 = Some (x_mem s)) /\ quiet (x_bar s) (e0 + Z.to_nat K).
Proof.
  intros (R & L1 & L2 & k & sch & s1 & tr & rests & Hk & E1 & E2 & HI & LR & TI) F. assert (H0 : 0 <= 0 < T) by nia.
  assert (Fin : forall t, 0 <= t < T -> get (x_task s) t = Some K /\ xpc s t = Barrier.Out /\ lft s t = Z.of_nat e0 + K).
  { intros t H'. destruct (F t H') as (F1 & F2). rewrite HK in F2 by auto. split; auto. split; auto. destruct (TI t H') as (j & p & A1 & _ & A3 & _). rewrite F2 in A1. injection A1 as <-. destruct (ent_lft s t R H') as (_ & X & _). specialize (X F1). lia. }
  assert (k = K). { destruct (Fin 0 H0) as (B0 & _ & B). destruct (TI 0 H0) as (j & p & A1 & _ & _ & _ & _ & A6 & _). lia. } subst k.
  assert (tr = []).
  { assert (IL : interleave (column K) tr).
    { rewrite <- (app_nil_r tr). apply HI. constructor. intros r Hr. apply In_get in Hr as (i & Bi & Gi). destruct (TI i ltac:(lia)) as (j & p & A1 & A2 & A3 & A4 & A5 & A6 & A7 & A8 & A9).
      destruct (Fin i ltac:(lia)) as (B & _). rewrite B in A1. injection A1 as <-. rewrite Z.eqb_refl, code_end, skipn_nil in A9 by lia. congruence. }
    apply interleave_perm in IL. replace (concat (column K)) with (@nil A) in IL; [symmetry in IL; now apply Permutation_nil in IL|]. symmetry. unfold column. assert (Q : forall tasks, In tasks prog -> nthl tasks K = []).
    { intros tasks Hin. apply In_get in Hin as (i & Bi & Gi). rewrite <- (code_end i Bi). unfold code. now rewrite (nthl_get _ _ _ Gi). }
    clear -Q. induction prog as [|x l IH]; auto. cbn [map concat]. rewrite Q by now left. cbn [app]. apply IH. intros; apply Q; now right. }
  subst tr. cbn [foldM] in E2. injection E2 as <-. split; [eauto|]. split; auto. intros c u Hc Hu. destruct (core_onto c u Hc Hu) as (t & H' & <- & <-). destruct (Fin t H') as (_ & B & C). split; auto. unfold lft in C. pose proof K_nonneg. lia.
Qed.

Lemma out_moves s t : xinv s -> 0 <= t < T -> xpc s t = Barrier.Out -> get (x_task s) t <> Some K -> forall s', xstep t s = Some s' -> Mu s' < Mu s.
Proof.
  intros I H' Epc Nk s' E. destruct (xstep_inv s t I H') as (s2 & E2 & _ & [M|M]); rewrite E in E2; injection E2 as <-; auto. subst s'. exfalso.
  destruct I as (R & L1 & L2 & k & sch & s1 & tr & rests & Hk & _ & _ & _ & _ & TI). destruct (TI t H') as (j & p & A1 & A2 & A3 & A4 & A5 & _).
  unfold xstep in E. rewrite Epc, A1, A2 in E. destruct (get_in_range prog t H') as (tasks & Et). rewrite Et in E. pose proof (HK t H') as LK. rewrite (nthl_get _ _ _ Et) in LK.
  destruct (get_in_range tasks j) as (acts & Ej). { split; [lia|]. assert (j <> K) by congruence. lia. } rewrite Ej in E.
  destruct (get acts p) as [a|].
  - destruct (f a (x_mem s)) as [m'|]; [|discriminate]. destruct (set (x_pos s) t (p + 1)) as [ps|] eqn:Es; [|discriminate]. injection E as E. apply (f_equal x_pos) in E. cbn [x_pos] in E. pose proof (get_set_same _ _ _ _ Es) as X. rewrite E, A2 in X. injection X as X. lia.
  - unfold Barrier.step in E. unfold xpc in Epc. rewrite Epc in E. destruct (set (x_task s) t (j + 1)) as [ks|] eqn:Es; [|discriminate]. destruct (set (x_pos s) t 0) as [ps|]; [|discriminate].
    injection E as E. apply (f_equal x_task) in E. cbn [x_task] in E. pose proof (get_set_same _ _ _ _ Es) as X. rewrite E, A1 in X. injection X as X. lia.
Qed.

Definition is_out (p : Barrier.pcT) : bool := match p with Barrier.Out => true | _ => false end.
Lemma xprogress s : xinv s -> xfinished s \/ exists t, 0 <= t < T /\ forall s', xstep t s = Some s' -> Mu s' < Mu s.
Proof.
  intros I. assert (I0 := I). destruct I as (R & L1 & L2 & k & sch & s1 & tr & rests & Hk & _ & _ & _ & _ & TI).
  destruct (min_by (fun t => ent s t) (fun t => negb (is_out (xpc s t))) (zrange 0 T)) as [H|(t & Hin & Hpc & Hmin)].
  - (* nobody is inside wait *)
    assert (Out : forall t, 0 <= t < T -> xpc s t = Barrier.Out). { intros t H'. specialize (H t (proj2 (In_zrange _ _ _) H')). destruct (xpc s t); cbn in H; congruence. }
    destruct (min_by (fun t => 0) (fun t => match get (x_task s) t with Some j => negb (j =? K) | None => true end) (zrange 0 T)) as [H2|(t & Hin & Hj & _)].
    + left. intros t H'. split; auto. specialize (H2 t (proj2 (In_zrange _ _ _) H')). rewrite HK by auto. destruct (get (x_task s) t) as [j|]; [|discriminate]. destruct (Z.eqb_spec j K); cbn in H2; congruence.
    + right. exists t. apply In_zrange in Hin. split; auto. apply out_moves; auto. intros E. rewrite E, Z.eqb_refl in Hj. discriminate.
  - right. apply In_zrange in Hin. assert (Hne : xpc s t <> Barrier.Out) by (intros E; rewrite E in Hpc; discriminate).
    destruct (min_by (fun t => 0) (fun u => is_out (xpc s u) && match get (x_task s) u with Some j => negb (j =? K) | None => true end) (zrange 0 T)) as [H2|(u & Hu & Hj & _)].
    + assert (All : forall u, 0 <= u < T -> ent s t <= ent s u).
      { intros u Hu. destruct (is_out (xpc s u)) eqn:Eo.
        - specialize (H2 u (proj2 (In_zrange _ _ _) Hu)). rewrite Eo in H2. cbn [andb] in H2. destruct (TI u Hu) as (j & p & A1 & _ & A3 & _). rewrite A1 in H2. destruct (Z.eqb_spec j K); [|discriminate]. subst j.
          destruct (TI t Hin) as (j & p' & _ & _ & B3 & _ & B5 & _). lia.
        - apply Hmin; [now apply In_zrange|now rewrite Eo]. }
      destruct (core_ok t Hin) as (Hc & Hu).
      destruct (Barrier.barrier_progress n tpc L Hn Ht HL1 HL2 (x_bar s) (coreOf t) (inCore t) R Hc Hu Hne) as (c' & u' & Hc' & Hu' & M1 & M2).
      { intros c' u' Hc' Hu'. destruct (core_onto c' u' Hc' Hu') as (u & Bu & <- & <-). specialize (All u Bu). unfold ent in All. lia. }
      destruct (core_onto c' u' Hc' Hu') as (u & Bu & <- & <-). exists u. split; auto. intros s' E. destruct (Barrier.step n tpc L (coreOf u) (inCore u) (x_bar s)) as [b'|] eqn:Es; [|congruence].
      assert (Es' : s' = mkX b' (x_task s) (x_pos s) (x_mem s)). { unfold xstep in E. fold (xpc s u) in M1. rewrite Es in E. destruct (xpc s u); congruence. }
      apply (bar_step_inv s u b' s'); auto.
    + exists u. apply In_zrange in Hu. split; auto. apply andb_prop in Hj as (J1 & J2). apply out_moves; auto; [destruct (xpc s u); cbn in J1; congruence|]. intros E. rewrite E, Z.eqb_refl in J2. discriminate.
Qed.

Lemma xrun_inv sched s : (forall t, In t sched -> 0 <= t < T) -> xinv s -> exists s', xrun sched s = Some s' /\ xinv s'.
Proof.
  revert s. induction sched as [|t l IH]; intros s Hs I; [exists s; auto|]. destruct (xstep_inv s t I (Hs t (or_introl eq_refl))) as (s1 & E1 & I1 & _). unfold xrun in *. cbn [foldM]. rewrite E1. apply IH; auto. intros; apply Hs; now right.
Qed.

(** Every execution is defined and not stuck before its end; at the end the memory
    is one that the phases can give, and the barrier is free for the next use; a
    fair execution ends. *)
Theorem wait_refines b : quiet b e0 ->
  (forall sched, (forall t, In t sched -> 0 <= t < T) -> exists s, xrun sched (xstart b s0) = Some s /\
     (xfinished s -> (exists sch, phased sch K s0 = Some (x_mem s)) /\ quiet (x_bar s) (e0 + Z.to_nat K)) /\
     (xfinished s \/ exists t s', 0 <= t < T /\ xstep t s = Some s' /\ s' <> s)) /\
  (forall g, fair T g -> exists N s, xrun (map g (seq 0 N)) (xstart b s0) = Some s /\ xfinished s).
Proof.
  intros Q. pose proof (start_inv b Q) as I. split.
  - intros sched Hs. destruct (xrun_inv sched _ Hs I) as (s & E & Is). exists s. split; auto. split; [now apply finished_inv|]. destruct (xprogress s Is) as [F|(t & H' & M)]; auto. right.
    destruct (xstep_inv s t Is H') as (s' & E' & _). exists t, s'. split; auto. split; auto. intros ->. specialize (M _ E'). lia.
  - intros g (G1 & G2). destruct (fair_reach xstep xinv Mu xfinished T Mu_nonneg) with (f := g) (b := Mu (xstart b s0) + 1) (s := xstart b s0) (k0 := 0%nat) as (N & s & E & _ & F); auto.
    + intros s t Is H'. destruct (xstep_inv s t Is H') as (s' & A1 & A2 & A3). eauto.
    + intros s Is. apply xprogress; auto.
    + lia.
    + exists N, s. auto.
Qed.
End Machine.

(** ** The sweeps *)
Section Sweeps.
Context {V L O : Type}.
Variables (exec : O -> L -> list V -> option (L * list V)) (l0 : L) (ops : Z -> list O).
(** The rows of the tasks of each thread in the order of the loop over the tasks;
    the steps of a row are those of Kernels.v.  The boundaries are read before
    the sweep starts, which never writes them. *)
Definition wait_task (fwd : bool) (S : schedule) (rowof : Z -> option Z) (t q : Z) : option (list (Z * instr)) :=
  rs <- task_rows fwd S rowof q ;; Some (map (pair t) (rowcode ops rs)).
Definition wait_thread (fwd : bool) (S : schedule) (rowof : Z -> option Z) (t : Z) : option (list (list (Z * instr))) :=
  b <- get (threadBoundaries S) t ;; e <- get (threadBoundaries S) (t + 1) ;; mapM (wait_task fwd S rowof t) (dirZ fwd b e).
Definition wait_prog (fwd : bool) (S : schedule) (rowof : Z -> option Z) (T : Z) : option (list (list (list (Z * instr)))) :=
  mapM (wait_thread fwd S rowof) (zrange 0 T).

(** What it means that a sweep by [n * tpc] threads, which meet at a barrier in use
    by nobody else, computes [fin]. *)
Definition wait_computes (fwd : bool) (S : schedule) (rowof : Z -> option Z) (n tpc : nat) (y fin : list V) : Prop :=
  let T := Z.of_nat (n * tpc) in
  forall b e locs, quiet n tpc b e -> Zlen locs = T ->
  exists prog K, wait_prog fwd S rowof T = Some prog /\ Zlen prog = T /\
  (forall sched, (forall t, In t sched -> 0 <= t < T) -> exists s, xrun (pstep exec l0 ops) n tpc prog sched (xstart prog b (locs, y)) = Some s /\
     (xfinished tpc prog s -> snd (x_mem s) = fin /\ quiet n tpc (x_bar s) (e + K)) /\
     (xfinished tpc prog s \/ exists t s', 0 <= t < T /\ xstep (pstep exec l0 ops) n tpc prog t s = Some s' /\ s' <> s)) /\
  (forall g, fair T g -> exists N s, xrun (pstep exec l0 ops) n tpc prog (map g (seq 0 N)) (xstart prog b (locs, y)) = Some s /\ xfinished tpc prog s).

Lemma get_dirZ fwd b e k : 0 <= k < e - b -> get (dirZ fwd b e) k = Some (if fwd then b + k else e - 1 - k).
Proof.
  intros H. unfold dirZ. destruct fwd; [now rewrite get_zrange by lia|].
  rewrite Rcm.get_rev by (rewrite Zlen_zrange; lia). rewrite Zlen_zrange, get_zrange by lia. f_equal. lia.
Qed.
Lemma Zlen_dirZ fwd b e : Zlen (dirZ fwd b e) = Z.max 0 (e - b).
Proof. unfold dirZ. destruct fwd; rewrite ?Zlen_rev, Zlen_zrange; lia. Qed.

Theorem wait_ok fwd S rowof n tpc y fin : (1 <= n)%nat -> (1 <= tpc)%nat ->
  barrier_computes exec l0 ops fwd S rowof (Z.of_nat (n * tpc)) y fin -> wait_computes fwd S rowof n tpc y fin.
Proof.
  intros Hn Ht HB. unfold wait_computes. set (T := Z.of_nat (n * tpc)) in *. intros b e locs HQ HL.
  assert (HT1 : 1 <= T) by (unfold T; nia).
  destruct (HB (fun _ => []) locs HL) as (locs1 & E1). unfold barrier_run in E1. destruct (nlevels S T) as [K|] eqn:EK; [|discriminate].
  assert (TB : forall t, 0 <= t < T -> exists lo hi, get (threadBoundaries S) t = Some lo /\ get (threadBoundaries S) (t + 1) = Some hi /\ hi - lo = K).
  { unfold nlevels in EK. destruct (get (threadBoundaries S) 0) as [b0|]; [|discriminate]. destruct (get (threadBoundaries S) 1) as [h0|]; [|discriminate].
    destruct (mapM _ (zrange 0 T)) as [us|] eqn:Em; [|discriminate]. injection EK as <-. intros t H'.
    pose proof (mapM_get _ _ _ t t Em ltac:(rewrite get_zrange by lia; f_equal; lia)) as G. destruct (get_in_range us t) as (u & Eu).
    { rewrite (mapM_Zlen _ _ _ Em), Zlen_zrange. lia. }
    rewrite Eu in G. destruct (get (threadBoundaries S) t) as [lo|]; [|discriminate]. destruct (get (threadBoundaries S) (t + 1)) as [hi|]; [|discriminate]. exists lo, hi. split; auto. split; auto.
    destruct (Z.eqb_spec (hi - lo) (h0 - b0)); [auto|discriminate]. }
  assert (RS : forall k, 0 <= k < K -> exists rs, bar_rows fwd S rowof T k = Some rs).
  { intros k Hk. destruct (bar_rows fwd S rowof T k) as [rs|] eqn:Er; [eauto|]. exfalso. rewrite (SpMV.foldM_fail _ k) in E1; [discriminate|now apply In_zrange|]. intros s. now rewrite Er. }
  assert (TR : forall k rs t lo hi, 0 <= k < K -> 0 <= t < T -> bar_rows fwd S rowof T k = Some rs -> get (threadBoundaries S) t = Some lo -> get (threadBoundaries S) (t + 1) = Some hi ->
    exists r, task_rows fwd S rowof (if fwd then lo + k else hi - 1 - k) = Some r /\ get rs t = Some r).
  { intros k rs t lo hi Hk H' Er Gl Gh. unfold bar_rows in Er. pose proof (mapM_get _ _ _ t t Er ltac:(rewrite get_zrange by lia; f_equal; lia)) as G. unfold bar_task in G. rewrite Gl, Gh in G.
    destruct (get_in_range rs t) as (r & Eg). { rewrite (mapM_Zlen _ _ _ Er), Zlen_zrange. lia. } exists r. split; congruence. }
  assert (TH : forall t, 0 <= t < T -> exists tasks, wait_thread fwd S rowof t = Some tasks /\ Zlen tasks = Z.max 0 K /\
    forall k rs, 0 <= k < K -> bar_rows fwd S rowof T k = Some rs -> get tasks k = Some (map (pair t) (rowcode ops (nthl rs t)))).
  { intros t H'. destruct (TB t H') as (lo & hi & Gl & Gh & EK'). unfold wait_thread. rewrite Gl, Gh. destruct (mapM_def (wait_task fwd S rowof t) (dirZ fwd lo hi)) as (tasks & Et).
    - intros q Hq. apply In_dirZ in Hq. set (k := if fwd then q - lo else hi - 1 - q). assert (Hk : 0 <= k < K) by (unfold k; destruct fwd; lia). destruct (RS k Hk) as (rs & Er).
      destruct (TR k rs t lo hi Hk H' Er Gl Gh) as (r & Q1 & _). unfold wait_task. replace (if fwd then lo + k else hi - 1 - k) with q in Q1 by (unfold k; destruct fwd; lia). rewrite Q1. eauto.
    - rewrite Et. exists tasks. split; auto. split; [rewrite (mapM_Zlen _ _ _ Et), Zlen_dirZ; lia|]. intros k rs Hk Er. destruct (TR k rs t lo hi Hk H' Er Gl Gh) as (r & Q1 & Q2).
      rewrite (mapM_get _ _ _ k _ Et (get_dirZ fwd lo hi k ltac:(lia))). unfold wait_task. rewrite Q1. now rewrite (nthl_get _ _ _ Q2). }
  destruct (mapM_def (wait_thread fwd S rowof) (zrange 0 T)) as (prog & Ep). { intros t Hin. apply In_zrange in Hin. destruct (TH t Hin) as (tasks & X & _). eauto. }
  assert (LP : Zlen prog = T) by (rewrite (mapM_Zlen _ _ _ Ep), Zlen_zrange; lia).
  assert (GP : forall t, 0 <= t < T -> exists tasks, get prog t = Some tasks /\ Zlen tasks = Z.max 0 K /\ forall k rs, 0 <= k < K -> bar_rows fwd S rowof T k = Some rs -> get tasks k = Some (map (pair t) (rowcode ops (nthl rs t)))).
  { intros t H'. destruct (TH t H') as (tasks & X & Y). exists tasks. split; auto. rewrite <- X. apply (mapM_get _ _ _ t t Ep). now rewrite get_zrange by lia. }
  assert (CP : forall k rs, 0 <= k < K -> bar_rows fwd S rowof T k = Some rs -> column prog k = phase_threads ops rs).
  { intros k rs Hk Er. assert (Lr : Zlen rs = T) by (unfold bar_rows in Er; rewrite (mapM_Zlen _ _ _ Er), Zlen_zrange; lia). unfold column, phase_threads. apply list_ext; [rewrite !Zlen_map, Zlen_zrange; lia|]. intros t _.
    rewrite !get_map. destruct (Z_lt_le_dec t 0); [rewrite !get_out by lia; reflexivity|]. destruct (Z_lt_le_dec t T); [|rewrite !get_out; [reflexivity| |]; rewrite ?Zlen_zrange; lia].
    destruct (GP t ltac:(lia)) as (tasks & X & _ & Z'). rewrite X, get_zrange by lia. cbn [option_map]. rewrite (nthl_get _ _ _ (Z' k rs Hk Er)). repeat f_equal; lia. }
  assert (PH : forall sch, phased (pstep exec l0 ops) prog sch (Z.max 0 K) (locs, y) = barrier_run exec l0 ops fwd S rowof T sch locs y).
  { intros sch. unfold phased, barrier_run. rewrite EK. replace (zrange 0 (Z.max 0 K)) with (zrange 0 K); [|destruct (Z_le_gt_dec 0 K); [f_equal; lia|now rewrite !zrange_nil by lia]].
    apply foldM_ext_in. intros k s Hk. apply In_zrange in Hk. destruct (RS k Hk) as (rs & Er). rewrite Er. unfold phase. now rewrite (CP k rs Hk Er). }
  exists prog, (Z.to_nat (Z.max 0 K)). split; [exact Ep|]. split; auto.
  destruct (wait_refines (pstep exec l0 ops) n tpc prog Hn Ht LP (Z.max 0 K) e (locs, y)) with (b := b) as (W1 & W2); auto.
  - intros t H'. rewrite LP in H'. destruct (GP t H') as (tasks & X & Y & _). now rewrite (nthl_get _ _ _ X).
  - intros sch. rewrite PH. destruct (HB sch locs HL) as (l' & ->). discriminate.
  - rewrite LP in W1, W2. split; [|exact W2]. intros sched Hs. destruct (W1 sched Hs) as (s & A1 & A2 & A3). exists s. split; auto. split; auto.
    intros F. destruct (A2 F) as ((sch & B1) & B2). split; auto. rewrite PH in B1. destruct (HB sch locs HL) as (l' & B3). rewrite B3 in B1. injection B1 as <-. reflexivity.
Qed.
End Sweeps.
