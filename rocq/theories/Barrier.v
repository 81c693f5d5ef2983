(** * The dissemination barrier (/repo/synk/barrier.cpp:189-274).

    Interleaving semantics at the granularity of single shared-memory accesses
    (sequential consistency).  A thread is a pair (core, thread in core); the
    code computes them from [tid] in /repo/synk/barrier.cpp:133-134.  The
    number of cores [n], the threads per core [tpc] and the number of rounds
    [L] are parameters. *)
From Coq Require Import List Arith Lia Bool PeanoNat.
Import ListNotations.

(** Program counters inside [wait]. *)
Inductive pcT :=
| Out                (* not inside wait *)
| WThr (i : nat)     (* line 210-213, waiting for thread i of the core *)
| Send (r : nat)     (* line 237 / 247, about to set the partner flag of round r *)
| Recv (r : nat)     (* line 241 / 249, spinning on the own flag of round r *)
| Adj                (* lines 253-254 *)
| Wake               (* line 258 *)
| WCore.             (* line 271, spinning on coreSense *)

(** Shared memory, program counters, and two ghost counters per thread:
    how many calls of wait it has entered and left. *)
Record state := mkState {
  tsense : nat -> nat -> bool;            (* threadSenses[t] of core c *)
  csense : nat -> bool;                   (* coreSense *)
  flag   : nat -> bool -> nat -> bool;    (* myFlags[parity][round] *)
  par    : nat -> bool;                   (* parity *)
  sns    : nat -> bool;                   (* sense *)
  pc     : nat -> nat -> pcT;
  entered : nat -> nat -> nat;
  left    : nat -> nat -> nat
}.

Definition upd1 {A} (f : nat -> A) (c : nat) (v : A) : nat -> A :=
  fun x => if x =? c then v else f x.
Definition upd2 {A} (f : nat -> nat -> A) (c t : nat) (v : A) : nat -> nat -> A :=
  fun x y => if (x =? c) && (y =? t) then v else f x y.
Definition updf (f : nat -> bool -> nat -> bool) (c : nat) (p : bool) (r : nat) (v : bool) :=
  fun x q y => if (x =? c) && Bool.eqb q p && (y =? r) then v else f x q y.

Lemma upd2_same {A} (f : nat -> nat -> A) c t v : upd2 f c t v c t = v.
Proof. unfold upd2. now rewrite !Nat.eqb_refl. Qed.
Lemma upd2_other {A} (f : nat -> nat -> A) c t v x y :
  x <> c \/ y <> t -> upd2 f c t v x y = f x y.
Proof.
  intros H. unfold upd2. destruct (Nat.eqb_spec x c), (Nat.eqb_spec y t); cbn; auto; lia.
Qed.
Lemma upd1_same {A} (f : nat -> A) c v : upd1 f c v c = v.
Proof. unfold upd1. now rewrite Nat.eqb_refl. Qed.
Lemma upd1_other {A} (f : nat -> A) c v x : x <> c -> upd1 f c v x = f x.
Proof. intros H. unfold upd1. destruct (Nat.eqb_spec x c); auto; lia. Qed.

Section Barrier.
Variables n tpc L : nat.

(** /repo/synk/barrier.cpp:173: partner of core [c] in round [r]. *)
Definition partner (c r : nat) : nat := (c + 2 ^ r) mod n.

(** One atomic step of thread [t] of core [c]; [None] when it is spinning.
    The loop over rounds 0..L-2 (line 227) followed by the unrolled last round
    (lines 247-250) is the loop over rounds 0..L-1 (L >= 1). *)
Definition step (c t : nat) (s : state) : option state :=
  match pc s c t with
  | Out =>            (* line 204, then branch of line 207 *)
      Some (mkState (upd2 (tsense s) c t (negb (tsense s c t))) (csense s) (flag s)
              (par s) (sns s)
              (upd2 (pc s) c t (if t =? 0 then WThr 1 else WCore))
              (upd2 (entered s) c t (S (entered s c t))) (left s))
  | WThr i =>         (* lines 210-216 *)
      if i <? tpc then
        if Bool.eqb (tsense s c i) (csense s c) then None
        else Some (mkState (tsense s) (csense s) (flag s) (par s) (sns s)
                     (upd2 (pc s) c t (WThr (S i))) (entered s) (left s))
      else Some (mkState (tsense s) (csense s) (flag s) (par s) (sns s)
                   (upd2 (pc s) c t (if 1 <? n then Send 0 else Wake)) (entered s) (left s))
  | Send r =>         (* lines 237, 247 *)
      Some (mkState (tsense s) (csense s)
              (updf (flag s) (partner c r) (par s c) r (sns s c)) (par s) (sns s)
              (upd2 (pc s) c t (Recv r)) (entered s) (left s))
  | Recv r =>         (* lines 241, 249 *)
      if Bool.eqb (flag s c (par s c) r) (sns s c) then
        Some (mkState (tsense s) (csense s) (flag s) (par s) (sns s)
                (upd2 (pc s) c t (if S r <? L then Send (S r) else Adj)) (entered s) (left s))
      else None
  | Adj =>            (* lines 253-254 *)
      Some (mkState (tsense s) (csense s) (flag s)
              (upd1 (par s) c (negb (par s c)))
              (if par s c then upd1 (sns s) c (negb (sns s c)) else sns s)
              (upd2 (pc s) c t Wake) (entered s) (left s))
  | Wake =>           (* line 258 and return *)
      Some (mkState (tsense s) (upd1 (csense s) c (tsense s c 0)) (flag s) (par s) (sns s)
              (upd2 (pc s) c t Out) (entered s) (upd2 (left s) c t (S (left s c t))))
  | WCore =>          (* line 271 and return *)
      if Bool.eqb (csense s c) (tsense s c t) then
        Some (mkState (tsense s) (csense s) (flag s) (par s) (sns s)
                (upd2 (pc s) c t Out) (entered s) (upd2 (left s) c t (S (left s c t))))
      else None
  end.

(** /repo/synk/barrier.cpp:137-157: state after initialisation. *)
Definition init : state :=
  mkState (fun _ _ => true) (fun _ => true) (fun _ _ _ => false)
          (fun _ => false) (fun _ => true) (fun _ _ => Out)
          (fun _ _ => 0) (fun _ _ => 0).

(** Runs of the whole team. *)
Inductive reachable : state -> Prop :=
| reach_init : reachable init
| reach_step : forall s c t s',
    reachable s -> c < n -> t < tpc -> step c t s = Some s' -> reachable s'.

(** A run in which only threads that are inside wait move. *)
Inductive run_inside : state -> nat -> state -> Prop :=
| ri_nil : forall s, run_inside s 0 s
| ri_step : forall s c t s' k s'',
    c < n -> t < tpc -> pc s c t <> Out -> step c t s = Some s' ->
    run_inside s' k s'' -> run_inside s (S k) s''.

(** Executable runs, for examples: a list of (core, thread) to move. *)
Fixpoint exec (tr : list (nat * nat)) (s : state) : option state :=
  match tr with
  | [] => Some s
  | (c, t) :: r =>
      if (c <? n) && (t <? tpc) then
        match step c t s with Some s' => exec r s' | None => None end
      else None
  end.

Lemma exec_reachable tr s s' : reachable s -> exec tr s = Some s' -> reachable s'.
Proof.
  revert s; induction tr as [|[c t] tr IH]; intros s Hr; cbn [exec].
  - intros E; injection E as <-; auto.
  - destruct (Nat.ltb_spec c n), (Nat.ltb_spec t tpc); cbn [andb]; try discriminate.
    destruct (step c t s) eqn:E; [|discriminate]. apply IH. econstructor; eauto.
Qed.

(** ** Derived counters *)

Definition sent (r : nat) (p : pcT) : bool :=
  match p with Send r' => r <? r' | Recv r' => r <=? r' | Adj | Wake => true | _ => false end.
Definition recvd (r : nat) (p : pcT) : bool :=
  match p with Send r' | Recv r' => r <? r' | Adj | Wake => true | _ => false end.
Definition arrived (p : pcT) : bool :=
  match p with Send _ | Recv _ | Adj | Wake => true | _ => false end.
Definition b2n (b : bool) : nat := if b then 1 else 0.

(** Completed episodes of a core, and episodes in which the core has arrived,
    sent in round r, received in round r, adjusted its sense. *)
Definition q s c := left s c 0.
Definition Aq s c := q s c + b2n (arrived (pc s c 0)).
Definition Wq s c r := q s c + b2n (sent r (pc s c 0)).
Definition Rq s c r := q s c + b2n (recvd r (pc s c 0)).
Definition Pq s c := q s c + b2n (match pc s c 0 with Wake => true | _ => false end).

(** Sense used in episode e (0-based), and the flag of parity p after w sends. *)
Definition sgn (e : nat) : bool := negb (Nat.odd (e / 2)).
Fixpoint fl (p : bool) (w : nat) : bool :=
  match w with
  | 0 => false
  | S w => if Bool.eqb (Nat.odd w) p then sgn w else fl p w
  end.

Lemma odd_S e : Nat.odd (S e) = negb (Nat.odd e).
Proof. now rewrite Nat.odd_succ, <- Nat.negb_odd. Qed.

Lemma sgn_SS e : sgn (S (S e)) = negb (sgn e).
Proof.
  unfold sgn. replace (S (S e)) with (e + 1 * 2) by lia.
  rewrite Nat.div_add by lia. replace (e / 2 + 1) with (S (e / 2)) by lia.
  now rewrite odd_S.
Qed.

Lemma sgn_S e : sgn (S e) = if Nat.odd e then negb (sgn e) else sgn e.
Proof.
  unfold sgn. destruct (Nat.odd e) eqn:Eo.
  - apply Nat.odd_spec in Eo as [k Ek].
    assert (E1 : S e / 2 = S k) by (symmetry; apply Nat.div_unique with 0; lia).
    assert (E2 : e / 2 = k) by (symmetry; apply Nat.div_unique with 1; lia).
    rewrite E1, E2. now rewrite odd_S.
  - assert (He : Nat.even e = true) by (rewrite <- Nat.negb_odd, Eo; auto).
    apply Nat.even_spec in He as [k Ek].
    assert (E1 : S e / 2 = k) by (symmetry; apply Nat.div_unique with 1; lia).
    assert (E2 : e / 2 = k) by (symmetry; apply Nat.div_unique with 0; lia).
    now rewrite E1, E2.
Qed.

Lemma fl_same e : fl (Nat.odd e) (S e) = sgn e.
Proof. cbn. now rewrite Bool.eqb_reflx. Qed.

Lemma fl_next e : fl (Nat.odd e) (S (S e)) = sgn e.
Proof.
  cbn [fl]. rewrite odd_S. rewrite Bool.eqb_reflx. now destruct (Nat.odd e).
Qed.

Lemma fl_before e : fl (Nat.odd e) e = negb (sgn e).
Proof.
  destruct e as [|[|e]]; [reflexivity|reflexivity|].
  replace (Nat.odd (S (S e))) with (Nat.odd e).
  - rewrite fl_next. rewrite sgn_SS. now rewrite negb_involutive.
  - rewrite !odd_S. now rewrite negb_involutive.
Qed.

(** ** The invariant *)

Definition pc_ok (c t : nat) (p : pcT) : Prop :=
  if t =? 0 then
    match p with
    | WThr i => 1 <= i <= Nat.max 1 tpc
    | Send r | Recv r => r < L /\ 1 < n
    | Adj => 1 < n
    | WCore => False
    | _ => True
    end
  else p = Out \/ p = WCore.

(** Per-core part. *)
Record linv (s : state) (c : nat) : Prop := mkLinv {
  i_pc : forall t, t < tpc -> pc_ok c t (pc s c t);
  i_ts : forall t, t < tpc -> tsense s c t = negb (Nat.odd (entered s c t));
  i_cs : csense s c = negb (Nat.odd (q s c));
  i_e0 : entered s c 0 = q s c + match pc s c 0 with Out => 0 | _ => 1 end;
  i_et : forall t, 0 < t < tpc ->
     q s c <= entered s c t <= S (q s c) /\
     (pc s c t = Out -> entered s c t = q s c) /\
     left s c t + match pc s c t with Out => 0 | _ => 1 end = entered s c t;
  i_wthr : forall i j, pc s c 0 = WThr i -> 0 < j < i -> j < tpc ->
     entered s c j = S (q s c);
  i_arr : forall j, arrived (pc s c 0) = true -> 0 < j < tpc ->
     entered s c j = S (q s c);
  i_par : 1 < n -> par s c = Nat.odd (Pq s c);
  i_sns : 1 < n -> sns s c = sgn (Pq s c)
}.

(** Relations between cores. *)
Record inv (s : state) : Prop := mkInv {
  i_loc : forall c, c < n -> linv s c;
  i_flag : forall c p r, c < n -> r < L -> 1 < n ->
     flag s (partner c r) p r = fl p (Wq s c r);
  i_rw : forall c r, c < n -> r < L -> 1 < n -> Rq s (partner c r) r <= Wq s c r;
  i_k : forall c d r, c < n -> r < L -> d < 2 ^ S r ->
     Rq s ((c + d) mod n) r <= Aq s c
}.

Hypothesis Hn : 1 <= n.
Hypothesis Htpc : 1 <= tpc.
Hypothesis HL : 1 <= L.
Hypothesis HLn : n <= 2 ^ L.

Lemma partner_lt c r : partner c r < n.
Proof. unfold partner. apply Nat.mod_upper_bound. lia. Qed.

Lemma mod_add_inj a b d : a < n -> b < n -> (a + d) mod n = (b + d) mod n -> a = b.
Proof.
  intros Ha Hb E.
  pose proof (Nat.div_mod (a + d) n ltac:(lia)) as E1.
  pose proof (Nat.div_mod (b + d) n ltac:(lia)) as E2.
  rewrite E in E1.
  destruct (Nat.lt_trichotomy ((a + d) / n) ((b + d) / n)) as [Hlt|[He|Hgt]].
  - assert (n * ((a + d) / n) + n <= n * ((b + d) / n)) by nia. lia.
  - rewrite He in E1. lia.
  - assert (n * ((b + d) / n) + n <= n * ((a + d) / n)) by nia. lia.
Qed.

Lemma partner_inj a b r : a < n -> b < n -> partner a r = partner b r -> a = b.
Proof. apply mod_add_inj. Qed.

(** Every core is the partner of some core. *)
Lemma partner_onto c r : c < n -> exists p, p < n /\ partner p r = c.
Proof.
  intros Hc. exists ((c + (n - (2 ^ r) mod n)) mod n). split.
  - apply Nat.mod_upper_bound; lia.
  - unfold partner. rewrite Nat.add_mod_idemp_l by lia.
    pose proof (Nat.mod_upper_bound (2 ^ r) n ltac:(lia)).
    pose proof (Nat.div_mod (2 ^ r) n ltac:(lia)) as E.
    replace (c + (n - (2 ^ r) mod n) + 2 ^ r) with (c + (1 + 2 ^ r / n) * n) by nia.
    rewrite Nat.mod_add by lia. apply Nat.mod_small; auto.
Qed.

Lemma inv_init : inv init.
Proof.
  constructor; [intros c Hc; constructor|..];
    unfold Rq, Wq, Aq, Pq, q; cbn; intros; auto; try lia; try discriminate.
  destruct t; cbn; auto.
Qed.

(** Facts used in the preservation proof. *)
Lemma Wq_le_Rq s c r : inv s -> c < n -> 0 < r < L -> Wq s c r <= Rq s c (r - 1).
Proof.
  intros I Hc Hr. unfold Wq, Rq.
  destruct (pc s c 0) as [|i|r'|r'| | |]; cbn [sent recvd b2n]; try lia.
  - destruct (Nat.ltb_spec r r'), (Nat.ltb_spec (r - 1) r'); cbn [b2n]; lia.
  - destruct (Nat.leb_spec r r'), (Nat.ltb_spec (r - 1) r'); cbn [b2n]; lia.
Qed.

Lemma Wq_le_Aq s c r : Wq s c r <= Aq s c.
Proof.
  unfold Wq, Aq. destruct (pc s c 0) as [|i|r'|r'| | |]; cbn [sent arrived b2n]; try lia.
  - destruct (r <? r'); cbn; lia.
  - destruct (r <=? r'); cbn; lia.
Qed.

Lemma Rq_bounds s c r : q s c <= Rq s c r <= S (q s c).
Proof. unfold Rq. destruct (recvd r (pc s c 0)); cbn; lia. Qed.
Lemma Wq_bounds s c r : q s c <= Wq s c r <= S (q s c).
Proof. unfold Wq. destruct (sent r (pc s c 0)); cbn; lia. Qed.

(** What a core has completed, every core has arrived at. *)
Lemma q_le_Aq s c c' : inv s -> c < n -> c' < n -> q s c <= Aq s c'.
Proof.
  intros I Hc Hc'. 
  set (d := (c + (n - c')) mod n).
  assert (Hd : (c' + d) mod n = c).
  { unfold d. rewrite Nat.add_mod_idemp_r by lia.
    replace (c' + (c + (n - c'))) with (c + 1 * n) by lia.
    rewrite Nat.mod_add by lia. apply Nat.mod_small; auto. }
  pose proof (i_k s I c' d (L - 1) Hc' ltac:(lia)) as K.
  rewrite Hd in K. replace (S (L - 1)) with L in K by lia.
  assert (d < n) by (apply Nat.mod_upper_bound; lia).
  pose proof (Rq_bounds s c (L - 1)). lia.
Qed.

(** *** Framing: a step of thread [t] of core [c] leaves the rest alone. *)

Definition only_moves (s s' : state) (c t : nat) : Prop :=
  (forall x y, x <> c \/ y <> t ->
     pc s' x y = pc s x y /\ entered s' x y = entered s x y /\ left s' x y = left s x y /\
     tsense s' x y = tsense s x y) /\
  (forall x, x <> c -> csense s' x = csense s x /\ par s' x = par s x /\ sns s' x = sns s x).

Ltac du :=
  unfold upd2, upd1, updf;
  repeat (match goal with
  | |- context[?x =? ?y] => destruct (Nat.eqb_spec x y)
  end; cbn [andb]; try lia).

Lemma pc_ok_upd s c t v :
  (forall y, y < tpc -> pc_ok c y (pc s c y)) -> pc_ok c t v ->
  forall y, y < tpc -> pc_ok c y (upd2 (pc s) c t v c y).
Proof.
  intros H Hv y Hy. unfold upd2. rewrite Nat.eqb_refl. cbn [andb].
  destruct (Nat.eqb_spec y t) as [->|]; auto.
Qed.

Lemma pc_ok_other c t v : t <> 0 -> v = Out \/ v = WCore -> pc_ok c t v.
Proof. intros H Hv. unfold pc_ok. destruct (Nat.eqb_spec t 0); [lia|auto]. Qed.

Lemma only_moves_step s c t s' : step c t s = Some s' -> only_moves s s' c t.
Proof.
  intros E. unfold step in E.
  destruct (pc s c t) as [|i|r0|r0| | |];
    try destruct (i <? tpc);
    try destruct (Bool.eqb (tsense s c i) (csense s c));
    try destruct (Bool.eqb (flag s c (par s c) r0) (sns s c));
    try destruct (Bool.eqb (csense s c) (tsense s c t));
    try discriminate E; injection E as <-; split; intros; cbn;
    try destruct (par s c); du; auto.
Qed.

Lemma only_moves_counts s s' c t x : only_moves s s' c t -> x <> c \/ 0 <> t ->
  q s' x = q s x /\ Aq s' x = Aq s x /\ Pq s' x = Pq s x /\
  (forall r, Wq s' x r = Wq s x r) /\ (forall r, Rq s' x r = Rq s x r).
Proof.
  intros [H1 H2] Hx. destruct (H1 x 0 Hx) as (E1 & E2 & E3 & E4).
  unfold Aq, Pq, Wq, Rq, q. rewrite E1, E3. auto.
Qed.

Lemma linv_frame s s' c t x : only_moves s s' c t -> x <> c -> linv s x -> linv s' x.
Proof.
  intros Ho Hx I. destruct (only_moves_counts s s' c t x Ho ltac:(lia)) as (Eq & EA & EP & EW & ER).
  destruct Ho as [H1 H2]. destruct (H2 x Hx) as (Ec & Ep & Es).
  assert (F : forall y, pc s' x y = pc s x y /\ entered s' x y = entered s x y /\
                left s' x y = left s x y /\ tsense s' x y = tsense s x y) by (intros; apply H1; lia).
  assert (F1 : forall y, pc s' x y = pc s x y) by apply F.
  assert (F2 : forall y, entered s' x y = entered s x y) by apply F.
  assert (F3 : forall y, left s' x y = left s x y) by apply F.
  assert (F4 : forall y, tsense s' x y = tsense s x y) by apply F.
  destruct I; constructor; intros; rewrite ?F1, ?F2, ?F3, ?F4, ?Eq, ?EA, ?EP, ?EW, ?ER, ?Ec, ?Ep, ?Es in *; eauto.
Qed.

(** The relations between cores follow from how the counters of [c] move. *)
Lemma inv_counts s s' c t :
  inv s -> c < n -> only_moves s s' c t ->
  (forall r, r < L -> Wq s c r <= Wq s' c r) -> Aq s c <= Aq s' c ->
  (forall r p, 1 < n -> r < L -> p < n -> partner p r = c ->
     Rq s' c r <= Rq s c r \/ Rq s' c r <= Wq s p r) ->
  (forall r, r < L -> Rq s' c r <= Rq s c r \/
      forall x d, x < n -> d < 2 ^ S r -> (x + d) mod n = c -> Rq s' c r <= Aq s' x) ->
  (forall x r, x < n -> r < L -> 1 < n -> Rq s' (partner x r) r <= Wq s' x r) /\
  (forall x d r, x < n -> r < L -> d < 2 ^ S r -> Rq s' ((x + d) mod n) r <= Aq s' x).
Proof.
  intros I Hc Ho HW HA HR HK.
  assert (HA' : forall x, x < n -> Aq s x <= Aq s' x).
  { intros x Hx. destruct (Nat.eq_dec x c) as [->|Hxc]; auto.
    destruct (only_moves_counts s s' c t x Ho ltac:(lia)) as (_ & -> & _). auto. }
  assert (HW' : forall x r, x < n -> r < L -> Wq s x r <= Wq s' x r).
  { intros x r Hx Hr. destruct (Nat.eq_dec x c) as [->|Hxc]; auto.
    destruct (only_moves_counts s s' c t x Ho ltac:(lia)) as (_ & _ & _ & Hw & _). rewrite Hw. auto. }
  split.
  - intros x r Hx Hr H1. pose proof (i_rw s I x r Hx Hr H1) as B.
    pose proof (HW' x r Hx Hr).
    destruct (Nat.eq_dec (partner x r) c) as [Ep|Ep].
    + rewrite Ep in *. destruct (HR r x H1 Hr Hx Ep); lia.
    + destruct (only_moves_counts s s' c t _ Ho (or_introl Ep)) as (_ & _ & _ & _ & Hr'). rewrite Hr'. lia.
  - intros x d r Hx Hr Hd. pose proof (i_k s I x d r Hx Hr Hd) as B.
    pose proof (HA' x Hx).
    destruct (Nat.eq_dec ((x + d) mod n) c) as [Ep|Ep].
    + destruct (HK r Hr) as [Hk|Hk].
      * rewrite Ep in *. lia.
      * rewrite Ep. specialize (Hk x d Hx Hd Ep). lia.
    + destruct (only_moves_counts s s' c t _ Ho (or_introl Ep)) as (_ & _ & _ & _ & Hr'). rewrite Hr'. lia.
Qed.

Lemma flag_stable s s' c t :
  inv s -> c < n -> only_moves s s' c t -> flag s' = flag s ->
  (forall r, r < L -> 1 < n -> Wq s' c r = Wq s c r) ->
  forall x p r, x < n -> r < L -> 1 < n -> flag s' (partner x r) p r = fl p (Wq s' x r).
Proof.
  intros I Hc Ho Hf HW x p r Hx Hr H1. rewrite Hf, (i_flag s I) by auto. f_equal.
  destruct (Nat.eq_dec x c) as [->|Hxc].
  - now rewrite HW.
  - destruct (only_moves_counts s s' c t x Ho (or_introl Hxc)) as (_ & _ & _ & Hw & _). now rewrite Hw.
Qed.

(** Assembling: a step that does not write flags. *)
Lemma inv_assemble s s' c t :
  inv s -> c < n -> only_moves s s' c t ->
  linv s' c -> flag s' = flag s ->
  (forall r, r < L -> 1 < n -> Wq s' c r = Wq s c r) ->
  (forall r, r < L -> Wq s c r <= Wq s' c r) -> Aq s c <= Aq s' c ->
  (forall r p, 1 < n -> r < L -> p < n -> partner p r = c ->
     Rq s' c r <= Rq s c r \/ Rq s' c r <= Wq s p r) ->
  (forall r, r < L -> Rq s' c r <= Rq s c r \/
      forall x d, x < n -> d < 2 ^ S r -> (x + d) mod n = c -> Rq s' c r <= Aq s' x) ->
  inv s'.
Proof.
  intros I Hc Ho Hl Hf HW HW' HA HR HK.
  destruct (inv_counts s s' c t I Hc Ho HW' HA HR HK) as [IR IK].
  constructor; auto.
  - intros x Hx. destruct (Nat.eq_dec x c) as [->|Hxc]; auto.
    apply (linv_frame s s' c t x); auto. now apply (i_loc s I).
  - eapply flag_stable; eauto.
Qed.

(** When the master of [c] reads the awaited flag value in round r, its
    predecessor has sent in this episode. *)
Lemma recv_sent s c p r :
  inv s -> c < n -> 1 < n -> p < n -> r < L -> partner p r = c -> pc s c 0 = Recv r ->
  flag s c (par s c) r = sns s c -> S (q s c) <= Wq s p r.
Proof.
  intros I Hc H1 Hp Hr Ep Epc Hf.
  rewrite (i_par s c (i_loc s I c Hc)), (i_sns s c (i_loc s I c Hc)) in Hf by auto.
  rewrite <- Ep in Hf at 1. rewrite (i_flag s I) in Hf by auto.
  assert (EP : Pq s c = q s c) by (unfold Pq; rewrite Epc; cbn; lia).
  rewrite EP in Hf.
  pose proof (i_rw s I p r Hp Hr H1) as B. rewrite Ep in B.
  assert (ER : Rq s c r = q s c).
  { unfold Rq. rewrite Epc. cbn [recvd]. rewrite Nat.ltb_irrefl. cbn. lia. }
  rewrite ER in B.
  destruct (Nat.eq_dec (Wq s p r) (q s c)) as [E|]; [|lia].
  rewrite E, fl_before in Hf. now destruct (sgn (q s c)).
Qed.

Ltac cnt E := unfold Rq, Wq, Aq, Pq, q in *; cbn [pc left] in *; rewrite ?upd2_same, ?E in *;
  cbn [sent recvd arrived b2n] in *.

(** *** Steps of a thread other than thread 0. *)
Lemma inv_step_other s c t s' :
  inv s -> c < n -> 0 < t < tpc -> step c t s = Some s' -> inv s'.
Proof.
  intros I Hc Ht E. pose proof (only_moves_step _ _ _ _ E) as Ho.
  destruct (only_moves_counts s s' c t c Ho ltac:(lia)) as (Eq & EA & EP & EW & ER).
  pose proof (i_loc s I c Hc) as Hl.
  assert (Hf : flag s' = flag s /\ linv s' c).
  { unfold step in E. pose proof (i_pc s c Hl t ltac:(lia)) as Hp. unfold pc_ok in Hp.
    destruct (Nat.eqb_spec t 0) as [|Ht0]; [lia|].
    destruct (i_et s c Hl t Ht) as (B1 & B2 & B3).
    assert (Hpc0 : forall v, upd2 (pc s) c t v c 0 = pc s c 0) by (intros; apply upd2_other; lia).
    destruct Hp as [Hp|Hp]; rewrite Hp in *.
    - (* enters *)
      injection E as <-. split; [reflexivity|]. specialize (B2 eq_refl).
      destruct Hl; constructor; unfold Pq, q in *;
        cbn [tsense csense flag par sns entered pc left] in *; rewrite ?Hpc0; auto; intros.
      + apply pc_ok_upd; auto. apply pc_ok_other; auto.
      + du; subst; auto. rewrite odd_S. rewrite i_ts0 by auto. now rewrite negb_involutive.
      + rewrite upd2_other by lia. auto.
      + du; subst; auto. split; [lia|]. split; [discriminate|lia].
      + du; subst; eauto.
      + du; subst; eauto.
    - (* leaves *)
      destruct (Bool.eqb (csense s c) (tsense s c t)) eqn:Eb; [|discriminate].
      injection E as <-. split; [reflexivity|]. apply Bool.eqb_prop in Eb.
      rewrite (i_cs s c Hl), (i_ts s c Hl t) in Eb by lia.
      assert (Eqq : entered s c t = q s c).
      { destruct (Nat.eq_dec (entered s c t) (S (q s c))) as [E1|]; [|lia].
        rewrite E1, odd_S in Eb. now destruct (Nat.odd (q s c)). }
      assert (Hl0 : forall v, upd2 (left s) c t v c 0 = left s c 0) by (intros; apply upd2_other; lia).
      destruct Hl; constructor; unfold Pq, q in *;
        cbn [tsense csense flag par sns entered pc left] in *; rewrite ?Hpc0, ?Hl0; auto; intros.
      + apply pc_ok_upd; auto. apply pc_ok_other; auto.
      + du; subst; auto. split; [lia|]. split; [auto|lia]. }
  destruct Hf as [Hf Hl'].
  apply (inv_assemble s s' c t); auto; intros; rewrite ?EW, ?EA, ?ER; auto.
Qed.

Lemma negb_odd_neq a b : a <= b <= S a -> negb (Nat.odd b) <> negb (Nat.odd a) -> b = S a.
Proof.
  intros H Hne. destruct (Nat.eq_dec b a) as [->|]; [congruence|lia].
Qed.

Lemma inv_step_master s c s' :
  inv s -> c < n -> step c 0 s = Some s' -> inv s'.
Proof.
  intros I Hc E. pose proof (only_moves_step s c 0 s' E) as Ho. unfold step in E.
  pose proof (i_loc s I c Hc) as Hl.
  pose proof (i_pc s c Hl 0 ltac:(lia)) as Hp. unfold pc_ok in Hp. cbn [Nat.eqb] in Hp.
  destruct (pc s c 0) as [|i|r0|r0| | |] eqn:Epc.
  - (* Out -> WThr 1 *)
    injection E as <-. cbn [Nat.eqb] in *.
    apply (inv_assemble s _ c 0 I Hc Ho); auto; intros; try (cnt Epc; auto; fail).
    destruct Hl; constructor; cnt Epc; cbn [tsense csense flag par sns entered] in *; auto; intros.
    + apply pc_ok_upd; auto. unfold pc_ok; cbn [Nat.eqb]; lia.
    + du; subst; auto. rewrite odd_S. rewrite i_ts0 by auto. now rewrite negb_involutive.
    + rewrite upd2_same. lia.
    + rewrite !upd2_other by lia. auto.
    + injection H as <-; lia.
    + discriminate.
  - (* WThr *)
    destruct (Nat.ltb_spec i tpc) as [Hi|Hi].
    + destruct (Bool.eqb (tsense s c i) (csense s c)) eqn:Eb; [discriminate|].
      apply Bool.eqb_false_iff in Eb.
      rewrite (i_ts s c Hl), (i_cs s c Hl) in Eb by lia.
      destruct (i_et s c Hl i ltac:(lia)) as (B1 & B2 & B3).
      apply negb_odd_neq in Eb; auto.
      injection E as <-.
      apply (inv_assemble s _ c 0 I Hc Ho); auto; intros; try (cnt Epc; auto; fail).
      destruct Hl; constructor; cnt Epc; cbn [tsense csense flag par sns entered] in *; auto; intros.
      * apply pc_ok_upd; auto. unfold pc_ok; cbn [Nat.eqb]; lia.
      * rewrite !upd2_other by lia. auto.
      * injection H as <-. destruct (Nat.eq_dec j i) as [->|]; auto. apply (i_wthr0 i j); auto; lia.
    + injection E as <-. destruct (Nat.ltb_spec 1 n) as [H1|H1].
      * apply (inv_assemble s _ c 0 I Hc Ho); auto; intros; try (cnt Epc; auto; fail).
        2:{ cnt Epc; lia. }
        destruct Hl; constructor; cnt Epc; cbn [tsense csense flag par sns entered] in *; auto; intros.
        -- apply pc_ok_upd; auto. unfold pc_ok; cbn [Nat.eqb]; lia.
        -- rewrite !upd2_other by lia. auto.
        -- discriminate.
        -- apply (i_wthr0 i j); auto; lia.
      * apply (inv_assemble s _ c 0 I Hc Ho); auto; intros; try (cnt Epc; auto; lia).
        2:{ right; intros x d Hx Hd Ex. replace x with c by lia. cnt Epc; lia. }
        destruct Hl; constructor; cnt Epc; cbn [tsense csense flag par sns entered] in *; auto; intros; try lia.
        -- apply pc_ok_upd; auto. unfold pc_ok; cbn [Nat.eqb]; auto.
        -- rewrite !upd2_other by lia. auto.
        -- discriminate.
        -- apply (i_wthr0 i j); auto; lia.
  - (* Send r0 *)
    destruct Hp as [Hr0 H1].
    injection E as <-.
    set (s' := mkState _ _ _ _ _ _ _ _) in *.
    assert (EA : Aq s' c = Aq s c) by (unfold s'; cnt Epc; auto).
    assert (ER : forall r, Rq s' c r = Rq s c r) by (intros; unfold s'; cnt Epc; auto).
    assert (EW : forall r, r <> r0 -> Wq s' c r = Wq s c r).
    { intros r Hr. unfold s'; cnt Epc.
      destruct (Nat.leb_spec r r0), (Nat.ltb_spec r r0); cbn; lia. }
    assert (EW0 : Wq s c r0 = q s c).
    { cnt Epc. rewrite Nat.ltb_irrefl. cbn. lia. }
    assert (EW0' : Wq s' c r0 = S (q s c)).
    { unfold s'; cnt Epc. rewrite Nat.leb_refl. cbn. lia. }
    destruct (inv_counts s s' c 0 I Hc Ho) as [IR IK]; [..|constructor; [..|exact IR|exact IK]].
    + intros r Hr. destruct (Nat.eq_dec r r0) as [->|]; [lia|rewrite EW; auto].
    + lia.
    + intros; left; rewrite ER; auto.
    + intros; left; rewrite ER; auto.
    + intros x Hx. destruct (Nat.eq_dec x c) as [->|Hxc];
        [|apply (linv_frame s s' c 0 x); auto; now apply (i_loc s I)].
      unfold s' in *. clear s' EA ER EW EW0 EW0' IR IK.
      destruct Hl; constructor; cnt Epc; cbn [tsense csense flag par sns entered] in *; auto; intros.
      * apply pc_ok_upd; auto. unfold pc_ok; cbn [Nat.eqb]; lia.
      * rewrite !upd2_other by lia. auto.
      * discriminate.
    + intros x p r Hx Hr _. 
      assert (Ep : par s c = Nat.odd (q s c) /\ sns s c = sgn (q s c)).
      { rewrite (i_par s c Hl), (i_sns s c Hl) by auto. unfold Pq. rewrite Epc. cbn [b2n].
        now rewrite Nat.add_0_r. }
      destruct Ep as [Ep Es].
      assert (Hfl : flag s' = updf (flag s) (partner c r0) (par s c) r0 (sns s c)) by reflexivity.
      rewrite Hfl. unfold updf.
      destruct (Nat.eqb_spec r r0) as [->|Hrr].
      * destruct (Nat.eqb_spec (partner x r0) (partner c r0)) as [Ex|Ex].
        -- apply partner_inj in Ex; auto. subst x. rewrite EW0'. cbn [fl].
           rewrite Ep, Es. cbn [andb]. rewrite andb_true_r.
           replace (Bool.eqb (Nat.odd (q s c)) p) with (Bool.eqb p (Nat.odd (q s c)))
             by (destruct p, (Nat.odd (q s c)); auto).
           destruct (Bool.eqb p (Nat.odd (q s c))); auto.
           rewrite (i_flag s I) by auto. now rewrite EW0.
        -- cbn [andb]. rewrite (i_flag s I) by auto. f_equal.
           assert (x <> c) by congruence.
           destruct (only_moves_counts s s' c 0 x Ho ltac:(lia)) as (_ & _ & _ & Hw & _).
           now rewrite Hw.
      * rewrite andb_false_r. rewrite (i_flag s I) by auto. f_equal.
        destruct (Nat.eq_dec x c) as [->|Hxc]; [now rewrite EW|].
        destruct (only_moves_counts s s' c 0 x Ho ltac:(lia)) as (_ & _ & _ & Hw & _).
        now rewrite Hw.
  - (* Recv r0 *)
    destruct Hp as [Hr0 H1].
    destruct (Bool.eqb (flag s c (par s c) r0) (sns s c)) eqn:Eb; [|discriminate].
    apply Bool.eqb_prop in Eb.
    assert (Hsent : forall p, p < n -> partner p r0 = c -> S (q s c) <= Wq s p r0).
    { intros p Hp Ep. eapply recv_sent; eauto. }
    injection E as <-.
    set (s' := mkState _ _ _ _ _ _ _ _) in *.
    assert (EA : Aq s' c = Aq s c).
    { unfold s'; cnt Epc. destruct (S r0 <? L); auto. }
    assert (EAc : Aq s c = S (q s c)) by (cnt Epc; lia).
    assert (EW : forall r, r < L -> Wq s' c r = Wq s c r).
    { intros r Hr. unfold s'; cnt Epc. destruct (Nat.ltb_spec (S r0) L); cbn [sent];
        destruct (Nat.leb_spec r r0); try destruct (Nat.ltb_spec r (S r0)); cbn; lia. }
    assert (ER : forall r, r < L -> r <> r0 -> Rq s' c r = Rq s c r).
    { intros r Hr Hne. unfold s'; cnt Epc. destruct (Nat.ltb_spec (S r0) L); cbn [recvd];
        destruct (Nat.ltb_spec r r0); try destruct (Nat.ltb_spec r (S r0)); cbn; lia. }
    assert (ER0 : Rq s' c r0 = S (q s c)).
    { unfold s'; cnt Epc. destruct (Nat.ltb_spec (S r0) L); cbn [recvd];
        try destruct (Nat.ltb_spec r0 (S r0)); cbn; lia. }
    assert (EAx : forall x, Aq s' x = Aq s x).
    { intros x. destruct (Nat.eq_dec x c) as [->|Hxc]; auto.
      destruct (only_moves_counts s s' c 0 x Ho ltac:(lia)) as (_ & Ha & _). auto. }
    apply (inv_assemble s s' c 0 I Hc Ho); auto.
    + unfold s' in *. clear s' EA ER EW ER0 EAx.
      destruct Hl; constructor; cnt Epc; cbn [tsense csense flag par sns entered] in *; auto; intros.
      * apply pc_ok_upd; auto. unfold pc_ok; cbn [Nat.eqb].
        destruct (Nat.ltb_spec (S r0) L); lia.
      * destruct (S r0 <? L); auto.
      * rewrite !upd2_other by lia. auto.
      * destruct (S r0 <? L); discriminate.
      * destruct (S r0 <? L); auto.
      * destruct (S r0 <? L); auto.
    + intros r Hr. now rewrite EW.
    + now rewrite EA.
    + intros r p _ Hr Hpn Ep. destruct (Nat.eq_dec r r0) as [->|Hne].
      * right. rewrite ER0. auto.
      * left. now rewrite ER.
    + intros r Hr. destruct (Nat.eq_dec r r0) as [->|Hne]; [|left; now rewrite ER].
      right. intros x d Hx Hd Ex. rewrite ER0, EAx.
      destruct (Nat.lt_ge_cases d (2 ^ r0)) as [Hd0|Hd0].
      * (* known from the previous round *)
        destruct (Nat.eq_dec r0 0) as [->|Hr1].
        -- cbn in Hd0. assert (d = 0) by lia. subst d. rewrite Nat.add_0_r in Ex.
           rewrite Nat.mod_small in Ex by auto. subst x. lia.
        -- pose proof (i_k s I x d (r0 - 1) Hx ltac:(lia)) as K.
           replace (S (r0 - 1)) with r0 in K by lia. specialize (K Hd0). rewrite Ex in K.
           enough (Rq s c (r0 - 1) = S (q s c)) by lia.
           cnt Epc. destruct (Nat.ltb_spec (r0 - 1) r0); cbn; lia.
      * (* known through the predecessor *)
        set (p := (x + (d - 2 ^ r0)) mod n).
        assert (Hpn : p < n) by (apply Nat.mod_upper_bound; lia).
        assert (Ep : partner p r0 = c).
        { unfold partner, p. rewrite Nat.add_mod_idemp_l by lia.
          rewrite <- Ex. f_equal. lia. }
        specialize (Hsent p Hpn Ep).
        cbn [Nat.pow] in Hd.
        destruct (Nat.eq_dec r0 0) as [->|Hr1].
        -- cbn in Hd, Hd0. assert (d = 1) by lia. subst d. 
           assert (Epx : p = x) by (unfold p; cbn; rewrite Nat.add_0_r; apply Nat.mod_small; auto).
           pose proof (Wq_le_Aq s p 0) as HWA. rewrite Epx in HWA, Hsent. lia.
        -- pose proof (Wq_le_Rq s p r0 I Hpn ltac:(lia)).
           pose proof (i_k s I x (d - 2 ^ r0) (r0 - 1) Hx ltac:(lia)) as K.
           replace (S (r0 - 1)) with r0 in K by lia. fold p in K.
           specialize (K ltac:(lia)). lia.
  - (* Adj *)
    injection E as <-.
    apply (inv_assemble s _ c 0 I Hc Ho); auto; intros; try (cnt Epc; auto; fail).
    destruct Hl; constructor; cnt Epc; cbn [tsense csense flag par sns entered] in *; auto; intros.
    + apply pc_ok_upd; auto. unfold pc_ok; cbn [Nat.eqb]; auto.
    + rewrite !upd2_other by lia. auto.
    + discriminate.
    + rewrite upd1_same. rewrite i_par0 by auto. rewrite Nat.add_0_r, Nat.add_1_r. now rewrite odd_S.
    + specialize (i_par0 Hp). specialize (i_sns0 Hp). rewrite Nat.add_0_r in *.
      rewrite Nat.add_1_r.
      rewrite sgn_S, <- i_par0. destruct (par s c); [rewrite upd1_same|]; now rewrite i_sns0.
  - (* Wake *)
    injection E as <-.
    apply (inv_assemble s _ c 0 I Hc Ho); auto; intros; try (cnt Epc; auto; lia).
    destruct Hl; constructor; cnt Epc; cbn [tsense csense flag par sns entered] in *; auto; intros.
    + apply pc_ok_upd; auto.
    + rewrite upd1_same. rewrite i_ts0 by lia. rewrite i_e1 || rewrite i_e0. f_equal. f_equal. lia.
    + lia.
    + rewrite !upd2_other by lia. destruct (i_et0 t H) as (B1 & B2 & B3).
      specialize (i_arr0 t eq_refl H). split; [lia|]. split; [|auto].
      intros Hout. specialize (B2 Hout). lia.
    + discriminate.
    + discriminate.
    + rewrite Nat.add_0_r. rewrite i_par0 by auto. f_equal. lia.
    + rewrite Nat.add_0_r. rewrite i_sns0 by auto. f_equal. lia.
  - destruct Hp.
Qed.

Lemma reachable_inv s : reachable s -> inv s.
Proof.
  induction 1 as [|s c t s' Hr IH Hc Ht E]; [apply inv_init|].
  destruct (Nat.eq_dec t 0) as [->|].
  - eapply inv_step_master; eauto.
  - eapply (inv_step_other s c t); eauto. lia.
Qed.

(** ** Safety *)
Lemma barrier_safe s c t c' t' :
  reachable s -> c < n -> t < tpc -> c' < n -> t' < tpc ->
  left s c t <= entered s c' t'.
Proof.
  intros Hr Hc Ht Hc' Ht'. pose proof (reachable_inv s Hr) as I.
  assert (Hl : left s c t <= q s c).
  { destruct (Nat.eq_dec t 0) as [->|]; [unfold q; lia|].
    destruct (i_et s c (i_loc s I c Hc) t ltac:(lia)) as (B1 & B2 & B3).
    destruct (pc s c t); try specialize (B2 eq_refl); lia. }
  pose proof (q_le_Aq s c c' I Hc Hc') as HA. unfold Aq in HA.
  pose proof (i_loc s I c' Hc') as Hl'.
  destruct (Nat.eq_dec t' 0) as [->|].
  - rewrite (i_e0 s c' Hl'). destruct (pc s c' 0); cbn in *; lia.
  - destruct (i_et s c' Hl' t' ltac:(lia)) as (B1 & B2 & B3).
    destruct (arrived (pc s c' 0)) eqn:Ea; cbn in HA; [|lia].
    rewrite (i_arr s c' Hl' t' Ea) by lia. lia.
Qed.

(** ** Progress *)

Definition can_move s c t : Prop := pc s c t <> Out /\ step c t s <> None.

Lemma least_q s : exists c, c < n /\ forall x, x < n -> q s c <= q s x.
Proof.
  assert (H : forall k, k <= n -> 0 < k -> exists c, c < k /\ forall x, x < k -> q s c <= q s x).
  { induction k as [|k IH]; [lia|]. intros Hk _.
    destruct (Nat.eq_dec k 0) as [->|].
    - exists 0. split; [lia|]. intros x Hx. replace x with 0 by lia. lia.
    - destruct IH as (c & Hc & Hm); [lia|lia|].
      destruct (Nat.le_gt_cases (q s c) (q s k)).
      + exists c. split; [lia|]. intros x Hx. destruct (Nat.eq_dec x k) as [->|]; auto.
        apply Hm; lia.
      + exists k. split; [lia|]. intros x Hx. destruct (Nat.eq_dec x k) as [->|]; auto.
        specialize (Hm x ltac:(lia)). lia. }
  destruct (H n) as (c & Hc & Hm); try lia. eauto.
Qed.

Lemma recv_progress s e : inv s ->
  (forall x, x < n -> e <= q s x) ->
  (forall x, x < n -> q s x = e -> forall t, t < tpc -> S e <= entered s x t) ->
  forall r c, c < n -> q s c = e -> pc s c 0 = Recv r ->
  exists x, x < n /\ can_move s x 0.
Proof.
  intros I Hmin Hent r. induction r as [r IH] using lt_wf_ind. intros c Hc Eq Epc.
  pose proof (i_loc s I c Hc) as Hl.
  pose proof (i_pc s c Hl 0 ltac:(lia)) as Hp. unfold pc_ok in Hp. cbn [Nat.eqb] in Hp.
  rewrite Epc in Hp. destruct Hp as [Hr H1].
  destruct (partner_onto c r Hc) as (p & Hpn & Ep).
  pose proof (i_loc s I p Hpn) as Hlp.
  assert (Hres : S e <= Wq s p r -> exists x, x < n /\ can_move s x 0).
  { intros HW. exists c. split; auto. split; [rewrite Epc; discriminate|].
    unfold step. rewrite Epc.
    rewrite (i_par s c Hl), (i_sns s c Hl) by auto. rewrite <- Ep at 1.
    rewrite (i_flag s I) by auto.
    assert (EP : Pq s c = e) by (unfold Pq; rewrite Epc; cbn; lia). rewrite EP.
    assert (HW' : Wq s p r <= S (S e)).
    { pose proof (Wq_bounds s p r). pose proof (q_le_Aq s p c I Hpn Hc).
      unfold Aq in *. rewrite Epc in *. cbn in *. lia. }
    destruct (Nat.eq_dec (Wq s p r) (S e)) as [E1|].
    - rewrite E1, fl_same, Bool.eqb_reflx. discriminate.
    - replace (Wq s p r) with (S (S e)) by lia. rewrite fl_next, Bool.eqb_reflx. discriminate. }
  destruct (Nat.eq_dec (q s p) e) as [Eqp|Hq].
  - pose proof (i_e0 s p Hlp) as He0. specialize (Hent p Hpn Eqp).
    pose proof (Hent 0 ltac:(lia)) as He.
    pose proof (i_pc s p Hlp 0 ltac:(lia)) as Hpp. unfold pc_ok in Hpp. cbn [Nat.eqb] in Hpp.
    destruct (pc s p 0) as [|i|r'|r'| | |] eqn:Epp.
    + lia.
    + exists p. split; auto. split; [rewrite Epp; discriminate|].
      unfold step. rewrite Epp. destruct (Nat.ltb_spec i tpc) as [Hi|]; [|discriminate].
      rewrite (i_ts s p Hlp), (i_cs s p Hlp) by lia.
      destruct (i_et s p Hlp i ltac:(lia)) as (B1 & _).
      specialize (Hent i ltac:(lia)). replace (entered s p i) with (S (q s p)) by lia.
      rewrite odd_S. now destruct (Nat.odd (q s p)).
    + exists p. split; auto. split; [rewrite Epp; discriminate|].
      unfold step. rewrite Epp. discriminate.
    + destruct (Nat.lt_ge_cases r' r) as [Hlt|Hge].
      * apply (IH r' Hlt p); auto.
      * apply Hres. unfold Wq. rewrite Epp. cbn [sent].
        destruct (Nat.leb_spec r r'); cbn; lia.
    + exists p. split; auto. split; [rewrite Epp; discriminate|].
      unfold step. rewrite Epp. discriminate.
    + exists p. split; auto. split; [rewrite Epp; discriminate|].
      unfold step. rewrite Epp. discriminate.
    + destruct Hpp.
  - apply Hres. specialize (Hmin p Hpn). pose proof (Wq_bounds s p r). lia.
Qed.

(** If some thread is inside its k-th wait and all threads have entered their
    k-th wait, then some thread inside wait can move. *)
Lemma barrier_progress s c t :
  reachable s -> c < n -> t < tpc -> pc s c t <> Out ->
  (forall c' t', c' < n -> t' < tpc -> entered s c t <= entered s c' t') ->
  exists c' t', c' < n /\ t' < tpc /\ can_move s c' t'.
Proof.
  intros Hr Hc Ht Hpc Hall. pose proof (reachable_inv s Hr) as I.
  pose proof (i_loc s I c Hc) as Hl.
  destruct (least_q s) as (m & Hm & Hmin).
  destruct (Nat.lt_ge_cases (q s m) (entered s c t)) as [Hlt|Hge].
  - (* the slowest core has not finished the episode *)
    pose proof (i_loc s I m Hm) as Hlm.
    pose proof (Hall m 0 Hm ltac:(lia)) as He. rewrite (i_e0 s m Hlm) in He.
    assert (Ec : entered s c t = S (q s m)) by (destruct (pc s m 0); lia).
    pose proof (i_pc s m Hlm 0 ltac:(lia)) as Hpp. unfold pc_ok in Hpp. cbn [Nat.eqb] in Hpp.
    destruct (pc s m 0) as [|i|r'|r'| | |] eqn:Epp.
    + lia.
    + exists m, 0. repeat split; auto; [rewrite Epp; discriminate|].
      unfold step. rewrite Epp. destruct (Nat.ltb_spec i tpc) as [Hi|]; [|discriminate].
      rewrite (i_ts s m Hlm), (i_cs s m Hlm) by lia.
      destruct (i_et s m Hlm i ltac:(lia)) as (B1 & _).
      specialize (Hall m i Hm ltac:(lia)). replace (entered s m i) with (S (q s m)) by lia.
      rewrite odd_S. now destruct (Nat.odd (q s m)).
    + exists m, 0. repeat split; auto; [rewrite Epp; discriminate|].
      unfold step. rewrite Epp. discriminate.
    + destruct (recv_progress s (q s m) I Hmin) with (r := r') (c := m) as (x & Hx & Hmv); auto.
      * intros x Hx Eq y Hy. specialize (Hall x y Hx Hy). lia.
      * exists x, 0. auto.
    + exists m, 0. repeat split; auto; [rewrite Epp; discriminate|].
      unfold step. rewrite Epp. discriminate.
    + exists m, 0. repeat split; auto; [rewrite Epp; discriminate|].
      unfold step. rewrite Epp. discriminate.
    + destruct Hpp.
  - (* the thread's core has finished: it can leave *)
    specialize (Hmin c Hc).
    destruct (Nat.eq_dec t 0) as [->|Ht0].
    + rewrite (i_e0 s c Hl) in Hge. destruct (pc s c 0); congruence || lia.
    + destruct (i_et s c Hl t ltac:(lia)) as (B1 & _).
      pose proof (i_pc s c Hl t Ht) as Hp. unfold pc_ok in Hp.
      destruct (Nat.eqb_spec t 0); [lia|]. destruct Hp as [Hp|Hp]; [congruence|].
      exists c, t. repeat split; auto. unfold step. rewrite Hp.
      rewrite (i_cs s c Hl), (i_ts s c Hl) by auto.
      replace (entered s c t) with (q s c) by lia. rewrite Bool.eqb_reflx. discriminate.
Qed.

(** *** Termination of the inside steps *)

Definition rem (p : pcT) : nat :=
  match p with
  | Out => 0 | WCore => 1 | Wake => 1 | Adj => 2
  | Recv r => 2 * (L - 1 - r) + 3
  | Send r => 2 * (L - 1 - r) + 4
  | WThr i => (tpc - i) + 2 * L + 3
  end.

Definition total (s : state) : nat :=
  list_sum (map (fun ct => rem (pc s (fst ct) (snd ct)))
                (list_prod (seq 0 n) (seq 0 tpc))).

Lemma list_sum_cons a l : list_sum (a :: l) = a + list_sum l.
Proof. reflexivity. Qed.

Lemma list_sum_le {A} (f g : A -> nat) l :
  (forall x, In x l -> g x <= f x) -> list_sum (map g l) <= list_sum (map f l).
Proof.
  induction l as [|a l IH]; intros H; [auto|]. cbn [map]. rewrite !list_sum_cons.
  specialize (IH (fun x Hx => H x (or_intror Hx))). pose proof (H a (or_introl eq_refl)). lia.
Qed.

Lemma list_sum_lt {A} (f g : A -> nat) l a :
  In a l -> g a < f a -> (forall x, In x l -> g x <= f x) ->
  list_sum (map g l) < list_sum (map f l).
Proof.
  induction l as [|b l IH]; [intros []|]. intros Ha Hlt H. cbn [map]. rewrite !list_sum_cons.
  pose proof (list_sum_le f g l (fun x Hx => H x (or_intror Hx))).
  destruct Ha as [->|Ha].
  - lia.
  - specialize (IH Ha Hlt (fun x Hx => H x (or_intror Hx))).
    pose proof (H b (or_introl eq_refl)). lia.
Qed.

Lemma rem_step s c t s' : inv s -> c < n -> t < tpc -> pc s c t <> Out ->
  step c t s = Some s' -> rem (pc s' c t) < rem (pc s c t).
Proof.
  intros I Hc Ht Hne E. unfold step in E.
  pose proof (i_pc s c (i_loc s I c Hc) t Ht) as Hp. unfold pc_ok in Hp.
  assert (Hlt : match pc s c t with Send r | Recv r => r < L | _ => True end).
  { destruct (Nat.eqb_spec t 0) as [->|]; [|destruct Hp as [-> | ->]; auto]. destruct (pc s c 0); auto; lia. }
  destruct (pc s c t) as [|i|r0|r0| | |] eqn:Epc; try congruence;
    try destruct (Nat.ltb_spec i tpc);
    try destruct (Bool.eqb (tsense s c i) (csense s c));
    try destruct (Bool.eqb (flag s c (par s c) r0) (sns s c));
    try destruct (Bool.eqb (csense s c) (tsense s c t));
    try discriminate E; injection E as <-; cbn [pc]; rewrite upd2_same.
  all: try destruct (1 <? n); try destruct (Nat.ltb_spec (S r0) L); cbn [rem]; lia.
Qed.

Lemma total_step s c t s' : inv s -> c < n -> t < tpc -> pc s c t <> Out ->
  step c t s = Some s' -> total s' < total s.
Proof.
  intros I Hc Ht Hne E. pose proof (only_moves_step _ _ _ _ E) as [Ho _].
  unfold total. apply list_sum_lt with (a := (c, t)).
  - apply in_prod; apply in_seq; lia.
  - cbn [fst snd]. eapply rem_step; eauto.
  - intros [x y] _. cbn [fst snd].
    destruct (Nat.eq_dec x c) as [Ex|Ex];
      [destruct (Nat.eq_dec y t) as [Ey|Ey]|];
      try (destruct (Ho x y ltac:(lia)) as [-> _]; auto; fail).
    subst. apply Nat.lt_le_incl. eapply rem_step; eauto.
Qed.

(** A run of inside steps is no longer than [total]. *)
Lemma run_inside_bounded s k s' : reachable s -> run_inside s k s' -> k + total s' <= total s.
Proof.
  intros Hr H. revert Hr. induction H as [|s c t s1 k s2 Hc Ht Hne E H IH]; intros Hr; [lia|].
  assert (reachable s1) by (econstructor; eauto). specialize (IH H0).
  pose proof (total_step s c t s1 (reachable_inv s Hr) Hc Ht Hne E). lia.
Qed.

Lemma run_inside_reachable s k s' : reachable s -> run_inside s k s' -> reachable s'.
Proof.
  intros Hr H. revert Hr. induction H as [|s c t s1 k s2 Hc Ht Hne E H IH]; intros Hr; auto.
  apply IH. econstructor; eauto.
Qed.

Lemma run_inside_entered s k s' : run_inside s k s' -> forall c t, entered s' c t = entered s c t.
Proof.
  induction 1 as [|s c t s1 k s2 Hc Ht Hne E H IH]; auto. intros x y. rewrite IH.
  unfold step in E.
  destruct (pc s c t) as [|i|r0|r0| | |] eqn:Epc; try congruence;
    try destruct (Nat.ltb_spec i tpc);
    try destruct (Bool.eqb (tsense s c i) (csense s c));
    try destruct (Bool.eqb (flag s c (par s c) r0) (sns s c));
    try destruct (Bool.eqb (csense s c) (tsense s c t));
    try discriminate E; injection E as <-; reflexivity.
Qed.

(** Outside wait, a thread has left as often as it entered. *)
Lemma out_balanced s c t : reachable s -> c < n -> t < tpc -> pc s c t = Out ->
  left s c t = entered s c t.
Proof.
  intros Hr Hc Ht Ho. pose proof (i_loc s (reachable_inv s Hr) c Hc) as Hl.
  destruct (Nat.eq_dec t 0) as [->|].
  - rewrite (i_e0 s c Hl), Ho. unfold q. lia.
  - destruct (i_et s c Hl t ltac:(lia)) as (B1 & B2 & B3). rewrite Ho in B3. lia.
Qed.

(** Once every thread has called its k-th wait, and whatever the scheduler
    does, as long as it keeps moving threads that can move, everybody leaves
    the k-th wait after a bounded number of steps. *)
Lemma barrier_completes s k e s' :
  reachable s -> (forall c t, c < n -> t < tpc -> entered s c t = k) ->
  run_inside s e s' ->
  e <= total s /\
  ((exists c t, c < n /\ t < tpc /\ can_move s' c t) \/
   (forall c t, c < n -> t < tpc -> pc s' c t = Out /\ left s' c t = k)).
Proof.
  intros Hr Hk Hrun. split; [pose proof (run_inside_bounded s e s' Hr Hrun); lia|].
  pose proof (run_inside_reachable s e s' Hr Hrun) as Hr'.
  pose proof (run_inside_entered s e s' Hrun) as He.
  assert (Hdec : (exists c t, c < n /\ t < tpc /\ pc s' c t <> Out) \/
                 (forall c t, c < n -> t < tpc -> pc s' c t = Out)).
  { set (l := list_prod (seq 0 n) (seq 0 tpc)).
    assert (Hl : (exists a, In a l /\ pc s' (fst a) (snd a) <> Out) \/
                 (forall a, In a l -> pc s' (fst a) (snd a) = Out)).
    { induction l as [|a l IH]; [right; intros a []|].
      assert (Hd : pc s' (fst a) (snd a) = Out \/ pc s' (fst a) (snd a) <> Out)
        by (destruct (pc s' (fst a) (snd a)); auto; right; discriminate).
      destruct Hd as [Hd|Hd]; [|left; exists a; cbn; auto].
      destruct IH as [(b & Hb & Hb')|Hall]; [left; exists b; cbn; auto|].
      right. intros b [<-|Hb]; auto. }
    destruct Hl as [([c t] & Hin & Hne)|Hall].
    - left. exists c, t. apply in_prod_iff in Hin as [H1 H2]. apply in_seq in H1, H2.
      repeat split; auto; lia.
    - right. intros c t Hc Ht. apply (Hall (c, t)). apply in_prod; apply in_seq; lia. }
  destruct Hdec as [(c & t & Hc & Ht & Hne)|Hall].
  - left. apply (barrier_progress s' c t); auto.
    intros c' t' Hc' Ht'. rewrite !He, !Hk by auto. lia.
  - right. intros c t Hc Ht. split; auto.
    rewrite (out_balanced s' c t), He; auto.
Qed.

End Barrier.

(** /repo/synk/synk.cpp:57-76: number of rounds, [ceil(log2(numCores))] and at
    least 1 (the double-precision [log2] and [ceil] are taken as exact). *)
Definition rounds (n : nat) : nat := Nat.max 1 (Nat.log2_up n).

Lemma rounds_ok n : 1 <= n -> 1 <= rounds n /\ n <= 2 ^ rounds n.
Proof.
  intros Hn. unfold rounds. split; [lia|].
  destruct (Nat.eq_dec n 1) as [->|].
  - cbn. lia.
  - pose proof (Nat.log2_up_spec n ltac:(lia)) as [_ H].
    etransitivity; [exact H|]. apply Nat.pow_le_mono_r; lia.
Qed.

(** /repo/synk/synk.cpp:44-53: the USE_MCRT build computes the position of the
    highest set bit instead. *)
Definition rounds_mcrt (n : nat) : nat := Nat.max 1 (Nat.log2 n).

(** With 3 cores it gives one round only. *)
Definition mcrt_trace : list (nat * nat) :=
  [(2,0);(2,0);(2,0);(0,0);(0,0);(0,0);(0,0);(0,0);(0,0)].
Lemma barrier_mcrt_unsafe : exists s,
  reachable 3 1 (rounds_mcrt 3) s /\ left s 0 0 = 1 /\ entered s 1 0 = 0.
Proof.
  assert (H : option_map (fun s => (left s 0 0, entered s 1 0)) (exec 3 1 (rounds_mcrt 3) mcrt_trace init)
              = Some (1, 0)) by (vm_compute; reflexivity).
  destruct (exec 3 1 (rounds_mcrt 3) mcrt_trace init) as [s|] eqn:E; [|discriminate].
  cbn [option_map] in H. injection H as H1 H2. exists s. split; auto.
  eapply exec_reachable; eauto. constructor.
Qed.
