(** * The reducing barrier (/repo/synk/reduce.hpp:254-359).

    Same conventions as [Barrier]: interleaving of single shared accesses,
    sequentially consistent.  The rounds are run by participants: every core, and
    the "pseudo cores" that pad the number of cores to a power of two.  Thread 0 of
    a core runs the rounds of the core; thread 1, or thread 0 if it is the only one,
    those of the pseudo core that the core represents, if any. *)
From Coq Require Import List Arith Lia Bool PeanoNat Permutation.
Import ListNotations.
From Verif Require Import Barrier.

(** ** The rounds of one participant (lines 281-306, 311-323 and 336-350) *)
Section Rounds.
Context {V : Type} (op : V -> V -> V).
Variables P L : nat.

Inductive xpc :=
| XOut
| XW (r : nat)    (* *partnerRvals[r] = redVal *)
| XF (r : nat)    (* *partnerFlags[parity][r] = sense *)
| XR (r : nat)    (* spin on myFlags[parity][r] *)
| XC (r : nat)    (* redVal = redFunc(redVal, myRvals[r]) *)
| XDone.          (* parity and sense, lines 302-306, 322-323, 348-350 *)
Record xstate := mkX {
  xrv   : nat -> nat -> V;
  xflag : nat -> bool -> nat -> bool;
  xpar  : nat -> bool;
  xsns  : nat -> bool;
  xacc  : nat -> V;                     (* redVal, resp. zeroVal *)
  xpcs  : nat -> xpc;
  xn    : nat -> nat                    (* times left (ghost) *)
}.
(** reduce.hpp:192, 218 *)
Definition xpartner (v r : nat) : nat := (v + 2 ^ r) mod P.
(** Start of the loop: line 281, 311 or 336. *)
Definition xenter (v : nat) (a : V) (s : xstate) : xstate :=
  mkX (xrv s) (xflag s) (xpar s) (xsns s) (upd1 (xacc s) v a) (upd1 (xpcs s) v (if 0 <? L then XW 0 else XDone)) (xn s).
(** The next access of participant [v]; [None]: it spins. *)
Definition xstep (v : nat) (s : xstate) : option xstate :=
  match xpcs s v with
  | XW r => Some (mkX (upd2 (xrv s) (xpartner v r) r (xacc s v)) (xflag s) (xpar s) (xsns s) (xacc s) (upd1 (xpcs s) v (XF r)) (xn s))
  | XF r => Some (mkX (xrv s) (updf (xflag s) (xpartner v r) (xpar s v) r (xsns s v)) (xpar s) (xsns s) (xacc s) (upd1 (xpcs s) v (XR r)) (xn s))
  | XR r => if Bool.eqb (xflag s v (xpar s v) r) (xsns s v) then Some (mkX (xrv s) (xflag s) (xpar s) (xsns s) (xacc s) (upd1 (xpcs s) v (XC r)) (xn s)) else None
  | XC r => Some (mkX (xrv s) (xflag s) (xpar s) (xsns s) (upd1 (xacc s) v (op (xacc s v) (xrv s v r))) (upd1 (xpcs s) v (if S r <? L then XW (S r) else XDone)) (xn s))
  | XDone => Some (mkX (xrv s) (xflag s) (upd1 (xpar s) v (negb (xpar s v))) (if xpar s v then upd1 (xsns s) v (negb (xsns s v)) else xsns s) (xacc s) (upd1 (xpcs s) v XOut) (upd1 (xn s) v (S (xn s v))))
  | XOut => None
  end.
(** reduce.hpp:137-149, 158-168; the values in memory are arbitrary. *)
Definition xinit (rv0 : nat -> nat -> V) (acc0 : nat -> V) : xstate :=
  mkX rv0 (fun _ _ _ => false) (fun _ => false) (fun _ => true) acc0 (fun _ => XOut) (fun _ => 0).
End Rounds.

(** ** Model *)
Section Multi.
Context {V : Type} (op : V -> V -> V).
(** [n] cores, [P] = nearestPow2Cores, [L] rounds, [tpc] threads per core. *)
Variables n P L tpc : nat.

Inductive mpc :=
| MOut
| MSig                (* line 265 *)
| MGather (i : nat)   (* line 270 *)
| MGet (i : nat)      (* line 274 *)
| MX                  (* in the rounds *)
| MXp                 (* in the rounds of the pseudo core, by thread 0 (lines 281-306) *)
| MRv                 (* line 327: rval = redVal *)
| MWake               (* line 329: coreSense = threadSenses[0] *)
| MWait               (* line 354 *)
| MRet.               (* line 358 *)
Record mstate := mkM {
  mx   : @xstate V;
  mtr  : nat -> nat -> V;       (* threadRvals *)
  mts  : nat -> nat -> bool;    (* threadSenses *)
  mcs  : nat -> bool;           (* coreSense *)
  mrv  : nat -> V;              (* rval *)
  mred : nat -> V;              (* redVal of thread 0 up to line 275 *)
  mpcs : nat -> nat -> mpc;
  ment : nat -> nat -> nat;     (* calls entered (ghost) *)
  mout : nat -> nat -> list V   (* results returned, latest first (ghost) *)
}.
(** The participant that thread [t] of core [c] plays outside lines 281-306. *)
Definition vcore (c t : nat) : nat := if t =? 0 then c else c + n.
Definition has_pseudo (c : nat) : bool := c + n <? P.              (* reduce.hpp:154-155 *)
Definition both (c : nat) : bool := (tpc =? 1) && has_pseudo c.     (* line 280 *)
Definition m_pc s x c t p := mkM x (mtr s) (mts s) (mcs s) (mrv s) (mred s) (upd2 (mpcs s) c t p) (ment s) (mout s).
(** Thread 0 enters the rounds with redVal = [a]. *)
Definition start (zero : V) (c : nat) (a : V) (x : xstate) : xstate :=
  if both c then xenter L (c + n) zero (xenter L c a x) else xenter L c a x.
(** After an access of the rounds at [p]. *)
Definition after (t : nat) (p : xpc) : mpc :=
  match p with XDone => if t =? 0 then MRv else MWait | _ => MX end.

(** One step of thread [t] of core [c].  [zero] and [contrib c t k] are the
    arguments zeroVal and redVal of its k-th call. *)
Definition mstep (zero : V) (contrib : nat -> nat -> nat -> V) (c t : nat) (s : mstate) : option mstate :=
  match mpcs s c t with
  | MOut => let a := contrib c t (ment s c t) in   (* line 263 *)
      Some (mkM (mx s) (upd2 (mtr s) c t a) (mts s) (mcs s) (mrv s) (if t =? 0 then upd1 (mred s) c a else mred s)
              (upd2 (mpcs s) c t MSig) (upd2 (ment s) c t (S (ment s c t))) (mout s))
  | MSig =>
      let (x, p) := if t =? 0 then (if 1 <? tpc then (mx s, MGather 1) else (start zero c (mred s c) (mx s), MX))
                    else if (t =? 1) && has_pseudo c then (xenter L (c + n) zero (mx s), MX) else (mx s, MWait) in
      Some (mkM x (mtr s) (upd2 (mts s) c t (negb (mts s c t))) (mcs s) (mrv s) (mred s) (upd2 (mpcs s) c t p) (ment s) (mout s))
  | MGather i => if Bool.eqb (mts s c i) (mcs s c) then None else Some (m_pc s (mx s) c t (MGet i))
  | MGet i => let a := op (mred s c) (mtr s c i) in
      let (x, p) := if S i <? tpc then (mx s, MGather (S i)) else (start zero c a (mx s), MX) in
      Some (mkM x (mtr s) (mts s) (mcs s) (mrv s) (upd1 (mred s) c a) (upd2 (mpcs s) c t p) (ment s) (mout s))
  | MX => match xstep op P L (vcore c t) (mx s) with
      | Some x => Some (m_pc s x c t (if both c then MXp else after t (xpcs (mx s) (vcore c t))))
      | None => None
      end
  | MXp => match xstep op P L (c + n) (mx s) with
      | Some x => Some (m_pc s x c t (after t (xpcs (mx s) (c + n))))
      | None => None
      end
  | MRv => Some (mkM (mx s) (mtr s) (mts s) (mcs s) (upd1 (mrv s) c (xacc (mx s) c)) (mred s) (upd2 (mpcs s) c t MWake) (ment s) (mout s))
  | MWake => Some (mkM (mx s) (mtr s) (mts s) (upd1 (mcs s) c (mts s c 0)) (mrv s) (mred s) (upd2 (mpcs s) c t MRet) (ment s) (mout s))
  | MWait => if Bool.eqb (mcs s c) (mts s c t) then Some (m_pc s (mx s) c t MRet) else None
  | MRet => Some (mkM (mx s) (mtr s) (mts s) (mcs s) (mrv s) (mred s) (upd2 (mpcs s) c t MOut) (ment s) (upd2 (mout s) c t (mrv s c :: mout s c t)))
  end.

(** reduce.hpp:130-240.  The values in memory at the start are arbitrary. *)
Definition minit (rv0 : nat -> nat -> V) (acc0 : nat -> V) (tr0 : nat -> nat -> V) (red0 r0 : nat -> V) : mstate :=
  mkM (xinit rv0 acc0) tr0 (fun _ _ => true) (fun _ => true) r0 red0 (fun _ _ => MOut) (fun _ _ => 0) (fun _ _ => []).
Inductive mreach (zero : V) (contrib : nat -> nat -> nat -> V) (s0 : mstate) : mstate -> Prop :=
| mr_init : mreach zero contrib s0 s0
| mr_step : forall s c t s', mreach zero contrib s0 s -> c < n -> t < tpc -> mstep zero contrib c t s = Some s' -> mreach zero contrib s0 s'.
(** The same, if a thread starts a call only when everybody has returned from the previous one. *)
Inductive msep (zero : V) (contrib : nat -> nat -> nat -> V) (s0 : mstate) : mstate -> Prop :=
| ms_init : msep zero contrib s0 s0
| ms_step : forall s c t s', msep zero contrib s0 s -> c < n -> t < tpc ->
    (mpcs s c t = MOut -> forall c' t', c' < n -> t' < tpc -> ment s c t <= length (mout s c' t')) ->
    mstep zero contrib c t s = Some s' -> msep zero contrib s0 s'.
Fixpoint mexec (zero : V) contrib (tr : list (nat * nat)) (s : mstate) : option mstate :=
  match tr with
  | [] => Some s
  | (c, t) :: tr' => if (c <? n) && (t <? tpc) then match mstep zero contrib c t s with Some s' => mexec zero contrib tr' s' | None => None end else None
  end.
End Multi.

(** ** Reductions of ranges of participants *)
Section Ranges.
Context {V : Type} (op : V -> V -> V).
Variables n P L : nat.
Variable zero : V.
Variable val : nat -> V.
Hypothesis op_assoc : forall a b c, op a (op b c) = op (op a b) c.
Hypothesis op_comm : forall a b, op a b = op b a.
Hypothesis op_zero : forall a, op a zero = a.
Hypothesis HP : P = 2 ^ L.
Hypothesis HL : 1 <= L.
Hypothesis HnP : n <= P.
Hypothesis HPn : P < 2 * n.

(** Value with which a participant enters. *)
Definition vval (v : nat) : V := if v <? n then val v else zero.

(** Reduction of the values of v, v-1, ..., v-k+1 (cyclically). *)
Fixpoint range (v k : nat) : V :=
  match k with
  | 0 => zero
  | S k => op (range v k) (vval ((v + P - k) mod P))
  end.

Lemma P_pos : 1 <= P.
Proof. rewrite HP. pose proof (Nat.pow_nonzero 2 L). lia. Qed.

Lemma range_split v a b : v < P -> a + b <= P ->
  range v (a + b) = op (range v a) (range ((v + P - a) mod P) b).
Proof.
  intros Hv Hab. pose proof P_pos as HPp. induction b as [|b IH].
  - rewrite Nat.add_0_r. cbn. now rewrite op_zero.
  - rewrite Nat.add_succ_r. cbn [range]. rewrite IH, <- op_assoc by lia. f_equal. f_equal. f_equal.
    rewrite <- (Nat.mod_add (v + P - (a + b)) 1 P) by lia.
    replace (v + P - (a + b) + 1 * P) with (v + P - a + (P - b)) by lia.
    rewrite <- (Nat.add_mod_idemp_l (v + P - a)) by lia. f_equal. lia.
Qed.

(** The reduction of everybody's value, in the order of the core numbers. *)
Definition total_reduction : V := fold_left op (map val (seq 0 n)) zero.

Lemma fold_left_op_perm l l' a : Permutation l l' -> fold_left op l a = fold_left op l' a.
Proof.
  intros H. revert a. induction H; intros a; cbn; auto.
  - f_equal. rewrite <- !op_assoc. f_equal. apply op_comm.
  - rewrite IHPermutation1. auto.
Qed.

Lemma range_fold v k : range v k = fold_left op (map (fun d => vval ((v + P - d) mod P)) (seq 0 k)) zero.
Proof.
  induction k as [|k IH]; [reflexivity|].
  rewrite seq_S, map_app, fold_left_app. cbn. now rewrite IH.
Qed.

Lemma range_total v : v < P -> range v P = total_reduction.
Proof.
  intros Hv. rewrite range_fold. pose proof P_pos as HPp.
  transitivity (fold_left op (map vval (seq 0 P)) zero).
  - rewrite <- (map_map (fun d => (v + P - d) mod P) vval).
    apply fold_left_op_perm. apply Permutation_map.
    apply NoDup_Permutation_bis.
    + assert (Hinj : forall a b, In a (seq 0 P) -> In b (seq 0 P) ->
        (v + P - a) mod P = (v + P - b) mod P -> a = b).
      2:{ clear - Hinj. pose proof (seq_NoDup P 0) as Hnd. revert Hinj Hnd.
          generalize (seq 0 P) as l. induction l as [|x l IH]; intros Hinj Hnd; cbn; [constructor|].
          inversion Hnd as [|x' l' Hx Hnd']; subst. constructor.
          - intros Hin. apply in_map_iff in Hin as (y & Ey & Hy).
            apply Hinj in Ey; [subst; auto|right; auto|left; auto].
          - apply IH; auto. intros a b Ha Hb. apply Hinj; right; auto. }
      intros a b Ha Hb E. apply in_seq in Ha, Hb.
      set (va := v + P - a) in *. set (vb := v + P - b) in *.
      pose proof (Nat.div_mod va P ltac:(lia)) as E1. pose proof (Nat.div_mod vb P ltac:(lia)) as E2.
      rewrite E in E1. unfold va, vb in *. 
      pose proof (Nat.mod_upper_bound (v + P - b) P ltac:(lia)).
      set (x := (v + P - a) / P) in *. set (y := (v + P - b) / P) in *.
      destruct (Nat.lt_trichotomy x y) as [Hl|[He|Hg]].
      * assert (P * x + P <= P * y) by nia. lia.
      * rewrite He in E1. lia.
      * assert (P * y + P <= P * x) by nia. lia.
    + rewrite map_length, !seq_length. auto.
    + intros x Hx. apply in_map_iff in Hx as (d & <- & Hd). apply in_seq.
      pose proof (Nat.mod_upper_bound (v + P - d) P ltac:(lia)). lia.
  - replace P with (n + (P - n)) at 1 by lia. rewrite seq_app, map_app, fold_left_app.
    assert (E1 : map vval (seq 0 n) = map val (seq 0 n)).
    { apply map_ext_in. intros c Hc. apply in_seq in Hc. unfold vval.
      destruct (Nat.ltb_spec c n); auto; lia. }
    rewrite E1. fold total_reduction. cbn [Nat.add].
    assert (E2 : forall k m b, n <= m -> fold_left op (map vval (seq m k)) b = b).
    { induction k as [|k IH]; intros m b Hm; cbn; auto.
      unfold vval at 2. destruct (Nat.ltb_spec m n); [lia|]. rewrite op_zero. apply IH. lia. }
    apply E2. auto.
Qed.

Lemma xpartner_lt v r : xpartner P v r < P.
Proof. unfold xpartner. apply Nat.mod_upper_bound. pose proof P_pos. lia. Qed.

Lemma xpartner_inj a b r : a < P -> b < P -> xpartner P a r = xpartner P b r -> a = b.
Proof.
  intros Ha Hb E. unfold xpartner in E.
  eapply (mod_add_inj P); eauto; pose proof P_pos; lia.
Qed.

Lemma xpartner_onto v r : v < P -> r < L -> exists p, p < P /\ xpartner P p r = v /\ p = (v + P - 2 ^ r) mod P.
Proof.
  intros Hv Hr. pose proof P_pos.
  assert (2 ^ r <= P) by (rewrite HP; apply Nat.pow_le_mono_r; lia).
  exists ((v + P - 2 ^ r) mod P). repeat split.
  - apply Nat.mod_upper_bound; lia.
  - unfold xpartner. rewrite Nat.add_mod_idemp_l by lia.
    replace (v + P - 2 ^ r + 2 ^ r) with (v + 1 * P) by lia.
    rewrite Nat.mod_add by lia. apply Nat.mod_small; auto.
Qed.

Lemma range_1 v : v < P -> range v 1 = vval v.
Proof.
  intros Hv. cbn. rewrite op_comm, op_zero. f_equal. rewrite Nat.sub_0_r.
  replace (v + P) with (v + 1 * P) by lia. pose proof P_pos.
  rewrite Nat.mod_add by lia. apply Nat.mod_small; auto.
Qed.

Lemma range_double v r : v < P -> r < L ->
  range v (2 ^ S r) = op (range v (2 ^ r)) (range ((v + P - 2 ^ r) mod P) (2 ^ r)).
Proof.
  intros Hv Hr. replace (2 ^ S r) with (2 ^ r + 2 ^ r) by (cbn; lia).
  apply range_split; auto.
  assert (2 ^ S r <= P) by (rewrite HP; apply Nat.pow_le_mono_r; lia). cbn in *. lia.
Qed.

End Ranges.

(** /repo/synk/synk.cpp:70-72: the least power of two that is at least [n]. *)
Definition nearest_pow2 (n : nat) : nat := 2 ^ Nat.log2_up n.

Lemma nearest_pow2_ok n : 2 <= n ->
  nearest_pow2 n = 2 ^ rounds n /\ n <= nearest_pow2 n /\ nearest_pow2 n < 2 * n.
Proof.
  intros Hn. unfold nearest_pow2, rounds.
  pose proof (Nat.log2_up_spec n ltac:(lia)) as [H1 H2].
  assert (H3 : 1 <= Nat.log2_up n) by (apply Nat.log2_up_pos; lia).
  rewrite Nat.max_r by lia. repeat split; auto.
  replace (Nat.log2_up n) with (S (pred (Nat.log2_up n))) by lia.
  cbn [Nat.pow]. lia.
Qed.

