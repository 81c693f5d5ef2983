(** * Runs of the instrumented barrier (/repo/synk/loadimba.cpp:166-180): every thread
    reads the clock, takes part in the reduction ([Reduce], C28) with the maximum and
    0, reads the clock again and adds to its own arrays.

    The clocks of all processors show the same time; it does not run backwards. *)
From Coq Require Import List Arith Lia Bool PeanoNat NArith ZArith.
Import ListNotations.
From Verif Require Import Barrier Reduce ReduceProof.
From Verif Require Base MemoryPool LoadImba.

(** ** Model *)
Section Model.
Variables n tpc : nat.
(** Between two calls; between the two readings of the clock; before the second. *)
Inductive lpc := LOut | LIn | LBack.
(** The reduction; the time of the last step; where the threads are; the values of
    cstart and the values of cstart, clast and cout of the calls that ended, the
    latest first. *)
Record lstate := mkL { lm : @mstate N; lnow : N; lpcs : nat -> nat -> lpc; lcs : nat -> nat -> list N; llog : nat -> nat -> list (N * N * N) }.
Definition rmax_step (contrib : nat -> nat -> nat -> N) := mstep N.max n (nearest_pow2 n) (rounds n) tpc 0%N contrib.
(** One step of thread [t] of core [c] at time [tm]; None: it spins. *)
Definition lstep (tm : N) (c t : nat) (s : lstate) : option lstate :=
  match lpcs s c t with
  | LOut =>    (* lines 168-169 *)
      Some (mkL (lm s) tm (upd2 (lpcs s) c t LIn) (upd2 (lcs s) c t (tm :: lcs s c t)) (llog s))
  | LIn =>     (* line 170 *)
      match rmax_step (fun c t _ => hd 0%N (lcs s c t)) c t (lm s) with
      | Some m => Some (mkL m tm (upd2 (lpcs s) c t (match mpcs (lm s) c t with MRet => LBack | _ => LIn end)) (lcs s) (llog s))
      | None => None
      end
  | LBack =>   (* lines 171-179 *)
      match lcs s c t, mout (lm s) c t with
      | a :: _, v :: _ => Some (mkL (lm s) tm (upd2 (lpcs s) c t LOut) (lcs s) (upd2 (llog s) c t ((a, v, tm) :: llog s c t)))
      | _, _ => None
      end
  end.
(** The reduction as reduce.hpp:130-240 leaves it, with arbitrary values in memory. *)
Definition linit (rv0 : nat -> nat -> N) (acc0 : nat -> N) (tr0 : nat -> nat -> N) (red0 r0 : nat -> N) (tm : N) : lstate :=
  mkL (minit rv0 acc0 tr0 red0 r0) tm (fun _ _ => LOut) (fun _ _ => []) (fun _ _ => []).
Inductive lreach (s0 : lstate) : lstate -> Prop :=
| lr_init : lreach s0 s0
| lr_step : forall s tm c t s', lreach s0 s -> c < n -> t < tpc -> (lnow s <= tm)%N -> lstep tm c t s = Some s' -> lreach s0 s'.
(** A thread starts a call only when everybody has returned from the previous one. *)
Inductive lsep (s0 : lstate) : lstate -> Prop :=
| ls_init : lsep s0 s0
| ls_step : forall s tm c t s', lsep s0 s -> c < n -> t < tpc -> (lnow s <= tm)%N ->
    (lpcs s c t = LOut -> forall c' t', c' < n -> t' < tpc -> length (lcs s c t) <= length (llog s c' t')) ->
    lstep tm c t s = Some s' -> lsep s0 s'.
(** When thread [tid] began its calls, and what it measured, the first call first. *)
Definition starts (s : lstate) (tid : nat) : list N := rev (lcs s (tid / tpc) (tid mod tpc)).
Definition measured (s : lstate) (tid : nat) : list (N * N * N) := rev (llog s (tid / tpc) (tid mod tpc)).
(** Runs for the examples: turns of threads that cannot move are skipped, with [sep]
    also of those that may not start. *)
Definition may_begin (s : lstate) (c t : nat) : bool :=
  match lpcs s c t with LOut => forallb (fun c' => forallb (fun t' => length (lcs s c t) <=? length (llog s c' t')) (seq 0 tpc)) (seq 0 n) | _ => true end.
Fixpoint lrun (sep : bool) (tr : list (N * (nat * nat))) (s : lstate) : lstate :=
  match tr with
  | [] => s
  | (tm, (c, t)) :: tr => lrun sep tr
      (if (c <? n) && (t <? tpc) && (lnow s <=? tm)%N && (negb sep || may_begin s c t) then match lstep tm c t s with Some s' => s' | None => s end else s)
  end.
(** The calls of a thread as [LoadImba] counts them; [use k]: the barNum of the k-th. *)
Definition calls_of (use : nat -> Z) (l : list (N * N * N)) : list LoadImba.call :=
  map (fun e => let '(k, (a, v, o)) := e in LoadImba.mkCall (use k) (Z.of_N a) (Z.of_N v) (Z.of_N o)) (combine (seq 0 (length l)) l).
End Model.

(** ** Proofs *)
Section Proofs.
Variables n tpc : nat.
Hypothesis Hn : 2 <= n.
Hypothesis Ht : 1 <= tpc.
Notation st := (fun e : N * N * N => fst (fst e)).
Notation la := (fun e : N * N * N => snd (fst e)).

Lemma upd2_same {X} (f : nat -> nat -> X) a b v : upd2 f a b v a b = v.
Proof. unfold upd2. now rewrite !Nat.eqb_refl. Qed.
Lemma upd2_other {X} (f : nat -> nat -> X) a b v c d : (c, d) <> (a, b) -> upd2 f a b v c d = f c d.
Proof. intros H. unfold upd2. destruct (Nat.eqb_spec c a), (Nat.eqb_spec d b); cbn; auto; subst; congruence. Qed.

Lemma mstep_at contrib contrib' c t m : contrib c t (ment m c t) = contrib' c t (ment m c t) -> rmax_step n tpc contrib c t m = rmax_step n tpc contrib' c t m.
Proof. intros H. unfold rmax_step, mstep. destruct (mpcs m c t); auto. now rewrite H. Qed.
Lemma mstep_others contrib c t m m' c' t' : rmax_step n tpc contrib c t m = Some m' -> (c', t') <> (c, t) ->
  mpcs m' c' t' = mpcs m c' t' /\ ment m' c' t' = ment m c' t' /\ mout m' c' t' = mout m c' t'.
Proof.
  intros H N. unfold rmax_step, mstep, m_pc in H.
  destruct (mpcs m c t); repeat match type of H with context [match ?e with _ => _ end] => destruct e; try discriminate end;
    injection H as <-; cbn [mpcs ment mout]; rewrite ?(upd2_other _ _ _ _ _ _ N); auto.
Qed.
Lemma mstep_self contrib c t m m' : rmax_step n tpc contrib c t m = Some m' ->
  match mpcs m c t with
  | MOut => mpcs m' c t <> MOut /\ ment m' c t = S (ment m c t) /\ mout m' c t = mout m c t
  | MRet => mpcs m' c t = MOut /\ ment m' c t = ment m c t /\ exists v, mout m' c t = v :: mout m c t
  | _ => mpcs m' c t <> MOut /\ ment m' c t = ment m c t /\ mout m' c t = mout m c t
  end.
Proof.
  intros H. unfold rmax_step, mstep, m_pc, after in H.
  destruct (mpcs m c t) eqn:E; repeat match type of H with context [match ?e with _ => _ end] => destruct e eqn:?; try discriminate end;
    repeat match goal with X : (_, _) = (_, _) |- _ => injection X as <- <- end;
    injection H as <-; cbn [mpcs ment mout]; rewrite ?upd2_same; repeat split; try congruence; try discriminate; eauto.
  all: repeat match type of Heqp with context [if ?e then _ else _] => destruct e end; injection Heqp as <- <-; discriminate.
Qed.

Definition agrees (x : nat -> nat -> N) (s : lstate) : Prop := forall tid k v, tid < n * tpc -> nth_error (starts tpc s tid) k = Some v -> x tid k = v.
Record linv (s0 : @mstate N) (s : lstate) : Prop := {
  li_pc : forall c t, c < n -> t < tpc ->
    match lpcs s c t with
    | LOut => mpcs (lm s) c t = MOut /\ ment (lm s) c t = length (llog s c t) /\ mout (lm s) c t = map la (llog s c t) /\ lcs s c t = map st (llog s c t)
    | LIn => (exists a, lcs s c t = a :: map st (llog s c t)) /\ mout (lm s) c t = map la (llog s c t) /\
             match mpcs (lm s) c t with
             | MOut => ment (lm s) c t = length (llog s c t) /\ forall c' t', c' < n -> t' < tpc -> ment (lm s) c t <= length (llog s c' t')
             | _ => ment (lm s) c t = S (length (llog s c t))
             end
    | LBack => mpcs (lm s) c t = MOut /\ ment (lm s) c t = S (length (llog s c t)) /\ (exists v, mout (lm s) c t = v :: map la (llog s c t)) /\ exists a, lcs s c t = a :: map st (llog s c t)
    end;
  li_now : forall c t a, c < n -> t < tpc -> In a (lcs s c t) -> (a <= lnow s)%N;
  li_end : forall c t e, c < n -> t < tpc -> In e (llog s c t) -> (snd (fst e) <= snd e)%N /\ (snd e <= lnow s)%N;
  li_sep : forall x, agrees x s -> msep N.max n (nearest_pow2 n) (rounds n) tpc 0%N (core_args tpc x) s0 (lm s) }.

Lemma Nmax_laws : (forall a b c, N.max a (N.max b c) = N.max (N.max a b) c) /\ (forall a b, N.max a b = N.max b a) /\ (forall a, N.max a 0%N = a).
Proof. repeat split; intros; lia. Qed.
(** The times seen so far, and [d] for calls that did not start. *)
Definition xs (d : N) (s : lstate) (tid k : nat) : N := match nth_error (starts tpc s tid) k with Some v => v | None => d end.
Lemma xs_agrees d s : agrees (xs d s) s.
Proof. intros tid k v _ E. unfold xs. now rewrite E. Qed.
Lemma fold_max l a : (forall b, In b l -> (b <= fold_left N.max l a)%N) /\ (a <= fold_left N.max l a)%N /\ (fold_left N.max l a = a \/ In (fold_left N.max l a) l).
Proof.
  revert a. induction l as [|b l IH]; intros a; cbn [fold_left]; [repeat split; auto; [intros b []|lia]|].
  destruct (IH (N.max a b)) as (A & B & C). split; [|split].
  - intros d [<-|D]; [lia|now apply A].
  - lia.
  - destruct C as [C|C]; [|right; now right]. rewrite C. destruct (N.max_spec a b) as [(_ & ->)|(_ & ->)]; [right; now left|now left].
Qed.

Section Init.
Variables (rv0 : nat -> nat -> N) (acc0 : nat -> N) (tr0 : nat -> nat -> N) (red0 r0 : nat -> N).
Notation m0 := (minit rv0 acc0 tr0 red0 r0).
(** The value returned by call [k] is the latest of the starts of call [k]. *)
Lemma linv_max s tid k v : linv m0 s -> tid < n * tpc -> nth_error (returned tpc (lm s) tid) k = Some v ->
  (forall tid', tid' < n * tpc -> exists b, nth_error (starts tpc s tid') k = Some b /\ (b <= v)%N) /\
  exists tid', tid' < n * tpc /\ nth_error (starts tpc s tid') k = Some v.
Proof.
  intros I Hid E. pose proof (li_sep _ _ I _ (xs_agrees (v + 1)%N s)) as R. destruct Nmax_laws as (A & B & C).
  pose proof (reduce_sep_pow2 N.max n tpc 0%N (xs (v + 1) s) rv0 acc0 tr0 red0 r0 (lm s) tid k v Hn Ht A B C R Hid E) as M.
  destruct (fold_max (map (fun tid => xs (v + 1) s tid k) (seq 0 (n * tpc))) 0%N) as (F1 & _ & F3). rewrite <- M in F1, F3.
  assert (G : forall tid', tid' < n * tpc -> exists b, nth_error (starts tpc s tid') k = Some b /\ (b <= v)%N).
  { intros i Hi. specialize (F1 (xs (v + 1) s i k) ltac:(apply in_map_iff; exists i; split; [reflexivity|apply in_seq; lia])).
    unfold xs in F1. destruct (nth_error (starts tpc s i) k) as [b|]; [eauto|lia]. }
  split; [exact G|]. destruct F3 as [F|F].
  - destruct (G tid Hid) as (b & Eb & Lb). exists tid. split; [exact Hid|]. rewrite Eb. f_equal. lia.
  - apply in_map_iff in F. destruct F as (i & Fi & Hi). apply in_seq in Hi. exists i. split; [lia|]. destruct (G i ltac:(lia)) as (b & Eb & Lb).
    unfold xs in Fi. rewrite Eb in *. now subst.
Qed.
Lemma agrees_old x s s' : (forall c t, c < n -> t < tpc -> exists l, lcs s' c t = l ++ lcs s c t) -> agrees x s' -> agrees x s.
Proof.
  intros H A tid k v Hid E. apply A; auto. unfold starts in *. destruct (tid_split n tpc tid Ht Hid) as (H1 & H2). destruct (H _ _ H1 H2) as (l & ->).
  rewrite rev_app_distr. rewrite nth_error_app1; [exact E|]. apply nth_error_Some. congruence.
Qed.
Lemma linv_init tm : linv m0 (linit rv0 acc0 tr0 red0 r0 tm).
Proof.
  constructor; cbn [linit lpcs lm lcs llog lnow]; auto.
  - intros c t a _ _ [].
  - intros c t e _ _ [].
  - intros x _. constructor.
Qed.
Lemma pair_dec (a b c d : nat) : {(a, b) = (c, d)} + {(a, b) <> (c, d)}.
Proof. decide equality; apply Nat.eq_dec. Qed.
Lemma linv_step s tm c t s' : linv m0 s -> c < n -> t < tpc -> (lnow s <= tm)%N ->
  (lpcs s c t = LOut -> forall c' t', c' < n -> t' < tpc -> length (lcs s c t) <= length (llog s c' t')) ->
  lstep n tpc tm c t s = Some s' -> linv m0 s'.
Proof.
  intros I Hc Htt Hnow Hsep E. pose proof (li_pc _ _ I c t Hc Htt) as J. unfold lstep in E. destruct (lpcs s c t) eqn:P.
  - (* the clock is read *)
    injection E as <-. destruct J as (J1 & J2 & J3 & J4). constructor; cbn [lpcs lm lcs llog lnow].
    + intros c' t' Hc' Ht'. destruct (pair_dec c' t' c t) as [Q|Q].
      * injection Q as -> ->. rewrite !upd2_same. rewrite J1, J2, J3, J4. repeat split; eauto. specialize (Hsep eq_refl). rewrite J4, map_length in Hsep. exact Hsep.
      * rewrite !upd2_other by auto. exact (li_pc _ _ I c' t' Hc' Ht').
    + intros c' t' a Hc' Ht' Ha. destruct (pair_dec c' t' c t) as [Q|Q].
      * injection Q as -> ->. rewrite upd2_same in Ha. destruct Ha as [<-|Ha]; [lia|]. pose proof (li_now _ _ I c t a Hc Htt Ha). lia.
      * rewrite upd2_other in Ha by auto. pose proof (li_now _ _ I c' t' a Hc' Ht' Ha). lia.
    + intros c' t' e Hc' Ht' He. pose proof (li_end _ _ I c' t' e Hc' Ht' He). lia.
    + intros x A. apply (li_sep _ _ I). eapply agrees_old; [|exact A]. cbn [lcs]. intros c' t' _ _. destruct (pair_dec c' t' c t) as [Q|Q].
      * injection Q as -> ->. rewrite upd2_same. now exists [tm].
      * rewrite upd2_other by auto. now exists [].
  - (* a step of the reduction *)
    destruct (rmax_step n tpc (fun c t _ => hd 0%N (lcs s c t)) c t (lm s)) as [m|] eqn:M; [|discriminate]. injection E as <-.
    destruct J as ((a & J1) & J2 & J3). constructor; cbn [lpcs lm lcs llog lnow].
    + intros c' t' Hc' Ht'. destruct (pair_dec c' t' c t) as [Q|Q].
      * injection Q as -> ->. rewrite upd2_same. pose proof (mstep_self _ _ _ _ _ M) as X.
        destruct (mpcs (lm s) c t) eqn:Em; destruct X as (X1 & X2 & X3);
          try (split; [eauto|]; split; [now rewrite X3|]; rewrite X2; destruct (mpcs m c t); try congruence; try (now rewrite J3); destruct J3 as (J3 & _); now rewrite J3).
        destruct X3 as (v & X3). rewrite X1, X2, X3, J2, J3. repeat split; eauto.
      * rewrite upd2_other by auto. destruct (mstep_others _ _ _ _ _ _ _ M Q) as (X1 & X2 & X3). rewrite X1, X2, X3. exact (li_pc _ _ I c' t' Hc' Ht').
    + intros c' t' b Hc' Ht' Hb. pose proof (li_now _ _ I c' t' b Hc' Ht' Hb). lia.
    + intros c' t' e Hc' Ht' He. pose proof (li_end _ _ I c' t' e Hc' Ht' He). lia.
    + intros x A. assert (A' : agrees x s) by exact A. pose proof (li_sep _ _ I x A') as R.
      eapply ms_step; [exact R|exact Hc|exact Htt| |].
      * intros Em. rewrite Em in J3. destruct J3 as (_ & J3). intros c' t' Hc' Ht'. specialize (J3 c' t' Hc' Ht').
        pose proof (li_pc _ _ I c' t' Hc' Ht') as Y. assert (length (llog s c' t') <= length (mout (lm s) c' t')).
        { destruct (lpcs s c' t').
          - destruct Y as (_ & _ & -> & _). now rewrite map_length.
          - destruct Y as (_ & -> & _). now rewrite map_length.
          - destruct Y as (_ & _ & (v & ->) & _). cbn [length]. rewrite map_length. lia. }
        lia.
      * unfold rmax_step in *. rewrite <- M. destruct (mpcs (lm s) c t) eqn:Em.
        -- apply mstep_at. destruct J3 as (J3 & _). rewrite J3, J1. cbn [hd]. unfold core_args. apply A'; [nia|].
           unfold starts. destruct (tid_join tpc c t Htt) as (Q1 & Q2). rewrite Q1, Q2, J1. cbn [rev]. rewrite nth_error_app2; [|now rewrite rev_length, map_length].
           rewrite rev_length, map_length, Nat.sub_diag. reflexivity.
        -- unfold mstep. now rewrite Em.
        -- unfold mstep. now rewrite Em.
        -- unfold mstep. now rewrite Em.
        -- unfold mstep. now rewrite Em.
        -- unfold mstep. now rewrite Em.
        -- unfold mstep. now rewrite Em.
        -- unfold mstep. now rewrite Em.
        -- unfold mstep. now rewrite Em.
        -- unfold mstep. now rewrite Em.
  - (* the clock is read again *)
    destruct J as (J1 & J2 & (v & J3) & (a & J4)). rewrite J3, J4 in E. injection E as <-.
    assert (Hv : (v <= lnow s)%N).
    { destruct (tid_join tpc c t Htt) as (Q1 & Q2). destruct (linv_max s (c * tpc + t) (length (llog s c t)) v I ltac:(nia)) as (_ & tid & Hid & Et).
      - unfold returned. rewrite Q1, Q2, J3. cbn [rev]. rewrite nth_error_app2; rewrite rev_length, map_length; [|lia]. now rewrite Nat.sub_diag.
      - destruct (tid_split n tpc tid Ht Hid) as (H1 & H2). apply (li_now _ _ I _ _ v H1 H2). apply in_rev. eapply nth_error_In. exact Et. }
    constructor; cbn [lpcs lm lcs llog lnow].
    + intros c' t' Hc' Ht'. destruct (pair_dec c' t' c t) as [Q|Q].
      * injection Q as -> ->. rewrite !upd2_same. cbn [length map fst snd]. rewrite J2, J3, J4. auto.
      * rewrite !upd2_other by auto. pose proof (li_pc _ _ I c' t' Hc' Ht') as Y. destruct (lpcs s c' t'); auto.
        destruct Y as (Y1 & Y2 & Y3). split; [exact Y1|]. split; [exact Y2|]. destruct (mpcs (lm s) c' t'); auto. destruct Y3 as (Y3 & Y4). split; [exact Y3|].
        intros c2 t2 H1 H2. specialize (Y4 c2 t2 H1 H2). destruct (pair_dec c2 t2 c t) as [Q2|Q2]; [injection Q2 as -> ->; rewrite upd2_same; cbn [length]; lia|now rewrite upd2_other by auto].
    + intros c' t' b Hc' Ht' Hb. pose proof (li_now _ _ I c' t' b Hc' Ht' Hb). lia.
    + intros c' t' e Hc' Ht' He. destruct (pair_dec c' t' c t) as [Q|Q].
      * injection Q as -> ->. rewrite upd2_same in He. destruct He as [<-|He]; cbn [fst snd]; [lia|]. pose proof (li_end _ _ I c t e Hc Htt He). lia.
      * rewrite upd2_other in He by auto. pose proof (li_end _ _ I c' t' e Hc' Ht' He). lia.
    + intros x A. apply (li_sep _ _ I). exact A.
Qed.
Lemma lsep_inv tm s : lsep n tpc (linit rv0 acc0 tr0 red0 r0 tm) s -> linv m0 s.
Proof. induction 1 as [|s tm' c t s' H IH Hc Htt Hnow Hs E]; [apply linv_init|]. exact (linv_step s tm' c t s' IH Hc Htt Hnow Hs E). Qed.

Lemma nth_error_rev_map {X Y} (f : X -> Y) l k e : nth_error (rev l) k = Some e -> nth_error (rev (map f l)) k = Some (f e).
Proof. intros H. rewrite <- map_rev. now apply map_nth_error. Qed.
Lemma nth_error_more {X} (a : X) l k e : nth_error (rev l) k = Some e -> nth_error (rev (a :: l)) k = Some e.
Proof. intros H. cbn [rev]. rewrite nth_error_app1; [exact H|]. apply nth_error_Some. congruence. Qed.
Theorem measured_ok tm s tid k a v o : lsep n tpc (linit rv0 acc0 tr0 red0 r0 tm) s -> tid < n * tpc -> nth_error (measured tpc s tid) k = Some (a, v, o) ->
  nth_error (starts tpc s tid) k = Some a /\
  (forall tid', tid' < n * tpc -> exists b, nth_error (starts tpc s tid') k = Some b /\ (b <= v)%N) /\
  (exists tid', tid' < n * tpc /\ nth_error (starts tpc s tid') k = Some v) /\ (v <= o)%N /\ (o <= lnow s)%N.
Proof.
  intros R Hid E. pose proof (lsep_inv tm s R) as I. destruct (tid_split n tpc tid Ht Hid) as (Hc & Hm). unfold measured in E.
  pose proof (li_pc _ _ I _ _ Hc Hm) as J.
  assert (S1 : nth_error (starts tpc s tid) k = Some a).
  { unfold starts. pose proof (nth_error_rev_map st _ _ _ E) as X. cbn [fst] in X. destruct (lpcs s (tid / tpc) (tid mod tpc)).
    - destruct J as (_ & _ & _ & ->). exact X.
    - destruct J as ((b & ->) & _). now apply nth_error_more.
    - destruct J as (_ & _ & _ & b & ->). now apply nth_error_more. }
  assert (S2 : nth_error (returned tpc (lm s) tid) k = Some v).
  { unfold returned. pose proof (nth_error_rev_map la _ _ _ E) as X. cbn [fst snd] in X. destruct (lpcs s (tid / tpc) (tid mod tpc)).
    - destruct J as (_ & _ & -> & _). exact X.
    - destruct J as (_ & -> & _). exact X.
    - destruct J as (_ & _ & (b & ->) & _). now apply nth_error_more. }
  destruct (linv_max s tid k v I Hid S2) as (G1 & G2). split; [exact S1|]. split; [exact G1|]. split; [exact G2|].
  apply (li_end _ _ I _ _ (a, v, o) Hc Hm). apply in_rev. eapply nth_error_In. exact E.
Qed.
Theorem calls_measured tm s tid use numUses : lsep n tpc (linit rv0 acc0 tr0 red0 r0 tm) s -> tid < n * tpc -> (lnow s < 2 ^ 64)%N -> (0 <= numUses)%Z -> (forall k, (0 <= use k < numUses)%Z) ->
  Forall (LoadImba.call_ok numUses) (calls_of use (measured tpc s tid)) /\
  exists l, LoadImba.run_calls (calls_of use (measured tpc s tid)) (LoadImba.limba_init numUses) = Some l /\ LoadImba.summarises numUses (calls_of use (measured tpc s tid)) l.
Proof.
  intros R Hid Hnow HU Huse.
  assert (F : Forall (LoadImba.call_ok numUses) (calls_of use (measured tpc s tid))).
  { apply Forall_forall. intros c Hc. unfold calls_of in Hc. apply in_map_iff in Hc. destruct Hc as ((k & ((a & v) & o)) & <- & Hin).
    apply in_combine_r in Hin. apply In_nth_error in Hin. destruct Hin as (k' & Hk). destruct (measured_ok tm s tid k' a v o R Hid Hk) as (A & B & _ & D & G).
    destruct (B tid Hid) as (b & Eb & Lb). rewrite A in Eb. injection Eb as <-. unfold LoadImba.call_ok. cbn [LoadImba.c_use LoadImba.c_start LoadImba.c_last LoadImba.c_end].
    specialize (Huse k). change (2 ^ 64)%N with 18446744073709551616%N in Hnow. change (2 ^ 64)%Z with 18446744073709551616%Z. lia. }
  split; [exact F|]. now apply LoadImba.calls_summarised.
Qed.
Theorem progress_ok tm s : lsep n tpc (linit rv0 acc0 tr0 red0 r0 tm) s -> (exists c t, c < n /\ t < tpc /\ lpcs s c t <> LOut) ->
  exists c t, c < n /\ t < tpc /\ forall tm', (lnow s <= tm')%N -> exists s', lstep n tpc tm' c t s = Some s' /\ lsep n tpc (linit rv0 acc0 tr0 red0 r0 tm) s'.
Proof.
  intros R (c0 & t0 & Hc0 & Ht0 & P0). pose proof (lsep_inv tm s R) as I.
  assert (Go : forall c t, c < n -> t < tpc -> (lpcs s c t = LOut -> forall c' t', c' < n -> t' < tpc -> length (lcs s c t) <= length (llog s c' t')) ->
    (forall tm', exists s', lstep n tpc tm' c t s = Some s') -> exists c t, c < n /\ t < tpc /\ forall tm', (lnow s <= tm')%N -> exists s', lstep n tpc tm' c t s = Some s' /\ lsep n tpc (linit rv0 acc0 tr0 red0 r0 tm) s').
  { intros c t Hc Htt Hs H. exists c, t. split; [exact Hc|]. split; [exact Htt|]. intros tm' Hn'. destruct (H tm') as (s' & E). exists s'. split; [exact E|]. eapply ls_step; eauto. }
  destruct (nearest_pow2_ok n Hn) as (E1 & E2 & E3). assert (HL : 1 <= rounds n) by (unfold rounds; lia).
  destruct (any_thread n _ _ tpc E1 HL E2 E3 Ht n tpc (fun c t => match lpcs s c t with LBack => true | LIn => match mpcs (lm s) c t with MOut => true | _ => false end | LOut => false end)) as [(c & t & Hc & Htt & B)|Non].
  - apply (Go c t Hc Htt); [intros E; rewrite E in B; discriminate|]. intros tm'. pose proof (li_pc _ _ I c t Hc Htt) as J. unfold lstep. destruct (lpcs s c t); [discriminate| |].
    + destruct (mpcs (lm s) c t) eqn:Em; try discriminate. unfold rmax_step, mstep. rewrite Em. eauto.
    + destruct J as (_ & _ & (v & ->) & (a & ->)). eauto.
  - pose proof (li_sep _ _ I _ (xs_agrees 0%N s)) as M. destruct Nmax_laws as (A & B & C).
    destruct (msep_inv N.max n (nearest_pow2 n) (rounds n) tpc 0%N (core_args tpc (xs 0 s)) A B C E1 HL E2 E3 Ht rv0 acc0 tr0 red0 r0 (lm s) M) as (K & MI).
    destruct (progress_inv N.max n (nearest_pow2 n) (rounds n) tpc 0%N (core_args tpc (xs 0 s)) E1 HL E2 E3 Ht K (lm s) MI) as (c & t & m' & Hc & Htt & Hs & E).
    + exists c0, t0. split; [exact Hc0|]. split; [exact Ht0|]. intros Em. specialize (Non c0 t0 Hc0 Ht0). cbn beta in Non. rewrite Em in Non. destruct (lpcs s c0 t0); congruence.
    + pose proof (Non c t Hc Htt) as Nct. cbn beta in Nct. pose proof (li_pc _ _ I c t Hc Htt) as J. apply (Go c t Hc Htt).
      * intros P c' t' Hc' Ht'. rewrite P in J. destruct J as (J1 & J2 & _ & J4). specialize (Hs J1 c' t' Hc' Ht'). rewrite J4, map_length. rewrite J2 in Hs.
        pose proof (li_pc _ _ I c' t' Hc' Ht') as Y. specialize (Non c' t' Hc' Ht'). cbn beta in Non. destruct (lpcs s c' t'); [| |discriminate].
        -- destruct Y as (_ & _ & Y & _). rewrite Y, map_length in Hs. exact Hs.
        -- destruct Y as (_ & Y & _). rewrite Y, map_length in Hs. exact Hs.
      * intros tm'. unfold lstep. destruct (lpcs s c t); [eauto| |discriminate].
        assert (X : rmax_step n tpc (fun c t _ => hd 0%N (lcs s c t)) c t (lm s) = Some m').
        { rewrite <- E. unfold rmax_step, mstep. destruct (mpcs (lm s) c t); [discriminate|reflexivity..]. }
        rewrite X. eauto.
Qed.
End Init.
End Proofs.

Lemma lrun_sep n tpc tr s0 s : lsep n tpc s0 s -> lsep n tpc s0 (lrun n tpc true tr s).
Proof.
  revert s. induction tr as [|(tm & c & t) tr IH]; intros s H; cbn [lrun]; auto. apply IH.
  destruct (Nat.ltb_spec c n), (Nat.ltb_spec t tpc), (N.leb_spec (lnow s) tm); cbn [andb negb orb]; auto. destruct (may_begin n tpc s c t) eqn:B; auto.
  destruct (lstep n tpc tm c t s) as [s'|] eqn:E; auto. eapply ls_step; eauto. intros P c' t' Hc' Ht'. unfold may_begin in B. rewrite P in B.
  rewrite forallb_forall in B. specialize (B c' ltac:(apply in_seq; lia)). rewrite forallb_forall in B. specialize (B t' ltac:(apply in_seq; lia)). now apply Nat.leb_le.
Qed.
Lemma lrun_reach n tpc tr s0 s : lreach n tpc s0 s -> lreach n tpc s0 (lrun n tpc false tr s).
Proof.
  revert s. induction tr as [|(tm & c & t) tr IH]; intros s H; cbn [lrun]; auto. apply IH.
  destruct (Nat.ltb_spec c n), (Nat.ltb_spec t tpc), (N.leb_spec (lnow s) tm); cbn [andb negb orb]; auto.
  destruct (lstep n tpc tm c t s) as [s'|] eqn:E; auto. eapply lr_step; eauto.
Qed.

(** ** Cases *)
Definition li0 : lstate := linit (fun _ _ => 77%N) (fun _ => 78%N) (fun _ _ => 79%N) (fun _ => 80%N) (fun _ => 81%N) 0%N.
Fixpoint at_times (tm : N) (tr : list (nat * nat)) : list (N * (nat * nat)) := match tr with [] => [] | p :: tr => (tm, p) :: at_times (tm + 1)%N tr end.
(** Two cores of two threads, two calls each. *)
Definition li_two : lstate := lrun 2 2 true (at_times 100 (concat (repeat [(0,0);(1,1);(0,1);(1,0);(0,0);(1,0)] 20))) li0.
Lemma li_two_sep : lsep 2 2 li0 li_two.
Proof. apply lrun_sep. constructor. Qed.
Lemma li_two_out : map (measured 2 li_two) [0;1;2;3] =
  [[(100,103,146); (158,162,206)]; [(102,103,156); (162,162,216)]; [(103,103,145); (157,162,205)]; [(101,103,155); (161,162,215)]]%N.
Proof. vm_compute. reflexivity. Qed.
(** Without waiting for each other: thread 1 is in its second call before thread 0 has
    taken the value of the first. *)
Definition li_race : lstate := lrun 2 1 false (at_times 100 (map (fun c => (c, 0)) ([0;0;0;0;0] ++ [1;1;1;1;1;1;1;1;1;1;1;1] ++ [1;1;1;1] ++ [0;0;0;0;0;0;0]))) li0.
Lemma race_case : lreach 2 1 li0 li_race /\ measured 1 li_race 0 = [(100, 117, 127)]%N /\ starts 1 li_race 0 = [100%N] /\ starts 1 li_race 1 = [105; 117]%N.
Proof. split; [apply lrun_reach; constructor|]. vm_compute. auto. Qed.
Lemma race_refuted : exists s, lreach 2 1 li0 s /\ exists a v o, nth_error (measured 1 s 0) 0 = Some (a, v, o) /\
  (forall tid, tid < 2 -> exists b, nth_error (starts 1 s tid) 0 = Some b /\ (b < v)%N).
Proof.
  destruct race_case as (R & M & S0 & S1). exists li_race. split; [exact R|]. exists 100%N, 117%N, 127%N. rewrite M. split; [reflexivity|].
  intros tid H. destruct tid as [|[|tid]]; [rewrite S0; exists 100%N|rewrite S1; exists 105%N|lia]; split; reflexivity.
Qed.
(** Everybody comes at time 5 and leaves at time 6. *)
Definition li_even : lstate := lrun 2 1 true (map (pair 5%N) (concat (repeat [(0,0);(1,0)] 11)) ++ map (pair 6%N) [(0,0);(1,0)]) li0.
Lemma even_case : lsep 2 1 li0 li_even /\ measured 1 li_even 0 = [(5, 5, 6)]%N /\ measured 1 li_even 1 = [(5, 5, 6)]%N.
Proof. split; [apply lrun_sep; constructor|]. vm_compute. auto. Qed.
Lemma even_refuted : exists s l0 l1, lsep 2 1 li0 s /\ (lnow s <= 6)%N /\
  LoadImba.run_calls (calls_of (fun _ => 0%Z) (measured 1 s 0)) (LoadImba.limba_init 1) = Some l0 /\
  LoadImba.run_calls (calls_of (fun _ => 0%Z) (measured 1 s 1)) (LoadImba.limba_init 1) = Some l1 /\
  LoadImba.limba_imbalance 1 2 [l0; l1] = Some (2 ^ 64 - 2)%Z.
Proof.
  destruct even_case as (R & M0 & M1). pose (l := LoadImba.mkLimba [0%Z] [0%Z] [0%Z] [1%Z] [1%Z]). exists li_even, l, l. rewrite M0, M1.
  split; [exact R|]. split; [vm_compute; discriminate|]. repeat split; vm_compute; reflexivity.
Qed.
(** Thread 3 has started its first call; the others have not. *)
Definition li_mid : lstate := lrun 2 2 true [(100%N, (1, 1))] li0.
Lemma mid_case : lsep 2 2 li0 li_mid /\ lpcs li_mid 1 1 = LIn /\ lpcs li_mid 0 0 = LOut.
Proof. split; [apply lrun_sep; constructor|]. vm_compute. auto. Qed.
