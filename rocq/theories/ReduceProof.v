(** * The reducing barrier: proofs. *)
From Coq Require Import List Arith Lia Bool PeanoNat Permutation.
Import ListNotations.
From Verif Require Import Barrier Reduce.

(** ** The rounds *)
Section XProof.
Context {V : Type} (op : V -> V -> V).
Variables n P L : nat.
Variable zero : V.
Hypothesis op_assoc : forall a b c, op a (op b c) = op (op a b) c.
Hypothesis op_comm : forall a b, op a b = op b a.
Hypothesis op_zero : forall a, op a zero = a.
Hypothesis HP : P = 2 ^ L.
Hypothesis HL : 1 <= L.
Hypothesis HnP : n <= P.
Hypothesis HPn : P < 2 * n.

(** Parity and sense in the [K]-th use. *)
Definition pk (K : nat) : bool := Nat.odd K.
Definition sk (K : nat) : bool := Nat.even (K / 2).
Lemma pk_S K : pk (S K) = negb (pk K).
Proof. unfold pk. now rewrite Nat.odd_succ, <- Nat.negb_odd. Qed.
Lemma half K : K / 2 = Nat.div2 K.
Proof. symmetry. apply Nat.div2_div. Qed.
Lemma sk_S K : sk (S K) = if pk K then negb (sk K) else sk K.
Proof.
  unfold sk, pk. rewrite !half. destruct (Nat.odd K) eqn:E.
  - rewrite <- Nat.Odd_div2 by now apply Nat.odd_spec. now rewrite Nat.even_succ, <- Nat.negb_even.
  - rewrite <- Nat.Even_div2; auto. apply Nat.even_spec. rewrite <- Nat.negb_odd, E. auto.
Qed.
Lemma sk_SS K : sk (S (S K)) = negb (sk K).
Proof. rewrite sk_S, pk_S, sk_S. destruct (pk K), (sk K); auto. Qed.

Definition na (p : xpc) : nat := match p with XOut => 0 | XW r | XF r | XR r | XC r => r | XDone => L end.
Definition nw (p : xpc) : nat := match p with XOut => 0 | XW r => r | XF r | XR r | XC r => S r | XDone => L end.
Definition nf (p : xpc) : nat := match p with XOut => 0 | XW r | XF r => r | XR r | XC r => S r | XDone => L end.
Definition nr (p : xpc) : nat := match p with XOut => 0 | XW r | XF r | XR r => r | XC r => S r | XDone => L end.
Definition xc (K : nat) (f : xpc -> nat) (s : @xstate V) (v : nat) : nat := if xn s v =? K then f (xpcs s v) else L.
Definition xpc_ok (p : xpc) : Prop := match p with XW r | XF r | XR r | XC r => r < L | _ => True end.
(** In the [K]-th use, [val c] being the value of core [c]. *)
Record xinv (K : nat) (val : nat -> V) (s : @xstate V) : Prop := mkXinv {
  x_pc : forall v, v < P -> xpc_ok (xpcs s v);
  x_n : forall v, v < P -> xn s v = K \/ (xn s v = S K /\ xpcs s v = XOut);
  x_par : forall v, v < P -> xpar s v = pk (xn s v) /\ xsns s v = sk (xn s v);
  x_acc : forall v, v < P -> xn s v = S K \/ xpcs s v <> XOut -> xacc s v = range op n P zero val v (2 ^ xc K na s v);
  x_w : forall v r, v < P -> r < xc K nw s v -> xrv s (xpartner P v r) r = range op n P zero val v (2 ^ r);
  x_f : forall v r, v < P -> r < L -> xflag s (xpartner P v r) (pk K) r = if r <? xc K nf s v then sk K else negb (sk K);
  x_f' : forall v r, v < P -> r < L -> xflag s (xpartner P v r) (negb (pk K)) r = negb (sk (S K));
  x_r : forall v r, v < P -> r < L -> r < xc K nr s (xpartner P v r) -> r < xc K nf s v
}.

Lemma xinv_init val rv0 acc0 : xinv 0 val (xinit rv0 acc0).
Proof.
  constructor; cbn; auto.
  - intros v _ [H|H]; congruence.
  - intros v r _ H. unfold xc in H. cbn in H. lia.
Qed.
(** When everybody has left, the next use can start. *)
Lemma xinv_next K val val' s : xinv K val s -> (forall v, v < P -> xn s v = S K) -> xinv (S K) val' s.
Proof.
  intros I H. assert (Xo : forall v, v < P -> xpcs s v = XOut) by (intros v Hv; destruct (x_n _ _ _ I v Hv) as [E|(_ & E)]; auto; specialize (H v Hv); lia).
  assert (C : forall f, f XOut = 0 -> forall v, v < P -> xc (S K) f s v = 0) by (intros f Hf v Hv; unfold xc; now rewrite H, Nat.eqb_refl, Xo by auto).
  assert (C' : forall f v, v < P -> xc K f s v = L) by (intros f v Hv; unfold xc; rewrite H by auto; destruct (Nat.eqb_spec (S K) K); auto; lia).
  constructor.
  - apply (x_pc _ _ _ I).
  - auto.
  - apply (x_par _ _ _ I).
  - intros v Hv [E|E]; [rewrite H in E by auto; lia|now rewrite Xo in E].
  - intros v r Hv Hr. rewrite C in Hr by auto. lia.
  - intros v r Hv Hr. rewrite C, pk_S, (x_f' _ _ _ I) by auto. auto.
  - intros v r Hv Hr. rewrite pk_S, negb_involutive, (x_f _ _ _ I), C', sk_SS, negb_involutive by auto. destruct (Nat.ltb_spec r L); auto; lia.
  - intros v r Hv Hr. rewrite C by (auto; apply (xpartner_lt n P L HP HL HnP HPn)). lia.
Qed.

Variable K : nat.
Variable val : nat -> V.
Notation rng := (range op n P zero val).
Notation vv := (vval n zero val).
Notation XI := (xinv K val).
Notation xk := (xc K).

(** Entering with the value [vv v]. *)
Lemma xinv_enter v s : XI s -> v < P -> xn s v = K -> xpcs s v = XOut -> XI (xenter L v (vv v) s).
Proof.
  intros I Hv Hn Hp. assert (E : xenter L v (vv v) s = mkX (xrv s) (xflag s) (xpar s) (xsns s) (upd1 (xacc s) v (vv v)) (upd1 (xpcs s) v (XW 0)) (xn s)).
  { unfold xenter. destruct (Nat.ltb_spec 0 L); [auto|lia]. } rewrite E. clear E.
  set (s' := mkX _ _ _ _ _ _ _).
  assert (C : forall f, f XOut = 0 -> f (XW 0) = 0 -> forall u, xk f s' u = xk f s u).
  { intros f F1 F2 u. unfold xc, s'. cbn [xn xpcs]. destruct (xn s u =? K) eqn:E; auto. destruct (Nat.eq_dec u v) as [->|N]; [rewrite upd1_same, Hp; lia|now rewrite upd1_other]. }
  assert (Pc : forall u, u <> v -> xpcs s' u = xpcs s u) by (intros u Hu; unfold s'; cbn; now rewrite upd1_other).
  constructor.
  - intros u Hu. destruct (Nat.eq_dec u v) as [->|N]; [unfold s'; cbn; rewrite upd1_same; cbn; lia|rewrite Pc by auto; now apply (x_pc _ _ s I)].
  - intros u Hu. destruct (Nat.eq_dec u v) as [->|N]; [left; exact Hn|rewrite Pc by auto; now apply (x_n _ _ s I)].
  - apply (x_par _ _ s I).
  - intros u Hu H. destruct (Nat.eq_dec u v) as [->|N].
    + rewrite C by auto. unfold xc. rewrite Hn, Nat.eqb_refl, Hp. unfold s'. cbn [xacc]. rewrite upd1_same. cbn [na]. rewrite Nat.pow_0_r.
      symmetry. exact (range_1 op n P L zero val op_comm op_zero HP HL HnP HPn v Hv).
    + rewrite C by auto. unfold s'. cbn [xacc]. rewrite upd1_other by auto. apply (x_acc _ _ s I); auto. now rewrite <- (Pc u N).
  - intros u r Hu. rewrite C by auto. now apply (x_w _ _ s I).
  - intros u r Hu. rewrite C by auto. now apply (x_f _ _ s I).
  - apply (x_f' _ _ s I).
  - intros u r Hu. rewrite !C by auto. now apply (x_r _ _ s I).
Qed.

Definition nxt (p : xpc) : xpc := match p with XOut => XOut | XW r => XF r | XF r => XR r | XR r => XC r | XC r => if S r <? L then XW (S r) else XDone | XDone => XOut end.
Lemma xstep_eff v x x' : xstep op P L v x = Some x' ->
  (forall u, u <> v -> xn x' u = xn x u /\ xpcs x' u = xpcs x u) /\ xpcs x' v = nxt (xpcs x v) /\ xn x' v = match xpcs x v with XDone => S (xn x v) | _ => xn x v end /\ xpcs x v <> XOut.
Proof.
  intros Hs. unfold xstep in Hs. destruct (xpcs x v); try destruct (Bool.eqb _ _); try discriminate; injection Hs as <-; cbn; rewrite ?upd1_same;
    repeat split; auto; try discriminate; intros; now rewrite ?upd1_other by auto.
Qed.

Lemma xinv_step v s s' : XI s -> v < P -> xn s v = K -> xstep op P L v s = Some s' -> XI s'.
Proof.
  intros I Hv Hn Hs. destruct (x_par _ _ s I v Hv) as (Hpar & Hsns). rewrite Hn in Hpar, Hsns. pose proof (x_pc _ _ s I v Hv) as Hok.
  destruct (xstep_eff _ _ _ Hs) as (Fr & Ex & En & _).
  assert (Co : forall f u, u <> v -> xk f s' u = xk f s u) by (intros f u Hu; destruct (Fr u Hu) as (E1 & E2); unfold xc; now rewrite E1, E2).
  assert (Cs : forall f, xk f s v = f (xpcs s v)) by (intros f; unfold xc; now rewrite Hn, Nat.eqb_refl).
  set (q := xpcs s v) in *.
  (* counts of [v] after the step *)
  assert (Cv : forall f, xk f s' v = match q with XDone => L | _ => f (nxt q) end).
  { intros f. unfold xc. rewrite En, Ex, Hn. destruct q; rewrite ?Nat.eqb_refl; auto. destruct (Nat.eqb_spec (S K) K); auto; lia. }
  assert (Pk : forall Q : nat -> Prop, (forall u, u <> v -> Q u) -> Q v -> forall u, Q u) by (intros Q H1 H2 u; destruct (Nat.eq_dec u v) as [->|]; auto).
  assert (Keep : forall f, xk f s' v = xk f s v -> forall u, xk f s' u = xk f s u) by (intros f H u; destruct (Nat.eq_dec u v) as [->|]; auto).
  assert (G1 : forall u, u < P -> xpc_ok (xpcs s' u)).
  { apply (Pk (fun u => u < P -> xpc_ok (xpcs s' u))); [intros u Hu; destruct (Fr u Hu) as (_ & ->); apply (x_pc _ _ s I)|]. intros _. rewrite Ex.
    unfold nxt. destruct q; cbn [xpc_ok] in *; auto. destruct (Nat.ltb_spec (S r) L); cbn [xpc_ok]; auto. }
  assert (G2 : forall u, u < P -> xn s' u = K \/ (xn s' u = S K /\ xpcs s' u = XOut)).
  { apply (Pk (fun u => u < P -> xn s' u = K \/ (xn s' u = S K /\ xpcs s' u = XOut))); [intros u Hu; destruct (Fr u Hu) as (-> & ->); apply (x_n _ _ s I)|]. intros _. rewrite Ex, En, Hn.
    destruct q; auto. }
  assert (G3 : forall u, u < P -> xpar s' u = pk (xn s' u) /\ xsns s' u = sk (xn s' u)).
  { destruct q eqn:Eq; unfold xstep in Hs; fold q in Hs; rewrite Eq in Hs; try destruct (Bool.eqb _ _); try discriminate; injection Hs as <-; try exact (x_par _ _ s I).
    cbn [xpar xsns xn]. intros u Hu. destruct (Nat.eq_dec u v) as [->|N].
    - rewrite !upd1_same, Hpar, Hn, pk_S, sk_S. split; auto. destruct (pk K); [rewrite upd1_same, Hsns; auto|auto].
    - rewrite !upd1_other by auto. destruct (xpar s v); rewrite ?upd1_other by auto; now apply (x_par _ _ s I). }
  assert (G4 : (xpcs s v <> XOut -> xacc s' v = rng v (2 ^ xk na s' v)) -> (forall u, u <> v -> xacc s' u = xacc s u) -> forall u, u < P -> xn s' u = S K \/ xpcs s' u <> XOut -> xacc s' u = rng u (2 ^ xk na s' u)).
  { intros H1 H2. apply (Pk (fun u => u < P -> xn s' u = S K \/ xpcs s' u <> XOut -> xacc s' u = rng u (2 ^ xk na s' u))).
    - intros u Hu. rewrite Co, H2 by auto. destruct (Fr u Hu) as (-> & ->). apply (x_acc _ _ s I).
    - intros _ _. apply H1. fold q. intros E. unfold xstep in Hs. fold q in Hs. rewrite E in Hs. discriminate. }
  assert (Ac : q <> XOut -> xacc s v = rng v (2 ^ na q)) by (intros H; rewrite (x_acc _ _ s I v Hv), Cs by auto; auto).
  unfold xstep in Hs. fold q in Hs. destruct q as [|r|r|r|r|] eqn:Ep; cbn in Hok.
  - discriminate.
  - (* write *)
    injection Hs as <-. set (s' := mkX _ _ _ _ _ _ _) in *. constructor; auto.
    + apply G4; auto. intros _. rewrite Cv. apply Ac. discriminate.
    + intros u r' Hu Hr'. unfold s'. cbn [xrv]. destruct (Nat.eq_dec u v) as [->|N].
      * rewrite Cv in Hr'. cbn [nw nxt] in Hr'. destruct (Nat.eq_dec r' r) as [->|Nr].
        -- rewrite upd2_same. apply Ac. discriminate.
        -- rewrite upd2_other by lia. apply (x_w _ _ s I); auto. rewrite Cs. cbn. lia.
      * rewrite upd2_other; [apply (x_w _ _ s I); auto; now rewrite <- Co|]. destruct (Nat.eq_dec r' r) as [->|]; [|auto]. left. intros E. apply N. now apply (xpartner_inj n P L HP HL HnP HPn) in E.
    + intros u r' Hu Hr'. change (xflag s') with (xflag s). rewrite (x_f _ _ s I) by auto. rewrite (Keep nf); auto. now rewrite Cv, Cs.
    + apply (x_f' _ _ s I).
    + intros u r' Hu Hr'. rewrite (Keep nf), (Keep nr) by now rewrite Cv, Cs. now apply (x_r _ _ s I).
  - (* flag *)
    rewrite Hpar, Hsns in Hs. injection Hs as <-. set (s' := mkX _ _ _ _ _ _ _) in *. constructor; auto.
    + apply G4; auto. intros _. rewrite Cv. apply Ac. discriminate.
    + intros u r' Hu. rewrite (Keep nw) by now rewrite Cv, Cs. now apply (x_w _ _ s I).
    + intros u r' Hu Hr'. unfold s'. cbn [xflag]. fold s'. unfold updf. rewrite Bool.eqb_reflx, andb_true_r.
      destruct (Nat.eqb_spec r' r) as [->|Nr].
      * destruct (Nat.eqb_spec (xpartner P u r) (xpartner P v r)) as [E|E]; cbn [andb].
        -- apply (xpartner_inj n P L HP HL HnP HPn) in E; auto. subst u. rewrite Cv. cbn [nf nxt]. destruct (Nat.ltb_spec r (S r)); auto; lia.
        -- rewrite (x_f _ _ s I) by auto. destruct (Nat.eq_dec u v) as [->|N]; [congruence|now rewrite Co].
      * rewrite andb_false_r, (x_f _ _ s I) by auto. destruct (Nat.eq_dec u v) as [->|N]; [|now rewrite Co]. rewrite Cs, Cv. cbn [nf nxt]. destruct (Nat.ltb_spec r' r), (Nat.ltb_spec r' (S r)); auto; lia.
    + intros u r' Hu Hr'. unfold s'. cbn [xflag]. unfold updf. replace (Bool.eqb (negb (pk K)) (pk K)) with false by (destruct (pk K); auto). rewrite andb_false_r. cbn [andb]. now apply (x_f' _ _ s I).
    + assert (A2 : forall u, xk nf s u <= xk nf s' u) by (intros u; destruct (Nat.eq_dec u v) as [->|N]; [rewrite Cs, Cv; cbn; lia|now rewrite Co]).
      intros u r' Hu Hr'. rewrite (Keep nr) by now rewrite Cv, Cs. intros H. apply (Nat.lt_le_trans _ (xk nf s u)); auto. now apply (x_r _ _ s I).
  - (* spin *)
    rewrite Hpar, Hsns in Hs. destruct (Bool.eqb (xflag s v (pk K) r) (sk K)) eqn:Ef; [|discriminate]. apply Bool.eqb_prop in Ef. injection Hs as <-. set (s' := mkX _ _ _ _ _ _ _) in *.
    constructor; auto.
    + apply G4; auto. intros _. rewrite Cv. apply Ac. discriminate.
    + intros u r' Hu. rewrite (Keep nw) by now rewrite Cv, Cs. now apply (x_w _ _ s I).
    + intros u r' Hu. rewrite (Keep nf) by now rewrite Cv, Cs. now apply (x_f _ _ s I).
    + apply (x_f' _ _ s I).
    + intros u r' Hu Hr' H. rewrite (Keep nf) by now rewrite Cv, Cs. destruct (Nat.eq_dec (xpartner P u r') v) as [E|N].
      * rewrite E, Cv in H. cbn [nr nxt] in H. destruct (Nat.eq_dec r' r) as [->|Nr].
        -- rewrite <- E, (x_f _ _ s I) in Ef by auto. destruct (Nat.ltb_spec r (xk nf s u)); auto. destruct (sk K); discriminate.
        -- apply (x_r _ _ s I); auto. rewrite E, Cs. cbn. lia.
      * rewrite Co in H by auto. now apply (x_r _ _ s I).
  - (* combine *)
    assert (Hx : xrv s v r = rng ((v + P - 2 ^ r) mod P) (2 ^ r)).
    { destruct (xpartner_onto n P L HP HL HnP HPn v r Hv Hok) as (p & Hp & Epp & Ed). rewrite <- Ed. rewrite <- Epp.
      apply (x_w _ _ s I); auto. assert (r < xk nf s p) as Q by (apply (x_r _ _ s I); auto; rewrite Epp, Cs; cbn; lia).
      apply (Nat.lt_le_trans _ _ _ Q). unfold xc. destruct (xn s p =? K); auto. destruct (xpcs s p); cbn; lia. }
    assert (Hq : na (nxt (XC r)) = S r /\ nw (nxt (XC r)) = S r /\ nf (nxt (XC r)) = S r /\ nr (nxt (XC r)) = S r). { unfold nxt. destruct (Nat.ltb_spec (S r) L); cbn; lia. } destruct Hq as (Q1 & Q2 & Q3 & Q4).
    injection Hs as <-. set (s' := mkX _ _ _ _ _ _ _) in *. constructor; auto.
    + apply G4; [|intros u Hu; unfold s'; cbn; now rewrite upd1_other]. intros _. rewrite Cv, Q1. unfold s'. cbn [xacc]. rewrite upd1_same, Ac by discriminate. cbn [na]. rewrite Hx. symmetry.
      exact (range_double op n P L zero val op_assoc op_zero HP HL HnP HPn v r Hv Hok).
    + intros u r' Hu. rewrite (Keep nw) by now rewrite Cv, Cs, Q2. now apply (x_w _ _ s I).
    + intros u r' Hu. rewrite (Keep nf) by now rewrite Cv, Cs, Q3. now apply (x_f _ _ s I).
    + apply (x_f' _ _ s I).
    + intros u r' Hu. rewrite (Keep nf), (Keep nr) by now rewrite Cv, Cs, ?Q3, ?Q4. now apply (x_r _ _ s I).
  - (* leave *)
    injection Hs as <-. set (s' := mkX _ _ _ _ _ _ _) in *. constructor; auto.
    + apply G4; auto. intros _. rewrite Cv. apply Ac. discriminate.
    + intros u r' Hu. rewrite (Keep nw) by now rewrite Cv, Cs. now apply (x_w _ _ s I).
    + intros u r' Hu. rewrite (Keep nf) by now rewrite Cv, Cs. now apply (x_f _ _ s I).
    + apply (x_f' _ _ s I).
    + intros u r' Hu. rewrite (Keep nf), (Keep nr) by now rewrite Cv, Cs. now apply (x_r _ _ s I).
Qed.

Lemma xacc_total v s : XI s -> v < P -> xn s v = S K -> xacc s v = fold_left op (map val (seq 0 n)) zero.
Proof.
  intros I Hv Hn. rewrite (x_acc _ _ s I v Hv) by (left; lia). unfold xc. rewrite Hn. destruct (Nat.eqb_spec (S K) K); [lia|]. rewrite <- HP.
  exact (range_total op n P L zero val op_assoc op_comm op_zero HP HL HnP HPn v Hv).
Qed.
End XProof.

(** ** The threads *)
Section MProof.
Context {V : Type} (op : V -> V -> V).
Variables n P L tpc : nat.
Variable zero : V.
Variable contrib : nat -> nat -> nat -> V.
Hypothesis op_assoc : forall a b c, op a (op b c) = op (op a b) c.
Hypothesis op_comm : forall a b, op a b = op b a.
Hypothesis op_zero : forall a, op a zero = a.
Hypothesis HP : P = 2 ^ L.
Hypothesis HL : 1 <= L.
Hypothesis HnP : n <= P.
Hypothesis HPn : P < 2 * n.
Hypothesis Htpc : 1 <= tpc.

(** Reduction of the [K]-th values of the first [i] threads of core [c], and of all cores. *)
Definition cpart (K c i : nat) : V := fold_left op (map (fun t => contrib c t K) (seq 1 (i - 1))) (contrib c 0 K).
Definition cval (K c : nat) : V := cpart K c tpc.
Definition total (K : nat) : V := fold_left op (map (cval K) (seq 0 n)) zero.
Fixpoint outs (K : nat) : list V := match K with 0 => [] | S K => total K :: outs K end.
Lemma cpart_S K c i : 1 <= i -> cpart K c (S i) = op (cpart K c i) (contrib c i K).
Proof.
  intros Hi. unfold cpart. replace (S i - 1) with (S (i - 1)) by lia. rewrite seq_S, map_app, fold_left_app. cbn [map fold_left]. replace (1 + (i - 1)) with i by lia. reflexivity.
Qed.

Definition phase (K : nat) (s : @mstate V) (c t : nat) : nat :=
  if ment s c t =? K then 0
  else match mpcs s c t with MSig => 1 | MGather _ | MGet _ => 2 | MX | MXp => 3 | MRv | MWait => 4 | MWake => 5 | MRet => 6 | MOut => 7 end.
(** Thread [t] of core [c] runs the rounds of participant [v]. *)
Definition plays (c t v : nat) : Prop := (t = 0 /\ v = c) \/ (v = c + n /\ c + n < P /\ t = (if tpc =? 1 then 0 else 1)).
Definition pc_fits (K : nat) (s : @mstate V) (c t : nat) : Prop :=
  match mpcs s c t with
  | MOut | MSig => True
  | MGather i => t = 0 /\ 1 <= i < tpc
  | MGet i => t = 0 /\ 1 <= i < tpc /\ ment s c i = S K
  | MX => plays c t (vcore n c t)
  | MXp => t = 0 /\ both n P tpc c = true
  | MRv | MWake => t = 0
  | MWait => t <> 0
  | MRet => mcs s c = negb (Nat.even K)
  end.
Definition red_fits (K : nat) (s : @mstate V) (c : nat) : Prop :=
  match mpcs s c 0 with
  | MSig => mred s c = contrib c 0 K
  | MGather i | MGet i => mred s c = cpart K c i
  | _ => True
  end.
Definition xfits (K : nat) (s : @mstate V) (c t : nat) : Prop :=
  (forall v, plays c t v -> (phase K s c t <= 2 -> xn (mx s) v = K /\ xpcs (mx s) v = XOut) /\ (4 <= phase K s c t -> xn (mx s) v = S K)) /\
  (mpcs s c t = MX -> xpcs (mx s) (vcore n c t) <> XOut /\ forall v, plays c t v -> xn (mx s) v = K /\ xpcs (mx s) v = xpcs (mx s) (vcore n c t)) /\
  (mpcs s c t = MXp -> xpcs (mx s) (c + n) <> XOut /\ xn (mx s) (c + n) = K /\ xpcs (mx s) c = nxt L (xpcs (mx s) (c + n)) /\
     xn (mx s) c = match xpcs (mx s) (c + n) with XDone => S K | _ => K end).
Record minv (K : nat) (s : @mstate V) : Prop := mkMinv {
  m_x : xinv op n P L zero K (cval K) (mx s);
  m_e : forall c t, c < n -> t < tpc -> ment s c t = K \/ ment s c t = S K;
  m_ent : forall c t, c < n -> t < tpc -> ment s c t = K -> mpcs s c t = MOut;
  m_tr : forall c t, c < n -> t < tpc -> ment s c t = S K -> mtr s c t = contrib c t K;
  m_ts : forall c t, c < n -> t < tpc -> mts s c t = if phase K s c t <? 2 then Nat.even K else negb (Nat.even K);
  m_cs : forall c, c < n -> mcs s c = if phase K s c 0 <? 6 then Nat.even K else negb (Nat.even K);
  m_rv : forall c, c < n -> 5 <= phase K s c 0 -> mrv s c = total K;
  m_pcf : forall c t, c < n -> t < tpc -> pc_fits K s c t;
  m_red : forall c, c < n -> red_fits K s c;
  m_out : forall c t, c < n -> t < tpc -> mout s c t = if phase K s c t <? 7 then outs K else outs (S K);
  m_xn : forall c t, c < n -> t < tpc -> xfits K s c t
}.

Lemma minv_init rv0 acc0 tr0 red0 r0 : minv 0 (minit rv0 acc0 tr0 red0 r0).
Proof.
  constructor; auto; try (cbn; intros; lia); try (intros; exact I).
  - apply xinv_init; auto.
  - intros c t _ _. split; [|split; discriminate]. intros v _. split; [auto|]. unfold phase. cbn. lia.
Qed.

Lemma played v : v < P -> exists c t, c < n /\ t < tpc /\ plays c t v.
Proof.
  intros Hv. destruct (Nat.lt_ge_cases v n) as [H|H].
  - exists v, 0. repeat split; [auto|lia|left; auto].
  - exists (v - n), (if tpc =? 1 then 0 else 1). split; [lia|]. split; [destruct (Nat.eqb_spec tpc 1); lia|right; repeat split; auto; lia].
Qed.
Lemma even_S K : Nat.even (S K) = negb (Nat.even K).
Proof. now rewrite Nat.even_succ, <- Nat.negb_even. Qed.
(** When everybody has returned, the next use can start. *)
Lemma minv_next K s : minv K s -> (forall c t, c < n -> t < tpc -> phase K s c t = 7) -> minv (S K) s.
Proof.
  intros I H.
  assert (E : forall c t, c < n -> t < tpc -> ment s c t = S K /\ mpcs s c t = MOut).
  { intros c t Hc Ht. specialize (H c t Hc Ht). unfold phase in H. destruct (m_e K s I c t Hc Ht) as [E|E]; rewrite E in H; [rewrite Nat.eqb_refl in H; lia|]. split; auto.
    destruct (S K =? K); [lia|]. destruct (mpcs s c t); auto; lia. }
  assert (Ph : forall c t, c < n -> t < tpc -> phase (S K) s c t = 0) by (intros c t Hc Ht; unfold phase; now rewrite (proj1 (E c t Hc Ht)), Nat.eqb_refl).
  assert (Xn : forall v, v < P -> xn (mx s) v = S K).
  { intros v Hv. destruct (played v Hv) as (c & t & Hc & Ht & Hp). destruct (m_xn K s I c t Hc Ht) as (X & _). apply X; auto. rewrite H by auto. lia. }
  constructor.
  - apply (xinv_next op n P L zero HP HL HnP HPn K (cval K)); [apply (m_x K s I)|exact Xn].
  - intros c t Hc Ht. left. apply E; auto.
  - intros c t Hc Ht _. apply E; auto.
  - intros c t Hc Ht. rewrite (proj1 (E c t Hc Ht)). lia.
  - intros c t Hc Ht. rewrite Ph, (m_ts K s I), H by auto. cbn [Nat.ltb Nat.leb]. now rewrite even_S.
  - intros c Hc. rewrite Ph, (m_cs K s I), H by (auto; lia). cbn [Nat.ltb Nat.leb]. now rewrite even_S.
  - intros c Hc. rewrite Ph by (auto; lia). lia.
  - intros c t Hc Ht. unfold pc_fits. now rewrite (proj2 (E c t Hc Ht)).
  - intros c Hc. unfold red_fits. now rewrite (proj2 (E c 0 Hc Htpc)).
  - intros c t Hc Ht. rewrite Ph, (m_out K s I), H by auto. reflexivity.
  - intros c t Hc Ht. split; [|rewrite (proj2 (E c t Hc Ht)); split; discriminate]. intros v Hp. rewrite Ph by auto. split; [|lia]. intros _.
    assert (Hv : v < P) by (destruct Hp as [(_ & ->)|(-> & Hp & _)]; lia). split; [auto|].
    destruct (x_n _ _ _ _ _ _ _ _ (m_x K s I) v Hv) as [Q|(_ & Q)]; auto. rewrite Xn in Q by auto. lia.
Qed.

Lemma plays_lt c t v : c < n -> plays c t v -> v < P.
Proof. intros Hc [(_ & ->)|(-> & H & _)]; lia. Qed.
Lemma plays_inj c t c' t' v : c < n -> c' < n -> plays c t v -> plays c' t' v -> c = c' /\ t = t'.
Proof. intros Hc Hc' [(-> & ->)|(-> & H & ->)] [(-> & E)|(E & H' & ->)]; split; lia. Qed.
Lemma both_iff c : both n P tpc c = true <-> tpc = 1 /\ c + n < P.
Proof. unfold both, has_pseudo. rewrite andb_true_iff, Nat.eqb_eq, Nat.ltb_lt. tauto. Qed.
Lemma plays_only c t v : both n P tpc c = false -> t < tpc -> plays c t v -> v = vcore n c t.
Proof.
  intros Hb Ht [(-> & ->)|(-> & H & ->)]; auto. unfold vcore. destruct (Nat.eqb_spec tpc 1) as [E|E]; auto.
  assert (both n P tpc c = true) by (apply both_iff; auto). congruence.
Qed.
Lemma plays_both c : both n P tpc c = true -> plays c 0 c /\ plays c 0 (c + n).
Proof. intros H. apply both_iff in H. destruct H as (E & H). split; [left; auto|right; rewrite E; auto]. Qed.

Section Step.
Variables (K : nat).
Notation xi := (xinv op n P L zero K (cval K)).
Lemma enter_core c x : xi x -> c < n -> xn x c = K -> xpcs x c = XOut -> xi (xenter L c (cval K c) x).
Proof.
  intros I Hc H1 H2. replace (cval K c) with (vval n zero (cval K) c) by (unfold vval; destruct (Nat.ltb_spec c n); auto; lia). apply xinv_enter; auto. lia.
Qed.
Lemma enter_pseudo c x : xi x -> c + n < P -> xn x (c + n) = K -> xpcs x (c + n) = XOut -> xi (xenter L (c + n) zero x).
Proof.
  intros I Hc H1 H2. assert (E : vval n zero (cval K) (c + n) = zero) by (unfold vval; destruct (Nat.ltb_spec (c + n) n); auto; lia). 
  pose proof (xinv_enter op n P L zero op_comm op_zero HP HL HnP HPn K (cval K) (c + n) x I Hc H1 H2) as Q. now rewrite E in Q.
Qed.
Lemma enter_eff v a (x : @xstate V) : xpcs (xenter L v a x) v = XW 0 /\ xn (xenter L v a x) = xn x /\ (forall u, u <> v -> xpcs (xenter L v a x) u = xpcs x u).
Proof.
  unfold xenter. cbn [xpcs xn]. destruct (Nat.ltb_spec 0 L); [|lia]. rewrite upd1_same. split; [auto|split; [auto|]]. intros u Hu. now rewrite upd1_other.
Qed.
Lemma start_eff c x : xi x -> c < n -> (forall v, plays c 0 v -> xn x v = K /\ xpcs x v = XOut) ->
  let x' := start n P L tpc zero c (cval K c) x in
  xi x' /\ (xpcs x' c <> XOut /\ forall v, plays c 0 v -> xn x' v = K /\ xpcs x' v = xpcs x' c) /\ (forall u, ~ plays c 0 u -> xn x' u = xn x u /\ xpcs x' u = xpcs x u).
Proof.
  intros I Hc H. destruct (H c) as (H1 & H2); [left; auto|]. pose proof (enter_core c x I Hc H1 H2) as I1. destruct (enter_eff c (cval K c) x) as (E1 & E2 & E3).
  unfold start. destruct (both n P tpc c) eqn:Eb.
  - destruct (plays_both c Eb) as (_ & Hp). destruct (H _ Hp) as (H3 & H4). apply both_iff in Eb. destruct Eb as (Et & Eb).
    set (x1 := xenter L c (cval K c) x) in *. destruct (enter_eff (c + n) zero x1) as (F1 & F2 & F3). cbv zeta. split; [|split].
    + apply enter_pseudo; auto. rewrite E3 by lia. auto.
    + split; [rewrite (F3 c), E1 by lia; discriminate|]. intros v Hv. rewrite F2, E2, (F3 c) by lia. destruct Hv as [(_ & ->)|(-> & _)]; [rewrite (F3 c) by lia; split; auto|]. now rewrite F1, E1.
    + intros u Hu. rewrite F2, E2. split; auto. rewrite F3, E3; auto; intros ->; apply Hu; [left; auto|exact Hp].
  - cbv zeta. split; [exact I1|]. split.
    + split; [rewrite E1; discriminate|]. intros v Hv. rewrite E2. assert (v = c) as -> by (rewrite (plays_only c 0 v Eb Htpc Hv); auto). auto.
    + intros u Hu. rewrite E2. split; auto. apply E3. intros ->. apply Hu. left. auto.
Qed.

Lemma minv_step c t s s' : minv K s -> c < n -> t < tpc -> ment s' c t <= S K -> mstep op n P L tpc zero contrib c t s = Some s' -> minv K s'.
Proof.
  intros I Hc Ht He' Hs.
  (* everything about the other threads *)
  assert (Fr : forall a b, a <> c \/ b <> t -> mpcs s' a b = mpcs s a b /\ ment s' a b = ment s a b /\ mtr s' a b = mtr s a b /\ mts s' a b = mts s a b /\ mout s' a b = mout s a b).
  { intros a b H. unfold mstep in Hs. destruct (mpcs s c t) as [| |i|i| | | | | |].
    - injection Hs as <-. cbn. rewrite !upd2_other by auto. auto.
    - destruct (if t =? 0 then _ else _) as (x & p). injection Hs as <-. cbn. rewrite !upd2_other by auto. auto.
    - destruct (Bool.eqb _ _); [discriminate|]. injection Hs as <-. cbn. rewrite !upd2_other by auto. auto.
    - destruct (if S i <? tpc then _ else _) as (x & p). injection Hs as <-. cbn. rewrite !upd2_other by auto. auto.
    - destruct (xstep _ _ _ _ _); [|discriminate]. injection Hs as <-. cbn. rewrite !upd2_other by auto. auto.
    - destruct (xstep _ _ _ _ _); [|discriminate]. injection Hs as <-. cbn. rewrite !upd2_other by auto. auto.
    - injection Hs as <-. cbn. rewrite !upd2_other by auto. auto.
    - injection Hs as <-. cbn. rewrite !upd2_other by auto. auto.
    - destruct (Bool.eqb _ _); [|discriminate]. injection Hs as <-. cbn. rewrite !upd2_other by auto. auto.
    - injection Hs as <-. cbn. rewrite !upd2_other by auto. auto. }
  assert (FrP : forall a b, a <> c \/ b <> t -> phase K s' a b = phase K s a b) by (intros a b H; destruct (Fr a b H) as (E1 & E2 & _); unfold phase; now rewrite E1, E2).
  assert (Fc : forall a, a <> c -> mcs s' a = mcs s a /\ mrv s' a = mrv s a /\ mred s' a = mred s a).
  { intros a H. unfold mstep in Hs. destruct (mpcs s c t) as [| |i|i| | | | | |].
    - injection Hs as <-. cbn. destruct (t =? 0); rewrite ?upd1_other by auto; auto.
    - destruct (if t =? 0 then _ else _) as (x & p). injection Hs as <-. cbn. auto.
    - destruct (Bool.eqb _ _); [discriminate|]. injection Hs as <-. auto.
    - destruct (if S i <? tpc then _ else _) as (x & p). injection Hs as <-. cbn. rewrite upd1_other by auto. auto.
    - destruct (xstep _ _ _ _ _); [|discriminate]. injection Hs as <-. auto.
    - destruct (xstep _ _ _ _ _); [|discriminate]. injection Hs as <-. auto.
    - injection Hs as <-. cbn. rewrite upd1_other by auto. auto.
    - injection Hs as <-. cbn. rewrite upd1_other by auto. auto.
    - destruct (Bool.eqb _ _); [|discriminate]. injection Hs as <-. auto.
    - injection Hs as <-. auto. }
  (* what remains to be shown *)
  assert (Key :
    xi (mx s') /\
    (forall u, ~ plays c t u -> xn (mx s') u = xn (mx s) u /\ xpcs (mx s') u = xpcs (mx s) u) /\
    ment s' c t = S K /\
    mtr s' c t = contrib c t K /\
    mts s' c t = (if phase K s' c t <? 2 then Nat.even K else negb (Nat.even K)) /\
    mcs s' c = (if phase K s' c 0 <? 6 then Nat.even K else negb (Nat.even K)) /\
    (5 <= phase K s' c 0 -> mrv s' c = total K) /\
    pc_fits K s' c t /\ red_fits K s' c /\
    mout s' c t = (if phase K s' c t <? 7 then outs K else outs (S K)) /\
    xfits K s' c t /\
    (mcs s c = negb (Nat.even K) -> mcs s' c = negb (Nat.even K))).
  2: { destruct Key as (K1 & K2 & K3 & K4 & K5 & K6 & K7 & K8 & K9 & K10 & K11 & K12).
    assert (D : forall a b, (a = c /\ b = t) \/ (a <> c \/ b <> t)) by (intros; lia).
    assert (Em : forall a b, ment s a b = S K -> ment s' a b = S K) by (intros a b E; destruct (D a b) as [(-> & ->)|N]; [exact K3|destruct (Fr a b N) as (_ & -> & _); auto]).
    constructor; auto.
    - intros a b Ha Hb. destruct (D a b) as [(-> & ->)|N]; auto. destruct (Fr a b N) as (_ & -> & _). now apply (m_e K s I).
    - intros a b Ha Hb. destruct (D a b) as [(-> & ->)|N]; [rewrite K3; lia|]. destruct (Fr a b N) as (-> & -> & _). now apply (m_ent K s I).
    - intros a b Ha Hb. destruct (D a b) as [(-> & ->)|N]; auto. destruct (Fr a b N) as (_ & -> & -> & _). now apply (m_tr K s I).
    - intros a b Ha Hb. destruct (D a b) as [(-> & ->)|N]; auto. rewrite FrP by auto. destruct (Fr a b N) as (_ & _ & _ & -> & _). now apply (m_ts K s I).
    - intros a Ha. destruct (Nat.eq_dec a c) as [->|N]; auto. rewrite FrP by auto. destruct (Fc a N) as (-> & _). now apply (m_cs K s I).
    - intros a Ha. destruct (Nat.eq_dec a c) as [->|N]; auto. rewrite FrP by auto. destruct (Fc a N) as (_ & -> & _). now apply (m_rv K s I).
    - intros a b Ha Hb. destruct (D a b) as [(-> & ->)|N]; auto. pose proof (m_pcf K s I a b Ha Hb) as Q. unfold pc_fits in *. destruct (Fr a b N) as (-> & _).
      destruct (mpcs s a b); auto; [destruct Q as (Q1 & Q2 & Q3); auto|]. destruct (Nat.eq_dec a c) as [->|Na]; [auto|]. destruct (Fc a Na) as (-> & _). auto.
    - intros a Ha. destruct (Nat.eq_dec a c) as [->|N]; auto. unfold red_fits. destruct (Fr a 0) as (-> & _); auto. destruct (Fc a N) as (_ & _ & ->). exact (m_red K s I a Ha).
    - intros a b Ha Hb. destruct (D a b) as [(-> & ->)|N]; auto. rewrite FrP by auto. destruct (Fr a b N) as (_ & _ & _ & _ & ->). now apply (m_out K s I).
    - intros a b Ha Hb. destruct (D a b) as [(-> & ->)|N]; auto. pose proof (m_pcf K s I a b Ha Hb) as Q. destruct (m_xn K s I a b Ha Hb) as (X1 & X2 & X3). unfold xfits. rewrite FrP by auto. destruct (Fr a b N) as (E1 & _). rewrite E1.
      assert (Kp : forall v, plays a b v -> xn (mx s') v = xn (mx s) v /\ xpcs (mx s') v = xpcs (mx s) v).
      { intros v Hv. apply K2. intros Hv'. destruct (plays_inj _ _ _ _ v Ha Hc Hv Hv'). lia. }
      unfold pc_fits in Q. split; [|split].
      + intros v Hv. destruct (Kp v Hv) as (-> & ->). auto.
      + intros E. rewrite E in Q. destruct (X2 E) as (X4 & X5). destruct (Kp _ Q) as (_ & ->). split; [exact X4|]. intros v Hv. destruct (Kp v Hv) as (-> & ->). auto.
      + intros E. rewrite E in Q. destruct Q as (-> & Q). destruct (plays_both a Q) as (P1 & P2). destruct (Kp _ P1) as (-> & ->). destruct (Kp _ P2) as (-> & ->). auto. }
  pose proof (m_x K s I) as Ix. pose proof (m_ent K s I c t Hc Ht) as Ient. pose proof (m_tr K s I c t Hc Ht) as Itr. pose proof (m_ts K s I c t Hc Ht) as Its. pose proof (m_e K s I c t Hc Ht) as Ie.
  pose proof (m_cs K s I c Hc) as Ics. pose proof (m_rv K s I c Hc) as Irv. pose proof (m_pcf K s I c t Hc Ht) as Ipc. pose proof (m_red K s I c Hc) as Ired.
  pose proof (m_out K s I c t Hc Ht) as Iout. destruct (m_xn K s I c t Hc Ht) as (Ix1 & Ix2 & Ix3).
  (* the phase of thread 0 of this core *)
  assert (Ph0 : t <> 0 -> phase K s' c 0 = phase K s c 0 /\ mpcs s' c 0 = mpcs s c 0) by (intros H; split; [apply FrP|apply Fr]; lia).
  assert (Px : forall p, mpcs s c t = p -> p <> MOut -> ment s c t = S K). { intros p Ep Np. destruct Ie as [E|E]; [exfalso; apply Np; rewrite <- Ep; auto|auto]. }
  assert (NK : (S K =? K) = false) by (apply Nat.eqb_neq; lia).
  (* the core's facts if the thread is not thread 0 *)
  assert (Core : t <> 0 -> mcs s' c = mcs s c -> mrv s' c = mrv s c -> mred s' c = mred s c ->
     mcs s' c = (if phase K s' c 0 <? 6 then Nat.even K else negb (Nat.even K)) /\ (5 <= phase K s' c 0 -> mrv s' c = total K) /\ red_fits K s' c).
  { intros Nt E1 E2 E3. destruct (Ph0 Nt) as (-> & Q). unfold red_fits in *. rewrite Q, E1, E2, E3. auto. }
  (* thread 0 before the end *)
  assert (Core0 : t = 0 -> phase K s c t < 6 -> phase K s' c t < 5 -> mcs s' c = mcs s c -> mcs s' c = (if phase K s' c 0 <? 6 then Nat.even K else negb (Nat.even K)) /\ (5 <= phase K s' c 0 -> mrv s' c = total K)).
  { intros -> H1 H2 ->. split; [|lia]. rewrite Ics. destruct (Nat.ltb_spec (phase K s c 0) 6), (Nat.ltb_spec (phase K s' c 0) 6); auto; lia. }
  unfold mstep in Hs. destruct (mpcs s c t) as [| |i|i| | | | | |] eqn:Ep.
  - (* enter *)
    injection Hs as <-. cbn [ment] in He'. rewrite upd2_same in He'. assert (E0 : ment s c t = K) by lia.
    assert (Ph : phase K s c t = 0) by (unfold phase; now rewrite E0, Nat.eqb_refl). rewrite Ph in *.
    match goal with |- context [phase K ?q] => set (s' := q) in * end.
    assert (Pc' : mpcs s' c t = MSig) by (unfold s'; cbn; now rewrite upd2_same). assert (Em' : ment s' c t = S K) by (unfold s'; cbn; now rewrite upd2_same, E0).
    assert (Ph' : phase K s' c t = 1) by (unfold phase; now rewrite Em', NK, Pc'). rewrite Ph' in *.
    split; [exact Ix|]. split; [auto|]. split; [exact Em'|].
    split; [unfold s'; cbn [mtr]; rewrite upd2_same, E0; auto|]. split; [exact Its|].
    assert (Rest : mcs s' c = (if phase K s' c 0 <? 6 then Nat.even K else negb (Nat.even K)) /\ (5 <= phase K s' c 0 -> mrv s' c = total K) /\ red_fits K s' c).
    { destruct (Nat.eq_dec t 0) as [->|Nt]; [|apply Core; auto; unfold s'; cbn; destruct (Nat.eqb_spec t 0); [lia|auto]].
      destruct Core0 as (R1 & R2); auto; try lia. split; [exact R1|]. split; [exact R2|]. unfold red_fits. rewrite Pc'. unfold s'. cbn. now rewrite upd1_same, E0. }
    destruct Rest as (R1 & R2 & R3). split; [exact R1|]. split; [exact R2|]. split; [unfold pc_fits; now rewrite Pc'|]. split; [exact R3|]. split; [exact Iout|]. split; [|auto].
    unfold xfits. rewrite Pc', Ph'. split; [|split; discriminate]. intros v Hv. destruct (Ix1 v Hv) as (X & _). split; [intros _; apply X; lia|lia].
  - (* signal *)
    pose proof (Px _ eq_refl ltac:(discriminate)) as E1. assert (Ph : phase K s c t = 1) by (unfold phase; now rewrite E1, NK, Ep). rewrite Ph in *. cbn in Its. rewrite Its in Hs.
    destruct (Nat.eqb_spec t 0) as [->|Nt].
    + unfold red_fits in Ired. rewrite Ep in Ired. destruct (Nat.ltb_spec 1 tpc).
      * injection Hs as <-. match goal with |- context [phase K ?q] => set (s' := q) in * end.
        assert (Pc' : mpcs s' c 0 = MGather 1) by (unfold s'; cbn; now rewrite upd2_same).
        assert (Ph' : phase K s' c 0 = 2) by (unfold phase; rewrite Pc'; unfold s'; cbn [ment]; now rewrite E1, NK). rewrite Ph' in *.
        destruct Core0 as (R1 & R2); auto; try lia.
        split; [exact Ix|]. split; [auto|]. split; [exact E1|]. split; [exact (Itr E1)|]. split; [unfold s'; cbn; now rewrite upd2_same|].
        split; [exact R1|]. split; [exact R2|]. split; [unfold pc_fits; rewrite Pc'; lia|].
        split; [unfold red_fits in *; rewrite Pc'; exact Ired|]. split; [exact Iout|]. split; [|auto].
        unfold xfits. rewrite Pc', Ph'. split; [|split; discriminate]. intros v Hv. destruct (Ix1 v Hv) as (X & _). split; [intros _; apply X; lia|lia].
      * assert (Ev : mred s c = cval K c) by (rewrite Ired; unfold cval, cpart; replace (tpc - 1) with 0 by lia; reflexivity). rewrite Ev in Hs.
        destruct (start_eff c (mx s) Ix Hc) as (X1 & X2 & X3); [intros v Hv; apply Ix1; auto; lia|].
        injection Hs as <-. match goal with |- context [phase K ?q] => set (s' := q) in * end.
        assert (Pc' : mpcs s' c 0 = MX) by (unfold s'; cbn; now rewrite upd2_same).
        assert (Ph' : phase K s' c 0 = 3) by (unfold phase; rewrite Pc'; unfold s'; cbn [ment]; now rewrite E1, NK). rewrite Ph' in *.
        destruct Core0 as (R1 & R2); auto; try lia.
        split; [exact X1|]. split; [exact X3|]. split; [exact E1|]. split; [exact (Itr E1)|]. split; [unfold s'; cbn; now rewrite upd2_same|].
        split; [exact R1|]. split; [exact R2|]. split; [unfold pc_fits; rewrite Pc'; left; auto|].
        split; [unfold red_fits in *; now rewrite Pc'|]. split; [exact Iout|]. split; [|auto].
        unfold xfits. rewrite Pc', Ph'. split; [intros; lia|]. split; [intros _; exact X2|discriminate].
    + destruct ((t =? 1) && has_pseudo n P c) eqn:Eps.
      * apply andb_prop in Eps. destruct Eps as (Et & Eps). apply Nat.eqb_eq in Et. subst t. apply Nat.ltb_lt in Eps.
        assert (Hp : plays c 1 (c + n)) by (right; destruct (Nat.eqb_spec tpc 1); [lia|auto]).
        assert (Ho : forall v, plays c 1 v -> v = c + n) by (intros v [(Q & _)|(Q & _)]; [lia|auto]).
        destruct (Ix1 _ Hp) as (X & _). destruct (X ltac:(lia)) as (X1 & X2). pose proof (enter_pseudo c (mx s) Ix Eps X1 X2) as X3. destruct (enter_eff (c + n) zero (mx s)) as (F1 & F2 & F3).
        injection Hs as <-. match goal with |- context [phase K ?q] => set (s' := q) in * end.
        assert (Pc' : mpcs s' c 1 = MX) by (unfold s'; cbn; now rewrite upd2_same).
        assert (Ph' : phase K s' c 1 = 3) by (unfold phase; rewrite Pc'; unfold s'; cbn [ment]; now rewrite E1, NK). rewrite Ph' in *.
        destruct Core as (R1 & R2 & R3); auto.
        split; [exact X3|]. split; [intros u Hu; unfold s'; cbn [mx]; rewrite F2; split; auto; apply F3; intros ->; auto|]. split; [exact E1|]. split; [exact (Itr E1)|]. split; [unfold s'; cbn; now rewrite upd2_same|].
        split; [exact R1|]. split; [exact R2|]. split; [unfold pc_fits; rewrite Pc'; exact Hp|]. split; [exact R3|]. split; [exact Iout|]. split; [|auto].
        unfold xfits. rewrite Pc', Ph'. split; [intros; lia|]. split; [|discriminate]. intros _. unfold s'. cbn [mx]. split; [change (vcore n c 1) with (c + n); rewrite F1; discriminate|]. intros v Hv. rewrite (Ho v Hv). rewrite F2. auto.
      * injection Hs as <-. match goal with |- context [phase K ?q] => set (s' := q) in * end.
        assert (Pc' : mpcs s' c t = MWait) by (unfold s'; cbn; now rewrite upd2_same).
        assert (Ph' : phase K s' c t = 4) by (unfold phase; rewrite Pc'; unfold s'; cbn [ment]; now rewrite E1, NK). rewrite Ph' in *.
        destruct Core as (R1 & R2 & R3); auto.
        split; [exact Ix|]. split; [auto|]. split; [exact E1|]. split; [exact (Itr E1)|]. split; [unfold s'; cbn; now rewrite upd2_same|].
        split; [exact R1|]. split; [exact R2|]. split; [unfold pc_fits; rewrite Pc'; auto|]. split; [exact R3|]. split; [exact Iout|]. split; [|auto].
        unfold xfits. rewrite Pc'. split; [|split; discriminate]. intros v [(Z & _)|(_ & Z & Z')]; [lia|]. exfalso. destruct (Nat.eqb_spec tpc 1); [lia|].
        subst t. unfold has_pseudo in Eps. destruct (Nat.ltb_spec (c + n) P); [discriminate|lia].
  - (* wait for thread i *)
    pose proof (Px _ eq_refl ltac:(discriminate)) as E1. assert (Ph : phase K s c t = 2) by (unfold phase; now rewrite E1, NK, Ep). rewrite Ph in *.
    unfold pc_fits in Ipc. rewrite Ep in Ipc. destruct Ipc as (-> & Hi). rewrite Ph in Ics. cbn in Ics.
    destruct (Bool.eqb (mts s c i) (mcs s c)) eqn:Eb; [discriminate|]. injection Hs as <-. match goal with |- context [phase K ?q] => set (s' := q) in * end.
    assert (Ei : ment s c i = S K). { destruct (m_e K s I c i Hc ltac:(lia)) as [E|E]; auto. exfalso. rewrite (m_ts K s I c i Hc) in Eb by lia. unfold phase in Eb. rewrite E, Nat.eqb_refl in Eb. cbn in Eb. rewrite Ics, Bool.eqb_reflx in Eb. discriminate. }
    assert (Pc' : mpcs s' c 0 = MGet i) by (unfold s'; cbn; now rewrite upd2_same).
    assert (Ph' : phase K s' c 0 = 2) by (unfold phase; rewrite Pc'; unfold s'; cbn [ment m_pc]; now rewrite E1, NK). rewrite Ph' in *.
    split; [exact Ix|]. split; [auto|]. split; [exact E1|]. split; [exact (Itr E1)|]. split; [exact Its|].
    split; [exact Ics|]. split; [lia|]. split; [unfold pc_fits; rewrite Pc'; auto|].
    split; [unfold red_fits in *; rewrite Pc'; rewrite Ep in Ired; exact Ired|]. split; [exact Iout|]. split; [|auto].
    unfold xfits. rewrite Pc', Ph'. split; [|split; discriminate]. intros v Hv. destruct (Ix1 v Hv) as (X & _). split; [intros _; apply X; lia|lia].
  - (* read the value of thread i *)
    pose proof (Px _ eq_refl ltac:(discriminate)) as E1. assert (Ph : phase K s c t = 2) by (unfold phase; now rewrite E1, NK, Ep). rewrite Ph in *.
    unfold pc_fits in Ipc. rewrite Ep in Ipc. destruct Ipc as (-> & Hi & Ei). rewrite Ph in Ics. cbn in Ics.
    assert (Ev : op (mred s c) (mtr s c i) = cpart K c (S i)).
    { rewrite cpart_S by lia. unfold red_fits in Ired. rewrite Ep in Ired. rewrite Ired. f_equal. apply (m_tr K s I); auto; lia. }
    rewrite Ev in Hs. destruct (Nat.ltb_spec (S i) tpc) as [H|H].
    + injection Hs as <-. match goal with |- context [phase K ?q] => set (s' := q) in * end.
      assert (Pc' : mpcs s' c 0 = MGather (S i)) by (unfold s'; cbn; now rewrite upd2_same).
      assert (Ph' : phase K s' c 0 = 2) by (unfold phase; rewrite Pc'; unfold s'; cbn [ment]; now rewrite E1, NK). rewrite Ph' in *.
      split; [exact Ix|]. split; [auto|]. split; [exact E1|]. split; [exact (Itr E1)|]. split; [exact Its|].
      split; [exact Ics|]. split; [lia|]. split; [unfold pc_fits; rewrite Pc'; lia|].
      split; [unfold red_fits in *; rewrite Pc'; unfold s'; cbn [mred]; now rewrite upd1_same|]. split; [exact Iout|]. split; [|auto].
      unfold xfits. rewrite Pc', Ph'. split; [|split; discriminate]. intros v Hv. destruct (Ix1 v Hv) as (X & _). split; [intros _; apply X; lia|lia].
    + assert (ET : S i = tpc) by lia. change (cpart K c (S i)) with (cpart K c (S i)) in Hs. rewrite ET in Hs. change (cpart K c tpc) with (cval K c) in Hs.
      destruct (start_eff c (mx s) Ix Hc) as (X1 & X2 & X3); [intros v Hv; apply Ix1; auto; lia|].
      injection Hs as <-. match goal with |- context [phase K ?q] => set (s' := q) in * end.
      assert (Pc' : mpcs s' c 0 = MX) by (unfold s'; cbn; now rewrite upd2_same).
      assert (Ph' : phase K s' c 0 = 3) by (unfold phase; rewrite Pc'; unfold s'; cbn [ment]; now rewrite E1, NK). rewrite Ph' in *.
      split; [exact X1|]. split; [exact X3|]. split; [exact E1|]. split; [exact (Itr E1)|]. split; [exact Its|].
      split; [exact Ics|]. split; [lia|]. split; [unfold pc_fits; rewrite Pc'; left; auto|].
      split; [unfold red_fits; now rewrite Pc'|]. split; [exact Iout|]. split; [|auto].
      unfold xfits. rewrite Pc', Ph'. split; [intros; lia|]. split; [intros _; exact X2|discriminate].
  - (* rounds *)
    pose proof (Px _ eq_refl ltac:(discriminate)) as E1. assert (Ph : phase K s c t = 3) by (unfold phase; now rewrite E1, NK, Ep). rewrite Ph in *.
    unfold pc_fits in Ipc. rewrite Ep in Ipc. rename Ipc into Hp. specialize (Ix2 eq_refl). destruct Ix2 as (Ix0 & Ix2). destruct (Ix2 _ Hp) as (X & _).
    destruct (xstep op P L (vcore n c t) (mx s)) as [x|] eqn:Ex; [|discriminate]. injection Hs as <-.
    pose proof (xinv_step op n P L zero op_assoc op_zero HP HL HnP HPn K (cval K) _ _ _ Ix (plays_lt c t _ Hc Hp) X Ex) as Ix'.
    destruct (xstep_eff _ _ _ _ _ _ Ex) as (Xf & Xp & Xn & Xo). rewrite X in Xn.
    destruct (both n P tpc c) eqn:Eb.
    + assert (t = 0) as -> by (apply both_iff in Eb; lia). change (vcore n c 0) with c in *. destruct (plays_both c Eb) as (P1 & P2). destruct (Ix2 _ P2) as (Y1 & Y2).
      assert (Nc : c + n <> c) by (apply both_iff in Eb; lia). destruct (Xf _ Nc) as (Z1 & Z2).
      match goal with |- context [phase K ?q] => set (s' := q) in * end.
      assert (Pc' : mpcs s' c 0 = MXp) by (unfold s'; cbn; now rewrite upd2_same).
      assert (Ph' : phase K s' c 0 = 3) by (unfold phase; rewrite Pc'; unfold s'; cbn [ment m_pc]; now rewrite E1, NK). rewrite Ph' in *.
      destruct Core0 as (R1 & R2); auto; try lia.
      split; [exact Ix'|]. split; [intros u Hu; apply Xf; intros ->; auto|]. split; [exact E1|]. split; [exact (Itr E1)|]. split; [exact Its|].
      split; [exact R1|]. split; [exact R2|]. split; [unfold pc_fits; now rewrite Pc'|].
      split; [unfold red_fits; now rewrite Pc'|]. split; [exact Iout|]. split; [|auto].
      unfold xfits. rewrite Pc', Ph'. split; [intros; lia|]. split; [discriminate|]. intros _. change (mx s') with x. rewrite Z1, Z2, Y2, Xp, Xn. auto.
    + assert (Ho : forall v, plays c t v -> v = vcore n c t) by (intros v Hv; now apply plays_only).
      set (p := after t (xpcs (mx s) (vcore n c t))) in *. match goal with |- context [phase K ?q] => set (s' := q) in * end.
      assert (Pc' : mpcs s' c t = p) by (unfold s'; cbn; now rewrite upd2_same).
      assert (Hph : phase K s' c t = match xpcs (mx s) (vcore n c t) with XDone => 4 | _ => 3 end).
      { unfold phase. rewrite Pc'. unfold s', p, after. cbn [ment m_pc]. rewrite E1, NK. destruct (xpcs _ _); auto. destruct (t =? 0); auto. }
      assert (Hph2 : phase K s' c t = 3 \/ phase K s' c t = 4) by (rewrite Hph; destruct (xpcs _ _); auto).
      split; [exact Ix'|]. split; [intros u Hu; apply Xf; intros ->; auto|]. split; [exact E1|]. split; [exact (Itr E1)|].
      split; [change (mts s' c t) with (mts s c t); rewrite Its; destruct Hph2 as [-> | ->]; auto|].
      assert (Rest : mcs s' c = (if phase K s' c 0 <? 6 then Nat.even K else negb (Nat.even K)) /\ (5 <= phase K s' c 0 -> mrv s' c = total K) /\ red_fits K s' c).
      { destruct (Nat.eq_dec t 0) as [->|Nt]; [|apply Core; auto]. destruct Core0 as (R1 & R2); auto; try lia. split; [exact R1|]. split; [exact R2|].
        unfold red_fits. rewrite Pc'. unfold p, after. destruct (xpcs _ _); cbn; auto. }
      destruct Rest as (R1 & R2 & R3). split; [exact R1|]. split; [exact R2|].
      split. { unfold pc_fits. rewrite Pc'. unfold p, after. destruct (xpcs _ _); auto. destruct (Nat.eqb_spec t 0); auto. }
      split; [exact R3|].
      split; [change (mout s' c t) with (mout s c t); rewrite Iout; destruct Hph2 as [-> | ->]; auto|]. split; [|auto].
      unfold xfits. rewrite Pc', Hph. change (mx s') with x. split; [|split].
      * intros v Hv. rewrite (Ho v Hv), Xn. destruct (xpcs _ _); split; intros; try lia; auto.
      * intros Ea. rewrite Xp. unfold p, after in Ea. split.
        -- destruct (xpcs (mx s) _); cbn [nxt]; try discriminate; [congruence|destruct (S r <? L); discriminate|destruct (t =? 0); discriminate].
        -- intros v Hv. rewrite (Ho v Hv), Xn, Xp. destruct (xpcs (mx s) _); auto. destruct (t =? 0); discriminate.
      * intros Ea. unfold p, after in Ea. destruct (xpcs (mx s) _); try discriminate. destruct (t =? 0); discriminate.
  - (* rounds of the pseudo core *)
    pose proof (Px _ eq_refl ltac:(discriminate)) as E1. assert (Ph : phase K s c t = 3) by (unfold phase; now rewrite E1, NK, Ep). rewrite Ph in *.
    unfold pc_fits in Ipc. rewrite Ep in Ipc. destruct Ipc as (-> & Eb). specialize (Ix3 eq_refl). destruct Ix3 as (X0 & X & Y1 & Y2). destruct (plays_both c Eb) as (P1 & P2).
    destruct (xstep op P L (c + n) (mx s)) as [x|] eqn:Ex; [|discriminate]. injection Hs as <-.
    pose proof (xinv_step op n P L zero op_assoc op_zero HP HL HnP HPn K (cval K) _ _ _ Ix (plays_lt c 0 _ Hc P2) X Ex) as Ix'.
    destruct (xstep_eff _ _ _ _ _ _ Ex) as (Xf & Xp & Xn & Xo). rewrite X in Xn.
    assert (Nc : c <> c + n) by lia. destruct (Xf _ Nc) as (Z1 & Z2). rewrite Y2 in Z1. rewrite Y1 in Z2.
    assert (Ho : forall v, plays c 0 v -> v = c \/ v = c + n) by (intros v [(_ & ->)|(-> & _)]; auto).
    set (p := after 0 (xpcs (mx s) (c + n))) in *. match goal with |- context [phase K ?q] => set (s' := q) in * end.
    assert (Pc' : mpcs s' c 0 = p) by (unfold s'; cbn; now rewrite upd2_same).
    assert (Hph : phase K s' c 0 = match xpcs (mx s) (c + n) with XDone => 4 | _ => 3 end).
    { unfold phase. rewrite Pc'. unfold s', p, after. cbn [ment m_pc]. rewrite E1, NK. destruct (xpcs _ _); auto. }
    assert (Hph2 : phase K s' c 0 = 3 \/ phase K s' c 0 = 4) by (rewrite Hph; destruct (xpcs _ _); auto).
    destruct Core0 as (R1 & R2); auto; try lia.
    split; [exact Ix'|]. split; [intros u Hu; apply Xf; intros ->; auto|]. split; [exact E1|]. split; [exact (Itr E1)|].
    split; [change (mts s' c 0) with (mts s c 0); rewrite Its; destruct Hph2 as [-> | ->]; auto|].
    split; [exact R1|]. split; [exact R2|].
    split. { unfold pc_fits. rewrite Pc'. unfold p, after. destruct (xpcs _ _); cbn; auto. }
    split. { unfold red_fits. rewrite Pc'. unfold p, after. destruct (xpcs _ _); cbn; auto. }
    split; [change (mout s' c 0) with (mout s c 0); rewrite Iout; destruct Hph2 as [-> | ->]; auto|]. split; [|auto].
    unfold xfits. rewrite Pc', Hph. change (mx s') with x. split; [|split].
    + intros v Hv. destruct (Ho v Hv) as [-> | ->]; rewrite ?Xn, ?Z1; destruct (xpcs (mx s) _); split; intros; try lia; auto.
    + intros Ea. unfold p, after in Ea. change (vcore n c 0) with c. rewrite Z2. split.
      { destruct (xpcs (mx s) _); cbn [nxt]; try discriminate; [congruence|destruct (S r <? L); discriminate]. }
      intros v Hv. destruct (Ho v Hv) as [-> | ->]; rewrite ?Xn, ?Z1, ?Z2, ?Xp; destruct (xpcs (mx s) _); auto; discriminate.
    + intros Ea. unfold p, after in Ea. destruct (xpcs (mx s) _); discriminate.
  - (* rval *)
    pose proof (Px _ eq_refl ltac:(discriminate)) as E1. assert (Ph : phase K s c t = 4) by (unfold phase; now rewrite E1, NK, Ep). rewrite Ph in *.
    unfold pc_fits in Ipc. rewrite Ep in Ipc. subst t. rewrite Ph in Ics. cbn in Ics.
    assert (Ev : xacc (mx s) c = total K).
    { apply (xacc_total op n P L zero op_assoc op_comm op_zero HP HL HnP HPn K (cval K) c _ Ix); [lia|]. apply Ix1; [left; auto|lia]. } rewrite Ev in Hs.
    injection Hs as <-. match goal with |- context [phase K ?q] => set (s' := q) in * end.
    assert (Pc' : mpcs s' c 0 = MWake) by (unfold s'; cbn; now rewrite upd2_same).
    assert (Ph' : phase K s' c 0 = 5) by (unfold phase; rewrite Pc'; unfold s'; cbn [ment]; now rewrite E1, NK). rewrite Ph' in *.
    split; [exact Ix|]. split; [auto|]. split; [exact E1|]. split; [exact (Itr E1)|]. split; [exact Its|].
    split; [exact Ics|]. split; [intros _; unfold s'; cbn [mrv]; now rewrite upd1_same|]. split; [unfold pc_fits; rewrite Pc'; auto|].
    split; [unfold red_fits; now rewrite Pc'|]. split; [exact Iout|]. split; [|auto].
    unfold xfits. rewrite Pc', Ph'. split; [|split; discriminate]. intros v Hv. split; [lia|]. intros _. apply Ix1; auto.
  - (* wake *)
    pose proof (Px _ eq_refl ltac:(discriminate)) as E1. assert (Ph : phase K s c t = 5) by (unfold phase; now rewrite E1, NK, Ep). rewrite Ph in *.
    unfold pc_fits in Ipc. rewrite Ep in Ipc. subst t. rewrite Ph in Ics, Irv. cbn in Ics, Its.
    rewrite Its in Hs. injection Hs as <-. match goal with |- context [phase K ?q] => set (s' := q) in * end.
    assert (Pc' : mpcs s' c 0 = MRet) by (unfold s'; cbn; now rewrite upd2_same).
    assert (Ph' : phase K s' c 0 = 6) by (unfold phase; rewrite Pc'; unfold s'; cbn [ment]; now rewrite E1, NK). rewrite Ph' in *.
    assert (Cs' : mcs s' c = negb (Nat.even K)) by (unfold s'; cbn; now rewrite upd1_same).
    split; [exact Ix|]. split; [auto|]. split; [exact E1|]. split; [exact (Itr E1)|]. split; [exact Its|].
    split; [exact Cs'|]. split; [intros _; apply Irv; lia|]. split; [unfold pc_fits; rewrite Pc'; auto|].
    split; [unfold red_fits; now rewrite Pc'|]. split; [exact Iout|]. split; [|auto].
    unfold xfits. rewrite Pc', Ph'. split; [|split; discriminate]. intros v Hv. split; [lia|]. intros _. apply Ix1; auto; lia.
  - (* wait *)
    pose proof (Px _ eq_refl ltac:(discriminate)) as E1. assert (Ph : phase K s c t = 4) by (unfold phase; now rewrite E1, NK, Ep). rewrite Ph in *.
    unfold pc_fits in Ipc. rewrite Ep in Ipc. rename Ipc into Nt. cbn in Its. rewrite Its in Hs.
    destruct (Bool.eqb (mcs s c) (negb (Nat.even K))) eqn:Ecs; [|discriminate]. apply Bool.eqb_prop in Ecs. injection Hs as <-. match goal with |- context [phase K ?q] => set (s' := q) in * end.
    assert (Pc' : mpcs s' c t = MRet) by (unfold s'; cbn; now rewrite upd2_same).
    assert (Ph' : phase K s' c t = 6) by (unfold phase; rewrite Pc'; unfold s'; cbn [ment m_pc]; now rewrite E1, NK). rewrite Ph' in *.
    destruct Core as (R1 & R2 & R3); auto.
    split; [exact Ix|]. split; [auto|]. split; [exact E1|]. split; [exact (Itr E1)|]. split; [exact Its|].
    split; [exact R1|]. split; [exact R2|]. split; [unfold pc_fits; rewrite Pc'; exact Ecs|].
    split; [exact R3|]. split; [exact Iout|]. split; [|auto].
    unfold xfits. rewrite Pc', Ph'. split; [|split; discriminate]. intros v Hv. split; [lia|]. intros _. apply Ix1; auto.
  - (* return *)
    pose proof (Px _ eq_refl ltac:(discriminate)) as E1. assert (Ph : phase K s c t = 6) by (unfold phase; now rewrite E1, NK, Ep). rewrite Ph in *.
    unfold pc_fits in Ipc. rewrite Ep in Ipc. cbn in Iout. rewrite Iout in Hs.
    assert (W : 6 <= phase K s c 0). { destruct (Nat.ltb_spec (phase K s c 0) 6); auto. rewrite Ipc in Ics. destruct (Nat.even K); discriminate. }
    rewrite Irv in Hs by lia.
    injection Hs as <-. match goal with |- context [phase K ?q] => set (s' := q) in * end.
    assert (Pc' : mpcs s' c t = MOut) by (unfold s'; cbn; now rewrite upd2_same).
    assert (Ph' : phase K s' c t = 7) by (unfold phase; rewrite Pc'; unfold s'; cbn [ment]; now rewrite E1, NK).
    assert (Ph0' : 6 <= phase K s' c 0) by (destruct (Nat.eq_dec t 0) as [->|Nt]; [lia|destruct (Ph0 Nt) as (-> & _); lia]).
    rewrite Ph'. split; [exact Ix|]. split; [auto|]. split; [exact E1|]. split; [exact (Itr E1)|]. split; [exact Its|].
    split; [change (mcs s' c) with (mcs s c); rewrite Ipc; destruct (Nat.ltb_spec (phase K s' c 0) 6); [lia|auto]|]. split; [intros _; apply Irv; lia|]. split; [unfold pc_fits; rewrite Pc'; auto|].
    split. { unfold red_fits in *. destruct (Nat.eq_dec t 0) as [->|Nt]; [now rewrite Pc'|]. destruct (Ph0 Nt) as (_ & ->). exact Ired. }
    split; [unfold s'; cbn; now rewrite upd2_same|]. split; [|intros _; exact Ipc].
    unfold xfits. rewrite Pc', Ph'. split; [|split; discriminate]. intros v Hv. split; [lia|]. intros _. apply Ix1; auto; lia.
Qed.
End Step.

Lemma ment_mono c t s s' a b : mstep op n P L tpc zero contrib c t s = Some s' -> ment s a b <= ment s' a b.
Proof.
  intros Hs. unfold mstep in Hs. destruct (mpcs s c t) as [| |i|i| | | | | |].
  - injection Hs as <-. cbn. unfold upd2. destruct (Nat.eqb_spec a c), (Nat.eqb_spec b t); cbn; subst; lia.
  - destruct (if t =? 0 then _ else _) as (x & p). injection Hs as <-. auto.
  - destruct (Bool.eqb _ _); [discriminate|]. injection Hs as <-. auto.
  - destruct (if S i <? tpc then _ else _) as (x & p). injection Hs as <-. auto.
  - destruct (xstep _ _ _ _ _); [|discriminate]. injection Hs as <-. auto.
  - destruct (xstep _ _ _ _ _); [|discriminate]. injection Hs as <-. auto.
  - injection Hs as <-. auto.
  - injection Hs as <-. auto.
  - destruct (Bool.eqb _ _); [|discriminate]. injection Hs as <-. auto.
  - injection Hs as <-. auto.
Qed.
Lemma ment_step c t s s' : mstep op n P L tpc zero contrib c t s = Some s' -> ment s' c t = match mpcs s c t with MOut => S (ment s c t) | _ => ment s c t end.
Proof.
  intros Hs. unfold mstep in Hs. destruct (mpcs s c t) as [| |i|i| | | | | |].
  - injection Hs as <-. cbn. apply upd2_same.
  - destruct (if t =? 0 then _ else _) as (x & p). injection Hs as <-. auto.
  - destruct (Bool.eqb _ _); [discriminate|]. injection Hs as <-. auto.
  - destruct (if S i <? tpc then _ else _) as (x & p). injection Hs as <-. auto.
  - destruct (xstep _ _ _ _ _); [|discriminate]. injection Hs as <-. auto.
  - destruct (xstep _ _ _ _ _); [|discriminate]. injection Hs as <-. auto.
  - injection Hs as <-. auto.
  - injection Hs as <-. auto.
  - destruct (Bool.eqb _ _); [|discriminate]. injection Hs as <-. auto.
  - injection Hs as <-. auto.
Qed.
Lemma outs_length K : length (outs K) = K.
Proof. induction K; cbn; auto. Qed.
Lemma phase_le K s c t : phase K s c t <= 7.
Proof. unfold phase. destruct (ment s c t =? K); [lia|]. destruct (mpcs s c t); lia. Qed.

Lemma msep_inv rv0 acc0 tr0 red0 r0 s : msep op n P L tpc zero contrib (minit rv0 acc0 tr0 red0 r0) s -> exists K, minv K s.
Proof.
  induction 1 as [|s c t s' Hr (K & I) Hc Ht Hsep Hs]; [exists 0; apply minv_init|].
  pose proof (ment_step _ _ _ _ Hs) as E. destruct (m_e K s I c t Hc Ht) as [E0|E0].
  - exists K. apply (minv_step K c t s s' I Hc Ht); auto. rewrite E, E0. destruct (mpcs s c t); lia.
  - destruct (mpcs s c t) eqn:Ep; try (exists K; apply (minv_step K c t s s' I Hc Ht); auto; lia).
    exists (S K). apply (minv_step (S K) c t s s'); auto; [|lia]. apply minv_next; auto. intros a b Ha Hb.
    specialize (Hsep eq_refl a b Ha Hb). rewrite (m_out K s I a b Ha Hb), E0 in Hsep. destruct (Nat.ltb_spec (phase K s a b) 7); [rewrite outs_length in Hsep; lia|].
    pose proof (phase_le K s a b). lia.
Qed.
(** The first calls are separated. *)
Lemma first_msep rv0 acc0 tr0 red0 r0 s : mreach op n P L tpc zero contrib (minit rv0 acc0 tr0 red0 r0) s ->
  (forall c t, c < n -> t < tpc -> ment s c t <= 1) -> msep op n P L tpc zero contrib (minit rv0 acc0 tr0 red0 r0) s.
Proof.
  induction 1 as [|s c t s' Hr IH Hc Ht Hs]; intros H1; [constructor|].
  eapply ms_step; eauto.
  - apply IH. intros a b Ha Hb. eapply Nat.le_trans; [eapply ment_mono; eauto|auto].
  - intros Ep c' t' _ _. pose proof (ment_step _ _ _ _ Hs) as E. rewrite Ep in E. specialize (H1 c t Hc Ht). lia.
Qed.
Lemma outs_nth K i v : nth_error (rev (outs K)) i = Some v -> v = total i.
Proof.
  revert i. induction K as [|K IH]; intros i; cbn [outs rev].
  - destruct i; discriminate.
  - intros H. destruct (Nat.lt_ge_cases i K) as [Hi|Hi].
    + rewrite nth_error_app1 in H by (rewrite rev_length, outs_length; lia). auto.
    + rewrite nth_error_app2 in H by (rewrite rev_length, outs_length; lia). rewrite rev_length, outs_length in H. destruct (i - K) as [|j] eqn:Ej; [|destruct j; discriminate].
      replace i with K by lia. cbn in H. congruence.
Qed.
Lemma reduce_sep rv0 acc0 tr0 red0 r0 s c t i v : msep op n P L tpc zero contrib (minit rv0 acc0 tr0 red0 r0) s -> c < n -> t < tpc ->
  nth_error (rev (mout s c t)) i = Some v -> v = total i.
Proof.
  intros Hr Hc Ht. destruct (msep_inv _ _ _ _ _ s Hr) as (K & I). rewrite (m_out K s I c t Hc Ht). destruct (phase K s c t <? 7); apply outs_nth.
Qed.

(** ** Nobody gets stuck *)
Lemma any_thread m k (b : nat -> nat -> bool) : (exists c t, c < m /\ t < k /\ b c t = true) \/ (forall c t, c < m -> t < k -> b c t = false).
Proof.
  destruct (existsb (fun c => existsb (b c) (seq 0 k)) (seq 0 m)) eqn:E.
  - left. apply existsb_exists in E. destruct E as (c & Hc & E). apply existsb_exists in E. destruct E as (t & Ht & E). apply in_seq in Hc, Ht. exists c, t. repeat split; auto; lia.
  - right. intros c t Hc Ht. destruct (b c t) eqn:Eb; auto. exfalso. assert (existsb (fun c => existsb (b c) (seq 0 k)) (seq 0 m) = true); [|congruence].
    apply existsb_exists. exists c. split; [apply in_seq; lia|]. apply existsb_exists. exists t. split; [apply in_seq; lia|auto].
Qed.
Lemma xstep_stuck K x v : xinv op n P L zero K (cval K) x -> v < P -> xn x v = K -> xpcs x v <> XOut -> xstep op P L v x = None -> exists r, xpcs x v = XR r /\ r < L /\ xflag x v (pk K) r <> sk K.
Proof.
  intros I Hv Hn Ho Hs. destruct (x_par _ _ _ _ _ _ _ _ I v Hv) as (E1 & E2). rewrite Hn in E1, E2. pose proof (x_pc _ _ _ _ _ _ _ _ I v Hv) as Hok.
  unfold xstep in Hs. destruct (xpcs x v) as [|r|r|r|r|]; try discriminate; [congruence|].
  exists r. rewrite E1, E2 in Hs. split; [auto|]. split; [exact Hok|]. intros E. rewrite E, Bool.eqb_reflx in Hs. discriminate.
Qed.
Lemma progress_inv K s : minv K s -> (exists c t, c < n /\ t < tpc /\ mpcs s c t <> MOut) ->
  exists c t s', c < n /\ t < tpc /\ (mpcs s c t = MOut -> forall c' t', c' < n -> t' < tpc -> ment s c t <= length (mout s c' t')) /\ mstep op n P L tpc zero contrib c t s = Some s'.
Proof.
  intros I Hin.
  destruct (any_thread n tpc (fun c t => match mpcs s c t with MOut => ment s c t =? K | _ => match mstep op n P L tpc zero contrib c t s with Some _ => true | None => false end end)) as [(c & t & Hc & Ht & H)|Stuck].
  { destruct (mpcs s c t) eqn:Ep; [|destruct (mstep op n P L tpc zero contrib c t s) as [s'|] eqn:Es; [|discriminate]; exists c, t, s'; split; [auto|split; [auto|split; [rewrite Ep; discriminate|auto]]]..].
    apply Nat.eqb_eq in H. exists c, t. unfold mstep. rewrite Ep. eexists. split; [auto|split; [auto|split; [|reflexivity]]]. intros _ c' t' Hc' Ht'.
    rewrite (m_out K s I c' t' Hc' Ht'), H. destruct (phase K s c' t' <? 7); rewrite outs_length; lia. }
  exfalso.
  (* everybody is inside or has returned, and nobody can move *)
  assert (St : forall c t, c < n -> t < tpc -> mpcs s c t <> MOut -> mstep op n P L tpc zero contrib c t s = None).
  { intros c t Hc Ht H. specialize (Stuck c t Hc Ht). destruct (mpcs s c t); [congruence|destruct (mstep op n P L tpc zero contrib c t s); [discriminate|auto]..]. }
  assert (En : forall c t, c < n -> t < tpc -> ment s c t = S K).
  { intros c t Hc Ht. destruct (m_e K s I c t Hc Ht) as [E|E]; auto. specialize (Stuck c t Hc Ht). rewrite (m_ent K s I c t Hc Ht E), E, Nat.eqb_refl in Stuck. discriminate. }
  assert (NK : (S K =? K) = false) by (apply Nat.eqb_neq; lia).
  assert (Ph : forall c t, c < n -> t < tpc -> phase K s c t = match mpcs s c t with MSig => 1 | MGather _ | MGet _ => 2 | MX | MXp => 3 | MRv | MWait => 4 | MWake => 5 | MRet => 6 | MOut => 7 end).
  { intros c t Hc Ht. unfold phase. now rewrite En, NK. }
  assert (NSig : forall c t, c < n -> t < tpc -> mpcs s c t <> MSig).
  { intros c t Hc Ht E. specialize (St c t Hc Ht). unfold mstep in St. rewrite E in St. destruct (if t =? 0 then _ else _). discriminate St. discriminate. }
  (* blocked threads *)
  assert (Bl : forall c t, c < n -> t < tpc -> mpcs s c t = MOut \/ mpcs s c t = MX \/ mpcs s c t = MXp \/ (t <> 0 /\ mpcs s c t = MWait)).
  { intros c t Hc Ht. pose proof (St c t Hc Ht) as Q. pose proof (m_pcf K s I c t Hc Ht) as F. unfold mstep in Q. unfold pc_fits in F. destruct (mpcs s c t) as [| |i|i| | | | | |] eqn:Ep; auto.
    - destruct (NSig c t Hc Ht Ep).
    - destruct F as (-> & Hi). exfalso. rewrite (m_ts K s I c i Hc), (m_cs K s I c Hc), !Ph, Ep in Q by (auto; lia). cbn [Nat.ltb Nat.leb] in Q.
      assert (Z : forall b, Bool.eqb (negb b) b = false) by (intros []; auto).
      pose proof (NSig c i Hc ltac:(lia)) as NS. destruct (mpcs s c i); try congruence; cbn [Nat.ltb Nat.leb] in Q; rewrite Z in Q; discriminate Q; discriminate.
    - destruct (if S i <? tpc then _ else _). discriminate Q. discriminate.
    - discriminate Q. discriminate.
    - discriminate Q. discriminate.
    - discriminate Q. discriminate. }
  (* a participant is out, or its thread is blocked in a round whose flag it has set *)
  assert (Pa : forall r v, v < P -> r < L -> xc L K (nf L) (mx s) v <= r -> exists r' v', r' < r /\ v' < P /\ r' < L /\ xpcs (mx s) v' = XR r' /\ xn (mx s) v' = K /\ xflag (mx s) v' (pk K) r' <> sk K).
  { intros r v Hv Hr Hle. destruct (played v Hv) as (c & t & Hc & Ht & Hp). destruct (m_xn K s I c t Hc Ht) as (X1 & X2 & X3). pose proof (m_pcf K s I c t Hc Ht) as F. unfold pc_fits in F.
    assert (Hout : xn (mx s) v = S K -> False). { intros E. unfold xc in Hle. rewrite E, NK in Hle. lia. }
    pose proof (St c t Hc Ht) as Q. unfold mstep in Q.
    destruct (Bl c t Hc Ht) as [E|[E|[E|(Nt & E)]]]; rewrite E in *.
    - exfalso. apply Hout. apply X1; auto. rewrite Ph, E by auto. lia.
    - specialize (X2 eq_refl). destruct X2 as (X0 & X2). destruct (X2 v Hp) as (Y1 & Y2). destruct (X2 _ F) as (Y3 & _). destruct (xstep op P L (vcore n c t) (mx s)) eqn:Ex; [discriminate Q; discriminate|].
      assert (Vp : vcore n c t < P) by (eapply plays_lt; eauto).
      destruct (xstep_stuck K (mx s) (vcore n c t) (m_x K s I) Vp Y3) as (r' & Z1 & Z2 & Z3); auto.
      exists r', (vcore n c t). repeat split; auto. unfold xc in Hle. rewrite Y1, Nat.eqb_refl, Y2, Z1 in Hle. cbn in Hle. lia.
    - destruct F as (-> & Eb). specialize (X3 eq_refl). destruct X3 as (X0 & Y1 & Y2 & Y3). destruct (plays_both c Eb) as (P1 & P2). assert (Vp : c + n < P) by (eapply plays_lt; eauto).
      destruct (xstep op P L (c + n) (mx s)) eqn:Ex; [discriminate Q; discriminate|].
      destruct (xstep_stuck K (mx s) (c + n) (m_x K s I) Vp Y1) as (r' & Z1 & Z2 & Z3); auto.
      exists r', (c + n). repeat split; auto. destruct Hp as [(_ & ->)|(-> & _)].
      + unfold xc in Hle. rewrite Y3, Z1, Nat.eqb_refl, Y2, Z1 in Hle. cbn in Hle. lia.
      + unfold xc in Hle. rewrite Y1, Nat.eqb_refl, Z1 in Hle. cbn in Hle. lia.
    - exfalso. apply Hout. apply X1; auto. rewrite Ph, E by auto. lia. }
  (* descent on the round *)
  assert (No : forall r v, v < P -> r < L -> xpcs (mx s) v = XR r -> xn (mx s) v = K -> xflag (mx s) v (pk K) r <> sk K -> False).
  { induction r as [r IH] using (well_founded_induction lt_wf). intros v Hv Hr E1 E2 E3. destruct (xpartner_onto n P L HP HL HnP HPn v r Hv Hr) as (p & Hp & Epp & _).
    rewrite <- Epp, (x_f _ _ _ _ _ _ _ _ (m_x K s I) p r Hp Hr) in E3. destruct (Nat.ltb_spec r (xc L K (nf L) (mx s) p)) as [H|H]; [congruence|].
    destruct (Pa r p Hp Hr H) as (r' & v' & A1 & A2 & A3 & A4 & A5 & A6). eapply (IH r'); eauto. }
  assert (Start : forall c t, c < n -> t < tpc -> mpcs s c t = MX \/ mpcs s c t = MXp -> False).
  { intros c t Hc Ht HE. destruct (m_xn K s I c t Hc Ht) as (X1 & X2 & X3). pose proof (m_pcf K s I c t Hc Ht) as F. unfold pc_fits in F. pose proof (St c t Hc Ht) as Q. unfold mstep in Q.
    destruct HE as [E|E]; rewrite E in *.
    - specialize (X2 eq_refl). destruct X2 as (X0 & X2). destruct (X2 _ F) as (Y3 & _). destruct (xstep op P L (vcore n c t) (mx s)) eqn:Ex; [discriminate Q; discriminate|].
      assert (Vp : vcore n c t < P) by (eapply plays_lt; eauto).
      destruct (xstep_stuck K (mx s) (vcore n c t) (m_x K s I) Vp Y3) as (r' & Z1 & Z2 & Z3); auto. eapply (No r'); eauto.
    - destruct F as (-> & Eb). specialize (X3 eq_refl). destruct X3 as (X0 & Y1 & Y2 & Y3). destruct (plays_both c Eb) as (P1 & P2). assert (Vp : c + n < P) by (eapply plays_lt; eauto).
      destruct (xstep op P L (c + n) (mx s)) eqn:Ex; [discriminate Q; discriminate|].
      destruct (xstep_stuck K (mx s) (c + n) (m_x K s I) Vp Y1) as (r' & Z1 & Z2 & Z3); auto. eapply (No r'); eauto. }
  destruct Hin as (c & t & Hc & Ht & Ne). destruct (Bl c t Hc Ht) as [E|[E|[E|(Nt & E)]]]; [auto|eapply Start; eauto|eapply Start; eauto|].
  assert (H0 : 0 < tpc) by lia. destruct (Bl c 0 Hc H0) as [E0|[E0|[E0|(N0 & _)]]]; [|eapply (Start c 0); eauto|eapply (Start c 0); eauto|lia].
  pose proof (St c t Hc Ht) as Q. unfold mstep in Q. rewrite E in Q. rewrite (m_cs K s I c Hc), (m_ts K s I c t Hc Ht), !Ph, E0, E in Q by auto. cbn [Nat.ltb Nat.leb] in Q. rewrite Bool.eqb_reflx in Q. discriminate Q. discriminate.
Qed.
Lemma reduce_progress rv0 acc0 tr0 red0 r0 s : msep op n P L tpc zero contrib (minit rv0 acc0 tr0 red0 r0) s -> (exists c t, c < n /\ t < tpc /\ mpcs s c t <> MOut) ->
  exists c t s', c < n /\ t < tpc /\ mstep op n P L tpc zero contrib c t s = Some s' /\ msep op n P L tpc zero contrib (minit rv0 acc0 tr0 red0 r0) s'.
Proof.
  intros Hr Hin. destruct (msep_inv _ _ _ _ _ s Hr) as (K & I). destruct (progress_inv K s I Hin) as (c & t & s' & Hc & Ht & Hsep & Hs).
  exists c, t, s'. repeat split; auto. eapply ms_step; eauto.
Qed.
End MProof.

(** ** All contributions in the order of the thread ids *)
Lemma fold_op_out {V} (op : V -> V -> V) l a b : (forall a b c, op a (op b c) = op (op a b) c) -> fold_left op l (op a b) = op a (fold_left op l b).
Proof. intros Ha. revert b. induction l as [|y l IH]; intros b; cbn; auto. now rewrite <- Ha. Qed.
Lemma seq_off m k : map (fun i => m + i) (seq 0 k) = seq m k.
Proof. induction k as [|k IH]; auto. rewrite !seq_S, map_app, IH. reflexivity. Qed.
Lemma total_flat {V} (op : V -> V -> V) tpc zero (x : nat -> nat -> V) n K : 1 <= tpc -> (forall a b c, op a (op b c) = op (op a b) c) ->
  total op n tpc zero (fun c t k => x (c * tpc + t) k) K = fold_left op (map (fun tid => x tid K) (seq 0 (n * tpc))) zero.
Proof.
  intros Ht Ha. unfold total. induction n as [|n IH]; auto.
  rewrite seq_S, map_app, fold_left_app, IH. replace (S n * tpc) with (n * tpc + tpc) by lia. rewrite (seq_app (n * tpc) tpc 0), map_app, fold_left_app. cbn [Nat.add map fold_left].
  set (a := fold_left op _ zero). unfold cval, cpart. destruct tpc as [|k]; [lia|]. cbn [seq map fold_left]. rewrite fold_op_out by auto. f_equal.
  replace (S k - 1) with k by lia. rewrite Nat.add_0_r. f_equal. rewrite <- (seq_shift k (n * S k)), map_map.
  rewrite <- (seq_shift k 0), map_map. replace (seq (n * S k) k) with (map (fun i => n * S k + i) (seq 0 k)).
  - rewrite map_map. apply map_ext. intros i. f_equal. lia.
  - apply seq_off.
Qed.

(** reduce.hpp:126-127: core and number in the core of thread [tid]. *)
Definition core_args {V} (tpc : nat) (x : nat -> nat -> V) (c t k : nat) : V := x (c * tpc + t) k.
(** What thread [tid] has returned so far, first call first. *)
Definition returned {V} (tpc : nat) (s : @mstate V) (tid : nat) : list V := rev (mout s (tid / tpc) (tid mod tpc)).
Definition entered_calls {V} (tpc : nat) (s : @mstate V) (tid : nat) : nat := ment s (tid / tpc) (tid mod tpc).

Lemma tid_split n tpc tid : 1 <= tpc -> tid < n * tpc -> tid / tpc < n /\ tid mod tpc < tpc.
Proof. intros Ht H. split; [apply Nat.div_lt_upper_bound; lia|apply Nat.mod_upper_bound; lia]. Qed.
Lemma tid_join tpc c t : t < tpc -> (c * tpc + t) / tpc = c /\ (c * tpc + t) mod tpc = t.
Proof. intros H. split; symmetry; [apply (Nat.div_unique _ _ _ t)|apply (Nat.mod_unique _ _ c)]; lia. Qed.

(** reduce.hpp with the values of synk.cpp:57-76. *)
Lemma reduce_sep_pow2 {V} (op : V -> V -> V) n tpc zero (x : nat -> nat -> V) rv0 acc0 tr0 red0 r0 s tid k v :
  2 <= n -> 1 <= tpc ->
  (forall a b c, op a (op b c) = op (op a b) c) -> (forall a b, op a b = op b a) -> (forall a, op a zero = a) ->
  msep op n (nearest_pow2 n) (rounds n) tpc zero (core_args tpc x) (minit rv0 acc0 tr0 red0 r0) s ->
  tid < n * tpc -> nth_error (returned tpc s tid) k = Some v ->
  v = fold_left op (map (fun tid => x tid k) (seq 0 (n * tpc))) zero.
Proof.
  intros Hn Ht Ha Hco Hz Hr Htid Hv. destruct (nearest_pow2_ok n Hn) as (E1 & E2 & E3).
  assert (HL : 1 <= rounds n) by (unfold rounds; lia). destruct (tid_split n tpc tid Ht Htid) as (Hc & Hm).
  rewrite <- (total_flat op tpc zero x n k Ht Ha).
  exact (reduce_sep op n (nearest_pow2 n) (rounds n) tpc zero (core_args tpc x) Ha Hco Hz E1 HL E2 E3 Ht rv0 acc0 tr0 red0 r0 s _ _ k v Hr Hc Hm Hv).
Qed.
Lemma reduce_first_pow2 {V} (op : V -> V -> V) n tpc zero (x : nat -> nat -> V) rv0 acc0 tr0 red0 r0 s tid :
  2 <= n -> 1 <= tpc ->
  (forall a b c, op a (op b c) = op (op a b) c) -> (forall a b, op a b = op b a) -> (forall a, op a zero = a) ->
  mreach op n (nearest_pow2 n) (rounds n) tpc zero (core_args tpc x) (minit rv0 acc0 tr0 red0 r0) s ->
  (forall tid, tid < n * tpc -> entered_calls tpc s tid <= 1) -> tid < n * tpc ->
  returned tpc s tid = [] \/ returned tpc s tid = [fold_left op (map (fun tid => x tid 0) (seq 0 (n * tpc))) zero].
Proof.
  intros Hn Ht Ha Hco Hz Hr H1 Htid. destruct (nearest_pow2_ok n Hn) as (E1 & E2 & E3).
  assert (HL : 1 <= rounds n) by (unfold rounds; lia). destruct (tid_split n tpc tid Ht Htid) as (Hc & Hm).
  assert (H1' : forall c t, c < n -> t < tpc -> ment s c t <= 1).
  { intros c t Hc' Ht'. specialize (H1 (c * tpc + t)). unfold entered_calls in H1. destruct (tid_join tpc c t Ht') as (Q1 & Q2). rewrite Q1, Q2 in H1. apply H1. nia. }
  pose proof (first_msep op n (nearest_pow2 n) (rounds n) tpc zero (core_args tpc x) E1 HL E2 E3 Ht rv0 acc0 tr0 red0 r0 s Hr H1') as Hsep.
  destruct (msep_inv op n (nearest_pow2 n) (rounds n) tpc zero (core_args tpc x) Ha Hco Hz E1 HL E2 E3 Ht rv0 acc0 tr0 red0 r0 s Hsep) as (K & I).
  unfold returned. pose proof (m_e _ _ _ _ _ _ _ K s I _ _ Hc Hm) as He. specialize (H1' _ _ Hc Hm). rewrite (m_out _ _ _ _ _ _ _ K s I _ _ Hc Hm).
  destruct (Nat.ltb_spec (phase K s (tid / tpc) (tid mod tpc)) 7) as [H|H].
  - destruct K as [|K]; [left; reflexivity|]. right. assert (K = 0) as -> by lia. cbn. f_equal. exact (total_flat op tpc zero x n 0 Ht Ha).
  - assert (K = 0) as ->. { unfold phase in H. destruct He as [He|He]; [rewrite He, Nat.eqb_refl in H; lia|lia]. }
    right. cbn. f_equal. exact (total_flat op tpc zero x n 0 Ht Ha).
Qed.
Lemma reduce_progress_pow2 {V} (op : V -> V -> V) n tpc zero (x : nat -> nat -> V) rv0 acc0 tr0 red0 r0 s :
  2 <= n -> 1 <= tpc ->
  (forall a b c, op a (op b c) = op (op a b) c) -> (forall a b, op a b = op b a) -> (forall a, op a zero = a) ->
  msep op n (nearest_pow2 n) (rounds n) tpc zero (core_args tpc x) (minit rv0 acc0 tr0 red0 r0) s ->
  (exists tid, tid < n * tpc /\ mpcs s (tid / tpc) (tid mod tpc) <> MOut) ->
  exists tid s', tid < n * tpc /\ mstep op n (nearest_pow2 n) (rounds n) tpc zero (core_args tpc x) (tid / tpc) (tid mod tpc) s = Some s' /\
    msep op n (nearest_pow2 n) (rounds n) tpc zero (core_args tpc x) (minit rv0 acc0 tr0 red0 r0) s'.
Proof.
  intros Hn Ht Ha Hco Hz Hr (tid & Htid & Hin). destruct (nearest_pow2_ok n Hn) as (E1 & E2 & E3).
  assert (HL : 1 <= rounds n) by (unfold rounds; lia). destruct (tid_split n tpc tid Ht Htid) as (Hc & Hm).
  destruct (reduce_progress op n (nearest_pow2 n) (rounds n) tpc zero (core_args tpc x) Ha Hco Hz E1 HL E2 E3 Ht rv0 acc0 tr0 red0 r0 s Hr) as (c & t & s' & Hc' & Ht' & Hs & Hs').
  { eauto. }
  exists (c * tpc + t), s'. destruct (tid_join tpc c t Ht') as (-> & ->). split; [nia|auto].
Qed.

(** ** Runs *)
Lemma mexec_reach {V} (op : V -> V -> V) n P L tpc zero contrib s0 tr s s' :
  mreach op n P L tpc zero contrib s0 s -> mexec op n P L tpc zero contrib tr s = Some s' -> mreach op n P L tpc zero contrib s0 s'.
Proof.
  revert s. induction tr as [|(c, t) tr IH]; intros s Hr; cbn [mexec].
  - intros E; injection E as <-; auto.
  - destruct (Nat.ltb_spec c n), (Nat.ltb_spec t tpc); cbn [andb]; try discriminate.
    destruct (mstep op n P L tpc zero contrib c t s) eqn:E; [|discriminate]. apply IH. eapply mr_step; eauto.
Qed.
(** A run in which a thread starts a call only when everybody has returned; turns
    of threads that cannot move are skipped. *)
Definition may_start {V} n tpc (s : @mstate V) c t : bool :=
  match mpcs s c t with MOut => forallb (fun c' => forallb (fun t' => ment s c t <=? length (mout s c' t')) (seq 0 tpc)) (seq 0 n) | _ => true end.
Fixpoint msep_run {V} (op : V -> V -> V) n P L tpc zero contrib (tr : list (nat * nat)) (s : @mstate V) : mstate :=
  match tr with
  | [] => s
  | (c, t) :: tr' => msep_run op n P L tpc zero contrib tr'
      (if (c <? n) && (t <? tpc) && may_start n tpc s c t then match mstep op n P L tpc zero contrib c t s with Some s' => s' | None => s end else s)
  end.
Lemma msep_run_ok {V} (op : V -> V -> V) n P L tpc zero contrib tr (s0 s : @mstate V) :
  msep op n P L tpc zero contrib s0 s -> msep op n P L tpc zero contrib s0 (msep_run op n P L tpc zero contrib tr s).
Proof.
  revert s. induction tr as [|(c, t) tr IH]; intros s Hr; cbn [msep_run]; auto. apply IH.
  destruct (Nat.ltb_spec c n), (Nat.ltb_spec t tpc); cbn [andb]; auto. destruct (may_start n tpc s c t) eqn:Em; auto.
  destruct (mstep op n P L tpc zero contrib c t s) eqn:E; auto. eapply ms_step; eauto.
  intros Ep c' t' Hc' Ht'. unfold may_start in Em. rewrite Ep in Em. rewrite forallb_forall in Em. specialize (Em c' ltac:(apply in_seq; lia)).
  rewrite forallb_forall in Em. specialize (Em t' ltac:(apply in_seq; lia)). now apply Nat.leb_le.
Qed.
(** Three cores of two threads; core 0 represents pseudo core 3.  Three calls. *)
Definition rd_x (tid k : nat) : nat := 2 ^ tid + 10 * k.
Definition rd_init : @mstate nat := minit (fun _ _ => 77) (fun _ => 78) (fun _ _ => 79) (fun _ => 80) (fun _ => 81).
Definition rd_turns : list (nat * nat) := concat (repeat [(2,1);(0,1);(1,0);(0,0);(1,1);(2,0);(1,0);(0,1)] 60).
Definition rd_end : mstate := msep_run Nat.add 3 (nearest_pow2 3) (rounds 3) 2 0 (core_args 2 rd_x) rd_turns rd_init.
Lemma rd_end_sep : msep Nat.add 3 (nearest_pow2 3) (rounds 3) 2 0 (core_args 2 rd_x) rd_init rd_end.
Proof. apply msep_run_ok. constructor. Qed.
Lemma rd_end_out : map (fun tid => firstn 3 (returned 2 rd_end tid)) [0;1;2;3;4;5] = repeat [63;123;183] 6.
Proof. vm_compute. reflexivity. Qed.
(** Three cores of one thread; thread 0 runs core 0 and pseudo core 3; first call. *)
Definition rd1_end : mstate :=
  msep_run Nat.add 3 (nearest_pow2 3) (rounds 3) 1 0 (core_args 1 rd_x) (concat (repeat [(2,0);(0,0);(1,0);(0,0)] 13) ++ [(1,0);(2,0)]) rd_init.
Lemma rd1_end_sep : msep Nat.add 3 (nearest_pow2 3) (rounds 3) 1 0 (core_args 1 rd_x) rd_init rd1_end.
Proof. apply msep_run_ok. constructor. Qed.
Lemma rd1_end_out : map (fun tid => returned 1 rd1_end tid) [0;1;2] = repeat [7] 3 /\ map (entered_calls 1 rd1_end) [0;1;2] = [1;1;1].
Proof. vm_compute. split; reflexivity. Qed.

(** Two failing runs with addition. *)
Definition contrib_ex (tid k : nat) : nat := 10 * S k + tid.
Definition race_trace : list (nat * nat) :=
  map (fun c => (c, 0)) ([0;0;0;0] ++ [1;1;1;1;1;1;1;1;1;1] ++ [1;1;1] ++ [0;0;0;0;0;0]).
Lemma reduce_single_core : exists s,
  mreach Nat.add 1 (nearest_pow2 1) (rounds 1) 1 0 (core_args 1 contrib_ex) rd_init s /\
  entered_calls 1 s 0 = 1 /\ returned 1 s 0 = [contrib_ex 0 0 + contrib_ex 0 0].
Proof.
  assert (H : option_map (fun s => (entered_calls 1 s 0, returned 1 s 0)) (mexec Nat.add 1 (nearest_pow2 1) (rounds 1) 1 0 (core_args 1 contrib_ex) (repeat (0,0) 10) rd_init)
     = Some (1, [contrib_ex 0 0 + contrib_ex 0 0])) by (vm_compute; reflexivity).
  destruct (mexec Nat.add 1 (nearest_pow2 1) (rounds 1) 1 0 (core_args 1 contrib_ex) (repeat (0,0) 10) rd_init) as [s|] eqn:E; [|discriminate].
  cbn [option_map] in H. injection H as H1 H2. exists s. repeat split; auto. eapply mexec_reach; eauto. constructor.
Qed.
Lemma reduce_race : exists s,
  mreach Nat.add 2 (nearest_pow2 2) (rounds 2) 1 0 (core_args 1 contrib_ex) rd_init s /\
  returned 1 s 0 = [contrib_ex 0 0 + contrib_ex 1 1] /\ returned 1 s 1 = [contrib_ex 0 0 + contrib_ex 1 0].
Proof.
  assert (H : option_map (fun s => (returned 1 s 0, returned 1 s 1)) (mexec Nat.add 2 (nearest_pow2 2) (rounds 2) 1 0 (core_args 1 contrib_ex) race_trace rd_init)
     = Some ([contrib_ex 0 0 + contrib_ex 1 1], [contrib_ex 0 0 + contrib_ex 1 0])) by (vm_compute; reflexivity).
  destruct (mexec Nat.add 2 (nearest_pow2 2) (rounds 2) 1 0 (core_args 1 contrib_ex) race_trace rd_init) as [s|] eqn:E; [|discriminate].
  cbn [option_map] in H. injection H as H1 H2. exists s. repeat split; auto. eapply mexec_reach; eauto. constructor.
Qed.
Lemma msep_reach {V} (op : V -> V -> V) n P L tpc zero contrib (s0 s : @mstate V) : msep op n P L tpc zero contrib s0 s -> mreach op n P L tpc zero contrib s0 s.
Proof. induction 1; [constructor|eapply mr_step; eauto]. Qed.
