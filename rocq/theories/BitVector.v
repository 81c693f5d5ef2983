(** * Bit vectors shared by threads (reordering/BitVector.hpp).

    The element type is char, so position [i] is bit 0 of byte [i]
    (getIndexOf_, getBitIndexOf_, getMaskOf_, :72-74).  Steps of threads interleave;
    each step below is one memory access or one atomic operation. *)
From Verif Require Import Base Interleave Spec Flat RowPar P2P P2PProg Phased Transpose CsrTools.

(** ** Model *)
Definition bv_mask : Z := 1.
(** :35-42.  [junk]: what new[] returns. *)
Definition bv_new (sch : list nat) (junk : list Z) (n : Z) : option (list Z) := par_any sch (fun i w => set w i 0) 0 n junk.
(** :46-48 *)
Definition bv_set (bv : list Z) (i : Z) : option (list Z) := x <- get bv i ;; set bv i (Z.lor x bv_mask).
(** :50-52 *)
Definition bv_get (bv : list Z) (i : Z) : option bool := x <- get bv i ;; Some (negb (Z.land x bv_mask =? 0)).
(** :57, the atomic part of testAndSet: the new bytes, and whether the bit was clear *)
Definition bv_or (bv : list Z) (i : Z) : option (list Z * bool) :=
  prev <- get bv i ;; bv' <- set bv i (Z.lor prev bv_mask) ;; Some (bv', Z.land prev bv_mask =? 0).
(** :65-67 *)
Definition bv_clear (bv : list Z) (i : Z) : option (list Z) := x <- get bv i ;; set bv i (Z.land x (Z.lnot bv_mask)).

(** testAndSet, :54-63, in two steps: read the bit; if it was clear, the atomic or.
    [reg] is what the thread read.  [ret t v b] consumes the returned value in thread
    [t].  With [atomic = false] the second step is [set] and true is returned: the
    sequence of reordering/RCM.cpp:422-423. *)
Inductive ts_act := TTest (v : Z) | TSet (v : Z).
Definition ts_calls (t : Z) (vs : list Z) : list (Z * ts_act) := flat_map (fun v => [(t, TTest v); (t, TSet v)]) vs.
Section Model.
Context {X : Type}.
Variables (atomic : bool) (ret : Z -> Z -> bool -> X -> option X).
Definition ts_step (a : Z * ts_act) (s : list Z * list bool * X) : option (list Z * list bool * X) :=
  let '(bv, regs, x) := s in
  match a with
  | (t, TTest v) =>
      b <- bv_get bv v ;; regs' <- set regs t (negb b) ;;
      if b then x' <- ret t v false x ;; Some (bv, regs', x') else Some (bv, regs', x)
  | (t, TSet v) =>
      r <- get regs t ;;
      if r then
        if atomic then ' (bv', won) <- bv_or bv v ;; x' <- ret t v won x ;; Some (bv', regs, x')
        else bv' <- bv_set bv v ;; x' <- ret t v true x ;; Some (bv', regs, x')
      else Some s
  end.
Definition ts_threads (calls : list (list Z)) : list (list (Z * ts_act)) := map (fun t => ts_calls t (nthl calls t)) (zrange 0 (Zlen calls)).
End Model.

(** Threads that record the positions they called and the values they got. *)
Definition record (t v : Z) (b : bool) (res : list (list (Z * bool))) : option (list (list (Z * bool))) := l <- get res t ;; set res t (l ++ [(v, b)]).

(** ** Specification *)
Definition bit (bv : list Z) (i : Z) : option bool := option_map Z.odd (get bv i).
Definition won (res : list (list (Z * bool))) (v t k : Z) : Prop := get (nthl res t) k = Some (v, true).

(** ** Proof *)
Lemma land_1 x : (Z.land x 1 =? 0) = negb (Z.odd x).
Proof. replace (Z.land x 1) with (x mod 2) by (symmetry; apply (Z.land_ones x 1); lia). rewrite Zmod_odd. destruct (Z.odd x); reflexivity. Qed.
Lemma lor_1_odd x : Z.odd (Z.lor x 1) = true.
Proof. rewrite <- !Z.bit0_odd, Z.lor_spec. cbn [Z.testbit Z.odd]. apply orb_true_r. Qed.
Lemma clear_odd x : Z.odd (Z.land x (Z.lnot 1)) = false.
Proof. rewrite <- !Z.bit0_odd, Z.land_spec, Z.lnot_spec by lia. cbn [Z.testbit Z.odd negb]. apply andb_false_r. Qed.

Lemma bv_get_bit bv i : bv_get bv i = bit bv i.
Proof. unfold bv_get, bit, bv_mask. destruct (get bv i) as [x|]; [|reflexivity]. cbn [option_map]. now rewrite land_1, negb_involutive. Qed.
Lemma bit_ex bv i : 0 <= i < Zlen bv -> exists b, bit bv i = Some b.
Proof. intros H. unfold bit. destruct (get_in_range bv i H) as (x & ->). cbn. eauto. Qed.
(** [bv'] is [bv] with bit [i] set to [b]. *)
Definition bit_upd (bv : list Z) (i : Z) (b : bool) (bv' : list Z) : Prop := Zlen bv' = Zlen bv /\ bit bv' i = Some b /\ forall j, j <> i -> get bv' j = get bv j.
Lemma bit_other bv i b bv' j : bit_upd bv i b bv' -> j <> i -> bit bv' j = bit bv j.
Proof. intros (_ & _ & H) N. unfold bit. now rewrite H. Qed.
Lemma set_upd bv i x bv' : set bv i x = Some bv' -> bit_upd bv i (Z.odd x) bv'.
Proof. intros H. split; [apply (set_len _ _ _ _ H)|]. split; [unfold bit; now rewrite (get_set_same _ _ _ _ H)|]. intros j N. apply (get_set_other _ _ _ _ _ H). auto. Qed.
Lemma bv_set_ok bv i : 0 <= i < Zlen bv -> exists bv', bv_set bv i = Some bv' /\ bit_upd bv i true bv'.
Proof.
  intros H. unfold bv_set. destruct (get_in_range bv i H) as (x & ->). destruct (set_ok bv i (Z.lor x bv_mask) H) as (bv' & E). exists bv'. split; auto. rewrite <- (lor_1_odd x). now apply set_upd.
Qed.
Lemma bv_clear_ok bv i : 0 <= i < Zlen bv -> exists bv', bv_clear bv i = Some bv' /\ bit_upd bv i false bv'.
Proof.
  intros H. unfold bv_clear. destruct (get_in_range bv i H) as (x & ->). destruct (set_ok bv i (Z.land x (Z.lnot bv_mask)) H) as (bv' & E). exists bv'. split; auto. rewrite <- (clear_odd x). now apply set_upd.
Qed.
Lemma bv_or_ok bv i b : bit bv i = Some b -> exists bv', bv_or bv i = Some (bv', negb b) /\ bit_upd bv i true bv'.
Proof.
  intros H. unfold bit in H. destruct (get bv i) as [x|] eqn:G; [|discriminate]. injection H as H. unfold bv_or. rewrite G. destruct (set_ok bv i (Z.lor x bv_mask) (get_Some_bounds _ _ _ G)) as (bv' & E). exists bv'. rewrite E. unfold bv_mask. rewrite land_1, H. split; auto. rewrite <- (lor_1_odd x). now apply set_upd.
Qed.
Lemma bv_new_ok sch junk n : 0 <= n -> Zlen junk = n -> exists bv, bv_new sch junk n = Some bv /\ Zlen bv = n /\ forall i, 0 <= i < n -> bit bv i = Some false.
Proof.
  intros Hn HL. unfold bv_new. destruct (par_any_write sch (fun i w => set w i 0) (fun _ => 0) 0 n junk ltac:(lia) ltac:(lia)) as (w & E & L & G & _); [auto|].
  exists w. split; auto. split; [lia|]. intros i Hi. unfold bit. now rewrite G.
Qed.

Lemma ts_calls_app t l1 l2 : ts_calls t (l1 ++ l2) = ts_calls t l1 ++ ts_calls t l2.
Proof. apply flat_map_app. Qed.
(** Where a thread can be. *)
Lemma ts_prefix t vs a q : forall p, ts_calls t vs = p ++ a :: q ->
  exists l v l', vs = l ++ v :: l' /\ ((p = ts_calls t l /\ a = (t, TTest v)) \/ (p = ts_calls t l ++ [(t, TTest v)] /\ a = (t, TSet v))).
Proof.
  induction vs as [|w vs IH]; intros p E; [destruct p; discriminate|]. change (ts_calls t (w :: vs)) with ((t, TTest w) :: (t, TSet w) :: ts_calls t vs) in E.
  destruct p as [|b p]; [injection E as <- E; exists [], w, vs; auto|]. injection E as <- E. destruct p as [|b p]; [injection E as <- E; exists [], w, vs; auto|]. injection E as <- E.
  destruct (IH p E) as (l & v & l' & -> & [(-> & ->)|(-> & ->)]); exists (w :: l), v, l'; auto.
Qed.
Lemma ts_calls_len t l : Zlen (ts_calls t l) = 2 * Zlen l.
Proof. induction l as [|v l IH]; [reflexivity|]. change (ts_calls t (v :: l)) with ((t, TTest v) :: (t, TSet v) :: ts_calls t l). rewrite !Zlen_cons, IH. lia. Qed.
Lemma app_cut {A} (l1 l2 r1 r2 : list A) : Zlen l1 = Zlen l2 -> l1 ++ r1 = l2 ++ r2 -> l1 = l2 /\ r1 = r2.
Proof. intros H E. unfold Zlen in H. apply Nat2Z.inj in H. revert l2 H E. induction l1 as [|a l1 IH]; intros [|b l2] H E; try discriminate; auto. injection E as <- E. destruct (IH l2 ltac:(now injection H) E) as (-> & ->). auto. Qed.

(** Proof rule: [J done pend bv x] where [done t] are the calls of thread [t] that
    returned, [pend t] the position it read as clear and is about to set. *)
Section Rule.
Context {X : Type}.
Variables (atomic : bool) (ret : Z -> Z -> bool -> X -> option X) (calls : list (list Z)) (N : Z).
Variable J : (Z -> list Z) -> (Z -> option Z) -> list Z -> X -> Prop.
Let T := Zlen calls.
Hypothesis Hrange : forall t v, In v (nthl calls t) -> 0 <= v < N.
Definition put {B} (t : Z) (b : B) (f : Z -> B) : Z -> B := fun t' => if t' =? t then b else f t'.
Hypothesis Hlost : forall done pend bv x t v rest, 0 <= t < T -> nthl calls t = done t ++ v :: rest -> pend t = None -> J done pend bv x -> Zlen bv = N -> bit bv v = Some true ->
  exists x', ret t v false x = Some x' /\ J (put t (done t ++ [v]) done) pend bv x'.
Hypothesis Hread : forall done pend bv x t v rest, 0 <= t < T -> nthl calls t = done t ++ v :: rest -> pend t = None -> J done pend bv x -> Zlen bv = N -> bit bv v = Some false ->
  J done (put t (Some v) pend) bv x.
Hypothesis Hset : forall done pend bv x t v rest b bv', 0 <= t < T -> nthl calls t = done t ++ v :: rest -> pend t = Some v -> J done pend bv x -> Zlen bv = N -> bit bv v = Some b -> bit_upd bv v true bv' ->
  exists x', ret t v (if atomic then negb b else true) x = Some x' /\ J (put t (done t ++ [v]) done) (put t None pend) bv' x'.

Definition ts_at (ps : list (Z * ts_act)) (t : Z) (done : list Z) (pend : option Z) (reg : option bool) : Prop :=
  (pend = None /\ ps = ts_calls t done) \/ (exists d v, pend = None /\ ps = ts_calls t d ++ [(t, TTest v)] /\ done = d ++ [v] /\ reg = Some false) \/
  (exists v, pend = Some v /\ ps = ts_calls t done ++ [(t, TTest v)] /\ reg = Some true).
Lemma nthl_threads t : 0 <= t < T -> nthl (ts_threads calls) t = ts_calls t (nthl calls t).
Proof. intros H. unfold ts_threads, nthl at 1. rewrite get_map, get_zrange by (fold T; lia). cbn [option_map]. now rewrite Z.add_0_l. Qed.
Lemma Zlen_threads : Zlen (ts_threads calls) = T.
Proof. unfold ts_threads. rewrite Zlen_map, Zlen_zrange. fold T. pose proof (Zlen_nonneg calls). unfold T. lia. Qed.

Theorem ts_rule sch bv regs x : Zlen bv = N -> Zlen regs = T -> J (fun _ => []) (fun _ => None) bv x ->
  exists bv' regs' x' done pend, par sch (ts_step atomic ret) (ts_threads calls) (bv, regs, x) = Some (bv', regs', x') /\ Zlen bv' = N /\ Zlen regs' = T /\ J done pend bv' x' /\
    forall t, 0 <= t < T -> done t = nthl calls t /\ pend t = None.
Proof.
  intros HN HT HJ.
  destruct (par_global (fun ps s => exists done pend, Zlen (fst (fst s)) = N /\ Zlen (snd (fst s)) = T /\ J done pend (fst (fst s)) (snd s) /\
      forall t, 0 <= t < T -> ts_at (ps t) t (done t) (pend t) (get (snd (fst s)) t)) sch (ts_step atomic ret) (ts_threads calls) (bv, regs, x)) as (s' & ps' & E & (done & pend & S1 & S2 & S3 & S4) & P).
  { exists (fun _ => []), (fun _ => None). cbn [fst snd]. do 3 (split; [now auto|]). intros t Ht. left. auto. }
  2:{ destruct s' as ((bv' & regs') & x'). cbn [fst snd] in *. exists bv', regs', x', done, pend. rewrite E. do 4 (split; [now auto|]). intros t Ht. specialize (S4 t Ht). rewrite P in S4 by (rewrite Zlen_threads; auto). rewrite nthl_threads in S4 by auto.
      destruct S4 as [(E1 & E2)|[(d & v & _ & E2 & _)|(v & _ & E2 & _)]].
      - split; auto. assert (L : Zlen (nthl calls t) = Zlen (done t)) by (apply (f_equal Zlen) in E2; rewrite !ts_calls_len in E2; lia).
        assert (Q : forall l l', Zlen l = Zlen l' -> ts_calls t l = ts_calls t l' -> l' = l); [|now apply Q].
        clear. intros l. induction l as [|w l IH]; intros [|w' l'] H E; auto; try (rewrite Zlen_cons in H; pose proof (Zlen_nonneg l); change (Zlen (@nil Z)) with 0 in H; lia).
        { rewrite Zlen_cons in H; pose proof (Zlen_nonneg l'); change (Zlen (@nil Z)) with 0 in H; lia. }
        change (ts_calls t (w :: l)) with ((t, TTest w) :: (t, TSet w) :: ts_calls t l) in E. change (ts_calls t (w' :: l')) with ((t, TTest w') :: (t, TSet w') :: ts_calls t l') in E. injection E as <- E. f_equal. apply IH; auto. rewrite !Zlen_cons in H. lia.
      - exfalso. apply (f_equal Zlen) in E2. rewrite Zlen_app, !ts_calls_len in E2. change (Zlen [(t, TTest v)]) with 1 in E2. lia.
      - exfalso. apply (f_equal Zlen) in E2. rewrite Zlen_app, !ts_calls_len in E2. change (Zlen [(t, TTest v)]) with 1 in E2. lia. }
  intros ps t a q ((bv1 & regs1) & x1) Ht _ Ha (done & pend & S1 & S2 & S3 & S4). rewrite Zlen_threads in Ht. rewrite nthl_threads in Ha by auto. cbn [fst snd] in *.
  destruct (ts_prefix _ _ _ _ _ Ha) as (l & v & l' & El & Hp). pose proof (S4 t Ht) as At.
  assert (Hv : 0 <= v < N) by (apply (Hrange t); rewrite El; apply in_or_app; right; now left).
  destruct (bit_ex bv1 v ltac:(lia)) as (b & Eb).
  assert (Hcalls : forall l1 l2, ts_calls t l1 = ts_calls t l2 -> l1 = l2).
  { clear. intros l1. induction l1 as [|w l1 IH]; intros [|w' l2] E; auto; try discriminate. change (ts_calls t (w :: l1)) with ((t, TTest w) :: (t, TSet w) :: ts_calls t l1) in E. change (ts_calls t (w' :: l2)) with ((t, TTest w') :: (t, TSet w') :: ts_calls t l2) in E. injection E as <- E. f_equal. auto. }
  destruct Hp as [(Hp & ->)|(Hp & ->)].
  - (* read *)
    assert (D : pend t = None /\ done t = l).
    { destruct At as [(E1 & E2)|[(d & w & _ & E2 & _)|(w & _ & E2 & _)]]; [split; auto; apply Hcalls; congruence| |]; exfalso; rewrite Hp in E2; apply (f_equal Zlen) in E2; rewrite Zlen_app, !ts_calls_len in E2; [change (Zlen [(t, TTest w)]) with 1 in E2|change (Zlen [(t, TTest w)]) with 1 in E2]; lia. }
    destruct D as (D1 & D2). unfold ts_step. rewrite bv_get_bit, Eb. destruct (set_ok regs1 t (negb b) ltac:(lia)) as (regs2 & Er). rewrite Er.
    destruct b.
    + destruct (Hlost done pend bv1 x1 t v l' Ht ltac:(now rewrite D2) D1 S3 S1 Eb) as (x2 & R & J2). rewrite R. eexists. split; [reflexivity|]. exists (put t (done t ++ [v]) done), pend. cbn [fst snd]. split; auto. split; [rewrite (set_len _ _ _ _ Er); auto|]. split; auto.
      intros t' Ht'. unfold put. destruct (t' =? t) eqn:Et.
      * assert (t' = t) by lia. subst t'. right. left. exists l, v. rewrite (get_set_same _ _ _ _ Er), Hp, D2. auto.
      * rewrite (get_set_other _ _ _ _ _ Er) by lia. auto.
    + eexists. split; [reflexivity|]. exists done, (put t (Some v) pend). cbn [fst snd]. split; auto. split; [rewrite (set_len _ _ _ _ Er); auto|]. split; [apply (Hread done pend bv1 x1 t v l'); auto; congruence|].
      intros t' Ht'. unfold put. destruct (t' =? t) eqn:Et.
      * assert (t' = t) by lia. subst t'. right. right. exists v. rewrite (get_set_same _ _ _ _ Er), Hp, D2. auto.
      * rewrite (get_set_other _ _ _ _ _ Er) by lia. auto.
  - (* set *)
    assert (Hm : forall d w, ps t = ts_calls t d ++ [(t, TTest w)] -> d = l /\ w = v).
    { intros d w E. rewrite Hp in E. apply app_inj_tail in E as (E1 & E2). split; [symmetry; now apply Hcalls|congruence]. }
    destruct At as [(E1 & E2)|[(d & w & E1 & E2 & E3 & E4)|(w & E1 & E2 & E3)]].
    + exfalso. rewrite Hp in E2. apply (f_equal Zlen) in E2. rewrite Zlen_app, !ts_calls_len in E2. change (Zlen [(t, TTest v)]) with 1 in E2. lia.
    + destruct (Hm d w E2) as (-> & ->). unfold ts_step. rewrite E4. eexists. split; [reflexivity|]. exists done, pend. cbn [fst snd]. repeat (split; [now auto|]). intros t' Ht'. destruct (t' =? t) eqn:Et; [|auto].
      assert (t' = t) by lia. subst t'. left. split; auto. rewrite Hp, E3, ts_calls_app, <- app_assoc. reflexivity.
    + destruct (Hm (done t) w E2) as (El' & ->). unfold ts_step. rewrite E3.
      assert (Hps : ps t ++ [(t, TSet v)] = ts_calls t (done t ++ [v])) by (rewrite E2, ts_calls_app, <- app_assoc; reflexivity).
      assert (forall bv', bit_upd bv1 v true bv' -> exists x2, ret t v (if atomic then negb b else true) x1 = Some x2 /\ exists done' pend', Zlen bv' = N /\ Zlen regs1 = T /\ J done' pend' bv' x2 /\
         forall t', 0 <= t' < T -> ts_at (if t' =? t then ps t ++ [(t, TSet v)] else ps t') t' (done' t') (pend' t') (get regs1 t')) as Hx.
      { intros bv' U. destruct (Hset done pend bv1 x1 t v l' b bv' Ht ltac:(now rewrite El') E1 S3 S1 Eb U) as (x2 & R & J2). exists x2. split; auto. exists (put t (done t ++ [v]) done), (put t None pend). split; [destruct U; lia|]. split; auto. split; auto.
        intros t' Ht'. unfold put. destruct (t' =? t) eqn:Et; [|auto]. assert (t' = t) by lia. subst t'. left. auto. }
      destruct atomic.
      * destruct (bv_or_ok bv1 v b Eb) as (bv' & Eo & U). rewrite Eo. destruct (Hx bv' U) as (x2 & R & G). rewrite R. eexists. split; [reflexivity|]. exact G.
      * destruct (bv_set_ok bv1 v ltac:(lia)) as (bv' & Eo & U). rewrite Eo. destruct (Hx bv' U) as (x2 & R & G). rewrite R. eexists. split; [reflexivity|]. exact G.
Qed.
End Rule.

(** Exactly one call wins. *)
Definition one_winner (T : Z) (res : list (list (Z * bool))) (v : Z) : Prop :=
  exists t k, 0 <= t < T /\ won res v t k /\ forall t' k', 0 <= t' < T -> won res v t' k' -> t' = t /\ k' = k.
Definition no_winner (T : Z) (res : list (list (Z * bool))) (v : Z) : Prop := forall t k, 0 <= t < T -> ~ won res v t k.
Lemma record_ok t v b res : 0 <= t < Zlen res -> exists res', record t v b res = Some res' /\ Zlen res' = Zlen res /\ forall t', nthl res' t' = if t' =? t then nthl res t ++ [(v, b)] else nthl res t'.
Proof.
  intros H. unfold record. rewrite get_nthl by auto. destruct (set_ok res t (nthl res t ++ [(v, b)]) H) as (r & E). exists r. split; auto. split; [apply (set_len _ _ _ _ E)|]. intros t'. unfold nthl at 1. rewrite (get_set _ _ _ _ _ E). destruct (t' =? t) eqn:Et.
  - assert (t' = t) by lia. subst t'. rewrite Z.eqb_refl in *. reflexivity.
  - replace (t =? t') with false by lia. reflexivity.
Qed.
Lemma get_snoc {A} (l : list A) x k y : get (l ++ [x]) k = Some y <-> get l k = Some y \/ (k = Zlen l /\ y = x).
Proof.
  split.
  - intros H. destruct (Z_lt_ge_dec k (Zlen l)) as [L|L]; [rewrite get_app_l in H by auto; auto|]. pose proof (get_Some_bounds _ _ _ H) as B. rewrite Zlen_app in B. change (Zlen [x]) with 1 in B. rewrite get_app_r in H by lia. replace (k - Zlen l) with 0 in H by lia. rewrite get_cons_0 in H. right. split; [lia|congruence].
  - intros [H|(-> & ->)]; [rewrite get_app_l; auto; apply get_Some_bounds in H; lia|]. rewrite get_app_r, Z.sub_diag by lia. reflexivity.
Qed.
Lemma won_record t v b res res' w t' k : (forall t', nthl res' t' = if t' =? t then nthl res t ++ [(v, b)] else nthl res t') ->
  won res' w t' k <-> won res w t' k \/ (t' = t /\ k = Zlen (nthl res t) /\ w = v /\ b = true).
Proof.
  intros H. unfold won. rewrite H. destruct (t' =? t) eqn:E.
  - assert (t' = t) by lia. subst t'. rewrite get_snoc. split; intros [H1|H1]; auto; right; [destruct H1 as (-> & H1); injection H1 as <- <-; auto|destruct H1 as (_ & -> & -> & ->); auto].
  - split; [auto|]. intros [H1|(-> & _)]; auto. lia.
Qed.

Theorem testAndSet_ok calls bv0 regs sch : (forall t v, In v (nthl calls t) -> 0 <= v < Zlen bv0) -> Zlen regs = Zlen calls ->
  exists bv regs' res, par sch (ts_step true record) (ts_threads calls) (bv0, regs, repeat [] (length calls)) = Some (bv, regs', res) /\ Zlen bv = Zlen bv0 /\
    (forall t, 0 <= t < Zlen calls -> map fst (nthl res t) = nthl calls t) /\
    forall v, ((forall t, 0 <= t < Zlen calls -> ~ In v (nthl calls t)) -> get bv v = get bv0 v) /\
      forall t, 0 <= t < Zlen calls -> In v (nthl calls t) -> bit bv v = Some true /\ (bit bv0 v = Some false -> one_winner (Zlen calls) res v) /\ (bit bv0 v = Some true -> no_winner (Zlen calls) res v).
Proof.
  intros HR HT. set (T := Zlen calls) in *.
  pose (J := fun (done : Z -> list Z) (pend : Z -> option Z) bv (res : list (list (Z * bool))) => Zlen res = T /\ (forall t, 0 <= t < T -> map fst (nthl res t) = done t) /\
     forall v, ((forall t, 0 <= t < T -> ~ In v (done t)) -> get bv v = get bv0 v) /\ (forall t, 0 <= t < T -> In v (done t) -> bit bv v = Some true) /\
       ((bit bv0 v = Some false /\ bit bv v = Some true /\ one_winner T res v) \/ (bit bv v = bit bv0 v /\ no_winner T res v))).
  assert (Hput : forall (done : Z -> list Z) t v (res res' : list (list (Z * bool))) b, 0 <= t < T -> (forall t, 0 <= t < T -> map fst (nthl res t) = done t) -> (forall t', nthl res' t' = if t' =? t then nthl res t ++ [(v, b)] else nthl res t') ->
     forall t', 0 <= t' < T -> map fst (nthl res' t') = put t (done t ++ [v]) done t').
  { intros done t v res res' b Ht I2 R3 t' Ht'. rewrite R3. unfold put. destruct (t' =? t) eqn:Et; auto. rewrite map_app, (I2 t Ht). reflexivity. }
  assert (Hin : forall (done : Z -> list Z) t v w t', In w (put t (done t ++ [v]) done t') <-> In w (done t') \/ (t' = t /\ w = v)).
  { intros. unfold put. destruct (t' =? t) eqn:Et; [assert (t' = t) by lia; subst; rewrite in_app_iff; cbn [In]; split; intros [H|H]; auto; [destruct H as [<-|[]]; auto|destruct H as (_ & ->); auto]|]. split; auto. intros [H|(-> & _)]; auto. lia. }
  destruct (ts_rule true record calls (Zlen bv0) J HR) with (sch := sch) (bv := bv0) (regs := regs) (x := repeat (@nil (Z * bool)) (length calls)) as (bv & regs' & res & done & pend & E & L1 & L2 & (I1 & I2 & I3) & P); auto.
  - (* lost *)
    intros done pend bv res t v rest Ht Hc Hp (I1 & I2 & I3) HL Hb. destruct (record_ok t v false res ltac:(fold T in Ht; lia)) as (res' & R & R2 & R3). exists res'. split; auto. split; [lia|]. split; [apply (Hput done t v res res' false); auto|].
    intros w. destruct (I3 w) as (K1 & K2 & K3). split; [|split].
    + intros H. apply K1. intros t' Ht' Hw. apply (H t' Ht'). apply Hin. auto.
    + intros t' Ht' Hw. apply Hin in Hw as [Hw|(-> & ->)]; eauto.
    + destruct K3 as [(K3 & K4 & (t0 & k0 & B & W & U))|(K3 & U)]; [left|right].
      * split; auto. split; auto. exists t0, k0. split; auto. split; [apply (won_record t v false res res' w t0 k0 R3); auto|]. intros t' k' B' W'. apply (won_record t v false res res' w t' k' R3) in W' as [W'|(_ & _ & _ & W')]; [auto|discriminate].
      * split; auto. intros t' k' B' W'. apply (won_record t v false res res' w t' k' R3) in W' as [W'|(_ & _ & _ & W')]; [eapply U; eauto|discriminate].
  - (* set *)
    intros done pend bv res t v rest b bv' Ht Hc Hp (I1 & I2 & I3) HL Hb U. destruct (record_ok t v (negb b) res ltac:(fold T in Ht; lia)) as (res' & R & R2 & R3). exists res'. split; auto. split; [lia|]. split; [apply (Hput done t v res res' (negb b)); auto|].
    intros w. destruct (I3 w) as (K1 & K2 & K3). destruct (Z.eq_dec w v) as [->|Nw].
    + split; [intros H; exfalso; apply (H t Ht); apply Hin; auto|]. destruct U as (U1 & U2 & U3). split; [auto|]. destruct b.
      * destruct K3 as [(K3 & K4 & (t0 & k0 & B & W & Un))|(K3 & Un)]; [left|right].
        -- split; auto. split; auto. exists t0, k0. split; auto. split; [apply (won_record t v false res res' v t0 k0 R3); auto|]. intros t' k' B' W'. apply (won_record t v false res res' v t' k' R3) in W' as [W'|(_ & _ & _ & W')]; [auto|discriminate].
        -- split; [congruence|]. intros t' k' B' W'. apply (won_record t v false res res' v t' k' R3) in W' as [W'|(_ & _ & _ & W')]; [eapply Un; eauto|discriminate].
      * destruct K3 as [(_ & K4 & _)|(K3 & Un)]; [congruence|]. left. split; [congruence|]. split; auto. exists t, (Zlen (nthl res t)). split; auto. split; [apply (won_record t v true res res' v t _ R3); auto|].
        intros t' k' B' W'. apply (won_record t v true res res' v t' k' R3) in W' as [W'|(-> & -> & _)]; [exfalso; eapply Un; eauto|auto].
    + pose proof (bit_other _ _ _ _ w U Nw) as Ew. destruct U as (U1 & U2 & U3). split; [|split].
      * intros H. rewrite U3 by auto. apply K1. intros t' Ht' Hw. apply (H t' Ht'). apply Hin. auto.
      * intros t' Ht' Hw. rewrite Ew. apply Hin in Hw as [Hw|(_ & Hw)]; [eauto|contradiction].
      * rewrite Ew. destruct K3 as [(K3 & K4 & (t0 & k0 & B & W & Un))|(K3 & Un)]; [left|right].
        -- split; auto. split; auto. exists t0, k0. split; auto. split; [apply (won_record t v (negb b) res res' w t0 k0 R3); auto|]. intros t' k' B' W'. apply (won_record t v (negb b) res res' w t' k' R3) in W' as [W'|(_ & _ & W' & _)]; [auto|contradiction].
        -- split; auto. intros t' k' B' W'. apply (won_record t v (negb b) res res' w t' k' R3) in W' as [W'|(_ & _ & W' & _)]; [eapply Un; eauto|contradiction].
  - (* start *)
    assert (Hn : forall t, nthl (repeat (@nil (Z * bool)) (length calls)) t = []).
    { intros t. unfold nthl. destruct (get _ t) as [l|] eqn:G; auto. apply get_In, repeat_spec in G. auto. }
    split; [rewrite Zlen_repeat; reflexivity|]. split; [intros; now rewrite Hn|]. intros v. split; auto. split; [intros t _ []|]. right. split; auto. intros t k _ W. unfold won in W. rewrite Hn in W. apply get_Some_bounds in W. change (Zlen (@nil (Z * bool))) with 0 in W. lia.
  - exists bv, regs', res. split; auto. split; auto. split; [intros t Ht; destruct (P t Ht) as (<- & _); auto|]. intros v. destruct (I3 v) as (K1 & K2 & K3). split.
    + intros H. apply K1. intros t Ht. destruct (P t Ht) as (-> & _). auto.
    + intros t Ht Hv. split; [apply (K2 t Ht); destruct (P t Ht) as (-> & _); auto|]. assert (Eb : bit bv v = Some true) by (apply (K2 t Ht); destruct (P t Ht) as (-> & _); auto).
      destruct K3 as [(K3 & K4 & K5)|(K3 & K5)]; split; intros H; auto; congruence.
Qed.
(** Without the atomic operation two threads can win. *)
Definition race_calls : list (list Z) := [[0]; [0]].
Lemma set_race : exists sch bv regs res, par sch (ts_step false record) (ts_threads race_calls) ([0], [true; true], [[]; []]) = Some (bv, regs, res) /\ won res 0 0 0 /\ won res 0 1 0.
Proof. exists [0%nat; 1%nat; 0%nat; 1%nat], [1], [true; true], [[(0, true)]; [(0, true)]]. vm_compute. auto. Qed.
Definition ts_case_calls : list (list Z) := [[2; 0]; [2; 1; 2]; []; [0]].
Lemma ts_case : par [1; 0; 1; 0]%nat (ts_step true record) (ts_threads ts_case_calls) ([0; 1; 6], [false; true; false; true], repeat [] (length ts_case_calls)) =
  Some ([1; 1; 7], [true; false; false; false], [[(2, false); (0, true)]; [(2, true); (1, false); (2, false)]; []; [(0, false)]]).
Proof. vm_compute. reflexivity. Qed.
