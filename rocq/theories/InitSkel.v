(** * The two rounds of initialisation shared by Barrier::init and
    ReduceBarrier::init (/repo/synk/barrier.cpp:128-185, synk/reduce.hpp:123-246).

    Every thread of the team runs: set up; count down threadsWaiting and wait for
    initState 1; fill in tables; count down again and wait for initState 2.  The
    accesses to threadsWaiting and initState interleave arbitrarily; the set-up and
    every entry of the tables are parameters here (BarrierInit, ReduceInit). *)
From Verif Require Import Base.

Inductive ipc :=
| ISetup              (* before the first counting down *)
| IDec1               (* barrier.cpp:160: decrement threadsWaiting and test *)
| ISet1 | IGo1        (* 161: reset threadsWaiting; 162: initState = 1 *)
| ISpin1              (* 163: spin while initState is 0 *)
| IAct (k : Z)        (* 165-178: k actions done; after the last one, 181 *)
| ISet2 | IGo2        (* 182, 183: initState = 2 *)
| ISpin2              (* 184: spin while initState is 1 *)
| IDone.

Section Skel.
Context {M : Type}.
Variables (N : Z) (setup : Z -> M -> option M) (nact : Z -> Z) (act : Z -> Z -> M -> option M).

Record istate := mkI { imem : M; iwait : Z; istat : Z; ipcs : list ipc }.

(** One access of thread [t]: [None] is undefined behaviour, [Some None] a
    thread that spins or is done. *)
Definition imove (s : istate) (t : Z) (m : M) (w st : Z) (p : ipc) : option (option istate) :=
  pcs <- set (ipcs s) t p ;; Some (Some (mkI m w st pcs)).
Definition istep (t : Z) (s : istate) : option (option istate) :=
  p <- get (ipcs s) t ;;
  match p with
  | ISetup => m <- setup t (imem s) ;; imove s t m (iwait s) (istat s) IDec1
  | IDec1 => let w := iwait s - 1 in imove s t (imem s) w (istat s) (if w =? 0 then ISet1 else ISpin1)
  | ISet1 => imove s t (imem s) N (istat s) IGo1
  | IGo1 => imove s t (imem s) (iwait s) 1 (IAct 0)
  | ISpin1 => if istat s =? 0 then Some None else imove s t (imem s) (iwait s) (istat s) (IAct 0)
  | IAct k => if k <? nact t then m <- act t k (imem s) ;; imove s t m (iwait s) (istat s) (IAct (k + 1))
              else let w := iwait s - 1 in imove s t (imem s) w (istat s) (if w =? 0 then ISet2 else ISpin2)
  | ISet2 => imove s t (imem s) N (istat s) IGo2
  | IGo2 => imove s t (imem s) (iwait s) 2 IDone
  | ISpin2 => if istat s =? 1 then Some None else imove s t (imem s) (iwait s) (istat s) IDone
  | IDone => Some None
  end.
(** synk.cpp:75-76: threadsWaiting = numThreads, initState = 0. *)
Definition istart (m : M) : istate := mkI m N 0 (repeat ISetup (Z.to_nat N)).

(** [k] moves of the team. *)
Inductive irun (s0 : istate) : Z -> istate -> Prop :=
| ir_nil : irun s0 0 s0
| ir_step k s t s' : irun s0 k s -> 0 <= t < N -> istep t s = Some (Some s') -> irun s0 (k + 1) s'.
(** An executable run: the threads that move, in order; spinning is skipped. *)
Fixpoint iexec (tr : list Z) (s : istate) : option istate :=
  match tr with
  | [] => Some s
  | t :: tr => r <- istep t s ;; iexec tr (match r with Some s' => s' | None => s end)
  end.

(** ** Counting program points *)
Definition cls (p : ipc) : Z :=
  match p with ISetup | IDec1 => 0 | ISet1 => 1 | IGo1 => 2 | ISpin1 => 3 | IAct _ => 4 | ISet2 => 5 | IGo2 => 6 | ISpin2 => 7 | IDone => 8 end.
Definition b2z (b : bool) : Z := if b then 1 else 0.
Definition cnt (c : Z) (l : list ipc) : Z := zsum (map (fun p => b2z (cls p =? c)) l).

Lemma cnt_nonneg c l : 0 <= cnt c l.
Proof. apply zsum_nonneg. intros x H. apply in_map_iff in H as (p & <- & _). unfold b2z. destruct (cls p =? c); lia. Qed.
Lemma cnt_upd c l n p q : nth_error l n = Some p -> cnt c (upd l n q) = cnt c l - b2z (cls p =? c) + b2z (cls q =? c).
Proof.
  unfold cnt. revert n. induction l as [|x l IH]; intros [|n] H; try discriminate.
  - injection H as ->. cbn [upd map zsum fold_right]. lia.
  - cbn [upd map zsum fold_right]. cbn [nth_error] in H. specialize (IH n H). unfold zsum in IH. lia.
Qed.
Lemma cnt_set c l l' t p q : get l t = Some p -> set l t q = Some l' -> cnt c l' = cnt c l - b2z (cls p =? c) + b2z (cls q =? c).
Proof.
  intros G S. apply set_Some_inv in S as (B & ->). apply cnt_upd. unfold get in G. destruct (t <? 0); [discriminate|auto].
Qed.
Lemma cnt_pos l t p : get l t = Some p -> 1 <= cnt (cls p) l.
Proof.
  intros G. assert (S : exists l', set l t p = Some l') by (apply set_ok; eapply get_Some_bounds; eauto). destruct S as (l' & S).
  destruct (set_ok l t (match p with IDone => ISetup | _ => IDone end) (get_Some_bounds _ _ _ G)) as (l1 & S1).
  pose proof (cnt_set (cls p) _ _ _ _ _ G S1). pose proof (cnt_nonneg (cls p) l1). rewrite Z.eqb_refl in H. unfold b2z in *. destruct p; cbn [cls Z.eqb Pos.eqb] in *; lia.
Qed.
Lemma cnt_ex c l : 1 <= cnt c l -> exists t p, get l t = Some p /\ cls p = c.
Proof.
  unfold cnt. induction l as [|x l IH]; cbn [map zsum fold_right]; intros H; [lia|].
  destruct (Z.eqb_spec (cls x) c) as [E|E].
  - exists 0, x. split; auto.
  - destruct IH as (t & p & G & C); [cbn [b2z] in H; unfold zsum; lia|]. exists (t + 1), p. split; auto. rewrite get_cons_S; auto. apply get_Some_bounds in G. lia.
Qed.
Lemma cnt_sum l : cnt 0 l + cnt 1 l + cnt 2 l + cnt 3 l + cnt 4 l + cnt 5 l + cnt 6 l + cnt 7 l + cnt 8 l = Zlen l.
Proof.
  unfold cnt. induction l as [|x l IH]; [reflexivity|]. rewrite Zlen_cons. cbn [map zsum fold_right]. unfold zsum in IH.
  destruct x; cbn [cls Z.eqb Pos.eqb b2z]; lia.
Qed.
Lemma cnt_start n : cnt 0 (repeat ISetup n) = Z.of_nat n /\ forall c, c <> 0 -> cnt c (repeat ISetup n) = 0.
Proof.
  unfold cnt. induction n as [|n (I1 & I2)]; [split; reflexivity|]. cbn [repeat map zsum fold_right cls]. unfold zsum in *. split; [cbn [Z.eqb b2z]; lia|].
  intros c Hc. rewrite I2 by auto. destruct (Z.eqb_spec 0 c); [lia|]. reflexivity.
Qed.

(** ** The invariant *)
Inductive counted (w st : Z) (l : list ipc) : Prop :=
| C_first : st = 0 -> cnt 4 l = 0 -> cnt 5 l = 0 -> cnt 6 l = 0 -> cnt 7 l = 0 -> cnt 8 l = 0 -> cnt 1 l = 0 -> cnt 2 l = 0 -> w = cnt 0 l -> 0 < w -> counted w st l
| C_set1 : st = 0 -> cnt 4 l = 0 -> cnt 5 l = 0 -> cnt 6 l = 0 -> cnt 7 l = 0 -> cnt 8 l = 0 -> cnt 1 l = 1 -> cnt 2 l = 0 -> cnt 0 l = 0 -> w = 0 -> counted w st l
| C_go1 : st = 0 -> cnt 4 l = 0 -> cnt 5 l = 0 -> cnt 6 l = 0 -> cnt 7 l = 0 -> cnt 8 l = 0 -> cnt 1 l = 0 -> cnt 2 l = 1 -> cnt 0 l = 0 -> w = N -> counted w st l
| C_second : st = 1 -> cnt 0 l = 0 -> cnt 1 l = 0 -> cnt 2 l = 0 -> cnt 8 l = 0 -> cnt 5 l = 0 -> cnt 6 l = 0 -> w = cnt 3 l + cnt 4 l -> 0 < w -> counted w st l
| C_set2 : st = 1 -> cnt 0 l = 0 -> cnt 1 l = 0 -> cnt 2 l = 0 -> cnt 8 l = 0 -> cnt 5 l = 1 -> cnt 6 l = 0 -> cnt 3 l = 0 -> cnt 4 l = 0 -> w = 0 -> counted w st l
| C_go2 : st = 1 -> cnt 0 l = 0 -> cnt 1 l = 0 -> cnt 2 l = 0 -> cnt 8 l = 0 -> cnt 5 l = 0 -> cnt 6 l = 1 -> cnt 3 l = 0 -> cnt 4 l = 0 -> w = N -> counted w st l
| C_over : st = 2 -> cnt 0 l = 0 -> cnt 1 l = 0 -> cnt 2 l = 0 -> cnt 3 l = 0 -> cnt 4 l = 0 -> cnt 5 l = 0 -> cnt 6 l = 0 -> counted w st l.

(** What the threads have done so far. *)
Definition did1 (l : list ipc) (t : Z) : bool := match get l t with Some ISetup | None => false | _ => true end.
Definition did2 (l : list ipc) (t : Z) : Z :=
  match get l t with Some (IAct k) => k | Some (ISet2 | IGo2 | ISpin2 | IDone) => nact t | _ => 0 end.

(** Work left, for termination. *)
Definition todo1 (t : Z) (p : ipc) : Z :=
  match p with ISetup => 9 + nact t | IDec1 => 8 + nact t | ISet1 => 7 + nact t | IGo1 => 6 + nact t | ISpin1 => 6 + nact t
  | IAct k => 5 + nact t - k | ISet2 => 3 | IGo2 => 2 | ISpin2 => 2 | IDone => 0 end.
Definition todo (l : list ipc) : Z := zsum (map (fun t => match get l t with Some p => todo1 t p | None => 0 end) (zrange 0 N)).
Lemma todo_start m : todo (ipcs (istart m)) = zsum (map (fun t => 9 + nact t) (zrange 0 N)).
Proof using N nact.
  clear setup act.
  unfold todo, istart. cbn [ipcs]. f_equal. apply map_ext_in. intros t Ht. apply In_zrange in Ht.
  destruct (get_in_range (repeat ISetup (Z.to_nat N)) t) as (p & G); [rewrite Zlen_repeat; lia|]. rewrite G. apply get_In, repeat_spec in G. now subst.
Qed.

Variables (I1 : (Z -> bool) -> M -> Prop) (I2 : (Z -> Z) -> M -> Prop).
Hypothesis HN : 1 <= N.
Hypothesis Hnact : forall t, 0 <= t < N -> 0 <= nact t.
Hypothesis I1_ext : forall d d' m, (forall t, 0 <= t < N -> d t = d' t) -> I1 d m -> I1 d' m.
Hypothesis I2_ext : forall d d' m, (forall t, 0 <= t < N -> d t = d' t) -> I2 d m -> I2 d' m.
Hypothesis I1_setup : forall d m t, 0 <= t < N -> d t = false -> I1 d m -> exists m', setup t m = Some m' /\ I1 (fun u => if u =? t then true else d u) m'.
Hypothesis I12 : forall m, I1 (fun _ => true) m -> I2 (fun _ => 0) m.
Hypothesis I2_act : forall d m t, 0 <= t < N -> 0 <= d t < nact t -> I2 d m -> exists m', act t (d t) m = Some m' /\ I2 (fun u => if u =? t then d u + 1 else d u) m'.

Definition good (s : istate) : Prop :=
  Zlen (ipcs s) = N /\ counted (iwait s) (istat s) (ipcs s) /\
  (istat s = 0 -> I1 (did1 (ipcs s)) (imem s)) /\ (istat s <> 0 -> I2 (did2 (ipcs s)) (imem s)) /\
  (forall t k, get (ipcs s) t = Some (IAct k) -> 0 <= k <= nact t).

Lemma todo_set l l' t p q : 0 <= t < N -> get l t = Some p -> set l t q = Some l' -> todo l' = todo l - todo1 t p + todo1 t q.
Proof.
  intros Ht G S. unfold todo. rewrite (zrange_app 0 t N), (zrange_cons t N) by lia.
  rewrite !map_app, !zsum_app. cbn [map zsum fold_right]. rewrite G, (get_set_same _ _ _ _ S).
  assert (E : forall lo hi, (hi <= t \/ t < lo) -> map (fun t => match get l' t with Some p => todo1 t p | None => 0 end) (zrange lo hi) = map (fun t => match get l t with Some p => todo1 t p | None => 0 end) (zrange lo hi)).
  { intros lo hi H. apply map_ext_in. intros u Hu. apply In_zrange in Hu. rewrite (get_set_other _ _ _ _ _ S) by lia. reflexivity. }
  rewrite (E 0 t), (E (t + 1) N) by lia. unfold zsum. lia.
Qed.
Lemma todo_nonneg s : good s -> 0 <= todo (ipcs s).
Proof.
  intros (_ & _ & _ & _ & HK). apply zsum_nonneg. intros x H. apply in_map_iff in H as (t & <- & Ht). apply In_zrange in Ht.
  pose proof (Hnact t ltac:(lia)). destruct (get (ipcs s) t) as [p|] eqn:G; [|lia]. destruct p; cbn [todo1]; try lia. specialize (HK _ _ G). lia.
Qed.

Lemma good_start m : I1 (fun _ => false) m -> good (istart m).
Proof.
  intros H. unfold good, istart. cbn [ipcs iwait istat imem]. destruct (cnt_start (Z.to_nat N)) as (C0 & C).
  split; [rewrite Zlen_repeat; lia|]. split.
  - apply C_first; rewrite ?C by lia; rewrite ?C0; lia.
  - split; [|split; [lia|]].
    + intros _. eapply I1_ext; [|exact H]. intros t Ht. cbn beta. unfold did1. destruct (get _ t) as [p|] eqn:G; auto. apply get_In, repeat_spec in G. now subst.
    + intros t k G. apply get_In, repeat_spec in G. discriminate.
Qed.

Ltac counts l' G S :=
  pose proof (cnt_set 0 _ l' _ _ _ G S); pose proof (cnt_set 1 _ l' _ _ _ G S); pose proof (cnt_set 2 _ l' _ _ _ G S);
  pose proof (cnt_set 3 _ l' _ _ _ G S); pose proof (cnt_set 4 _ l' _ _ _ G S); pose proof (cnt_set 5 _ l' _ _ _ G S);
  pose proof (cnt_set 6 _ l' _ _ _ G S); pose proof (cnt_set 7 _ l' _ _ _ G S); pose proof (cnt_set 8 _ l' _ _ _ G S);
  cbn [cls Z.eqb Pos.eqb b2z] in *.

Lemma all_did l : Zlen l = N -> cnt 0 l = 0 -> forall t, 0 <= t < N -> did1 l t = true.
Proof.
  intros HL H0 t Ht. unfold did1. destruct (get_in_range l t) as (p & G); [lia|]. rewrite G. pose proof (cnt_pos _ _ _ G). destruct p; auto. cbn [cls] in *. lia.
Qed.
Lemma did2_0 l : Zlen l = N -> cnt 4 l = 0 -> cnt 5 l = 0 -> cnt 6 l = 0 -> cnt 7 l = 0 -> cnt 8 l = 0 -> forall t, 0 <= t < N -> did2 l t = 0.
Proof.
  intros HL H4 H5 H6 H7 H8 t Ht. unfold did2. destruct (get_in_range l t) as (p & G); [lia|]. rewrite G. pose proof (cnt_pos _ _ _ G). destruct p; auto; cbn [cls] in *; lia.
Qed.
(** [did1] and [did2] after a move of [t] to [q]. *)
Lemma did1_set l l' t q u : set l t q = Some l' -> did1 l' u = if u =? t then (match q with ISetup => false | _ => true end) else did1 l u.
Proof. intros S. unfold did1. rewrite (get_set _ _ _ _ _ S). destruct (u =? t); auto; destruct q; auto. Qed.
Lemma did2_set l l' t q u : set l t q = Some l' -> did2 l' u = if u =? t then (match q with IAct k => k | ISet2 | IGo2 | ISpin2 | IDone => nact t | _ => 0 end) else did2 l u.
Proof. intros S. unfold did2. rewrite (get_set _ _ _ _ _ S). destruct (Z.eqb_spec u t); auto; subst; destruct q; auto. Qed.

(** A step never goes wrong, keeps the invariant and makes the work left smaller. *)
Lemma good_step s t : good s -> 0 <= t < N ->
  match istep t s with
  | None => False
  | Some None => True
  | Some (Some s') => good s' /\ todo (ipcs s') < todo (ipcs s)
  end.
Proof.
  intros (HL & HC & H1 & H2 & HK) Ht. unfold istep. destruct (get_in_range (ipcs s) t) as (p & G); [lia|]. rewrite G.
  pose proof (cnt_pos _ _ _ G) as HP. pose proof (cnt_sum (ipcs s)) as HS.
  pose proof (cnt_nonneg 0 (ipcs s)); pose proof (cnt_nonneg 1 (ipcs s)); pose proof (cnt_nonneg 2 (ipcs s)); pose proof (cnt_nonneg 3 (ipcs s)); pose proof (cnt_nonneg 4 (ipcs s)); pose proof (cnt_nonneg 5 (ipcs s)); pose proof (cnt_nonneg 6 (ipcs s)); pose proof (cnt_nonneg 7 (ipcs s)); pose proof (cnt_nonneg 8 (ipcs s)).
  pose proof (Hnact t Ht) as Hna.
  (* the common end: a move to q *)
  assert (MV : forall m w st q l', set (ipcs s) t q = Some l' -> counted w st l' -> (st = 0 -> I1 (did1 l') m) -> (st <> 0 -> I2 (did2 l') m) ->
                 (match q with IAct k => 0 <= k <= nact t | _ => True end) -> todo1 t q < todo1 t p ->
                 good (mkI m w st l') /\ todo (ipcs (mkI m w st l')) < todo (ipcs s)).
  { intros m w st q l' S C A B K D. split.
    - unfold good. cbn [ipcs iwait istat imem]. split; [rewrite (set_len _ _ _ _ S); auto|]. split; auto. split; auto. split; auto.
      intros u k Gu. rewrite (get_set _ _ _ _ _ S) in Gu. destruct (Z.eqb_spec u t); [subst; injection Gu as ->; auto|eauto].
    - cbn [ipcs]. rewrite (todo_set _ _ _ _ _ Ht G S). lia. }
  assert (SS : forall q, exists l', set (ipcs s) t q = Some l') by (intros q; apply set_ok; lia).
  assert (D1 : did1 (ipcs s) t = match p with ISetup => false | _ => true end) by (unfold did1; rewrite G; destruct p; auto).
  assert (D2 : did2 (ipcs s) t = match p with IAct k => k | ISet2 | IGo2 | ISpin2 | IDone => nact t | _ => 0 end) by (unfold did2; rewrite G; destruct p; auto).
  unfold imove. destruct p; cbn [cls] in HP.
  - (* ISetup *) destruct HC; try (exfalso; lia). assert (E0 : istat s = 0) by lia.
    destruct (I1_setup (did1 (ipcs s)) (imem s) t Ht D1 (H1 E0)) as (m' & E & IM). rewrite E. destruct (SS IDec1) as (l' & S). rewrite S.
    eapply MV; [exact S| | |rewrite E0; lia|exact I|cbn [todo1]; lia].
    + counts l' G S. apply C_first; lia.
    + intros _. eapply I1_ext; [|exact IM]. intros u Hu. cbn beta. rewrite (did1_set _ _ _ _ u S). reflexivity.
  - (* IDec1 *) destruct HC; try (exfalso; lia). assert (E0 : istat s = 0) by lia.
    destruct (Z.eqb_spec (iwait s - 1) 0) as [W|W].
    + destruct (SS ISet1) as (l' & S). rewrite S. eapply MV; [exact S| | |rewrite E0; lia|exact I|cbn [todo1]; lia].
      * counts l' G S. apply C_set1; lia.
      * intros _. eapply I1_ext; [|exact (H1 E0)]. intros u Hu. rewrite (did1_set _ _ _ _ u S). destruct (Z.eqb_spec u t); subst; auto.
    + destruct (SS ISpin1) as (l' & S). rewrite S. eapply MV; [exact S| | |rewrite E0; lia|exact I|cbn [todo1]; lia].
      * counts l' G S. apply C_first; lia.
      * intros _. eapply I1_ext; [|exact (H1 E0)]. intros u Hu. rewrite (did1_set _ _ _ _ u S). destruct (Z.eqb_spec u t); subst; auto.
  - (* ISet1 *) destruct HC; try (exfalso; lia). assert (E0 : istat s = 0) by lia.
    destruct (SS IGo1) as (l' & S). rewrite S. eapply MV; [exact S| | |rewrite E0; lia|exact I|cbn [todo1]; lia].
    + counts l' G S. apply C_go1; lia.
    + intros _. eapply I1_ext; [|exact (H1 E0)]. intros u Hu. rewrite (did1_set _ _ _ _ u S). destruct (Z.eqb_spec u t); subst; auto.
  - (* IGo1 *) destruct HC; try (exfalso; lia). assert (E0 : istat s = 0) by lia.
    destruct (SS (IAct 0)) as (l' & S). rewrite S. eapply MV; [exact S| |lia| |cbv beta iota; lia|cbn [todo1]; lia].
    + counts l' G S. apply C_second; lia.
    + intros _. assert (IM : I1 (fun _ => true) (imem s)) by (eapply I1_ext; [|exact (H1 E0)]; intros u Hu; apply all_did; auto; lia).
      eapply I2_ext; [|exact (I12 _ IM)]. intros u Hu. cbn beta. rewrite (did2_set _ _ _ _ u S). destruct (u =? t); auto. symmetry. apply did2_0; auto; lia.
  - (* ISpin1 *) destruct (Z.eqb_spec (istat s) 0) as [E0|E0]; [auto|]. destruct HC; try (exfalso; lia).
    destruct (SS (IAct 0)) as (l' & S). rewrite S. eapply MV; [exact S| |lia| |cbv beta iota; lia|cbn [todo1]; lia].
    + counts l' G S. apply C_second; lia.
    + intros _. eapply I2_ext; [|exact (H2 E0)]. intros u Hu. rewrite (did2_set _ _ _ _ u S). destruct (Z.eqb_spec u t); subst; auto.
  - (* IAct *) destruct HC; try (exfalso; lia). assert (E1 : istat s = 1) by lia. pose proof (HK _ _ G) as Hk.
    destruct (Z.ltb_spec k (nact t)) as [Lt|Ge].
    + destruct (I2_act (did2 (ipcs s)) (imem s) t Ht) as (m' & E & IM); [rewrite D2; lia|apply H2; lia|]. rewrite D2 in E. rewrite E.
      destruct (SS (IAct (k + 1))) as (l' & S). rewrite S. eapply MV; [exact S| |lia| |cbv beta iota; lia|cbn [todo1]; lia].
      * counts l' G S. apply C_second; lia.
      * intros _. eapply I2_ext; [|exact IM]. intros u Hu. cbn beta. rewrite (did2_set _ _ _ _ u S). destruct (Z.eqb_spec u t); subst; auto.
    + assert (k = nact t) by lia. destruct (Z.eqb_spec (iwait s - 1) 0) as [W|W].
      * destruct (SS ISet2) as (l' & S). rewrite S. eapply MV; [exact S| |lia| |exact I|cbn [todo1]; lia].
        -- counts l' G S. apply C_set2; lia.
        -- intros _. eapply I2_ext; [|apply H2; lia]. intros u Hu. rewrite (did2_set _ _ _ _ u S). destruct (Z.eqb_spec u t); subst; auto.
      * destruct (SS ISpin2) as (l' & S). rewrite S. eapply MV; [exact S| |lia| |exact I|cbn [todo1]; lia].
        -- counts l' G S. apply C_second; lia.
        -- intros _. eapply I2_ext; [|apply H2; lia]. intros u Hu. rewrite (did2_set _ _ _ _ u S). destruct (Z.eqb_spec u t); subst; auto.
  - (* ISet2 *) destruct HC; try (exfalso; lia). assert (E1 : istat s = 1) by lia.
    destruct (SS IGo2) as (l' & S). rewrite S. eapply MV; [exact S| |lia| |exact I|cbn [todo1]; lia].
    + counts l' G S. apply C_go2; lia.
    + intros _. eapply I2_ext; [|apply H2; lia]. intros u Hu. rewrite (did2_set _ _ _ _ u S). destruct (Z.eqb_spec u t); subst; auto.
  - (* IGo2 *) destruct HC; try (exfalso; lia). assert (E1 : istat s = 1) by lia.
    destruct (SS IDone) as (l' & S). rewrite S. eapply MV; [exact S| |lia| |exact I|cbn [todo1]; lia].
    + counts l' G S. apply C_over; lia.
    + intros _. eapply I2_ext; [|apply H2; lia]. intros u Hu. rewrite (did2_set _ _ _ _ u S). destruct (Z.eqb_spec u t); subst; auto.
  - (* ISpin2 *) destruct (Z.eqb_spec (istat s) 1) as [E1|E1]; [auto|]. destruct HC; try (exfalso; lia).
    assert (E2 : istat s = 2) by lia.
    destruct (SS IDone) as (l' & S). rewrite S. eapply MV; [exact S| |lia| |exact I|cbn [todo1]; lia].
    + counts l' G S. apply C_over; lia.
    + intros _. eapply I2_ext; [|apply H2; lia]. intros u Hu. rewrite (did2_set _ _ _ _ u S). destruct (Z.eqb_spec u t); subst; auto.
  - (* IDone *) auto.
Qed.

Lemma good_run m s k : I1 (fun _ => false) m -> irun (istart m) k s -> good s /\ 0 <= k /\ k + todo (ipcs s) <= todo (ipcs (istart m)).
Proof.
  intros H R. induction R as [|k s t s' R IH Ht E].
  - split; [apply good_start; auto|]. lia.
  - destruct IH as (Gd & K0 & K). pose proof (good_step s t Gd Ht) as HS. rewrite E in HS. destruct HS as (G' & D). split; auto. lia.
Qed.

(** Somebody can move until all are done. *)
Lemma good_live s : good s -> (exists t p, 0 <= t < N /\ get (ipcs s) t = Some p /\ p <> IDone) -> exists t s', 0 <= t < N /\ istep t s = Some (Some s').
Proof.
  intros GD (u & q & Hu & Gu & NQ). pose proof GD as (HL & HC & _).
  assert (MV : forall c, 1 <= cnt c (ipcs s) -> (forall p, cls p = c -> forall t, istep t s = Some None -> get (ipcs s) t = Some p -> False) -> exists t s', 0 <= t < N /\ istep t s = Some (Some s')).
  { intros c Hc NB. destruct (cnt_ex _ _ Hc) as (t & p & G & C). assert (Ht : 0 <= t < N) by (apply get_Some_bounds in G; lia).
    pose proof (good_step s t GD Ht) as HS. destruct (istep t s) as [[s'|]|] eqn:E; [eauto| |contradiction]. exfalso. eapply NB; eauto. }
  assert (NS : forall t x, imove s t (imem s) (iwait s) (istat s) x = Some None -> False) by (intros t x; unfold imove; destruct (set _ _ _); discriminate).
  pose proof (cnt_sum (ipcs s)) as HS. pose proof (cnt_pos _ _ _ Gu) as HP.
  pose proof (cnt_nonneg 0 (ipcs s)); pose proof (cnt_nonneg 1 (ipcs s)); pose proof (cnt_nonneg 2 (ipcs s)); pose proof (cnt_nonneg 3 (ipcs s)); pose proof (cnt_nonneg 4 (ipcs s)); pose proof (cnt_nonneg 5 (ipcs s)); pose proof (cnt_nonneg 6 (ipcs s)); pose proof (cnt_nonneg 7 (ipcs s)); pose proof (cnt_nonneg 8 (ipcs s)).
  assert (Q : forall c, c = 0 \/ c = 1 \/ c = 2 \/ c = 4 \/ c = 5 \/ c = 6 \/ (c = 3 /\ istat s <> 0) \/ (c = 7 /\ istat s <> 1) -> 1 <= cnt c (ipcs s) -> exists t s', 0 <= t < N /\ istep t s = Some (Some s')).
  { intros c Hc Hc1. apply (MV c Hc1). intros p Hp t E G. unfold istep in E. rewrite G in E. unfold imove in E.
    destruct p; cbn [cls] in Hp; try lia;
    repeat match type of E with
      | context [istat s =? 0] => destruct (Z.eqb_spec (istat s) 0); [lia|]
      | context [istat s =? 1] => destruct (Z.eqb_spec (istat s) 1); [lia|]
      | context [?j <? nact t] => destruct (j <? nact t)
      | context [setup t ?m] => destruct (setup t m)
      | context [act t ?j ?m] => destruct (act t j m)
      | context [set ?a ?b ?c] => destruct (set a b c)
      end; discriminate. }
  destruct HC; [apply (Q 0)|apply (Q 1)|apply (Q 2)| |apply (Q 5)|apply (Q 6)|apply (Q 7)]; try lia.
  - destruct (Z_lt_ge_dec 0 (cnt 3 (ipcs s))); [apply (Q 3); lia|]. apply (Q 4); lia.
  - destruct q; cbn [cls] in HP; try lia. congruence.
Qed.

(** Once one thread has returned, everything is done. *)
Lemma good_done s t : good s -> get (ipcs s) t = Some IDone -> I2 nact (imem s).
Proof.
  intros (HL & HC & _ & H2 & _) G. pose proof (cnt_pos _ _ _ G) as HP. cbn [cls] in HP.
  assert (E2 : istat s = 2 /\ cnt 0 (ipcs s) = 0 /\ cnt 1 (ipcs s) = 0 /\ cnt 2 (ipcs s) = 0 /\ cnt 3 (ipcs s) = 0 /\ cnt 4 (ipcs s) = 0) by (destruct HC; lia).
  eapply I2_ext; [|apply H2; lia]. intros u Hu. unfold did2. destruct (get_in_range (ipcs s) u) as (p & Gp); [lia|]. rewrite Gp. pose proof (cnt_pos _ _ _ Gp). destruct p; auto; cbn [cls] in *; lia.
Qed.

Theorem skeleton m : I1 (fun _ => false) m ->
  (forall k s, irun (istart m) k s ->
     k <= todo (ipcs (istart m)) /\
     (forall t, 0 <= t < N -> istep t s <> None) /\
     ((forall t, 0 <= t < N -> get (ipcs s) t = Some IDone) \/ exists t s', 0 <= t < N /\ istep t s = Some (Some s')) /\
     (forall t, get (ipcs s) t = Some IDone -> I2 nact (imem s))).
Proof.
  intros H k s R. destruct (good_run m s k H R) as (GD & K0 & K). pose proof (todo_nonneg s GD) as TN. split; [lia|]. split; [|split].
  - intros t Ht E. pose proof (good_step s t GD Ht) as HS. rewrite E in HS. auto.
  - assert (D : (forall t, 0 <= t < N -> get (ipcs s) t = Some IDone) \/ exists t p, 0 <= t < N /\ get (ipcs s) t = Some p /\ p <> IDone).
    { destruct GD as (HL & _). pose proof (cnt_sum (ipcs s)) as HS. pose proof (cnt_nonneg 8 (ipcs s)).
      destruct (Forall_Exists_dec (fun p => p = IDone) (fun p => ltac:(destruct p; [right|right|right|right|right|right|right|right|right|left]; congruence)) (ipcs s)) as [F|X].
      - left. intros t Ht. destruct (get_in_range (ipcs s) t) as (p & G); [lia|]. rewrite Forall_forall in F. rewrite (F p (get_In _ _ _ G)) in G. auto.
      - right. apply Exists_exists in X as (p & Hp & NP). destruct (In_get _ _ Hp) as (t & Ht & G). exists t, p. split; [lia|]. auto. }
    destruct D as [D|D]; [auto|right]. apply good_live; auto.
  - intros t G. eapply good_done; eauto.
Qed.
End Skel.
