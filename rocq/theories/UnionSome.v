(** * Executions of the concurrent union that reach the end
    (/repo/reordering/ConnectedComponents.cpp:150-196).

    Every execution can be completed from wherever it is; when the threads work one
    after the other every store finds the values its thread has read. *)
From Coq Require Import Relations.
From Verif Require Import Base Spec Interleave PrefixSum Flat CountSort Csr BitVector UnionFind Components UnionFresh.

(** ** The union *)
Lemma done_or_busy (ths : list (upc * list (Z * Z))) : (forall th, In th ths -> th = (Next, [])) \/ exists t th, get ths t = Some th /\ th <> (Next, []).
Proof.
  induction ths as [|(pc & todo) ths IH]; [left; intros ? []|].
  assert (D : (pc, todo) = (Next, []) \/ (pc, todo) <> (Next, [])).
  { destruct pc; try (right; discriminate). destruct todo; [now left|right; discriminate]. }
  destruct D as [D|D]; [|right; exists 0, (pc, todo); split; [apply get_cons_0|auto]].
  destruct IH as [IH|(t & th & G & N)].
  - left. intros th [<-|H]; auto.
  - right. exists (t + 1), th. pose proof (get_Some_bounds _ _ _ G). rewrite get_cons_S by lia. auto.
Qed.

Section Union.
Variables (m : Z) (E : list (Z * Z)).
Hypothesis Hm : 0 <= m.

(** From every reachable state the union can be brought to its end. *)
Lemma union_completes n : forall s, tinv m E s -> spot m s <= Z.of_nat n -> exists l s', foldM ustep l s = Some s' /\ all_done s'.
Proof.
  induction n as [|n IH]; intros s HI Hn; (destruct (done_or_busy (snd s)) as [D|(t & th & G & N)]; [exists [], s; split; [reflexivity|exact D]|]);
    destruct (ustep_inv m E t s (proj1 HI)) as (s1 & E1 & I1 & _); try (now apply get_Some_bounds in G);
    destruct (ustep_pot m E t s s1 Hm HI) as (HI1 & HP); auto; try (unfold busy; rewrite G; congruence).
  - pose proof (spot_nonneg m E s1 Hm (proj1 HI1)). lia.
  - destruct (IH s1 HI1 ltac:(lia)) as (l & s' & E2 & D). exists (t :: l), s'. cbn [foldM]. rewrite E1. auto.
Qed.

(** What the thread at work has read is still in memory. *)
Definition aware (p : list Z) (pc : upc) : Prop :=
  match pc with
  | RdY rx ry a => get p rx = Some a
  | Cas rx ry px py => px = rx /\ get p rx = Some px /\ get p ry = Some py
  | Sto rx ry px py => get p rx = Some px /\ get p ry = Some py
  | _ => True
  end.
Lemma aware_step p pc todo p' pc' todo' : aware p pc -> ustep1 p (pc, todo) = Some (p', (pc', todo')) -> aware p' pc'.
Proof.
  intros HA Es. destruct pc as [|x y|x y a|rx ry|rx ry a|rx ry px py|rx ry px py]; cbn [ustep1 aware] in *.
  - destruct todo as [|(x & y) r]; injection Es as <- <- <-; exact I.
  - destruct (get p x) as [a|]; [|discriminate]. injection Es as <- <- <-. exact I.
  - destruct (get p y) as [b|]; [|discriminate]. destruct (a =? b); injection Es as <- <- <-; exact I.
  - destruct (get p rx) as [a|] eqn:Ea; [|discriminate]. injection Es as <- <- <-. exact Ea.
  - destruct (get p ry) as [b|] eqn:Eb; [|discriminate]. destruct (a =? b); [injection Es as <- <- <-; exact I|]. injection Es as <- <- <-.
    destruct (a >? b); (destruct (_ =? _) eqn:Q; cbn [aware]; auto). all: split; [lia|auto].
  - destruct HA as (-> & H1 & H2). rewrite H1, Z.eqb_refl in Es. destruct (set p rx py) as [q|]; [|discriminate]. injection Es as <- <- <-. exact I.
  - destruct (set p rx py) as [q|]; [|discriminate]. injection Es as <- <- <-. exact I.
Qed.
(** Thread [t0] is at work, the others are between two pairs. *)
Definition alone (t0 : Z) (s : ustate) : Prop :=
  forall t pc todo, get (snd s) t = Some (pc, todo) -> if t =? t0 then aware (fst s) pc else pc = Next.
Lemma alone_step t s s' : alone t s -> ustep t s = Some s' -> alone t s'.
Proof.
  destruct s as (p & ths). intros HA Es. cbn [ustep] in Es. destruct (get ths t) as [(pc & todo)|] eqn:G; [|discriminate].
  destruct (ustep1 p (pc, todo)) as [(p' & (pc' & todo'))|] eqn:E1; [|discriminate]. destruct (set ths t (pc', todo')) as [ths'|] eqn:E2; [|discriminate]. injection Es as <-.
  intros u pc1 todo1 G1. cbn [fst snd] in *. rewrite (get_set _ _ _ _ _ E2) in G1. destruct (u =? t) eqn:Q.
  - injection G1 as <- <-. specialize (HA t pc todo G). rewrite Z.eqb_refl in HA. exact (aware_step _ _ _ _ _ _ HA E1).
  - specialize (HA u pc1 todo1 G1). cbn [snd] in HA. now rewrite Q in HA.
Qed.
Lemma alone_current t s pc todo : alone t s -> get (snd s) t = Some (pc, todo) -> current (fst s) pc.
Proof. intros HA G. specialize (HA t pc todo G). rewrite Z.eqb_refl in HA. destruct pc; cbn [aware current] in *; auto. Qed.
(** The thread at work goes on until it is done, then another one starts. *)
Lemma union_turns n : forall t0 s, tinv m E s -> alone t0 s -> spot m s <= Z.of_nat n -> exists l s', foldM ustep l s = Some s' /\ all_done s' /\ fresh_run l s.
Proof.
  induction n as [|n IH]; intros t0 s HI HA Hn; (destruct (done_or_busy (snd s)) as [D|(t1 & th1 & G1 & N1)]; [exists [], s; split; [reflexivity|]; split; [exact D|constructor]|]);
    (assert (X : exists t th, get (snd s) t = Some th /\ th <> (Next, []) /\ alone t s);
     [destruct (get (snd s) t0) as [(pc0 & todo0)|] eqn:G0;
       [assert (D0 : (pc0, todo0) = (Next, []) \/ (pc0, todo0) <> (Next, [])) by (destruct pc0; try (right; discriminate); destruct todo0; [now left|right; discriminate]);
        destruct D0 as [D0|D0]; [|exists t0, (pc0, todo0); auto]|];
       (exists t1, th1; split; [auto|]; split; [auto|]; intros t pc todo G; pose proof (HA t pc todo G) as K; destruct (t =? t0) eqn:Q0;
        [assert (t = t0) by lia; subst t; try congruence; rewrite G0 in G; injection G as <- <-; injection D0 as -> ->; destruct (t0 =? t1); cbn; auto|subst pc; destruct (t =? t1); cbn; auto])|]);
    destruct X as (t & (pc & todo) & G & N & HA');
    destruct (ustep_inv m E t s (proj1 HI)) as (s1 & E1 & I1 & _); try (now apply get_Some_bounds in G);
    destruct (ustep_pot m E t s s1 Hm HI) as (HI1 & HP); auto; try (unfold busy; rewrite G; congruence).
  - pose proof (spot_nonneg m E s1 Hm (proj1 HI1)). lia.
  - destruct (IH t s1 HI1 (alone_step _ _ _ HA' E1) ltac:(lia)) as (l & s' & E2 & D & F). exists (t :: l), s'. cbn [foldM]. rewrite E1. split; auto. split; auto.
    constructor; [|intros s2 E3; assert (s2 = s1) by congruence; now subst]. intros pc2 todo2 G2. exact (alone_current t s pc2 todo2 HA' G2).
Qed.
End Union.

Lemma tinv_start m E s : uinv m E s -> (forall th, In th (snd s) -> fst th = Next) -> tinv m E s.
Proof. intros H1 H2. split; auto. intros pc todo Hin. apply H2 in Hin. cbn in Hin. now subst. Qed.

(** Steps of finished threads change nothing, so the invariant holds in every run. *)
Lemma tinv_step m E t s s' : 0 <= m -> tinv m E s -> ustep t s = Some s' -> tinv m E s'.
Proof.
  intros Hm HI Es. destruct (get (snd s) t) as [(pc & todo)|] eqn:G.
  - assert (D : (pc, todo) = (Next, []) \/ (pc, todo) <> (Next, [])) by (destruct pc; try (right; discriminate); destruct todo; [now left|right; discriminate]).
    destruct D as [D|D].
    + destruct s as (p & ths). cbn [snd] in G. cbn [ustep] in Es. rewrite G, D in Es. cbn [ustep1] in Es. destruct (set ths t (Next, [])) as [ths'|] eqn:E2; [|discriminate]. injection Es as <-.
      replace ths' with ths; auto. apply list_ext; [symmetry; exact (set_len _ _ _ _ E2)|]. intros i Hi. rewrite (get_set _ _ _ _ _ E2). destruct (Z.eqb_spec i t) as [->|]; congruence.
    + apply (ustep_pot m E t s s' Hm HI); auto. unfold busy. rewrite G. congruence.
  - destruct s as (p & ths). cbn [snd] in G. cbn [ustep] in Es. now rewrite G in Es.
Qed.
Lemma tinv_run m E l : 0 <= m -> forall s s', tinv m E s -> foldM ustep l s = Some s' -> tinv m E s'.
Proof.
  intros Hm. induction l as [|t l IH]; intros s s' HI Es; cbn [foldM] in Es; [congruence|]. destruct (ustep t s) as [s1|] eqn:E1; [|discriminate]. apply (IH s1); auto. exact (tinv_step m E t s s1 Hm HI E1).
Qed.
Lemma tinv_uinit m work : 0 <= m -> (forall w e, In w work -> In e w -> 0 <= fst e < m /\ 0 <= snd e < m) -> tinv m (concat work) (uinit m work).
Proof.
  intros Hm Hw. apply tinv_start; [now apply uinit_inv|]. intros th H. apply in_map_iff in H as (w & <- & _). reflexivity.
Qed.
(** Whatever has happened, the union can still be brought to its end. *)
Theorem union_can_finish m work sched s : 0 <= m -> (forall w e, In w work -> In e w -> 0 <= fst e < m /\ 0 <= snd e < m) ->
  union_run m work sched = Some s -> exists l s', union_run m work (sched ++ l) = Some s' /\ all_done s'.
Proof.
  intros Hm Hw Er. pose proof (tinv_run m (concat work) sched Hm _ _ (tinv_uinit m work Hm Hw) Er) as HI.
  destruct (union_completes m (concat work) Hm (Z.to_nat (spot m s)) s HI) as (l & s' & E1 & D). { pose proof (spot_nonneg m _ s Hm (proj1 HI)). lia. }
  exists l, s'. split; auto. unfold union_run in *. rewrite foldM_app, Er. exact E1.
Qed.
(** And there is an execution in which the plain stores use current values. *)
Theorem union_fresh_exists m work : 0 <= m -> (forall w e, In w work -> In e w -> 0 <= fst e < m /\ 0 <= snd e < m) ->
  exists sched s, union_run m work sched = Some s /\ all_done s /\ fresh_run sched (uinit m work).
Proof.
  intros Hm Hw. pose proof (tinv_uinit m work Hm Hw) as HI.
  apply (union_turns m (concat work) Hm (Z.to_nat (spot m (uinit m work))) 0 _ HI).
  - intros t pc todo G. apply get_In in G. apply in_map_iff in G as (w & [= <- <-] & _). destruct (t =? 0); cbn; auto.
  - pose proof (spot_nonneg m _ _ Hm (proj1 HI)). lia.
Qed.

(** ** The compression *)
Lemma cdone_or_busy (ths : list cthread) : (forall pc todo n, In (pc, todo, n) ths -> pc = CNext /\ todo = []) \/ exists t pc todo n, get ths t = Some (pc, todo, n) /\ (pc <> CNext \/ todo <> []).
Proof.
  induction ths as [|((pc & todo) & n) ths IH]; [left; intros ? ? ? []|].
  assert (D : (pc = CNext /\ todo = []) \/ (pc <> CNext \/ todo <> [])) by (destruct pc; try (right; left; discriminate); destruct todo; [now left|right; right; discriminate]).
  destruct D as [D|D]; [|right; exists 0, pc, todo, n; split; [apply get_cons_0|auto]].
  destruct IH as [IH|(t & pc' & todo' & n' & G & N)].
  - left. intros a b c [[= <- <- <-]|H]; eauto.
  - right. exists (t + 1), pc', todo', n'. pose proof (get_Some_bounds _ _ _ G). rewrite get_cons_S by lia. auto.
Qed.
Section Compress.
Variables (m : Z) (p0 : list Z).
Hypothesis Hm : 0 <= m.
Hypothesis Hlen : Zlen p0 = m.
Hypothesis Hdown : forall x, 0 <= x < m -> exists y, get p0 x = Some y /\ 0 <= y <= x.
Variable T : Z.
Hypothesis HT : 1 <= T.
Variable ch : Z -> list Z.
Hypothesis Hch : forall t x, 0 <= t < T -> In x (ch t) -> 0 <= x < m.
Lemma compress_completes n : forall s, cinv m p0 T ch s -> cspot m s <= Z.of_nat n -> exists l s', foldM cstep l s = Some s' /\ call_done s'.
Proof.
  induction n as [|n IH]; intros s HI Hn; (destruct (cdone_or_busy (snd s)) as [D|(t & pc & todo & k & G & N)]; [exists [], s; split; [reflexivity|exact D]|]);
    (assert (Ht : 0 <= t < T) by (destruct HI as (_ & HL & _); apply get_Some_bounds in G; lia));
    destruct (cstep_inv m p0 Hdown T ch Hch t s HI Ht) as (s1 & E1 & _);
    (destruct (cstep_pot m p0 Hdown T ch Hch t s s1 HI) as (HI1 & HP); auto;
     [intros k'; rewrite G; intros [= -> -> _]; destruct N; congruence|]).
  - pose proof (cspot_nonneg m p0 Hm Hdown T ch Hch s1 HI1). lia.
  - destruct (IH s1 HI1 ltac:(lia)) as (l & s' & E2 & D). exists (t :: l), s'. cbn [foldM]. rewrite E1. auto.
Qed.
Theorem compress_exists : exists sched s, compress_run_on ch T p0 sched = Some s /\ call_done s.
Proof.
  pose proof (cinit_inv m p0 Hlen Hdown T HT ch Hch) as HI. apply (compress_completes (Z.to_nat (cspot m (cinit_on ch T p0)))); auto.
  pose proof (cspot_nonneg m p0 Hm Hdown T ch Hch _ HI). lia.
Qed.
End Compress.

(** ** Fair schedules
    [f k] is the thread that makes step [k]; every thread comes again and again. *)
Definition fair (T : Z) (f : nat -> Z) : Prop := (forall k, 0 <= f k < T) /\ forall t k, 0 <= t < T -> exists j, (k <= j)%nat /\ f j = t.
Definition turns (f : nat -> Z) (k : nat) : list Z := map f (seq 0 k).
Lemma turns_app f a b : turns f (a + b) = turns f a ++ map f (seq a b).
Proof. unfold turns. now rewrite seq_app, map_app. Qed.

Lemma idle_same m E t s : tinv m E s -> 0 <= t < Zlen (snd s) -> ~ busy t s -> ustep t s = Some s.
Proof.
  intros HI Ht Nb. destruct s as (p & ths). cbn [snd] in *. destruct (get_in_range ths t Ht) as ((pc & todo) & G).
  assert (D : (pc, todo) = (Next, [])).
  { destruct pc; try (exfalso; apply Nb; unfold busy; cbn [snd]; rewrite G; discriminate). destruct todo; [auto|]. exfalso. apply Nb. unfold busy. cbn [snd]. rewrite G. discriminate. }
  cbn [ustep]. rewrite G, D. cbn [ustep1]. destruct (set_ok ths t (Next, []) Ht) as (ths' & E2). rewrite E2. enough (ths' = ths) as -> by reflexivity.
  apply list_ext; [exact (set_len _ _ _ _ E2)|]. intros i Hi. rewrite (get_set _ _ _ _ _ E2). destruct (Z.eqb_spec i t) as [->|]; congruence.
Qed.
Lemma busy_dec t s : 0 <= t < Zlen (snd s) -> busy t s \/ ~ busy t s.
Proof.
  intros Ht. unfold busy. destruct (get_in_range (snd s) t Ht) as ((pc & todo) & G). rewrite G.
  destruct pc; try (left; discriminate). destruct todo; [right|left; discriminate]. intros H. now apply H.
Qed.
Lemma ustep_len t s s' : ustep t s = Some s' -> Zlen (snd s') = Zlen (snd s).
Proof.
  destruct s as (p & ths). cbn [ustep]. destruct (get ths t) as [th|]; [|discriminate]. destruct (ustep1 p th) as [(p' & th')|]; [|discriminate].
  destruct (set ths t th') as [ths'|] eqn:E2; [|discriminate]. intros [= <-]. exact (set_len _ _ _ _ E2).
Qed.

Section Fair.
Variables (m : Z) (E : list (Z * Z)) (T : Z) (f : nat -> Z).
Hypothesis Hm : 0 <= m.
Hypothesis Hf : fair T f.
Lemma union_fair_from n : forall k s, tinv m E s -> Zlen (snd s) = T -> spot m s <= Z.of_nat n -> exists d s', foldM ustep (map f (seq k d)) s = Some s' /\ all_done s'.
Proof.
  induction n as [|n IH]; intros k s HI HL Hn; (destruct (done_or_busy (snd s)) as [D|(t & th & G & N)]; [exists 0%nat, s; split; [reflexivity|exact D]|]);
    (assert (Hb : busy t s) by (unfold busy; rewrite G; congruence)); (assert (Ht : 0 <= t < T) by (apply get_Some_bounds in G; lia)).
  - destruct (ustep_inv m E t s (proj1 HI)) as (s1 & E1 & _); [lia|]. destruct (ustep_pot m E t s s1 Hm HI Hb E1) as (HI1 & HP). pose proof (spot_nonneg m E s1 Hm (proj1 HI1)). lia.
  - destruct (proj2 Hf t k Ht) as (j & Hj & Fj).
    assert (X : forall d k, (k + d = j)%nat -> exists d s', foldM ustep (map f (seq k d)) s = Some s' /\ all_done s').
    { induction d as [|d IHd]; intros k' Ek; pose proof (proj1 Hf k') as Fk; rewrite <- HL in Fk; (destruct (busy_dec (f k') s Fk) as [B|B];
        [destruct (ustep_inv m E (f k') s (proj1 HI) Fk) as (s1 & E1 & _); destruct (ustep_pot m E (f k') s s1 Hm HI B E1) as (HI1 & HP);
         destruct (IH (S k') s1 HI1 ltac:(rewrite (ustep_len _ _ _ E1); auto) ltac:(lia)) as (d' & s' & E2 & D'); exists (S d'), s'; cbn [seq map foldM]; rewrite E1; auto|]).
      - exfalso. apply B. replace k' with j by lia. now rewrite Fj.
      - destruct (IHd (S k') ltac:(lia)) as (d' & s' & E2 & D'). exists (S d'), s'. cbn [seq map foldM]. rewrite (idle_same m E (f k') s HI Fk B). auto. }
    apply (X (j - k)%nat). lia.
Qed.
End Fair.
Theorem union_fair m work f : 0 <= m -> (forall w e, In w work -> In e w -> 0 <= fst e < m /\ 0 <= snd e < m) -> fair (Zlen work) f ->
  exists k s, union_run m work (turns f k) = Some s /\ all_done s.
Proof.
  intros Hm Hw Hf. pose proof (tinv_uinit m work Hm Hw) as HI. apply (union_fair_from m (concat work) (Zlen work) f Hm Hf (Z.to_nat (spot m (uinit m work))) 0); auto.
  - cbn [uinit snd]. apply Zlen_map.
  - pose proof (spot_nonneg m _ _ Hm (proj1 HI)). lia.
Qed.

Section FairCompress.
Variables (m : Z) (p0 : list Z).
Hypothesis Hm : 0 <= m.
Hypothesis Hlen : Zlen p0 = m.
Hypothesis Hdown : forall x, 0 <= x < m -> exists y, get p0 x = Some y /\ 0 <= y <= x.
Variable T : Z.
Hypothesis HT : 1 <= T.
Variable ch : Z -> list Z.
Hypothesis Hch : forall t x, 0 <= t < T -> In x (ch t) -> 0 <= x < m.
Variable f : nat -> Z.
Hypothesis Hf : fair T f.
Lemma cidle_same t s : 0 <= t < Zlen (snd s) -> ~ cbusy t s -> cstep t s = Some s.
Proof.
  clear. intros Ht Nb. destruct s as (p & ths). cbn [snd] in *. destruct (get_in_range ths t Ht) as (((pc & todo) & n) & G).
  assert (D : (pc, todo) = (CNext, [])).
  { destruct pc; try (exfalso; apply Nb; intros k; cbn [snd]; rewrite G; discriminate). destruct todo; [auto|]. exfalso. apply Nb. intros k. cbn [snd]. rewrite G. discriminate. }
  injection D as -> ->. cbn [cstep]. rewrite G. cbn [cstep1]. destruct (set_ok ths t (CNext, [], n) Ht) as (ths' & E2). rewrite E2. enough (ths' = ths) as -> by reflexivity.
  apply list_ext; [exact (set_len _ _ _ _ E2)|]. intros i Hi. rewrite (get_set _ _ _ _ _ E2). destruct (Z.eqb_spec i t) as [->|]; congruence.
Qed.
Lemma cbusy_dec t s : 0 <= t < Zlen (snd s) -> cbusy t s \/ ~ cbusy t s.
Proof.
  clear. intros Ht. unfold cbusy. destruct (get_in_range (snd s) t Ht) as (((pc & todo) & n) & G). rewrite G.
  destruct pc; try (left; discriminate). destruct todo; [right|left; discriminate]. intros H. now apply (H n).
Qed.
Lemma compress_fair_from n : forall k s, cinv m p0 T ch s -> cspot m s <= Z.of_nat n -> exists d s', foldM cstep (map f (seq k d)) s = Some s' /\ call_done s'.
Proof.
  induction n as [|n IH]; intros k s HI Hn; (destruct (cdone_or_busy (snd s)) as [D|(t & pc & todo & q & G & N)]; [exists 0%nat, s; split; [reflexivity|exact D]|]);
    (assert (HL : Zlen (snd s) = T) by apply HI); (assert (Hb : cbusy t s) by (intros q'; rewrite G; intros [= -> -> _]; destruct N; congruence)); (assert (Ht : 0 <= t < T) by (apply get_Some_bounds in G; lia)).
  - destruct (cstep_inv m p0 Hdown T ch Hch t s HI Ht) as (s1 & E1 & _). destruct (cstep_pot m p0 Hdown T ch Hch t s s1 HI Hb E1) as (HI1 & HP). pose proof (cspot_nonneg m p0 Hm Hdown T ch Hch s1 HI1). lia.
  - destruct (proj2 Hf t k Ht) as (j & Hj & Fj).
    assert (X : forall d k, (k + d = j)%nat -> exists d s', foldM cstep (map f (seq k d)) s = Some s' /\ call_done s').
    { induction d as [|d IHd]; intros k' Ek; pose proof (proj1 Hf k') as Fk; (destruct (cbusy_dec (f k') s ltac:(lia)) as [B|B];
        [destruct (cstep_inv m p0 Hdown T ch Hch (f k') s HI Fk) as (s1 & E1 & _); destruct (cstep_pot m p0 Hdown T ch Hch (f k') s s1 HI B E1) as (HI1 & HP);
         destruct (IH (S k') s1 HI1 ltac:(lia)) as (d' & s' & E2 & D'); exists (S d'), s'; cbn [seq map foldM]; rewrite E1; auto|]).
      - exfalso. apply B. replace k' with j by lia. now rewrite Fj.
      - destruct (IHd (S k') ltac:(lia)) as (d' & s' & E2 & D'). exists (S d'), s'. cbn [seq map foldM]. rewrite (cidle_same (f k') s ltac:(lia) B). auto. }
    apply (X (j - k)%nat). lia.
Qed.
Theorem compress_fair : exists k s, compress_run_on ch T p0 (turns f k) = Some s /\ call_done s.
Proof.
  pose proof (cinit_inv m p0 Hlen Hdown T HT ch Hch) as HI. apply (compress_fair_from (Z.to_nat (cspot m (cinit_on ch T p0))) 0); auto.
  pose proof (cspot_nonneg m p0 Hm Hdown T ch Hch _ HI). lia.
Qed.
End FairCompress.
