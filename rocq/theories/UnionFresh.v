(** * When the concurrent union finds every link.

    The plain store at ConnectedComponents.cpp:173 overwrites whatever another
    thread has put into p[r_x] since it was read.  This file shows that nothing else
    loses links: an execution in which every such store finds the two values its
    thread has read gives the connected components. *)
From Coq Require Import Relations.
From Verif Require Import Base Spec Interleave PrefixSum Flat CountSort Csr UnionFind Components.

(** ** Specification *)
(** The two values a thread is about to use at line 173 are still those of [p]. *)
Definition current (p : list Z) (pc : upc) : Prop :=
  match pc with Sto rx ry px py => get p rx = Some px /\ get p ry = Some py | _ => True end.
(** Every step of an execution is taken in a situation allowed by [ok]. *)
Inductive steps_ok (ok : list Z -> upc -> Prop) : list Z -> ustate -> Prop :=
| steps_nil s : steps_ok ok [] s
| steps_cons t l s : (forall pc todo, get (snd s) t = Some (pc, todo) -> ok (fst s) pc) -> (forall s', ustep t s = Some s' -> steps_ok ok l s') -> steps_ok ok (t :: l) s.
Definition fresh_run : list Z -> ustate -> Prop := steps_ok current.
(** For comparison: every compare-and-swap succeeds. *)
Definition cas_wins (p : list Z) (pc : upc) : Prop := match pc with Cas rx ry px py => get p rx = Some rx | _ => True end.

(** Decision, for examples. *)
Definition has (p : list Z) (x v : Z) : bool := match get p x with Some a => a =? v | None => false end.
Definition current_b (p : list Z) (pc : upc) : bool := match pc with Sto rx ry px py => has p rx px && has p ry py | _ => true end.
Definition cas_wins_b (p : list Z) (pc : upc) : bool := match pc with Cas rx ry px py => has p rx rx | _ => true end.
Fixpoint steps_b (ok : list Z -> upc -> bool) (l : list Z) (s : ustate) : bool :=
  match l with
  | [] => true
  | t :: l => (match get (snd s) t with Some (pc, _) => ok (fst s) pc | None => true end) && (match ustep t s with Some s' => steps_b ok l s' | None => true end)
  end.
Lemma has_ok p x v : has p x v = true -> get p x = Some v.
Proof. unfold has. destruct (get p x) as [a|]; [|discriminate]. intros H. apply Z.eqb_eq in H. now subst. Qed.
Lemma steps_b_ok (okb : list Z -> upc -> bool) (ok : list Z -> upc -> Prop) : (forall p pc, okb p pc = true -> ok p pc) -> forall l s, steps_b okb l s = true -> steps_ok ok l s.
Proof.
  intros Hok. induction l as [|t l IH]; intros s H; constructor; cbn [steps_b] in H; apply andb_true_iff in H as (H1 & H2).
  - intros pc todo G. rewrite G in H1. auto.
  - intros s' E. rewrite E in H2. auto.
Qed.
Lemma current_b_ok p pc : current_b p pc = true -> current p pc.
Proof. destruct pc; cbn [current current_b]; auto. intros H. apply andb_true_iff in H as (A & B). auto using has_ok. Qed.
Lemma cas_wins_b_ok p pc : cas_wins_b p pc = true -> cas_wins p pc.
Proof. destruct pc; cbn [cas_wins cas_wins_b]; auto. apply has_ok. Qed.

(** ** Proofs *)
Notation clos R := (clos_refl_sym_trans Z R).
(** Links, and the pairs still to be joined by the threads in [Q]. *)
Definition relq (s : ustate) (Q : Z -> Prop) (x y : Z) : Prop :=
  links (fst s) x y \/ exists u pc todo, Q u /\ get (snd s) u = Some (pc, todo) /\ (pend pc x y \/ In (x, y) todo).
(** What a thread knows about a value it has read. *)
Definition known (R : Z -> Z -> Prop) (pc : upc) : Prop :=
  match pc with
  | Chk2 x y a => clos R x a
  | RdY rx ry a => clos R rx a
  | Cas rx ry px py => px = rx /\ py < px /\ clos R ry py
  | Sto rx ry px py => py < px
  | _ => True
  end.

Section Step.
Variables (t : Z) (p : list Z) (ths : list (upc * list (Z * Z))) (pc : upc) (todo : list (Z * Z)) (p' : list Z) (ths' : list (upc * list (Z * Z))) (pc' : upc) (todo' : list (Z * Z)).
Hypothesis Ht : get ths t = Some (pc, todo).
Hypothesis E1 : ustep1 p (pc, todo) = Some (p', (pc', todo')).
Hypothesis E2 : set ths t (pc', todo') = Some ths'.
Hypothesis Hcur : current p pc.
Let s := (p, ths).
Let s' := (p', ths').

Lemma other_threads u : u <> t -> get ths' u = get ths u.
Proof. intros N. rewrite (get_set _ _ _ _ _ E2). destruct (Z.eqb_spec u t); [lia|auto]. Qed.
Lemma this_thread : get ths' t = Some (pc', todo').
Proof. exact (get_set_same _ _ _ _ E2). Qed.

(** If links go nowhere and the pairs of [t] are still joined, nothing is lost. *)
Lemma keep (Q Q' : Z -> Prop) : (forall u, u <> t -> Q u -> Q' u) ->
  (forall x y, links p x y -> clos (relq s' Q') x y) ->
  (Q t -> forall x y, pend pc x y \/ In (x, y) todo -> clos (relq s' Q') x y) ->
  forall x y, relq s Q x y -> clos (relq s' Q') x y.
Proof.
  intros HQ HL HT x y [H|(u & pc1 & todo1 & Qu & Gu & H)]; auto.
  cbn [snd s] in Gu. destruct (Z.eq_dec u t) as [->|N].
  - rewrite Ht in Gu. injection Gu as <- <-. auto.
  - apply rst_step. right. exists u, pc1, todo1. cbn [snd s']. rewrite other_threads; auto.
Qed.
Lemma link_step (Q : Z -> Prop) x y : links p' x y -> clos (relq s' Q) x y.
Proof. intros H. apply rst_step. now left. Qed.
Lemma mine (Q : Z -> Prop) x y : Q t -> pend pc' x y \/ In (x, y) todo' -> clos (relq s' Q) x y.
Proof. intros Qt H. apply rst_step. right. exists t, pc', todo'. split; auto. split; auto. exact this_thread. Qed.
End Step.

(** The order of the threads: a thread may rely on the pairs of later threads. *)
Definition later (rk : Z -> Z) (k u : Z) : Prop := k < rk u.
Definition ranked (rk : Z -> Z) (t : Z) (Q : Z -> Prop) : Prop := Q t -> forall u, later rk (rk t) u -> Q u.

Lemma step_keeps t p ths p' ths' rk M pc todo : get ths t = Some (pc, todo) -> ustep t (p, ths) = Some (p', ths') -> current p pc ->
  (forall u, rk u < M) -> known (relq (p, ths) (later rk (rk t))) pc ->
  exists rk' M', (forall u, rk' u < M') /\ (forall u, u <> t -> rk' u = rk u) /\ rk t <= rk' t /\ (rk t <> rk' t -> forall u, rk u < rk' t) /\
    (forall Q Q' : Z -> Prop, ranked rk t Q -> (forall u, u <> t -> Q u -> Q' u) -> (Q t -> Q' t) -> (rk t <> rk' t -> Q' t) -> forall x y, relq (p, ths) Q x y -> clos (relq (p', ths') Q') x y) /\
    exists pc' todo', get ths' t = Some (pc', todo') /\ known (relq (p', ths') (later rk' (rk' t))) pc' /\ (forall u, u <> t -> get ths' u = get ths u).
Proof.
  intros Ht E Hc HM HK. cbn [ustep] in E. rewrite Ht in E. destruct (ustep1 p (pc, todo)) as [[p1 [pc' todo']]|] eqn:E1; [|discriminate].
  destruct (set ths t (pc', todo')) as [l|] eqn:E2; [|discriminate]. injection E as -> ->.
  pose proof (keep t p ths pc todo p' ths' pc' todo' Ht E2) as KP. pose proof (mine t ths p' ths' pc' todo' E2) as MI. pose proof (link_step p' ths') as LS. cbv zeta in MI, LS.
  pose proof (other_threads t ths ths' pc' todo' E2) as OT. pose proof (this_thread t ths ths' pc' todo' E2) as TT.
  assert (Same : pc <> pc -> False) by congruence. clear Same.
  assert (Stay : (forall Q Q' : Z -> Prop, ranked rk t Q -> (forall u, u <> t -> Q u -> Q' u) -> (Q t -> Q' t) -> forall x y, relq (p, ths) Q x y -> clos (relq (p', ths') Q') x y) ->
    known (relq (p', ths') (later rk (rk t))) pc' -> exists rk' M', (forall u, rk' u < M') /\ (forall u, u <> t -> rk' u = rk u) /\ rk t <= rk' t /\ (rk t <> rk' t -> forall u, rk u < rk' t) /\
    (forall Q Q' : Z -> Prop, ranked rk t Q -> (forall u, u <> t -> Q u -> Q' u) -> (Q t -> Q' t) -> (rk t <> rk' t -> Q' t) -> forall x y, relq (p, ths) Q x y -> clos (relq (p', ths') Q') x y) /\
    exists pc' todo', get ths' t = Some (pc', todo') /\ known (relq (p', ths') (later rk' (rk' t))) pc' /\ (forall u, u <> t -> get ths' u = get ths u)).
  { intros H1 H2. exists rk, M. split; auto. split; auto. split; [lia|]. split; [lia|]. split; [intros Q Q' A1 A2 A3 A4; apply (H1 Q Q'); auto|]. exists pc', todo'. auto. }
  (* facts that do not depend on the thread survive *)
  assert (Known : (forall x y, links p x y -> links p' x y) -> forall x y, clos (relq (p, ths) (later rk (rk t))) x y -> clos (relq (p', ths') (later rk (rk t))) x y).
  { intros HL x y. apply rst_mono. intros a b. apply KP; auto. intros L. unfold later in L. lia. }
  destruct pc as [|x y|x y a|rx ry|rx ry a|rx ry px py|rx ry px py]; cbn [ustep1 known current] in *.
  - destruct todo as [|[x y] r]; injection E1 as <- <- <-; apply Stay; try exact I; intros Q Q' A1 A2 A3; apply KP; auto; intros Qt x' y' H; apply MI; auto; cbn [pend In] in *.
    destruct H as [H|[H|H]]; [destruct H| |]; [injection H as <- <-; left; auto|right; auto].
  - destruct (get p x) as [a|] eqn:Ea; [|discriminate]. injection E1 as <- <- <-. apply Stay.
    + intros Q Q' A1 A2 A3. apply KP; auto.
    + cbn [known]. apply LS. exact Ea.
  - destruct (get p y) as [b|] eqn:Eb; [|discriminate]. injection E1 as <- <- <-. apply Stay.
    + intros Q Q' A1 A2 A3. apply KP; auto. intros Qt x' y' H. destruct (Z.eqb_spec a b) as [->|]; [|apply MI; auto]. destruct H as [[-> ->]|H]; [|apply MI; auto].
      apply rst_trans with b; [|apply rst_sym, LS; exact Eb]. specialize (Known (fun x y H => H) x b HK). revert Known. apply rst_mono. intros u v [L|(w & pcw & tw & Lw & Gw & Hw)]; [apply LS; exact L|].
      apply rst_step. right. exists w, pcw, tw. split; auto. assert (w <> t) by (intros ->; unfold later in Lw; lia). apply A2; auto.
    + destruct (a =? b); exact I.
  - destruct (get p rx) as [a|] eqn:Ea; [|discriminate]. injection E1 as <- <- <-. apply Stay.
    + intros Q Q' A1 A2 A3. apply KP; auto.
    + cbn [known]. apply LS. exact Ea.
  - destruct (get p ry) as [b|] eqn:Eb; [|discriminate]. destruct (Z.eqb_spec a b) as [->|Nab].
    + injection E1 as <- <- <-. apply Stay; [|exact I].
      intros Q Q' A1 A2 A3. apply KP; auto. intros Qt x' y' H. destruct H as [[-> ->]|H]; [|apply MI; auto].
      apply rst_trans with b; [|apply rst_sym, LS; exact Eb]. specialize (Known (fun x y H => H) rx b HK). revert Known. apply rst_mono. intros u v [L|(w & pcw & tw & Lw & Gw & Hw)]; [apply LS; exact L|].
      apply rst_step. right. exists w, pcw, tw. split; auto. assert (w <> t) by (intros ->; unfold later in Lw; lia). apply A2; auto.
    + assert (PE : p' = p) by congruence. subst p'. assert (TE : todo' = todo) by congruence. subst todo'. apply Stay.
      * intros Q Q' A1 A2 A3. apply KP; auto. intros Qt x' y' [[-> ->]|H]; [|apply MI; auto].
        destruct (Z.gtb_spec a b); [destruct (Z.eqb_spec a rx)|destruct (Z.eqb_spec b ry)]; injection E1 as <-; try (apply MI; cbn [pend]; auto; fail); apply rst_sym, MI; cbn [pend]; auto.
      * destruct (Z.gtb_spec a b); [destruct (Z.eqb_spec a rx)|destruct (Z.eqb_spec b ry)]; injection E1 as <-; cbn [known]; repeat split; auto; try lia.
  - destruct HK as (-> & Hlt & HK). destruct (get p rx) as [v|] eqn:Ev; [|discriminate]. destruct (Z.eqb_spec v rx) as [->|Nv].
    + destruct (set p rx py) as [q|] eqn:Es; [|discriminate]. injection E1 as <- <- <-.
      assert (HL : forall (Q : Z -> Prop) x y, links p x y -> clos (relq (q, ths') Q) x y).
      { intros Q x y L. destruct (Z.eq_dec x rx) as [->|N]. { unfold links in L. rewrite Ev in L. injection L as <-. apply rst_refl. } apply LS. unfold links. rewrite (get_set_other _ _ _ _ _ Es); auto. }
      apply Stay; [|exact I]. intros Q Q' A1 A2 A3. apply KP; auto. intros Qt x' y' [[-> ->]|H]; [|apply MI; auto].
      apply rst_trans with py. { apply LS. exact (get_set_same _ _ _ _ Es). } apply rst_sym. revert HK. apply rst_mono. intros u v [L|(w & pcw & tw & Lw & Gw & Hw)]; [apply HL; exact L|].
      assert (w <> t) by (intros ->; unfold later in Lw; lia). apply rst_step. right. exists w, pcw, tw. cbn [snd]. rewrite OT; auto.
    + injection E1 as <- <- <-. apply Stay; [|exact Hlt]. intros Q Q' A1 A2 A3. apply KP; auto.
  - destruct Hc as (F1 & F2). destruct (set p rx py) as [q|] eqn:Es; [|discriminate]. injection E1 as <- <- <-.
    assert (rx <> ry) as Hne by (intros <-; rewrite F1 in F2; injection F2; lia).
    exists (fun u => if u =? t then M else rk u), (M + 1). split. { intros u. specialize (HM u). destruct (u =? t); lia. } split. { intros u N. destruct (Z.eqb_spec u t); [lia|auto]. } rewrite Z.eqb_refl. split. { specialize (HM t). lia. } split; [auto|].
    split.
    + intros Q Q' A1 A2 A3 A4. assert (Q't : Q' t). { apply A4. specialize (HM t). lia. }
      assert (Hrr : clos (relq (q, ths') Q') rx ry).
      { apply rst_trans with py; [apply LS; exact (get_set_same _ _ _ _ Es)|]. apply rst_sym, LS. unfold links. rewrite (get_set_other _ _ _ _ _ Es); auto. }
      apply KP; auto.
      * intros x y L. destruct (Z.eq_dec x rx) as [->|N].
        -- unfold links in L. rewrite F1 in L. injection L as <-. apply rst_trans with ry; auto. apply rst_sym, MI; auto. left. cbn [pend]. auto.
        -- apply LS. unfold links. rewrite (get_set_other _ _ _ _ _ Es); auto.
      * intros Qt x y [[-> ->]|H]; auto.
    + exists (RdX px ry), todo. split; auto. split; [exact I|auto].
Qed.

Definition finv (E : list (Z * Z)) (s : ustate) : Prop :=
  (forall x y, connected E x y -> clos (relq s (fun _ => True)) x y) /\
  exists rk M, (forall u, rk u < M) /\ forall u pc todo, get (snd s) u = Some (pc, todo) -> known (relq s (later rk (rk u))) pc.

Lemma known_mono (R R' : Z -> Z -> Prop) pc : (forall x y, R x y -> clos R' x y) -> known R pc -> known R' pc.
Proof. intros H. pose proof (rst_mono R R' H) as M. destruct pc; cbn [known]; auto. intros (A & B & C). auto. Qed.

Lemma finv_step E t s s' : finv E s -> (forall pc todo, get (snd s) t = Some (pc, todo) -> current (fst s) pc) -> ustep t s = Some s' -> finv E s'.
Proof.
  destruct s as (p, ths), s' as (p', ths'). intros (G & rk & M & HM & HK) Hf E1. pose proof E1 as E0. cbn [ustep] in E0. destruct (get ths t) as [[pc todo]|] eqn:Ht; [|discriminate]. clear E0.
  destruct (step_keeps t p ths p' ths' rk M pc todo Ht E1 (Hf pc todo Ht) HM (HK t pc todo Ht)) as (rk' & M' & HM' & Hrk & Hle & Hup & Keep & pc' & todo' & Gt & Kt & Go).
  split.
  - intros x y H. apply G in H. revert H. apply rst_mono. apply Keep; auto. intros _ u _. exact I.
  - exists rk', M'. split; auto. intros u pcu tu Gu. cbn [snd] in Gu. destruct (Z.eq_dec u t) as [->|N].
    + rewrite Gt in Gu. injection Gu as <- <-. exact Kt.
    + rewrite Go in Gu by auto. specialize (HK u pcu tu Gu). revert HK. apply known_mono. apply Keep.
      * intros Lt v Lv. unfold later in *. lia.
      * intros v Nv Lv. unfold later in *. rewrite !Hrk; auto.
      * intros Lt. unfold later in *. rewrite (Hrk u N). lia.
      * intros Ne. unfold later. rewrite (Hrk u N). auto.
Qed.

Lemma finv_init m work : finv (concat work) (uinit m work).
Proof.
  split.
  - intros x y. apply rst_mono. intros a b H. apply rst_step. right. apply in_concat in H as (w & Hw & H). apply In_get in Hw as (u & _ & Gu). exists u, Next, w. split; [exact I|]. split; auto. cbn [uinit snd]. rewrite get_map, Gu. reflexivity.
  - exists (fun _ => 0), 1. split; [lia|]. intros u pc todo G. cbn [uinit snd] in G. rewrite get_map in G. destruct (get work u); [|discriminate]. injection G as <- _. exact I.
Qed.
Lemma finv_run E l : forall s s', finv E s -> fresh_run l s -> foldM ustep l s = Some s' -> finv E s'.
Proof.
  induction l as [|t l IH]; intros s s' H F E1; cbn [foldM] in E1; [injection E1 as <-; auto|]. inversion F as [|? ? ? F1 F2]; subst.
  destruct (ustep t s) as [s1|] eqn:Es; [|discriminate]. apply (IH s1); [|apply F2; auto|auto]. apply (finv_step E t s); auto.
Qed.

(** ** The union phase *)
Theorem union_fresh m work sched s : 0 <= m -> (forall w e, In w work -> In e w -> 0 <= fst e < m /\ 0 <= snd e < m) ->
  union_run m work sched = Some s -> all_done s -> fresh_run sched (uinit m work) ->
  forall x y, 0 <= x < m -> 0 <= y < m -> ((exists r, root_of (fst s) x r /\ root_of (fst s) y r) <-> connected (concat work) x y).
Proof.
  intros Hm Hw E Hd F x y Hx Hy. destruct (union_sound m work sched s Hm Hw E) as (_ & Hex & Hsnd). split.
  - intros (r & H1 & H2). eauto.
  - intros Hc. destruct (finv_run (concat work) sched _ s (finv_init m work) F E) as (G & _). apply G in Hc. destruct (Hex x Hx) as (r & Hr & _). exists r. split; auto. apply (root_rst (fst s) x y); auto.
    revert Hc. apply rst_mono. intros a b [L|(u & pc & todo & _ & Gu & H)]; [now apply rst_step|]. apply get_In in Gu. apply Hd in Gu. injection Gu as -> ->. destruct H as [[]|[]].
Qed.

(** ** The whole function *)
Theorem cc_fresh {V} hasv base rows (A : csr V) T us cs sch j work u c :
  rep hasv base (Zlen rows) rows A -> rows_ok (Zlen rows) rows -> 1 <= Zlen rows -> 1 <= T -> junk_ok (Zlen rows) T j ->
  mapM (cc_work A base T) (zrange 0 T) = Some work -> union_run (cm A) work us = Some u -> all_done u -> fresh_run us (uinit (cm A) work) ->
  compress_run (cm A) T (fst u) cs = Some c -> call_done c ->
  exists res, cc_run A T us cs sch j = Some (u, c, res) /\ component_listing (Zlen rows) (connected (edges_of rows)) res.
Proof.
  intros HR Hok Hm HT HJ EW EU DU FU EC DC. destruct (cc_listing hasv base rows A T us cs sch j work u c) as (res & E & _ & Hiff & HL); auto.
  exists res. split; auto. apply listing_ext with (2 := HL). intros x y Hx Hy. rewrite Hiff by auto.
  destruct (cc_work_ok hasv base _ rows A T HR HT) as (work' & EW' & Hcat & Hlw). assert (work' = work) by congruence. subst work'. destruct HR as (H1 & _). rewrite H1 in *. rewrite <- Hcat.
  apply (union_fresh (Zlen rows) work us u); auto; try lia. intros w e Hw He. apply (edges_range _ rows e Hok). rewrite <- Hcat. apply in_concat. eauto.
Qed.


(** ** Worked cases *)
(** Two threads whose turns alternate, on a path of five nodes: each store finds
    current values although the iterations overlap. *)
Definition turns_rows : rows_t Z := [[(4, 0)]; [(3, 0)]; [(3, 0); (4, 0)]; [(1, 0); (2, 0)]; [(0, 0); (2, 0)]].
Definition turns_matrix : csr Z := mkCSR 5 5 [1; 2; 3; 5; 7; 9] [5; 4; 4; 5; 2; 3; 1; 3] None None None None None.
Definition turns_sched (n : nat) : list Z := concat (repeat [0; 1] n).
Definition turns_work : list (list (Z * Z)) := [[(0, 4); (1, 3); (2, 3); (2, 4)]; [(3, 1); (3, 2); (4, 0); (4, 2)]].
Lemma turns_case : rep false 1 5 turns_rows turns_matrix /\ rows_ok 5 turns_rows /\ mapM (cc_work turns_matrix 1 2) (zrange 0 2) = Some turns_work /\
  union_run 5 turns_work (turns_sched 40) = Some ([0; 0; 0; 1; 0], [(Next, []); (Next, [])]) /\ fresh_run (turns_sched 40) (uinit 5 turns_work).
Proof.
  split; [repeat split|]. split.
  { intros r c v Hr Hc. cbn [turns_rows In] in Hr. repeat (destruct Hr as [<-|Hr]; [cbn [In] in Hc; repeat (destruct Hc as [Hc|Hc]; [injection Hc as <- _; lia|]); destruct Hc|]). destruct Hr. }
  split; [vm_compute; reflexivity|]. split; [vm_compute; reflexivity|]. apply (steps_b_ok current_b current current_b_ok). vm_compute. reflexivity.
Qed.

(** That every compare-and-swap succeeds is not enough.  Six nodes, six threads with
    one pair each.  After 5 -> 0, 4 -> 1, 3 -> 2, the thread of (3, 4) has read 2 and
    1; before its store, that of (5, 3) stores 3 -> 0 and that of (4, 3) stores
    4 -> 0.  The store 3 -> 1 then hides that 3 is linked with 0. *)
Definition hidden_work : list (list (Z * Z)) := [[(0, 5)]; [(1, 4)]; [(2, 3)]; [(3, 4)]; [(4, 3)]; [(5, 3)]].
Definition hidden_sched : list Z := repeat 0 6 ++ repeat 1 6 ++ repeat 2 6 ++ repeat 3 5 ++ repeat 5 6 ++ repeat 4 6 ++ [3] ++ repeat 5 3 ++ repeat 4 2 ++ repeat 3 2.
Lemma hidden_run : union_run 6 hidden_work hidden_sched = Some ([0; 1; 0; 1; 0; 0], repeat (Next, []) 6).
Proof. vm_compute. reflexivity. Qed.
Lemma hidden_edge x y : In (x, y) (concat hidden_work) -> connected (concat hidden_work) x y.
Proof. intros H. now apply rst_step. Qed.
Theorem hidden_link : exists s, union_run 6 hidden_work hidden_sched = Some s /\ all_done s /\ steps_ok cas_wins hidden_sched (uinit 6 hidden_work) /\
  connected (concat hidden_work) 0 1 /\ root_of (fst s) 0 0 /\ root_of (fst s) 1 1.
Proof.
  eexists. split; [exact hidden_run|]. split. { intros th H. cbn [snd] in H. now apply repeat_spec in H. }
  split. { apply (steps_b_ok cas_wins_b cas_wins cas_wins_b_ok). vm_compute. reflexivity. }
  split. { apply rst_trans with 5; [apply hidden_edge; vm_compute; auto|]. apply rst_trans with 3; [apply hidden_edge; vm_compute; auto 7|]. apply rst_trans with 4; [apply hidden_edge; vm_compute; auto|]. apply rst_sym, hidden_edge. vm_compute. auto. }
  split; constructor; reflexivity.
Qed.
