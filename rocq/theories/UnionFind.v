(** * Concurrent union-find (/repo/reordering/ConnectedComponents.cpp:150-196).

    Small-step model of the union loop and of the path compression.  The array
    [p] is shared and [volatile]; every load, store and compare-and-swap of it
    is one atomic step, threads interleave arbitrarily (sequential consistency).
    Both template variants with BASE 0 and 1 give the same lists of pairs (xx, y)
    with [y = A->colidx[j] - BASE], so a thread is the list of its pairs. *)
From Coq Require Import Relations.
From Verif Require Import Base Spec Interleave.

(** Program points of one thread; line numbers of ConnectedComponents.cpp. *)
Inductive upc :=
| Next                        (* 151-155: take the next pair (xx, y) *)
| Chk1 (x y : Z)              (* 156: load p[xx] *)
| Chk2 (x y a : Z)            (* 156: load p[y], compare *)
| RdX (rx ry : Z)             (* 160: load p[r_x] *)
| RdY (rx ry a : Z)           (* 160-168: load p[r_y], compare, exchange *)
| Cas (rx ry px py : Z)       (* 170: compare-and-swap of p[r_x] *)
| Sto (rx ry px py : Z).      (* 173-174: p[r_x] = p_r_y; r_x = p_r_x *)

(** One atomic step of a thread.  [None] is an access outside [p].  A thread
    without work left stays where it is. *)
Definition ustep1 (p : list Z) (th : upc * list (Z * Z)) : option (list Z * (upc * list (Z * Z))) :=
  let (pc, todo) := th in
  match pc with
  | Next => match todo with
            | [] => Some (p, (Next, []))
            | (x, y) :: r => Some (p, (Chk1 x y, r))
            end
  | Chk1 x y => a <- get p x ;; Some (p, (Chk2 x y a, todo))
  | Chk2 x y a => b <- get p y ;;
      Some (p, (if a =? b then Next else RdX x y, todo))
  | RdX rx ry => a <- get p rx ;; Some (p, (RdY rx ry a, todo))
  | RdY rx ry a => b <- get p ry ;;
      if a =? b then Some (p, (Next, todo))
      else
        let r_x := if a >? b then rx else ry in
        let r_y := if a >? b then ry else rx in
        let p_r_x := if a >? b then a else b in
        let p_r_y := if a >? b then b else a in
        Some (p, ((if p_r_x =? r_x then Cas r_x r_y p_r_x p_r_y else Sto r_x r_y p_r_x p_r_y), todo))
  | Cas rx ry px py => v <- get p rx ;;
      if v =? rx then p' <- set p rx py ;; Some (p', (Next, todo))
      else Some (p, (Sto rx ry px py, todo))
  | Sto rx ry px py => p' <- set p rx py ;; Some (p', (RdX px ry, todo))
  end.

Definition ustate : Type := list Z * list (upc * list (Z * Z)).

(** Thread [t] makes a step. *)
Definition ustep (t : Z) (s : ustate) : option ustate :=
  let (p, ths) := s in
  th <- get ths t ;;
  ' (p', th') <- ustep1 p th ;;
  ths' <- set ths t th' ;;
  Some (p', ths').

(** Lines 132-135 (p[ii] = ii), barrier, all threads at the start of their
    lists. *)
Definition uinit (m : Z) (work : list (list (Z * Z))) : ustate :=
  (zrange 0 m, map (fun w => (Next, w)) work).

(** The execution in which the threads step in the order [sched]. *)
Definition union_run (m : Z) (work : list (list (Z * Z))) (sched : list Z) : option ustate :=
  foldM ustep sched (uinit m work).

Definition all_done (s : ustate) : Prop := forall th, In th (snd s) -> th = (Next, []).

(** ** Specification: connectivity *)

(** [x] and [y] are joined by a path of edges of [E], in any direction. *)
Definition connected (E : list (Z * Z)) : Z -> Z -> Prop :=
  clos_refl_sym_trans Z (fun x y => In (x, y) E).

(** Representative of [x] in the forest [p]: follow links up to a fixed point. *)
Inductive root_of (p : list Z) : Z -> Z -> Prop :=
| root_here : forall x, get p x = Some x -> root_of p x x
| root_up : forall x y r, get p x = Some y -> y <> x -> root_of p y r -> root_of p x r.

(** ** Invariant of all executions *)

Section Sound.
Variable m : Z.
Variable E : list (Z * Z).
Notation conn := (connected E).

Definition in_range (x : Z) := 0 <= x < m.

Definition pair_ok (e : Z * Z) := In e E /\ in_range (fst e) /\ in_range (snd e).

Definition pc_ok (pc : upc) : Prop :=
  match pc with
  | Next => True
  | Chk1 x y => in_range x /\ in_range y /\ conn x y
  | Chk2 x y a => in_range x /\ in_range y /\ conn x y
  | RdX rx ry => in_range rx /\ in_range ry /\ conn rx ry
  | RdY rx ry a => in_range rx /\ in_range ry /\ conn rx ry /\ 0 <= a <= rx /\ conn rx a
  | Cas rx ry px py | Sto rx ry px py =>
      in_range rx /\ in_range ry /\ conn rx ry /\
      0 <= py < px /\ px <= rx /\ conn rx px /\ conn ry py
  end.

Definition forest (p : list Z) : Prop :=
  Zlen p = m /\ forall x, in_range x -> exists y, get p x = Some y /\ 0 <= y <= x /\ conn x y.

Definition uinv (s : ustate) : Prop :=
  forest (fst s) /\
  forall pc todo, In (pc, todo) (snd s) -> pc_ok pc /\ Forall pair_ok todo.

Lemma conn_sym x y : conn x y -> conn y x.
Proof. apply rst_sym. Qed.
Lemma conn_trans x y z : conn x y -> conn y z -> conn x z.
Proof. apply rst_trans. Qed.
Lemma conn_refl x : conn x x.
Proof. apply rst_refl. Qed.

Lemma forest_set p p' x v :
  forest p -> set p x v = Some p' -> 0 <= v <= x -> conn x v -> forest p'.
Proof.
  intros [Hl Hf] Es Hv Hc. split; [now rewrite (set_len _ _ _ _ Es)|].
  intros y Hy. rewrite (get_set _ _ _ _ _ Es). destruct (Z.eqb_spec y x) as [->|].
  - exists v. auto.
  - apply Hf; auto.
Qed.

(** One step of one thread never goes wrong and keeps the invariant. *)
Lemma ustep1_inv p pc todo :
  forest p -> pc_ok pc -> Forall pair_ok todo ->
  exists p' pc' todo', ustep1 p (pc, todo) = Some (p', (pc', todo')) /\
    forest p' /\ pc_ok pc' /\ Forall pair_ok todo'.
Proof.
  intros Hf Hpc Htodo. pose proof Hf as [Hl Hg].
  destruct pc as [|x y|x y a|rx ry|rx ry a|rx ry px py|rx ry px py]; cbn [ustep1 pc_ok] in *.
  - destruct todo as [|[x y] r].
    + exists p, Next, []. auto.
    + inversion Htodo as [|e l [He [Hx Hy]] Hr]; subst. cbn in Hx, Hy.
      exists p, (Chk1 x y), r. cbn. split; auto. split; auto. split; auto.
      split; auto. split; auto. now apply rst_step.
  - destruct Hpc as (Hx & Hy & Hc). destruct (Hg x Hx) as (a & Ea & _). rewrite Ea.
    exists p, (Chk2 x y a), todo. cbn. auto 12.
  - destruct Hpc as (Hx & Hy & Hc). destruct (Hg y Hy) as (b & Eb & _). rewrite Eb.
    exists p, (if a =? b then Next else RdX x y), todo. split; auto. split; auto. split; auto.
    destruct (a =? b); cbn; auto.
  - destruct Hpc as (Hx & Hy & Hc). destruct (Hg rx Hx) as (a & Ea & Ha & Hca). rewrite Ea.
    exists p, (RdY rx ry a), todo. cbn. auto 10.
  - destruct Hpc as (Hx & Hy & Hc & Ha & Hca). destruct (Hg ry Hy) as (b & Eb & Hb & Hcb). rewrite Eb.
    destruct (Z.eqb_spec a b) as [->|Hne].
    + exists p, Next, todo. cbn. auto 12.
    + eexists _, _, _. split; [reflexivity|]. split; [auto|]. split; auto.
      unfold in_range in *.
      destruct (Z.gtb_spec a b); [destruct (Z.eqb_spec a rx)|destruct (Z.eqb_spec b ry)];
        cbn; repeat split; auto; try lia; try (now apply conn_sym).
  - destruct Hpc as (Hx & Hy & Hc & H1 & H2 & H3 & H4).
    destruct (Hg rx Hx) as (v & Ev & _). rewrite Ev.
    destruct (Z.eqb_spec v rx).
    + destruct (set_ok p rx py) as (p' & Es); [unfold in_range in *; lia|]. rewrite Es.
      exists p', Next, todo. split; auto. split; [|cbn; auto].
      apply (forest_set p p' rx py); auto; try lia. apply conn_trans with ry; auto.
    + exists p, (Sto rx ry px py), todo. cbn. auto 10.
  - destruct Hpc as (Hx & Hy & Hc & H1 & H2 & H3 & H4).
    destruct (set_ok p rx py) as (p' & Es); [unfold in_range in *; lia|]. rewrite Es.
    exists p', (RdX px ry), todo. unfold in_range in *.
    split; auto. split; [apply (forest_set p p' rx py); auto; try lia; apply conn_trans with ry; auto|].
    split; auto. cbn. repeat split; try lia.
    apply conn_trans with rx; auto. now apply conn_sym.
Qed.

Lemma ustep_inv t s : uinv s -> 0 <= t < Zlen (snd s) -> exists s', ustep t s = Some s' /\ uinv s' /\
  Zlen (snd s') = Zlen (snd s).
Proof.
  destruct s as [p ths]. intros [Hf Hth] Ht. cbn in *.
  destruct (get_in_range ths t Ht) as ([pc todo] & Et). rewrite Et.
  destruct (Hth pc todo (get_In _ _ _ Et)) as [Hpc Htodo].
  destruct (ustep1_inv p pc todo Hf Hpc Htodo) as (p' & pc' & todo' & E1 & Hf' & Hpc' & Htodo').
  rewrite E1. destruct (set_ok ths t (pc', todo') Ht) as (ths' & Es). rewrite Es.
  exists (p', ths'). split; auto. split; [|cbn; now rewrite (set_len _ _ _ _ Es)].
  split; auto. cbn. intros pc0 todo0 Hin.
  apply In_get in Hin as (i & Hi & Ei). rewrite (get_set _ _ _ _ _ Es) in Ei.
  destruct (i =? t).
  - injection Ei as <- <-. auto.
  - apply Hth. now apply (get_In _ i).
Qed.
End Sound.


Lemma uinit_inv m work :
  0 <= m ->
  (forall w e, In w work -> In e w -> 0 <= fst e < m /\ 0 <= snd e < m) ->
  uinv m (concat work) (uinit m work).
Proof.
  intros Hm H. split; cbn.
  - split; [rewrite Zlen_zrange; lia|].
    intros x Hx. unfold in_range in Hx. exists x. rewrite get_zrange by lia.
    split; [auto|]. split; [lia|apply conn_refl].
  - intros pc todo Hin. apply in_map_iff in Hin as (w & Ew & Hw). injection Ew as <- <-.
    split; [exact I|]. apply Forall_forall. intros e He. split; [|apply (H w); auto].
    apply in_concat. eauto.
Qed.

Lemma urun_inv m E sched s s' :
  uinv m E s -> foldM ustep sched s = Some s' -> uinv m E s'.
Proof.
  intros HI. apply foldM_inv; auto. intros t s1 s2 _ H1 E1.
  destruct (ustep_inv m E t s1 H1) as (s3 & E3 & H3 & _); [|congruence].
  destruct s1 as [p ths]. cbn in *. destruct (get ths t) eqn:Eg; [|discriminate].
  now apply get_Some_bounds in Eg.
Qed.

(** No execution accesses [p] out of bounds. *)
Lemma union_no_ub m work sched :
  0 <= m ->
  (forall w e, In w work -> In e w -> 0 <= fst e < m /\ 0 <= snd e < m) ->
  (forall t, In t sched -> 0 <= t < Zlen work) ->
  exists s, union_run m work sched = Some s.
Proof.
  intros Hm Hw Ht. unfold union_run.
  assert (forall s, uinv m (concat work) s -> Zlen (snd s) = Zlen work ->
    exists s', foldM ustep sched s = Some s') as G.
  { induction sched as [|t sched IH]; intros s HI Hl; cbn [foldM]; eauto.
    destruct (ustep_inv m (concat work) t s HI) as (s1 & E1 & H1 & L1).
    - rewrite Hl. apply Ht. cbn; auto.
    - rewrite E1. apply IH; auto.
      + intros; apply Ht; cbn; auto.
      + lia. }
  apply G.
  - now apply uinit_inv.
  - cbn. apply Zlen_map.
Qed.

(** Representatives exist, are unique, and are connected to their nodes. *)
Lemma root_of_fun p x r r' : root_of p x r -> root_of p x r' -> r = r'.
Proof.
  intros H. revert r'. induction H as [x Hx|x y r Hx Hne Hr IH]; intros r' H'.
  - inversion H'; subst; congruence.
  - inversion H' as [? Hx'|? y' ? Hx' Hne' Hr']; subst; [congruence|].
    apply IH. congruence.
Qed.

Lemma root_of_root p x r : root_of p x r -> get p r = Some r.
Proof. induction 1; auto. Qed.

Lemma root_exists m E p x :
  forest m E p -> 0 <= x < m -> exists r, root_of p x r /\ 0 <= r <= x /\ connected E x r.
Proof.
  intros [Hl Hf]. intros Hx. assert (0 <= x) as H0 by lia. revert Hx.
  pattern x. apply Zlt_0_ind; [|exact H0]. clear x H0. intros x IH H0 Hx.
  destruct (Hf x Hx) as (y & Ey & Hy & Hc).
  destruct (Z.eq_dec y x) as [->|Hne].
  - exists x. split; [now constructor|]. split; [lia|apply conn_refl].
  - destruct (IH y) as (r & Hr & Hr1 & Hr2); try lia.
    exists r. split; [econstructor 2; eauto|]. split; [lia|].
    apply conn_trans with y; auto.
Qed.

(** ** Soundness: in every execution with any number of threads, nodes with the
    same representative are connected, and the representative of a node is a
    connected node that is not larger. *)
Theorem union_sound m work sched s :
  0 <= m ->
  (forall w e, In w work -> In e w -> 0 <= fst e < m /\ 0 <= snd e < m) ->
  union_run m work sched = Some s ->
  Zlen (fst s) = m /\
  (forall x, 0 <= x < m -> exists r, root_of (fst s) x r /\ 0 <= r <= x /\
      connected (concat work) x r) /\
  (forall x y r, 0 <= x < m -> 0 <= y < m ->
      root_of (fst s) x r -> root_of (fst s) y r -> connected (concat work) x y).
Proof.
  intros Hm Hw E. pose proof (urun_inv m (concat work) sched _ _ (uinit_inv m work Hm Hw) E) as [Hf _].
  split; [apply Hf|]. split.
  - intros x Hx. now apply (root_exists m).
  - intros x y r Hx Hy H1 H2.
    destruct (root_exists m _ _ x Hf Hx) as (r1 & R1 & _ & C1).
    destruct (root_exists m _ _ y Hf Hy) as (r2 & R2 & _ & C2).
    rewrite (root_of_fun _ _ _ _ R1 H1) in C1. rewrite (root_of_fun _ _ _ _ R2 H2) in C2.
    apply conn_trans with r; auto. now apply conn_sym.
Qed.

(** ** One thread: exact *)

Definition links (p : list Z) (x y : Z) : Prop := get p x = Some y.

Definition pend (pc : upc) (x y : Z) : Prop :=
  match pc with
  | Next => False
  | Chk1 a b | Chk2 a b _ | RdX a b | RdY a b _ | Cas a b _ _ | Sto a b _ _ => x = a /\ y = b
  end.

Definition facts (p : list Z) (pc : upc) : Prop :=
  match pc with
  | Chk2 x y a => get p x = Some a
  | RdY rx ry a => get p rx = Some a
  | Cas rx ry px py => get p rx = Some px /\ get p ry = Some py /\ py < px /\ px = rx
  | Sto rx ry px py => get p rx = Some px /\ get p ry = Some py /\ py < px
  | _ => True
  end.

Definition gen (p : list Z) (pc : upc) (todo : list (Z * Z)) (x y : Z) : Prop :=
  links p x y \/ pend pc x y \/ In (x, y) todo.

Lemma rst_mono (R R' : Z -> Z -> Prop) :
  (forall x y, R x y -> clos_refl_sym_trans Z R' x y) ->
  forall x y, clos_refl_sym_trans Z R x y -> clos_refl_sym_trans Z R' x y.
Proof.
  intros H x y Hxy. induction Hxy.
  - auto.
  - apply rst_refl.
  - now apply rst_sym.
  - eapply rst_trans; eauto.
Qed.

Lemma ustep1_seq p pc todo p' pc' todo' :
  facts p pc -> ustep1 p (pc, todo) = Some (p', (pc', todo')) ->
  facts p' pc' /\
  forall x y, gen p pc todo x y -> clos_refl_sym_trans Z (gen p' pc' todo') x y.
Proof.
  intros Hfa E.
  destruct pc as [|x y|x y a|rx ry|rx ry a|rx ry px py|rx ry px py]; cbn [ustep1 facts] in *.
  - destruct todo as [|[x y] r]; injection E as <- <- <-; (split; [exact I|]).
    + intros u v H. now apply rst_step.
    + intros u v [H|[H|H]]; apply rst_step; unfold gen; cbn in *; try tauto.
      destruct H as [H|H]; [injection H as <- <-|]; tauto.
  - destruct (get p x) as [a|] eqn:Ea; [|discriminate]. injection E as <- <- <-.
    split; [exact Ea|]. intros u v H. apply rst_step. exact H.
  - destruct (get p y) as [b|] eqn:Eb; [|discriminate]. injection E as <- <- <-.
    destruct (Z.eqb_spec a b) as [->|]; (split; [exact I|]).
    + intros u v [H|[[-> ->]|H]].
      * apply rst_step. left; auto.
      * apply rst_trans with b; [apply rst_step; left; auto|].
        apply rst_sym, rst_step. left; auto.
      * apply rst_step. right; right; auto.
    + intros u v H. apply rst_step. exact H.
  - destruct (get p rx) as [a|] eqn:Ea; [|discriminate]. injection E as <- <- <-.
    split; [exact Ea|]. intros u v H. apply rst_step. exact H.
  - destruct (get p ry) as [b|] eqn:Eb; [|discriminate].
    destruct (Z.eqb_spec a b) as [->|].
    + injection E as <- <- <-. split; [exact I|]. intros u v [H|[[-> ->]|H]].
      * apply rst_step. left; auto.
      * apply rst_trans with b; [apply rst_step; left; auto|].
        apply rst_sym, rst_step. left; auto.
      * apply rst_step. right; right; auto.
    + destruct (Z.gtb_spec a b);
       [destruct (Z.eqb_spec a rx)|destruct (Z.eqb_spec b ry)]; injection E as <- <- <-;
       (split; [cbn; repeat split; auto; lia|]);
       intros u v [H'|[[-> ->]|H']]; try (apply rst_step; left; exact H');
       try (apply rst_step; right; right; exact H');
       try (apply rst_step; right; left; cbn; auto; fail);
       apply rst_sym, rst_step; right; left; cbn; auto.
  - destruct Hfa as (F1 & F2 & F3 & ->). rewrite F1, Z.eqb_refl in E.
    destruct (set p rx py) as [q|] eqn:Es; [|discriminate]. injection E as <- <- <-.
    split; [exact I|].
    assert (rx <> ry) as Hne by (intros <-; rewrite F1 in F2; injection F2; lia).
    assert (clos_refl_sym_trans Z (gen q Next todo) rx ry) as Hrr.
    { apply rst_trans with py.
      - apply rst_step. left. apply (get_set_same _ _ _ _ Es).
      - apply rst_sym, rst_step. left. unfold links. rewrite (get_set_other _ _ _ _ _ Es); auto. }
    intros u v [H|[[-> ->]|H]]; auto.
    + destruct (Z.eq_dec u rx) as [->|].
      * unfold links in H. rewrite F1 in H. injection H as <-. apply rst_refl.
      * apply rst_step. left. unfold links. rewrite (get_set_other _ _ _ _ _ Es); auto.
    + apply rst_step. right; right; auto.
  - destruct Hfa as (F1 & F2 & F3).
    destruct (set p rx py) as [q|] eqn:Es; [|discriminate]. injection E as <- <- <-.
    split; [exact I|].
    assert (rx <> ry) as Hne by (intros <-; rewrite F1 in F2; injection F2; lia).
    set (G := gen q (RdX px ry) todo).
    assert (clos_refl_sym_trans Z G rx ry) as Hrr.
    { apply rst_trans with py.
      - apply rst_step. left. apply (get_set_same _ _ _ _ Es).
      - apply rst_sym, rst_step. left. unfold links. rewrite (get_set_other _ _ _ _ _ Es); auto. }
    intros u v [H|[[-> ->]|H]]; auto.
    + destruct (Z.eq_dec u rx) as [->|].
      * unfold links in H. rewrite F1 in H. injection H as <-.
        apply rst_trans with ry; auto. apply rst_sym, rst_step. right; left. cbn; auto.
      * apply rst_step. left. unfold links. rewrite (get_set_other _ _ _ _ _ Es); auto.
    + apply rst_step. right; right; auto.
Qed.

Lemma root_links p x y r : links p x y -> root_of p x r -> root_of p y r.
Proof.
  unfold links. intros H Hr. inversion Hr as [? Hx|? z ? Hx Hne Hz]; subst.
  - rewrite H in Hx. injection Hx as ->. auto.
  - rewrite H in Hx. injection Hx as ->. auto.
Qed.

Lemma root_links' p x y r : links p x y -> root_of p y r -> root_of p x r.
Proof.
  unfold links. intros H Hr. destruct (Z.eq_dec y x) as [->|Hne]; auto.
  econstructor 2; eauto.
Qed.

Lemma root_rst p x y : clos_refl_sym_trans Z (links p) x y ->
  forall r, root_of p x r <-> root_of p y r.
Proof.
  induction 1 as [x y H| |x y H IH|x y z H1 IH1 H2 IH2]; intros r.
  - split; [apply root_links|apply root_links']; auto.
  - tauto.
  - now rewrite IH.
  - now rewrite IH1.
Qed.

Theorem union_one_thread m edges sched s :
  0 <= m ->
  (forall e, In e edges -> 0 <= fst e < m /\ 0 <= snd e < m) ->
  union_run m [edges] sched = Some s -> all_done s ->
  forall x y, 0 <= x < m -> 0 <= y < m ->
    ((exists r, root_of (fst s) x r /\ root_of (fst s) y r) <-> connected edges x y).
Proof.
  intros Hm He E Hd x y Hx Hy.
  assert (forall w e, In w [edges] -> In e w -> 0 <= fst e < m /\ 0 <= snd e < m) as Hw.
  { intros w e [<-|[]]; auto. }
  destruct (union_sound m [edges] sched s Hm Hw E) as (_ & Hex & Hsnd).
  cbn [concat] in *. rewrite app_nil_r in *.
  split.
  - intros (r & H1 & H2). eauto.
  - intros Hc.
    assert (exists pc todo, snd s = [(pc, todo)] /\ facts (fst s) pc /\
      forall u v, connected edges u v -> clos_refl_sym_trans Z (gen (fst s) pc todo) u v)
      as (pc & todo & Es & _ & Hg).
    { unfold union_run in E. revert E.
      apply (foldM_inv (fun s => exists pc todo, snd s = [(pc, todo)] /\ facts (fst s) pc /\
        forall u v, connected edges u v -> clos_refl_sym_trans Z (gen (fst s) pc todo) u v)).
      - clear. intros t [p ths] [p' ths'] _ (pc & todo & Es & Hfa & Hg) E1. cbn [snd fst] in *.
        subst ths. cbn [ustep] in E1.
        destruct (get [(pc, todo)] t) as [th|] eqn:Et; [|discriminate].
        assert (t = 0) by (apply get_Some_bounds in Et; unfold Zlen in Et; cbn in Et; lia).
        subst t. rewrite get_cons_0 in Et. injection Et as <-.
        destruct (ustep1 p (pc, todo)) as [[p1 [pc1 todo1]]|] eqn:E2; [|discriminate].
        destruct (set [(pc, todo)] 0 (pc1, todo1)) as [l|] eqn:E3; [|discriminate].
        injection E1 as <- <-. vm_compute in E3. injection E3 as <-.
        destruct (ustep1_seq _ _ _ _ _ _ Hfa E2) as [Hfa' Hg'].
        exists pc1, todo1. split; auto. split; auto.
        intros u v Huv. eapply rst_mono; [exact Hg'|]. auto.
      - exists Next, edges. split; [reflexivity|]. split; [exact I|].
        intros u v. apply rst_mono. intros a b Hab. apply rst_step. right; right; auto. }
    assert ((pc, todo) = (Next, [])) as Ed by (apply Hd; rewrite Es; cbn; auto).
    injection Ed as -> ->.
    destruct (Hex x Hx) as (r & Hr & _). exists r. split; auto.
    apply (root_rst (fst s) x y); auto.
    eapply rst_mono; [|exact (Hg x y Hc)].
    intros u v [H|[H|H]]; [now apply rst_step|destruct H|destruct H].
Qed.

(** ** Termination: every execution makes at most (16m+20) steps per pair. *)

Definition b2z (b : bool) : Z := if b then 1 else 0.
Definition isroot (p : list Z) (x : Z) : Z :=
  match get p x with Some v => b2z (v =? x) | None => 0 end.

Definition pot (m : Z) (p : list Z) (pc : upc) : Z :=
  match pc with
  | Next => 0
  | Chk1 x y => 16 * m + 14
  | Chk2 x y _ => 16 * m + 13
  | RdX rx ry => 4 * (2 * (rx + ry) + isroot p rx + isroot p ry) + 4
  | RdY rx ry a => 4 * (2 * (rx + ry) + b2z (a =? rx) + isroot p ry) + 3
  | Cas rx ry px py => 4 * (2 * (rx + ry) + 1 + isroot p ry) + 2
  | Sto rx ry px py => 4 * (2 * (px + ry) + isroot p px + isroot p ry) + 5
  end.

(** What a thread knows about nodes that are no longer roots. *)
Definition stale (p : list Z) (pc : upc) : Prop :=
  match pc with
  | RdY rx ry a => a <> rx -> isroot p rx = 0
  | Cas rx ry px py => px = rx
  | Sto rx ry px py => isroot p rx = 0
  | _ => True
  end.

Lemma isroot_bounds p x : 0 <= isroot p x <= 1.
Proof. unfold isroot, b2z. destruct (get p x) as [v|]; [destruct (v =? x)|]; lia. Qed.

Lemma isroot_set p p' x v y :
  set p x v = Some p' -> v < x -> isroot p' y <= isroot p y.
Proof.
  intros Es Hv. unfold isroot at 1. rewrite (get_set _ _ _ _ _ Es).
  destruct (Z.eqb_spec y x) as [->|].
  - replace (v =? x) with false by lia. pose proof (isroot_bounds p x). cbn. lia.
  - fold (isroot p y). lia.
Qed.

Lemma isroot_set_same p p' x v : set p x v = Some p' -> v < x -> isroot p' x = 0.
Proof.
  intros Es Hv. unfold isroot. rewrite (get_set_same _ _ _ _ Es).
  replace (v =? x) with false by lia. auto.
Qed.

Lemma isroot_get p x v : get p x = Some v -> isroot p x = b2z (v =? x).
Proof. unfold isroot. now intros ->. Qed.

Definition shrinks (p p' : list Z) : Prop := forall y, isroot p' y <= isroot p y.

Lemma pot_shrinks m p p' pc : shrinks p p' -> pot m p' pc <= pot m p pc.
Proof.
  intros H. destruct pc; cbn [pot]; try lia;
    repeat match goal with |- context [isroot p' ?x] =>
      pose proof (H x); generalize dependent (isroot p' x); intros end; lia.
Qed.

Lemma stale_shrinks p p' pc : shrinks p p' -> stale p pc -> stale p' pc.
Proof.
  intros H. destruct pc; cbn [stale]; auto.
  - intros Hs Hne. pose proof (H rx). pose proof (isroot_bounds p' rx). specialize (Hs Hne). lia.
  - intros Hs. pose proof (H rx). pose proof (isroot_bounds p' rx). lia.
Qed.

Lemma ustep1_pot m E p pc todo p' pc' todo' :
  0 <= m -> forest m E p -> pc_ok m E pc -> Forall (pair_ok m E) todo -> stale p pc ->
  (pc, todo) <> (Next, []) ->
  ustep1 p (pc, todo) = Some (p', (pc', todo')) ->
  shrinks p p' /\ stale p' pc' /\
  pot m p' pc' + (16 * m + 20) * Zlen todo' + 1 <= pot m p pc + (16 * m + 20) * Zlen todo.
Proof.
  intros Hm [Hl Hf] Hpc Htodo Hst Hne Es.
  assert (shrinks p p) as Hrefl by (intros y; lia).
  destruct pc as [|x y|x y a|rx ry|rx ry a|rx ry px py|rx ry px py]; cbn [ustep1 stale pc_ok] in *.
  - destruct todo as [|[x y] r]; [contradiction|]. injection Es as <- <- <-.
    split; auto. split; [exact I|]. cbn [pot]. rewrite Zlen_cons. lia.
  - destruct (get p x) as [a|]; [|discriminate]. injection Es as <- <- <-.
    split; auto. split; [exact I|]. cbn [pot]. lia.
  - destruct (get p y) as [b|]; [|discriminate]. injection Es as <- <- <-.
    split; auto. unfold in_range in *.
    destruct (a =? b); (split; [exact I|]); cbn [pot]; try lia.
    pose proof (isroot_bounds p x). pose proof (isroot_bounds p y). lia.
  - destruct (get p rx) as [a|] eqn:Ea; [|discriminate]. injection Es as <- <- <-.
    split; auto. cbn [stale pot]. rewrite (isroot_get _ _ _ Ea).
    split; [|lia]. intros H. replace (a =? rx) with false by lia. auto.
  - destruct (get p ry) as [b|] eqn:Eb; [|discriminate]. unfold in_range in *.
    destruct Hpc as (Hx & Hy & Hc & Ha & Hca).
    destruct (Hf ry Hy) as (b' & Eb' & Hb & _). assert (b' = b) by congruence. subst b'.
    pose proof (isroot_get _ _ _ Eb) as Rb.
    destruct (Z.eqb_spec a b) as [->|Hab].
    + injection Es as <- <- <-. split; auto. split; [exact I|]. cbn [pot].
      pose proof (isroot_bounds p ry). unfold b2z. destruct (b =? rx); lia.
    + assert (isroot p rx <= b2z (a =? rx)) as Hrx.
      { pose proof (isroot_bounds p rx). destruct (Z.eqb_spec a rx); cbn; [lia|]. rewrite Hst; auto; lia. }
      pose proof (isroot_bounds p a). pose proof (isroot_bounds p b).
      pose proof (isroot_bounds p rx). pose proof (isroot_bounds p ry).
      destruct (Z.gtb_spec a b).
      * destruct (Z.eqb_spec a rx); injection Es as <- <- <-; (split; [auto|]); cbn [stale pot].
        -- subst a. rewrite Z.eqb_refl. cbn [b2z]. split; auto. lia.
        -- split; [apply Hst; auto|]. replace (a =? rx) with false by lia. cbn [b2z]. lia.
      * destruct (Z.eqb_spec b ry); injection Es as <- <- <-; (split; [auto|]); cbn [stale pot].
        -- split; auto. cbn [b2z] in Rb. lia.
        -- cbn [b2z] in Rb. split; auto. lia.
  - destruct Hpc as (Hx & Hy & Hc & H1 & H2 & H3 & H4). subst px.
    destruct (get p rx) as [v|] eqn:Ev; [|discriminate]. unfold in_range in *.
    pose proof (isroot_bounds p rx). pose proof (isroot_bounds p ry).
    destruct (Z.eqb_spec v rx) as [->|Hv].
    + destruct (set p rx py) as [q|] eqn:Eq; [|discriminate]. injection Es as <- <- <-.
      split; [intros y; apply (isroot_set _ _ _ _ _ Eq); lia|]. split; [exact I|]. cbn [pot]. lia.
    + injection Es as <- <- <-. split; auto. cbn [stale pot].
      rewrite (isroot_get _ _ _ Ev). replace (v =? rx) with false by lia. cbn [b2z]. split; auto. lia.
  - destruct Hpc as (Hx & Hy & Hc & H1 & H2 & H3 & H4).
    destruct (set p rx py) as [q|] eqn:Eq; [|discriminate]. injection Es as <- <- <-.
    assert (shrinks p q) as Hsh by (intros y; apply (isroot_set _ _ _ _ _ Eq); lia).
    split; auto. split; [exact I|]. cbn [pot]. pose proof (Hsh px). pose proof (Hsh ry). lia.
Qed.

Definition tpot (m : Z) (p : list Z) (th : upc * list (Z * Z)) : Z :=
  pot m p (fst th) + (16 * m + 20) * Zlen (snd th).

Definition spot (m : Z) (s : ustate) : Z := zsum (map (tpot m (fst s)) (snd s)).

(** Thread [t] is not finished in [s]. *)
Definition busy (t : Z) (s : ustate) : Prop := get (snd s) t <> Some (Next, []).

(** Executions that only schedule unfinished threads. *)
Inductive busy_run : list Z -> ustate -> ustate -> Prop :=
| br_nil : forall s, busy_run [] s s
| br_cons : forall t l s s1 s2, busy t s -> ustep t s = Some s1 -> busy_run l s1 s2 ->
    busy_run (t :: l) s s2.

Lemma zsum_upd l k v : (k < length l)%nat ->
  zsum (upd l k v) = zsum l - nth k l 0 + v.
Proof.
  revert k. induction l as [|a l IH]; intros k Hk; cbn [length] in Hk; [lia|].
  destruct k; cbn [upd nth].
  - unfold zsum. cbn. lia.
  - assert (forall a l, zsum (a :: l) = a + zsum l) as Z1 by reflexivity.
    rewrite !Z1, IH by lia. lia.
Qed.

Lemma upd_map {X Y} (f : X -> Y) l k v : map f (upd l k v) = upd (map f l) k (f v).
Proof. revert k. induction l as [|a l IH]; intros [|k]; cbn; auto. now rewrite IH. Qed.

Lemma zsum_le {X} (f g : X -> Z) l : (forall x, In x l -> f x <= g x) -> zsum (map f l) <= zsum (map g l).
Proof.
  induction l as [|a l IH]; intros H; cbn [map]; [lia|].
  assert (forall a l, zsum (a :: l) = a + zsum l) as Z1 by reflexivity.
  rewrite !Z1. specialize (IH ltac:(intros; apply H; cbn; auto)).
  specialize (H a (or_introl eq_refl)). lia.
Qed.

Definition tinv (m : Z) (E : list (Z * Z)) (s : ustate) : Prop :=
  uinv m E s /\ forall pc todo, In (pc, todo) (snd s) -> stale (fst s) pc.

Lemma ustep_pot m E t s s' :
  0 <= m -> tinv m E s -> busy t s -> ustep t s = Some s' ->
  tinv m E s' /\ spot m s' + 1 <= spot m s.
Proof.
  intros Hm [HI Hst] Hb Es. pose proof HI as [Hf Hth].
  destruct s as [p ths]. cbn [fst snd] in *. cbn [ustep] in Es.
  destruct (get ths t) as [[pc todo]|] eqn:Et; [|discriminate].
  destruct (ustep1 p (pc, todo)) as [[p' [pc' todo']]|] eqn:E1; [|discriminate].
  destruct (set ths t (pc', todo')) as [ths'|] eqn:E2; [|discriminate].
  injection Es as <-.
  pose proof (get_In _ _ _ Et) as Hin. destruct (Hth _ _ Hin) as [Hpc Htodo].
  assert ((pc, todo) <> (Next, [])) as Hne.
  { intros Eq. apply Hb. cbn [snd]. rewrite Et. now rewrite Eq. }
  destruct (ustep1_pot m E p pc todo p' pc' todo' Hm Hf Hpc Htodo (Hst _ _ Hin) Hne E1)
    as (Hsh & Hst' & Hpot).
  split.
  - split.
    + destruct (ustep_inv m E t (p, ths) HI) as (s3 & E3 & H3 & _).
      * cbn. now apply get_Some_bounds in Et.
      * cbn [ustep] in E3. rewrite Et, E1, E2 in E3. injection E3 as <-. auto.
    + cbn [fst snd]. intros pc0 todo0 H0. apply In_get in H0 as (i & Hi & Ei).
      rewrite (get_set _ _ _ _ _ E2) in Ei. destruct (i =? t).
      * injection Ei as <- <-. auto.
      * apply (stale_shrinks p); auto. apply (Hst _ todo0). now apply (get_In _ i).
  - unfold spot. cbn [fst snd].
    apply set_Some_inv in E2 as [Hr ->]. rewrite upd_map.
    rewrite zsum_upd by (rewrite map_length; unfold Zlen in Hr; lia).
    assert (nth (Z.to_nat t) (map (tpot m p') ths) 0 = tpot m p' (pc, todo)) as ->.
    { apply nth_error_nth. rewrite nth_error_map. unfold get in Et.
      destruct (t <? 0); [discriminate|]. now rewrite Et. }
    assert (zsum (map (tpot m p') ths) - tpot m p' (pc, todo) <= zsum (map (tpot m p) ths) - tpot m p (pc, todo)) as Hle.
    { apply in_split in Hin as (l1 & l2 & ->). rewrite !map_app, !zsum_app. cbn [map].
      assert (forall a l, zsum (a :: l) = a + zsum l) as Z1 by reflexivity. rewrite !Z1.
      assert (forall x, tpot m p' x <= tpot m p x) as Hx.
      { intros [pc0 td]. unfold tpot. cbn [fst snd]. pose proof (pot_shrinks m p p' pc0 Hsh). lia. }
      pose proof (zsum_le (tpot m p') (tpot m p) l1 ltac:(auto)).
      pose proof (zsum_le (tpot m p') (tpot m p) l2 ltac:(auto)). lia. }
    unfold tpot at 2 in Hle. unfold tpot at 3 in Hle. unfold tpot at 2. unfold tpot at 2.
    cbn [fst snd] in *. lia.
Qed.

Lemma spot_nonneg m E s : 0 <= m -> uinv m E s -> 0 <= spot m s.
Proof.
  intros Hm [_ Hth]. apply zsum_nonneg. intros v Hv. apply in_map_iff in Hv as ([pc todo] & <- & Hin).
  destruct (Hth _ _ Hin) as [Hpc _]. unfold tpot. cbn [fst snd]. pose proof (Zlen_nonneg todo).
  assert (0 <= pot m (fst s) pc).
  { destruct pc; cbn [pot pc_ok] in *; unfold in_range in *; try lia;
      repeat match goal with |- context [isroot ?p ?x] =>
        pose proof (isroot_bounds p x); generalize dependent (isroot p x); intros end;
      unfold b2z; try (destruct (_ =? _)); lia. }
  nia.
Qed.

Theorem union_terminates m work sched s :
  0 <= m ->
  (forall w e, In w work -> In e w -> 0 <= fst e < m /\ 0 <= snd e < m) ->
  busy_run sched (uinit m work) s ->
  Zlen sched <= (16 * m + 20) * Zlen (concat work).
Proof.
  intros Hm Hw Hr.
  assert (forall l s s', tinv m (concat work) s -> busy_run l s s' -> Zlen l + spot m s' <= spot m s /\ uinv m (concat work) s') as G.
  { clear - Hm. intros l s s' HI Hr. induction Hr as [s|t l s s1 s2 Hb E1 Hr IH].
    - split; [unfold Zlen; cbn; lia|apply HI].
    - destruct (ustep_pot m _ t s s1 Hm HI Hb E1) as [HI1 Hp]. destruct (IH HI1).
      split; auto. rewrite Zlen_cons. lia. }
  destruct (G sched (uinit m work) s) as [Hle HI]; auto.
  - split; [now apply uinit_inv|]. cbn. intros pc todo H. apply in_map_iff in H as (w & Ew & _).
    injection Ew as <- <-. exact I.
  - pose proof (spot_nonneg m _ s Hm HI).
    assert (spot m (uinit m work) = (16 * m + 20) * Zlen (concat work)) as E0; [|lia].
    clear. unfold spot, uinit. cbn [fst snd]. rewrite map_map. unfold tpot. cbn [fst snd pot].
    induction work as [|w work IH]; cbn [map concat].
    + unfold zsum, Zlen. cbn. lia.
    + assert (forall a l, zsum (a :: l) = a + zsum l) as Z1 by reflexivity.
      rewrite Z1, IH, Zlen_app. lia.
Qed.

(** ** A lost link with four threads

    Path graph 0-3-2-4-1; rows 0 and 1 belong to thread 0, row 2 to thread 1,
    row 3 to thread 2, row 4 to thread 3. *)
Definition lost_work : list (list (Z * Z)) :=
  [[(0,3);(1,4)]; [(2,3);(2,4)]; [(3,0);(3,2)]; [(4,1);(4,2)]].

Definition lost_sched : list Z :=
  (* thread 1 links 3 under 2 *)
  [1;1;1;1;1;1] ++
  (* thread 0: 3 is moved to 0, then it has read p[2] = 2 and waits *)
  [0;0;0;0;0;0;0;0] ++
  (* thread 3 links 4 under 1 and 2 under 1 *)
  [3;3;3;3;3;3; 3;3;3;3;3;3] ++
  (* thread 1 finds 2 and 4 joined already *)
  [1;1;1] ++
  (* thread 0: compare-and-swap fails, 2 is moved to 0 *)
  repeat 0 12 ++ repeat 1 3 ++ repeat 2 12 ++ repeat 3 12.

Lemma lost_link_run :
  union_run 5 lost_work lost_sched =
  Some ([0;1;0;0;1], [(Next, []); (Next, []); (Next, []); (Next, [])]).
Proof. vm_compute. reflexivity. Qed.

Lemma lost_link_connected : connected (concat lost_work) 0 1.
Proof.
  apply rst_trans with 3; [apply rst_step; cbn; tauto|].
  apply rst_trans with 2; [apply rst_step; cbn; tauto|].
  apply rst_trans with 4; [apply rst_step; cbn; tauto|].
  apply rst_step; cbn; tauto.
Qed.

Theorem union_lost_link : exists s,
  union_run 5 lost_work lost_sched = Some s /\ all_done s /\
  connected (concat lost_work) 0 1 /\
  root_of (fst s) 0 0 /\ root_of (fst s) 1 1.
Proof.
  eexists. split; [exact lost_link_run|]. split.
  - intros th H. cbn in H. intuition.
  - split; [exact lost_link_connected|]. split; constructor; reflexivity.
Qed.
