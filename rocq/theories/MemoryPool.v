(** * The memory pool (/repo/MemoryPool.cpp).

    Addresses are offsets from buffer_.  size_t arithmetic is modulo 2^64 and
    written out.  A failed assertion is [None]; with [chk = false] the
    assertions are compiled out (NDEBUG). *)
From Verif Require Import Base.
Local Open Scope Z_scope.

Definition W64 : Z := 2 ^ 64.
Definition w64 (x : Z) : Z := x mod W64.

(** size_, head_, tail_ *)
Record pool := mkPool { psize : Z; phead : Z; ptail : Z }.

Definition guard (chk b : bool) : option unit := if chk && negb b then None else Some tt.

Section Pool.
Variable chk : bool.

(** /repo/MemoryPool.cpp:54-70 *)
Definition pool_init (sz : Z) : pool := mkPool sz 0 0.

(** /repo/MemoryPool.cpp:91-102 *)
Definition set_head (p : pool) (off : Z) : option pool :=
  _ <- guard chk (off <? psize p) ;;
  _ <- guard chk (if phead p <=? ptail p
                  then (phead p <=? off) && (off <=? ptail p)
                  else (off <=? ptail p) || (phead p <=? off)) ;;
  Some (mkPool (psize p) off (ptail p)).

(** /repo/MemoryPool.cpp:104-115 *)
Definition set_tail (p : pool) (off : Z) : option pool :=
  _ <- guard chk (off <? psize p) ;;
  _ <- guard chk (if phead p <=? ptail p
                  then (phead p <=? off) && (off <=? ptail p)
                  else (off <=? ptail p) || (phead p <=? off)) ;;
  Some (mkPool (psize p) (phead p) off).

(** Lines 129 and 151: [sz = (sz + align - 1)/align*align] in size_t. *)
Definition round_up (sz align : Z) : Z := w64 (w64 (sz + align - 1) / align * align).

(** /repo/MemoryPool.cpp:127-147; returns the offset of the block. *)
Definition allocate (p : pool) (sz0 align : Z) : option (pool * Z) :=
  let sz := round_up sz0 align in
  let h := phead p in let t := ptail p in
  if h <=? t then
    if psize p <=? w64 (t + sz) then
      _ <- guard chk (sz <? h) ;;
      Some (mkPool (psize p) h sz, 0)
    else
      let t' := w64 (t + sz) in Some (mkPool (psize p) h t', w64 (t' - sz))
  else
    _ <- guard chk (w64 (t + sz) <? h) ;;
    let t' := w64 (t + sz) in Some (mkPool (psize p) h t', w64 (t' - sz)).

(** /repo/MemoryPool.cpp:149-168 *)
Definition allocate_front (p : pool) (sz0 align : Z) : option (pool * Z) :=
  let sz := round_up sz0 align in
  let h := phead p in let t := ptail p in
  if h <=? t then
    if h <? sz then
      let h' := w64 (psize p - sz) in
      _ <- guard chk (t <? h') ;;
      Some (mkPool (psize p) h' t, h')
    else
      let h' := w64 (h - sz) in Some (mkPool (psize p) h' t, h')
  else
    _ <- guard chk (w64 (t + sz) <? h) ;;
    let h' := w64 (h - sz) in Some (mkPool (psize p) h' t, h').

(** /repo/MemoryPool.cpp:170-174 *)
Definition deallocate_all (p : pool) : pool := mkPool (psize p) 0 0.

(** /repo/MemoryPool.cpp:176-185 (for a pointer into a live buffer). *)
Definition contains (p : pool) (a : Z) : bool :=
  if (a <? 0) || (psize p <=? a) then false
  else if phead p <=? ptail p then (phead p <=? a) && (a <? ptail p)
  else negb ((ptail p <=? a) && (a <? phead p)).

(** Histories. *)
Inductive pool_op :=
| OAlloc (sz align : Z) | OFront (sz align : Z)
| OSetHead (off : Z) | OSetTail (off : Z) | OClear.

(** A block is (offset, requested size).  It is alive until the head or tail is
    moved over one of its bytes, i.e. as long as all its bytes lie between
    head and tail on the circle. *)
Definition alive (p : pool) (b : Z * Z) : bool :=
  let '(o, n) := b in
  if phead p <=? ptail p then (phead p <=? o) && (o + n <=? ptail p)
  else ((phead p <=? o) && (o + n <=? psize p)) || (o + n <=? ptail p).

(** One operation on the pool and on the list of blocks handed out and still
    alive. *)
Definition pool_step (o : pool_op) (st : pool * list (Z * Z)) : option (pool * list (Z * Z)) :=
  let '(p, live) := st in
  match o with
  | OAlloc sz al => ' (p', off) <- allocate p sz al ;; Some (p', (off, sz) :: live)
  | OFront sz al => ' (p', off) <- allocate_front p sz al ;; Some (p', (off, sz) :: live)
  | OSetHead off => p' <- set_head p off ;; Some (p', filter (alive p') live)
  | OSetTail off => p' <- set_tail p off ;; Some (p', filter (alive p') live)
  | OClear => Some (deallocate_all p, [])
  end.

Definition pool_run (sz : Z) (ops : list pool_op) : option (pool * list (Z * Z)) :=
  foldM pool_step ops (pool_init sz, []).
End Pool.

(** Requests that do not exceed the pool even after rounding up, with a
    positive alignment; offsets are size_t values. *)
Definition op_ok (size : Z) (o : pool_op) : Prop :=
  match o with
  | OAlloc sz al | OFront sz al => 0 <= sz /\ 1 <= al < 2 ^ 31 /\ (sz + al - 1) / al * al <= size
  | OSetHead off | OSetTail off => 0 <= off
  | OClear => True
  end.

(** ** Specification: what users rely on. *)
Definition block_inside (size : Z) (b : Z * Z) : Prop := 0 <= fst b /\ fst b + snd b <= size.
Definition in_block (b : Z * Z) (a : Z) : Prop := fst b <= a < fst b + snd b.
Definition disjoint (b c : Z * Z) : Prop := forall a, ~ (in_block b a /\ in_block c a).

Lemma w64_small x : 0 <= x < W64 -> w64 x = x.
Proof. intros H. unfold w64. now apply Z.mod_small. Qed.

Lemma round_up_ok size sz al : 0 <= sz -> 1 <= al < 2 ^ 31 ->
  (sz + al - 1) / al * al <= size -> size <= 2 ^ 62 ->
  sz <= round_up sz al <= size.
Proof.
  intros Hsz Hal Hr Hs. unfold round_up.
  pose proof (Z.mod_pos_bound (sz + al - 1) al ltac:(lia)).
  pose proof (Z.div_mod (sz + al - 1) al ltac:(lia)).
  assert (0 <= (sz + al - 1) / al) by (apply Z.div_pos; lia).
  assert (Hlt : sz + al - 1 < W64).
  { assert (sz <= (sz + al - 1) / al * al) by lia. unfold W64. lia. }
  rewrite (w64_small (sz + al - 1)) by lia. rewrite w64_small; [lia|].
  unfold W64. nia.
Qed.

(** Region between head and tail, and what the pool guarantees about it. *)
Definition pool_wf (p : pool) : Prop :=
  0 <= psize p <= 2 ^ 62 /\ 0 <= phead p <= psize p /\ 0 <= ptail p <= psize p.

Lemma alive_block p b : pool_wf p -> 0 <= snd b -> 0 <= fst b -> alive p b = true -> block_inside (psize p) b.
Proof.
  destruct b as [o n]. unfold pool_wf, alive, block_inside; cbn. intros Hp Hn Ho.
  destruct (Z.leb_spec (phead p) (ptail p)); lia.
Qed.

Lemma contains_alive p b a : pool_wf p -> 0 <= fst b -> alive p b = true -> in_block b a ->
  contains p a = true.
Proof.
  destruct b as [o n]. unfold pool_wf, alive, contains, in_block; cbn. intros Hp Ho.
  destruct (Z.leb_spec (phead p) (ptail p)); destruct (Z.ltb_spec a 0), (Z.leb_spec (psize p) a); cbn; try lia.
Qed.

(** Every live block sits in the region; the blocks are pairwise disjoint. *)
Definition live_ok (p : pool) (live : list (Z * Z)) : Prop :=
  (forall b, In b live -> 0 <= fst b /\ 0 <= snd b /\ alive p b = true) /\
  ForallOrdPairs disjoint live.

Lemma FOP_filter {A} (R : A -> A -> Prop) f l : ForallOrdPairs R l -> ForallOrdPairs R (filter f l).
Proof.
  induction 1 as [|a l Ha Hl IH]; cbn; [constructor|].
  destruct (f a); auto. constructor; auto.
  rewrite Forall_forall in *. intros x Hx. apply filter_In in Hx as [Hx _]. auto.
Qed.

(** Adding a block that is outside the old region and inside the new one,
    where the new region includes the old one. *)
Lemma live_add p p' live b :
  live_ok p live -> 0 <= fst b -> 0 <= snd b -> alive p' b = true ->
  (forall c, 0 <= fst c -> 0 <= snd c -> alive p c = true -> alive p' c = true /\ disjoint b c) ->
  live_ok p' (b :: live).
Proof.
  intros [H1 H2] Hb1 Hb2 Hb Hc. split.
  - intros c [<-|Hin]; auto. destruct (H1 c Hin) as (A & B & C). repeat split; auto. now apply Hc.
  - constructor; auto. rewrite Forall_forall. intros c Hin.
    destruct (H1 c Hin) as (A & B & C). now apply Hc.
Qed.

Lemma live_filter p p' live : live_ok p live -> live_ok p' (filter (alive p') live).
Proof.
  intros [H1 H2]. split; [|now apply FOP_filter].
  intros b Hb. apply filter_In in Hb as [Hb Ha]. destruct (H1 b Hb) as (A & B & _). auto.
Qed.

Ltac solve_block :=
  unfold alive, disjoint, in_block; cbn [phead ptail psize fst snd];
  repeat match goal with
  | |- context[if ?x <=? ?y then _ else _] => destruct (Z.leb_spec x y); try lia
  end; intros C; (split; [lia|intros a; lia]).

Definition pool_inv (size : Z) (st : pool * list (Z * Z)) : Prop :=
  psize (fst st) = size /\ pool_wf (fst st) /\ live_ok (fst st) (snd st).

Lemma pool_step_inv size o st st' :
  size <= 2 ^ 62 -> op_ok size o -> pool_inv size st -> pool_step true o st = Some st' -> pool_inv size st'.
Proof.
  destruct st as [p live]. intros Hs Hok (E1 & Hwf & Hl) E. cbn [fst snd] in *.
  pose proof Hwf as Hwf'. unfold pool_wf in Hwf'. unfold W64 in *.
  destruct o as [sz al|sz al|off|off|]; cbn in Hok; cbn [pool_step] in E.
  - destruct Hok as (Hsz & Hal & Hr). 
    pose proof (round_up_ok size sz al Hsz Hal Hr ltac:(lia)) as Hru.
    unfold allocate in E. set (r := round_up sz al) in *.
    assert (Ew : w64 (ptail p + r) = ptail p + r) by (apply w64_small; unfold W64; lia).
    rewrite Ew in E. cbn zeta in E.
    replace (ptail p + r - r) with (ptail p) in E by lia.
    rewrite (w64_small (ptail p)) in E by (unfold W64; lia).
    destruct (Z.leb_spec (phead p) (ptail p)).
    + destruct (Z.leb_spec (psize p) (ptail p + r)).
      * unfold guard in E. cbn [andb] in E. destruct (Z.ltb_spec r (phead p)); cbn [negb] in E; [|discriminate].
        injection E as <-. split; [|split]; cbn [fst snd psize]; auto.
        -- unfold pool_wf; cbn; lia.
        -- apply (live_add p); auto; cbn [fst snd]; try lia.
           { unfold alive; cbn [phead ptail psize fst snd]. destruct (Z.leb_spec (phead p) r); lia. }
           intros [co cn] A B. cbn in A, B. solve_block.
      * injection E as <-. split; [|split]; cbn [fst snd psize]; auto.
        -- unfold pool_wf; cbn; lia.
        -- apply (live_add p); auto; cbn [fst snd]; try lia.
           { unfold alive; cbn [phead ptail psize fst snd]. destruct (Z.leb_spec (phead p) (ptail p + r)); lia. }
           intros [co cn] A B. cbn in A, B. solve_block.
    + unfold guard in E. cbn [andb] in E.
      destruct (Z.ltb_spec (ptail p + r) (phead p)); cbn [negb] in E; [|discriminate].
      injection E as <-. split; [|split]; cbn [fst snd psize]; auto.
      * unfold pool_wf; cbn; lia.
      * apply (live_add p); auto; cbn [fst snd]; try lia.
        { unfold alive; cbn [phead ptail psize fst snd]. destruct (Z.leb_spec (phead p) (ptail p + r)); lia. }
        intros [co cn] A B. cbn in A, B. solve_block.
  - destruct Hok as (Hsz & Hal & Hr). 
    pose proof (round_up_ok size sz al Hsz Hal Hr ltac:(lia)) as Hru.
    unfold allocate_front in E. set (r := round_up sz al) in *. cbn zeta in E.
    destruct (Z.leb_spec (phead p) (ptail p)).
    + destruct (Z.ltb_spec (phead p) r).
      * rewrite (w64_small (psize p - r)) in E by (unfold W64; lia).
        unfold guard in E. cbn [andb] in E. destruct (Z.ltb_spec (ptail p) (psize p - r)); cbn [negb] in E; [|discriminate].
        injection E as <-. split; [|split]; cbn [fst snd psize]; auto.
        -- unfold pool_wf; cbn; lia.
        -- apply (live_add p); auto; cbn [fst snd]; try lia.
           { unfold alive; cbn [phead ptail psize fst snd]. destruct (Z.leb_spec (psize p - r) (ptail p)); lia. }
           intros [co cn] A B. cbn in A, B. solve_block.
      * rewrite (w64_small (phead p - r)) in E by (unfold W64; lia).
        injection E as <-. split; [|split]; cbn [fst snd psize]; auto.
        -- unfold pool_wf; cbn; lia.
        -- apply (live_add p); auto; cbn [fst snd]; try lia.
           { unfold alive; cbn [phead ptail psize fst snd]. destruct (Z.leb_spec (phead p - r) (ptail p)); lia. }
           intros [co cn] A B. cbn in A, B. solve_block.
    + rewrite (w64_small (ptail p + r)) in E by (unfold W64; lia).
      unfold guard in E. cbn [andb] in E.
      destruct (Z.ltb_spec (ptail p + r) (phead p)); cbn [negb] in E; [|discriminate].
      rewrite (w64_small (phead p - r)) in E by (unfold W64; lia).
      injection E as <-. split; [|split]; cbn [fst snd psize]; auto.
      * unfold pool_wf; cbn; lia.
      * apply (live_add p); auto; cbn [fst snd]; try lia.
        { unfold alive; cbn [phead ptail psize fst snd]. destruct (Z.leb_spec (phead p - r) (ptail p)); lia. }
        intros [co cn] A B. cbn in A, B. solve_block.
  - unfold set_head, guard in E. cbn [andb] in E.
    destruct (Z.ltb_spec off (psize p)); cbn [negb] in E; [|discriminate].
    destruct (negb _); [discriminate|]. injection E as <-.
    split; [|split]; cbn [fst snd psize]; auto.
    + unfold pool_wf; cbn; lia.
    + now apply (live_filter p).
  - unfold set_tail, guard in E. cbn [andb] in E.
    destruct (Z.ltb_spec off (psize p)); cbn [negb] in E; [|discriminate].
    destruct (negb _); [discriminate|]. injection E as <-.
    split; [|split]; cbn [fst snd psize]; auto.
    + unfold pool_wf; cbn; lia.
    + now apply (live_filter p).
  - injection E as <-. split; [|split]; cbn [fst snd deallocate_all psize]; auto.
    + unfold pool_wf; cbn; lia.
    + split; [intros b []|constructor].
Qed.

Lemma pool_run_inv size ops st : 0 <= size <= 2 ^ 62 -> Forall (op_ok size) ops ->
  pool_run true size ops = Some st -> pool_inv size st.
Proof.
  intros Hs Hops. unfold pool_run.
  assert (H0 : pool_inv size (pool_init size, [])).
  { split; [|split]; cbn; auto; [unfold pool_wf; cbn; lia|]. split; [intros b []|constructor]. }
  revert H0. generalize (pool_init size, @nil (Z * Z)) as st0.
  induction Hops as [|o ops Ho Hops IH]; intros st0 H0; cbn [foldM].
  - intros E; injection E as <-; auto.
  - destruct (pool_step true o st0) as [st1|] eqn:E; [|discriminate]. apply IH.
    eapply pool_step_inv; eauto. lia.
Qed.

Lemma pool_correct size ops p live : 0 <= size <= 2 ^ 62 -> Forall (op_ok size) ops ->
  pool_run true size ops = Some (p, live) ->
  (forall b, In b live -> block_inside size b) /\
  ForallOrdPairs disjoint live /\
  (forall b a, In b live -> in_block b a -> contains p a = true).
Proof.
  intros Hs Hops E. destruct (pool_run_inv size ops (p, live) Hs Hops E) as (E1 & Hwf & H1 & H2).
  cbn [fst snd] in *. split; [|split]; auto.
  - intros b Hb. destruct (H1 b Hb) as (A & B & C). rewrite <- E1. now apply alive_block.
  - intros b a Hb Ha. destruct (H1 b Hb) as (A & B & C). eapply contains_alive; eauto.
Qed.

(** Releasing frees exactly the blocks the moved end passed over: a block that
    stays between head and tail stays alive. *)
Lemma pool_release_only size ops p live off p' live' b : 0 <= size <= 2 ^ 62 -> Forall (op_ok size) ops ->
  pool_run true size ops = Some (p, live) ->
  pool_step true (OSetHead off) (p, live) = Some (p', live') ->
  In b live -> 0 < snd b ->
  (In b live' <-> forall a, in_block b a -> contains p' a = true).
Proof.
  intros Hs Hops E E' Hb Hpos.
  destruct (pool_run_inv size ops (p, live) Hs Hops E) as (E1 & Hwf & H1 & H2). cbn [fst snd] in *.
  cbn [pool_step] in E'. unfold set_head, guard in E'. cbn [andb] in E'.
  destruct (Z.ltb_spec off (psize p)); cbn [negb] in E'; [|discriminate].
  destruct (H1 b Hb) as (A & B & C).
  destruct b as [o n]. cbn [fst snd] in *. unfold alive, pool_wf in *.
  destruct (Z.leb_spec (phead p) (ptail p)) as [Hw|Hw].
  - match type of E' with context[negb ?x] => destruct x eqn:Eg end; cbn [negb] in E'; [|discriminate].
    injection E' as <- <-. rewrite filter_In. unfold alive, contains, in_block; cbn [fst snd psize phead ptail].
    split.
    + intros [_ Ha] a Hr. revert Ha. destruct (Z.leb_spec off (ptail p)); destruct (Z.ltb_spec a 0), (Z.leb_spec (psize p) a); cbn; lia.
    + intros Ha. split; auto. pose proof (Ha o ltac:(lia)) as F1. pose proof (Ha (o + n - 1) ltac:(lia)) as F2.
      revert F1 F2. destruct (Z.leb_spec off (ptail p));
      destruct (Z.ltb_spec o 0), (Z.leb_spec (psize p) o), (Z.ltb_spec (o + n - 1) 0), (Z.leb_spec (psize p) (o + n - 1)); cbn; lia.
  - match type of E' with context[negb ?x] => destruct x eqn:Eg end; cbn [negb] in E'; [|discriminate].
    injection E' as <- <-. rewrite filter_In. unfold alive, contains, in_block; cbn [fst snd psize phead ptail].
    split.
    + intros [_ Ha] a Hr. revert Ha. destruct (Z.leb_spec off (ptail p)); destruct (Z.ltb_spec a 0), (Z.leb_spec (psize p) a); cbn; lia.
    + intros Ha. split; auto. pose proof (Ha o ltac:(lia)) as F1. pose proof (Ha (o + n - 1) ltac:(lia)) as F2.
      revert F1 F2. destruct (Z.leb_spec off (ptail p));
      destruct (Z.ltb_spec o 0), (Z.leb_spec (psize p) o), (Z.ltb_spec (o + n - 1) 0), (Z.leb_spec (psize p) (o + n - 1)); cbn; lia.
Qed.

(** With one alignment for all requests, everything handed out is aligned. *)
Definition op_aligned (al : Z) (o : pool_op) : Prop :=
  match o with
  | OAlloc _ a | OFront _ a => a = al
  | OSetHead off | OSetTail off => (al | off)
  | OClear => True
  end.

Lemma round_up_divide size sz al : 0 <= sz -> 1 <= al < 2 ^ 31 ->
  (sz + al - 1) / al * al <= size -> size <= 2 ^ 62 -> (al | round_up sz al).
Proof.
  intros Hsz Hal Hr Hs. unfold round_up.
  pose proof (Z.mod_pos_bound (sz + al - 1) al ltac:(lia)).
  pose proof (Z.div_mod (sz + al - 1) al ltac:(lia)).
  assert (0 <= (sz + al - 1) / al) by (apply Z.div_pos; lia).
  assert (Hlt : sz + al - 1 < W64).
  { assert (sz <= (sz + al - 1) / al * al) by lia. unfold W64. lia. }
  rewrite (w64_small (sz + al - 1)) by lia. rewrite w64_small; [apply Z.divide_factor_r|].
  unfold W64. nia.
Qed.

Lemma pool_aligned size al ops p live : 0 <= size <= 2 ^ 62 -> (al | size) ->
  Forall (op_ok size) ops -> Forall (op_aligned al) ops ->
  pool_run true size ops = Some (p, live) ->
  forall b, In b live -> (al | fst b).
Proof.
  intros Hs Hal Hops Halig.
  assert (G : forall st, pool_inv size st -> (al | phead (fst st)) -> (al | ptail (fst st)) ->
     (forall b, In b (snd st) -> (al | fst b)) ->
     foldM (pool_step true) ops st = Some (p, live) -> forall b, In b live -> (al | fst b)).
  { revert Halig. induction Hops as [|o ops Ho Hops IH]; intros Ha st Hi Hh Ht Hb; cbn [foldM].
    - intros E; injection E as ->; auto.
    - inversion Ha as [|? ? Hao Har]; subst.
      destruct (pool_step true o st) as [st1|] eqn:E; [|discriminate].
      assert (Hi1 : pool_inv size st1) by (eapply pool_step_inv; eauto; lia).
      apply IH; auto; clear IH.
      all: destruct st as [q lv]; destruct Hi as (E1 & Hwf & _); cbn [fst snd] in *; unfold pool_wf in Hwf.
      all: destruct o as [sz a|sz a|off|off|]; cbn in Ho, Hao; cbn [pool_step] in E; try subst a.
      all: try (destruct Ho as (Hsz & Hal' & Hr);
        pose proof (round_up_ok size sz al Hsz Hal' Hr ltac:(lia)) as Hru;
        pose proof (round_up_divide size sz al Hsz Hal' Hr ltac:(lia)) as Hrd;
        unfold allocate, allocate_front in E; set (r := round_up sz al) in *; cbn zeta in E;
        assert (Ew : w64 (ptail q + r) = ptail q + r) by (apply w64_small; unfold W64; lia);
        rewrite ?Ew in E; replace (ptail q + r - r) with (ptail q) in E by lia;
        rewrite ?(w64_small (ptail q)) in E by (unfold W64; lia);
        rewrite ?(w64_small (psize q - r)) in E by (unfold W64; lia)).
      all: unfold set_head, set_tail, guard in E; cbn [andb] in E.
      all: repeat match type of E with
        | context[if negb ?x then _ else _] => destruct x eqn:?; cbn [negb] in E; try discriminate E
        | context[if ?x then _ else _] => destruct x eqn:?; try discriminate E
        end; try (rewrite (w64_small (phead q - r)) in E by (unfold W64; lia)); injection E as <-;
        cbn [fst snd phead ptail deallocate_all] in *; auto; try apply Z.divide_0_r;
        try (apply Z.divide_add_r; auto; fail); try (apply Z.divide_sub_r; auto; congruence).
      all: intros b' Hin; try (apply filter_In in Hin as [Hin _]; auto; fail);
        try (destruct Hin as [<-|Hin]; auto; cbn [fst]; auto;
             try apply Z.divide_0_r; try (apply Z.divide_sub_r; auto; congruence)); try destruct Hin. }
  unfold pool_run. apply G; cbn; auto; try apply Z.divide_0_r; try tauto.
  split; [|split]; cbn; auto; [unfold pool_wf; cbn; lia|]. split; [intros b []|constructor].
Qed.

(** A pool of 1024 bytes. *)
Lemma pool_huge_request : exists p live,
  pool_run true 1024 [OAlloc 512 64; OAlloc (2 ^ 64 - 256) 64; OAlloc 64 64] = Some (p, live) /\
  In (0, 512) live /\ In (256, 64) live.
Proof. eexists _, _. split; [vm_compute; reflexivity|]. cbn; auto. Qed.

Lemma pool_front_too_big : exists p b,
  pool_run true 1024 [OFront 2048 64] = Some (p, [b]) /\ ~ block_inside 1024 b.
Proof.
  eexists _, _. split; [vm_compute; reflexivity|]. unfold block_inside; cbn. lia.
Qed.

Lemma pool_ndebug : exists p live,
  pool_run false 1024 [OAlloc 512 64; OAlloc 600 64] = Some (p, live) /\
  In (0, 512) live /\ In (0, 600) live.
Proof. eexists _, _. split; [vm_compute; reflexivity|]. cbn; auto. Qed.
