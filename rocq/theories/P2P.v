(** * Point-to-point synchronised execution of tasks (LevelSchedule.hpp:54-121,
    test/gs_test.cpp:215-231, test/trsv_test.cpp, test/pcg.cpp).

    Every thread runs a fixed list of instructions: for each of its tasks the
    waits for the parents, the operations of its rows, and the notification.
    The small-step semantics interleaves single instructions of the threads
    (sequentially consistent memory); a wait whose flag is not set is a
    stuttering step (the spin loop).

    An operation is one access to the shared array together with the
    arithmetic on the local variables of its thread; [exec] is arbitrary.
    Rows are numbered in the order of the sequential sweep. *)
From Coq Require Import Relations.
From Verif Require Import Base Flat Csr.

Inductive instr := IWait (p : Z) | IBegin (i : Z) | IOp (i k : Z) | IDone (q : Z).

Section Machine.
Context {V L O : Type}.
Variables (exec : O -> L -> list V -> option (L * list V)) (l0 : L) (ops : Z -> list O) (progs : list (list instr)).

Record mstate := mkM { pcs : list Z; flags : list Z; locs : list L; mem : list V }.

Definition mstep (t : Z) (s : mstate) : option mstate :=
  n <- get (pcs s) t ;; p <- get progs t ;;
  match get p n with
  | None => Some s
  | Some c =>
      pc' <- set (pcs s) t (n + 1) ;;
      match c with
      | IWait q => f <- get (flags s) q ;; if f =? 0 then Some s else Some (mkM pc' (flags s) (locs s) (mem s))
      | IBegin i => l' <- set (locs s) t l0 ;; Some (mkM pc' (flags s) l' (mem s))
      | IOp i k => o <- get (ops i) k ;; l <- get (locs s) t ;; ' (l', m') <- exec o l (mem s) ;;
          ls <- set (locs s) t l' ;; Some (mkM pc' (flags s) ls m')
      | IDone q => f' <- set (flags s) q 1 ;; Some (mkM pc' f' (locs s) (mem s))
      end
  end.
Definition mrun (sched : list Z) (s : mstate) : option mstate := foldM mstep sched s.
Definition finished (s : mstate) : Prop := forall t p, get progs t = Some p -> get (pcs s) t = Some (Zlen p).

(** The sequential sweep. *)
Definition row_run (i : Z) (s : list V) : option (list V) :=
  ' (_, s') <- foldM (fun o ls => exec o (fst ls) (snd ls)) (ops i) (l0, s) ;; Some s'.
Definition sweep (m : Z) (s : list V) : option (list V) := foldM row_run (zrange 0 m) s.

(** ** Correctness *)
Section Proof.
Variables (m T NT : Z) (owner : Z -> Z) (adj : Z -> Z -> Prop) (tk : Z -> Z) (parents : Z -> list Z) (s0 fin : list V).
Hypothesis HT : Zlen progs = T.

(** Locality of the operations: row [i] stores only in its own cells and reads
    only its own cells, those of adjacent rows and cells of no row. *)
Definition vis (i p : Z) : Prop := owner p = i \/ adj i (owner p) \/ ~ (0 <= owner p < m).
Hypothesis Hframe : forall i o l s l' s', 0 <= i < m -> In o (ops i) -> exec o l s = Some (l', s') ->
  Zlen s' = Zlen s /\ forall p, owner p <> i -> get s' p = get s p.
Hypothesis Hlocal : forall i o l s1 s2 l' s1', 0 <= i < m -> In o (ops i) -> Zlen s1 = Zlen s2 ->
  (forall p, vis i p -> get s1 p = get s2 p) -> exec o l s1 = Some (l', s1') ->
  exists s2', exec o l s2 = Some (l', s2') /\ forall p, owner p = i -> get s2' p = get s1' p.
Hypothesis Hadj : forall i c, adj i c -> 0 <= i < m -> 0 <= c < m -> c <> i /\ adj c i.
Hypothesis Hseq : sweep m s0 = Some fin.

Definition nops (i : Z) : Z := Zlen (ops i).

Definition seqmem (i : Z) : option (list V) := foldM row_run (zrange 0 i) s0.
Definition part (i k : Z) : option (L * list V) :=
  s <- seqmem i ;; foldM (fun o ls => exec o (fst ls) (snd ls)) (firstn (Z.to_nat k) (ops i)) (l0, s).

Lemma seqmem_ok i : 0 <= i <= m -> exists s, seqmem i = Some s.
Proof.
  intros Hi. unfold seqmem. pose proof Hseq as H. unfold sweep in H. rewrite (zrange_app 0 i m), foldM_app in H by lia.
  destruct (foldM row_run (zrange 0 i) s0); eauto.
Qed.
Lemma seqmem_S i : 0 <= i -> seqmem (i + 1) = (s <- seqmem i ;; row_run i s).
Proof.
  intros Hi. unfold seqmem. rewrite zrange_snoc, foldM_app by lia. destruct (foldM row_run (zrange 0 i) s0) as [s|]; auto.
  cbn [foldM]. destruct (row_run i s); auto.
Qed.
Lemma part_0 i s : seqmem i = Some s -> part i 0 = Some (l0, s).
Proof. intros E. unfold part. rewrite E. reflexivity. Qed.
Lemma firstn_snoc {A} (l : list A) k x : get l k = Some x -> firstn (Z.to_nat (k + 1)) l = firstn (Z.to_nat k) l ++ [x].
Proof.
  intros H. pose proof (get_Some_bounds _ _ _ H). unfold get in H. destruct (Z.ltb_spec k 0); [lia|].
  replace (Z.to_nat (k + 1)) with (S (Z.to_nat k)) by lia. revert H. generalize (Z.to_nat k). clear. intros n. revert l.
  induction n as [|n IH]; intros [|a l] H; cbn in *; try discriminate. { congruence. } f_equal. now apply IH.
Qed.
Lemma part_S i k o : get (ops i) k = Some o -> part i (k + 1) = (' (l, s) <- part i k ;; exec o l s).
Proof.
  intros H. unfold part. destruct (seqmem i) as [s|]; auto. rewrite (firstn_snoc _ _ _ H), foldM_app.
  destruct (foldM _ (firstn (Z.to_nat k) (ops i)) (l0, s)) as [[l s']|]; auto. cbn [foldM fst snd]. destruct (exec o l s'); auto.
Qed.
Lemma part_full i : 0 <= i -> seqmem (i + 1) = (' (_, s) <- part i (nops i) ;; Some s).
Proof.
  intros Hi. rewrite seqmem_S by auto. unfold part, row_run, nops, Zlen. destruct (seqmem i) as [s|]; auto. now rewrite Nat2Z.id, firstn_all.
Qed.
Lemma part_ok i k : 0 <= i < m -> 0 <= k <= nops i -> exists l s, part i k = Some (l, s).
Proof.
  intros Hi Hk. destruct (seqmem_ok (i + 1)) as (sf & Ef); [lia|]. destruct (seqmem_ok i) as (s & Es); [lia|].
  rewrite seqmem_S, Es in Ef by lia. unfold row_run in Ef. unfold part. rewrite Es. rewrite <- (firstn_skipn (Z.to_nat k) (ops i)), foldM_app in Ef.
  destruct (foldM _ (firstn (Z.to_nat k) (ops i)) (l0, s)) as [[l s']|]; eauto. discriminate.
Qed.
Lemma part_frame i k l s si : 0 <= i < m -> 0 <= k <= nops i -> seqmem i = Some si -> part i k = Some (l, s) ->
  Zlen s = Zlen si /\ forall p, owner p <> i -> get s p = get si p.
Proof.
  intros Hi Hk Es. revert l s. destruct Hk as [Hk1 Hk2]. revert k Hk1 Hk2. apply (Z_ind0 (fun k => k <= nops i -> forall l s, part i k = Some (l, s) -> Zlen s = Zlen si /\ forall p, owner p <> i -> get s p = get si p)).
  - intros _ l s E. rewrite (part_0 _ _ Es) in E. injection E as <- <-. auto.
  - intros k Hk IH Hk2 l s E. destruct (get_in_range (ops i) k) as (o & Eo); [unfold nops in Hk2; lia|].
    rewrite (part_S _ _ _ Eo) in E. destruct (part i k) as [[l1 s1]|]; [|discriminate]. destruct (IH ltac:(lia) _ _ eq_refl) as (A & B).
    destruct (Hframe i o l1 s1 l s) as (C & D); auto. { eapply get_In; eauto. }
    split; [lia|]. intros p Hp. rewrite D, B; auto.
Qed.
Lemma seqmem_frame i s p : 0 <= i <= m -> seqmem i = Some s -> Zlen s = Zlen s0 /\ (~ (0 <= owner p < i) -> get s p = get s0 p).
Proof.
  intros [Hi1 Hi2]. revert i Hi1 Hi2 s. apply (Z_ind0 (fun i => i <= m -> forall s, seqmem i = Some s -> Zlen s = Zlen s0 /\ (~ (0 <= owner p < i) -> get s p = get s0 p))).
  - intros _ s E. injection E as <-. auto.
  - intros i Hi IH Hm s E. destruct (seqmem_ok i) as (si & Ei); [lia|]. destruct (IH ltac:(lia) _ Ei) as (A & B).
    rewrite part_full in E by lia. destruct (part i (nops i)) as [[l s']|] eqn:Ep; [|discriminate]. injection E as ->.
    destruct (part_frame i (nops i) l s si) as (C & D); auto; try lia. { unfold nops. pose proof (Zlen_nonneg (ops i)). lia. }
    split; [lia|]. intros Hp. rewrite D by lia. apply B. lia.
Qed.
(** Cells of a row are final after its turn. *)
Lemma seqmem_final i j s s' p : 0 <= i < j -> j <= m -> seqmem (i + 1) = Some s -> seqmem j = Some s' -> owner p = i -> get s' p = get s p.
Proof.
  intros Hij Hm E. revert s' Hm. destruct Hij as [Hi Hij]. replace j with (i + 1 + (j - i - 1)) by lia.
  assert (Hd : 0 <= j - i - 1) by lia. revert Hd. generalize (j - i - 1). clear Hij j.
  apply (Z_ind0 (fun d => forall s', i + 1 + d <= m -> seqmem (i + 1 + d) = Some s' -> owner p = i -> get s' p = get s p)).
  - intros s' _ E' _. rewrite Z.add_0_r, E in E'. now injection E' as <-.
  - intros d Hd IH s' Hm E' Hp. replace (i + 1 + (d + 1)) with (i + 1 + d + 1) in * by lia. destruct (seqmem_ok (i + 1 + d)) as (sd & Ed); [lia|].
    rewrite part_full in E' by lia. destruct (part (i + 1 + d) (nops (i + 1 + d))) as [[l s1]|] eqn:Ep; [|discriminate]. injection E' as ->.
    destruct (part_frame (i + 1 + d) (nops (i + 1 + d)) l s' sd) as (C & D); auto; try lia. { unfold nops. pose proof (Zlen_nonneg (ops (i + 1 + d))). lia. }
    rewrite D by lia. apply IH; auto. lia.
Qed.

(** The array when [st i] operations of each row [i] have been done. *)
Definition mem_ok (st : Z -> Z) (s : list V) : Prop :=
  Zlen s = Zlen s0 /\ (forall p, ~ (0 <= owner p < m) -> get s p = get s0 p) /\
  forall i p, 0 <= i < m -> owner p = i -> exists l si, part i (st i) = Some (l, si) /\ get s p = get si p.

Lemma op_step st s i k o l si : mem_ok st s -> 0 <= i < m -> st i = k -> get (ops i) k = Some o -> part i k = Some (l, si) ->
  (forall c, 0 <= c < i -> adj i c -> st c = nops c) -> (forall c, i < c < m -> adj i c -> st c = 0) ->
  exists l' s', exec o l s = Some (l', s') /\ (exists si', part i (k + 1) = Some (l', si')) /\
    forall st', st' i = k + 1 -> (forall c, c <> i -> st' c = st c) -> mem_ok st' s'.
Proof.
  intros (L1 & L2 & L3) Hi Hk Ho Hp Hlt Hgt. pose proof (get_Some_bounds _ _ _ Ho) as Hkb.
  destruct (part_ok i (k + 1)) as (l' & si' & Hp'); auto. { unfold nops. lia. }
  pose proof Hp' as Hx. rewrite (part_S _ _ _ Ho), Hp in Hx.
  destruct (seqmem_ok i) as (sq & Eq); [lia|].
  destruct (part_frame i k l si sq) as (F1 & F2); auto. { unfold nops. lia. }
  destruct (seqmem_frame i sq 0) as (F3 & _); auto; [lia|].
  destruct (Hlocal i o l si s l' si') as (s' & Es & Ag); auto.
  { eapply get_In; eauto. }
  { congruence. }
  { intros p Hv. destruct (Z.eq_dec (owner p) i) as [E|N].
    - destruct (L3 i p Hi E) as (l1 & s1 & Q1 & Q2). rewrite Hk, Hp in Q1. injection Q1 as <- <-. auto.
    - rewrite F2 by auto. destruct (Z_lt_ge_dec (owner p) 0) as [X|X]; [|destruct (Z_lt_ge_dec (owner p) m) as [Y|Y]].
      + rewrite L2 by lia. eapply (seqmem_frame i sq p); eauto; lia.
      + destruct Hv as [Hv|[Hv|Hv]]; [congruence| |lia]. destruct (L3 (owner p) p) as (l1 & s1 & Q1 & Q2); auto; [lia|]. rewrite Q2.
        destruct (Z_lt_ge_dec (owner p) i) as [Z1|Z1].
        * rewrite (Hlt (owner p)) in Q1 by (auto; lia). destruct (seqmem_ok (owner p + 1)) as (sc & Ec); [lia|].
          pose proof Ec as Ec2. rewrite part_full, Q1 in Ec2 by lia. injection Ec2 as ->. eapply (seqmem_final (owner p) i); eauto; lia.
        * rewrite (Hgt (owner p)) in Q1 by (auto; lia). destruct (seqmem_ok (owner p)) as (sc & Ec); [lia|]. rewrite (part_0 _ _ Ec) in Q1. injection Q1 as <- <-.
          rewrite (proj2 (seqmem_frame i sq p ltac:(lia) Eq)) by lia. symmetry. apply (seqmem_frame (owner p) sc p); auto; lia.
      + rewrite L2 by lia. eapply (seqmem_frame i sq p); eauto; lia. }
  destruct (Hframe i o l s l' s') as (G1 & G2); auto. { eapply get_In; eauto. }
  exists l', s'. split; auto. split; eauto. intros st' S1 S2. split; [lia|]. split.
  - intros p Hn. rewrite G2 by lia. auto.
  - intros c p Hc E. destruct (Z.eq_dec c i) as [->|N].
    + rewrite S1. exists l', si'. split; auto.
    + rewrite S2 by auto. rewrite G2 by lia. auto.
Qed.

Lemma mem_ok_full st s : mem_ok st s -> (forall i, 0 <= i < m -> st i = nops i) -> s = fin.
Proof.
  intros (M1 & M2 & M3) F.
  assert (Em : seqmem m = Some fin) by exact Hseq. 
  assert (Hlen : Zlen fin = Zlen s0). { destruct (Z_lt_ge_dec m 0). - unfold seqmem in Em. rewrite zrange_nil in Em by lia. injection Em as <-. auto. - apply (seqmem_frame m fin 0); auto; lia. }
  apply list_ext; [lia|]. intros p Hp. destruct (Z_lt_ge_dec (owner p) 0) as [X|X]; [|destruct (Z_lt_ge_dec (owner p) m) as [Y|Y]].
  - rewrite M2 by lia. symmetry. destruct (Z_lt_ge_dec m 0). + unfold seqmem in Em. rewrite zrange_nil in Em by lia. now injection Em as <-. + apply (seqmem_frame m fin p); auto; lia.
  - set (i := owner p) in *. destruct (M3 i p) as (l & si & Q1 & Q2); auto; [lia|]. rewrite Q2. rewrite F in Q1 by lia.
    destruct (seqmem_ok (i + 1)) as (sc & Ec); [lia|]. pose proof Ec as Ec2. rewrite part_full, Q1 in Ec2 by lia. injection Ec2 as ->.
    symmetry. eapply (seqmem_final i m); eauto; lia.
  - rewrite M2 by lia. symmetry. destruct (Z_lt_ge_dec m 0). + unfold seqmem in Em. rewrite zrange_nil in Em by lia. now injection Em as <-. + apply (seqmem_frame m fin p); auto; lia.
Qed.
Lemma mem_ok_init : mem_ok (fun _ => 0) s0.
Proof.
  split; auto. split; auto. intros i p Hi Ho. destruct (seqmem_ok i) as (si & Ei); [lia|]. exists l0, si. split; [now apply part_0|].
  symmetry. apply (seqmem_frame i si p); auto; lia.
Qed.

(** Structure of the programs. *)
Definition at_ (t n : Z) (c : instr) : Prop := exists p, get progs t = Some p /\ get p n = Some c.
Hypothesis Prow : forall i, 0 <= i < m -> exists t n, at_ t n (IBegin i).
Hypothesis Prow_range : forall i t n, at_ t n (IBegin i) -> 0 <= i < m.
Hypothesis Prow_unique : forall i t n t' n', at_ t n (IBegin i) -> at_ t' n' (IBegin i) -> t = t' /\ n = n'.
Hypothesis Pop : forall i t n k, at_ t n (IBegin i) -> 0 <= k < nops i -> at_ t (n + 1 + k) (IOp i k).
Hypothesis Pop_inv : forall i t q k, at_ t q (IOp i k) -> exists n, at_ t n (IBegin i) /\ q = n + 1 + k /\ 0 <= k < nops i.
Hypothesis Pdone : forall i t n, at_ t n (IBegin i) -> exists d, at_ t d (IDone (tk i)) /\ n + nops i < d.
Hypothesis Pdone_unique : forall q t d t' d', at_ t d (IDone q) -> at_ t' d' (IDone q) -> t = t' /\ d = d'.
Hypothesis Pdone_range : forall q t d, at_ t d (IDone q) -> 0 <= q < NT.
Hypothesis Pwait_row : forall i t n p, at_ t n (IBegin i) -> In p (parents (tk i)) -> exists w, at_ t w (IWait p) /\ w < n.
Hypothesis Pwait_done : forall q t d p, at_ t d (IDone q) -> In p (parents q) -> exists w, at_ t w (IWait p) /\ w < d.
Hypothesis Pwait_inv : forall t w p, at_ t w (IWait p) -> exists t' d', at_ t' d' (IDone p).
Hypothesis Pblock : forall q t d i n d', at_ t d (IDone q) -> at_ t n (IBegin i) -> at_ t d' (IDone (tk i)) -> d < d' -> d < n.

(** Happens-before between tasks: wait lists and program order. *)
Definition hb1 (q q' : Z) : Prop :=
  (In q (parents q') /\ exists t d, at_ t d (IDone q')) \/ exists t d d', at_ t d (IDone q) /\ at_ t d' (IDone q') /\ d < d'.
Definition hb := clos_trans Z hb1.

(** Adjacent rows are ordered as in the sweep. *)
Hypothesis Hcover : forall i c, 0 <= c < i -> i < m -> adj i c ->
  hb (tk c) (tk i) \/ (exists t n n', at_ t n (IBegin c) /\ at_ t n' (IBegin i) /\ n + nops c < n').

(** Invariant of the machine. *)
Definition clamp (i x : Z) : Z := Z.max 0 (Z.min (nops i) x).
Definition minv (s : mstate) : Prop :=
  Zlen (pcs s) = T /\ Zlen (locs s) = T /\ Zlen (flags s) = NT /\
  (forall t n p, get (pcs s) t = Some n -> get progs t = Some p -> 0 <= n <= Zlen p) /\
  (forall q t d n, at_ t d (IDone q) -> get (pcs s) t = Some n -> get (flags s) q = Some (if d <? n then 1 else 0)) /\
  (forall t n w q, get (pcs s) t = Some n -> at_ t w (IWait q) -> w < n -> get (flags s) q = Some 1) /\
  (exists st, mem_ok st (mem s) /\ forall i t n c, at_ t n (IBegin i) -> get (pcs s) t = Some c -> st i = clamp i (c - n - 1)) /\
  (forall i t n c, at_ t n (IBegin i) -> get (pcs s) t = Some c -> n < c <= n + nops i ->
     exists l si, get (locs s) t = Some l /\ part i (c - n - 1) = Some (l, si)).

Lemma nops_nonneg i : 0 <= nops i.
Proof. apply Zlen_nonneg. Qed.
Lemma at_fun t n c c' : at_ t n c -> at_ t n c' -> c = c'.
Proof. intros (p & A & B) (p' & A' & B'). congruence. Qed.
Lemma at_range t n c : at_ t n c -> 0 <= t < T /\ 0 <= n.
Proof. intros (p & A & B). apply get_Some_bounds in A. apply get_Some_bounds in B. lia. Qed.
Lemma pc_of s t : minv s -> 0 <= t < T -> exists n, get (pcs s) t = Some n.
Proof. intros (A & _) Ht. apply get_in_range. lia. Qed.

Lemma done_flag s q t d n : minv s -> at_ t d (IDone q) -> get (pcs s) t = Some n -> get (flags s) q = Some 1 -> d < n.
Proof. intros (_ & _ & _ & _ & H & _) A B C. rewrite (H q t d n) in C; auto. destruct (Z.ltb_spec d n); auto. discriminate. Qed.
(** A wait that has been passed. *)
Lemma waited s t n w q : minv s -> get (pcs s) t = Some n -> at_ t w (IWait q) -> w < n ->
  exists t' d' n', at_ t' d' (IDone q) /\ get (pcs s) t' = Some n' /\ d' < n'.
Proof.
  intros I Hn Hw Hl. pose proof I as (_ & _ & _ & _ & _ & H & _). pose proof (H _ _ _ _ Hn Hw Hl) as Hf.
  destruct (Pwait_inv _ _ _ Hw) as (t' & d' & Hd). destruct (at_range _ _ _ Hd) as (Ht & _). destruct (pc_of s t' I Ht) as (n' & Hn').
  exists t', d', n'. split; auto. split; auto. eapply done_flag; eauto.
Qed.
Definition is_done (s : mstate) (q : Z) : Prop := exists t d n, at_ t d (IDone q) /\ get (pcs s) t = Some n /\ d < n.
Lemma hb_done s q q' : minv s -> hb q q' -> is_done s q' -> is_done s q.
Proof.
  intros I H. induction H as [q q' H|q q' q'' H1 IH1 H2 IH2]; [|auto]. intros (t & d & n & A & B & C).
  destruct H as [(H & _)|(t' & d1 & d2 & H1 & H2 & H3)].
  - destruct (Pwait_done _ _ _ _ A H) as (w & Hw & Hl). eapply waited; eauto. lia.
  - destruct (Pdone_unique _ _ _ _ _ A H2) as (<- & <-). exists t, d1, n. split; auto. split; auto. lia.
Qed.
Lemma hb_started s q i t n c : minv s -> hb q (tk i) -> at_ t n (IBegin i) -> get (pcs s) t = Some c -> n < c -> is_done s q.
Proof.
  intros I H Hr Hc Hl. unfold hb in H. apply clos_trans_tn1 in H.
  assert (K : forall q1, hb1 q1 (tk i) -> is_done s q1).
  { intros q1 [(H1 & _)|(t' & d1 & d2 & H1 & H2 & H3)].
    - destruct (Pwait_row _ _ _ _ Hr H1) as (w & Hw & Hlw). eapply waited; eauto. lia.
    - destruct (Pdone _ _ _ Hr) as (d & Hd & _). destruct (Pdone_unique _ _ _ _ _ Hd H2) as (<- & <-).
      pose proof (Pblock _ _ _ _ _ _ H1 Hr Hd H3). exists t, d1, c. split; auto. split; auto. lia. }
  inversion H as [H1|q1 H1 H2 E]; subst; auto. apply (hb_done s q q1); auto. unfold hb. now apply clos_tn1_trans.
Qed.

Lemma pcs_step s t n pc' t1 n1 : get (pcs s) t = Some n -> set (pcs s) t (n + 1) = Some pc' -> get pc' t1 = Some n1 ->
  (t1 = t /\ n1 = n + 1) \/ (t1 <> t /\ get (pcs s) t1 = Some n1).
Proof. intros A B C. rewrite (get_set _ _ _ _ _ B) in C. destruct (Z.eqb_spec t1 t); [left; split; congruence|right; auto]. Qed.

(** One step of any thread keeps the invariant and is defined. *)
Lemma step_ok s t : minv s -> 0 <= t < T -> exists s', mstep t s = Some s' /\ minv s'.
Proof.
  intros I Ht. destruct (pc_of s t I Ht) as (n & Hn). destruct (get_in_range progs t) as (p & Hp); [lia|].
  unfold mstep. rewrite Hn, Hp. destruct (get p n) as [c|] eqn:Ec; [|exists s; auto].
  assert (Hat : at_ t n c) by (exists p; auto). pose proof I as (I1 & I2 & I3 & I4 & I5 & I6 & (st & I7 & I8) & I9).
  destruct (set_ok (pcs s) t (n + 1)) as (pc' & Epc); [lia|]. rewrite Epc. pose proof (set_len _ _ _ _ Epc) as Lpc. pose proof (get_set_same _ _ _ _ Epc) as Gpc.
  (* facts common to all instructions *)
  assert (J4 : forall t1 n1 p1, get pc' t1 = Some n1 -> get progs t1 = Some p1 -> 0 <= n1 <= Zlen p1).
  { intros t1 n1 p1 A B. destruct (pcs_step _ _ _ _ _ _ Hn Epc A) as [(-> & ->)|(N & A')]; [|eauto].
    pose proof (get_Some_bounds _ _ _ Ec). assert (p1 = p) by congruence. subst p1. lia. }
  assert (Jclamp : forall i t1 n1 c1, (forall k, c <> IOp i k) -> at_ t1 n1 (IBegin i) -> get pc' t1 = Some c1 -> st i = clamp i (c1 - n1 - 1)).
  { intros i t1 n1 c1 Hno A B. destruct (pcs_step _ _ _ _ _ _ Hn Epc B) as [(-> & ->)|(N & B')]; [|eauto].
    rewrite (I8 _ _ _ _ A Hn). unfold clamp. destruct (Z_lt_ge_dec (n - n1 - 1) 0); [|destruct (Z_lt_ge_dec (n - n1 - 1) (nops i)); [|lia]].
    - lia.
    - exfalso. pose proof (Pop i t n1 (n - n1 - 1) A ltac:(lia)) as Q. replace (n1 + 1 + (n - n1 - 1)) with n in Q by lia.
      apply (Hno (n - n1 - 1)). eapply at_fun; eauto. }
  assert (Jloc : forall i t1 n1 c1, c <> IBegin i -> (forall k, c <> IOp i k) -> at_ t1 n1 (IBegin i) -> get pc' t1 = Some c1 -> n1 < c1 <= n1 + nops i ->
     exists l si, get (locs s) t1 = Some l /\ part i (c1 - n1 - 1) = Some (l, si)).
  { intros i t1 n1 c1 Hno1 Hno A B Hr. destruct (pcs_step _ _ _ _ _ _ Hn Epc B) as [(-> & ->)|(N & B')]; [|eauto]. exfalso.
    destruct (Z.eq_dec n n1) as [->|Nn]; [apply Hno1; eapply at_fun; eauto|].
    pose proof (Pop i t n1 (n - n1 - 1) A ltac:(lia)) as Q. replace (n1 + 1 + (n - n1 - 1)) with n in Q by lia. eapply Hno. eapply at_fun; eauto. }
  assert (J5 : (forall q, c <> IDone q) -> forall q t1 d n1, at_ t1 d (IDone q) -> get pc' t1 = Some n1 -> get (flags s) q = Some (if d <? n1 then 1 else 0)).
  { intros Hno q t1 d n1 A B. destruct (pcs_step _ _ _ _ _ _ Hn Epc B) as [(-> & ->)|(N & B')]; [|eauto].
    rewrite (I5 q t d n) by auto. destruct (Z.ltb_spec d n), (Z.ltb_spec d (n + 1)); auto; try lia.
    assert (d = n) by lia. subst d. exfalso. apply (Hno q). eapply at_fun; eauto. }
  assert (J6 : (forall q, c <> IWait q) -> forall t1 n1 w q, get pc' t1 = Some n1 -> at_ t1 w (IWait q) -> w < n1 -> get (flags s) q = Some 1).
  { intros Hno t1 n1 w q A B Hw. destruct (pcs_step _ _ _ _ _ _ Hn Epc A) as [(-> & ->)|(N & B')]; [|eauto].
    destruct (Z.eq_dec w n) as [->|]; [exfalso; apply (Hno q); eapply at_fun; eauto|]. eapply I6; eauto. lia. }
  destruct c as [q|i|i k|q].
  - (* wait *)
    destruct (Pwait_inv _ _ _ Hat) as (t2 & d2 & Hd2). destruct (get_in_range (flags s) q) as (f & Ef); [pose proof (Pdone_range _ _ _ Hd2); lia|].
    rewrite Ef. destruct (Z.eqb_spec f 0); [exists s; auto|]. eexists. split; [reflexivity|].
    unfold minv. cbn [pcs flags locs mem]. split; [lia|]. split; [auto|]. split; [auto|]. split; [exact J4|]. split; [apply J5; discriminate|]. split.
    + intros t1 n1 w q1 A B Hw. destruct (pcs_step _ _ _ _ _ _ Hn Epc A) as [(-> & ->)|(N & B')]; [|eauto].
      destruct (Z.eq_dec w n) as [->|]; [|eapply I6; eauto; lia]. pose proof (at_fun _ _ _ _ Hat B) as Q. injection Q as ->.
      destruct (at_range _ _ _ Hd2) as (Ht2 & _). destruct (pc_of s t2 I Ht2) as (n2 & Hn2). rewrite (I5 _ _ _ _ Hd2 Hn2) in *.
      destruct (d2 <? n2); auto. congruence.
    + split.
      * exists st. split; auto. intros. eapply Jclamp; eauto. discriminate.
      * intros. eapply Jloc; eauto; discriminate.
  - (* start of a row *)
    destruct (set_ok (locs s) t l0) as (ls & Els); [lia|]. rewrite Els. eexists. split; [reflexivity|]. pose proof (set_len _ _ _ _ Els).
    unfold minv. cbn [pcs flags locs mem]. split; [lia|]. split; [lia|]. split; [auto|]. split; [exact J4|]. split; [apply J5; discriminate|].
    split; [apply J6; discriminate|]. split.
    + exists st. split; auto. intros. eapply Jclamp; eauto. discriminate.
    + intros i1 t1 n1 c1 A B Hr. destruct (pcs_step _ _ _ _ _ _ Hn Epc B) as [(-> & ->)|(N & B')].
      * destruct (Z.eq_dec i1 i) as [->|N].
        -- destruct (Prow_unique _ _ _ _ _ A Hat) as (_ & ->). destruct (seqmem_ok i) as (si & Es). { pose proof (Prow_range _ _ _ Hat). lia. }
           exists l0, si. split; [apply (get_set_same _ _ _ _ Els)|]. replace (n + 1 - n - 1) with 0 by lia. now apply part_0.
        -- exfalso. assert (N2 : n <> n1). { intros ->. pose proof (at_fun _ _ _ _ A Hat). congruence. }
           pose proof (Pop i1 t n1 (n - n1 - 1) A ltac:(lia)) as Q. replace (n1 + 1 + (n - n1 - 1)) with n in Q by lia. pose proof (at_fun _ _ _ _ Q Hat). discriminate.
      * destruct (I9 _ _ _ _ A B' Hr) as (l & si & C1 & C2). exists l, si. split; auto. now rewrite (get_set_other _ _ _ _ _ Els) by auto.
  - (* operation *)
    destruct (Pop_inv _ _ _ _ Hat) as (b & Hb & Eq & Hk). pose proof (Prow_range _ _ _ Hb) as Hi.
    destruct (get_in_range (ops i) k) as (o & Eo); [exact Hk|]. rewrite Eo.
    destruct (I9 i t b n Hb Hn ltac:(lia)) as (l & si & El & Ep). replace (n - b - 1) with k in Ep by lia. rewrite El.
    assert (Sk : st i = k). { rewrite (I8 _ _ _ _ Hb Hn). unfold clamp. lia. }
    destruct (Pdone _ _ _ Hb) as (d & Hd & Hdl).
    destruct (op_step st (mem s) i k o l si) as (l' & m' & Ex & (si' & Ep') & Hm'); auto.
    { intros c Hc Ha. destruct (Prow c ltac:(lia)) as (tc & bc & Hbc). destruct (at_range _ _ _ Hbc) as (Htc & _). destruct (pc_of s tc I Htc) as (cc & Hcc).
      rewrite (I8 _ _ _ _ Hbc Hcc). destruct (Hcover i c Hc ltac:(lia) Ha) as [Hh|(t' & x & x' & X1 & X2 & X3)].
      - destruct (hb_started s (tk c) i t b n I Hh Hb Hn ltac:(lia)) as (t2 & d2 & n2 & D1 & D2 & D3).
        destruct (Pdone _ _ _ Hbc) as (dc & Hdc & Hdcl). destruct (Pdone_unique _ _ _ _ _ D1 Hdc) as (-> & ->). assert (n2 = cc) by congruence.
        unfold clamp. pose proof (nops_nonneg c). lia.
      - destruct (Prow_unique _ _ _ _ _ X1 Hbc) as (-> & ->). destruct (Prow_unique _ _ _ _ _ X2 Hb) as (-> & ->). assert (cc = n) by congruence.
        unfold clamp. pose proof (nops_nonneg c). lia. }
    { intros c Hc Ha. destruct (Prow c ltac:(lia)) as (tc & bc & Hbc). destruct (at_range _ _ _ Hbc) as (Htc & _). destruct (pc_of s tc I Htc) as (cc & Hcc).
      rewrite (I8 _ _ _ _ Hbc Hcc). destruct (Hadj i c Ha) as (_ & Ha'); try lia.
      assert (X : cc <= bc \/ bc < cc) by lia. destruct X as [X|X]; [unfold clamp; pose proof (nops_nonneg c); lia|]. exfalso.
      destruct (Hcover c i ltac:(lia) ltac:(lia) Ha') as [Hh|(t' & x & x' & X1 & X2 & X3)].
      - destruct (hb_started s (tk i) c tc bc cc I Hh Hbc Hcc X) as (t2 & d2 & n2 & D1 & D2 & D3).
        destruct (Pdone_unique _ _ _ _ _ D1 Hd) as (-> & ->). assert (n2 = n) by congruence. lia.
      - destruct (Prow_unique _ _ _ _ _ X1 Hb) as (-> & ->). destruct (Prow_unique _ _ _ _ _ X2 Hbc) as (-> & ->). assert (cc = n) by congruence. lia. }
    rewrite Ex. destruct (set_ok (locs s) t l') as (ls & Els); [lia|]. rewrite Els. eexists. split; [reflexivity|]. pose proof (set_len _ _ _ _ Els).
    unfold minv. cbn [pcs flags locs mem]. split; [lia|]. split; [lia|]. split; [auto|]. split; [exact J4|]. split; [apply J5; discriminate|].
    split; [apply J6; discriminate|]. split.
    + exists (fun c => if c =? i then k + 1 else st c). split.
      * apply Hm'; [now rewrite Z.eqb_refl|]. intros c Hc. destruct (Z.eqb_spec c i); [contradiction|auto].
      * intros i1 t1 n1 c1 A B. destruct (Z.eqb_spec i1 i) as [->|N].
        -- destruct (Prow_unique _ _ _ _ _ A Hb) as (-> & ->). assert (c1 = n + 1) by congruence. unfold clamp. lia.
        -- eapply Jclamp; eauto. congruence.
    + intros i1 t1 n1 c1 A B Hr. destruct (Z.eq_dec i1 i) as [->|N].
      * destruct (Prow_unique _ _ _ _ _ A Hb) as (-> & ->). assert (c1 = n + 1) by congruence. subst c1.
        exists l', si'. split; [apply (get_set_same _ _ _ _ Els)|]. now replace (n + 1 - b - 1) with (k + 1) by lia.
      * destruct (Z.eq_dec t1 t) as [->|Nt].
        -- exfalso. assert (c1 = n + 1) by congruence. subst c1. assert (Nn : n <> n1). { intros ->. pose proof (at_fun _ _ _ _ A Hat). discriminate. }
           pose proof (Pop i1 t n1 (n - n1 - 1) A ltac:(lia)) as Q. replace (n1 + 1 + (n - n1 - 1)) with n in Q by lia. pose proof (at_fun _ _ _ _ Q Hat). congruence.
        -- destruct (Jloc i1 t1 n1 c1) as (l1 & s1 & C1 & C2); auto; try discriminate. { congruence. }
           exists l1, s1. split; auto. now rewrite (get_set_other _ _ _ _ _ Els) by auto.
  - (* notification *)
    pose proof (Pdone_range _ _ _ Hat) as Hq. destruct (set_ok (flags s) q 1) as (fl & Efl); [lia|]. rewrite Efl. eexists. split; [reflexivity|].
    pose proof (set_len _ _ _ _ Efl). unfold minv. cbn [pcs flags locs mem]. split; [lia|]. split; [lia|]. split; [lia|]. split; [exact J4|]. split; [|split; [|split]].
    + intros q1 t1 d n1 A B. rewrite (get_set _ _ _ _ _ Efl). destruct (Z.eqb_spec q1 q) as [->|N].
      * destruct (Pdone_unique _ _ _ _ _ A Hat) as (-> & ->). assert (n1 = n + 1) by congruence. subst n1. destruct (Z.ltb_spec n (n + 1)); auto. lia.
      * destruct (pcs_step _ _ _ _ _ _ Hn Epc B) as [(-> & ->)|(Nt & B')]; [|eauto].
        rewrite (I5 q1 t d n) by auto. destruct (Z.ltb_spec d n), (Z.ltb_spec d (n + 1)); auto; try lia.
        assert (d = n) by lia. subst d. pose proof (at_fun _ _ _ _ A Hat). congruence.
    + intros t1 n1 w q1 A B Hw. assert (F : get (flags s) q1 = Some 1) by (eapply J6; eauto; discriminate).
      rewrite (get_set _ _ _ _ _ Efl). destruct (Z.eqb_spec q1 q); auto.
    + exists st. split; auto. intros. eapply Jclamp; eauto. discriminate.
    + intros. eapply Jloc; eauto; discriminate.
Qed.

Definition minit (f : list Z) (ls : list L) : mstate := mkM (map (fun _ => 0) (zrange 0 T)) f ls s0.
Lemma pc_init t n : get (map (fun _ => 0) (zrange 0 T)) t = Some n -> n = 0.
Proof. rewrite get_map. destruct (get (zrange 0 T) t); cbn [option_map]; congruence. Qed.
Lemma init_ok f ls : Zlen f = NT -> (forall q, 0 <= q < NT -> get f q = Some 0) -> Zlen ls = T -> minv (minit f ls).
Proof.
  intros Hf Hz Hl. assert (T0 : 0 <= T) by (rewrite <- HT; apply Zlen_nonneg). unfold minv, minit. cbn [pcs flags locs mem].
  split; [rewrite Zlen_map, Zlen_zrange; lia|]. split; [auto|]. split; [auto|]. split; [|split; [|split; [|split]]].
  - intros t n p A _. apply pc_init in A. pose proof (Zlen_nonneg p). lia.
  - intros q t d n A B. apply pc_init in B. subst n. pose proof (at_range _ _ _ A). destruct (Z.ltb_spec d 0); [lia|]. apply Hz. eapply Pdone_range; eauto.
  - intros t n w q A B Hw. apply pc_init in A. pose proof (at_range _ _ _ B). lia.
  - exists (fun _ => 0). split.
    + split; auto. split; auto. intros i p Hi Ho. destruct (seqmem_ok i) as (s & Es); [lia|]. exists l0, s. split; [now apply part_0|].
      symmetry. apply (seqmem_frame i s p); auto; lia.
    + intros i t n c A B. apply pc_init in B. pose proof (at_range _ _ _ A). unfold clamp. pose proof (nops_nonneg i). lia.
  - intros i t n c A B. apply pc_init in B. pose proof (at_range _ _ _ A). lia.
Qed.

Theorem run_ok sched f ls : Zlen f = NT -> (forall q, 0 <= q < NT -> get f q = Some 0) -> Zlen ls = T -> (forall t, In t sched -> 0 <= t < T) ->
  exists s', mrun sched (minit f ls) = Some s' /\ minv s'.
Proof.
  intros Hf Hz Hl. pose proof (init_ok f ls Hf Hz Hl) as I. revert I. generalize (minit f ls). unfold mrun.
  induction sched as [|t sched IH]; intros s I Hs; cbn [foldM]; eauto.
  destruct (step_ok s t I) as (s1 & -> & I1); [apply Hs; now left|]. apply IH; auto. intros t' Ht'. apply Hs. now right.
Qed.

Theorem finished_ok s : minv s -> finished s -> mem s = fin.
Proof.
  intros (I1 & I2 & I3 & I4 & I5 & I6 & (st & M & I8) & I9) F. apply (mem_ok_full st); auto. intros i Hi.
  destruct (Prow i Hi) as (t & n & A). pose proof A as (pr & A1 & A2). pose proof (F _ _ A1) as Hc. rewrite (I8 _ _ _ _ A Hc).
  destruct (Pdone _ _ _ A) as (d & (pr' & D1 & D2) & Hd). apply get_Some_bounds in D2. assert (pr' = pr) by congruence. subst pr'.
  unfold clamp. pose proof (nops_nonneg i). lia.
Qed.

(** ** No deadlock *)
Variable rank : Z -> Z.
Hypothesis Hrank : forall q q', hb1 q q' -> 0 <= rank q < rank q'.

Hypothesis Pwait_own : forall t w q, at_ t w (IWait q) -> exists q' d', at_ t d' (IDone q') /\ w < d' /\ In q (parents q') /\
  forall q2 d2, at_ t d2 (IDone q2) -> w < d2 -> d' <= d2.

(** The thread executes an instruction. *)
Definition moves (s : mstate) (t : Z) : Prop :=
  exists s' n, mstep t s = Some s' /\ get (pcs s) t = Some n /\ get (pcs s') t = Some (n + 1).

Lemma step_moves s t n c : minv s -> get (pcs s) t = Some n -> at_ t n c ->
  (forall q, c = IWait q -> get (flags s) q <> Some 0) -> moves s t.
Proof.
  intros I Hn Hat Hw. destruct (at_range _ _ _ Hat) as (Ht & _). destruct (step_ok s t I Ht) as (s' & Es & _). exists s', n. split; auto. split; auto.
  destruct Hat as (p & Hp & Ec). unfold mstep in Es. rewrite Hn, Hp, Ec in Es. destruct (set (pcs s) t (n + 1)) as [pc'|] eqn:Epc; [|discriminate].
  pose proof (get_set_same _ _ _ _ Epc) as G. destruct c as [q|i|i k|q].
  - specialize (Hw q eq_refl). destruct (get (flags s) q) as [f|]; [|discriminate]. destruct (Z.eqb_spec f 0); [congruence|]. injection Es as <-. exact G.
  - destruct (set (locs s) t l0); [|discriminate]. injection Es as <-. exact G.
  - destruct (get (ops i) k) as [o|]; [|discriminate]. destruct (get (locs s) t) as [l|]; [|discriminate]. destruct (exec o l (mem s)) as [[l' m']|]; [|discriminate].
    destruct (set (locs s) t l'); [|discriminate]. injection Es as <-. exact G.
  - destruct (set (flags s) q 1); [|discriminate]. injection Es as <-. exact G.
Qed.

(** A blocked wait leads to a thread that moves: the awaited task is unfinished,
    and if its thread is blocked too, then on a task of smaller rank. *)
Lemma unblock N : forall s t n q, (Z.to_nat (rank q) < N)%nat -> minv s -> get (pcs s) t = Some n -> at_ t n (IWait q) ->
  get (flags s) q = Some 0 -> exists t', 0 <= t' < T /\ moves s t'.
Proof.
  induction N as [|N IH]; intros s t n q HN I Hn Hat Hf; [lia|].
  destruct (Pwait_inv _ _ _ Hat) as (t1 & d1 & Hd). destruct (at_range _ _ _ Hd) as (Ht1 & _). destruct (pc_of s t1 I Ht1) as (n1 & Hn1).
  pose proof I as (I1 & I2 & I3 & I4 & I5 & I6 & I7 & I9). pose proof (I5 _ _ _ _ Hd Hn1) as Q. rewrite Hf in Q.
  destruct (Z.ltb_spec d1 n1) as [|Hl]; [discriminate|].
  pose proof Hd as (p1 & A1 & A2). pose proof (get_Some_bounds _ _ _ A2). pose proof (I4 _ _ _ Hn1 A1).
  destruct (get_in_range p1 n1) as (c1 & Ec1); [lia|]. assert (Hat1 : at_ t1 n1 c1) by (exists p1; auto).
  assert (Dec : (exists q1, c1 = IWait q1 /\ get (flags s) q1 = Some 0) \/ (forall q1, c1 = IWait q1 -> get (flags s) q1 <> Some 0)).
  { destruct c1 as [q1|i1|i1 k1|q1]; try (right; intros; discriminate). destruct (get (flags s) q1) as [f|] eqn:Ef; [|right; congruence].
    destruct (Z.eq_dec f 0) as [->|]; [left; eauto|right; intros ? E; injection E as <-; congruence]. }
  destruct Dec as [(q1 & -> & Ef)|Hw].
  - apply (IH s t1 n1 q1); auto. destruct (Pwait_own _ _ _ Hat1) as (q2 & d2 & B1 & B2 & B3 & B4).
    assert (R1 : 0 <= rank q1 < rank q2) by (apply Hrank; left; split; eauto).
    assert (n1 <> d1). { intros ->. pose proof (at_fun _ _ _ _ Hat1 Hd). discriminate. }
    pose proof (B4 _ _ Hd ltac:(lia)). destruct (Z.eq_dec d2 d1) as [->|Nd].
    + pose proof (at_fun _ _ _ _ B1 Hd) as E. injection E as ->. lia.
    + assert (0 <= rank q2 < rank q). { apply Hrank. right. exists t1, d2, d1. split; auto. split; auto. lia. } lia.
  - exists t1. split; auto. eapply step_moves; eauto.
Qed.

Lemma progress s : minv s -> finished s \/ exists t, 0 <= t < T /\ moves s t.
Proof.
  intros I.
  assert (X : (exists t n c, get (pcs s) t = Some n /\ at_ t n c) \/ finished s).
  { pose proof I as (I1 & I2 & I3 & I4 & _).
    assert (Y : forall k, 0 <= k -> k <= T -> (exists t n c, get (pcs s) t = Some n /\ at_ t n c) \/ (forall t p, t < k -> get progs t = Some p -> get (pcs s) t = Some (Zlen p))).
    { intros k Hk. pattern k. revert k Hk. apply Z_ind0.
      - intros _. right. intros t p Ht Hp. apply get_Some_bounds in Hp. lia.
      - intros k Hk IH HkT. destruct (IH ltac:(lia)) as [Y|Y]; [left; auto|]. destruct (pc_of s k I) as (n & Hn); [lia|]. destruct (get_in_range progs k) as (p & Hp); [lia|].
        pose proof (I4 _ _ _ Hn Hp). destruct (Z_lt_ge_dec n (Zlen p)) as [Z1|Z1].
        + left. destruct (get_in_range p n) as (c & Ec); [lia|]. exists k, n, c. split; auto. exists p; auto.
        + right. intros t p' Ht Hp'. destruct (Z.eq_dec t k) as [->|]; [|apply Y; auto; lia]. assert (p' = p) by congruence. subst p'. rewrite Hn. f_equal. lia. }
    destruct (Y T) as [Y1|Y1]; [rewrite <- HT; apply Zlen_nonneg|lia|left; auto|]. right. intros t p Hp. apply Y1; auto. apply get_Some_bounds in Hp. lia. }
  destruct X as [(t & n & c & Hn & Hat)|X]; [right|left; exact X]. destruct (at_range _ _ _ Hat) as (Ht & _).
  assert (Dec : (exists q1, c = IWait q1 /\ get (flags s) q1 = Some 0) \/ (forall q1, c = IWait q1 -> get (flags s) q1 <> Some 0)).
  { destruct c as [q1|i1|i1 k1|q1]; try (right; intros; discriminate). destruct (get (flags s) q1) as [f|] eqn:Ef; [|right; congruence].
    destruct (Z.eq_dec f 0) as [->|]; [left; eauto|right; intros ? E; injection E as <-; congruence]. }
  destruct Dec as [(q1 & -> & Ef)|Hw]; [eapply unblock; eauto|]. exists t. split; auto. eapply step_moves; eauto.
Qed.

Theorem no_deadlock s : minv s -> ~ finished s -> exists t, 0 <= t < T /\ moves s t.
Proof. intros I F. destruct (progress s I); auto. contradiction. Qed.

(** Every step that is not a spin advances a program counter. *)
Definition total : Z := zsum (map (@Zlen instr) progs).
Lemma zsum_set l t n l' : get l t = Some n -> set l t (n + 1) = Some l' -> zsum l' = zsum l + 1.
Proof.
  intros A B. unfold get in A. destruct (set_Some_inv _ _ _ _ B) as (B1 & ->). destruct (Z.ltb_spec t 0); [lia|]. revert A. generalize (Z.to_nat t). clear.
  intros k. revert l. induction l as [|x l IH] in k |- *; intros H; destruct k as [|k]; cbn [nth_error] in H; try discriminate; cbn [upd]; unfold zsum; cbn [fold_right]; fold (zsum l).
  - injection H as ->. lia.
  - fold (zsum (upd l k (n + 1))). rewrite (IH _ H). lia.
Qed.
Lemma step_work s t s' : minv s -> mstep t s = Some s' -> s' = s \/ zsum (pcs s') = zsum (pcs s) + 1.
Proof.
  intros I Es. unfold mstep in Es. destruct (get (pcs s) t) as [n|] eqn:Hn; [|discriminate]. destruct (get progs t) as [p|]; [|discriminate].
  destruct (get p n) as [c|]; [|left; congruence]. destruct (set (pcs s) t (n + 1)) as [pc'|] eqn:Epc; [|discriminate].
  pose proof (zsum_set _ _ _ _ Hn Epc) as W. destruct c as [q|i|i k|q].
  - destruct (get (flags s) q) as [f|]; [|discriminate]. destruct (f =? 0); [left; congruence|]. right. injection Es as <-. exact W.
  - destruct (set (locs s) t l0); [|discriminate]. right. injection Es as <-. exact W.
  - destruct (get (ops i) k) as [o|]; [|discriminate]. destruct (get (locs s) t) as [l|]; [|discriminate]. destruct (exec o l (mem s)) as [[l' m']|]; [|discriminate].
    destruct (set (locs s) t l'); [|discriminate]. right. injection Es as <-. exact W.
  - destruct (set (flags s) q 1); [|discriminate]. right. injection Es as <-. exact W.
Qed.
Lemma zsum_le l l' : Zlen l = Zlen l' -> (forall t a b, get l t = Some a -> get l' t = Some b -> 0 <= a <= b) -> 0 <= zsum l <= zsum l'.
Proof.
  revert l'. induction l as [|x l IH]; intros [|y l'] HL H; rewrite ?Zlen_cons, ?Zlen_nil in HL.
  - cbn. lia.
  - pose proof (Zlen_nonneg l'). lia.
  - pose proof (Zlen_nonneg l). lia.
  - unfold zsum. cbn [fold_right]. fold (zsum l) (zsum l'). pose proof (H 0 x y eq_refl eq_refl). destruct (IH l') as (A & B); [lia| |lia].
    intros t a b Ha Hb. pose proof (get_Some_bounds _ _ _ Ha). apply (H (t + 1)); rewrite get_cons_S by lia; auto.
Qed.
Lemma work_bound s : minv s -> 0 <= zsum (pcs s) <= total.
Proof.
  intros (I1 & _ & _ & I4 & _). apply zsum_le; [rewrite Zlen_map; lia|]. intros t a b Ha Hb. rewrite get_map in Hb.
  destruct (get progs t) as [p|] eqn:Hp; [|discriminate]. cbn [option_map] in Hb. injection Hb as <-. eapply I4; eauto.
Qed.
Lemma moves_work s t s' : minv s -> moves s t -> mstep t s = Some s' -> zsum (pcs s') = zsum (pcs s) + 1.
Proof.
  intros I (s1 & n & E & A & B) E2. assert (s1 = s') by congruence. subst s1. destruct (step_work s t s' I E2) as [->|]; auto.
  exfalso. rewrite A in B. injection B. lia.
Qed.
(** Every fair execution ends. *)
Theorem fair_ends (f : nat -> Z) : (forall n, 0 <= f n < T) -> (forall t N, 0 <= t < T -> exists n, (N <= n)%nat /\ f n = t) ->
  forall k s n0, (Z.to_nat (total - zsum (pcs s)) <= k)%nat -> minv s ->
  exists N s', mrun (map f (seq n0 N)) s = Some s' /\ minv s' /\ finished s'.
Proof.
  intros Hf Hfair. induction k as [|k IH]; intros s n0 Hk I.
  - destruct (progress s I) as [F|(t & Ht & Hm)]. { exists 0%nat, s. auto. }
    exfalso. destruct (step_ok s t I Ht) as (s1 & E1 & I1). pose proof (moves_work _ _ _ I Hm E1). pose proof (work_bound _ I). pose proof (work_bound _ I1). lia.
  - destruct (progress s I) as [F|(t & Ht & Hm)]. { exists 0%nat, s. auto. }
    destruct (Hfair t n0 Ht) as (n1 & Hn1 & Et).
    assert (G : forall d, (n0 + d = n1)%nat \/ (n0 + d < n1)%nat -> (exists s1, mrun (map f (seq n0 d)) s = Some s1 /\ minv s1 /\ (s1 = s \/ zsum (pcs s1) > zsum (pcs s)))).
    { induction d as [|d IHd]; intros Hd. { exists s. auto. }
      destruct IHd as (s1 & E1 & I1 & D1); [lia|]. destruct (step_ok s1 (f (n0 + d)%nat) I1 (Hf _)) as (s2 & E2 & I2). exists s2.
      rewrite seq_S, map_app. unfold mrun in *. rewrite foldM_app, E1. cbn [map foldM]. rewrite E2. split; auto. split; auto.
      destruct (step_work _ _ _ I1 E2) as [->|W]; auto. right. destruct D1 as [->|]; lia. }
    destruct (G (n1 - n0)%nat) as (s1 & E1 & I1 & D1); [lia|].
    assert (G2 : exists d s2, mrun (map f (seq n0 d)) s = Some s2 /\ minv s2 /\ zsum (pcs s2) > zsum (pcs s)).
    { destruct D1 as [->|D1]; [|exists (n1 - n0)%nat, s1; auto]. destruct (step_ok s t I Ht) as (s2 & E2 & I2). exists (S (n1 - n0))%nat, s2.
      rewrite seq_S, map_app. unfold mrun in *. rewrite foldM_app, E1. cbn [map foldM]. replace (n0 + (n1 - n0))%nat with n1 by lia. rewrite Et, E2. split; auto. split; auto.
      pose proof (moves_work _ _ _ I Hm E2). lia. }
    destruct G2 as (d & s2 & E2 & I2 & D2). pose proof (work_bound _ I2). destruct (IH s2 (n0 + d)%nat) as (N & s3 & E3 & I3 & F3); [lia|auto|].
    exists (d + N)%nat, s3. rewrite seq_app, map_app. unfold mrun in *. rewrite foldM_app, E2. auto.
Qed.
End Proof.
End Machine.
