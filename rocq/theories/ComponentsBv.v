(** * Connected components among the nodes whose bit is clear
    (/repo/reordering/ConnectedComponents.cpp:58-325 with WITH_BIT_VECTOR = true,
    called by findConnectedComponentsWithBitVector, 342-354).

    Union, compression and numbering are those of UnionFind and Components, on
    the nodes gathered at lines 81-121.  [p] is not initialised at the other
    nodes.  Integers are unbounded (A->m*omp_get_max_threads() at line 82 is an
    int in the program).  The debug-only checks at 297-320 are in
    ComponentsDebug.v. *)
From Coq Require Import Relations.
From Verif Require Import Base Spec Interleave Partition PrefixSum Flat CountSort Csr BitVector UnionFind Components UnionFresh.

(** ** Model *)
(** Lines 94-101: the nodes of a range whose bit is clear, in order. *)
Fixpoint bv_todo (bv l : list Z) : option (list Z) :=
  match l with
  | [] => Some []
  | i :: r => b <- bv_get bv i ;; rest <- bv_todo bv r ;; Some (if b : bool then rest else i :: rest)
  end.
(** Uninitialised memory: nodesToFindArray, nodesToFindCnt, nodesToFind, p. *)
Record bv_junk := mkBvJunk { g_arr : list Z; g_cnt : list Z; g_nodes : Z -> list Z; g_p : list Z }.
(** The allocations of lines 65, 82, 83 and 111. *)
Definition bv_junk_ok (m T : Z) (g : bv_junk) : Prop :=
  Zlen (g_arr g) = m * T /\ Zlen (g_cnt g) = T + 1 /\ (forall k, 0 <= k -> Zlen (g_nodes g k) = k) /\ Zlen (g_p g) = m.

(** Line 97: thread [t] stores its list from m*t on. *)
Definition bv_put (m : Z) (ls : list (list Z)) (t : Z) : list (Z * Z) :=
  combine (zrange (m * t) (m * t + Zlen (nthl ls t))) (nthl ls t).
(** Lines 115-117, element [k] of thread [t]. *)
Definition bv_copy (m : Z) (cnts arr : list Z) (a : Z * Z) (nodes : list Z) : option (list Z) :=
  let (t, k) := a in
  s <- get cnts t ;; v <- get arr (m * t + k) ;; set nodes (s + k) v.
(** Lines 82-118; one schedule for the array, one for the counts, one for the copies. *)
Definition bv_gather (m T : Z) (bv : list Z) (sch : nat -> list nat) (g : bv_junk) : option (list Z) :=
  ls <- mapM (fun t => bv_todo bv (cc_chunk m T t)) (zrange 0 T) ;;
  arr <- par (sch 0%nat) (fun a w => set w (fst a) (snd a)) (map (bv_put m ls) (zrange 0 T)) (g_arr g) ;;
  cnts <- par (sch 1%nat) (fun t w => set w (t + 1) (Zlen (nthl ls t))) (singletons T) (g_cnt g) ;;
  ' (cnts, k) <- ps_master T cnts ;;
  par (sch 2%nat) (bv_copy m cnts arr) (map (fun t => map (fun k => (t, k)) (zrange 0 (Zlen (nthl ls t)))) (zrange 0 T)) (g_nodes g k).

(** Lines 152-155, with the assertion. *)
Definition bv_row {V} (A : csr V) (base : Z) (bv : list Z) (x : Z) : option (list (Z * Z)) :=
  es <- cc_row A base x ;;
  _ <- mapM (fun e => b <- bv_get bv (snd e) ;; if b : bool then None else Some tt) es ;;
  Some es.
(** Lines 81-155: the nodes of each thread and the state in which the union starts. *)
Definition bv_start {V} (A : csr V) (T : Z) (bv : list Z) (sch : nat -> list nat) (g : bv_junk) : option (list (list Z) * ustate) :=
  base <- getBase A ;;
  nodes <- bv_gather (cm A) T bv sch g ;;
  chs <- mapM (fun t => mapM (get nodes) (cc_chunk (Zlen nodes) T t)) (zrange 0 T) ;;
  p <- par (sch 3%nat) (fun ii w => set w ii ii) chs (g_p g) ;;
  work <- mapM (fun l => rs <- mapM (bv_row A base bv) l ;; Some (concat rs)) chs ;;
  Some (chs, (p, map (fun w => (Next, w)) work)).
(** Compression with the assertion at line 190. *)
Definition bv_cstep (bv : list Z) (t : Z) (s : cstate) : option cstate :=
  s' <- cstep t s ;;
  ' (pc, _, _) <- get (snd s) t ;;
  ' (pc', _, _) <- get (snd s') t ;;
  match pc, pc' with
  | CLoad _ _, CTest _ r => b <- bv_get bv r ;; if b : bool then None else Some s'
  | _, _ => Some s'
  end.
Definition bv_cc {V} (A : csr V) (T : Z) (bv : list Z) (us cs : list Z) (sch : nat -> list nat) (g : bv_junk) (j : cc_junk) : option (ustate * cstate * cc_result) :=
  ' (chs, s0) <- bv_start A T bv sch g ;;
  u <- foldM ustep us s0 ;;
  c <- foldM (bv_cstep bv) cs (cinit_on (nthl chs) T (fst u)) ;;
  r <- cc_number_on (nthl chs) T (fun i => sch (4 + i)%nat) c j ;;
  Some (u, c, r).

(** ** Specification *)
Definition is_clear (bv : list Z) (v : Z) : Prop := bit bv v = Some false.

(** ** Gathering the nodes *)
Definition clearb (bv : list Z) (i : Z) : bool := match bit bv i with Some b => negb b | None => false end.
Lemma clearb_iff bv i : clearb bv i = true <-> is_clear bv i.
Proof. unfold clearb, is_clear. destruct (bit bv i) as [[|]|]; cbn; split; congruence. Qed.
Lemma bv_todo_ok bv l : (forall i, In i l -> 0 <= i < Zlen bv) -> bv_todo bv l = Some (filter (clearb bv) l).
Proof.
  induction l as [|i l IH]; intros H; [reflexivity|]. cbn [bv_todo filter]. rewrite bv_get_bit. unfold clearb at 1. destruct (bit_ex bv i) as (b & ->); [apply H; now left|].
  rewrite IH by (intros; apply H; now right). now destruct b.
Qed.

Section Gather.
Variables (m T : Z) (bv : list Z).
Hypothesis Hm : 0 <= m.
Hypothesis HT : 1 <= T.
Hypothesis Hbv : m <= Zlen bv.
Definition clears : list Z := filter (clearb bv) (zrange 0 m).
Let f (t : Z) : list Z := filter (clearb bv) (cc_chunk m T t).
Lemma clears_flat : clears = flat f T.
Proof. unfold clears, f. now rewrite <- (chunks_concat m T) by auto; rewrite filter_flat. Qed.
Lemma chunk_len t : 0 <= t < T -> Zlen (cc_chunk m T t) <= m.
Proof.
  intros Ht. assert (incl (cc_chunk m T t) (zrange 0 m)) as H by (intros x Hx; apply In_zrange; now apply (chunk_range m T t)).
  assert (NoDup (cc_chunk m T t)) as N by (unfold cc_chunk; destruct (simple_partition m T t); apply NoDup_zrange).
  pose proof (NoDup_incl_length N H) as L. pose proof (Zlen_zrange 0 m) as Z0. unfold Zlen in *. lia.
Qed.
Lemma filter_len {A} (q : A -> bool) l : Zlen (filter q l) <= Zlen l.
Proof. induction l as [|a l IH]; cbn [filter]; [lia|]. destruct (q a); rewrite !Zlen_cons; lia. Qed.
Lemma f_len t : 0 <= t < T -> Zlen (f t) <= m.
Proof. intros Ht. pose proof (filter_len (clearb bv) (cc_chunk m T t)). pose proof (chunk_len t Ht). unfold f. lia. Qed.

Lemma gather_ok sch g : bv_junk_ok m T g -> bv_gather m T bv sch g = Some clears.
Proof.
  intros (J1 & J2 & J3 & _). unfold bv_gather.
  rewrite (mapM_zrange _ f) by (intros t Ht; apply bv_todo_ok; intros i Hi; apply (chunk_range m T t) in Hi; auto; lia).
  set (ls := map f (zrange 0 T)).
  assert (Hls : forall t, 0 <= t < T -> nthl ls t = f t) by (intros t Ht; apply nthl_get; unfold ls; now rewrite get_map, get_zrange by lia).
  (* array *)
  assert (HA : forall sc q v, In (q, v) (merge sc (map (bv_put m ls) (zrange 0 T))) <-> exists t k, 0 <= t < T /\ q = m * t + k /\ get (f t) k = Some v).
  { intros sc q v. rewrite In_merge. split.
    - intros (l & Hl & Hin). apply in_map_iff in Hl as (t & <- & Ht). apply In_zrange in Ht. unfold bv_put in Hin. rewrite Hls in Hin by auto. apply In_combine_range in Hin as (k & Ek & ->). eauto.
    - intros (t & k & Ht & -> & Ek). exists (bv_put m ls t). split; [apply in_map; now apply In_zrange|]. unfold bv_put. rewrite Hls by auto. apply In_combine_range. eauto. }
  assert (HU : forall t k v t' k' v', 0 <= t < T -> 0 <= t' < T -> get (f t) k = Some v -> get (f t') k' = Some v' -> m * t + k = m * t' + k' -> t = t' /\ k = k').
  { intros t k v t' k' v' Ht Ht' E E' H. apply get_Some_bounds in E, E'. pose proof (f_len t Ht). pose proof (f_len t' Ht'). assert (t = t') by nia. subst. split; lia. }
  destruct (write_all (fun (a : Z * Z) w => set w (fst a) (snd a)) fst snd (merge (sch 0%nat) (map (bv_put m ls) (zrange 0 T))) (g_arr g)) as (arr & E0 & L0 & G0 & _); auto.
  { intros [q v] H. apply HA in H as (t & k & Ht & -> & E). cbn [fst]. apply get_Some_bounds in E. pose proof (f_len t Ht). nia. }
  { intros [q v] [q' v'] H H' E. cbn [fst snd] in *. apply HA in H as (t & k & Ht & -> & Ek). apply HA in H' as (t' & k' & Ht' & -> & Ek'). destruct (HU t k v t' k' v') as (-> & ->); auto. congruence. }
  unfold par at 1. rewrite E0.
  (* counts *)
  destruct (write_all (fun t w => set w (t + 1) (Zlen (nthl ls t))) (fun t => t + 1) (fun t => Zlen (nthl ls t)) (merge (sch 1%nat) (singletons T)) (g_cnt g)) as (cnts & E1 & L1 & G1 & _); auto.
  { intros t Ht. apply In_merge in Ht as (l & Hl & Ht). apply in_map_iff in Hl as (t' & <- & Ht'). apply In_zrange in Ht'. destruct Ht as [->|[]]. lia. }
  { intros a b _ _ H. assert (a = b) by lia. now subst. }
  unfold par at 1. rewrite E1.
  destruct (ps_master_ok T (fun t => Zlen (f t)) cnts) as (cnts' & E2 & G2); try lia.
  { intros t Ht. rewrite <- (Hls t Ht). apply G1. apply In_merge. exists [t]. split; [|now left]. apply (in_map (fun t => [t])). now apply In_zrange. }
  rewrite E2. change (before (fun t => Zlen (f t))) with (off f) in *.
  (* copies *)
  assert (HC : forall t k, In (t, k) (merge (sch 2%nat) (map (fun t => map (fun k => (t, k)) (zrange 0 (Zlen (nthl ls t)))) (zrange 0 T))) <-> 0 <= t < T /\ 0 <= k < Zlen (f t)).
  { intros t k. rewrite In_merge. split.
    - intros (l & Hl & Hin). apply in_map_iff in Hl as (t' & <- & Ht). apply In_zrange in Ht. apply in_map_iff in Hin as (k' & [= -> ->] & Hk). apply In_zrange in Hk. rewrite Hls in Hk by auto. auto.
    - intros (Ht & Hk). exists (map (fun k => (t, k)) (zrange 0 (Zlen (nthl ls t)))). split; [apply (in_map (fun t => map (fun k => (t, k)) (zrange 0 (Zlen (nthl ls t))))); now apply In_zrange|]. apply in_map. apply In_zrange. now rewrite Hls. }
  assert (Hoff : forall t k, 0 <= t < T -> 0 <= k < Zlen (f t) -> 0 <= off f t + k < off f T).
  { intros t k Ht Hk. pose proof (get_flat f T t k Ht Hk) as E. destruct (get_in_range (f t) k Hk) as (v & Ev). rewrite Ev in E. apply get_Some_bounds in E. now rewrite Zlen_flat in E by lia. }
  pose proof (J3 (off f T)) as J3'. assert (0 <= off f T) as Hpos by (rewrite <- Zlen_flat by lia; apply Zlen_nonneg). specialize (J3' Hpos).
  destruct (write_all (bv_copy m cnts' arr) (fun a => off f (fst a) + snd a) (fun a => match get (f (fst a)) (snd a) with Some v => v | None => 0 end)
    (merge (sch 2%nat) (map (fun t => map (fun k => (t, k)) (zrange 0 (Zlen (nthl ls t)))) (zrange 0 T))) (g_nodes g (off f T))) as (nodes & E3 & L3 & G3 & _).
  { intros [t k] w H _. apply HC in H as (Ht & Hk). unfold bv_copy. rewrite G2 by lia. destruct (get_in_range (f t) k Hk) as (v & Ev). cbn [fst snd]. rewrite Ev.
    assert (get arr (m * t + k) = Some v) as ->; [|reflexivity]. apply (G0 (m * t + k, v)). apply HA. eauto. }
  { intros [t k] H. apply HC in H as (Ht & Hk). cbn [fst snd]. rewrite J3'. now apply Hoff. }
  { intros [t k] [t' k'] H H' E. apply HC in H as (Ht & Hk). apply HC in H' as (Ht' & Hk'). cbn [fst snd] in *. destruct (off_unique f t k t' k') as (-> & ->); auto; lia. }
  unfold par. rewrite E3. f_equal. rewrite clears_flat. apply flat_intro; [lia|lia|]. intros t k Ht Hk.
  pose proof (G3 (t, k) (proj2 (HC t k) (conj Ht Hk))) as G4. cbn [fst snd] in G4. rewrite G4. destruct (get_in_range (f t) k Hk) as (v & Ev). now rewrite Ev.
Qed.
End Gather.

(** ** Two runs on arrays that agree on a closed set of nodes *)
Section Sim.
Variable P : Z -> Prop.
Definition agree (p q : list Z) : Prop := Zlen p = Zlen q /\ forall x, P x -> exists v, P v /\ get p x = Some v /\ get q x = Some v.
Lemma agree_sym p q : agree p q -> agree q p.
Proof. intros (L & H). split; auto. intros x Hx. destruct (H x Hx) as (v & Hv & E1 & E2). eauto. Qed.
Lemma agree_get p q x v : agree p q -> P x -> get p x = Some v -> P v /\ get q x = Some v.
Proof. intros (_ & H) Hx E. destruct (H x Hx) as (w & Hw & E1 & E2). assert (w = v) by congruence. subst. auto. Qed.
Lemma agree_set p q x v p' : agree p q -> P v -> set p x v = Some p' -> exists q', set q x v = Some q' /\ agree p' q'.
Proof.
  intros (L & H) Hv E. pose proof E as E'. apply set_Some_inv in E' as (Hb & _). destruct (set_ok q x v ltac:(lia)) as (q' & Eq). exists q'. split; auto. split; [rewrite (set_len _ _ _ _ E), (set_len _ _ _ _ Eq); auto|].
  intros y Hy. rewrite (get_set _ _ _ _ _ E), (get_set _ _ _ _ _ Eq). destruct (y =? x); [eauto|auto].
Qed.

Definition pcP (pc : upc) : Prop :=
  match pc with
  | Next => True
  | Chk1 x y | Chk2 x y _ | RdX x y => P x /\ P y
  | RdY x y a => P x /\ P y /\ P a
  | Cas a b c d | Sto a b c d => P a /\ P b /\ P c /\ P d
  end.
Definition thP (th : upc * list (Z * Z)) : Prop := pcP (fst th) /\ forall e, In e (snd th) -> P (fst e) /\ P (snd e).
Definition agreeU (s s' : ustate) : Prop := agree (fst s) (fst s') /\ snd s = snd s' /\ forall th, In th (snd s) -> thP th.
Lemma agreeU_sym s s' : agreeU s s' -> agreeU s' s.
Proof. intros (A & B & C). split; [now apply agree_sym|]. split; [auto|]. now rewrite <- B. Qed.

Lemma usim1 p q th p1 th1 : agree p q -> thP th -> ustep1 p th = Some (p1, th1) -> exists q1, ustep1 q th = Some (q1, th1) /\ agree p1 q1 /\ thP th1.
Proof.
  intros HA (HP & HT) E. destruct th as (pc, todo). cbn [fst snd] in *. destruct pc as [|x y|x y a|x y|x y a|a b c d|a b c d]; cbn [ustep1 pcP] in *.
  - destruct todo as [|[x y] r]; injection E as <- <-; exists q; (split; [reflexivity|]); (split; [auto|]).
    + split; [exact I|auto].
    + split; [|intros; apply HT; now right]. apply (HT (x, y)). now left.
  - destruct HP as (Hx & Hy). destruct (get p x) as [a|] eqn:Ea; [|discriminate]. destruct (agree_get p q x a HA Hx Ea) as (Ha & ->). injection E as <- <-. exists q. split; auto. split; auto. split; cbn; auto.
  - destruct HP as (Hx & Hy). destruct (get p y) as [b|] eqn:Eb; [|discriminate]. destruct (agree_get p q y b HA Hy Eb) as (Hb & ->). injection E as <- <-. exists q. split; auto. split; auto. split; [|auto]. cbn [fst]. destruct (a =? b); cbn; auto.
  - destruct HP as (Hx & Hy). destruct (get p x) as [a|] eqn:Ea; [|discriminate]. destruct (agree_get p q x a HA Hx Ea) as (Ha & ->). injection E as <- <-. exists q. split; auto. split; auto. split; cbn; auto.
  - destruct HP as (Hx & Hy & Ha). destruct (get p y) as [b|] eqn:Eb; [|discriminate]. destruct (agree_get p q y b HA Hy Eb) as (Hb & ->). exists q. destruct (a =? b).
    + injection E as <- <-. split; auto. split; auto. split; [exact I|auto].
    + injection E as <- <-. split; auto. split; auto. split; [|auto]. cbn [fst]. destruct (a >? b), (_ =? _); cbn [pcP]; auto.
  - destruct HP as (Ha & Hb & Hc & Hd). destruct (get p a) as [v|] eqn:Ev; [|discriminate]. destruct (agree_get p q a v HA Ha Ev) as (Hv & ->). destruct (v =? a).
    + destruct (set p a d) as [p'|] eqn:Es; [|discriminate]. destruct (agree_set p q a d p' HA Hd Es) as (q' & -> & HA'). injection E as <- <-. exists q'. split; auto. split; auto. split; [exact I|auto].
    + injection E as <- <-. exists q. split; auto. split; auto. split; cbn; auto.
  - destruct HP as (Ha & Hb & Hc & Hd). destruct (set p a d) as [p'|] eqn:Es; [|discriminate]. destruct (agree_set p q a d p' HA Hd Es) as (q' & -> & HA'). injection E as <- <-. exists q'. split; auto. split; auto. split; cbn; auto.
Qed.
Lemma usim t s s' s1 : agreeU s s' -> ustep t s = Some s1 -> exists s1', ustep t s' = Some s1' /\ agreeU s1 s1'.
Proof.
  destruct s as (p, ths), s' as (q, ths'). intros (HA & HE & HP) E. cbn [fst snd] in *. subst ths'. unfold ustep in *.
  destruct (get ths t) as [th|] eqn:Et; [|discriminate]. destruct (ustep1 p th) as [(p1, th1)|] eqn:E1; [|discriminate]. destruct (set ths t th1) as [ths1|] eqn:Es; [|discriminate]. injection E as <-.
  destruct (usim1 p q th p1 th1 HA (HP th (get_In _ _ _ Et)) E1) as (q1 & -> & HA1 & HP1). exists (q1, ths1). rewrite Es. split; auto. split; auto. split; auto. cbn [snd].
  intros th' H. apply In_get in H as (i & _ & Ei). rewrite (get_set _ _ _ _ _ Es) in Ei. destruct (i =? t); [injection Ei as <-; auto|]. apply HP. eapply get_In; eauto.
Qed.
Lemma usims l : forall s s' s1, agreeU s s' -> foldM ustep l s = Some s1 -> exists s1', foldM ustep l s' = Some s1' /\ agreeU s1 s1'.
Proof.
  induction l as [|t l IH]; intros s s' s1 HA E; cbn [foldM] in *; [injection E as <-; eauto|].
  destruct (ustep t s) as [s2|] eqn:E2; [|discriminate]. destruct (usim t s s' s2 HA E2) as (s2' & -> & HA2). eapply IH; eauto.
Qed.
Lemma fresh_sim l : forall s s', agreeU s s' -> fresh_run l s -> fresh_run l s'.
Proof.
  induction l as [|t l IH]; intros s s' HA F; [apply steps_nil|]. inversion F as [|? ? ? F1 F2]; subst. pose proof HA as (HA1 & HA2 & HA3). constructor.
  - intros pc todo G. rewrite <- HA2 in G. pose proof (F1 pc todo G) as C. destruct (HA3 _ (get_In _ _ _ G)) as (HP & _). destruct pc as [|x y|x y a|x y|x y a|a b c d|a b c d]; cbn [current fst pcP] in *; auto.
    destruct HP as (Ha & Hb & _), C as (C1 & C2). split; [apply (agree_get _ _ _ _ HA1 Ha C1)|apply (agree_get _ _ _ _ HA1 Hb C2)].
  - intros s1' E. destruct (usim t s' s s1' (agreeU_sym _ _ HA) E) as (s1 & E1 & HA'). apply (IH s1); [now apply agreeU_sym|]. apply F2; auto.
Qed.

(** Compression *)
Definition cpcP (pc : cpc) : Prop := match pc with CNext => True | CTest a b | CLoad a b | CStore a b => P a /\ P b end.
Definition cthP (th : cthread) : Prop := let '(pc, todo, _) := th in cpcP pc /\ forall x, In x todo -> P x.
Definition agreeC (s s' : cstate) : Prop := agree (fst s) (fst s') /\ snd s = snd s' /\ forall th, In th (snd s) -> cthP th.
Lemma agreeC_sym s s' : agreeC s s' -> agreeC s' s.
Proof. intros (A & B & C). split; [now apply agree_sym|]. split; [auto|]. now rewrite <- B. Qed.
Lemma csim1 p q th p1 th1 : agree p q -> cthP th -> cstep1 p th = Some (p1, th1) -> exists q1, cstep1 q th = Some (q1, th1) /\ agree p1 q1 /\ cthP th1.
Proof.
  intros HA HP E. destruct th as ((pc, todo), n). destruct HP as (HP & HT). destruct pc as [|x y|x y|x y]; cbn [cstep1 cpcP] in *.
  - destruct todo as [|x r]; injection E as <- <-; exists q; (split; [reflexivity|]); (split; [auto|]).
    + split; [exact I|auto].
    + split; [|intros; apply HT; now right]. cbn. assert (P x) by (apply HT; now left). auto.
  - destruct HP as (Hx & Hy). destruct (get p y) as [a|] eqn:Ea; [|discriminate]. destruct (agree_get p q y a HA Hy Ea) as (Ha & ->). injection E as <- <-. exists q. split; auto. split; auto. split; [|auto]. destruct (a =? y); cbn; auto.
  - destruct HP as (Hx & Hy). destruct (get p y) as [a|] eqn:Ea; [|discriminate]. destruct (agree_get p q y a HA Hy Ea) as (Ha & ->). injection E as <- <-. exists q. split; auto. split; auto. split; cbn; auto.
  - destruct HP as (Hx & Hy). destruct (set p x y) as [p'|] eqn:Es; [|discriminate]. destruct (agree_set p q x y p' HA Hy Es) as (q' & -> & HA'). injection E as <- <-. exists q'. split; auto. split; auto. split; [exact I|auto].
Qed.
Lemma csim t s s' s1 : agreeC s s' -> cstep t s = Some s1 -> exists s1', cstep t s' = Some s1' /\ agreeC s1 s1'.
Proof.
  destruct s as (p, ths), s' as (q, ths'). intros (HA & HE & HP) E. cbn [fst snd] in *. subst ths'. unfold cstep in *.
  destruct (get ths t) as [th|] eqn:Et; [|discriminate]. destruct (cstep1 p th) as [(p1, th1)|] eqn:E1; [|discriminate]. destruct (set ths t th1) as [ths1|] eqn:Es; [|discriminate]. injection E as <-.
  destruct (csim1 p q th p1 th1 HA (HP th (get_In _ _ _ Et)) E1) as (q1 & -> & HA1 & HP1). exists (q1, ths1). rewrite Es. split; auto. split; auto. split; auto. cbn [snd].
  intros th' H. apply In_get in H as (i & _ & Ei). rewrite (get_set _ _ _ _ _ Es) in Ei. destruct (i =? t); [injection Ei as <-; auto|]. apply HP. eapply get_In; eauto.
Qed.
Lemma csims l : forall s s' s1, agreeC s s' -> foldM cstep l s = Some s1 -> exists s1', foldM cstep l s' = Some s1' /\ agreeC s1 s1'.
Proof.
  induction l as [|t l IH]; intros s s' s1 HA E; cbn [foldM] in *; [injection E as <-; eauto|].
  destruct (cstep t s) as [s2|] eqn:E2; [|discriminate]. destruct (csim t s s' s2 HA E2) as (s2' & -> & HA2). eapply IH; eauto.
Qed.
(** The assertion of line 190 never fails. *)
Variable bv : list Z.
Hypothesis HPbv : forall x, P x -> is_clear bv x.
Lemma bv_cstep_same t s s' : agreeC s s' -> bv_cstep bv t s = cstep t s.
Proof.
  intros HA. unfold bv_cstep. destruct (cstep t s) as [s1|] eqn:E; [|reflexivity]. destruct (csim t s s' s1 HA E) as (_ & _ & _ & _ & HP).
  destruct s as (p, ths). cbn [cstep] in E. cbn [snd]. destruct (get ths t) as [((pc, todo), n)|] eqn:Et; [|discriminate]. destruct (cstep1 p (pc, todo, n)) as [(p1, th1)|]; [|discriminate]. destruct (set ths t th1) as [ths1|] eqn:Es; [|discriminate]. injection E as <-.
  cbn [snd] in *. pose proof (get_set_same _ _ _ _ Es) as G. rewrite G. destruct th1 as ((pc1, todo1), n1). apply get_In, HP in G as (Hpc & _). destruct pc; auto. destruct pc1; auto. destruct Hpc as (_ & H). rewrite bv_get_bit, (HPbv _ H). reflexivity.
Qed.
Lemma bv_csims l : forall s s', agreeC s s' -> foldM (bv_cstep bv) l s = foldM cstep l s.
Proof.
  induction l as [|t l IH]; intros s s' HA; cbn [foldM]; auto. rewrite (bv_cstep_same t s s' HA). destruct (cstep t s) as [s1|] eqn:E; auto. destruct (csim t s s' s1 HA E) as (s1' & _ & HA1). eapply IH; eauto.
Qed.
End Sim.

(** ** The whole function *)
Section Whole.
Context {V : Type}.
Variables (hasv : bool) (base : Z) (rows : rows_t V) (A : csr V) (T : Z) (bv : list Z).
Let m := Zlen rows.
Hypothesis HR : rep hasv base m rows A.
Hypothesis Hok : rows_ok m rows.
Hypothesis HT : 1 <= T.
Hypothesis Hbv : m <= Zlen bv.
Hypothesis Hclosed : forall u v, In (u, v) (edges_of rows) -> (is_clear bv u <-> is_clear bv v).
Let N := clears m bv.
Let P (x : Z) : Prop := In x N.
Let Hm : 0 <= m := Zlen_nonneg rows.

Lemma In_N x : P x <-> 0 <= x < m /\ is_clear bv x.
Proof. unfold P, N, clears. now rewrite filter_In, In_zrange, clearb_iff. Qed.
Lemma N_sorted : ssortedZ N.
Proof. apply ssorted_filter, ssorted_zrange. Qed.

Definition edges_from (l : list Z) : list (Z * Z) := concat (map (fun i => map (fun e => (i, fst e)) (nthl rows i)) l).
Lemma In_from l x y : In (x, y) (edges_from l) <-> In x l /\ exists v, In (y, v) (nthl rows x).
Proof.
  unfold edges_from. rewrite in_concat. split.
  - intros (r & Hr & H). apply in_map_iff in Hr as (i & <- & Hi). apply in_map_iff in H as ((c, v) & [= -> ->] & H). eauto.
  - intros (Hx & v & H). exists (map (fun e => (x, fst e)) (nthl rows x)). split; [apply (in_map (fun i => map (fun e => (i, fst e)) (nthl rows i))); auto|]. apply in_map_iff. exists (y, v). auto.
Qed.
Lemma from_closed x y : In (x, y) (edges_from N) -> P x /\ P y.
Proof.
  intros H. apply In_from in H as (Hx & v & H). split; auto. apply In_N. assert (In (x, y) (edges_of rows)) as He by (apply (In_from (zrange 0 m)); split; [apply In_zrange; now apply In_N|eauto]).
  split; [|apply (Hclosed _ _ He); now apply In_N]. now apply (edges_range m rows (x, y) Hok).
Qed.
Lemma conn_from x y : P x -> (connected (edges_of rows) x y <-> connected (edges_from N) x y).
Proof.
  intros Hx. split.
  - intros H. assert ((P x <-> P y) /\ (P x -> connected (edges_from N) x y)) as (_ & G); [|auto]. clear Hx. induction H as [x y H|x|x y _ (I1 & I2)|x y z _ (I1 & I2) _ (J1 & J2)].
    + assert (P x <-> P y) as Hxy. { rewrite !In_N. pose proof (edges_range m rows _ Hok H) as (R1 & R2). cbn [fst snd] in *. pose proof (Hclosed _ _ H). fold m in R1. tauto. }
      split; auto. intros Hx. apply rst_step. apply (In_from (zrange 0 m)) in H as (_ & H). now apply In_from.
    + split; [tauto|]. intros _. apply rst_refl.
    + split; [tauto|]. intros Hy. apply rst_sym. apply I2. tauto.
    + split; [tauto|]. intros H. apply rst_trans with y; [exact (I2 H)|]. apply J2. tauto.
  - apply rst_mono. intros a b H. apply rst_step. pose proof (from_closed a b H) as (Ha & _). apply In_from in H as (_ & H). apply (In_from (zrange 0 m)). split; auto. apply In_zrange. now apply In_N.
Qed.

Lemma bv_row_ok x : P x -> bv_row A base bv x = Some (map (fun e => (x, fst e)) (nthl rows x)).
Proof.
  intros Hx. pose proof (proj1 (In_N x) Hx) as (Hb & _). unfold bv_row. rewrite (cc_row_ok hasv base m rows A x HR Hb). rewrite (mapM_Some _ (fun _ => tt)); [reflexivity|].
  intros (a, b) H. apply in_map_iff in H as ((c, v) & [= <- <-] & H). cbn [snd]. assert (is_clear bv c) as Hc. { apply (In_N c). apply (from_closed x c). apply In_from. eauto. }
  rewrite bv_get_bit, Hc. reflexivity.
Qed.

Variables (sch : nat -> list nat) (g : bv_junk).
Hypothesis HG : bv_junk_ok m T g.
Definition state0 (p : list Z) (work : list (list (Z * Z))) : ustate := (p, map (fun w => (Next, w)) work).

Lemma start_ok : exists chs p0 work, bv_start A T bv sch g = Some (chs, state0 p0 work) /\ flat (nthl chs) T = N /\ Zlen work = T /\ concat work = edges_from N /\
  Zlen p0 = m /\ forall x, P x -> get p0 x = Some x.
Proof.
  pose proof HR as (H1 & H2 & H3 & H4 & _). unfold bv_start, getBase. rewrite H3, get_rowptr_of, off_0, Z.add_0_r, H1 by lia. fold m.
  rewrite gather_ok by auto. fold N. pose (gt := fun i => match get N i with Some v => v | None => 0 end). pose (f := fun t => map gt (cc_chunk (Zlen N) T t)). pose proof (Zlen_nonneg N) as HN.
  rewrite (mapM_zrange _ f).
  2:{ intros t Ht. apply mapM_Some. intros i Hi. apply (chunk_range (Zlen N) T t) in Hi; auto. unfold gt. destruct (get_in_range N i Hi) as (v & ->). reflexivity. }
  set (chs := map f (zrange 0 T)).
  assert (Hch : forall t, 0 <= t < T -> nthl chs t = f t) by (intros t Ht; apply nthl_get; unfold chs; now rewrite get_map, get_zrange by lia).
  assert (HF : flat (nthl chs) T = N).
  { rewrite (flat_ext _ f) by auto. unfold f. rewrite <- flat_map_f, chunks_concat by lia. unfold gt. rewrite (map_get_zrange N (fun o => match o with Some v => v | None => 0 end)). apply map_id. }
  assert (HC : concat chs = N). { rewrite <- HF. rewrite (flat_ext _ f) by auto. reflexivity. }
  assert (HP : forall l x, In l chs -> In x l -> P x) by (intros l x Hl Hx; unfold P; rewrite <- HC; apply in_concat; eauto).
  destruct HG as (_ & _ & _ & J4).
  destruct (write_all (fun ii w => set w ii ii) (fun x => x) (fun x => x) (merge (sch 3%nat) chs) (g_p g)) as (p0 & E0 & L0 & G0 & _); auto.
  { intros x Hx. apply In_merge in Hx as (l & Hl & Hx). rewrite J4. apply In_N. eauto. }
  unfold par. rewrite E0. pose (wk := fun l => concat (map (fun i => map (fun e => (i, fst e)) (nthl rows i)) l)).
  rewrite (mapM_Some _ wk).
  2:{ intros l Hl. rewrite (mapM_Some _ (fun i => map (fun e => (i, fst e)) (nthl rows i))); [reflexivity|]. intros x Hx. apply bv_row_ok. eauto. }
  exists chs, p0, (map wk chs). split; [reflexivity|]. split; auto. split; [unfold chs; rewrite !Zlen_map, Zlen_zrange; lia|]. split; [|split; [lia|]].
  - rewrite <- HC. unfold wk, edges_from. clear. induction chs as [|l ls IH]; [reflexivity|]. cbn [map concat]. now rewrite IH, map_app, concat_app.
  - intros x Hx. apply G0, In_merge. unfold P in Hx. rewrite <- HC in Hx. apply in_concat in Hx as (l & Hl & Hx). eauto.
Qed.

Section Run.
Variables (chs : list (list Z)) (p0 : list Z) (work : list (list (Z * Z))).
Hypothesis Hf : flat (nthl chs) T = N.
Hypothesis Hlw : Zlen work = T.
Hypothesis Hcat : concat work = edges_from N.
Hypothesis Hlp : Zlen p0 = m.
Hypothesis Hp0 : forall x, P x -> get p0 x = Some x.

Lemma work_P w e : In w work -> In e w -> P (fst e) /\ P (snd e).
Proof. intros Hw He. destruct e as (x, y). apply from_closed. rewrite <- Hcat. apply in_concat. eauto. Qed.
Lemma work_range w e : In w work -> In e w -> 0 <= fst e < m /\ 0 <= snd e < m.
Proof. intros Hw He. destruct (work_P w e Hw He) as (H1 & H2). apply In_N in H1, H2. tauto. Qed.
Lemma agree0 : agreeU P (state0 p0 work) (uinit m work).
Proof.
  split; [split|split; [reflexivity|]].
  - cbn [state0 uinit fst]. rewrite Hlp, Zlen_zrange. lia.
  - intros x Hx. exists x. split; auto. split; [now apply Hp0|]. cbn [uinit fst]. apply In_N in Hx. rewrite get_zrange by lia. f_equal.
  - cbn [state0 snd]. intros th H. apply in_map_iff in H as (w & <- & Hw). split; [exact I|]. cbn [snd]. intros e. now apply work_P.
Qed.
Lemma bv_union_no_ub us : (forall t, In t us -> 0 <= t < T) -> exists u, foldM ustep us (state0 p0 work) = Some u.
Proof.
  intros H. destruct (union_no_ub m work us) as (u' & E); auto; [exact work_range|rewrite Hlw; auto|]. destruct (usims P us _ _ u' (agreeU_sym P _ _ agree0) E) as (u & Eu & _). eauto.
Qed.

Variables (us : list Z) (u : ustate).
Hypothesis EU : foldM ustep us (state0 p0 work) = Some u.
Lemma ideal : exists u', union_run m work us = Some u' /\ agreeU P u u'.
Proof. destruct (usims P us _ _ u agree0 EU) as (u' & E & HA). eauto. Qed.
Lemma ch_P t x : 0 <= t < T -> In x (nthl chs t) -> P x.
Proof. intros Ht Hx. unfold P. rewrite <- Hf. apply in_concat. exists (nthl chs t). split; auto. apply in_map. now apply In_zrange. Qed.
Lemma agreeC0 u' : agreeU P u u' -> agreeC P (cinit_on (nthl chs) T (fst u)) (cinit_on (nthl chs) T (fst u')).
Proof.
  intros (HA & _). split; [exact HA|]. split; [reflexivity|]. intros th H. apply in_map_iff in H as (t & <- & Ht). apply In_zrange in Ht. split; [exact I|]. intros x. now apply ch_P.
Qed.
Lemma ideal_down u' : union_run m work us = Some u' -> Zlen (fst u') = m /\ forall x, 0 <= x < m -> exists y, get (fst u') x = Some y /\ 0 <= y <= x.
Proof.
  intros E. pose proof (uinit_inv m work Hm work_range) as HI. apply (urun_inv _ _ us _ u') in HI; auto. destruct HI as [[HL Hd] _]. split; auto. intros x Hx. destruct (Hd x Hx) as (y & Ey & Hy & _). eauto.
Qed.
Lemma ch_range t x : 0 <= t < T -> In x (nthl chs t) -> 0 <= x < m.
Proof. intros Ht Hx. apply In_N. eapply ch_P; eauto. Qed.
Lemma bv_compress_no_ub cs : (forall t, In t cs -> 0 <= t < T) -> exists c, foldM (bv_cstep bv) cs (cinit_on (nthl chs) T (fst u)) = Some c.
Proof.
  intros H. destruct ideal as (u' & E' & HA). destruct (ideal_down u' E') as (L' & Hd'). pose proof (agreeC0 u' HA) as HC.
  destruct (compress_no_ub_on m (fst u') L' Hd' T HT (nthl chs) ch_range cs H) as (c' & Ec'). destruct (csims P cs _ _ c' (agreeC_sym P _ _ HC) Ec') as (c & Ec & _). exists c. rewrite (bv_csims P bv) with (s' := cinit_on (nthl chs) T (fst u')); auto. intros x Hx. now apply In_N.
Qed.

Variables (cs : list Z) (c : cstate).
Hypothesis EC : foldM (bv_cstep bv) cs (cinit_on (nthl chs) T (fst u)) = Some c.
Hypothesis DC : call_done c.
(** The result in terms of the forest of the run on the identity. *)
Lemma bv_compressed : exists u', union_run m work us = Some u' /\ agreeU P u u' /\
  (forall x, P x -> exists r, get (fst c) x = Some r /\ P r /\ r <= x /\ get (fst c) r = Some r /\ root_of (fst u') x r) /\
  (forall t, 0 <= t < T -> get (snd c) t = Some (CNext, [], Zlen (roots_in (fst c) (nthl chs t)))).
Proof.
  destruct ideal as (u' & E' & HA). exists u'. split; auto. split; auto. destruct (ideal_down u' E') as (L' & Hd'). pose proof (agreeC0 u' HA) as HC.
  rewrite (bv_csims P bv) with (s' := cinit_on (nthl chs) T (fst u')) in EC; auto; [|intros x Hx; now apply In_N].
  destruct (csims P cs _ _ c HC EC) as (c' & Ec' & (HA1 & HA2 & _)).
  destruct (compress_ok_on m (fst u') L' Hd' T HT (nthl chs) ch_range cs c' Ec') as (_ & _ & R1 & R2). { unfold call_done. now rewrite <- HA2. }
  assert (HX : forall x, P x -> exists r, get (fst c) x = Some r /\ P r /\ r <= x /\ get (fst c) r = Some r /\ root_of (fst u') x r).
  { intros x Hx. pose proof (proj1 (In_N x) Hx) as (Hb & _). destruct (root_ex m (fst u') Hd' x Hb) as (r & Hr & Hr1). exists r.
    assert (get (fst c') x = Some r) as G1 by (apply R1; auto; now rewrite Hf). destruct (agree_get P _ _ _ _ (agree_sym P _ _ HA1) Hx G1) as (HPr & G2). split; auto. split; auto. split; [lia|]. split; auto.
    assert (get (fst c') r = Some r) as G3. { apply R1; [rewrite Hf; auto|]. constructor. now apply root_of_root in Hr. } apply (agree_get P _ _ _ _ (agree_sym P _ _ HA1) HPr G3). }
  split; auto. intros t Ht. rewrite HA2, R2 by auto. f_equal. f_equal. f_equal. unfold roots_in. apply filter_ext_in. intros x Hx.
  assert (P x) as Hx' by (eapply ch_P; eauto). pose proof (proj1 (In_N x) Hx') as (Hb & _). unfold own_root. destruct (HX x Hx') as (r & Er & _ & _ & _ & Hr). rewrite Er. destruct (Hd' x Hb) as (y & Ey & _). rewrite Ey.
  destruct (Z.eqb_spec y x) as [->|Hn], (Z.eqb_spec r x) as [->|Hn']; auto; exfalso.
  - apply Hn'. apply (root_of_fun (fst u') x); auto. now constructor.
  - apply root_of_root in Hr. congruence.
Qed.
End Run.

Lemma rest_ext (Q Q' : Z -> Prop) (same same' : Z -> Z -> Prop) n res : (forall v, 0 <= v < n -> (Q v <-> Q' v)) ->
  (forall x y, 0 <= x < n -> 0 <= y < n -> Q x -> Q y -> (same x y <-> same' x y)) -> rest_listing n Q same res -> rest_listing n Q' same' res.
Proof.
  intros HQ Hs (gs & G1 & G2 & G3 & G4 & G5 & G6 & G7 & G8 & G9 & G10). exists gs. split; auto. split; auto. split; auto. split; auto. split; auto. split; auto. split; auto. split; auto. split.
  - intros v. rewrite G9. split; intros (Hv & H); split; auto; now apply HQ.
  - intros x y Hx Hy Qx Qy. rewrite <- Hs by (auto; now apply HQ). apply G10; auto; now apply HQ.
Qed.

(** Every execution that runs the two concurrent phases to their end lists the
    classes of the final forest among the clear nodes; they lie inside the
    connected components, and are these if the plain stores use current values
    or there is one thread. *)
Theorem bv_cc_listing (Hex : exists v, 0 <= v < m /\ is_clear bv v) : exists chs s0, bv_start A T bv sch g = Some (chs, s0) /\
  (forall us, (forall t, In t us -> 0 <= t < T) -> exists u, foldM ustep us s0 = Some u) /\
  forall us u, foldM ustep us s0 = Some u ->
    (forall cs, (forall t, In t cs -> 0 <= t < T) -> exists c, foldM (bv_cstep bv) cs (cinit_on (nthl chs) T (fst u)) = Some c) /\
    forall cs c j, foldM (bv_cstep bv) cs (cinit_on (nthl chs) T (fst u)) = Some c -> call_done c -> junk_ok m T j ->
      exists res, bv_cc A T bv us cs sch g j = Some (u, c, res) /\
        (forall x y, 0 <= x < m -> 0 <= y < m -> is_clear bv x -> is_clear bv y -> get (fst c) x = get (fst c) y -> connected (edges_of rows) x y) /\
        rest_listing m (is_clear bv) (fun x y => get (fst c) x = get (fst c) y) res /\
        (all_done u -> (T = 1 \/ fresh_run us s0) -> rest_listing m (is_clear bv) (connected (edges_of rows)) res).
Proof.
  destruct start_ok as (chs & p0 & work & ES & Hf & Hlw & Hcat & Hlp & Hp0). exists chs, (state0 p0 work). split; auto. split; [intros us; now apply bv_union_no_ub|].
  intros us u EU. split; [intros cs; now apply (bv_compress_no_ub chs p0 work Hf Hcat Hlp Hp0 us)|]. intros cs c j EC DC HJ.
  destruct (bv_compressed chs p0 work Hf Hcat Hlp Hp0 us u EU cs c EC DC) as (u' & E' & HA & HX & Hths). destruct c as (p, ths). cbn [fst snd] in *.
  destruct (number_on_ok m T N (nthl chs) p HT N_sorted) with (sch := fun i => sch (4 + i)%nat) (j := j) (ths := ths) as (res & Er & _ & HL & _); auto.
  { intros x Hx. now apply In_N. }
  { destruct Hex as (v & Hv & Hc). assert (In v N) as H by (now apply In_N). intros E. rewrite E in H. destruct H. }
  { intros x Hx. destruct (HX x Hx) as (r & A1 & A2 & A3 & A4 & _). eauto. }
  exists res. split; [unfold bv_cc; rewrite ES, EU; cbn [fst]; rewrite EC; cbv beta iota; now rewrite Er|].
  pose proof (work_range work Hcat) as Hwr. destruct (union_sound m work us u' Hm Hwr E') as (Lu & Hroot & Hsound).
  assert (HQ : forall v, 0 <= v < m -> (In v N <-> is_clear bv v)) by (intros v Hv; pose proof (In_N v) as H; unfold P in H; tauto).
  assert (Hiff : forall x y, P x -> P y -> (get p x = get p y <-> exists r, root_of (fst u') x r /\ root_of (fst u') y r)).
  { intros x y Hx Hy. destruct (HX x Hx) as (r & Ex & _ & _ & _ & Rx). destruct (HX y Hy) as (r' & Ey & _ & _ & _ & Ry). rewrite Ex, Ey. split; [intros [= ->]; eauto|]. intros (q & Q1 & Q2). f_equal. rewrite (root_of_fun _ _ _ _ Rx Q1). symmetry. exact (root_of_fun _ _ _ _ Ry Q2). }
  split; [|split].
  - intros x y Hx Hy Cx Cy E. apply HQ in Cx, Cy; auto. apply Hiff in E as (r & R1 & R2); auto. apply conn_from; auto. rewrite <- Hcat. apply (Hsound x y r); auto.
  - revert HL. apply rest_ext; auto. tauto.
  - intros DU Hfr. revert HL. apply rest_ext; auto. intros x y Hx Hy Nx Ny. rewrite Hiff, conn_from, <- Hcat by auto.
    assert (DU' : all_done u') by (destruct HA as (_ & HA2 & _); unfold all_done; now rewrite <- HA2).
    destruct Hfr as [H1|Hfr].
    + assert (exists w, work = [w]) as (w & Ew). { destruct work as [|w [|w' r]]; unfold Zlen in Hlw; cbn [length] in Hlw; [lia|eauto|lia]. } subst work. cbn [concat]. rewrite app_nil_r. apply (union_one_thread m w us u'); auto. intros e He. apply (Hwr w); auto. now left.
    + apply (union_fresh m work us u'); auto. apply (fresh_sim P us (state0 p0 work)); auto. now apply agree0.
Qed.
End Whole.

(** ** Worked case: the 1-based matrix with the components {0,2}, {1,3,4} and {5};
    the nodes 0 and 2 are marked; three threads. *)
Definition bvc_rows : rows_t Z := [[(2, 0)]; [(1, 0); (3, 0)]; [(0, 0)]; [(1, 0); (4, 0)]; [(3, 0)]; []].
Definition bvc_matrix : csr Z := mkCSR 6 6 [1; 2; 4; 5; 7; 8; 8] [3; 2; 4; 1; 2; 5; 4] None None None None None.
Definition bvc_bits : list Z := [1; 0; 1; 0; 0; 0].
Definition bvc_junk : bv_junk := mkBvJunk (repeat 99 18) (repeat 98 4) (fun k => repeat 97 (Z.to_nat k)) (repeat 96 6).
Definition bvc_turns (n : nat) : list Z := concat (repeat [2; 0; 1] n).
Lemma bvc_case : rep false 1 6 bvc_rows bvc_matrix /\ rows_ok 6 bvc_rows /\ bv_junk_ok 6 3 bvc_junk /\
  (forall u v, In (u, v) (edges_of bvc_rows) -> (is_clear bvc_bits u <-> is_clear bvc_bits v)) /\
  exists chs s0 u c, bv_start bvc_matrix 3 bvc_bits (fun _ => [2%nat; 1%nat]) bvc_junk = Some (chs, s0) /\ chs = [[1; 3]; [4; 5]; []] /\
    foldM ustep (bvc_turns 20) s0 = Some u /\ all_done u /\ fresh_run (bvc_turns 20) s0 /\
    foldM (bv_cstep bvc_bits) (bvc_turns 20) (cinit_on (nthl chs) 3 (fst u)) = Some c /\ call_done c /\
    bv_cc bvc_matrix 3 bvc_bits (bvc_turns 20) (bvc_turns 20) (fun _ => [2%nat; 1%nat]) bvc_junk (junk77 3 6) =
      Some (u, c, mkCC 2 [1; 5] [3; 1] [0; 3; 2; 3; 3; 4; 77; 77; 77] [1; 3; 4; 5; 77; 77]).
Proof.
  split; [repeat split|]. split; [|split; [|split]].
  - intros r c v Hr Hc. cbn [bvc_rows In] in Hr. repeat (destruct Hr as [<-|Hr]; [cbn [In] in Hc; repeat (destruct Hc as [Hc|Hc]; [injection Hc as <- _; lia|]); destruct Hc|]). destruct Hr.
  - repeat split. intros k Hk. cbn [bvc_junk g_nodes]. rewrite Zlen_repeat. lia.
  - intros u v H. vm_compute in H. repeat (destruct H as [H|H]; [injection H as <- <-; vm_compute; split; intros X; congruence|]). destruct H.
  - do 4 eexists. split; [vm_compute; reflexivity|]. split; [reflexivity|]. split; [vm_compute; reflexivity|]. split; [|split; [|split; [vm_compute; reflexivity|split; [|vm_compute; reflexivity]]]].
    + intros th H. cbn [snd In] in H. repeat (destruct H as [<-|H]; [reflexivity|]). destruct H.
    + apply (steps_b_ok current_b current current_b_ok). vm_compute. reflexivity.
    + intros pc todo n H. cbn [snd In] in H. repeat (destruct H as [H|H]; [injection H as <- <- <-; auto|]). destruct H.
Qed.
