(** * Execution of row kernels in phases separated by barriers
    (test/gs_test.cpp:124-183, 287-341, test/trsv_test.cpp:126-185).

    Between two barriers each thread runs the rows of one task; the barrier lets
    a thread pass only when all have arrived (Barrier.v). *)
From Verif Require Import Base Interleave Spec Flat Csr RowPar P2P P2PProg.

(** A rule for interleavings with one invariant over the prefixes executed by all threads. *)
Lemma interleave_global {A S} (G : (Z -> list A) -> S -> Prop) (f : A -> S -> option S) (ts : list (list A)) :
  (forall ps t a q s, 0 <= t < Zlen ts -> (forall t', 0 <= t' < Zlen ts -> exists q', nthl ts t' = ps t' ++ q') ->
     nthl ts t = ps t ++ a :: q -> G ps s ->
     exists s', f a s = Some s' /\ G (fun t' => if t' =? t then ps t ++ [a] else ps t') s') ->
  forall rests tr, interleave rests tr -> Zlen rests = Zlen ts ->
  forall s ps, (forall t, 0 <= t < Zlen ts -> nthl ts t = ps t ++ nthl rests t) -> G ps s ->
  exists s' ps', foldM f tr s = Some s' /\ G ps' s' /\ forall t, 0 <= t < Zlen ts -> ps' t = nthl ts t.
Proof.
  intros Hs rests tr H. induction H as [rests Hd|ts1 a t0 ts2 tr H IH]; intros HL s ps Hp HG.
  - exists s, ps. split; auto. split; auto. intros t Ht. pose proof (Hp t Ht) as E.
    rewrite (Hd (nthl rests t)) in E; [|apply nth_row_In'; lia]. rewrite app_nil_r in E. congruence.
  - assert (Hk : 0 <= Zlen ts1 < Zlen ts).
    { rewrite <- HL, Zlen_app, Zlen_cons. pose proof (Zlen_nonneg ts1). pose proof (Zlen_nonneg ts2). lia. }
    pose proof (Hp (Zlen ts1) Hk) as E. rewrite nthl_app_mid in E.
    assert (Hpre : forall t', 0 <= t' < Zlen ts -> exists q', nthl ts t' = ps t' ++ q').
    { intros t' Ht'. exists (nthl (ts1 ++ (a :: t0) :: ts2) t'). auto. }
    destruct (Hs ps (Zlen ts1) a t0 s Hk Hpre E HG) as (s1 & E1 & G1).
    cbn [foldM]. rewrite E1.
    apply (IH ltac:(rewrite Zlen_app, Zlen_cons in *; lia) s1 (fun t' => if t' =? Zlen ts1 then ps (Zlen ts1) ++ [a] else ps t')); auto.
    intros t Ht. destruct (Z.eqb_spec t (Zlen ts1)) as [->|Hne].
    + rewrite nthl_app_mid, <- app_assoc. exact E.
    + rewrite (Hp t Ht). f_equal. now apply nthl_app_other.
Qed.
Lemma par_global {A S} (G : (Z -> list A) -> S -> Prop) sch (f : A -> S -> option S) (ts : list (list A)) s :
  G (fun _ => []) s ->
  (forall ps t a q s, 0 <= t < Zlen ts -> (forall t', 0 <= t' < Zlen ts -> exists q', nthl ts t' = ps t' ++ q') ->
     nthl ts t = ps t ++ a :: q -> G ps s ->
     exists s', f a s = Some s' /\ G (fun t' => if t' =? t then ps t ++ [a] else ps t') s') ->
  exists s' ps', par sch f ts s = Some s' /\ G ps' s' /\ forall t, 0 <= t < Zlen ts -> ps' t = nthl ts t.
Proof.
  intros H0 Hs. unfold par. apply (interleave_global G f ts Hs ts (merge sch ts) (merge_interleave sch ts) eq_refl s (fun _ => [])); auto.
Qed.

Section Phased.
Context {V L O : Type}.
Variables (exec : O -> L -> list V -> option (L * list V)) (l0 : L) (ops : Z -> list O).
(** One step of thread [t]. *)
Definition pstep (a : Z * instr) (s : list L * list V) : option (list L * list V) :=
  let '(t, c) := a in let '(locs, mem) := s in
  match c with
  | IBegin _ => l' <- set locs t l0 ;; Some (l', mem)
  | IOp i k => o <- get (ops i) k ;; l <- get locs t ;; ' (l', m') <- exec o l mem ;; ls <- set locs t l' ;; Some (ls, m')
  | _ => Some s
  end.
Definition rowcode (rows : list Z) : list instr := concat (map (rowblk (fun r => Zlen (ops r))) rows).
(** The threads of one phase; [rowss] lists the rows of each thread. *)
Definition phase_threads (rowss : list (list Z)) : list (list (Z * instr)) :=
  map (fun t => map (pair t) (rowcode (nthl rowss t))) (zrange 0 (Zlen rowss)).
Definition phase (sch : list nat) (rowss : list (list Z)) (s : list L * list V) := par sch pstep (phase_threads rowss) s.

Section Proof.
Variables (m T K : Z) (owner : Z -> Z) (adj : Z -> Z -> Prop) (s0 fin : list V) (prow : Z -> Z -> list Z) (ph th : Z -> Z).
Hypothesis Hframe : forall i o l s l' s', 0 <= i < m -> In o (ops i) -> exec o l s = Some (l', s') ->
  Zlen s' = Zlen s /\ forall p, owner p <> i -> get s' p = get s p.
Hypothesis Hlocal : forall i o l s1 s2 l' s1', 0 <= i < m -> In o (ops i) -> Zlen s1 = Zlen s2 ->
  (forall p, vis m owner adj i p -> get s1 p = get s2 p) -> exec o l s1 = Some (l', s1') ->
  exists s2', exec o l s2 = Some (l', s2') /\ forall p, owner p = i -> get s2' p = get s1' p.
Hypothesis Hadj : forall i c, adj i c -> 0 <= i < m -> 0 <= c < m -> c <> i /\ adj c i.
Hypothesis Hseq : sweep exec l0 ops m s0 = Some fin.
Hypothesis HT : 0 <= T.
Hypothesis Hin : forall i, 0 <= i < m -> 0 <= ph i < K /\ 0 <= th i < T /\ In i (prow (ph i) (th i)).
Hypothesis Hout : forall k t i, 0 <= k < K -> 0 <= t < T -> In i (prow k t) -> 0 <= i < m /\ ph i = k /\ th i = t.
Hypothesis Hnd : forall k t, 0 <= k < K -> 0 <= t < T -> NoDup (prow k t).
Hypothesis Hcover : forall i c, 0 <= c < i -> i < m -> adj i c ->
  ph c < ph i \/ (ph c = ph i /\ th c = th i /\ exists pre mid post, prow (ph i) (th i) = pre ++ c :: mid ++ i :: post).

Let nop (r : Z) := Zlen (ops r).
Lemma nop_nonneg r : 0 <= nop r. Proof. apply Zlen_nonneg. Qed.
Definition beg (i n : Z) : Prop := exists pre post, prow (ph i) (th i) = pre ++ i :: post /\ n = rpos nop pre.
Lemma beg_ex i : 0 <= i < m -> exists n, beg i n.
Proof. intros Hi. destruct (Hin i Hi) as (_ & _ & H). apply in_split in H as (pre & post & E). exists (rpos nop pre), pre, post. auto. Qed.
Lemma beg_unique i n n' : 0 <= i < m -> beg i n -> beg i n' -> n = n'.
Proof.
  intros Hi (pre & post & A & ->) (pre' & post' & A' & ->). destruct (Hin i Hi) as (R1 & R2 & _). f_equal. eapply split_unique; [|rewrite <- A; exact A'].
  rewrite <- A. now apply Hnd.
Qed.
Lemma rpos_mid' pre i post : rpos nop (pre ++ i :: post) = rpos nop pre + nop i + 1 + rpos nop post.
Proof.
  unfold rpos. rewrite map_app, concat_app, Zlen_app. cbn [map concat]. rewrite Zlen_app. unfold rowblk. rewrite Zlen_cons, Zlen_map, Zlen_zrange. pose proof (nop_nonneg i). lia.
Qed.
(** The instruction at a position. *)
Lemma code_at rows n c : get (rowcode rows) n = Some c <->
  exists pre i post, rows = pre ++ i :: post /\ ((c = IBegin i /\ n = rpos nop pre) \/ exists k, c = IOp i k /\ 0 <= k < nop i /\ n = rpos nop pre + 1 + k).
Proof.
  unfold rowcode. change (fun r => Zlen (ops r)) with nop. rewrite cat_at. unfold rpos. split.
  - intros (pre & i & post & k & E & E2 & G). exists pre, i, post. split; auto. unfold rowblk in G. destruct (Z.eq_dec k 0) as [->|N].
    + rewrite get_cons_0 in G. left. split; [congruence|lia].
    + right. pose proof (get_Some_bounds _ _ _ G). rewrite get_cons_pos, get_map in G by lia. destruct (get (zrange 0 (nop i)) (k - 1)) as [j|] eqn:Ej; [|discriminate].
      pose proof (get_Some_bounds _ _ _ Ej) as Bj. rewrite Zlen_zrange in Bj. pose proof (nop_nonneg i). rewrite get_zrange in Ej by lia. injection Ej as <-. cbn [option_map] in G.
      exists (k - 1). split; [congruence|]. lia.
  - intros (pre & i & post & E & H). exists pre, i, post. destruct H as [(-> & ->)|(k & -> & Hk & ->)].
    + exists 0. split; auto. split; [lia|reflexivity].
    + exists (1 + k). split; auto. split; [lia|]. unfold rowblk. rewrite get_cons_pos, get_map by lia. replace (1 + k - 1) with k by lia. rewrite get_zrange by lia. reflexivity.
Qed.

Definition stat (k : Z) (ps : Z -> list (Z * instr)) (st : Z -> Z) : Prop :=
  forall i n, 0 <= i < m -> beg i n ->
    (ph i < k -> st i = nops ops i) /\ (k < ph i -> st i = 0) /\ (ph i = k -> st i = clamp ops i (Zlen (ps (th i)) - n - 1)).
Definition pinv (k : Z) (ps : Z -> list (Z * instr)) (s : list L * list V) : Prop :=
  (exists st, mem_ok exec l0 ops m owner s0 st (snd s) /\ stat k ps st) /\ Zlen (fst s) = T /\
  (forall i n, 0 <= i < m -> ph i = k -> beg i n -> n < Zlen (ps (th i)) <= n + nop i ->
     exists l si, get (fst s) (th i) = Some l /\ part exec l0 ops s0 i (Zlen (ps (th i)) - n - 1) = Some (l, si)).

Lemma step_phase k ps t a q s : 0 <= k < K -> 0 <= t < T ->
  (forall t', 0 <= t' < T -> exists q', map (pair t') (rowcode (prow k t')) = ps t' ++ q') ->
  map (pair t) (rowcode (prow k t)) = ps t ++ a :: q -> pinv k ps s ->
  exists s', pstep a s = Some s' /\ pinv k (fun t' => if t' =? t then ps t ++ [a] else ps t') s'.
Proof.
  intros Hk Ht Hps E ((st & HM & Hst) & HL & Hloc). destruct s as (locs & mem). cbn [fst snd] in *.
  set (n := Zlen (ps t)).
  assert (Ha : exists c, a = (t, c) /\ get (rowcode (prow k t)) n = Some c).
  { assert (G : get (map (pair t) (rowcode (prow k t))) n = Some a). { rewrite E. unfold n. rewrite get_app_r by lia. rewrite Z.sub_diag. reflexivity. }
    rewrite get_map in G. destruct (get (rowcode (prow k t)) n) as [c|]; [|discriminate]. cbn [option_map] in G. injection G as <-. eauto. }
  destruct Ha as (c & -> & Hc). apply code_at in Hc as (pre & i & post & Er & Hc).
  assert (Hi : 0 <= i < m /\ ph i = k /\ th i = t). { apply Hout; auto. rewrite Er. apply in_elt. } destruct Hi as (Hi & Hpi & Hti).
  assert (Hb : beg i (rpos nop pre)). { exists pre, post. rewrite Hpi, Hti. auto. }
  (* other rows of this thread do not overlap *)
  assert (Hoth : forall j n', 0 <= j < m -> ph j = k -> th j = t -> j <> i -> beg j n' -> n' + nop j < rpos nop pre \/ rpos nop pre + nop i < n').
  { intros j n' Hj P1 P2 N (pre' & post' & Ej & ->). rewrite P1, P2, Er in Ej. destruct (split_cases _ _ _ _ _ _ Ej) as [(_ & -> & _)|[(mid & ->)|(mid & ->)]]; [contradiction| |].
    - right. rewrite rpos_mid'. unfold rpos at 3. pose proof (Zlen_nonneg (concat (map (rowblk nop) mid))). lia.
    - left. rewrite rpos_mid'. unfold rpos at 3. pose proof (Zlen_nonneg (concat (map (rowblk nop) mid))). lia. }
  assert (Hlen : forall t', Zlen (if t' =? t then ps t ++ [(t, c)] else ps t') = if t' =? t then n + 1 else Zlen (ps t')).
  { intros t'. destruct (t' =? t); auto. rewrite Zlen_app. reflexivity. }
  pose proof (nop_nonneg i) as Hni. destruct Hc as [(-> & En)|(kk & -> & Hkk & En)].
  - (* IBegin *)
    cbn [pstep]. destruct (set_ok locs t l0) as (l' & El); [lia|]. rewrite El. exists (l', mem). split; auto. split; [|split]; cbn [fst snd].
    + exists st. split; auto. intros j n' Hj Hbj. destruct (Hst j n' Hj Hbj) as (A & B & C). split; auto. split; auto. intros P. rewrite Hlen. rewrite (C P).
      destruct (Z.eqb_spec (th j) t) as [Et|]; auto. rewrite Et. fold n. destruct (Z.eq_dec j i) as [->|N].
      * rewrite (beg_unique _ _ _ Hi Hbj Hb). unfold clamp. lia.
      * destruct (Hoth j n' Hj P Et N Hbj); pose proof (nop_nonneg j); unfold clamp; fold (nop j); change (nops ops j) with (nop j); lia.
    + rewrite (set_len _ _ _ _ El). auto.
    + intros j n' Hj P Hbj. rewrite Hlen. destruct (Z.eqb_spec (th j) t) as [Et|Nt].
      * intros Hr. destruct (Z.eq_dec j i) as [->|N].
        -- rewrite (beg_unique _ _ _ Hi Hbj Hb) in *. replace (n + 1 - rpos nop pre - 1) with 0 by lia.
           destruct (seqmem_ok exec l0 ops m owner adj (fun _ => 0) (fun _ => []) s0 fin Hframe Hlocal Hadj Hseq i) as (si & Ei); [lia|]. exists l0, si. split; [rewrite Et; eapply get_set_same; eauto|]. now apply part_0.
        -- exfalso. destruct (Hoth j n' Hj P Et N Hbj); pose proof (nop_nonneg j); lia.
      * intros Hr. rewrite (get_set_other _ _ _ _ _ El) by auto. auto.
  - (* IOp *)
    destruct (Hst i _ Hi Hb) as (_ & _ & C). specialize (C Hpi). rewrite Hti in C. fold n in C.
    assert (Est : st i = kk) by (rewrite C; unfold clamp; change (nops ops i) with (nop i); lia).
    destruct (Hloc i _ Hi Hpi Hb) as (l & si & G1 & G2). { rewrite Hti. fold n. lia. }
    rewrite Hti in G1, G2. fold n in G2. replace (n - rpos nop pre - 1) with kk in G2 by lia.
    destruct (get_in_range (ops i) kk) as (o & Eo); [exact Hkk|].
    destruct (op_step exec l0 ops m owner adj (fun _ => 0) (fun _ => []) s0 fin Hframe Hlocal Hadj Hseq st mem i kk o l si HM Hi Est Eo G2) as (l' & mem' & Ex & (si' & Hp') & HM').
    { intros c Hc Ha. destruct (beg_ex c) as (nc & Hbc); [lia|]. destruct (Hst c nc ltac:(lia) Hbc) as (A & B & D). destruct (Hcover i c ltac:(lia) ltac:(lia) Ha) as [X|(X1 & X2 & pre' & mid & post' & X3)].
      - apply A. lia.
      - rewrite D by lia. rewrite X2, Hti. fold n. destruct Hbc as (pc & qc & Ec & ->).
        rewrite X1, X2 in Ec. rewrite Ec in X3. assert (Q : pc = pre'). { eapply split_unique; [|exact X3]. rewrite <- Ec. apply Hnd; lia. } subst pc.
        assert (Q2 : pre = pre' ++ c :: mid). { eapply split_unique; [|]. 2:{ rewrite <- Er, <- Hpi, <- Hti, Ec, X3, <- app_assoc. reflexivity. } rewrite <- Er. now apply Hnd. }
        unfold clamp. change (nops ops c) with (nop c). pose proof (nop_nonneg c). rewrite En, Q2, rpos_mid'. unfold rpos at 2.
        pose proof (Zlen_nonneg (concat (map (rowblk nop) mid))). lia. }
    { intros c Hc Ha. destruct (beg_ex c) as (nc & Hbc); [lia|]. destruct (Hst c nc ltac:(lia) Hbc) as (A & B & D).
      destruct (Hadj i c Ha Hi ltac:(lia)) as (_ & Ha'). destruct (Hcover c i ltac:(lia) ltac:(lia) Ha') as [X|(X1 & X2 & pre' & mid & post' & X3)].
      - apply B. lia.
      - rewrite D by lia. rewrite <- X2, Hti. fold n. destruct Hbc as (pc & qc & Ec & ->). rewrite <- X1, <- X2, Hpi, Hti in X3. rewrite <- X1, <- X2, Hpi, Hti in Ec.
        assert (Q : pre = pre'). { eapply split_unique; [|rewrite <- Er; exact X3]. rewrite <- Er. now apply Hnd. } subst pre'.
        assert (Q2 : pc = pre ++ i :: mid). { eapply split_unique; [|]. 2:{ rewrite <- Ec, X3, <- app_assoc. reflexivity. } rewrite <- Ec. now apply Hnd. }
        unfold clamp. change (nops ops c) with (nop c). pose proof (nop_nonneg c). rewrite En, Q2, rpos_mid'. unfold rpos at 3.
        pose proof (Zlen_nonneg (concat (map (rowblk nop) mid))). lia. }
    cbn [pstep]. rewrite Eo, G1, Ex. destruct (set_ok locs t l') as (ls & Els); [lia|]. rewrite Els. exists (ls, mem'). split; auto. split; [|split]; cbn [fst snd].
    + exists (fun j => if j =? i then kk + 1 else st j). split.
      { apply HM'; [now rewrite Z.eqb_refl|]. intros c Nc. destruct (Z.eqb_spec c i); auto. contradiction. }
      intros j n' Hj Hbj. destruct (Hst j n' Hj Hbj) as (A & B & D). destruct (Z.eqb_spec j i) as [->|N].
      * split; [lia|]. split; [lia|]. intros _. rewrite Hlen, Hti, Z.eqb_refl. rewrite (beg_unique _ _ _ Hi Hbj Hb). unfold clamp. change (nops ops i) with (nop i). lia.
      * split; auto. split; auto. intros P. rewrite Hlen, (D P). destruct (Z.eqb_spec (th j) t) as [Et|]; auto. rewrite Et. fold n.
        destruct (Hoth j n' Hj P Et N Hbj); pose proof (nop_nonneg j); unfold clamp; change (nops ops j) with (nop j); lia.
    + rewrite (set_len _ _ _ _ Els). auto.
    + intros j n' Hj P Hbj. rewrite Hlen. destruct (Z.eqb_spec (th j) t) as [Et|Nt].
      * intros Hr. destruct (Z.eq_dec j i) as [->|N].
        -- rewrite (beg_unique _ _ _ Hi Hbj Hb) in *. replace (n + 1 - rpos nop pre - 1) with (kk + 1) by lia. exists l', si'. split; auto. rewrite Et. eapply get_set_same; eauto.
        -- exfalso. destruct (Hoth j n' Hj P Et N Hbj); pose proof (nop_nonneg j); lia.
      * intros Hr. rewrite (get_set_other _ _ _ _ _ Els) by auto. auto.
Qed.

Definition pstart (k : Z) (s : list L * list V) : Prop := pinv k (fun _ => []) s.
Lemma phase_ok sch k s : 0 <= k < K -> pstart k s ->
  exists s', phase sch (map (prow k) (zrange 0 T)) s = Some s' /\ pstart (k + 1) s'.
Proof.
  intros Hk HI. unfold phase.
  assert (Hz : Zlen (map (prow k) (zrange 0 T)) = T) by (rewrite Zlen_map, Zlen_zrange; lia).
  assert (Hts : Zlen (phase_threads (map (prow k) (zrange 0 T))) = T) by (unfold phase_threads; rewrite Hz, Zlen_map, Zlen_zrange; lia).
  assert (Hn : forall t, 0 <= t < T -> nthl (phase_threads (map (prow k) (zrange 0 T))) t = map (pair t) (rowcode (prow k t))).
  { intros t Ht. unfold nthl, phase_threads. rewrite Hz, get_map, get_zrange by lia. cbn [option_map]. replace (0 + t) with t by lia. f_equal. f_equal.
    unfold nthl. rewrite get_map, get_zrange by lia. cbn [option_map]. f_equal. }
  destruct (par_global (pinv k) sch pstep (phase_threads (map (prow k) (zrange 0 T))) s HI) as (s' & ps & E & ((st & HM & Hst) & HL & Hloc) & Hps).
  { intros ps t a q s1 Ht Hp Hq HG. rewrite Hts in Ht, Hp. rewrite Hn in Hq by auto. apply (step_phase k ps t a q s1); auto.
    intros t' Ht'. rewrite <- Hn by auto. auto. }
  rewrite Hts in Hps. exists s'. split; auto. split; [|split; auto].
  - exists st. split; auto. intros i n Hi Hb. destruct (Hst i n Hi Hb) as (A & B & C). destruct (Hin i Hi) as (R1 & R2 & _).
    assert (X : ph i = k -> st i = nops ops i).
    { intros P. rewrite (C P), Hps, Hn by auto. rewrite Zlen_map. unfold rowcode. change (fun r => Zlen (ops r)) with nop. fold (rpos nop (prow k (th i))).
      destruct Hb as (pre & post & Eb & ->). rewrite <- P, Eb, rpos_mid'. unfold rpos at 2. pose proof (Zlen_nonneg (concat (map (rowblk nop) post))). unfold clamp.
      change (nops ops i) with (nop i). pose proof (nop_nonneg i). lia. }
    split; [|split].
    + intros P. destruct (Z.eq_dec (ph i) k); auto. apply A. lia.
    + intros P. apply B. lia.
    + intros P. rewrite (B ltac:(lia)). change (Zlen (@nil (Z * instr))) with 0. destruct Hb as (pre & post & _ & ->). unfold rpos. pose proof (Zlen_nonneg (concat (map (rowblk nop) pre))). unfold clamp.
      pose proof (nop_nonneg i). change (nops ops i) with (nop i). lia.
  - intros i n Hi P Hb Hr. exfalso. change (Zlen (@nil (Z * instr))) with 0 in Hr. destruct Hb as (pre & post & _ & ->). unfold rpos in Hr. pose proof (Zlen_nonneg (concat (map (rowblk nop) pre))). lia.
Qed.
(** All phases. *)
Theorem phases_ok (sch : Z -> list nat) locs : 0 <= K -> Zlen locs = T ->
  exists locs', foldM (fun k s => phase (sch k) (map (prow k) (zrange 0 T)) s) (zrange 0 K) (locs, s0) = Some (locs', fin).
Proof.
  intros HK Hl.
  assert (G : forall k, 0 <= k -> k <= K -> exists s, foldM (fun k s => phase (sch k) (map (prow k) (zrange 0 T)) s) (zrange 0 k) (locs, s0) = Some s /\ pstart k s).
  { intros k Hk. pattern k. revert k Hk. apply Z_ind0.
    - intros _. exists (locs, s0). split; auto. split; [|split; auto].
      + exists (fun _ => 0). split; [apply (mem_ok_init exec l0 ops m owner adj (fun _ => 0) (fun _ => []) s0 fin Hframe Hlocal Hadj Hseq)|]. intros i n Hi Hb. destruct (Hin i Hi) as (R1 & _). split; [lia|]. split; [auto|]. intros _. change (Zlen (@nil (Z * instr))) with 0.
        destruct Hb as (pre & post & _ & ->). unfold rpos. pose proof (Zlen_nonneg (concat (map (rowblk nop) pre))). unfold clamp. pose proof (nop_nonneg i). change (nops ops i) with (nop i). lia.
      + intros i n Hi P Hb Hr. exfalso. change (Zlen (@nil (Z * instr))) with 0 in Hr. destruct Hb as (pre & post & _ & ->). unfold rpos in Hr. pose proof (Zlen_nonneg (concat (map (rowblk nop) pre))). lia.
    - intros k Hk IH HkK. destruct IH as (s & E & I); [lia|]. destruct (phase_ok (sch k) k s) as (s' & E' & I'); auto; [lia|].
      exists s'. rewrite zrange_snoc, foldM_app, E by lia. cbn [foldM]. rewrite E'. auto. }
  destruct (G K HK) as ((locs' & s) & E & ((st & HM & Hst) & _)); [lia|]. exists locs'. rewrite E. f_equal. f_equal.
  apply (mem_ok_full exec l0 ops m 0 owner adj (fun _ => 0) (fun _ => []) s0 fin Hframe Hlocal Hadj Hseq st); auto. intros i Hi. destruct (beg_ex i Hi) as (n & Hb). apply (Hst i n Hi Hb). apply Hin. auto.
Qed.
End Proof.
End Phased.
