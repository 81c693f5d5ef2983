(** * Who owns the arrays of a schedule: allocation and release in LevelSchedule.

    Models allocation and release (nothing else) in
    - the constructor and destructor of LevelSchedule
      (/repo/LevelSchedule.cpp:82-122) and of FusedGSAndSpMVSchedule
      (/repo/gs_spmv_fused.cpp:31-41);
    - [allocate], [allocateFront] (/repo/LevelSchedule.hpp:228-246);
    - [findLevels_] (/repo/LevelSchedule.cpp:442-798) and
      [constructTaskGraph_] (/repo/LevelSchedule.cpp:800-1763), as compiled
      with OpenMP, with the member functions that call them
      (/repo/LevelSchedule.cpp:164-187).

    Blocks and pointers are those of Ownership.v.  The C++ vectors inside are
    left out: they manage themselves.  Memory of the pool is given back by
    moving its ends, which here is no action. *)
From Verif Require Import Base Ownership.

(** /repo/LevelSchedule.hpp:228-246. *)
Definition allocate (pool : bool) (h : heap) : heap * ptr :=
  if pool then (h, PPool) else malloc h.

(** "if (useMemoryPool) setTail(...) else FREE(...)". *)
Definition release (pool : bool) (h : heap) (p : ptr) : option heap :=
  if pool then Some h else free h p.

(** The fused schedule: the object itself and its three arrays
    (/repo/LevelSchedule.hpp:257-268). *)
Record fused := Fus { f_obj : ptr; f_np : ptr; f_pa : ptr; f_buf : ptr }.

(** The pointers of a LevelSchedule (/repo/LevelSchedule.hpp:157-180). *)
Record sched := Sch { npf : ptr; npb : ptr; paf : ptr; pab : ptr; tf : ptr;
                      o2t : ptr; t2o : ptr; pb0 : ptr; pb1 : ptr; fs : option fused }.

(** /repo/LevelSchedule.cpp:82-95, 116-122: the constructor and [init_]. *)
Definition sched0 : sched :=
  Sch PNull PNull PNull PNull PNull PNull PNull PNull PNull None.

(** /repo/LevelSchedule.cpp:442-798 [findLevels_]: the permutations of an
    earlier construction are released at 734-735 without looking at
    [useMemoryPool]. *)
Definition find_levels (pool : bool) (h : heap) (s : sched) : option (heap * sched) :=
  let '(h, lev) := allocate pool h in                             (* 505 *)
  let '(h, buffer) := allocate pool h in                          (* 508 *)
  h <- release pool h buffer ;;                                   (* 589-595 *)
  let '(h, taskRows) := allocate pool h in                        (* 605-606 *)
  let '(h, bBuffer) := allocate pool h in                         (* 612 *)
  h <- release pool h bBuffer ;;                                  (* 684-690 *)
  h <- free h (o2t s) ;;                                          (* 734 *)
  h <- free h (t2o s) ;;                                          (* 735 *)
  let '(h, p1) := allocate pool h in                              (* 736 *)
  let '(h, p2) := allocate pool h in                              (* 737 *)
  h <- release pool h taskRows ;;                                 (* 785-791 *)
  h <- release pool h lev ;;                                      (* 793-795 *)
  Some (h, Sch (npf s) (npb s) (paf s) (pab s) (tf s) p1 p2 (pb0 s) (pb1 s) (fs s)).

(** The two task graphs are CSR objects made by [CSR()] whose [rowptr] and
    [colidx] are set from outside (/repo/LevelSchedule.cpp:890-894). *)
Definition graph (r c : ptr) : csr := Csr r c PNull PNull PNull PNull PNull false false.

(** /repo/LevelSchedule.cpp:1588-1592: [rowptr] and [colidx] of a task graph. *)
Definition free_graph (h : heap) (g : csr) : option (heap * csr) :=
  h <- free h (rp g) ;;
  h <- free h (ci g) ;;
  Some (h, graph PNull PNull).

(** /repo/LevelSchedule.cpp:800-1763 [constructTaskGraph_]; [tr] is
    [transitiveReduction], [fuse] is [fuseSpMV].  The explicit destructor calls
    at 1595-1596 and 1710-1711 are followed by the automatic ones at the end of
    the function. *)
Definition construct (pool tr fuse : bool) (h : heap) (s : sched) : option (heap * sched) :=
  ' (h, s) <- find_levels pool h s ;;                             (* 818 *)
  let '(h, orig) := allocate pool h in                            (* 842 *)
  let '(h, npf') := allocate pool h in                            (* 850 *)
  let '(h, paf') := allocate pool h in                            (* 851 *)
  let '(h, npb') := allocate pool h in                            (* 855 *)
  let '(h, pab') := allocate pool h in                            (* 856 *)
  let '(h, tf') := allocate pool h in                             (* 860 *)
  let '(h, ar) := allocate pool h in                              (* 891 *)
  let '(h, ac) := allocate pool h in                              (* 892 *)
  let '(h, ir) := allocate pool h in                              (* 893 *)
  let '(h, ic) := allocate pool h in                              (* 894 *)
  let '(h, len) := allocate pool h in                             (* 896 *)
  let ga := graph ar ac in
  let gi := graph ir ic in
  let '(h, fs') :=
    (if fuse then
       let '(h, fo) := malloc h in                                (* 1141 *)
       let '(h, fp) := malloc h in                                (* 1263 *)
       let '(h, fb) := malloc h in                                (* 1264 *)
       let '(h, fn) := malloc h in                                (* 1266 *)
       (h, Some (Fus fo fn fp fb))
     else (h, fs s)) in
  ' (h, (q0, q1, ga, gi)) <-
    (if tr then
       let '(h, cb) := allocate pool h in                         (* 1460 *)
       let '(h, ch) := allocate pool h in                         (* 1461 *)
       let '(h, nc) := allocate pool h in                         (* 1462 *)
       ' (h, ga) <- (if pool then Some (h, ga) else free_graph h ga) ;; (* 1587-1593 *)
       ' (h, gi) <- (if pool then Some (h, gi) else free_graph h gi) ;;
       ' (h, ga) <- c_dealloc h ga ;;                             (* 1595 *)
       ' (h, gi) <- c_dealloc h gi ;;                             (* 1596 *)
       h <- release pool h len ;;                                 (* 1597-1602 *)
       let '(h, q0) := allocate pool h in                         (* 1612 *)
       let '(h, q1) := allocate pool h in                         (* 1613 *)
       let '(h, tmp) := allocate pool h in                        (* 1625 *)
       h <- release pool h tmp ;;                                 (* 1652-1665 *)
       h <- release pool h ch ;;
       h <- release pool h nc ;;
       h <- release pool h cb ;;
       Some (h, (q0, q1, ga, gi))
     else
       h <- free h len ;;                                         (* 1684 *)
       let '(h, q0) := allocate pool h in                         (* 1686 *)
       let '(h, q1) := allocate pool h in                         (* 1687 *)
       ' (h, ga) <- c_dealloc h ga ;;                             (* 1710 *)
       ' (h, gi) <- c_dealloc h gi ;;                             (* 1711 *)
       Some (h, (q0, q1, ga, gi))) ;;
  h <- release pool h orig ;;                                     (* 1730-1735 *)
  ' (h, _) <- c_dealloc h gi ;;                                   (* 1763 *)
  ' (h, _) <- c_dealloc h ga ;;
  Some (h, Sch npf' npb' paf' pab' tf' (o2t s) (t2o s) q0 q1 fs').

(** /repo/LevelSchedule.cpp:171-179: the overload that makes a [diagptr] of its
    own ([d]), and those that do not. *)
Definition construct_api (pool : bool) (x : bool * bool * bool) (h : heap) (s : sched) :
    option (heap * sched) :=
  let '(d, tr, fuse) := x in
  let '(h, dp) := malloc_if d h in
  ' (h, s) <- construct pool tr fuse h s ;;
  h <- free h dp ;;
  Some (h, s).

(** /repo/gs_spmv_fused.cpp:36-41 and [delete]. *)
Definition free_fused (h : heap) (f : option fused) : option heap :=
  match f with
  | None => Some h
  | Some f =>
      h <- free h (f_np f) ;; h <- free h (f_buf f) ;; h <- free h (f_pa f) ;;
      free h (f_obj f)
  end.

(** /repo/LevelSchedule.cpp:97-114: the destructor. *)
Definition destroy (pool : bool) (h : heap) (s : sched) : option heap :=
  if pool then Some h else
  h <- free h (npf s) ;; h <- free h (npb s) ;; h <- free h (paf s) ;;
  h <- free h (pab s) ;; h <- free h (tf s) ;; h <- free h (o2t s) ;;
  h <- free h (t2o s) ;; h <- free h (pb0 s) ;; h <- free h (pb1 s) ;;
  free_fused h (fs s).

(** A schedule that is constructed once for every element of [xs] and then
    destroyed. *)
Definition life (pool : bool) (xs : list (bool * bool * bool)) (h : heap) : option heap :=
  ' (h, s) <- foldM (fun x '(h, s) => construct_api pool x h s) xs (h, sched0) ;;
  destroy pool h s.

(** ** The specification *)

(** The heap was made by [MALLOC] and [FREE]: no block twice, names below
    [next]. *)
Definition heap_ok (h : heap) : Prop :=
  NoDup (live h) /\ (forall b, In b (live h) -> b < next h).

(** Exactly [k] blocks more are allocated. *)
Definition more (k : Z) (h h' : heap) : Prop :=
  exists l, Zlen l = k /\ Permutation (live h') (l ++ live h).

Definition without_tr (xs : list (bool * bool * bool)) : Z :=
  Zlen (filter (fun '(_, tr, _) => negb tr) xs).
Definition with_fuse (xs : list (bool * bool * bool)) : Z :=
  Zlen (filter (fun '(_, _, fuse) => fuse) xs).

(** ** Proofs *)

Definition cl (l : list Z) (x : Z) : Z := Z.of_nat (count_occ Z.eq_dec l x).

Lemma heap_ok_okh h : heap_ok h <-> okh h.
Proof.
  unfold heap_ok, okh, lc. split.
  - intros (N & B). split.
    + intros x. rewrite (NoDup_count_occ Z.eq_dec) in N. specialize (N x). lia.
    + intros x Hx. destruct (in_dec Z.eq_dec x (live h)) as [I|I].
      * specialize (B _ I). lia.
      * rewrite (count_occ_not_In Z.eq_dec) in I. lia.
  - intros (A & B). split.
    + rewrite (NoDup_count_occ Z.eq_dec). intros x. specialize (A x). lia.
    + intros b I. destruct (Z.lt_ge_cases b (next h)) as [L|L]; [exact L|].
      specialize (B b L). apply (count_occ_In Z.eq_dec) in I. lia.
Qed.

Definition isblk (p : ptr) : Prop := match p with PBlk _ => True | _ => False end.

Lemma isblk_blkn p : isblk p -> blkn p.
Proof. destruct p; cbn; tauto. Qed.

Definition fc (f : option fused) (x : Z) : Z :=
  match f with
  | None => 0
  | Some f => cnt (f_obj f) x + cnt (f_np f) x + cnt (f_pa f) x + cnt (f_buf f) x
  end.
Definition sc (s : sched) (x : Z) : Z :=
  cnt (npf s) x + cnt (npb s) x + cnt (paf s) x + cnt (pab s) x + cnt (tf s) x +
  cnt (pb0 s) x + cnt (pb1 s) x + cnt (o2t s) x + cnt (t2o s) x + fc (fs s) x.

(** Blocks as a list, to be able to say how many are lost. *)
Definition lost_of (p : ptr) : list Z := blk p.

Lemma cl_app l1 l2 x : cl (l1 ++ l2) x = cl l1 x + cl l2 x.
Proof. unfold cl. rewrite count_occ_app. lia. Qed.

Lemma cl_blk p x : cl (blk p) x = cnt p x.
Proof. apply blk_cnt. Qed.

Lemma Zlen_blk p : isblk p -> Zlen (blk p) = 1.
Proof. destruct p; cbn; try tauto; reflexivity. Qed.

(** [c]: constructed before; [f]: there is a fused schedule; [n]: blocks lost. *)
Definition kinds (c f : bool) (s : sched) : Prop :=
  (if c then isblk (npf s) /\ isblk (npb s) /\ isblk (paf s) /\ isblk (pab s) /\ isblk (tf s) /\
             isblk (pb0 s) /\ isblk (pb1 s) /\ isblk (o2t s) /\ isblk (t2o s)
   else npf s = PNull /\ npb s = PNull /\ paf s = PNull /\ pab s = PNull /\ tf s = PNull /\
        pb0 s = PNull /\ pb1 s = PNull /\ o2t s = PNull /\ t2o s = PNull) /\
  (if f then match fs s with
             | Some w => isblk (f_obj w) /\ isblk (f_np w) /\ isblk (f_pa w) /\ isblk (f_buf w)
             | None => False end
   else fs s = None).

Definition SI (h0 : heap) (c f : bool) (n : Z) (h : heap) (s : sched) : Prop :=
  okh h /\ kinds c f s /\
  exists lost, Zlen lost = n /\ forall x, lc h x = lc h0 x + sc s x + cl lost x.

Lemma kinds_blkn c f s : kinds c f s ->
  (blkn (npf s) /\ blkn (npb s) /\ blkn (paf s) /\ blkn (pab s) /\ blkn (tf s) /\
   blkn (pb0 s) /\ blkn (pb1 s) /\ blkn (o2t s) /\ blkn (t2o s)) /\
  match fs s with
  | Some w => blkn (f_obj w) /\ blkn (f_np w) /\ blkn (f_pa w) /\ blkn (f_buf w)
  | None => True end.
Proof.
  intros (K1 & K2). split.
  - destruct c.
    + decompose [and] K1. repeat split; apply isblk_blkn; assumption.
    + decompose [and] K1.
      repeat match goal with H : _ = PNull |- _ => rewrite H; clear H end.
      repeat split.
  - destruct f.
    + destruct (fs s); [|exact I]. decompose [and] K2.
      repeat split; apply isblk_blkn; assumption.
    + rewrite K2. exact I.
Qed.

Lemma malloc_eq h h' p : malloc h = (h', p) -> okh h ->
  okh h' /\ isblk p /\ forall x, lc h' x = lc h x + cnt p x.
Proof.
  intros E O. destruct (malloc_spec _ _ _ E O) as (A & (b & B) & C). subst p.
  repeat split; try exact A; try exact C; try apply A.
Qed.

Ltac alo :=
  match goal with
  | O : okh ?h |- context [malloc ?h] =>
      let h1 := fresh "h" in let p1 := fresh "p" in let E := fresh "E" in
      let O1 := fresh "O" in let Hb := fresh "Hb" in let L := fresh "L" in
      destruct (malloc h) as [h1 p1] eqn:E;
      destruct (malloc_eq _ _ _ E O) as (O1 & Hb & L);
      clear E O; cbv beta iota
  end.

Ltac kind := first [assumption|apply isblk_blkn; assumption|exact I].

(** Release [p]: it is among the blocks counted by the equation of its heap. *)
Ltac cnts :=
  let x := fresh "x" in intros x;
  repeat match goal with H : forall y : Z, lc _ y = _ |- _ => specialize (H x) end;
  ranges x.

Ltac fre tac :=
  match goal with
  | O : okh ?h |- context [free ?h ?p] =>
      let h1 := fresh "h" in let E := fresh "E" in
      let O1 := fresh "O" in let L := fresh "L" in
      destruct (free_spec h p O) as (h1 & E & O1 & L); [kind|tac|];
      rewrite E; clear E O; cbv beta iota
  end.

(** Two equations about neighbouring heaps become one. *)
Ltac chain :=
  repeat match goal with
  | H1 : forall y : Z, lc ?h1 y = @?f y, H2 : forall y : Z, lc ?h2 y = lc ?h1 y + @?g y |- _ =>
      let H := fresh "L" in
      assert (H : forall y : Z, lc h2 y = f y + g y)
        by (let y := fresh "y" in intros y; rewrite (H2 y), (H1 y); reflexivity);
      cbv beta in H; clear H1 H2
  | H1 : forall y : Z, lc ?h1 y = @?f y, H2 : forall y : Z, lc ?h2 y = lc ?h1 y - @?g y |- _ =>
      let H := fresh "L" in
      assert (H : forall y : Z, lc h2 y = f y - g y)
        by (let y := fresh "y" in intros y; rewrite (H2 y), (H1 y); reflexivity);
      cbv beta in H; clear H1 H2
  end.

Lemma sc_nonneg s x : 0 <= sc s x.
Proof. unfold sc, fc. destruct (fs s); ranges x; lia. Qed.
Lemma cl_nonneg l x : 0 <= cl l x.
Proof. unfold cl. lia. Qed.

Lemma find_levels_malloc h0 c f n h s : SI h0 c f n h s ->
  exists h' s', find_levels false h s = Some (h', s') /\ okh h' /\
    isblk (o2t s') /\ isblk (t2o s') /\
    npf s' = npf s /\ npb s' = npb s /\ paf s' = paf s /\ pab s' = pab s /\ tf s' = tf s /\
    pb0 s' = pb0 s /\ pb1 s' = pb1 s /\ fs s' = fs s /\
    (forall x, lc h' x + cnt (o2t s) x + cnt (t2o s) x
               = lc h x + cnt (o2t s') x + cnt (t2o s') x).
Proof.
  intros (O & K & lost & Hn & L).
  destruct (kinds_blkn _ _ _ K) as ((_ & _ & _ & _ & _ & _ & _ & K8 & K9) & _).
  unfold find_levels, allocate, release.
  assert (Hs : forall x, cnt (o2t s) x + cnt (t2o s) x <= lc h x).
  { intros x. specialize (L x). unfold sc, fc in L.
    pose proof (lc_nonneg h0 x). pose proof (cl_nonneg lost x).
    destruct (fs s); ranges x; lia. }
  clear L.
  do 2 alo.
  fre ltac:(cnts; specialize (Hs x); ranges x; lia).
  do 2 alo.
  fre ltac:(cnts; specialize (Hs x); ranges x; lia).
  fre ltac:(cnts; specialize (Hs x); ranges x; lia).
  fre ltac:(cnts; specialize (Hs x); ranges x; lia).
  do 2 alo.
  fre ltac:(cnts; specialize (Hs x); ranges x; lia).
  fre ltac:(cnts; specialize (Hs x); ranges x; lia).
  eexists; eexists. split; [reflexivity|]. cbn [o2t t2o npf npb paf pab tf pb0 pb1 fs].
  split; [assumption|]. split; [assumption|]. split; [assumption|].
  repeat (split; [reflexivity|]).
  cnts. lia.
Qed.

Lemma dealloc_graph h r c : is_pool r = false ->
  c_dealloc h (graph r c) = Some (h, graph r c).
Proof. intros E. unfold c_dealloc, graph. cbn [rp own]. rewrite E. reflexivity. Qed.

Lemma free_graph_eq h r c : free_graph h (graph r c) =
  (h <- free h r ;; h <- free h c ;; Some (h, graph PNull PNull)).
Proof. reflexivity. Qed.

Lemma isblk_not_pool p : isblk p -> is_pool p = false.
Proof. destruct p; cbn; tauto. Qed.

Definition b2z (b : bool) : Z := if b then 1 else 0.

(** What a further construction loses. *)
Lemma construct_malloc h0 c f n tr fuse h s : SI h0 c f n h s ->
  exists h' s', construct false tr fuse h s = Some (h', s') /\
    SI h0 true (f || fuse)
       (n + (if tr then 0 else 4) + (if c then 7 else 0) + (if f && fuse then 4 else 0)) h' s'.
Proof.
  intros S. destruct (find_levels_malloc h0 c f n h s S)
    as (h1 & s1 & E1 & O1 & Ko & Kt & Q1 & Q2 & Q3 & Q4 & Q5 & Q6 & Q7 & Q8 & L1).
  destruct S as (_ & K & lost & Hn & L).
  unfold construct. rewrite E1. clear E1. cbv beta iota.
  unfold allocate, release. cbv beta iota.
  (* what is held besides the permutations *)
  set (old := fun x => cnt (npf s) x + cnt (npb s) x + cnt (paf s) x + cnt (pab s) x
                       + cnt (tf s) x + cnt (pb0 s) x + cnt (pb1 s) x).
  assert (L1' : forall x, lc h1 x = lc h0 x + cl lost x + old x + fc (fs s) x
                          + cnt (o2t s1) x + cnt (t2o s1) x).
  { intros x. specialize (L1 x). specialize (L x). unfold sc in L. unfold old. lia. }
  assert (Old0 : forall x, 0 <= lc h0 x + cl lost x + old x + fc (fs s) x
                                + cnt (o2t s1) x + cnt (t2o s1) x).
  { intros x. unfold old, fc. pose proof (lc_nonneg h0 x). pose proof (cl_nonneg lost x).
    destruct (fs s); ranges x; lia. }
  set (keep := fun x => lc h0 x + cl lost x + old x + fc (fs s) x
                                + cnt (o2t s1) x + cnt (t2o s1) x) in *.
  assert (Ek : forall x, keep x = lc h0 x + cl lost x + old x + fc (fs s) x
                                + cnt (o2t s1) x + cnt (t2o s1) x) by reflexivity.
  change (forall x, lc h1 x = keep x) in L1'. change (forall x, 0 <= keep x) in Old0.
  clearbody keep. clear L L1.
  (* orig, npf, paf, npb, pab, tf, the graphs, the lengths *)
  destruct (malloc h1) as [g1 orig] eqn:E; destruct (malloc_eq _ _ _ E O1) as (G1 & B1 & M1);
    clear E; cbv beta iota.
  destruct (malloc g1) as [g2 npf'] eqn:E; destruct (malloc_eq _ _ _ E G1) as (G2 & B2 & M2);
    clear E G1; cbv beta iota.
  destruct (malloc g2) as [g3 paf'] eqn:E; destruct (malloc_eq _ _ _ E G2) as (G3 & B3 & M3);
    clear E G2; cbv beta iota.
  destruct (malloc g3) as [g4 npb'] eqn:E; destruct (malloc_eq _ _ _ E G3) as (G4 & B4 & M4);
    clear E G3; cbv beta iota.
  destruct (malloc g4) as [g5 pab'] eqn:E; destruct (malloc_eq _ _ _ E G4) as (G5 & B5 & M5);
    clear E G4; cbv beta iota.
  destruct (malloc g5) as [g6 tf'] eqn:E; destruct (malloc_eq _ _ _ E G5) as (G6 & B6 & M6);
    clear E G5; cbv beta iota.
  destruct (malloc g6) as [g7 ar] eqn:E; destruct (malloc_eq _ _ _ E G6) as (G7 & B7 & M7);
    clear E G6; cbv beta iota.
  destruct (malloc g7) as [g8 ac] eqn:E; destruct (malloc_eq _ _ _ E G7) as (G8 & B8 & M8);
    clear E G7; cbv beta iota.
  destruct (malloc g8) as [g9 ir] eqn:E; destruct (malloc_eq _ _ _ E G8) as (G9 & B9 & M9);
    clear E G8; cbv beta iota.
  destruct (malloc g9) as [g10 ic] eqn:E; destruct (malloc_eq _ _ _ E G9) as (G10 & B10 & M10);
    clear E G9; cbv beta iota.
  destruct (malloc g10) as [g11 len] eqn:E; destruct (malloc_eq _ _ _ E G10) as (G11 & B11 & M11);
    clear E G10; cbv beta iota zeta.
  assert (C1 : forall x, lc g11 x = keep x + cnt orig x + cnt npf' x + cnt paf' x + cnt npb' x
    + cnt pab' x + cnt tf' x + cnt ar x + cnt ac x + cnt ir x + cnt ic x + cnt len x).
  { intros x. rewrite M11, M10, M9, M8, M7, M6, M5, M4, M3, M2, M1, L1'. lia. }
  clear M1 M2 M3 M4 M5 M6 M7 M8 M9 M10 M11 L1' O1.
  (* the fused schedule *)
  remember (if fuse then _ else _) as w eqn:Ew.
  assert (Hw : exists g12 fs' nf, w = (g12, fs') /\ okh g12 /\
     (forall x, lc g12 x = lc g11 x + nf x) /\ (forall x, 0 <= nf x) /\
     (if fuse then match fs' with
        | Some w => (isblk (f_obj w) /\ isblk (f_np w) /\ isblk (f_pa w) /\ isblk (f_buf w)) /\
                    (forall x, nf x = fc fs' x)
        | None => False end
      else fs' = fs s1 /\ forall x, nf x = 0)).
  { rewrite Ew; clear Ew. destruct fuse.
    - do 4 alo. do 2 eexists. exists (fun x => cnt p x + cnt p0 x + cnt p1 x + cnt p2 x).
      split; [reflexivity|]. split; [assumption|].
      split; [cnts; lia|]. split; [intros x; ranges x; lia|].
      split; [repeat split; assumption|]. intros x. cbn. lia.
    - exists g11, (fs s1), (fun _ => 0). split; [reflexivity|]. split; [assumption|].
      split; [intros; lia|]. split; [intros; lia|]. split; reflexivity. }
  destruct Hw as (g12 & fs' & nf & -> & G12 & M12 & Nf0 & Hfs). clear Ew. cbv beta iota.
  (* the rest: the same blocks remain whatever [tr] is, but for the graphs *)
  assert (F : exists g q0 q1,
    (' (h, (q0, q1, ga, gi)) <-
      (if tr then
         let '(h, cb) := malloc g12 in
         let '(h, ch) := malloc h in
         let '(h, nc) := malloc h in
         ' (h, ga) <- free_graph h (graph ar ac) ;;
         ' (h, gi) <- free_graph h (graph ir ic) ;;
         ' (h, ga) <- c_dealloc h ga ;;
         ' (h, gi) <- c_dealloc h gi ;;
         h <- free h len ;;
         let '(h, q0) := malloc h in
         let '(h, q1) := malloc h in
         let '(h, tmp) := malloc h in
         h <- free h tmp ;; h <- free h ch ;; h <- free h nc ;; h <- free h cb ;;
         Some (h, (q0, q1, ga, gi))
       else
         h <- free g12 len ;;
         let '(h, q0) := malloc h in
         let '(h, q1) := malloc h in
         ' (h, ga) <- c_dealloc h (graph ar ac) ;;
         ' (h, gi) <- c_dealloc h (graph ir ic) ;;
         Some (h, (q0, q1, ga, gi))) ;;
     h <- free h orig ;;
     ' (h, _) <- c_dealloc h gi ;;
     ' (h, _) <- c_dealloc h ga ;;
     Some (h, Sch npf' npb' paf' pab' tf' (o2t s1) (t2o s1) q0 q1 fs'))
    = Some (g, Sch npf' npb' paf' pab' tf' (o2t s1) (t2o s1) q0 q1 fs') /\
    okh g /\ isblk q0 /\ isblk q1 /\
    forall x, lc g x = keep x + nf x + cnt npf' x + cnt paf' x + cnt npb' x
      + cnt pab' x + cnt tf' x + cnt q0 x + cnt q1 x
      + (if tr then 0 else cnt ar x + cnt ac x + cnt ir x + cnt ic x)).
  { assert (C2 : forall x, lc g12 x = keep x + nf x + cnt orig x + cnt npf' x + cnt paf' x
      + cnt npb' x + cnt pab' x + cnt tf' x + cnt ar x + cnt ac x + cnt ir x + cnt ic x
      + cnt len x).
    { intros x. rewrite M12, C1. lia. }
    clear C1 M12 G11 Ek Hfs.
    destruct tr.
    - do 3 alo. rewrite free_graph_eq.
      fre ltac:(cnts; specialize (Old0 x); specialize (Nf0 x); lia).
      fre ltac:(cnts; specialize (Old0 x); specialize (Nf0 x); lia).
      rewrite free_graph_eq.
      fre ltac:(cnts; specialize (Old0 x); specialize (Nf0 x); lia).
      fre ltac:(cnts; specialize (Old0 x); specialize (Nf0 x); lia).
      repeat (rewrite dealloc_graph by reflexivity; cbv beta iota).
      fre ltac:(cnts; specialize (Old0 x); specialize (Nf0 x); lia).
      do 3 alo.
      fre ltac:(cnts; specialize (Old0 x); specialize (Nf0 x); lia).
      fre ltac:(cnts; specialize (Old0 x); specialize (Nf0 x); lia).
      fre ltac:(cnts; specialize (Old0 x); specialize (Nf0 x); lia).
      fre ltac:(cnts; specialize (Old0 x); specialize (Nf0 x); lia).
      fre ltac:(cnts; specialize (Old0 x); specialize (Nf0 x); lia).
      repeat (rewrite dealloc_graph by reflexivity; cbv beta iota).
      do 3 eexists. split; [reflexivity|].
      split; [assumption|]. split; [assumption|]. split; [assumption|].
      cnts. lia.
    - fre ltac:(cnts; specialize (Old0 x); specialize (Nf0 x); lia).
      do 2 alo.
      rewrite (dealloc_graph _ ar) by (apply isblk_not_pool; assumption). cbv beta iota.
      rewrite (dealloc_graph _ ir) by (apply isblk_not_pool; assumption). cbv beta iota.
      fre ltac:(cnts; specialize (Old0 x); specialize (Nf0 x); lia).
      rewrite (dealloc_graph _ ir) by (apply isblk_not_pool; assumption). cbv beta iota.
      rewrite (dealloc_graph _ ar) by (apply isblk_not_pool; assumption). cbv beta iota.
      do 3 eexists. split; [reflexivity|].
      split; [assumption|]. split; [assumption|]. split; [assumption|].
      cnts. lia. }
  destruct F as (g & q0 & q1 & EF & Og & Bq0 & Bq1 & CF).
  exists g, (Sch npf' npb' paf' pab' tf' (o2t s1) (t2o s1) q0 q1 fs').
  split; [exact EF|]. clear EF. split; [exact Og|]. split.
  - (* kinds *)
    split; cbn [npf npb paf pab tf pb0 pb1 o2t t2o fs].
    + repeat split; assumption.
    + destruct fuse.
      * rewrite orb_true_r. destruct fs'; [|exact Hfs]. exact (proj1 Hfs).
      * rewrite orb_false_r. destruct Hfs as (-> & _). rewrite Q8. exact (proj2 K).
  - exists (lost ++ (if tr then [] else blk ar ++ blk ac ++ blk ir ++ blk ic)
       ++ (if c then blk (npf s) ++ blk (npb s) ++ blk (paf s) ++ blk (pab s) ++ blk (tf s)
                     ++ blk (pb0 s) ++ blk (pb1 s) else [])
       ++ (if f && fuse then match fs s with
             | Some w => blk (f_obj w) ++ blk (f_np w) ++ blk (f_pa w) ++ blk (f_buf w)
             | None => [] end else [])).
    split.
    + rewrite !Zlen_app, Hn.
      assert (Z1 : Zlen (if tr then [] else blk ar ++ blk ac ++ blk ir ++ blk ic)
                   = (if tr then 0 else 4)).
      { destruct tr; [reflexivity|]. rewrite !Zlen_app, !Zlen_blk by assumption. reflexivity. }
      rewrite Z1.
      assert (Z2 : Zlen (if c then blk (npf s) ++ blk (npb s) ++ blk (paf s) ++ blk (pab s)
                     ++ blk (tf s) ++ blk (pb0 s) ++ blk (pb1 s) else []) = if c then 7 else 0).
      { destruct c; [|reflexivity]. destruct K as (K1 & _). decompose [and] K1.
        rewrite !Zlen_app, !Zlen_blk by assumption. reflexivity. }
      rewrite Z2.
      assert (Z3 : Zlen (if f && fuse then match fs s with
             | Some w => blk (f_obj w) ++ blk (f_np w) ++ blk (f_pa w) ++ blk (f_buf w)
             | None => [] end else []) = if f && fuse then 4 else 0).
      { destruct f; [|reflexivity]. destruct fuse; [|reflexivity]. cbn [andb].
        destruct K as (_ & K2). destruct (fs s); [|contradiction]. decompose [and] K2.
        rewrite !Zlen_app, !Zlen_blk by assumption. reflexivity. }
      rewrite Z3. lia.
    + intros x. rewrite CF, Ek, !cl_app. unfold sc. cbn [npf npb paf pab tf pb0 pb1 o2t t2o fs].
      assert (Y1 : cl (if tr then [] else blk ar ++ blk ac ++ blk ir ++ blk ic) x
                   = (if tr then 0 else cnt ar x + cnt ac x + cnt ir x + cnt ic x)).
      { destruct tr; [reflexivity|]. rewrite !cl_app, !cl_blk. lia. }
      rewrite Y1.
      assert (Y2 : cl (if c then blk (npf s) ++ blk (npb s) ++ blk (paf s) ++ blk (pab s)
                     ++ blk (tf s) ++ blk (pb0 s) ++ blk (pb1 s) else []) x = old x).
      { unfold old. destruct c.
        - rewrite !cl_app, !cl_blk. lia.
        - destruct K as (K1 & _). decompose [and] K1.
          repeat match goal with H : _ = PNull |- _ => rewrite H; clear H end. reflexivity. }
      rewrite Y2.
      assert (Y3 : fc fs' x + cl (if f && fuse then match fs s with
             | Some w => blk (f_obj w) ++ blk (f_np w) ++ blk (f_pa w) ++ blk (f_buf w)
             | None => [] end else []) x = fc (fs s) x + nf x).
      { destruct fuse.
        - rewrite andb_true_r. destruct fs' as [w|]; [|contradiction].
          destruct Hfs as (_ & Hnf). rewrite Hnf.
          destruct f.
          + destruct (fs s) as [w0|]; [|change (cl [] x) with 0; cbn [fc]; lia]. rewrite !cl_app, !cl_blk.
            cbn [fc]. lia.
          + destruct K as (_ & K2). rewrite K2. cbn. lia.
        - rewrite andb_false_r. destruct Hfs as (-> & Hnf). rewrite Hnf, Q8.
          change (cl [] x) with 0. lia. }
      lia.
Qed.

Lemma SI_ge h0 c f n h s : SI h0 c f n h s -> forall x, sc s x <= lc h x.
Proof.
  intros (_ & _ & lost & _ & L) x. specialize (L x).
  pose proof (lc_nonneg h0 x). pose proof (cl_nonneg lost x). lia.
Qed.

(** The [diagptr] of the overload without one is released again. *)
Lemma construct_api_malloc h0 c f n d tr fuse h s : SI h0 c f n h s ->
  exists h' s', construct_api false (d, tr, fuse) h s = Some (h', s') /\
    SI h0 true (f || fuse)
       (n + (if tr then 0 else 4) + (if c then 7 else 0) + (if f && fuse then 4 else 0)) h' s'.
Proof.
  intros (O & K & lost & Hn & L). unfold construct_api.
  destruct (malloc_if d h) as [h1 p] eqn:E.
  destruct (malloc_if_spec _ _ _ _ E O) as (O1 & Bp & L1). clear E. cbv beta iota.
  (* the block of [diagptr] counted among the ones at the start *)
  set (b := blk p).
  assert (S : SI (Heap (b ++ live h0) (next h0)) c f n h1 s).
  { split; [exact O1|]. split; [exact K|]. exists lost. split; [exact Hn|].
    intros x. rewrite L1, L. unfold lc at 2. cbn [live]. rewrite count_occ_app.
    pose proof (blk_cnt p x) as Hb. fold b in Hb. unfold lc. lia. }
  destruct (construct_malloc _ _ _ _ tr fuse _ _ S) as (h2 & s2 & E2 & S2).
  rewrite E2. cbv beta iota. destruct S2 as (O2 & K2 & lost2 & Hn2 & L2).
  assert (Lp : forall x, lc (Heap (b ++ live h0) (next h0)) x = cnt p x + lc h0 x).
  { intros x. unfold lc. cbn [live]. rewrite count_occ_app.
    pose proof (blk_cnt p x) as Hb. fold b in Hb. lia. }
  destruct (free_spec h2 p O2 Bp) as (h3 & E3 & O3 & L3).
  { intros x. rewrite L2, Lp. pose proof (lc_nonneg h0 x). pose proof (sc_nonneg s2 x).
    pose proof (cl_nonneg lost2 x). lia. }
  rewrite E3. exists h3, s2. split; [reflexivity|]. split; [exact O3|]. split; [exact K2|].
  exists lost2. split; [exact Hn2|]. intros x. rewrite L3, L2, Lp. lia.
Qed.

(** Lost so far after [xs], from a schedule in state [c], [f]. *)
Fixpoint spilt (c f : bool) (xs : list (bool * bool * bool)) : Z :=
  match xs with
  | [] => 0
  | (_, tr, fuse) :: xs =>
      (if tr then 0 else 4) + (if c then 7 else 0) + (if f && fuse then 4 else 0) +
      spilt true (f || fuse) xs
  end.

Lemma constructs_malloc xs : forall h0 c f n h s, SI h0 c f n h s ->
  exists h' s' c' f', foldM (fun x '(h, s) => construct_api false x h s) xs (h, s) = Some (h', s')
    /\ SI h0 c' f' (n + spilt c f xs) h' s'.
Proof.
  induction xs as [|[[d tr] fuse] xs IH]; intros h0 c f n h s S.
  - exists h, s, c, f. split; [reflexivity|]. cbn [spilt]. rewrite Z.add_0_r. exact S.
  - destruct (construct_api_malloc h0 c f n d tr fuse h s S) as (h1 & s1 & E1 & S1).
    destruct (IH _ _ _ _ _ _ S1) as (h2 & s2 & c2 & f2 & E2 & S2).
    exists h2, s2, c2, f2. cbn [foldM]. rewrite E1. split; [exact E2|].
    cbn [spilt]. replace (n + _) with
      (n + (if tr then 0 else 4) + (if c then 7 else 0) + (if f && fuse then 4 else 0) +
       spilt true (f || fuse) xs) by lia. exact S2.
Qed.

Lemma SI_sched0 h : okh h -> SI h false false 0 h sched0.
Proof.
  intros O. split; [exact O|]. split; [repeat split|].
  exists []. split; [reflexivity|]. intros x. unfold sc, cl. cbn. lia.
Qed.

Lemma destroy_malloc h0 c f n h s : SI h0 c f n h s ->
  exists h', destroy false h s = Some h' /\ more n h0 h' /\ okh h'.
Proof.
  intros S. pose proof (SI_ge _ _ _ _ _ _ S) as G.
  destruct S as (O & K & lost & Hn & L).
  destruct (kinds_blkn _ _ _ K) as ((K1 & K2 & K3 & K4 & K5 & K6 & K7 & K8 & K9) & K10).
  unfold destroy.
  assert (F0 : forall x, 0 <= fc (fs s) x)
    by (intros x; unfold fc; destruct (fs s); ranges x; lia).
  assert (G' : forall x, cnt (npf s) x + cnt (npb s) x + cnt (paf s) x + cnt (pab s) x
     + cnt (tf s) x + cnt (pb0 s) x + cnt (pb1 s) x + cnt (o2t s) x + cnt (t2o s) x
     + fc (fs s) x <= lc h x) by exact G.
  assert (L' : forall x, lc h0 x + cl lost x = lc h x - sc s x)
    by (intros x; rewrite L; lia).
  clear L G.
  fre ltac:(cnts; specialize (G' x); specialize (F0 x); ranges x; lia).
  fre ltac:(cnts; specialize (G' x); specialize (F0 x); ranges x; lia).
  fre ltac:(cnts; specialize (G' x); specialize (F0 x); ranges x; lia).
  fre ltac:(cnts; specialize (G' x); specialize (F0 x); ranges x; lia).
  fre ltac:(cnts; specialize (G' x); specialize (F0 x); ranges x; lia).
  fre ltac:(cnts; specialize (G' x); specialize (F0 x); ranges x; lia).
  fre ltac:(cnts; specialize (G' x); specialize (F0 x); ranges x; lia).
  fre ltac:(cnts; specialize (G' x); specialize (F0 x); ranges x; lia).
  fre ltac:(cnts; specialize (G' x); specialize (F0 x); ranges x; lia).
  assert (M : forall g, okh g -> (forall x, lc g x = lc h0 x + cl lost x) -> more n h0 g).
  { intros g Og Lg. exists lost. split; [exact Hn|].
    apply (Permutation_count_occ Z.eq_dec). intros x. rewrite count_occ_app.
    specialize (Lg x). unfold lc, cl in Lg. lia. }
  unfold free_fused. destruct (fs s) as [w|] eqn:Ef.
  - destruct K10 as (W1 & W2 & W3 & W4). cbn [fc] in *.
    fre ltac:(cnts; specialize (G' x); ranges x; lia).
    fre ltac:(cnts; specialize (G' x); ranges x; lia).
    fre ltac:(cnts; specialize (G' x); ranges x; lia).
    match goal with
    | O : okh ?h |- context [free ?h ?p] =>
        destruct (free_spec h p O) as (hx & Ex & Ox & Lx);
          [kind|cnts; specialize (G' x); ranges x; lia|]
    end.
    exists hx. split; [exact Ex|]. split; [|exact Ox]. apply M; [exact Ox|].
    intros x. rewrite L'. unfold sc. rewrite Ef. cbn [fc]. clear - Lx L L0 L1 L2 L3 L4 L5 L6 L7 L8 L9 L10.
    repeat match goal with H : forall y : Z, lc _ y = _ |- _ => specialize (H x) end. lia.
  - eexists. split; [reflexivity|]. split; [|eassumption]. apply M; [eassumption|].
    intros x. rewrite L'. unfold sc. rewrite Ef. cbn [fc].
    clear - L L0 L1 L2 L3 L4 L5 L6 L7.
    repeat match goal with H : forall y : Z, lc _ y = _ |- _ => specialize (H x) end. lia.
Qed.

Lemma Zlen_cons' {A} (a : A) l : Zlen (a :: l) = 1 + Zlen l.
Proof. rewrite Zlen_cons. lia. Qed.

Lemma spilt_sum xs : forall c f, spilt c f xs =
  4 * without_tr xs
  + 7 * (Zlen xs - (if c then 0 else if xs then 0 else 1))
  + 4 * (with_fuse xs - (if f then 0 else if with_fuse xs =? 0 then 0 else 1)).
Proof.
  unfold without_tr, with_fuse.
  induction xs as [|[[d tr] fuse] xs IH]; intros c f.
  - destruct c, f; reflexivity.
  - cbn [spilt filter]. rewrite IH. rewrite Zlen_cons'.
    pose proof (Zlen_nonneg (filter (fun '(_, _, fuse) => fuse) xs)) as N.
    set (a := Zlen (filter (fun '(_, _, fuse) => fuse) xs)) in *.
    set (b := Zlen (filter (fun '(_, tr, _) => negb tr) xs)) in *.
    assert (A1 : Zlen (if fuse then (d, tr, fuse) :: filter (fun '(_, _, fuse) => fuse) xs
                  else filter (fun '(_, _, fuse) => fuse) xs) = (if fuse then 1 else 0) + a)
      by (destruct fuse; [rewrite Zlen_cons'; reflexivity|reflexivity]).
    assert (A2 : Zlen (if negb tr then (d, tr, fuse) :: filter (fun '(_, tr, _) => negb tr) xs
                  else filter (fun '(_, tr, _) => negb tr) xs) = (if tr then 0 else 1) + b)
      by (destruct tr; [reflexivity|cbn [negb]; rewrite Zlen_cons'; reflexivity]).
    rewrite A1, A2. clearbody a b. clear - N.
    destruct tr, c, f, fuse; cbn [orb andb];
      repeat match goal with |- context [?u =? ?v] => destruct (Z.eqb_spec u v) end; lia.
Qed.

(** Without the memory pool: no undefined behaviour, and exactly so many blocks
    are lost. *)
Theorem life_malloc xs h : heap_ok h ->
  exists h', life false xs h = Some h' /\ heap_ok h' /\
    more (4 * without_tr xs + 7 * Z.max 0 (Zlen xs - 1) + 4 * Z.max 0 (with_fuse xs - 1)) h h'.
Proof.
  intros O. apply heap_ok_okh in O.
  destruct (constructs_malloc xs h _ _ _ _ _ (SI_sched0 h O)) as (h1 & s1 & c & f & E & S).
  destruct (destroy_malloc _ _ _ _ _ _ S) as (h2 & E2 & M & O2).
  exists h2. unfold life. rewrite E. split; [exact E2|]. split; [apply heap_ok_okh, O2|].
  rewrite spilt_sum in M.
  replace (4 * without_tr xs + 7 * Z.max 0 (Zlen xs - 1) + 4 * Z.max 0 (with_fuse xs - 1))
    with (0 + (4 * without_tr xs + 7 * (Zlen xs - (if xs then 0 else 1))
               + 4 * (with_fuse xs - (if with_fuse xs =? 0 then 0 else 1)))); [exact M|].
  assert (N : 0 <= with_fuse xs) by apply Zlen_nonneg.
  destruct xs as [|y xs]; [reflexivity|]. rewrite Zlen_cons'.
  pose proof (Zlen_nonneg xs). destruct (Z.eqb_spec (with_fuse (y :: xs)) 0); lia.
Qed.

(** ** With the memory pool *)
Lemma construct_pool_first tr fuse h : tr = true -> okh h ->
  exists h' fs', construct true tr fuse h sched0
    = Some (h', Sch PPool PPool PPool PPool PPool PPool PPool PPool PPool fs') /\ okh h' /\
    exists l, Zlen l = (if fuse then 4 else 0) /\ forall x, lc h' x = lc h x + cl l x.
Proof.
  intros -> O. unfold construct, find_levels, allocate, release. cbv beta iota.
  change (free h (o2t sched0)) with (Some h). cbv beta iota.
  change (free h (t2o sched0)) with (Some h). cbv beta iota zeta.
  destruct fuse.
  - do 4 alo. cbn [c_dealloc is_pool rp graph own ep ci va idg dg dp free].
    do 2 eexists. split; [reflexivity|]. split; [assumption|].
    exists (blk p ++ blk p0 ++ blk p1 ++ blk p2).
    split; [rewrite !Zlen_app, !Zlen_blk by assumption; reflexivity|].
    cnts. rewrite !cl_app, !cl_blk. lia.
  - cbn [c_dealloc is_pool rp graph own ep ci va idg dg dp free].
    do 2 eexists. split; [reflexivity|]. split; [assumption|].
    exists []. split; [reflexivity|]. intros x. unfold cl. cbn. lia.
Qed.

(** Without transitive reduction the lengths, which lie in the pool, are given
    to [FREE]. *)
Lemma construct_pool_no_tr fuse h : construct true false fuse h sched0 = None.
Proof.
  unfold construct, find_levels, allocate, release. cbv beta iota.
  change (free h (o2t sched0)) with (Some h). cbv beta iota.
  change (free h (t2o sched0)) with (Some h). cbv beta iota zeta.
  destruct fuse; [|reflexivity].
  destruct (malloc h) as [h1 p1]. destruct (malloc h1) as [h2 p2].
  destruct (malloc h2) as [h3 p3]. destruct (malloc h3) as [h4 p4]. reflexivity.
Qed.

(** The second construction gives the permutations of the first, which lie in
    the pool, to [FREE]. *)
Lemma construct_pool_again tr fuse h s : o2t s = PPool -> construct true tr fuse h s = None.
Proof.
  intros E. unfold construct, find_levels, allocate, release. cbv beta iota. rewrite E.
  reflexivity.
Qed.

Theorem life_pool_once d fuse h : heap_ok h ->
  exists h', life true [(d, true, fuse)] h = Some h' /\ heap_ok h' /\
    more (if fuse then 4 else 0) h h'.
Proof.
  intros O. apply heap_ok_okh in O. unfold life. cbn [foldM construct_api].
  destruct (malloc_if d h) as [h1 p] eqn:E.
  destruct (malloc_if_spec _ _ _ _ E O) as (O1 & Bp & L1). clear E.
  destruct (construct_pool_first true fuse h1 eq_refl O1) as (h2 & fs' & E2 & O2 & l & Hl & L2).
  rewrite E2.
  destruct (free_spec h2 p O2 Bp) as (h3 & E3 & O3 & L3).
  { intros x. rewrite L2, L1. pose proof (lc_nonneg h x). pose proof (cl_nonneg l x). lia. }
  rewrite E3. cbn [destroy]. exists h3. split; [reflexivity|].
  split; [apply heap_ok_okh, O3|]. exists l. split; [exact Hl|].
  apply (Permutation_count_occ Z.eq_dec). intros x. rewrite count_occ_app.
  specialize (L3 x). rewrite L2, L1 in L3. unfold lc, cl in L3. lia.
Qed.

Theorem life_pool_undefined xs h : heap_ok h ->
  2 <= Zlen xs \/ 1 <= without_tr xs -> life true xs h = None.
Proof.
  intros O H. apply heap_ok_okh in O. unfold life.
  destruct xs as [|[[d tr] fuse] xs].
  - exfalso. unfold without_tr in H. cbn in H. lia.
  - cbn [foldM construct_api]. destruct (malloc_if d h) as [h1 p] eqn:E.
    destruct (malloc_if_spec _ _ _ _ E O) as (O1 & Bp & L1). clear E.
    destruct tr; [|rewrite construct_pool_no_tr; reflexivity].
    destruct (construct_pool_first true fuse h1 eq_refl O1) as (h2 & fs' & E2 & O2 & _).
    rewrite E2. destruct (free h2 p) as [h3|]; [|reflexivity].
    destruct xs as [|[[d' tr'] fuse'] xs].
    + exfalso. unfold without_tr in H. cbn in H. unfold Zlen in H. cbn in H. lia.
    + cbn [foldM construct_api]. destruct (malloc_if d' h3) as [h4 p'].
      rewrite construct_pool_again by reflexivity. reflexivity.
Qed.

(** ** Cases *)
Lemma life_malloc_case :
  option_map live (life false [(true, true, true)] (Heap [2; 0] 3)) = Some [2; 0].
Proof. vm_compute. reflexivity. Qed.

Lemma life_lost_case :
  option_map (fun h => Zlen (live h))
    (life false [(true, true, true); (false, false, true); (false, true, false)] (Heap [2; 0] 3))
  = Some (2 + 4 * 1 + 7 * 2 + 4 * 1).
Proof. vm_compute. reflexivity. Qed.

Lemma life_pool_case :
  option_map live (life true [(true, true, false)] (Heap [2; 0] 3)) = Some [2; 0] /\
  life true [(true, false, false)] (Heap [2; 0] 3) = None /\
  life true [(true, true, false); (true, true, false)] (Heap [2; 0] 3) = None.
Proof. repeat split; vm_compute; reflexivity. Qed.
