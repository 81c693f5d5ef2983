(** * The life of a memory pool: initialize, finalize, the destructor and the huge pages
    beneath (/repo/MemoryPool.cpp, /repo/Utils.hpp).

    Addresses are numbers, 0 is NULL.  The system is a list of regions handed out and
    not yet given back, and the words that were stored; its answers are parameters.
    HBW_ALLOC is not defined. *)
From Verif Require Import Base MemoryPool.
Local Open Scope Z_scope.

(** ** Model *)
(** By mmap or by posix_memalign; the first byte; the length. *)
Record region := mkRegion { rg_mapped : bool; rg_at : Z; rg_len : Z }.
(** The size_t values that were stored and not overwritten since, with their addresses. *)
Record os := mkOs { os_live : list region; os_words : list (Z * Z) }.
Definition os_word (s : os) (a : Z) : option Z := option_map snd (find (fun e => fst e =? a) (os_words s)).
(** The answers of mmap and posix_memalign, where they are called; None: failure. *)
Record answer := mkAnswer { ans_mmap : option Z; ans_memalign : option Z }.

Definition in_region (a n : Z) (r : region) : bool := (rg_at r <=? a) && (a + n <=? rg_at r + rg_len r).
Definition mapped_bytes (s : os) (a n : Z) : bool := existsb (in_region a n) (os_live s).
Definition store_word (s : os) (a v : Z) : option os :=
  assert! mapped_bytes s a 8 ;;
  Some (mkOs (os_live s) ((a, v) :: filter (fun e => negb ((a - 8 <? fst e) && (fst e <? a + 8))) (os_words s))).
Definition store_byte (s : os) (a : Z) : option os :=
  assert! mapped_bytes s a 1 ;;
  Some (mkOs (os_live s) (filter (fun e => negb ((a - 8 <? fst e) && (fst e <=? a))) (os_words s))).
Definition load_word (s : os) (a : Z) : option Z := assert! mapped_bytes s a 8 ;; os_word s a.
Fixpoint give_back (p : region -> bool) (l : list region) : option (list region) :=
  match l with [] => None | r :: l => if p r then Some l else l <- give_back p l ;; Some (r :: l) end.
(** munmap of anything but a whole mapping is counted as undefined. *)
Definition munmap (s : os) (a n : Z) : option os :=
  l <- give_back (fun r => rg_mapped r && (rg_at r =? a) && (rg_len r =? n)) (os_live s) ;; Some (mkOs l (os_words s)).
Definition free_mem (s : os) (a : Z) : option os :=
  l <- give_back (fun r => negb (rg_mapped r) && (rg_at r =? a)) (os_live s) ;; Some (mkOs l (os_words s)).

(** /repo/Utils.hpp:149-151 *)
Definition HP : Z := 2 * 1024 * 1024.
Definition align_to_page_size (x : Z) : Z := w64 (w64 (x + HP - 1) / HP * HP).
(** /repo/Utils.hpp:161 *)
Definition real_size (size : Z) : Z := align_to_page_size (w64 (size + HP)).
Definition MAP_FAILED : Z := W64 - 1.
(** /repo/Utils.hpp:157-175; posix_memalign leaves ptr as it was if it fails. *)
Definition malloc_huge_pages (size : Z) (ans : answer) (s : os) : option (os * Z) :=
  let real := real_size size in
  let '(ptr, s, word) :=
    match ans_mmap ans with
    | Some a => (a, mkOs (mkRegion true a real :: os_live s) (os_words s), real)
    | None => match ans_memalign ans with
              | Some a => (a, mkOs (mkRegion false a real :: os_live s) (os_words s), 0)
              | None => (MAP_FAILED, s, 0)
              end
    end in
  if ptr =? 0 then Some (s, 0)
  else s <- store_word s ptr word ;; Some (s, w64 (ptr + HP)).
(** /repo/Utils.hpp:176-192 *)
Definition free_huge_pages (chk : bool) (p : Z) (s : os) : option os :=
  if p =? 0 then Some s
  else
    let real_ptr := w64 (p - HP) in
    real <- load_word s real_ptr ;;
    _ <- guard chk (real mod HP =? 0) ;;
    if negb (real =? 0) then munmap s real_ptr real else free_mem s real_ptr.

(** The pool, buffer_, the blocks handed out and still alive (offsets from buffer_), and
    the system. *)
Record life := mkLife { lf_pool : pool; lf_buf : Z; lf_blocks : list (Z * Z); lf_os : os }.
(** /repo/MemoryPool.cpp:40-42 *)
Definition new_pool (s : os) : life := mkLife (mkPool 0 0 0) 0 [] s.
(** /repo/MemoryPool.cpp:54-70 *)
Definition initialize (chk : bool) (sz : Z) (ans : answer) (st : life) : option life :=
  ' (s, b) <- malloc_huge_pages sz ans (lf_os st) ;; _ <- guard chk (negb (b =? 0)) ;; Some (mkLife (pool_init sz) b [] s).
(** /repo/MemoryPool.cpp:72-89, and the destructor 49-52 *)
Definition finalize (chk : bool) (st : life) : option life :=
  s <- (if negb (lf_buf st =? 0) then free_huge_pages chk (lf_buf st) (lf_os st) else Some (lf_os st)) ;;
  Some (mkLife (mkPool (psize (lf_pool st)) 0 0) 0 [] s).

(** The operations of the pool (C24), and the program storing a byte somewhere. *)
Inductive life_op := LInit (sz : Z) (ans : answer) | LFinal | LPool (o : pool_op) | LByte (a : Z).
Definition life_step (chk : bool) (o : life_op) (st : life) : option life :=
  match o with
  | LInit sz ans => initialize chk sz ans st
  | LFinal => finalize chk st
  | LPool o => ' (p, l) <- pool_step chk o (lf_pool st, lf_blocks st) ;; Some (mkLife p (lf_buf st) l (lf_os st))
  | LByte a => s <- store_byte (lf_os st) a ;; Some (mkLife (lf_pool st) (lf_buf st) (lf_blocks st) s)
  end.

(** ** Specification *)
Definition byte_of (r : region) (a : Z) : Prop := rg_at r <= a < rg_at r + rg_len r.
(** Memory the system may hand out: [n] bytes nobody else has, not at 0 and not at the
    end of the address space. *)
Definition grantable (s : os) (a n : Z) : Prop := 0 < a /\ a + n < 2 ^ 64 /\ forall r x, In r (os_live s) -> byte_of r x -> ~ a <= x < a + n.
Definition granted (s : os) (n : Z) (ans : answer) : Prop :=
  match ans_mmap ans, ans_memalign ans with Some a, _ => grantable s a n | None, Some a => grantable s a n | None, None => False end.
(** How a program uses a pool: initialize only a pool that is not initialised, requests
    only between initialize and finalize, and stores only into blocks handed out by the
    pool and into other memory of the program, the regions [others]. *)
Definition used_well (others : list region) (st : life) (o : life_op) : Prop :=
  match o with
  | LInit sz ans => lf_buf st = 0 /\ 0 <= sz <= 2 ^ 62 /\ granted (lf_os st) (real_size sz) ans
  | LFinal => True
  | LPool o => lf_buf st <> 0 /\ op_ok (psize (lf_pool st)) o
  | LByte a => (exists b, In b (lf_blocks st) /\ in_block b (a - lf_buf st)) \/ exists r, In r others /\ byte_of r a
  end.
Inductive reach (s0 : os) : life -> Prop :=
| reach_new : reach s0 (new_pool s0)
| reach_step : forall st o st', reach s0 st -> used_well (os_live s0) st o -> life_step true o st = Some st' -> reach s0 st'.

(** ** Proofs *)
Lemma W64_val : W64 = 18446744073709551616. Proof. reflexivity. Qed.
Lemma HP_val : HP = 2097152. Proof. reflexivity. Qed.
Lemma real_size_exact size : 0 <= size < 2 ^ 64 -> size + HP <= real_size size <-> size <= 2 ^ 64 - 2 * HP.
Proof.
  intros H. unfold real_size, align_to_page_size, w64. change (2 ^ 64) with 18446744073709551616 in *. rewrite W64_val, HP_val.
  destruct (Z_le_gt_dec size (18446744073709551616 - 2 * 2097152)) as [L|L].
  - split; [auto|intros _]. rewrite (Z.mod_small (size + 2097152)) by lia. rewrite (Z.mod_small (size + 2097152 + _ - 1)) by lia.
    pose proof (Z.div_mod (size + 2097152 + 2097152 - 1) 2097152 ltac:(lia)). pose proof (Z.mod_pos_bound (size + 2097152 + 2097152 - 1) 2097152 ltac:(lia)).
    rewrite Z.mod_small by lia. lia.
  - split; [|lia]. intros C. exfalso.
    assert (E : (size + 2097152) mod 18446744073709551616 <= 18446744073709551615) by (pose proof (Z.mod_pos_bound (size + 2097152) 18446744073709551616); lia).
    pose proof (Z.mod_pos_bound ((((size + 2097152) mod 18446744073709551616 + 2097152 - 1) mod 18446744073709551616) / 2097152 * 2097152) 18446744073709551616 ltac:(lia)) as B.
    destruct (Z_lt_ge_dec (size + 2097152) 18446744073709551616) as [D|D].
    + rewrite (Z.mod_small (size + 2097152)) in C by lia.
      assert (E2 : (size + 2097152 + 2097152 - 1) mod 18446744073709551616 = size + 2097152 + 2097152 - 1 - 18446744073709551616) by (symmetry; apply (Zmod_unique _ _ 1); lia).
      rewrite E2 in C. rewrite Z.div_small in C by lia. rewrite Z.mod_small in C; lia.
    + assert (E3 : (size + 2097152) mod 18446744073709551616 = size + 2097152 - 18446744073709551616) by (symmetry; apply (Zmod_unique _ _ 1); lia).
      rewrite E3 in C, B. rewrite E3 in E. lia.
Qed.
Lemma real_size_mod size : real_size size mod HP = 0.
Proof.
  unfold real_size, align_to_page_size, w64. rewrite W64_val, HP_val. set (q := _ / 2097152).
  replace 18446744073709551616 with (8796093022208 * 2097152) by reflexivity. rewrite Z.mul_mod_distr_r by lia. apply Z.mod_mul. lia.
Qed.

(** What holds between the operations. *)
Definition life_inv (s0 : os) (st : life) : Prop :=
  if lf_buf st =? 0 then lf_blocks st = [] /\ os_live (lf_os st) = os_live s0
  else exists mp, let at_ := lf_buf st - HP in let len := real_size (psize (lf_pool st)) in
    os_live (lf_os st) = mkRegion mp at_ len :: os_live s0 /\ grantable s0 at_ len /\
    os_word (lf_os st) at_ = Some (if mp then len else 0) /\ psize (lf_pool st) + HP <= len /\ pool_inv (psize (lf_pool st)) (lf_pool st, lf_blocks st).

Lemma init_inv s0 st sz ans : life_inv s0 st -> lf_buf st = 0 -> 0 <= sz <= 2 ^ 62 -> granted (lf_os st) (real_size sz) ans -> exists st', initialize true sz ans st = Some st' /\ life_inv s0 st'.
Proof.
  unfold life_inv at 1. intros HI HB Hs HG. rewrite HB in HI. cbn [Z.eqb] in HI. destruct HI as (_ & EL).
  assert (RS : sz + HP <= real_size sz). { apply real_size_exact; [|rewrite HP_val]; lia. }
  assert (RU : real_size sz < W64). { unfold real_size, align_to_page_size, w64. rewrite W64_val. apply Z.mod_pos_bound. lia. }
  assert (K : forall mp a, grantable (lf_os st) a (real_size sz) -> exists st',
     (' (s, b) <- (if a =? 0 then Some (mkOs (mkRegion mp a (real_size sz) :: os_live (lf_os st)) (os_words (lf_os st)), 0)
        else s <- store_word (mkOs (mkRegion mp a (real_size sz) :: os_live (lf_os st)) (os_words (lf_os st))) a (if mp then real_size sz else 0) ;; Some (s, w64 (a + HP))) ;;
      _ <- guard true (negb (b =? 0)) ;; Some (mkLife (pool_init sz) b [] s)) = Some st' /\ life_inv s0 st').
  { intros mp a (G1 & G2 & G3). replace (a =? 0) with false by lia. unfold store_word, mapped_bytes. cbn [os_live existsb]. unfold in_region at 1. cbn [rg_at rg_len]. pose proof HP_val as HV.
    replace (a <=? a) with true by lia. replace (a + 8 <=? a + real_size sz) with true by lia. cbn [andb orb]. rewrite (w64_small (a + HP)) by (unfold W64; lia).
    unfold guard. replace (a + HP =? 0) with false by lia. cbn [negb andb]. eexists. split; [reflexivity|].
    unfold life_inv. cbn [lf_buf lf_blocks lf_os lf_pool os_live pool_init psize]. replace (a + HP =? 0) with false by lia. exists mp. cbn zeta. replace (a + HP - HP) with a by lia. rewrite EL.
    split; auto. split. { split; auto. split; auto. intros r x Hr. apply G3. now rewrite EL. }
    split. { unfold os_word. cbn [os_words find fst]. now rewrite Z.eqb_refl. } split; auto. split; [|split]; cbn [fst snd psize]; auto; [unfold pool_wf; cbn; lia|]. split; [intros b []|constructor]. }
  unfold initialize, malloc_huge_pages, granted in *. destruct (ans_mmap ans) as [a|]; [exact (K true a HG)|]. destruct (ans_memalign ans) as [a|]; [exact (K false a HG)|contradiction].
Qed.

Lemma final_inv s0 st : life_inv s0 st -> exists st', finalize true st = Some st' /\ lf_buf st' = 0 /\ lf_blocks st' = [] /\ os_live (lf_os st') = os_live s0.
Proof.
  unfold life_inv, finalize. destruct (lf_buf st =? 0) eqn:EB; cbn [negb].
  - intros (HB & EL). eexists. split; [reflexivity|]. repeat split; auto.
  - intros (mp & HI). cbn zeta in HI. destruct HI as (EL & (G1 & G2 & G3) & EW & RS & HP_ & WF & _). cbn [fst snd] in *. unfold free_huge_pages. rewrite EB. pose proof HP_val as HV.
    rewrite (w64_small (lf_buf st - HP)) by (unfold W64, pool_wf in *; lia). unfold load_word, mapped_bytes. rewrite EL. cbn [existsb]. unfold in_region at 1. cbn [rg_at rg_len].
    set (at_ := lf_buf st - HP) in *. set (len := real_size (psize (lf_pool st))) in *. destruct WF as (WF & _). replace (at_ <=? at_) with true by lia. replace (at_ + 8 <=? at_ + len) with true by lia. cbn [andb orb].
    rewrite EW. pose proof (real_size_mod (psize (lf_pool st))) as RM. fold len in RM. unfold guard, munmap, free_mem. rewrite EL. cbn [give_back rg_mapped rg_at rg_len].
    destruct mp; cbn [negb andb].
    + replace (len mod HP =? 0) with true by lia. replace (len =? 0) with false by lia. cbn [negb andb]. rewrite !Z.eqb_refl. cbn [andb]. eexists. split; [reflexivity|]. auto.
    + rewrite Z.mod_0_l by lia. cbn [Z.eqb negb andb]. rewrite Z.eqb_refl. eexists. split; [reflexivity|]. auto.
Qed.

Lemma find_filter (p : Z -> bool) l a : p a = true -> find (fun e : Z * Z => fst e =? a) (filter (fun e => p (fst e)) l) = find (fun e => fst e =? a) l.
Proof.
  intros H. induction l as [|(x, v) l IH]; auto. cbn [filter find fst]. destruct (Z.eqb_spec x a) as [->|N].
  - rewrite H. cbn [find fst]. now rewrite Z.eqb_refl.
  - destruct (p x); cbn [find fst]; auto. replace (x =? a) with false by lia. auto.
Qed.
Lemma step_inv s0 st o st' : life_inv s0 st -> used_well (os_live s0) st o -> life_step true o st = Some st' -> life_inv s0 st'.
Proof.
  intros HI HU E. destruct o as [sz ans| |o|a]; cbn [used_well life_step] in *.
  - destruct HU as (HB & Hs & HG). destruct (init_inv s0 st sz ans HI HB Hs HG) as (st1 & E1 & H1). congruence.
  - destruct (final_inv s0 st HI) as (st1 & E1 & B1 & L1 & O1). rewrite E1 in E. injection E as <-. unfold life_inv. rewrite B1, Z.eqb_refl. auto.
  - destruct HU as (HB & HO). unfold life_inv in *. replace (lf_buf st =? 0) with false in HI by lia. destruct HI as (mp & HI). cbn zeta in HI. destruct HI as (EL & G & EW & RS & HP_).
    destruct (pool_step true o (lf_pool st, lf_blocks st)) as [(p, l)|] eqn:EP; [|discriminate]. injection E as <-. cbn [lf_buf lf_blocks lf_os lf_pool]. replace (lf_buf st =? 0) with false by lia. exists mp. cbn zeta.
    assert (Hsz : psize (lf_pool st) <= 2 ^ 62) by (destruct HP_ as (_ & (WF & _) & _); cbn [fst] in WF; lia).
    pose proof (pool_step_inv _ _ _ _ Hsz HO HP_ EP) as H1. assert (EZ : psize p = psize (lf_pool st)) by (destruct H1 as (X & _); exact X). rewrite EZ. auto.
  - destruct (store_byte (lf_os st) a) as [s|] eqn:ES; [|discriminate]. injection E as <-. unfold store_byte in ES. destruct (mapped_bytes _ _ _); [|discriminate]. injection ES as <-.
    unfold life_inv in *. cbn [lf_buf lf_blocks lf_os lf_pool os_live]. destruct (lf_buf st =? 0) eqn:EB; [exact HI|]. destruct HI as (mp & HI). exists mp. cbn zeta in *. destruct HI as (EL & G & EW & RS & HP_).
    split; auto. split; auto. split; auto. set (at_ := lf_buf st - HP) in *. pose proof HP_val as HV. unfold os_word in *. cbn [os_words]. rewrite (find_filter (fun x => negb ((a - 8 <? x) && (x <=? a)))); auto. apply Bool.negb_true_iff. destruct HU as [(b & Hb & Ha)|(r & Hr & Ha)].
    + destruct HP_ as (_ & _ & (H1 & _)). destruct (H1 b Hb) as (B1 & _). unfold in_block in Ha. lia.
    + destruct G as (G1 & G2 & G3). pose proof (G3 r a Hr Ha) as X. destruct HP_ as (_ & (WF & _) & _). cbn [fst] in WF. lia.
Qed.
Lemma reach_inv s0 st : reach s0 st -> life_inv s0 st.
Proof. induction 1 as [|st o st' _ IH HU E]; [split; reflexivity|]. eauto using step_inv. Qed.

(** Between the operations: every block lies inside memory of the pool, behind the page
    with the size; no two overlap.  The destructor gives back exactly this memory, the way
    it was obtained. *)
Theorem life_safe s0 st : reach s0 st ->
  (forall b, In b (lf_blocks st) -> exists r, In r (os_live (lf_os st)) /\ grantable s0 (rg_at r) (rg_len r) /\ forall x, in_block b (x - lf_buf st) -> rg_at r + 8 <= x < rg_at r + rg_len r) /\
  ForallOrdPairs disjoint (lf_blocks st) /\ (lf_buf st = 0 -> lf_blocks st = [] /\ os_live (lf_os st) = os_live s0) /\
  exists st', finalize true st = Some st' /\ os_live (lf_os st') = os_live s0.
Proof.
  intros HR. pose proof (reach_inv s0 st HR) as HI. destruct (final_inv s0 st HI) as (st1 & E1 & _ & _ & O1). unfold life_inv in HI. pose proof HP_val as HV. split; [|split; [|split; [|exists st1; auto]]].
  - intros b Hb. destruct (lf_buf st =? 0) eqn:EB. { destruct HI as (HB & _). rewrite HB in Hb. destruct Hb. }
    destruct HI as (mp & HI). cbn zeta in HI. destruct HI as (EL & G & EW & RS & _ & WF & H1 & _). rewrite EL. eexists. split; [left; reflexivity|]. cbn [rg_at rg_len fst snd] in *. split; auto.
    intros x Hx. destruct (H1 b Hb) as (B1 & B2 & B3). pose proof (alive_block _ b WF B2 B1 B3) as (I1 & I2). unfold in_block in Hx. lia.
  - destruct (lf_buf st =? 0); [destruct HI as (-> & _); constructor|]. destruct HI as (mp & HI). cbn zeta in HI. destruct HI as (_ & _ & _ & _ & _ & _ & _ & H2). exact H2.
  - intros HB. rewrite HB in HI. exact HI.
Qed.
(** Nothing is undefined but requests that the assertions of the pool refuse. *)
Theorem life_defined s0 st o : reach s0 st -> used_well (os_live s0) st o -> life_step true o st = None -> exists po, o = LPool po /\ pool_step true po (lf_pool st, lf_blocks st) = None.
Proof.
  intros HR HU E. pose proof (reach_inv s0 st HR) as HI. destruct o as [sz ans| |o|a]; cbn [used_well life_step] in *.
  - destruct HU as (HB & Hs & HG). destruct (init_inv s0 st sz ans HI HB Hs HG) as (st1 & E1 & _). congruence.
  - destruct (final_inv s0 st HI) as (st1 & E1 & _). congruence.
  - exists o. split; auto. destruct (pool_step true o (lf_pool st, lf_blocks st)) as [(p, l)|]; auto. discriminate.
  - exfalso. unfold store_byte in E. destruct (mapped_bytes (lf_os st) a 1) eqn:EM; [discriminate|]. unfold mapped_bytes in EM.
    assert (X : exists r, In r (os_live (lf_os st)) /\ byte_of r a).
    { unfold life_inv in HI. destruct HU as [(b & Hb & Ha)|(r & Hr & Ha)].
      - destruct (life_safe s0 st HR) as (K & _). destruct (K b Hb) as (r & Hr & _ & Hx). exists r. split; auto. unfold byte_of. pose proof (Hx a Ha). lia.
      - exists r. split; auto. destruct (lf_buf st =? 0). { destruct HI as (_ & ->). auto. } destruct HI as (mp & HI). cbn zeta in HI. destruct HI as (-> & _). now right. }
    destruct X as (r & Hr & Ha). assert (Y : existsb (in_region a 1) (os_live (lf_os st)) = true). { apply existsb_exists. exists r. split; auto. unfold in_region, byte_of in *. lia. } congruence.
Qed.

(** ** Cases and what fails *)
Definition os0 : os := mkOs [mkRegion false 4096 100] [].
Definition by_mmap (a : Z) : answer := mkAnswer (Some a) None.
Definition by_malloc (a : Z) : answer := mkAnswer None (Some a).
Definition life_run (chk : bool) (ops : list life_op) (s : os) : option life := foldM (life_step chk) ops (new_pool s).
Fixpoint use_all (others : list region) (ops : list life_op) (st : life) : Prop :=
  match ops with [] => True | o :: ops => used_well others st o /\ match life_step true o st with Some st => use_all others ops st | None => False end end.
Lemma use_all_reach s0 ops : forall st, reach s0 st -> use_all (os_live s0) ops st -> exists st', foldM (life_step true) ops st = Some st' /\ reach s0 st'.
Proof.
  induction ops as [|o ops IH]; intros st HR HU; cbn [foldM use_all] in *; [eauto|]. destruct HU as (H1 & H2). destruct (life_step true o st) as [st1|] eqn:E; [|destruct H2]. apply IH; auto. eapply reach_step; eauto.
Qed.
(** Two lives of one pool: huge pages, then malloc; stores into a block and into other
    memory. *)
Definition two_lives : list life_op := [LInit 1000 (by_mmap (4 * HP)); LPool (OAlloc 300 64); LByte (5 * HP); LPool (OAlloc 300 64); LByte 4100; LFinal; LFinal; LInit 5000000 (by_malloc (6 * HP)); LPool (OFront 100 64); LByte (7 * HP + 4999950)].
Lemma use_cons others o ops st st' : used_well others st o -> life_step true o st = Some st' -> use_all others ops st' -> use_all others (o :: ops) st.
Proof. intros H E K. cbn [use_all]. now rewrite E. Qed.
Lemma two_lives_case : use_all (os_live os0) two_lives (new_pool os0) /\
  exists st, life_run true two_lives os0 = Some st /\ reach os0 st /\ lf_blocks st = [(4999872, 100)] /\ map rg_mapped (os_live (lf_os st)) = [false; false] /\ map rg_len (os_live (lf_os st)) = [4 * HP; 100].
Proof.
  pose proof HP_val as HV. assert (R1 : real_size 1000 = 2 * HP) by reflexivity. assert (R2 : real_size 5000000 = 4 * HP) by reflexivity.
  assert (U : use_all (os_live os0) two_lives (new_pool os0)).
  { unfold two_lives.
    eapply use_cons; [|vm_compute; reflexivity|]. { cbn [used_well]. rewrite R1. split; [reflexivity|]. split; [lia|]. split; [lia|]. split; [lia|]. intros r x [<-|[]] Hx. unfold byte_of in Hx. cbn [rg_at rg_len] in Hx. lia. }
    eapply use_cons; [|vm_compute; reflexivity|]. { split; [discriminate|]. vm_compute. repeat split; discriminate. }
    eapply use_cons; [|vm_compute; reflexivity|]. { left. exists (0, 300). split; [vm_compute; auto|]. vm_compute. split; [discriminate|reflexivity]. }
    eapply use_cons; [|vm_compute; reflexivity|]. { split; [discriminate|]. vm_compute. repeat split; discriminate. }
    eapply use_cons; [|vm_compute; reflexivity|]. { right. eexists. split; [left; reflexivity|]. vm_compute. split; [discriminate|reflexivity]. }
    eapply use_cons; [exact I|vm_compute; reflexivity|]. eapply use_cons; [exact I|vm_compute; reflexivity|].
    eapply use_cons; [|vm_compute; reflexivity|]. { cbn [used_well]. rewrite R2. split; [reflexivity|]. split; [lia|]. split; [lia|]. split; [lia|]. intros r x Hr Hx. assert (r = mkRegion false 4096 100) as -> by (destruct Hr as [<-|[]]; reflexivity). unfold byte_of in Hx. cbn [rg_at rg_len] in Hx. lia. }
    eapply use_cons; [|vm_compute; reflexivity|]. { split; [discriminate|]. vm_compute. repeat split; discriminate. }
    eapply use_cons; [|vm_compute; reflexivity|exact I]. { left. exists (4999872, 100). split; [vm_compute; auto|]. vm_compute. split; [discriminate|reflexivity]. } }
  split; auto. destruct (use_all_reach os0 two_lives (new_pool os0) (reach_new os0) U) as (st & E & HR). exists st. split; auto. split; auto.
  assert (X : option_map (fun st => (lf_blocks st, map rg_mapped (os_live (lf_os st)), map rg_len (os_live (lf_os st)))) (foldM (life_step true) two_lives (new_pool os0)) = Some ([(4999872, 100)], [false; false], [4 * HP; 100])) by (vm_compute; reflexivity).
  rewrite E in X. cbn [option_map] in X. injection X as -> -> ->. auto.
Qed.

(** initialize on an initialised pool forgets the first buffer (MemoryPool.cpp:54-70):
    after the destructor it is still there. *)
Theorem twice_refuted : exists ops st st', ops = [LInit 1000 (by_mmap (4 * HP)); LInit 1000 (by_mmap (6 * HP))] /\ life_run true ops os0 = Some st /\ finalize true st = Some st' /\
  granted os0 (real_size 1000) (by_mmap (4 * HP)) /\ (forall st1, life_step true (LInit 1000 (by_mmap (4 * HP))) (new_pool os0) = Some st1 -> granted (lf_os st1) (real_size 1000) (by_mmap (6 * HP))) /\
  os_live (lf_os st') = mkRegion true (4 * HP) (2 * HP) :: os_live os0.
Proof.
  pose proof HP_val as HV. assert (R1 : real_size 1000 = 2 * HP) by reflexivity. eexists _, _, _. split; [reflexivity|]. split; [reflexivity|]. split; [reflexivity|]. split; [|split; [|reflexivity]].
  - rewrite R1. split; [lia|]. split; [lia|]. intros r x [<-|[]] Hx. unfold byte_of in Hx. cbn [rg_at rg_len] in Hx. lia.
  - rewrite R1. intros st1 E. assert (EL : option_map (fun st => os_live (lf_os st)) (life_step true (LInit 1000 (by_mmap (4 * HP))) (new_pool os0)) = Some [mkRegion true (4 * HP) (2 * HP); mkRegion false 4096 100]) by reflexivity.
    rewrite E in EL. injection EL as EL. split; [lia|]. split; [lia|]. rewrite EL. intros r x [<-|[<-|[]]] Hx; unfold byte_of in Hx; cbn [rg_at rg_len] in Hx; lia.
Qed.
(** finalize leaves size_ (MemoryPool.cpp:86-88): later requests pass the assertions and
    get addresses from NULL upwards. *)
Theorem after_final_refuted : exists st, life_run true [LInit 1000 (by_mmap (4 * HP)); LFinal; LPool (OAlloc 300 64); LPool (OAlloc 300 64)] os0 = Some st /\ lf_buf st = 0 /\ lf_blocks st = [(320, 300); (0, 300)] /\
  forall r x, In r (os_live (lf_os st)) -> in_block (320, 300) (x - lf_buf st) -> ~ byte_of r x.
Proof.
  eexists. split; [reflexivity|]. split; [reflexivity|]. split; [reflexivity|]. intros r x Hr Hx Ha. assert (r = mkRegion false 4096 100) as -> by (destruct Hr as [<-|[]]; reflexivity). change (320 <= x - 0 < 320 + 300) in Hx. unfold byte_of in Ha. cbn [rg_at rg_len] in Ha. lia.
Qed.
(** If neither mmap nor posix_memalign has memory, the test for NULL does not help
    (Utils.hpp:165-169): ptr still is MAP_FAILED and is written to. *)
Theorem no_memory size s : (forall r x, In r (os_live s) -> byte_of r x -> x < 2 ^ 64) -> malloc_huge_pages size (mkAnswer None None) s = None.
Proof.
  intros H. unfold malloc_huge_pages. cbn [ans_mmap ans_memalign]. change (MAP_FAILED =? 0) with false. cbn iota. unfold store_word, mapped_bytes. destruct (existsb _ _) eqn:E; auto. exfalso.
  apply existsb_exists in E as (r & Hr & E). unfold in_region in E. assert (B : byte_of r (MAP_FAILED + 7)) by (unfold byte_of; lia). pose proof (H r _ Hr B) as X. change MAP_FAILED with (2 ^ 64 - 1) in X. lia.
Qed.
(** A size near 2^64 wraps around (Utils.hpp:161): two megabytes, all of them the page
    with the size.  The block begins where the memory ends. *)
Theorem wrap_refuted : exists sz st, 0 <= sz < 2 ^ 64 /\ granted os0 (real_size sz) (by_mmap (4 * HP)) /\ life_run true [LInit sz (by_mmap (4 * HP)); LPool (OAlloc 300 64)] os0 = Some st /\ lf_blocks st = [(0, 300)] /\
  forall r x, In r (os_live (lf_os st)) -> in_block (0, 300) (x - lf_buf st) -> ~ byte_of r x.
Proof.
  pose proof HP_val as HV. exists (2 ^ 64 - HP + 100). assert (R : real_size (2 ^ 64 - HP + 100) = HP) by reflexivity. eexists. split; [rewrite HV; lia|]. split.
  { rewrite R. split; [lia|]. split; [lia|]. intros r x [<-|[]] Hx. unfold byte_of in Hx. cbn [rg_at rg_len] in Hx. lia. }
  split; [reflexivity|]. split; [reflexivity|]. intros r x Hr Hx Ha. change (0 <= x - 5 * HP < 0 + 300) in Hx. unfold byte_of in Ha. destruct Hr as [<-|[<-|[]]].
  - change (4 * HP <= x < 4 * HP + HP) in Ha. lia.
  - cbn [rg_at rg_len] in Ha. lia.
Qed.
