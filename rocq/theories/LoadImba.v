(** * The statistics of the instrumented barrier (/repo/synk/loadimba.cpp).

    Every thread has five arrays with one entry for each use of the barrier; all
    numbers are uint64_t. *)
From Verif Require Import Base MemoryPool.
Local Open Scope Z_scope.

(** ** Model *)
(** /repo/synk/loadimba.hpp:44-46 *)
Record limba := mkLimba { l_min : list Z; l_max : list Z; l_tot : list Z; l_cnt : list Z; l_bar : list Z }.
Definition U64MAX : Z := 18446744073709551615.
(** /repo/synk/loadimba.cpp:133-153, for one thread; malloc's memory is overwritten at
    once. *)
Definition limba_init (numUses : Z) : limba :=
  let zs := map (fun _ => 0) (zrange 0 numUses) in mkLimba (map (fun _ => U64MAX) (zrange 0 numUses)) zs zs zs zs.
(** /repo/synk/loadimba.cpp:170-180, behind the reduction. *)
Definition limba_wait (barNum cstart clast cout : Z) (l : limba) : option limba :=
  let cycles := w64 (clast - cstart) in
  mn <- get (l_min l) barNum ;; mn' <- set (l_min l) barNum (Z.min mn cycles) ;;
  mx <- get (l_max l) barNum ;; mx' <- set (l_max l) barNum (Z.max mx cycles) ;;
  sm <- get (l_tot l) barNum ;; sm' <- set (l_tot l) barNum (w64 (sm + cycles)) ;;
  ct <- get (l_cnt l) barNum ;; ct' <- set (l_cnt l) barNum (w64 (ct + 1)) ;;
  br <- get (l_bar l) barNum ;; br' <- set (l_bar l) barNum (w64 (br + w64 (cout - clast))) ;;
  Some (mkLimba mn' mx' sm' ct' br').
(** /repo/synk/loadimba.cpp:188-192, one pair (j, i). *)
Definition limba_reset_at (j : Z) (l : limba) : option limba :=
  mn <- set (l_min l) j U64MAX ;; mx <- set (l_max l) j 0 ;; sm <- set (l_tot l) j 0 ;; ct <- set (l_cnt l) j 0 ;; br <- set (l_bar l) j 0 ;;
  Some (mkLimba mn mx sm ct br).
(** /repo/synk/loadimba.cpp:185-195 *)
Definition limba_reset (numUses numThreads : Z) (ls : list limba) : option (list limba) :=
  forZ 0 numUses (fun j ls => forZ 0 numThreads (fun i ls => l <- get ls i ;; l' <- limba_reset_at j l ;; set ls i l') ls) ls.
(** /repo/synk/loadimba.cpp:225-242: the numbers printed for use [j] in the summary. *)
Definition limba_row (numThreads j : Z) (ls : list limba) : option (list Z) :=
  l0 <- get ls 0 ;; cnt <- get (l_cnt l0) j ;;
  ' (mn, mx, sm, br) <- forZ 0 numThreads (fun i a => let '(mn, mx, sm, br) := a in
      l <- get ls i ;; x <- get (l_min l) j ;; y <- get (l_max l) j ;; t <- get (l_tot l) j ;; b <- get (l_bar l) j ;;
      Some (Z.min mn x, Z.max mx y, w64 (sm + t), w64 (br + b))) (U64MAX, 0, 0, 0) ;;
  let sm := sm / numThreads in let br := br / numThreads in
  Some [j; numThreads; mn; mx; sm; br; cnt; if cnt =? 0 then 0 else sm / cnt; if cnt =? 0 then 0 else br / cnt].
Definition limba_print (numUses numThreads : Z) (ls : list limba) : option (list (list Z)) :=
  forZ 0 numUses (fun j out => r <- limba_row numThreads j ls ;; Some (out ++ [r])) [].
(** /repo/synk/loadimba.cpp:246-265: [tot - bar], before the conversion to double. *)
Definition limba_imbalance (numUses numThreads : Z) (ls : list limba) : option Z :=
  ' (sm, br) <- forZ 0 numUses (fun j a => forZ 0 numThreads (fun i a => let '(sm, br) := a in
      l <- get ls i ;; t <- get (l_tot l) j ;; b <- get (l_bar l) j ;; Some (w64 (sm + t), w64 (br + b))) a) (0, 0) ;;
  Some (w64 (sm - br)).

(** The blocks of memory: for every thread the structure and its five arrays, and the
    table of pointers. *)
Inductive lblock := LTable | LStruct (tid : Z) | LArray (tid k : Z).
Definition lblock_eqb (a b : lblock) : bool :=
  match a, b with LTable, LTable => true | LStruct i, LStruct j => i =? j | LArray i k, LArray j m => (i =? j) && (k =? m) | _, _ => false end.
Fixpoint lfree (b : lblock) (h : list lblock) : option (list lblock) :=
  match h with [] => None | a :: h => if lblock_eqb a b then Some h else h <- lfree b h ;; Some (a :: h) end.
(** /repo/synk/loadimba.cpp:125-127, 141-146 *)
Definition limba_blocks (numThreads : Z) : list lblock :=
  LTable :: flat_map (fun i => LStruct i :: map (LArray i) (zrange 0 5)) (zrange 0 numThreads).
(** /repo/synk/loadimba.cpp:268-278, without the two barriers (C72). *)
Definition limba_destroy (numThreads : Z) (h : list lblock) : option (list lblock) :=
  h <- forZ 0 numThreads (fun i h => forZ 0 5 (fun k h => lfree (LArray i k) h) h) h ;; lfree LTable h.

(** ** Specification *)
(** One call: number of the use, when it began, when the last thread began, when it
    ended. *)
Record call := mkCall { c_use : Z; c_start : Z; c_last : Z; c_end : Z }.
Definition call_ok (numUses : Z) (c : call) : Prop := 0 <= c_use c < numUses /\ 0 <= c_start c <= c_last c /\ c_last c <= c_end c < 2 ^ 64.
Definition of_use (j : Z) (cs : list call) : list call := filter (fun c => c_use c =? j) cs.
Definition waited (c : call) : Z := c_last c - c_start c.
Definition leaving (c : call) : Z := c_end c - c_last c.
Definition sum_of (f : call -> Z) (cs : list call) : Z := fold_right (fun c s => f c + s) 0 cs.
Definition least_of (f : call -> Z) (cs : list call) : Z := fold_right (fun c s => Z.min (f c) s) (2 ^ 64 - 1) cs.
Definition most_of (f : call -> Z) (cs : list call) : Z := fold_right (fun c s => Z.max (f c) s) 0 cs.
(** What the arrays of a thread should hold after the calls [cs]. *)
Record summarises (numUses : Z) (cs : list call) (l : limba) : Prop := {
  su_len : Zlen (l_min l) = numUses /\ Zlen (l_max l) = numUses /\ Zlen (l_tot l) = numUses /\ Zlen (l_cnt l) = numUses /\ Zlen (l_bar l) = numUses;
  su_min : forall j, 0 <= j < numUses -> get (l_min l) j = Some (least_of waited (of_use j cs));
  su_max : forall j, 0 <= j < numUses -> get (l_max l) j = Some (most_of waited (of_use j cs));
  su_tot : forall j, 0 <= j < numUses -> get (l_tot l) j = Some (sum_of waited (of_use j cs) mod 2 ^ 64);
  su_cnt : forall j, 0 <= j < numUses -> get (l_cnt l) j = Some (Zlen (of_use j cs) mod 2 ^ 64);
  su_bar : forall j, 0 <= j < numUses -> get (l_bar l) j = Some (sum_of leaving (of_use j cs) mod 2 ^ 64) }.
Definition run_calls (cs : list call) (l : limba) : option limba := foldM (fun c => limba_wait (c_use c) (c_start c) (c_last c) (c_end c)) cs l.

(** ** Proofs *)
Lemma get_const {X} (v : X) n i : 0 <= i < n -> get (map (fun _ => v) (zrange 0 n)) i = Some v.
Proof. intros H. rewrite get_map, get_zrange by lia. reflexivity. Qed.
Lemma Zlen_const {X} (v : X) n : 0 <= n -> Zlen (map (fun _ => v) (zrange 0 n)) = n.
Proof. intros H. rewrite Zlen_map, Zlen_zrange. lia. Qed.
Lemma init_summarises n : 0 <= n -> summarises n [] (limba_init n).
Proof.
  intros H. unfold limba_init. constructor; cbn [l_min l_max l_tot l_cnt l_bar]; try (intros j Hj; now rewrite get_const by lia).
  rewrite !Zlen_const by lia. auto.
Qed.

Lemma fold_snoc_min f cs : forall c, least_of f (cs ++ [c]) = Z.min (least_of f cs) (f c) \/ f c > 2 ^ 64 - 1.
Proof.
  intros c. destruct (Z_gt_le_dec (f c) (2 ^ 64 - 1)) as [G|G]; [auto|left]. unfold least_of. change (2 ^ 64 - 1) with 18446744073709551615 in *.
  induction cs as [|a cs IH]; cbn [app fold_right]; [lia|]. rewrite IH. lia.
Qed.
Lemma fold_snoc_max f cs c : 0 <= f c -> most_of f (cs ++ [c]) = Z.max (most_of f cs) (f c).
Proof. intros H. unfold most_of. induction cs as [|a cs IH]; cbn [app fold_right]; [lia|]. rewrite IH. lia. Qed.
Lemma sum_snoc f cs c : sum_of f (cs ++ [c]) = sum_of f cs + f c.
Proof. unfold sum_of. induction cs as [|a cs IH]; cbn [app fold_right]; [lia|]. rewrite IH. lia. Qed.
Lemma of_use_snoc j cs c : of_use j (cs ++ [c]) = if c_use c =? j then of_use j cs ++ [c] else of_use j cs.
Proof. unfold of_use. rewrite filter_app. cbn [filter]. destruct (c_use c =? j); [reflexivity|apply app_nil_r]. Qed.
Lemma W64_pow : W64 = 2 ^ 64. Proof. reflexivity. Qed.
Lemma small64 x : 0 <= x < 2 ^ 64 -> w64 x = x.
Proof. intros H. unfold w64. rewrite W64_pow. now apply Z.mod_small. Qed.
Lemma w64_add a b : w64 (a mod 2 ^ 64 + b) = (a + b) mod 2 ^ 64.
Proof. unfold w64. rewrite W64_pow. now rewrite Zplus_mod_idemp_l. Qed.

Lemma upd_ok {X} (l : list X) j v n : Zlen l = n -> 0 <= j < n -> exists l', set l j v = Some l' /\ Zlen l' = n /\ forall i, 0 <= i < n -> get l' i = if j =? i then Some v else get l i.
Proof.
  intros H Hj. destruct (set_ok l j v) as (l' & E); [lia|]. exists l'. repeat split; auto; [now rewrite (set_len _ _ _ _ E)|].
  intros i Hi. destruct (Z.eqb_spec j i) as [->|N]; [now apply (get_set_same _ _ _ _ E)|now rewrite (get_set_other _ _ _ _ _ E) by auto].
Qed.
Lemma wait_summarises n cs l c : summarises n cs l -> call_ok n c ->
  exists l', limba_wait (c_use c) (c_start c) (c_last c) (c_end c) l = Some l' /\ summarises n (cs ++ [c]) l'.
Proof.
  intros [(L1 & L2 & L3 & L4 & L5) S1 S2 S3 S4 S5] (Hu & Hs & Hl). unfold limba_wait.
  rewrite (small64 (c_last c - c_start c)) by lia. rewrite (small64 (c_end c - c_last c)) by lia.
  rewrite S1, S2, S3, S4, S5 by auto.
  edestruct (upd_ok (l_min l)) as (a & E1 & A1 & B1); [exact L1|exact Hu|]. rewrite E1.
  edestruct (upd_ok (l_max l)) as (b & E2 & A2 & B2); [exact L2|exact Hu|]. rewrite E2.
  edestruct (upd_ok (l_tot l)) as (d & E3 & A3 & B3); [exact L3|exact Hu|]. rewrite E3.
  edestruct (upd_ok (l_cnt l)) as (e & E4 & A4 & B4); [exact L4|exact Hu|]. rewrite E4.
  edestruct (upd_ok (l_bar l)) as (f & E5 & A5 & B5); [exact L5|exact Hu|]. rewrite E5.
  eexists. split; [reflexivity|]. constructor; cbn [l_min l_max l_tot l_cnt l_bar]; [auto| | | | |]; intros j Hj; rewrite of_use_snoc.
  - rewrite B1 by auto. destruct (Z.eqb_spec (c_use c) j) as [<-|N]; [|now apply S1]. f_equal.
    destruct (fold_snoc_min waited (of_use (c_use c) cs) c) as [->|G]; [reflexivity|]. unfold waited in G. lia.
  - rewrite B2 by auto. destruct (Z.eqb_spec (c_use c) j) as [<-|N]; [|now apply S2]. now rewrite fold_snoc_max by (unfold waited; lia).
  - rewrite B3 by auto. destruct (Z.eqb_spec (c_use c) j) as [<-|N]; [|now apply S3]. now rewrite w64_add, sum_snoc.
  - rewrite B4 by auto. destruct (Z.eqb_spec (c_use c) j) as [<-|N]; [|now apply S4]. rewrite w64_add. do 2 f_equal. unfold Zlen. rewrite app_length. cbn [length]. lia.
  - rewrite B5 by auto. destruct (Z.eqb_spec (c_use c) j) as [<-|N]; [|now apply S5]. now rewrite w64_add, sum_snoc.
Qed.
Lemma run_summarises n cs0 cs l : summarises n cs0 l -> Forall (call_ok n) cs -> exists l', run_calls cs l = Some l' /\ summarises n (cs0 ++ cs) l'.
Proof.
  revert cs0 l. induction cs as [|c cs IH]; intros cs0 l S F; cbn [run_calls foldM].
  - exists l. rewrite app_nil_r. split; [reflexivity|auto].
  - inversion F as [|? ? Fc F']; subst. destruct (wait_summarises n cs0 l c S Fc) as (l1 & E & S1). unfold run_calls. cbn [foldM]. rewrite E.
    destruct (IH _ _ S1 F') as (l' & E' & S'). exists l'. split; [exact E'|]. now rewrite <- app_assoc in S'.
Qed.
Theorem calls_summarised n cs : 0 <= n -> Forall (call_ok n) cs -> exists l, run_calls cs (limba_init n) = Some l /\ summarises n cs l.
Proof. intros H F. exact (run_summarises n [] cs _ (init_summarises n H) F). Qed.
Theorem wait_defined n cs l b s la e : summarises n cs l -> (exists l', limba_wait b s la e l = Some l') <-> 0 <= b < n.
Proof.
  intros [(L1 & L2 & L3 & L4 & L5) _ _ _ _ _]. split.
  - intros (l' & E). unfold limba_wait in E. destruct (get (l_min l) b) eqn:G; [|discriminate]. apply get_Some_bounds in G. lia.
  - intros H. unfold limba_wait.
    destruct (get_in_range (l_min l) b) as (v1 & ->); [lia|]. destruct (set_ok (l_min l) b (Z.min v1 (w64 (la - s)))) as (w1 & ->); [lia|].
    destruct (get_in_range (l_max l) b) as (v2 & ->); [lia|]. destruct (set_ok (l_max l) b (Z.max v2 (w64 (la - s)))) as (w2 & ->); [lia|].
    destruct (get_in_range (l_tot l) b) as (v3 & ->); [lia|]. destruct (set_ok (l_tot l) b (w64 (v3 + w64 (la - s)))) as (w3 & ->); [lia|].
    destruct (get_in_range (l_cnt l) b) as (v4 & ->); [lia|]. destruct (set_ok (l_cnt l) b (w64 (v4 + 1))) as (w4 & ->); [lia|].
    destruct (get_in_range (l_bar l) b) as (v5 & ->); [lia|]. destruct (set_ok (l_bar l) b (w64 (v5 + w64 (e - la)))) as (w5 & ->); [lia|]. eauto.
Qed.

(** *** reset *)
Record cleared (n k : Z) (l : limba) : Prop := {
  cl_len : Zlen (l_min l) = n /\ Zlen (l_max l) = n /\ Zlen (l_tot l) = n /\ Zlen (l_cnt l) = n /\ Zlen (l_bar l) = n;
  cl_get : forall j, 0 <= j < k -> get (l_min l) j = Some U64MAX /\ get (l_max l) j = Some 0 /\ get (l_tot l) j = Some 0 /\ get (l_cnt l) j = Some 0 /\ get (l_bar l) j = Some 0 }.
Lemma reset_at_ok n k l : cleared n k l -> 0 <= k < n -> exists l', limba_reset_at k l = Some l' /\ cleared n (k + 1) l'.
Proof.
  intros [(L1 & L2 & L3 & L4 & L5) G] Hk. unfold limba_reset_at.
  destruct (upd_ok (l_min l) k U64MAX n L1 Hk) as (a & -> & A1 & B1). destruct (upd_ok (l_max l) k 0 n L2 Hk) as (b & -> & A2 & B2).
  destruct (upd_ok (l_tot l) k 0 n L3 Hk) as (d & -> & A3 & B3). destruct (upd_ok (l_cnt l) k 0 n L4 Hk) as (e & -> & A4 & B4).
  destruct (upd_ok (l_bar l) k 0 n L5 Hk) as (f & -> & A5 & B5).
  eexists. split; [reflexivity|]. constructor; cbn [l_min l_max l_tot l_cnt l_bar]; [auto|]. intros j Hj. rewrite B1, B2, B3, B4, B5 by lia.
  destruct (Z.eqb_spec k j) as [->|N]; [auto|]. apply G. lia.
Qed.
(** The arrays of all threads. *)
Definition team (n T : Z) (hist : Z -> list call) (ls : list limba) : Prop :=
  Zlen ls = T /\ forall i, 0 <= i < T -> exists l, get ls i = Some l /\ summarises n (hist i) l.
Theorem reset_ok n T hist ls : 0 <= n -> 0 <= T -> team n T hist ls -> exists ls', limba_reset n T ls = Some ls' /\ team n T (fun _ => []) ls'.
Proof.
  intros Hn HT (L & G). unfold limba_reset.
  match goal with |- context [forZ 0 n ?f ?s] => destruct (forZ_rule (fun j ls => Zlen ls = T /\ forall i, 0 <= i < T -> exists l, get ls i = Some l /\ cleared n j l) 0 n f s) as (ls' & E & L' & G'); [exact Hn| | |] end.
  - split; [exact L|]. intros i Hi. destruct (G i Hi) as (l & E & S). exists l. split; [exact E|]. constructor; [apply S|lia].
  - cbn beta. intros j ls1 Hj (L1 & G1).
    match goal with |- context [forZ 0 T ?f ?s] => destruct (forZ_rule (fun i0 ls => Zlen ls = T /\ forall i, 0 <= i < T -> exists l, get ls i = Some l /\ cleared n (if i <? i0 then j + 1 else j) l) 0 T f s) as (ls2 & E2 & L2 & G2); [exact HT| | |] end.
    + split; [exact L1|]. intros i Hi. replace (i <? 0) with false by lia. now apply G1.
    + cbn beta. intros i0 ls2 Hi0 (L2 & G2). destruct (G2 i0 Hi0) as (l & E2 & C). rewrite E2. rewrite Z.ltb_irrefl in C.
      destruct (reset_at_ok n j l C ltac:(lia)) as (l' & -> & C'). destruct (upd_ok ls2 i0 l' T L2 Hi0) as (ls3 & -> & L3 & B3).
      eexists. split; [reflexivity|]. split; [exact L3|]. intros i Hi. rewrite B3 by auto. destruct (Z.eqb_spec i0 i) as [->|N].
      * exists l'. split; [reflexivity|]. now replace (i <? i + 1) with true by lia.
      * destruct (G2 i Hi) as (l2 & -> & C2). exists l2. split; [reflexivity|]. now replace (i <? i0 + 1) with (i <? i0) by lia.
    + exists ls2. split; [exact E2|]. split; [exact L2|]. intros i Hi. destruct (G2 i Hi) as (l & Ei & C). exists l. split; [exact Ei|].
      now replace (i <? T) with true in C by lia.
  - exists ls'. split; [exact E|]. split; [exact L'|]. intros i Hi. destruct (G' i Hi) as (l & Ei & C). exists l. split; [exact Ei|].
    destruct C as [CL CG]. constructor; [exact CL| | | | |]; intros j Hj; apply CG; auto.
Qed.

(** *** print *)
(** The calls of all threads. *)
Definition everyone (T : Z) (hist : Z -> list call) : list call := flat_map hist (zrange 0 T).
Lemma of_use_app j a b : of_use j (a ++ b) = of_use j a ++ of_use j b.
Proof. apply filter_app. Qed.
Lemma sum_app f a b : sum_of f (a ++ b) = sum_of f a + sum_of f b.
Proof. unfold sum_of. induction a as [|c a IH]; cbn [app fold_right]; [lia|]. rewrite IH. lia. Qed.
Lemma least_le f cs : least_of f cs <= 2 ^ 64 - 1.
Proof. unfold least_of. induction cs as [|c cs IH]; cbn [fold_right]; lia. Qed.
Lemma least_app f a b : least_of f (a ++ b) = Z.min (least_of f a) (least_of f b).
Proof. induction a as [|c a IH]; [pose proof (least_le f b); cbn [app]; change (least_of f []) with (2 ^ 64 - 1); lia|]. cbn [app]. change (least_of f (c :: a ++ b)) with (Z.min (f c) (least_of f (a ++ b))). change (least_of f (c :: a)) with (Z.min (f c) (least_of f a)). rewrite IH. lia. Qed.
Lemma most_ge f cs : 0 <= most_of f cs.
Proof. unfold most_of. induction cs as [|c cs IH]; cbn [fold_right]; lia. Qed.
Lemma most_app f a b : most_of f (a ++ b) = Z.max (most_of f a) (most_of f b).
Proof. induction a as [|c a IH]; [pose proof (most_ge f b); cbn [app]; change (most_of f []) with 0; lia|]. cbn [app]. change (most_of f (c :: a ++ b)) with (Z.max (f c) (most_of f (a ++ b))). change (most_of f (c :: a)) with (Z.max (f c) (most_of f a)). rewrite IH. lia. Qed.
Lemma everyone_S k hist : 0 <= k -> everyone (k + 1) hist = everyone k hist ++ hist k.
Proof. intros H. unfold everyone. rewrite zrange_snoc by lia. rewrite flat_map_app. cbn [flat_map]. now rewrite app_nil_r. Qed.
Lemma w64_add2 a b : w64 (a mod 2 ^ 64 + b mod 2 ^ 64) = (a + b) mod 2 ^ 64.
Proof. unfold w64. rewrite W64_pow. now rewrite <- Zplus_mod. Qed.

Definition row_of (T j : Z) (hist : Z -> list call) : list Z :=
  let all := of_use j (everyone T hist) in let cnt := Zlen (of_use j (hist 0)) in
  [j; T; least_of waited all; most_of waited all; sum_of waited all / T; sum_of leaving all / T; cnt;
   if cnt =? 0 then 0 else sum_of waited all / T / cnt; if cnt =? 0 then 0 else sum_of leaving all / T / cnt].
(** The numbers fit. *)
Definition fits (T : Z) (hist : Z -> list call) : Prop :=
  0 <= sum_of waited (everyone T hist) < 2 ^ 64 /\ 0 <= sum_of leaving (everyone T hist) < 2 ^ 64 /\ Zlen (hist 0) < 2 ^ 64.
Lemma row_ok n T j hist ls : 1 <= T -> 0 <= j < n -> team n T hist ls ->
  0 <= sum_of waited (of_use j (everyone T hist)) < 2 ^ 64 -> 0 <= sum_of leaving (of_use j (everyone T hist)) < 2 ^ 64 -> Zlen (of_use j (hist 0)) < 2 ^ 64 ->
  limba_row T j ls = Some (row_of T j hist).
Proof.
  intros HT Hj (L & G) F1 F2 F3. unfold limba_row. destruct (G 0 ltac:(lia)) as (l0 & -> & S0). rewrite (su_cnt _ _ _ S0 j Hj).
  rewrite (Z.mod_small (Zlen _)) by (split; [unfold Zlen; lia|exact F3]).
  match goal with |- context [forZ 0 T ?f ?s] => destruct (forZ_rule (fun k a => a = (least_of waited (of_use j (everyone k hist)), most_of waited (of_use j (everyone k hist)), sum_of waited (of_use j (everyone k hist)) mod 2 ^ 64, sum_of leaving (of_use j (everyone k hist)) mod 2 ^ 64)) 0 T f s) as (a & E & Ea); [lia|reflexivity| |] end.
  2: { rewrite E, Ea. rewrite !Z.mod_small by assumption. reflexivity. }
  cbn beta. intros k a Hk ->. destruct (G k Hk) as (l & -> & S). rewrite (su_min _ _ _ S j Hj), (su_max _ _ _ S j Hj), (su_tot _ _ _ S j Hj), (su_bar _ _ _ S j Hj).
  eexists. split; [reflexivity|]. rewrite everyone_S, of_use_app by lia. now rewrite least_app, most_app, !sum_app, !w64_add2.
Qed.
Lemma filter_shorter {X} (g : X -> bool) l : (length (filter g l) <= length l)%nat.
Proof. induction l as [|c l IH]; cbn [filter length]; [lia|]. destruct (g c); cbn [length]; lia. Qed.
Lemma filter_sum f g cs : (forall c, In c cs -> 0 <= f c) -> 0 <= sum_of f (filter g cs) <= sum_of f cs.
Proof.
  unfold sum_of. induction cs as [|c cs IH]; intros H; cbn [filter fold_right]; [lia|]. pose proof (H c (or_introl eq_refl)). specialize (IH (fun d Hd => H d (or_intror Hd))).
  destruct (g c); cbn [fold_right]; lia.
Qed.
Lemma in_everyone T hist c : In c (everyone T hist) <-> exists i, 0 <= i < T /\ In c (hist i).
Proof. unfold everyone. rewrite in_flat_map. split; intros (i & A & B); exists i; [rewrite In_zrange in A|rewrite In_zrange]; split; auto; lia. Qed.
Theorem print_ok n T hist ls : 0 <= n -> 1 <= T -> team n T hist ls -> (forall i, 0 <= i < T -> Forall (call_ok n) (hist i)) -> fits T hist ->
  limba_print n T ls = Some (map (fun j => row_of T j hist) (zrange 0 n)).
Proof.
  intros Hn HT HG HC (F1 & F2 & F3). unfold limba_print.
  assert (Hpos : forall c, In c (everyone T hist) -> 0 <= waited c /\ 0 <= leaving c).
  { intros c Hc. apply in_everyone in Hc. destruct Hc as (i & Hi & Hc). specialize (HC i Hi). rewrite Forall_forall in HC. destruct (HC c Hc) as (_ & A & B). unfold waited, leaving. lia. }
  match goal with |- context [forZ 0 n ?f ?s] => destruct (forZ_rule (fun k out => out = map (fun j => row_of T j hist) (zrange 0 k)) 0 n f s) as (out & E & Eo); [exact Hn|reflexivity| |] end.
  2: { rewrite E. now f_equal. }
  cbn beta. intros k out Hk ->.
  pose proof (filter_sum waited (fun c => c_use c =? k) _ (fun c H => proj1 (Hpos c H))). pose proof (filter_sum leaving (fun c => c_use c =? k) _ (fun c H => proj2 (Hpos c H))).
  rewrite (row_ok n T k hist ls); auto.
  - eexists. split; [reflexivity|]. rewrite zrange_snoc by lia. now rewrite map_app.
  - unfold of_use. lia.
  - unfold of_use. lia.
  - pose proof (filter_shorter (fun c => c_use c =? k) (hist 0)). unfold of_use. unfold Zlen in *. lia.
Qed.

(** *** printLoadImbalance *)
Lemma sum_uses f n cs : 0 <= n -> (forall c, In c cs -> 0 <= c_use c < n) -> sum_of f (flat_map (fun j => of_use j cs) (zrange 0 n)) = sum_of f cs.
Proof.
  intros Hn. induction cs as [|c cs IH]; intros H.
  - replace (flat_map (fun j => of_use j []) (zrange 0 n)) with (@nil call); [reflexivity|]. induction (zrange 0 n); cbn; auto.
  - pose proof (H c (or_introl eq_refl)) as Hc. specialize (IH (fun d Hd => H d (or_intror Hd))).
    assert (K : forall l, NoDup l -> sum_of f (flat_map (fun j => of_use j (c :: cs)) l) = sum_of f (flat_map (fun j => of_use j cs) l) + if existsb (Z.eqb (c_use c)) l then f c else 0).
    { intros l. induction l as [|j l IHl]; intros ND; cbn [flat_map existsb]; [reflexivity|]. inversion ND as [|? ? N1 N2]; subst. rewrite !sum_app, IHl by auto.
      unfold of_use at 1. cbn [filter]. destruct (Z.eqb_spec (c_use c) j) as [E|E]; cbn [orb].
      - destruct (existsb (Z.eqb (c_use c)) l) eqn:X; [|cbn [sum_of fold_right]; unfold of_use; unfold sum_of; cbn [fold_right]; lia].
        apply existsb_exists in X. destruct X as (x & X1 & X2). apply Z.eqb_eq in X2. subst. contradiction.
      - unfold of_use. lia. }
    rewrite K by apply NoDup_zrange. rewrite IH. replace (existsb (Z.eqb (c_use c)) (zrange 0 n)) with true; [unfold sum_of; cbn [fold_right]; lia|].
    symmetry. apply existsb_exists. exists (c_use c). split; [apply In_zrange; lia|lia].
Qed.
Theorem imbalance_ok n T hist ls : 0 <= n -> 0 <= T -> team n T hist ls -> (forall i, 0 <= i < T -> Forall (call_ok n) (hist i)) ->
  limba_imbalance n T ls = Some ((sum_of waited (everyone T hist) - sum_of leaving (everyone T hist)) mod 2 ^ 64).
Proof.
  intros Hn HT (L & G) HC. unfold limba_imbalance.
  match goal with |- context [forZ 0 n ?f ?s] => destruct (forZ_rule (fun k a => a = (sum_of waited (flat_map (fun j => of_use j (everyone T hist)) (zrange 0 k)) mod 2 ^ 64, sum_of leaving (flat_map (fun j => of_use j (everyone T hist)) (zrange 0 k)) mod 2 ^ 64)) 0 n f s) as (a & E & Ea); [exact Hn|reflexivity| |] end.
  2: { rewrite E, Ea. rewrite !sum_uses; auto. 2, 3: intros c Hc; apply in_everyone in Hc; destruct Hc as (i & Hi & Hc); specialize (HC i Hi); rewrite Forall_forall in HC; apply HC; auto.
       f_equal. unfold w64. rewrite W64_pow. now rewrite <- Zminus_mod. }
  cbn beta. intros j a Hj ->. set (W := sum_of waited (flat_map _ _)). set (B := sum_of leaving (flat_map _ _)).
  match goal with |- context [forZ 0 T ?f ?s] => destruct (forZ_rule (fun k a => a = ((W + sum_of waited (of_use j (everyone k hist))) mod 2 ^ 64, (B + sum_of leaving (of_use j (everyone k hist))) mod 2 ^ 64)) 0 T f s) as (a & E & Ea); [exact HT| | |] end.
  - change (everyone 0 hist) with (@nil call). cbn [of_use filter sum_of fold_right]. unfold sum_of. cbn [fold_right]. now rewrite !Z.add_0_r.
  - cbn beta. intros k a Hk ->. destruct (G k Hk) as (l & -> & S). rewrite (su_tot _ _ _ S j Hj), (su_bar _ _ _ S j Hj). eexists. split; [reflexivity|].
    rewrite everyone_S, of_use_app by lia. now rewrite !sum_app, !w64_add2, !Z.add_assoc.
  - exists a. split; [exact E|]. rewrite Ea. rewrite zrange_snoc by lia. rewrite flat_map_app, !sum_app. cbn [flat_map]. now rewrite app_nil_r.
Qed.

(** *** the destructor *)
Lemma lblock_eqb_refl b : lblock_eqb b b = true.
Proof. destruct b; cbn; lia. Qed.
Lemma lblock_eqb_eq a b : lblock_eqb a b = true -> a = b.
Proof. destruct a, b; cbn; try discriminate; auto; intros H; [f_equal; lia|]. apply andb_true_iff in H. f_equal; lia. Qed.
Lemma lfree_at b p q : ~ In b p -> lfree b (p ++ b :: q) = Some (p ++ q).
Proof.
  induction p as [|a p IH]; intros H; cbn [app lfree]; [now rewrite lblock_eqb_refl|].
  destruct (lblock_eqb a b) eqn:E; [apply lblock_eqb_eq in E; subst; exfalso; apply H; now left|]. rewrite IH; [reflexivity|]. intros C. apply H. now right.
Qed.
Theorem destroy_leaves T : 0 <= T -> limba_destroy T (limba_blocks T) = Some (map LStruct (zrange 0 T)).
Proof.
  intros HT. unfold limba_destroy, limba_blocks.
  match goal with |- context [forZ 0 T ?f ?s] => destruct (forZ_rule (fun i h => h = LTable :: map LStruct (zrange 0 i) ++ flat_map (fun i => LStruct i :: map (LArray i) (zrange 0 5)) (zrange i T)) 0 T f s) as (h & E & Eh); [exact HT|reflexivity| |] end.
  2: { rewrite E, Eh. rewrite (zrange_nil T T) by lia. cbn [flat_map lfree]. rewrite app_nil_r. reflexivity. }
  cbn beta. intros i h Hi ->. rewrite (zrange_cons i) by lia. cbn [flat_map].
  set (rest := flat_map _ (zrange (i + 1) T)). set (pre := LTable :: map LStruct (zrange 0 i) ++ [LStruct i]).
  assert (N : forall k, ~ In (LArray i k) pre).
  { intros k C. unfold pre in C. destruct C as [C|C]; [discriminate|]. apply in_app_iff in C. destruct C as [C|[C|[]]]; [|discriminate]. apply in_map_iff in C. destruct C as (x & Hx & _). discriminate. }
  replace (LTable :: map LStruct (zrange 0 i) ++ (LStruct i :: map (LArray i) (zrange 0 5)) ++ rest) with (pre ++ map (LArray i) (zrange 0 5) ++ rest) by (unfold pre; cbn [app]; now rewrite <- app_assoc).
  change (zrange 0 5) with [0;1;2;3;4]. unfold forZ. change (zrange 0 5) with [0;1;2;3;4]. cbn [map app]. eexists. split.
  - cbn [foldM]. rewrite !lfree_at by apply N. reflexivity.
  - unfold pre. cbn [app]. rewrite zrange_snoc by lia. rewrite map_app. cbn [map]. reflexivity.
Qed.

(** ** Cases *)
(** Two threads and two uses; the second is used by nobody after the reset. *)
Definition li_hist (i : Z) : list call := if i =? 0 then [mkCall 0 100 103 146; mkCall 0 158 162 206] else [mkCall 0 102 103 156; mkCall 0 162 162 216].
Lemma li_hist_ok i : 0 <= i < 2 -> Forall (call_ok 2) (li_hist i).
Proof. intros H. unfold li_hist. change (2 ^ 64) with 18446744073709551616. destruct (i =? 0); repeat constructor; cbn; lia. Qed.
Definition li_team : list limba :=
  [mkLimba [3; U64MAX] [4; 0] [7; 0] [2; 0] [87; 0]; mkLimba [0; U64MAX] [1; 0] [1; 0] [2; 0] [107; 0]].
Lemma li_team_ok : team 2 2 li_hist li_team.
Proof.
  split; [reflexivity|]. intros i Hi. destruct (calls_summarised 2 (li_hist i) ltac:(lia) (li_hist_ok i Hi)) as (l & E & S). exists l. split; [|exact S].
  rewrite <- E. assert (i = 0 \/ i = 1) as [-> | ->] by lia; vm_compute; reflexivity.
Qed.
Lemma li_fits : fits 2 li_hist.
Proof. vm_compute. intuition discriminate. Qed.
Lemma li_print : limba_print 2 2 li_team = Some [[0; 2; 0; 4; 4; 97; 2; 2; 48]; [1; 2; 2 ^ 64 - 1; 0; 0; 0; 0; 0; 0]].
Proof. vm_compute. reflexivity. Qed.
(** getInstance gives room for one use. *)
Lemma uses_refuted : forall cs l s la e, run_calls cs (limba_init 1) = Some l -> Forall (call_ok 1) cs -> limba_wait 1 s la e l = None.
Proof.
  intros cs l s la e E F. destruct (calls_summarised 1 cs ltac:(lia) F) as (l' & E' & S). rewrite E in E'. injection E' as <-.
  destruct (limba_wait 1 s la e l) as [x|] eqn:W; [|reflexivity]. exfalso. assert (0 <= 1 < 1) by (eapply (wait_defined 1 cs l 1 s la e S); eauto). lia.
Qed.
Lemma leak_refuted T : 1 <= T -> exists h, limba_destroy T (limba_blocks T) = Some h /\ In (LStruct 0) h.
Proof. intros H. exists (map LStruct (zrange 0 T)). split; [apply destroy_leaves; lia|]. apply in_map, In_zrange. lia. Qed.
