(** * The pipelined placement of a large component (reordering/RCM.cpp:892-936).

    Thread [tid] handles the levels tid, tid + nthreads, ... of the breadth-first
    search.  For each node of its level, in the order in which the thread of the
    level before places them, it collects the neighbours of the next level that are
    not taken yet, sorts them by degree and places them.  It waits for a node by
    spinning on write_offset of its level.

    The stores that set up write_offset come before a barrier and interleave.
    Every access to [levels], [perm], [inversePerm] and [write_offset] is a step of
    its own; the steps of the threads interleave in any way (sequentially
    consistent).  The scratch array [children] of a thread is a list of at most
    maxDegree elements.  write_offset[16*l] is element [l] of a list with m + 1
    elements. *)
From Coq Require Import Permutation.
From Verif Require Import Base Interleave Spec PermUtils Flat Csr CsrOps Levels LevelsMain SplitLU Transpose RowPar UnionFind Components BinIO LevelsCsr Bfs Rcm ParBfs BfsPerm.

(** ** Model *)
(** The next thing a thread does; [l] the level, [r] the position being read. *)
Inductive pl_pc :=
| PLevel (l : Z)                              (* :908, the loop test *)
| PHead (l r : Z)                             (* :910 *)
| PSpin (l r : Z)                             (* :911 *)
| PRead (l r : Z)                             (* :912-913 *)
| PScan (l r u j : Z) (ch : list Z)           (* :915-917 *)
| PMark (l r u j v : Z) (ch : list Z)         (* :918-920 *)
| PWo (l r : Z) (c : list Z)                  (* :926, after the sort *)
| PInv (l r w : Z) (c : list Z)               (* :927-930 *)
| PPerm (l r w v : Z) (c : list Z)            (* :931 *)
| PBump (l r w : Z) (c : list Z)              (* :932 *)
| PDone.
Record pl_mem := mkPL { pl_levels : list Z; pl_perm : list Z; pl_inv : list Z; pl_wo : list Z }.

Section Model.
Context {V : Type}.
Variable A : csr V.
Variable T : Z.
Variable srt : list Z -> list Z.
Variables (n offset maxDegree : Z) (ps : list Z).

Definition pl_step1 (s : pl_mem) (pc : pl_pc) : option (pl_mem * pl_pc) :=
  match pc with
  | PLevel l => if l <? n then b <- get ps l ;; Some (s, PHead l (b + offset)) else Some (s, PDone)
  | PHead l r => e <- get ps (l + 1) ;; Some (s, if r =? e + offset then PLevel (l + T) else PSpin l r)
  | PSpin l r => x <- get (pl_wo s) l ;; Some (s, if r =? x then PSpin l r else PRead l r)
  | PRead l r => u <- get (pl_inv s) (cm A - r - 1) ;; b <- get (rowptr A) u ;; Some (s, PScan l (r + 1) u b [])
  | PScan l r u j ch =>
      e <- get (rowptr A) (u + 1) ;;
      if j <? e then
        v <- get (colidx A) j ;; x <- get (pl_levels s) v ;;
        Some (s, if x =? l + 1 then PMark l r u j v ch else PScan l r u (j + 1) ch)
      else Some (s, PWo l r (srt ch))
  | PMark l r u j v ch =>
      if Zlen ch <? maxDegree then
        levels <- set (pl_levels s) v (-1) ;;
        Some (mkPL levels (pl_perm s) (pl_inv s) (pl_wo s), PScan l r u (j + 1) (ch ++ [v]))
      else None
  | PWo l r c => w <- get (pl_wo s) (l + 1) ;; Some (s, PInv l r w c)
  | PInv l r w [] => Some (s, PHead l r)
  | PInv l r w (v :: c) =>
      inv <- set (pl_inv s) (cm A - w - 1) v ;; Some (mkPL (pl_levels s) (pl_perm s) inv (pl_wo s), PPerm l r w v c)
  | PPerm l r w v c =>
      perm <- set (pl_perm s) v (cm A - w - 1) ;; Some (mkPL (pl_levels s) perm (pl_inv s) (pl_wo s), PBump l r w c)
  | PBump l r w c =>
      wo <- set (pl_wo s) (l + 1) (w + 1) ;; Some (mkPL (pl_levels s) (pl_perm s) (pl_inv s) wo, PInv l r (w + 1) c)
  | PDone => Some (s, PDone)
  end.
Definition pl_step (t : Z) (st : pl_mem * list pl_pc) : option (pl_mem * list pl_pc) :=
  let '(s, pcs) := st in
  pc <- get pcs t ;; ' (s', pc') <- pl_step1 s pc ;; pcs' <- set pcs t pc' ;; Some (s', pcs').
(** [sched]: which thread makes the next step. *)
Definition pl_run (sched : list Z) (s : pl_mem) : option (pl_mem * list pl_pc) := foldM pl_step sched (s, map PLevel (zrange 0 T)).
Definition pl_all_done (pcs : list pl_pc) : Prop := forall pc, In pc pcs -> pc = PDone.

(** :899-904: the stores of thread [t] to write_offset. *)
Definition pl_stores (t : Z) : option (list (Z * Z)) :=
  ls <- mapM (fun l => p <- get ps l ;; Some (l, p + offset)) (filter (fun l => l mod T =? t) (zrange 0 (n + 1))) ;;
  Some (ls ++ if 0 =? t then [(0, offset + 1)] else []).
Definition pl_offsets (sch : list nat) (wo : list Z) : option (list Z) :=
  ts <- mapM pl_stores (zrange 0 T) ;; par sch (fun '(i, v) w => set w i v) ts wo.
(** :884-936 *)
Definition pl_place (source : Z) (sch : list nat) (sched : list Z) (levels perm inv wo : list Z) : option (pl_mem * list pl_pc) :=
  ' (perm, inv) <- rcm_place A offset source (perm, inv) ;;
  wo <- pl_offsets sch wo ;;
  pl_run sched (mkPL levels perm inv wo).
End Model.

(** ** The order that is computed *)
Section Order.
Variables (adj : Z -> list Z) (srt : list Z -> list Z) (s : Z).
Definition not_in (o : list Z) (v : Z) : bool := if in_dec Z.eq_dec v o then false else true.
Fixpoint cm_at (k : nat) : list Z :=
  match k with
  | O => [s]
  | S k => match get (cm_at k) (Z.of_nat k) with Some u => cm_at k ++ srt (filter (not_in (cm_at k)) (adj u)) | None => cm_at k end
  end.
End Order.
Lemma not_in_spec o v : not_in o v = true <-> ~ In v o.
Proof. unfold not_in. destruct (in_dec Z.eq_dec v o); split; intros; try discriminate; tauto. Qed.

Lemma set_same {X} (l : list X) t x l' : get l t = Some x -> set l t x = Some l' -> l' = l.
Proof. intros E S. apply list_ext; [now rewrite (set_len _ _ _ _ S)|]. intros i _. destruct (Z.eq_dec i t) as [->|N]; [now rewrite (get_set_same _ _ _ _ S)|now rewrite (get_set_other _ _ _ _ _ S)]. Qed.

(** ** Stores by owners *)
Definition lastw (p : list (Z * Z)) (i : Z) (d : option Z) : option Z := fold_left (fun acc '(q, v) => if q =? i then Some v else acc) p d.
Lemma lastw_snoc p q v i d : lastw (p ++ [(q, v)]) i d = if q =? i then Some v else lastw p i d.
Proof. unfold lastw. rewrite fold_left_app. reflexivity. Qed.
Lemma lastw_in p i x d : (forall v, In (i, v) p -> v = x) -> In (i, x) p -> lastw p i d = Some x.
Proof.
  induction p as [|(q & v) p IH] using rev_ind; intros H1 H2; [contradiction|]. rewrite lastw_snoc. destruct (q =? i) eqn:E.
  - assert (q = i) by lia. subst q. f_equal. apply H1, in_or_app. right. now left.
  - apply IH; [intros w Hw; apply H1, in_or_app; auto|]. apply in_app_or in H2 as [H2|[H2|[]]]; auto. injection H2 as -> ->. lia.
Qed.
Lemma par_owner_writes sch (ts : list (list (Z * Z))) w (own : Z -> Z) : 0 < Zlen ts -> (forall t p v, 0 <= t < Zlen ts -> In (p, v) (nthl ts t) -> own p = t /\ 0 <= p < Zlen w) ->
  exists w', par sch (fun '(p, v) w => set w p v) ts w = Some w' /\ Zlen w' = Zlen w /\ forall i, 0 <= own i < Zlen ts -> get w' i = lastw (nthl ts (own i)) i (get w i).
Proof.
  intros Hpos Ho. destruct (par_modular (fun t p w' => Zlen w' = Zlen w /\ forall i, own i = t -> get w' i = lastw p i (get w i)) sch (fun '(p, v) w => set w p v) ts w) as (w' & E & H).
  - intros t Ht. split; auto.
  - intros t p (q & v) r w' Ht Ets _ (L & G). destruct (Ho t q v Ht) as (O1 & O2); [rewrite Ets; apply in_or_app; right; now left|]. destruct (set_ok w' q v ltac:(lia)) as (w2 & E2). exists w2. split; auto. split.
    + split; [rewrite (set_len _ _ _ _ E2); auto|]. intros i Hi. rewrite lastw_snoc. destruct (Z.eqb_spec q i) as [->|Nq]; [apply (get_set_same _ _ _ _ E2)|]. rewrite (get_set_other _ _ _ _ _ E2) by auto. auto.
    + intros t' p' q' Ht' Nt _ (L' & G'). split; [rewrite (set_len _ _ _ _ E2); auto|]. intros i Hi. rewrite (get_set_other _ _ _ _ _ E2); auto. intros ->. congruence.
  - exists w'. split; auto. destruct (H 0 ltac:(lia)) as (L & _). split; auto. intros i Hi. destruct (H (own i) Hi) as (_ & G). auto.
Qed.

Lemma writes_out l : forall (w : list Z) (p v : Z), In (p, v) l -> ~ 0 <= p < Zlen w -> foldM (fun '(p, v) (w : list Z) => set w p v) l w = None.
Proof.
  induction l as [|(q & x) l IH]; intros w p v H Hp; [contradiction|]. cbn [foldM]. destruct (set w q x) as [w'|] eqn:E; auto. destruct H as [H|H].
  - injection H as -> ->. destruct (set_Some_inv _ _ _ _ E). lia.
  - apply (IH w' p v); auto. now rewrite (set_len _ _ _ _ E).
Qed.

(** ** Fair executions end *)
Section Fair.
Context {X : Type}.
Variables (step : Z -> X -> option X) (I : X -> Prop) (Mu : X -> Z) (fin : X -> Prop) (T : Z).
Hypothesis Hmu : forall s, I s -> 0 <= Mu s.
Hypothesis Hstep : forall s t, I s -> 0 <= t < T -> exists s', step t s = Some s' /\ I s' /\ (Mu s' < Mu s \/ s' = s).
Hypothesis Hprog : forall s, I s -> fin s \/ exists t, 0 <= t < T /\ forall s', step t s = Some s' -> Mu s' < Mu s.
Lemma fair_reach (f : nat -> Z) : (forall k, 0 <= f k < T) -> (forall t k, 0 <= t < T -> exists j, (k <= j)%nat /\ f j = t) ->
  forall b s k0, Mu s < b -> I s -> exists k s', foldM step (map f (seq k0 k)) s = Some s' /\ I s' /\ fin s'.
Proof.
  intros Hf Hfair b s k0 Hb Is. assert (H0 : 0 <= b) by (pose proof (Hmu s Is); lia). revert s k0 Hb Is. pattern b. revert b H0. apply Z_ind0; [intros s k0 Hb Is; pose proof (Hmu s Is); lia|].
  intros b H0 IH s k0 Hb Is. destruct (Hprog s Is) as [F|(t & Ht & Hm)]. { exists 0%nat, s. auto. }
  destruct (Hfair t k0 Ht) as (n1 & Hn1 & Et).
  assert (G : forall d, (k0 + d <= n1)%nat -> exists s1, foldM step (map f (seq k0 d)) s = Some s1 /\ I s1 /\ (s1 = s \/ Mu s1 < Mu s)).
  { induction d as [|d IHd]; intros Hd. { exists s. auto. }
    destruct IHd as (s1 & E1 & I1 & D1); [lia|]. destruct (Hstep s1 (f (k0 + d)%nat) I1 (Hf _)) as (s2 & E2 & I2 & D2). exists s2.
    rewrite seq_S, map_app, foldM_app, E1. cbn [map foldM]. rewrite E2. split; auto. split; auto. destruct D2 as [D2|D2]; [right; destruct D1 as [->|]; lia|]. now subst s2. }
  destruct (G (n1 - k0)%nat) as (s1 & E1 & I1 & D1); [lia|].
  assert (G2 : exists d s2, foldM step (map f (seq k0 d)) s = Some s2 /\ I s2 /\ Mu s2 < Mu s).
  { destruct D1 as [->|D1]; [|exists (n1 - k0)%nat, s1; auto]. destruct (Hstep s t Is Ht) as (s2 & E2 & I2 & _). exists (S (n1 - k0))%nat, s2.
    rewrite seq_S, map_app, foldM_app, E1. cbn [map foldM]. replace (k0 + (n1 - k0))%nat with n1 by lia. rewrite Et, E2. auto. }
  destruct G2 as (d & s2 & E2 & I2 & D2). destruct (IH s2 (k0 + d)%nat ltac:(lia) I2) as (k & s3 & E3 & I3 & F3).
  exists (d + k)%nat, s3. rewrite seq_app, map_app, foldM_app, E2. auto.
Qed.
End Fair.
Lemma zsum_set' l t a b l' : get l t = Some a -> set l t b = Some l' -> zsum l' = zsum l - a + b.
Proof.
  intros A B. unfold get in A. destruct (set_Some_inv _ _ _ _ B) as (B1 & ->). destruct (Z.ltb_spec t 0); [lia|]. revert A. generalize (Z.to_nat t). clear.
  intros k. revert l. induction l as [|x l IH] in k |- *; intros H; destruct k as [|k]; cbn [nth_error] in H; try discriminate; cbn [upd]; unfold zsum; cbn [fold_right]; fold (zsum l).
  - injection H as ->. lia.
  - fold (zsum (upd l k b)). rewrite (IH _ H). lia.
Qed.
Lemma set_map {X Y} (f : X -> Y) l t x l' : set l t x = Some l' -> set (map f l) t (f x) = Some (map f l').
Proof.
  intros E. destruct (set_ok (map f l) t (f x)) as (r & Er). { rewrite Zlen_map. destruct (set_Some_inv _ _ _ _ E). lia. }
  rewrite Er. f_equal. apply list_ext; [now rewrite (set_len _ _ _ _ Er), !Zlen_map, (set_len _ _ _ _ E)|]. intros i _. rewrite get_map. destruct (Z.eq_dec i t) as [->|N]; [now rewrite (get_set_same _ _ _ _ E), (get_set_same _ _ _ _ Er)|]. now rewrite (get_set_other _ _ _ _ _ E), (get_set_other _ _ _ _ _ Er), get_map by auto.
Qed.

Lemma min_by {X} (f : X -> Z) (ok : X -> bool) l : (forall x, In x l -> ok x = false) \/ exists x, In x l /\ ok x = true /\ forall y, In y l -> ok y = true -> f x <= f y.
Proof.
  induction l as [|a l IH]; [left; intros x []|]. destruct IH as [IH|(x & Hx & Ox & Hm)].
  - destruct (ok a) eqn:Ea; [right; exists a|left; intros x [<-|Hx]; auto]. split; [now left|]. split; auto. intros y [<-|Hy] Oy; [lia|]. rewrite (IH y Hy) in Oy. discriminate.
  - right. destruct (ok a && (f a <? f x)) eqn:Ea; [apply andb_prop in Ea as (E1 & E2); exists a; split; [now left|]; split; auto; intros y [<-|Hy] Oy; [lia|pose proof (Hm y Hy Oy); lia]|].
    exists x. split; [now right|]. split; auto. intros y [<-|Hy] Oy; auto. rewrite Oy in Ea. cbn [andb] in Ea. lia.
Qed.
Definition is_done (pc : pl_pc) : bool := match pc with PDone => true | _ => false end.

Section Proof.
Context {V : Type}.
Variables (A : csr V) (hasv : bool) (rows : rows_t V).
Let m := Zlen rows.
Hypothesis HR : rep hasv 0 m rows A.
Hypothesis HK : rows_ok m rows.
Let adj := cols_of rows.
Let deg := degree rows.
Hypothesis ND : forall u, NoDup (adj u).
Variable srt : list Z -> list Z.
Hypothesis HS : sorts_by deg srt.
Variables (s N : Z) (g : list Z) (D : Z -> Z).
Hypothesis Hs : 0 <= s < m.
Hypothesis Hg : forall v, In v g <-> reach adj s v.
Hypothesis Ng : NoDup g.
Hypothesis HN : N = Zlen g.
Hypothesis HD : forall v, reach adj s v -> dist adj s v (D v).

Let C (d : Z) : list Z := cm_at adj srt s (Z.to_nat d).
Let O : list Z := C N.

Lemma N_pos : 1 <= N.
Proof. rewrite HN. assert (H : In s g) by (apply Hg; exists 0; constructor). destruct g as [|x l]; [contradiction|]. rewrite Zlen_cons. pose proof (Zlen_nonneg l). lia. Qed.
Lemma C_0 : C 0 = [s]. Proof. reflexivity. Qed.
Lemma C_S d : 0 <= d -> C (d + 1) = match get (C d) d with Some u => C d ++ srt (filter (not_in (C d)) (adj u)) | None => C d end.
Proof. intros H. unfold C. replace (Z.to_nat (d + 1)) with (S (Z.to_nat d)) by lia. cbn [cm_at]. rewrite Z2Nat.id by lia. reflexivity. Qed.
Lemma kids_ok o u : NoDup (srt (filter (not_in o) (adj u))) /\ (forall v, In v (srt (filter (not_in o) (adj u))) <-> In v (adj u) /\ ~ In v o) /\ by_degree deg (srt (filter (not_in o) (adj u))).
Proof.
  destruct (HS (filter (not_in o) (adj u))) as (P & B). split; [eapply Permutation_NoDup; eauto; apply NoDup_filter, ND|]. split; auto. intros v. rewrite <- not_in_spec, <- filter_In. split; apply Permutation_in; [now apply Permutation_sym|auto].
Qed.
Lemma C_run d : 0 <= d -> d <= N -> cm_run adj deg s d (C d).
Proof.
  intros Hd. pattern d. revert d Hd. apply Z_ind0; [intros _; constructor|]. intros d Hd IH Hn. specialize (IH ltac:(lia)). rewrite C_S by lia. destruct (get (C d) d) as [u|] eqn:E.
  - destruct (kids_ok (C d) u) as (K1 & K2 & K3). econstructor; eauto.
  - exfalso. destruct (cm_facts _ _ _ _ _ IH) as (F1 & _). assert (Hl : d = Zlen (C d)). { destruct (Z_lt_ge_dec d (Zlen (C d))) as [H|H]; [|lia]. destruct (get_in_range (C d) d ltac:(lia)) as (x & Ex). congruence. }
    assert (CO : cm_order adj deg s (C d)) by (unfold cm_order; rewrite <- Hl; exact IH). destruct (cm_order_reach _ _ _ _ CO) as (No & _ & R). assert (Zlen (C d) = N); [rewrite HN; apply Zlen_same; auto; intros v; now rewrite R, Hg|]. lia.
Qed.
Lemma C_len_N : Zlen O = N.
Proof.
  pose proof N_pos. pose proof (C_run N ltac:(lia) ltac:(lia)) as H1. fold O in H1. destruct (cm_facts _ _ _ _ _ H1) as (F1 & F2 & _ & F4 & _). assert (Zlen O <= N); [|lia]. rewrite HN. unfold Zlen. apply inj_le. apply NoDup_incl_length; auto. intros v Hv. now apply Hg, F4.
Qed.
Lemma O_order : cm_order adj deg s O.
Proof. unfold cm_order. rewrite C_len_N. apply C_run; pose proof N_pos; lia. Qed.
Lemma O_NoDup : NoDup O. Proof. now destruct (cm_order_reach _ _ _ _ O_order). Qed.
Lemma O_reach v : In v O <-> reach adj s v. Proof. destruct (cm_order_reach _ _ _ _ O_order) as (_ & _ & H). apply H. Qed.
Lemma O_range v : In v O -> 0 <= v < m. Proof. intros H. apply O_reach in H. exact (reach_range rows HK s v Hs H). Qed.

Lemma C_prefix d d' : 0 <= d <= d' -> exists t, C d' = C d ++ t.
Proof.
  intros (Hd & H). replace d' with (d + (d' - d)) by lia. assert (Hk : 0 <= d' - d) by lia. generalize dependent (d' - d). clear d' H. intros k Hk. pattern k. revert k Hk. apply Z_ind0; [exists []; now rewrite Z.add_0_r, app_nil_r|].
  intros k Hk (t & IH). rewrite Z.add_assoc, C_S by lia. destruct (get (C (d + k)) (d + k)) as [u|]; [|eauto]. eexists. rewrite IH, <- app_assoc. reflexivity.
Qed.
Lemma C_get d d' p v : 0 <= d <= d' -> get (C d) p = Some v -> get (C d') p = Some v.
Proof. intros H E. destruct (C_prefix d d' H) as (t & ->). pose proof (get_Some_bounds _ _ _ E). rewrite get_app_l by lia. auto. Qed.
Lemma C_get_len d d' p : 0 <= d <= d' -> p < Zlen (C d) -> get (C d') p = get (C d) p.
Proof. intros H Hp. destruct (C_prefix d d' H) as (t & ->). now rewrite get_app_l. Qed.
Lemma C_In d d' v : 0 <= d <= d' -> In v (C d) -> In v (C d').
Proof. intros H E. destruct (C_prefix d d' H) as (t & ->). apply in_or_app. auto. Qed.
Lemma C_at d u : 0 <= d < N -> get O d = Some u -> get (C d) d = Some u.
Proof.
  intros Hd E. destruct (cm_facts _ _ _ _ _ (C_run d ltac:(lia) ltac:(lia))) as (F1 & _). pose proof (C_run (d + 1) ltac:(lia) ltac:(lia)) as R1. destruct (cm_facts _ _ _ _ _ R1) as (F2 & _).
  rewrite C_S in F2 by lia. destruct (get (C d) d) as [x|] eqn:Ex; [|destruct (Z_lt_ge_dec d (Zlen (C d))) as [H|H]; [destruct (get_in_range (C d) d ltac:(lia)); congruence|lia]].
  assert (get O d = Some x) by (apply (C_get d N); auto; lia). congruence.
Qed.
Lemma st_le d d' : 0 <= d <= d' -> Zlen (C d) <= Zlen (C d').
Proof. intros H. destruct (C_prefix d d' H) as (t & ->). rewrite Zlen_app. pose proof (Zlen_nonneg t). lia. Qed.
Lemma st_gt d : 0 <= d < N -> d < Zlen (C d).
Proof. intros H. destruct (get_in_range O d ltac:(rewrite C_len_N; lia)) as (u & E). apply C_at in E; auto. now apply get_Some_bounds in E. Qed.
Definition kids (d u : Z) : list Z := filter (not_in (C d)) (adj u).
Lemma C_next d u : 0 <= d < N -> get O d = Some u -> C (d + 1) = C d ++ srt (kids d u).
Proof. intros H E. rewrite C_S by lia. now rewrite (C_at d u H E). Qed.

(** *** Levels *)
Lemma D_s : D s = 0.
Proof. assert (H : dist adj s s (D s)) by (apply HD; exists 0; constructor). eapply dist_unique; eauto. now apply dist_0. Qed.
Lemma D_nonneg v : In v O -> 0 <= D v.
Proof. intros H. apply O_reach, HD in H. now apply dist_nonneg in H. Qed.
Lemma D_0 v : In v O -> D v = 0 -> v = s.
Proof. intros H E. apply O_reach, HD in H. rewrite E in H. now apply dist_0 in H. Qed.
Lemma O_mono i j u v : i <= j -> get O i = Some u -> get O j = Some v -> D u <= D v.
Proof.
  intros Hij Ei Ej. destruct (Z.eq_dec i j) as [->|]; [assert (u = v) by congruence; subst; lia|]. destruct (cm_order_bfs _ _ _ _ O_order) as (_ & _ & M). apply (M i j u v); auto; [lia| |]; apply HD, O_reach; eapply get_In; eauto.
Qed.
Lemma kid_D d u v : 0 <= d < N -> get O d = Some u -> In v (adj u) -> ~ In v (C d) -> D v = D u + 1 /\ In v O.
Proof.
  intros Hd E Hv Nv. assert (Hu : In u O) by (eapply get_In; eauto). pose proof (HD u (proj1 (O_reach u) Hu)) as Du. destruct (dist_step _ _ _ _ _ Du Hv) as (k & Dk & Hk). pose proof (dist_reach _ _ _ _ Dk) as Rv. pose proof (dist_unique _ _ _ _ _ Dk (HD v Rv)) as ->. split; [|now apply O_reach].
  destruct (cm_levels adj deg s _ _ (C_run d ltac:(lia) ltac:(lia))) as (_ & M). destruct (M u (D u) (C_at d u Hd E) Du) as (_ & M2). destruct (Z_le_gt_dec (D v) (D u)) as [H|H]; [|lia]. exfalso. apply Nv. apply (M2 v (D v)); auto.
Qed.
Lemma kids_D d u v : 0 <= d < N -> get O d = Some u -> In v (kids d u) -> D v = D u + 1 /\ In v O.
Proof. intros Hd E H. unfold kids in H. apply filter_In in H as (H1 & H2). apply not_in_spec in H2. eapply kid_D; eauto. Qed.
Lemma C_parent d v : 0 <= d -> d <= N -> In v (C d) -> v = s \/ exists i u, 0 <= i < d /\ get O i = Some u /\ In v (kids i u) /\ D v = D u + 1.
Proof.
  intros Hd. pattern d. revert d Hd. apply Z_ind0; [intros _ [<-|[]]; auto|]. intros d Hd IH Hn Hv. destruct (get_in_range O d ltac:(rewrite C_len_N; lia)) as (u & E). rewrite (C_next d u) in Hv by (auto; lia). apply in_app_or in Hv as [Hv|Hv].
  - destruct (IH ltac:(lia) Hv) as [|(i & w & H1 & H2)]; auto. right. exists i, w. split; [lia|auto].
  - right. exists d, u. split; [lia|]. split; auto. destruct (HS (kids d u)) as (P & _). apply (Permutation_in _ (Permutation_sym P)) in Hv. split; auto. now apply (kids_D d u v); auto; lia.
Qed.

(** [ps] counts the nodes at smaller distance. *)
Variables (n : Z) (ps : list Z).
Hypothesis Hn : 1 <= n.
Hypothesis Hdep : forall v, In v O -> D v < n - 1.
Hypothesis Lps : Zlen ps = n + 1.
Hypothesis Hcnt : counts rows s ps.
Let P (l : Z) : Z := match get ps l with Some x => x | None => 0 end.
Lemma P_get l : 0 <= l <= n -> get ps l = Some (P l).
Proof. intros H. unfold P. destruct (get_in_range ps l ltac:(lia)) as (x & ->). reflexivity. Qed.
Lemma split_ex l : forall k, 0 <= k -> k <= N -> exists x, 0 <= x <= k /\ forall p v, p < k -> get O p = Some v -> (p < x <-> D v < l).
Proof.
  intros k Hk. pattern k. revert k Hk. apply Z_ind0; [intros _; exists 0; split; [lia|]; intros p v Hp E; apply get_Some_bounds in E; lia|].
  intros k Hk IH Hk1. destruct (IH ltac:(lia)) as (x & Hx & H). destruct (get_in_range O k ltac:(rewrite C_len_N; lia)) as (w & Ew). destruct (Z_lt_ge_dec (D w) l) as [L|L].
  - exists (k + 1). split; [lia|]. intros p v Hp E. pose proof (O_mono p k v w ltac:(lia) E Ew). lia.
  - exists x. split; [lia|]. intros p v Hp E. destruct (Z.eq_dec p k) as [->|]; [|apply H; auto; lia]. assert (w = v) by congruence. subst w. lia.
Qed.
Lemma P_spec l : 0 <= l <= n -> 0 <= P l <= N /\ forall p v, get O p = Some v -> (p < P l <-> D v < l).
Proof.
  intros Hl. pose proof N_pos. destruct (split_ex l N ltac:(lia) ltac:(lia)) as (x & Hx & H1). assert (X : P l = x).
  { assert (Zs : Zlen (slice O 0 x) = x) by (rewrite Zlen_slice; rewrite ?C_len_N; lia). rewrite <- Zs. symmetry. apply (Hcnt l (slice O 0 x) (P l) (P_get l Hl)).
    - apply NoDup_from_get. intros i j v Gi Gj. pose proof (get_Some_bounds _ _ _ Gi) as Bi. pose proof (get_Some_bounds _ _ _ Gj) as Bj. rewrite Zs in Bi, Bj. rewrite get_slice in Gi, Gj by (rewrite ?C_len_N; lia). pose proof (NoDup_get_inj _ _ _ _ O_NoDup Gi Gj). lia.
    - intros v. split.
      + intros Hv. apply In_get in Hv as (i & Hi & G). rewrite Zs in Hi. rewrite get_slice in G by (rewrite ?C_len_N; lia). rewrite Z.add_0_l in G. exists (D v). split; [apply HD, O_reach; eapply get_In; eauto|]. apply (H1 i v); auto; lia.
      + intros (k & Dk & Hk). pose proof (dist_unique _ _ _ _ _ Dk (HD v (dist_reach _ _ _ _ Dk))) as ->. assert (Hv : In v O) by (apply O_reach; eapply dist_reach; eauto). apply In_get in Hv as (i & Hi & G). rewrite C_len_N in Hi. assert (i < x) by (apply (H1 i v); auto; lia). apply (get_In _ i). rewrite get_slice by (rewrite ?C_len_N; lia). exact G. }
  rewrite X. split; auto. intros p v E. apply H1; auto. apply get_Some_bounds in E. rewrite C_len_N in E. lia.
Qed.
Lemma P_mono l l' : 0 <= l <= l' -> l' <= n -> P l <= P l'.
Proof.
  intros H1 H2. destruct (P_spec l ltac:(lia)) as (B1 & S1). destruct (P_spec l' ltac:(lia)) as (B2 & S2). destruct (Z_le_gt_dec (P l) (P l')) as [|G]; auto. destruct (get_in_range O (P l') ltac:(rewrite C_len_N; lia)) as (v & E). pose proof (S1 _ _ E). pose proof (S2 _ _ E). lia.
Qed.
Lemma P_0 : P 0 = 0.
Proof. destruct (P_spec 0 ltac:(lia)) as (B & S). destruct (Z.eq_dec (P 0) 0) as [|Hz]; auto. destruct (get_in_range O 0 ltac:(rewrite C_len_N; lia)) as (v & E). pose proof (S _ _ E). pose proof (D_nonneg v (get_In _ _ _ E)). lia. Qed.
Lemma O_first : get O 0 = Some s. Proof. now destruct (cm_order_reach _ _ _ _ O_order) as (_ & H & _). Qed.
Lemma P_1 : P 1 = 1.
Proof.
  destruct (P_spec 1 ltac:(lia)) as (B & S). pose proof (S 0 s O_first) as S0. rewrite D_s in S0. assert (1 <= P 1) by lia. destruct (Z.eq_dec (P 1) 1) as [|Hz]; auto. destruct (get_in_range O 1 ltac:(rewrite C_len_N; lia)) as (v & E). pose proof (S 1 v E).
  pose proof (D_nonneg v (get_In _ _ _ E)). assert (v = s) by (apply D_0; [eapply get_In; eauto|lia]). subst v. pose proof (NoDup_get_inj _ _ _ _ O_NoDup E O_first). lia.
Qed.
Lemma P_n : P n = N.
Proof. destruct (P_spec n ltac:(lia)) as (B & S). destruct (Z.eq_dec (P n) N) as [|Hz]; auto. destruct (get_in_range O (P n) ltac:(rewrite C_len_N; lia)) as (v & E). pose proof (S _ _ E). pose proof (Hdep v (get_In _ _ _ E)). lia. Qed.
Lemma In_C_level l v : 0 <= l < n -> In v (C (P l)) <-> In v O /\ D v <= l.
Proof.
  intros Hl. destruct (P_spec l ltac:(lia)) as (B & S). split.
  - intros Hv. split; [eapply (C_In (P l) N); eauto; lia|]. destruct (C_parent (P l) v ltac:(lia) ltac:(lia) Hv) as [->|(i & u & Hi & E & _ & HDv)]; [rewrite D_s; lia|]. pose proof (S i u E). lia.
  - intros (Hv & HDv). destruct (Z.eq_dec (D v) 0) as [Z0|Z0].
    + rewrite (D_0 v Hv Z0). apply (C_In 0); [lia|]. now left.
    + pose proof (D_nonneg v Hv). pose proof (HD v (proj1 (O_reach v) Hv)) as Dv. replace (D v) with (D v - 1 + 1) in Dv by lia. destruct (dist_pred adj s v (D v - 1) ltac:(lia) Dv) as (u & Du & Huv).
      assert (Hu : In u O) by (apply O_reach; eapply dist_reach; eauto). assert (Eu : D u = D v - 1) by (eapply dist_unique; [apply HD, O_reach; auto|auto]). apply In_get in Hu as (i & Hi & E). assert (i < P l) by (apply (S i u E); lia).
      rewrite C_len_N in Hi. assert (Hc : In v (C (i + 1))). { rewrite (C_next i u) by (auto; lia). destruct (in_dec Z.eq_dec v (C i)) as [Hc|Hc]; [apply in_or_app; auto|]. apply in_or_app. right. destruct (HS (kids i u)) as (PP & _). apply (Permutation_in _ PP). unfold kids. apply filter_In. split; auto. now apply not_in_spec. }
      eapply C_In; [|exact Hc]. lia.
Qed.
Lemma C_NoDup d : 0 <= d <= N -> NoDup (C d).
Proof. intros H. now destruct (cm_facts _ _ _ _ _ (C_run d (proj1 H) (proj2 H))) as (_ & F & _). Qed.
Lemma st_P l : 0 <= l < n -> Zlen (C (P l)) = P (l + 1).
Proof.
  intros Hl. destruct (P_spec l ltac:(lia)) as (B & S). apply (Hcnt (l + 1) (C (P l)) (P (l + 1)) (P_get (l + 1) ltac:(lia))); [now apply C_NoDup|]. intros v. rewrite In_C_level by lia. split.
  - intros (Hv & H). exists (D v). split; [now apply HD, O_reach|lia].
  - intros (k & Dk & Hk). pose proof (dist_reach _ _ _ _ Dk) as Rv. pose proof (dist_unique _ _ _ _ _ Dk (HD v Rv)) as ->. split; [now apply O_reach|lia].
Qed.
Lemma C_level_le l d v : 0 <= l < n -> 0 <= d <= P (l + 1) -> In v (C d) -> D v <= l + 1.
Proof.
  intros Hl Hd Hv. destruct (P_spec (l + 1) ltac:(lia)) as (B & S). destruct (C_parent d v ltac:(lia) ltac:(lia) Hv) as [->|(i & u & Hi & E & _ & HDv)]; [rewrite D_s; lia|]. pose proof (S i u E). lia.
Qed.

(** *** The invariant *)
Variables (T offset maxDegree : Z) (perm0 inv0 : list Z).
Hypothesis HT : 1 <= T.
Hypothesis Ho : 0 <= offset /\ offset + N <= m.
Hypothesis Hwo : n <= m.
Hypothesis Hmd : forall u, Zlen (adj u) <= maxDegree.
Let pos (p : Z) : Z := m - (offset + p) - 1.

(** Level [l]: the positions below [d] have been expanded, [ch] are the nodes taken
    so far for position [d], [k] of them have been placed. *)
Definition LP (l d : Z) (ch : list Z) (k : Z) (x : pl_mem) : Prop :=
  P l <= d <= P (l + 1) /\ get (pl_wo x) (l + 1) = Some (offset + Zlen (C d) + k) /\
  (forall p v, get O p = Some v -> D v = l + 1 -> p < Zlen (C d) + k -> get (pl_inv x) (pos p) = Some v /\ get (pl_perm x) v = Some (pos p)) /\
  (forall v, In v O -> D v = l + 1 -> get (pl_levels x) v = Some (if not_in (C d ++ ch) v then l + 1 else -1)).
Definition cur (pc : pl_pc) : Z :=
  match pc with
  | PLevel l | PHead l _ | PSpin l _ | PRead l _ | PScan l _ _ _ _ | PMark l _ _ _ _ _ | PWo l _ _ | PInv l _ _ _ | PPerm l _ _ _ _ | PBump l _ _ _ => l
  | PDone => n
  end.
Definition RB (l r : Z) (x : pl_mem) : Prop := exists y, get (pl_wo x) l = Some y /\ r <= y.
Definition PI (pc : pl_pc) (x : pl_mem) : Prop :=
  match pc with
  | PLevel l => LP l (P l) [] 0 x
  | PHead l r => LP l (r - offset) [] 0 x /\ RB l r x
  | PSpin l r => LP l (r - offset) [] 0 x /\ RB l r x /\ r - offset < P (l + 1)
  | PRead l r => LP l (r - offset) [] 0 x /\ RB l (r + 1) x /\ r - offset < P (l + 1)
  | PScan l r u j ch => let d := r - 1 - offset in
      d < P (l + 1) /\ get O d = Some u /\ RB l r x /\ exists k, 0 <= k <= Zlen (adj u) /\ j = off (nthl rows) u + k /\ ch = filter (not_in (C d)) (slice (adj u) 0 k) /\ LP l d ch 0 x
  | PMark l r u j v ch => let d := r - 1 - offset in
      d < P (l + 1) /\ get O d = Some u /\ RB l r x /\ exists k, 0 <= k < Zlen (adj u) /\ j = off (nthl rows) u + k /\ ch = filter (not_in (C d)) (slice (adj u) 0 k) /\ LP l d ch 0 x /\ get (adj u) k = Some v /\ ~ In v (C d)
  | PWo l r c => let d := r - 1 - offset in
      d < P (l + 1) /\ RB l r x /\ exists u, get O d = Some u /\ c = srt (kids d u) /\ LP l d (kids d u) 0 x
  | PInv l r w c => let d := r - 1 - offset in
      d < P (l + 1) /\ RB l r x /\ exists u dn, get O d = Some u /\ srt (kids d u) = dn ++ c /\ w = offset + Zlen (C d) + Zlen dn /\ LP l d (kids d u) (Zlen dn) x
  | PPerm l r w v c => let d := r - 1 - offset in
      d < P (l + 1) /\ RB l r x /\ exists u dn, get O d = Some u /\ srt (kids d u) = dn ++ v :: c /\ w = offset + Zlen (C d) + Zlen dn /\ LP l d (kids d u) (Zlen dn) x /\ get (pl_inv x) (m - w - 1) = Some v
  | PBump l r w c => let d := r - 1 - offset in
      d < P (l + 1) /\ RB l r x /\ exists u dn v, get O d = Some u /\ srt (kids d u) = dn ++ v :: c /\ w = offset + Zlen (C d) + Zlen dn /\ LP l d (kids d u) (Zlen dn) x /\ get (pl_inv x) (m - w - 1) = Some v /\ get (pl_perm x) v = Some (m - w - 1)
  | PDone => True
  end.

(** What a step at level [l] leaves alone. *)
Definition frame (l : Z) (x x' : pl_mem) : Prop :=
  Zlen (pl_levels x') = Zlen (pl_levels x) /\ Zlen (pl_perm x') = Zlen (pl_perm x) /\ Zlen (pl_inv x') = Zlen (pl_inv x) /\ Zlen (pl_wo x') = Zlen (pl_wo x) /\
  (forall v, ~ (In v O /\ D v = l + 1) -> get (pl_levels x') v = get (pl_levels x) v /\ get (pl_perm x') v = get (pl_perm x) v) /\
  (forall q, (forall p v, get O p = Some v -> D v = l + 1 -> q <> pos p) -> get (pl_inv x') q = get (pl_inv x) q) /\
  (forall i, i <> l + 1 -> get (pl_wo x') i = get (pl_wo x) i) /\
  (forall y, get (pl_wo x) (l + 1) = Some y -> exists y', get (pl_wo x') (l + 1) = Some y' /\ y <= y').
Lemma frame_refl l x : frame l x x.
Proof. repeat split; auto. intros y H. exists y. split; auto. lia. Qed.
Lemma kid_pos d u dn v c : 0 <= d < N -> get O d = Some u -> srt (kids d u) = dn ++ v :: c -> get O (Zlen (C d) + Zlen dn) = Some v /\ D v = D u + 1 /\ In v O /\ Zlen (C d) + Zlen dn < N.
Proof.
  intros Hd E Ek. assert (G : get (C (d + 1)) (Zlen (C d) + Zlen dn) = Some v). { rewrite (C_next d u Hd E), Ek. pose proof (Zlen_nonneg dn). rewrite get_app_r by lia. replace (Zlen (C d) + Zlen dn - Zlen (C d)) with (Zlen dn) by lia. rewrite get_app_r, Z.sub_diag by lia. reflexivity. }
  assert (G' : get O (Zlen (C d) + Zlen dn) = Some v) by (apply (C_get (d + 1) N); auto; lia). split; auto. assert (Hv : In v (kids d u)). { destruct (HS (kids d u)) as (PP & _). apply (Permutation_in _ (Permutation_sym PP)). rewrite Ek. apply in_or_app. right. now left. }
  destruct (kids_D d u v Hd E Hv). split; auto. split; auto. apply get_Some_bounds in G'. rewrite C_len_N in G'. lia.
Qed.
Lemma level_pos l d u : 0 <= l < n -> P l <= d < P (l + 1) -> get O d = Some u -> 0 <= d < N /\ D u = l.
Proof. intros Hl Hd E. destruct (P_spec l ltac:(lia)) as (B1 & S1). destruct (P_spec (l + 1) ltac:(lia)) as (B2 & S2). pose proof (S1 _ _ E). pose proof (S2 _ _ E). lia. Qed.
Lemma pos_inj p p' : pos p = pos p' -> p = p'. Proof. unfold pos. lia. Qed.
Lemma LP_frame l l2 d ch k x x' : l2 <> l -> frame l x x' -> LP l2 d ch k x -> LP l2 d ch k x'.
Proof.
  intros Hl (_ & _ & _ & _ & F1 & F2 & F3 & _) (L1 & L2 & L3 & L4). split; auto. split; [rewrite F3 by lia; auto|]. split.
  - intros p v E Dv Hp. destruct (L3 p v E Dv Hp) as (Q1 & Q2). split.
    + rewrite F2; auto. intros p' v' E' D' Eq. apply pos_inj in Eq. subst p'. assert (v = v') by congruence. subst. lia.
    + rewrite (proj2 (F1 v ltac:(intros (_ & Y); lia))). auto.
  - intros v Hv Dv. rewrite (proj1 (F1 v ltac:(intros (_ & Y); lia))). auto.
Qed.
Lemma RB_frame l l2 r x x' : frame l x x' -> RB l2 r x -> RB l2 r x'.
Proof.
  intros (_ & _ & _ & _ & _ & _ & F3 & F4) (y & E & H). destruct (Z.eq_dec l2 (l + 1)) as [->|Nl]; [destruct (F4 y E) as (y' & E' & H'); exists y'; split; auto; lia|]. exists y. rewrite F3 by auto. auto.
Qed.
Lemma kid_inv_frame l l2 d u dn v c x x' : l2 <> l -> 0 <= l2 < n -> frame l x x' -> P l2 <= d < P (l2 + 1) -> get O d = Some u -> srt (kids d u) = dn ++ v :: c ->
  let w := offset + Zlen (C d) + Zlen dn in
  get (pl_inv x') (m - w - 1) = get (pl_inv x) (m - w - 1) /\ get (pl_perm x') v = get (pl_perm x) v.
Proof.
  intros Hl Hl2 (_ & _ & _ & _ & F1 & F2 & _) Hd E Ek w. destruct (level_pos l2 d u Hl2 Hd E) as (Bd & Du). destruct (kid_pos d u dn v c Bd E Ek) as (G & Dv & Iv & _). split.
  - apply F2. intros p' v' E' D' Eq. replace (m - w - 1) with (pos (Zlen (C d) + Zlen dn)) in Eq by (unfold pos, w; lia). apply pos_inj in Eq. subst p'. assert (v = v') by congruence. subst. lia.
  - apply F1. intros (_ & Y). lia.
Qed.
Lemma PI_frame l pc x x' : 0 <= cur pc < n -> cur pc <> l -> frame l x x' -> PI pc x -> PI pc x'.
Proof.
  intros Hc Hl F. destruct pc as [l2|l2 r|l2 r|l2 r|l2 r u j ch|l2 r u j v ch|l2 r c|l2 r w c|l2 r w v c|l2 r w c|]; cbn [PI cur] in *; intros H.
  - eapply LP_frame; eauto.
  - destruct H as (H1 & H2). split; [eapply LP_frame; eauto|eapply RB_frame; eauto].
  - destruct H as (H1 & H2 & H3). split; [eapply LP_frame; eauto|]. split; [eapply RB_frame; eauto|auto].
  - destruct H as (H1 & H2 & H3). split; [eapply LP_frame; eauto|]. split; [eapply RB_frame; eauto|auto].
  - destruct H as (H1 & H2 & H3 & k & H4 & H5 & H6 & H7). split; auto. split; auto. split; [eapply RB_frame; eauto|]. exists k. split; auto. split; auto. split; auto. eapply LP_frame; eauto.
  - destruct H as (H1 & H2 & H3 & k & H4 & H5 & H6 & H7 & H8). split; auto. split; auto. split; [eapply RB_frame; eauto|]. exists k. split; auto. split; auto. split; auto. split; auto. eapply LP_frame; eauto.
  - destruct H as (H1 & H2 & u & H3 & H4 & H5). split; auto. split; [eapply RB_frame; eauto|]. exists u. split; auto. split; auto. eapply LP_frame; eauto.
  - destruct H as (H1 & H2 & u & dn & H3 & H4 & H5 & H6). split; auto. split; [eapply RB_frame; eauto|]. exists u, dn. split; auto. split; auto. split; auto. eapply LP_frame; eauto.
  - destruct H as (H1 & H2 & u & dn & H3 & H4 & H5 & H6 & H7). split; auto. split; [eapply RB_frame; eauto|]. exists u, dn. split; auto. split; auto. split; auto. split; [eapply LP_frame; eauto|]. pose proof H6 as (L1 & _).
    destruct (kid_inv_frame l l2 (r - 1 - offset) u dn v c x x') as (K1 & _); auto; [lia|]. cbv zeta in K1. subst w. rewrite K1. auto.
  - destruct H as (H1 & H2 & u & dn & v & H3 & H4 & H5 & H6 & H7 & H8). split; auto. split; [eapply RB_frame; eauto|]. exists u, dn, v. split; auto. split; auto. split; auto. split; [eapply LP_frame; eauto|]. pose proof H6 as (L1 & _).
    destruct (kid_inv_frame l l2 (r - 1 - offset) u dn v c x x') as (K1 & K2); auto; [lia|]. cbv zeta in K1. subst w. rewrite K1, K2. auto.
  - exact I.
Qed.

(** *** One step *)
Definition lens (x : pl_mem) : Prop := Zlen (pl_levels x) = m /\ Zlen (pl_perm x) = m /\ Zlen (pl_inv x) = m /\ Zlen (pl_wo x) = m + 1.
(** What the reader of level [l] may rely on. *)
Definition RD (l : Z) (x : pl_mem) : Prop :=
  exists y, get (pl_wo x) l = Some y /\ offset + P l <= y /\ forall p v, get O p = Some v -> D v = l -> offset + p < y -> get (pl_inv x) (pos p) = Some v /\ get (pl_perm x) v = Some (pos p).
Definition GL (x : pl_mem) : Prop := forall v, In v O -> exists y, get (pl_levels x) v = Some y /\ (y = D v \/ y = -1).
(** An upper bound on the steps left to a thread. *)
Let KK : Z := 5 * maxDegree + 6.
Let rest (l d : Z) : Z := KK * (N - d) + 2 * (n - l).
Let rend (u : Z) : Z := off (nthl rows) u + Zlen (adj u).
Definition mu (pc : pl_pc) : Z :=
  match pc with
  | PLevel l => if l <? n then rest l (P l) + 2 else 1
  | PHead l r => rest l (r - offset) + 1
  | PSpin l r => rest l (r - offset)
  | PRead l r => rest l (r - offset) - 1
  | PScan l r u j ch => rest l (r - offset) + 4 + 2 * (rend u - j) + 3 * (Zlen ch + (rend u - j))
  | PMark l r u j v ch => rest l (r - offset) + 3 + 2 * (rend u - j) + 3 * (Zlen ch + (rend u - j))
  | PWo l r c => rest l (r - offset) + 3 + 3 * Zlen c
  | PInv l r w c => rest l (r - offset) + 2 + 3 * Zlen c
  | PPerm l r w v c => rest l (r - offset) + 4 + 3 * Zlen c
  | PBump l r w c => rest l (r - offset) + 3 + 3 * Zlen c
  | PDone => 0
  end.
Lemma rest_S l d : rest l d = rest l (d + 1) + KK. Proof. unfold rest. lia. Qed.
Lemma md_nonneg : 0 <= maxDegree. Proof. pose proof (Hmd 0). pose proof (Zlen_nonneg (adj 0)). lia. Qed.
Lemma rest_pos l d : d <= N -> l < n -> 2 <= rest l d.
Proof. intros. unfold rest, KK. pose proof md_nonneg. assert (0 <= (5 * maxDegree + 6) * (N - d)) by (apply Z.mul_nonneg_nonneg; lia). lia. Qed.

(** Placing one more child. *)
Lemma LP_bump l d u dn v c x x' : 0 <= l < n -> P l <= d < P (l + 1) -> get O d = Some u -> srt (kids d u) = dn ++ v :: c -> LP l d (kids d u) (Zlen dn) x ->
  pl_levels x' = pl_levels x -> pl_perm x' = pl_perm x -> pl_inv x' = pl_inv x -> get (pl_wo x') (l + 1) = Some (offset + Zlen (C d) + Zlen dn + 1) ->
  get (pl_inv x) (m - (offset + Zlen (C d) + Zlen dn) - 1) = Some v -> get (pl_perm x) v = Some (m - (offset + Zlen (C d) + Zlen dn) - 1) -> LP l d (kids d u) (Zlen (dn ++ [v])) x'.
Proof.
  intros Hl Hd E Ek (L1 & L2 & L3 & L4) E1 E2 E3 E4 G1 G2. destruct (level_pos l d u Hl Hd E) as (Bd & Du). destruct (kid_pos d u dn v c Bd E Ek) as (G & Dv & Iv & Bk). rewrite Zlen_app. change (Zlen [v]) with 1. split; auto. split; [rewrite E4; f_equal; lia|]. rewrite E1, E2, E3. split; auto.
  intros p w Ep Dp Hp. destruct (Z.eq_dec p (Zlen (C d) + Zlen dn)) as [->|Np]; [|apply L3; auto; lia]. assert (v = w) by congruence. subst w. unfold pos. replace (m - (offset + (Zlen (C d) + Zlen dn)) - 1) with (m - (offset + Zlen (C d) + Zlen dn) - 1) by lia. auto.
Qed.
(** All children of a position placed. *)
Lemma LP_next l d u x : 0 <= l < n -> P l <= d < P (l + 1) -> get O d = Some u -> LP l d (kids d u) (Zlen (srt (kids d u))) x -> LP l (d + 1) [] 0 x.
Proof.
  intros Hl Hd E (L1 & L2 & L3 & L4). destruct (level_pos l d u Hl Hd E) as (Bd & Du). pose proof (C_next d u Bd E) as Cn. assert (Ln : Zlen (C (d + 1)) = Zlen (C d) + Zlen (srt (kids d u))) by (rewrite Cn, Zlen_app; lia). split; [lia|]. split; [rewrite L2; f_equal; lia|]. split.
  - intros p v Ep Dp Hp. apply L3; auto; lia.
  - intros v Hv Dv. rewrite (L4 v Hv Dv). f_equal. destruct (HS (kids d u)) as (PP & _). assert (Hi : In v (C d ++ kids d u) <-> In v (C (d + 1) ++ [])). { rewrite app_nil_r, Cn, !in_app_iff. split; (intros [H|H]; [auto|right]); [exact (Permutation_in v PP H)|exact (Permutation_in v (Permutation_sym PP) H)]. }
    unfold not_in. destruct (in_dec Z.eq_dec v (C d ++ kids d u)), (in_dec Z.eq_dec v (C (d + 1) ++ [])); tauto.
Qed.
Lemma kids_le d u : Zlen (kids d u) <= Zlen (adj u).
Proof. unfold kids, Zlen. apply inj_le. induction (adj u) as [|a l IH]; cbn [filter length]; [lia|]. destruct (not_in (C d) a); cbn [length]; lia. Qed.
Lemma filter_le {X} (f : X -> bool) l : Zlen (filter f l) <= Zlen l.
Proof. unfold Zlen. apply inj_le. induction l as [|a l IH]; cbn [filter length]; [lia|]. destruct (f a); cbn [length]; lia. Qed.
Lemma P_next l : 0 <= l < n -> P l <= P (l + 1) <= N.
Proof. intros H. split; [apply P_mono; lia|]. now destruct (P_spec (l + 1) ltac:(lia)). Qed.

Definition step_res (x : pl_mem) (pc : pl_pc) (x' : pl_mem) (pc' : pl_pc) : Prop :=
  frame (cur pc) x x' /\ ((cur pc' = cur pc /\ PI pc' x') \/ (pc' = PLevel (cur pc + T) /\ LP (cur pc) (P (cur pc + 1)) [] 0 x')) /\
  0 <= mu pc' /\ (mu pc' < mu pc \/ (x' = x /\ pc' = pc /\ exists l r, pc = PSpin l r /\ get (pl_wo x) l = Some r)).
Lemma step_ok x pc : lens x -> 0 <= cur pc < n -> RD (cur pc) x -> GL x -> PI pc x ->
  exists x' pc', pl_step1 A T srt n offset maxDegree ps x pc = Some (x', pc') /\ step_res x pc x' pc'.
Proof.
  intros (L1 & L2 & L3 & L4) Hc HRD HGL H. assert (Am : cm A = m) by exact (proj1 HR). unfold step_res.
  destruct pc as [l|l r|l r|l r|l r u j ch|l r u j v ch|l r c|l r w c|l r w v c|l r w c|]; cbn [PI cur pl_step1] in *; [| | | | | | | | | |lia].
  - (* PLevel *)
    replace (l <? n) with true by lia. rewrite P_get by lia. eexists x, (PHead l (P l + offset)). split; [reflexivity|]. split; [apply frame_refl|]. split; [left; split; [reflexivity|]|].
    + cbn [PI]. replace (P l + offset - offset) with (P l) by lia. split; auto. destruct HRD as (y & Ey & Hy & _). exists y. split; auto. lia.
    + cbn [mu]. replace (l <? n) with true by lia. replace (P l + offset - offset) with (P l) by lia. pose proof (P_next l Hc). pose proof (rest_pos l (P l)). lia.
  - (* PHead *)
    destruct H as (H1 & H2). pose proof (P_next l Hc) as Pn. pose proof H1 as (B & _). rewrite P_get by lia. exists x. eexists. split; [reflexivity|]. split; [apply frame_refl|]. destruct (r =? P (l + 1) + offset) eqn:Er.
    + assert (Er' : r - offset = P (l + 1)) by lia. rewrite Er' in H1. split; [right; auto|]. cbn [mu]. rewrite Er'. pose proof (rest_pos l (P (l + 1)) ltac:(lia) ltac:(lia)) as R1. destruct (l + T <? n) eqn:El; [|lia].
      pose proof (P_mono (l + 1) (l + T) ltac:(lia) ltac:(lia)). pose proof (P_next (l + T) ltac:(lia)). pose proof (rest_pos (l + T) (P (l + T)) ltac:(lia) ltac:(lia)). split; [lia|]. left. unfold rest. pose proof md_nonneg. assert (KK * (N - P (l + T)) <= KK * (N - P (l + 1))) by (apply Z.mul_le_mono_nonneg_l; unfold KK; lia). lia.
    + split; [left; split; [reflexivity|]; cbn [PI]; split; auto; split; auto; lia|]. cbn [mu]. pose proof (rest_pos l (r - offset)). lia.
  - (* PSpin *)
    destruct H as (H1 & (y & Ey & Hy) & H3). pose proof (P_next l Hc) as Pn. pose proof H1 as (B & _). rewrite Ey. exists x. eexists. split; [reflexivity|]. split; [apply frame_refl|]. pose proof (rest_pos l (r - offset)). destruct (r =? y) eqn:Er.
    + assert (r = y) by lia. subst y. split; [left; split; [reflexivity|]; cbn [PI]; split; auto; split; auto; exists r; split; auto; lia|]. cbn [mu]. split; [lia|]. right. split; auto. split; auto. eauto.
    + split; [left; split; [reflexivity|]; cbn [PI]; split; auto; split; auto; exists y; split; auto; lia|]. cbn [mu]. lia.
  - (* PRead *)
    destruct H as (H1 & (y & Ey & Hy) & H3). pose proof (P_next l Hc) as Pn. pose proof H1 as (B & _). destruct (P_spec l ltac:(lia)) as (B0 & _). destruct (get_in_range O (r - offset) ltac:(rewrite C_len_N; lia)) as (u & Eu). destruct (level_pos l (r - offset) u Hc ltac:(lia) Eu) as (Bd & Du).
    destruct HRD as (y' & Ey' & _ & Hr). assert (y' = y) by congruence. subst y'. destruct (Hr _ _ Eu Du ltac:(lia)) as (Gi & _). unfold pos in Gi. replace (m - (offset + (r - offset)) - 1) with (m - r - 1) in Gi by lia. pose proof (O_range u (get_In _ _ _ Eu)) as Ru.
    rewrite Am, Gi, (rep_rowptr _ _ _ _ _ _ HR) by (fold m; lia). exists x. eexists. split; [reflexivity|]. split; [apply frame_refl|]. split; [left; split; [reflexivity|]|].
    + cbn [PI]. replace (r + 1 - 1 - offset) with (r - offset) by lia. split; auto. split; auto. split; [exists y; auto|]. exists 0. split; [pose proof (Zlen_nonneg (adj u)); lia|]. split; [lia|]. split; [now rewrite slice_nil by lia|]. auto.
    + cbn [mu]. change (Zlen (@nil Z)) with 0. rewrite (rest_S l (r - offset)). replace (r + 1 - offset) with (r - offset + 1) by lia. pose proof (rest_pos l (r - offset + 1) ltac:(lia) ltac:(lia)). unfold rend. pose proof (Hmd u). pose proof (Zlen_nonneg (adj u)). unfold KK. lia.
  - (* PScan *)
    cbv zeta in H. set (d := r - 1 - offset) in *. destruct H as (H1 & H2 & H3 & k & Hk & Hj & Hch & H4). pose proof (P_next l Hc) as Pn. pose proof H4 as (B & W & Q1 & Q2). destruct (level_pos l d u Hc ltac:(lia) H2) as (Bd & Du). pose proof (O_range u (get_In _ _ _ H2)) as Ru.
    rewrite (rep_rowptr_S _ _ _ _ _ _ HR) by (fold m; lia). assert (Lu : Zlen (nthl rows u) = Zlen (adj u)) by (unfold adj, cols_of; now rewrite Zlen_map). rewrite Lu, Z.add_0_l. assert (Rp : 2 <= rest l (r - offset)) by (apply rest_pos; lia). destruct (j <? off (nthl rows) u + Zlen (adj u)) eqn:Ej.
    + destruct (get_in_range (nthl rows u) k ltac:(lia)) as ((v & a) & Ek). pose proof (rep_col _ _ _ _ _ _ _ _ _ HR Ru Ek) as Gc. rewrite Z.add_0_r in Gc. subst j. rewrite Gc. assert (Eav : get (adj u) k = Some v) by (unfold adj, cols_of; rewrite get_map, Ek; reflexivity).
      assert (Ks : kids d u = filter (not_in (C d)) (slice (adj u) 0 k) ++ filter (not_in (C d)) (slice (adj u) k (Zlen (adj u)))). { unfold kids. rewrite <- filter_app, <- slice_app by lia. now rewrite slice_full. }
      pose proof (slice_snoc (adj u) 0 k v ltac:(lia) Eav) as Sn. destruct (in_dec Z.eq_dec v (C d)) as [Hv|Hv].
      * assert (HvO : In v O) by (apply (C_In d N); auto; lia). pose proof (C_level_le l d v Hc ltac:(pose proof (P_spec l ltac:(lia)); lia) Hv) as Dle. assert (Gl : exists y, get (pl_levels x) v = Some y /\ (y =? l + 1) = false).
        { destruct (Z.eq_dec (D v) (l + 1)) as [Dv|Dv]; [|destruct (HGL v HvO) as (y & Ey & Hy); exists y; split; auto; lia]. rewrite (Q2 v HvO Dv). eexists. split; [reflexivity|]. unfold not_in. destruct (in_dec Z.eq_dec v (C d ++ ch)) as [|Nn]; [lia|]. exfalso. apply Nn. apply in_or_app. auto. }
        destruct Gl as (y & -> & ->). exists x. eexists. split; [reflexivity|]. split; [apply frame_refl|]. split; [left; split; [reflexivity|]|].
        -- cbn [PI]. cbv zeta. fold d. split; auto. split; auto. split; auto. exists (k + 1). split; [lia|]. split; [lia|]. split; auto. rewrite Sn, filter_app, <- Hch. cbn [filter]. unfold not_in at 1. destruct (in_dec Z.eq_dec v (C d)); [|contradiction]. now rewrite app_nil_r.
        -- cbn [mu]. unfold rend. pose proof (Zlen_nonneg ch). lia.
      * destruct (kid_D d u v Bd H2 (get_In _ _ _ Eav) Hv) as (Dv & HvO). rewrite (Q2 v HvO ltac:(lia)). assert (Nin : not_in (C d ++ ch) v = true). { apply not_in_spec. intros Hi. apply in_app_or in Hi as [Hi|Hi]; [contradiction|]. rewrite Hch in Hi. apply filter_In in Hi as (Hi & _). apply In_get in Hi as (i & Hi & G). rewrite Zlen_slice in Hi by lia. rewrite get_slice in G by lia. pose proof (NoDup_get_inj _ _ _ _ (ND u) G Eav). lia. }
        rewrite Nin. rewrite Z.eqb_refl. exists x. eexists. split; [reflexivity|]. split; [apply frame_refl|]. split; [left; split; [reflexivity|]|].
        -- cbn [PI]. cbv zeta. fold d. split; auto. split; auto. split; auto. exists k. split; [lia|]. auto.
        -- cbn [mu]. unfold rend. pose proof (Zlen_nonneg ch). lia.
    + assert (k = Zlen (adj u)) by lia. subst k. rewrite slice_full in Hch. fold (kids d u) in Hch. exists x. eexists. split; [reflexivity|]. split; [apply frame_refl|]. split; [left; split; [reflexivity|]|].
      * cbn [PI]. cbv zeta. fold d. split; auto. split; auto. exists u. subst ch. auto.
      * cbn [mu]. destruct (HS ch) as (PP & _). apply Permutation_length in PP. assert (Zlen (srt ch) = Zlen ch) by (unfold Zlen; now rewrite PP). unfold rend. pose proof (Zlen_nonneg ch). lia.
  - (* PMark *)
    cbv zeta in H. set (d := r - 1 - offset) in *. destruct H as (H1 & H2 & H3 & k & Hk & Hj & Hch & H4 & Eav & Hv). pose proof (P_next l Hc) as Pn. pose proof H4 as (B & W & Q1 & Q2). destruct (level_pos l d u Hc ltac:(lia) H2) as (Bd & Du). assert (Rp : 2 <= rest l (r - offset)) by (apply rest_pos; lia).
    destruct (kid_D d u v Bd H2 (get_In _ _ _ Eav) Hv) as (Dv & HvO). pose proof (O_range v HvO) as Rv. assert (Lc : Zlen ch < maxDegree). { subst ch. pose proof (filter_le (not_in (C d)) (slice (adj u) 0 k)). rewrite Zlen_slice in H by lia. pose proof (Hmd u). lia. }
    replace (Zlen ch <? maxDegree) with true by lia. destruct (set_ok (pl_levels x) v (-1) ltac:(lia)) as (lv & Es). rewrite Es. eexists. eexists. split; [reflexivity|]. split; [|split; [left; split; [reflexivity|]|]].
    + repeat split; cbn [pl_levels pl_perm pl_inv pl_wo]; auto; [now rewrite (set_len _ _ _ _ Es)| |intros y Ey; exists y; split; auto; lia]. rewrite (get_set_other _ _ _ _ _ Es); auto. intros ->. apply H. split; auto. lia.
    + cbn [PI]. cbv zeta. fold d. split; auto. split; auto. split; [destruct H3 as (y & H3); exists y; exact H3|]. exists (k + 1). split; [lia|]. split; [lia|]. split.
      * rewrite (slice_snoc (adj u) 0 k v ltac:(lia) Eav), filter_app, <- Hch. cbn [filter]. apply not_in_spec in Hv. now rewrite Hv.
      * split; auto. split; auto. split; auto. cbn [pl_levels]. intros v' Hv' Dv'. destruct (Z.eq_dec v' v) as [->|Nv].
        -- rewrite (get_set_same _ _ _ _ Es). unfold not_in. destruct (in_dec Z.eq_dec v (C d ++ ch ++ [v])) as [|Nn]; auto. exfalso. apply Nn. rewrite !in_app_iff. right. right. now left.
        -- rewrite (get_set_other _ _ _ _ _ Es) by auto. rewrite (Q2 v' Hv' Dv'). f_equal. rewrite app_assoc. unfold not_in. destruct (in_dec Z.eq_dec v' (C d ++ ch)) as [I1|I1], (in_dec Z.eq_dec v' ((C d ++ ch) ++ [v])) as [I2|I2]; auto; exfalso; [apply I2, in_or_app; auto|]. apply in_app_or in I2 as [I2|[I2|[]]]; auto.
    + cbn [mu]. rewrite Zlen_app. change (Zlen [v]) with 1. unfold rend. pose proof (Zlen_nonneg ch). lia.
  - (* PWo *)
    cbv zeta in H. set (d := r - 1 - offset) in *. destruct H as (H1 & H2 & u & H3 & H4 & H5). pose proof H5 as (B & W & _). rewrite W. pose proof (P_next l Hc) as Pn. exists x. eexists. split; [reflexivity|]. split; [apply frame_refl|]. split; [left; split; [reflexivity|]|].
    + cbn [PI]. cbv zeta. fold d. split; auto. split; auto. exists u, []. split; auto.
    + cbn [mu]. pose proof (rest_pos l (r - offset)). pose proof (Zlen_nonneg c). lia.
  - (* PInv *)
    cbv zeta in H. set (d := r - 1 - offset) in *. destruct H as (H1 & H2 & u & dn & H3 & H4 & H5 & H6). pose proof H6 as (B & W & Q1 & Q2). pose proof (P_next l Hc) as Pn. destruct (level_pos l d u Hc ltac:(lia) H3) as (Bd & Du). assert (Rp : 2 <= rest l (r - offset)) by (apply rest_pos; lia). destruct c as [|v c].
    + exists x. eexists. split; [reflexivity|]. split; [apply frame_refl|]. split; [left; split; [reflexivity|]|].
      * cbn [PI]. split; auto. replace (r - offset) with (d + 1) by lia. rewrite app_nil_r in H4. apply (LP_next l d u); auto; [lia|]. now rewrite H4.
      * cbn [mu]. change (Zlen (@nil Z)) with 0. lia.
    + destruct (kid_pos d u dn v c Bd H3 H4) as (G & Dv & Iv & Bk). pose proof (Zlen_nonneg (C d)). pose proof (Zlen_nonneg dn). destruct (set_ok (pl_inv x) (m - w - 1) v ltac:(lia)) as (iv & Es). rewrite Am, Es. eexists. eexists. split; [reflexivity|]. split; [|split; [left; split; [reflexivity|]|]].
      * repeat split; cbn [pl_levels pl_perm pl_inv pl_wo]; auto; [now rewrite (set_len _ _ _ _ Es)| |intros y Ey; exists y; split; auto; lia]. intros q Hq. rewrite (get_set_other _ _ _ _ _ Es); auto. replace (m - w - 1) with (pos (Zlen (C d) + Zlen dn)) by (unfold pos; lia). apply (Hq _ v); auto. lia.
      * cbn [PI]. cbv zeta. fold d. split; auto. split; [destruct H2 as (y & H2); exists y; exact H2|]. exists u, dn. split; auto. split; auto. split; auto. split; [|cbn [pl_inv]; now rewrite (get_set_same _ _ _ _ Es)]. split; auto. split; auto. split; auto. intros p v' Ep Dp Hp. cbn [pl_inv pl_perm].
        rewrite (get_set_other _ _ _ _ _ Es); auto. unfold pos. lia.
      * cbn [mu]. rewrite Zlen_cons. pose proof (Zlen_nonneg c). lia.
  - (* PPerm *)
    cbv zeta in H. set (d := r - 1 - offset) in *. destruct H as (H1 & H2 & u & dn & H3 & H4 & H5 & H6 & H7). pose proof H6 as (B & W & Q1 & Q2). pose proof (P_next l Hc) as Pn. destruct (level_pos l d u Hc ltac:(lia) H3) as (Bd & Du). assert (Rp : 2 <= rest l (r - offset)) by (apply rest_pos; lia).
    destruct (kid_pos d u dn v c Bd H3 H4) as (G & Dv & Iv & Bk). destruct (set_ok (pl_perm x) v (m - w - 1) ltac:(pose proof (O_range v Iv); lia)) as (pm & Es). rewrite Am, Es. eexists. eexists. split; [reflexivity|]. split; [|split; [left; split; [reflexivity|]|]].
    + repeat split; cbn [pl_levels pl_perm pl_inv pl_wo]; auto; [now rewrite (set_len _ _ _ _ Es)| |intros y Ey; exists y; split; auto; lia]. rewrite (get_set_other _ _ _ _ _ Es); auto. intros ->. apply H. split; auto. lia.
    + cbn [PI]. cbv zeta. fold d. split; auto. split; [destruct H2 as (y & H2); exists y; exact H2|]. exists u, dn, v. split; auto. split; auto. split; auto. split; [|split; auto; cbn [pl_perm]; now rewrite (get_set_same _ _ _ _ Es)]. split; auto. split; auto. split; auto. intros p v' Ep Dp Hp. cbn [pl_inv pl_perm].
      rewrite (get_set_other _ _ _ _ _ Es); auto. intros ->. pose proof (NoDup_get_inj _ _ _ _ O_NoDup Ep G). lia.
    + cbn [mu]. pose proof (Zlen_nonneg c). lia.
  - (* PBump *)
    cbv zeta in H. set (d := r - 1 - offset) in *. destruct H as (H1 & H2 & u & dn & v & H3 & H4 & H5 & H6 & H7 & H8). pose proof H6 as (B & W & Q1 & Q2). pose proof (P_next l Hc) as Pn. destruct (level_pos l d u Hc ltac:(lia) H3) as (Bd & Du). assert (Rp : 2 <= rest l (r - offset)) by (apply rest_pos; lia).
    destruct (set_ok (pl_wo x) (l + 1) (w + 1) ltac:(lia)) as (wo & Es). rewrite Es. eexists. eexists. split; [reflexivity|]. split; [|split; [left; split; [reflexivity|]|]].
    + repeat split; cbn [pl_levels pl_perm pl_inv pl_wo]; auto; [now rewrite (set_len _ _ _ _ Es)| |]. { intros i Hi. rewrite (get_set_other _ _ _ _ _ Es); auto. } intros y Ey. exists (w + 1). split; [now rewrite (get_set_same _ _ _ _ Es)|]. rewrite W in Ey. injection Ey as <-. lia.
    + cbn [PI]. cbv zeta. fold d. split; auto. split; [destruct H2 as (y & H2); exists y; cbn [pl_wo]; rewrite (get_set_other _ _ _ _ _ Es) by lia; exact H2|]. exists u, (dn ++ [v]). split; auto. split; [now rewrite <- app_assoc|]. split; [rewrite Zlen_app; change (Zlen [v]) with 1; lia|]. subst w. eapply LP_bump; eauto; [lia|]. cbn [pl_wo]. rewrite (get_set_same _ _ _ _ Es). f_equal; lia.
    + cbn [mu]. pose proof (Zlen_nonneg c). lia.
Qed.

(** *** All threads *)
Variable levels0 : list Z.
Definition LS (pc : pl_pc) (l : Z) (x : pl_mem) : Prop :=
  if cur pc <? l then LP l (P l) [] 0 x else if l <? cur pc then LP l (P (l + 1)) [] 0 x else PI pc x.
Definition outside (x : pl_mem) : Prop :=
  (forall p, p < m - (offset + N) \/ m - offset <= p -> get (pl_inv x) p = get inv0 p) /\
  (forall v, ~ In v O -> get (pl_perm x) v = get perm0 v /\ get (pl_levels x) v = get levels0 v).
Definition source_in (x : pl_mem) : Prop :=
  get (pl_inv x) (pos 0) = Some s /\ get (pl_perm x) s = Some (pos 0) /\ get (pl_levels x) s = Some 0 /\ get (pl_wo x) 0 = Some (offset + 1).
Definition Inv (st : pl_mem * list pl_pc) : Prop :=
  let '(x, pcs) := st in
  lens x /\ source_in x /\ outside x /\ Zlen pcs = T /\
  forall t pc, get pcs t = Some pc -> 0 <= mu pc /\ (pc = PDone \/ (exists l, pc = PLevel l /\ n <= l) \/ (0 <= cur pc < n /\ cur pc mod T = t)) /\ forall l, 0 <= l < n -> l mod T = t -> LS pc l x.

Lemma PI_LP pc x : 0 <= cur pc < n -> PI pc x -> exists d ch k, 0 <= k /\ LP (cur pc) d ch k x.
Proof.
  destruct pc as [l|l r|l r|l r|l r u j ch|l r u j v ch|l r c|l r w c|l r w v c|l r w c|]; cbn [PI cur]; intros Hc H; cbv zeta in H; [| | | | | | | | | |lia].
  - exists (P l), [], 0. split; [lia|auto].
  - exists (r - offset), [], 0. split; [lia|tauto].
  - exists (r - offset), [], 0. split; [lia|tauto].
  - exists (r - offset), [], 0. split; [lia|tauto].
  - destruct H as (_ & _ & _ & k & _ & _ & _ & H). exists (r - 1 - offset), ch, 0. split; [lia|auto].
  - destruct H as (_ & _ & _ & k & _ & _ & _ & H & _). exists (r - 1 - offset), ch, 0. split; [lia|auto].
  - destruct H as (_ & _ & u & _ & _ & H). eexists _, _, 0. split; [lia|eauto].
  - destruct H as (_ & _ & u & dn & _ & _ & _ & H). exists (r - 1 - offset), (kids (r - 1 - offset) u), (Zlen dn). split; [apply Zlen_nonneg|auto].
  - destruct H as (_ & _ & u & dn & _ & _ & _ & H & _). exists (r - 1 - offset), (kids (r - 1 - offset) u), (Zlen dn). split; [apply Zlen_nonneg|auto].
  - destruct H as (_ & _ & u & dn & v & _ & _ & _ & H & _). exists (r - 1 - offset), (kids (r - 1 - offset) u), (Zlen dn). split; [apply Zlen_nonneg|auto].
Qed.
Lemma LS_LP pc l x : 0 <= l < n -> LS pc l x -> exists d ch k, 0 <= k /\ LP l d ch k x.
Proof.
  intros Hl H. unfold LS in H. destruct (cur pc <? l) eqn:E1; [exists (P l), [], 0; split; [lia|auto]|]. destruct (l <? cur pc) eqn:E2; [exists (P (l + 1)), [], 0; split; [lia|auto]|]. assert (cur pc = l) by lia. subst l. now apply PI_LP.
Qed.
Lemma Inv_LS x pcs l : Inv (x, pcs) -> 0 <= l < n -> exists pc, get pcs (l mod T) = Some pc /\ LS pc l x.
Proof.
  intros (_ & _ & _ & Lp & H) Hl. destruct (get_in_range pcs (l mod T)) as (pc & E); [rewrite Lp; apply Z.mod_pos_bound; lia|]. exists pc. split; auto. now apply (H _ _ E).
Qed.
Lemma Inv_GL x pcs : Inv (x, pcs) -> GL x.
Proof.
  intros HI v Hv. pose proof (D_nonneg v Hv). pose proof (Hdep v Hv). destruct (Z.eq_dec (D v) 0) as [Z0|Z0].
  - rewrite (D_0 v Hv Z0). destruct HI as (_ & (_ & _ & S1 & _) & _). exists 0. split; auto. left. now rewrite D_s.
  - destruct (Inv_LS x pcs (D v - 1) HI ltac:(lia)) as (pc & _ & HL). destruct (LS_LP pc (D v - 1) x ltac:(lia) HL) as (d & ch & k & _ & _ & _ & _ & Q). rewrite (Q v Hv ltac:(lia)). eexists. split; [reflexivity|]. destruct (not_in (C d ++ ch) v); lia.
Qed.
Lemma Inv_RD x pcs l : Inv (x, pcs) -> 0 <= l < n -> RD l x.
Proof.
  intros HI Hl. destruct (Z.eq_dec l 0) as [->|Nl].
  - destruct HI as (_ & (S1 & S2 & _ & S3) & _). exists (offset + 1). split; auto. rewrite P_0. split; [lia|]. intros p v Ep Dv Hp. pose proof (get_Some_bounds _ _ _ Ep). assert (p = 0) by lia. subst p. rewrite O_first in Ep. injection Ep as <-. auto.
  - destruct (Inv_LS x pcs (l - 1) HI ltac:(lia)) as (pc & _ & HL). destruct (LS_LP pc (l - 1) x ltac:(lia) HL) as (d & ch & k & Hk & B & W & Q & _). replace (l - 1 + 1) with l in * by lia. exists (offset + Zlen (C d) + k). split; auto. split.
    + pose proof (st_P (l - 1) ltac:(lia)) as Sp. replace (l - 1 + 1) with l in Sp by lia. destruct (P_spec (l - 1) ltac:(lia)) as (B1 & _). pose proof (st_le (P (l - 1)) d ltac:(lia)). lia.
    + intros p v Ep Dv Hp. apply Q; auto. lia.
Qed.
Lemma LS_frame l pc l2 x x' : 0 <= l2 < n -> l2 <> l -> frame l x x' -> LS pc l2 x -> LS pc l2 x'.
Proof.
  intros Hl Nl F H. unfold LS in *. destruct (cur pc <? l2) eqn:E1; [eapply LP_frame; eauto|]. destruct (l2 <? cur pc) eqn:E2; [eapply LP_frame; eauto|]. apply (PI_frame l pc x x'); auto; lia.
Qed.
Lemma lens_frame l x x' : frame l x x' -> lens x -> lens x'.
Proof. intros (F1 & F2 & F3 & F4 & _) (L1 & L2 & L3 & L4). unfold lens. repeat split; congruence. Qed.
Lemma source_frame l x x' : 0 <= l -> frame l x x' -> source_in x -> source_in x'.
Proof.
  intros Hl (_ & _ & _ & _ & F1 & F2 & F3 & _) (S1 & S2 & S3 & S4). assert (Ns : ~ (In s O /\ D s = l + 1)) by (rewrite D_s; lia). destruct (F1 s Ns) as (E1 & E2). split; [|split; [congruence|]; split; [congruence|]; rewrite F3 by lia; auto].
  rewrite F2; auto. intros p v Ep Dv Eq. apply pos_inj in Eq. subst p. rewrite O_first in Ep. injection Ep as <-. rewrite D_s in Dv. lia.
Qed.
Lemma outside_frame l x x' : frame l x x' -> outside x -> outside x'.
Proof.
  intros (_ & _ & _ & _ & F1 & F2 & _) (O1 & O2). split.
  - intros p Hp. rewrite F2; auto. intros q v Eq _ ->. apply get_Some_bounds in Eq. rewrite C_len_N in Eq. unfold pos in Hp. lia.
  - intros v Hv. destruct (F1 v ltac:(tauto)) as (E1 & E2). rewrite E1, E2. auto.
Qed.
Definition Mu (st : pl_mem * list pl_pc) : Z := zsum (map mu (snd st)).
Let step := pl_step A T srt n offset maxDegree ps.
(** [t] is waiting for a position that is not there yet. *)
Definition waits (st : pl_mem * list pl_pc) (t : Z) : Prop := exists l r, get (snd st) t = Some (PSpin l r) /\ get (pl_wo (fst st)) l = Some r.
Lemma Inv_step st t : Inv st -> 0 <= t < T -> exists st', step t st = Some st' /\ Inv st' /\ (Mu st' < Mu st \/ (st' = st /\ (get (snd st) t = Some PDone \/ waits st t))).
Proof.
  intros HI Ht. destruct st as [x pcs]. pose proof HI as (Le & So & Ou & Lp & Hp). destruct (get_in_range pcs t ltac:(lia)) as (pc & Et). destruct (Hp t pc Et) as (Hm & Hcur & HL). unfold step, pl_step. rewrite Et.
  destruct Hcur as [->|[(l & -> & Hl)|(Hc & Mt)]].
  - cbn [pl_step1]. destruct (set_ok pcs t PDone ltac:(lia)) as (pcs' & Es). rewrite Es. assert (pcs' = pcs) by (apply (set_same _ _ _ _ Et Es)). subst pcs'. exists (x, pcs). split; [reflexivity|]. split; [exact HI|]. right. split; [reflexivity|]. left. cbn [snd]. first [exact Et|reflexivity].
  - cbn [pl_step1]. replace (l <? n) with false by lia. destruct (set_ok pcs t PDone ltac:(lia)) as (pcs' & Es). rewrite Es. exists (x, pcs'). split; auto. split.
    + split; auto. split; auto. split; auto. split; [rewrite (set_len _ _ _ _ Es); auto|]. intros t' pc' Et'. destruct (Z.eq_dec t' t) as [->|Nt]; [|rewrite (get_set_other _ _ _ _ _ Es) in Et' by auto; auto]. rewrite (get_set_same _ _ _ _ Es) in Et'. injection Et' as <-. split; [cbn [mu]; lia|]. split; auto. intros l' Hl' Ml'. specialize (HL l' Hl' Ml'). unfold LS in *. cbn [cur] in *.
      replace (l <? l') with false in HL by lia. replace (l' <? l) with true in HL by lia. replace (n <? l') with false by lia. replace (l' <? n) with true by lia. auto.
    + left. unfold Mu. cbn [snd]. rewrite (zsum_set' (map mu pcs) t (mu (PLevel l)) (mu PDone) (map mu pcs')); [|rewrite get_map, Et; reflexivity|now apply set_map]. cbn [mu]. replace (l <? n) with false by lia. lia.
  - pose proof (HL (cur pc) ltac:(lia) Mt) as HPI. unfold LS in HPI. rewrite Z.ltb_irrefl in HPI. destruct (step_ok x pc Le Hc (Inv_RD x pcs _ HI Hc) (Inv_GL x pcs HI) HPI) as (x' & pc' & E1 & F & N1 & M1 & M2). rewrite E1. destruct (set_ok pcs t pc' ltac:(lia)) as (pcs' & Es). rewrite Es. exists (x', pcs'). split; auto. split.
    + split; [eapply lens_frame; eauto|]. split; [apply (source_frame (cur pc) x x'); auto; lia|]. split; [eapply outside_frame; eauto|]. split; [rewrite (set_len _ _ _ _ Es); auto|]. intros t' pc2 Et'. destruct (Z.eq_dec t' t) as [->|Nt].
      * rewrite (get_set_same _ _ _ _ Es) in Et'. injection Et' as <-. split; auto. destruct N1 as [(N1 & N2)|(-> & N2)].
        -- split; [right; right; rewrite N1; auto|]. intros l Hl Ml. specialize (HL l Hl Ml). destruct (Z.eq_dec l (cur pc)) as [->|Nl]; [unfold LS; rewrite N1, Z.ltb_irrefl; auto|]. pose proof (LS_frame _ _ _ _ _ Hl Nl F HL) as HL'. unfold LS in *. rewrite N1. destruct (cur pc <? l) eqn:E2; auto. destruct (l <? cur pc) eqn:E3; auto.
        -- assert (Mt' : (cur pc + T) mod T = t) by (rewrite <- Mt, <- (Z.mod_add (cur pc) 1 T) by lia; f_equal; lia). split; [destruct (Z_lt_ge_dec (cur pc + T) n); [right; right; cbn [cur]; split; auto; lia|right; left; eexists; split; [reflexivity|lia]]|].
           intros l Hl Ml. specialize (HL l Hl Ml). unfold LS at 1. cbn [cur]. destruct (Z.eq_dec l (cur pc)) as [->|Nl]; [replace (cur pc + T <? cur pc) with false by lia; replace (cur pc <? cur pc + T) with true by lia; auto|]. pose proof (LS_frame _ _ _ _ _ Hl Nl F HL) as HL'. unfold LS in HL'.
           destruct (Z_lt_ge_dec l (cur pc)) as [Hlt|Hge]; [replace (cur pc <? l) with false in HL' by lia; replace (l <? cur pc) with true in HL' by lia; replace (cur pc + T <? l) with false by lia; replace (l <? cur pc + T) with true by lia; auto|].
           replace (cur pc <? l) with true in HL' by lia. assert (Hge' : cur pc + T <= l). { pose proof (Z.div_mod l T ltac:(lia)). pose proof (Z.div_mod (cur pc) T ltac:(lia)). assert (cur pc / T < l / T) by nia. nia. }
           destruct (cur pc + T <? l) eqn:E2; auto. replace (l <? cur pc + T) with false by lia. cbn [PI]. assert (l = cur pc + T) by lia. subst l. auto.
      * rewrite (get_set_other _ _ _ _ _ Es) in Et' by auto. destruct (Hp t' pc2 Et') as (Q1 & Q2 & Q3). split; auto. split; auto. intros l Hl Ml. apply (LS_frame (cur pc) pc2 l x x'); auto. intros ->. congruence.
    + assert (Em : Mu (x', pcs') = Mu (x, pcs) - mu pc + mu pc'). { unfold Mu. cbn [snd]. apply (zsum_set' (map mu pcs) t); [rewrite get_map, Et; reflexivity|now apply set_map]. } destruct M2 as [M2|(-> & -> & l & r & Ep & Ew)]; [left; lia|]. right. assert (pcs' = pcs) by (apply (set_same _ _ _ _ Et Es)). subst pcs'. split; auto. right. exists l, r. cbn [fst snd]. split; auto. congruence.
Qed.
Lemma Inv_Mu st : Inv st -> 0 <= Mu st.
Proof. destruct st as [x pcs]. intros (_ & _ & _ & _ & H). unfold Mu. apply zsum_nonneg. intros y Hy. cbn [snd] in Hy. apply in_map_iff in Hy as (pc & <- & Hp). apply In_get in Hp as (t & _ & E). now apply (H t). Qed.
Lemma Inv_run sched : forall st, Inv st -> (forall t, In t sched -> 0 <= t < T) -> exists st', foldM step sched st = Some st' /\ Inv st'.
Proof.
  induction sched as [|t sched IH]; intros st HI Ht; [exists st; auto|]. destruct (Inv_step st t HI (Ht t (or_introl eq_refl))) as (st1 & E1 & I1 & _). destruct (IH st1 I1 ltac:(intros; apply Ht; now right)) as (st2 & E2 & I2). exists st2. cbn [foldM]. rewrite E1. auto.
Qed.
(** While not all threads are done, one of them can go on. *)
Lemma Inv_progress st : Inv st -> pl_all_done (snd st) \/ exists t, 0 <= t < T /\ forall st', step t st = Some st' -> Mu st' < Mu st.
Proof.
  intros HI. destruct st as [x pcs]. pose proof HI as (Le & So & Ou & Lp & Hp).
  destruct (min_by cur (fun pc => negb (is_done pc)) pcs) as [Hall|(pc & Hin & Hnd & Hmin)].
  { left. intros pc Hpc. specialize (Hall pc Hpc). destruct pc; try discriminate. reflexivity. }
  right. apply In_get in Hin as (t & Bt & Et). exists t. split; [lia|]. intros st' Es. destruct (Inv_step (x, pcs) t HI ltac:(lia)) as (st1 & E1 & _ & [Hd|(-> & Hw)]); [congruence|]. exfalso. cbn [fst snd] in Hw. destruct Hw as [Hw|(l & r & Hw & Ew)]; [rewrite Et in Hw; injection Hw as ->; discriminate|]. cbn [fst snd] in Hw, Ew. rewrite Et in Hw. injection Hw as ->.
  destruct (Hp t _ Et) as (_ & [Q|[(l1 & Q & _)|(Q & Mt)]] & HL); [discriminate|discriminate|]. cbn [cur] in *. pose proof (HL l Q Mt) as HPI. unfold LS in HPI. cbn [cur PI] in HPI. rewrite Z.ltb_irrefl in HPI. destruct HPI as ((B & _) & _ & Hr).
  destruct (Z.eq_dec l 0) as [->|Nl].
  - destruct So as (_ & _ & _ & S4). rewrite S4 in Ew. injection Ew as <-. pose proof P_1 as P1. change (0 + 1) with 1 in Hr. lia.
  - destruct (Inv_LS x pcs (l - 1) HI ltac:(lia)) as (pc' & Ep & HL'). assert (Hc : l - 1 < cur pc'). { destruct (is_done pc') eqn:Dn; [destruct pc'; try discriminate; cbn [cur]; lia|]. assert (l <= cur pc') by (apply Hmin; [eapply get_In; eauto|now rewrite Dn]). lia. }
    unfold LS in HL'. replace (cur pc' <? l - 1) with false in HL' by lia. replace (l - 1 <? cur pc') with true in HL' by lia. destruct HL' as (_ & W & _). replace (l - 1 + 1) with l in W by lia. rewrite W in Ew. injection Ew as <-. rewrite (st_P l Q) in Hr. lia.
Qed.

(** *** From start to end *)
(** The arrays when the threads start. *)
Definition pl_ready (x : pl_mem) : Prop :=
  lens x /\ source_in x /\ outside x /\ (forall v, In v O -> get (pl_levels x) v = Some (D v)) /\ forall l, 1 <= l <= n -> get (pl_wo x) l = Some (P l + offset).
Lemma Inv_init x : pl_ready x -> Inv (x, map PLevel (zrange 0 T)).
Proof.
  intros (R1 & R2 & R3 & R4 & R5). assert (HLP : forall l, 0 <= l < n -> LP l (P l) [] 0 x).
  { intros l Hl. split; [pose proof (P_next l Hl); lia|]. split; [rewrite R5 by lia; rewrite st_P by auto; f_equal; lia|]. split.
    - intros p v Ep Dv Hp. exfalso. rewrite st_P in Hp by auto. destruct (P_spec (l + 1) ltac:(lia)) as (_ & S). pose proof (S p v Ep). lia.
    - intros v Hv Dv. rewrite (R4 v Hv), Dv. f_equal. rewrite app_nil_r. assert (Nn : not_in (C (P l)) v = true) by (apply not_in_spec; rewrite In_C_level by auto; lia). now rewrite Nn. }
  split; auto. split; auto. split; auto. split; [rewrite Zlen_map, Zlen_zrange by lia; lia|]. intros t pc Et. rewrite get_map in Et. destruct (get (zrange 0 T) t) as [y|] eqn:Ez; [|discriminate]. cbn [option_map] in Et. injection Et as <-. pose proof (get_Some_bounds _ _ _ Ez) as Bt. rewrite Zlen_zrange in Bt by lia. rewrite get_zrange in Ez by lia. injection Ez as Ez. assert (y = t) by lia. subst y.
  split; [cbn [mu]; destruct (t <? n) eqn:En; [|lia]; pose proof (P_next t ltac:(lia)); pose proof (rest_pos t (P t)); lia|]. split.
  - cbn [cur]. destruct (Z_lt_ge_dec t n); [right; right; split; [lia|]; apply Z.mod_small; lia|right; left; exists t; split; [reflexivity|lia]].
  - intros l Hl Ml. unfold LS. cbn [cur]. assert (t <= l) by (rewrite <- Ml; apply Z.mod_le; lia). destruct (t <? l) eqn:E1; auto. replace (l <? t) with false by lia. assert (l = t) by lia. subst l. cbn [PI]. auto.
Qed.
Lemma Inv_done x pcs : Inv (x, pcs) -> pl_all_done pcs -> placed rows offset perm0 inv0 O (pl_perm x, pl_inv x) /\ Zlen (pl_levels x) = m /\ (forall v, In v O -> get (pl_levels x) v = Some (if v =? s then 0 else -1)) /\ forall v, ~ In v O -> get (pl_levels x) v = get levels0 v.
Proof.
  intros HI Hd. pose proof HI as ((L1 & L2 & L3 & L4) & (S1 & S2 & S3 & S4) & (O1 & O2) & Lp & Hp).
  assert (HLP : forall l, 0 <= l < n -> LP l (P (l + 1)) [] 0 x). { intros l Hl. destruct (Inv_LS x pcs l HI Hl) as (pc & Ep & HL). rewrite (Hd pc (get_In _ _ _ Ep)) in HL. unfold LS in HL. cbn [cur] in HL. replace (n <? l) with false in HL by lia. replace (l <? n) with true in HL by lia. auto. }
  assert (Hs0 : forall v, In v O -> v <> s -> 0 <= D v - 1 < n - 1). { intros v Hv Nv. pose proof (D_nonneg v Hv). pose proof (Hdep v Hv). destruct (Z.eq_dec (D v) 0) as [Z0|Z0]; [|lia]. apply D_0 in Z0; auto. contradiction. }
  split; [|split; auto; split; [|intros v Hv; apply O2; auto]].
  - split; auto. split; auto. split; [|split; [intros p Hp'; rewrite C_len_N in Hp'; apply O1; auto|intros v Hv; apply O2; auto]].
    intros k v Ek. destruct (Z.eq_dec v s) as [->|Nv]; [pose proof (NoDup_get_inj _ _ _ _ O_NoDup Ek O_first); subst k; auto|].
    destruct (HLP (D v - 1)) as (B & W & Q & _); [pose proof (Hs0 v (get_In _ _ _ Ek) Nv); lia|]. apply (Q k v Ek ltac:(lia)). replace (D v - 1 + 1) with (D v) in * by lia. pose proof (Hs0 v (get_In _ _ _ Ek) Nv) as Hb. rewrite st_P by lia. destruct (P_spec (D v + 1) ltac:(lia)) as (_ & Sp). pose proof (Sp k v Ek). lia.
  - intros v Hv. destruct (v =? s) eqn:Ev; [assert (v = s) by lia; subst v; auto|]. pose proof (Hs0 v Hv ltac:(lia)) as Hb. destruct (HLP (D v - 1) ltac:(lia)) as (_ & _ & _ & Q). rewrite (Q v Hv ltac:(lia)). replace (D v - 1 + 1) with (D v) by lia. rewrite app_nil_r. unfold not_in. destruct (in_dec Z.eq_dec v (C (P (D v)))) as [|Nn]; auto. exfalso. apply Nn. rewrite In_C_level by lia. split; auto. lia.
Qed.
Lemma pl_run_ok sched x : pl_ready x -> (forall t, In t sched -> 0 <= t < T) -> exists st, pl_run A T srt n offset maxDegree ps sched x = Some st /\ Inv st.
Proof. intros HR0 Hs0. apply Inv_run; auto. now apply Inv_init. Qed.
Lemma pl_fair x (f : nat -> Z) : pl_ready x -> (forall k, 0 <= f k < T) -> (forall t k, 0 <= t < T -> exists j, (k <= j)%nat /\ f j = t) ->
  exists k st, pl_run A T srt n offset maxDegree ps (map f (seq 0 k)) x = Some st /\ pl_all_done (snd st).
Proof.
  intros HR0 Hf Hfair. set (st0 := (x, map PLevel (zrange 0 T))). assert (I0 : Inv st0) by now apply Inv_init.
  destruct (fair_reach step Inv Mu (fun st => pl_all_done (snd st)) T Inv_Mu) with (f := f) (b := Mu st0 + 1) (s := st0) (k0 := 0%nat) as (k & st & E & _ & F); auto; [|apply Inv_progress|lia|].
  - intros st t HI Ht. destruct (Inv_step st t HI Ht) as (st' & E & I' & [M|(-> & _)]); eauto.
  - exists k, st. auto.
Qed.
(** *** write_offset *)
Lemma offsets_ok sch wo : Zlen wo = m + 1 -> exists wo', pl_offsets T n offset ps sch wo = Some wo' /\ Zlen wo' = m + 1 /\ get wo' 0 = Some (offset + 1) /\ forall l, 1 <= l <= n -> get wo' l = Some (P l + offset).
Proof.
  intros L. unfold pl_offsets. set (lst := fun t => map (fun l => (l, P l + offset)) (filter (fun l => l mod T =? t) (zrange 0 (n + 1))) ++ if 0 =? t then [(0, offset + 1)] else []).
  rewrite (mapM_Some _ lst). 2:{ intros t _. unfold pl_stores. rewrite (mapM_Some _ (fun l => (l, P l + offset))); [reflexivity|]. intros l Hl. apply filter_In in Hl as (Hl & _). apply In_zrange in Hl. rewrite P_get by lia. reflexivity. }
  assert (Nt : forall t, 0 <= t < T -> nthl (map lst (zrange 0 T)) t = lst t). { intros t Ht. unfold nthl. rewrite get_map, get_zrange by lia. cbn [option_map]. f_equal; lia. }
  assert (LT : Zlen (map lst (zrange 0 T)) = T) by (rewrite Zlen_map, Zlen_zrange by lia; lia).
  destruct (par_owner_writes sch (map lst (zrange 0 T)) wo (fun i => i mod T)) as (wo' & E & L' & G); rewrite ?LT; [lia| |].
  { intros t p v Ht Hin. rewrite Nt in Hin by auto. unfold lst in Hin. apply in_app_or in Hin as [Hin|Hin].
    - apply in_map_iff in Hin as (l & Q & Hl). injection Q as <- _. apply filter_In in Hl as (Hl & Hm). apply In_zrange in Hl. split; lia.
    - destruct (Z.eqb_spec 0 t) as [<-|]; [|contradiction]. destruct Hin as [Q|[]]. injection Q as <- _. rewrite Z.mod_0_l by lia. split; lia. }
  exists wo'. split; auto. split; [lia|]. split.
  - rewrite (G 0) by (rewrite LT, Z.mod_0_l by lia; lia). rewrite Z.mod_0_l by lia. rewrite Nt by lia. unfold lst. change (0 =? 0) with true. cbv iota. rewrite lastw_snoc. reflexivity.
  - intros l Hl. pose proof (Z.mod_pos_bound l T ltac:(lia)) as Hm. rewrite (G l) by (rewrite LT; lia). rewrite Nt by lia. apply lastw_in.
    + intros v Hin. unfold lst in Hin. apply in_app_or in Hin as [Hin|Hin]; [apply in_map_iff in Hin as (l' & Q & _); injection Q as -> <-; auto|]. destruct (0 =? l mod T); [|contradiction]. destruct Hin as [Q|[]]. injection Q as Q _. lia.
    + unfold lst. apply in_or_app. left. apply in_map_iff. exists l. split; auto. apply filter_In. split; [apply In_zrange; lia|lia].
Qed.
End Proof.

(** ** The placement of one component *)
Section Place.
Context {V : Type}.
Variables (A : csr V) (hasv : bool) (rows : rows_t V).
Let m := Zlen rows.
Hypothesis HR : rep hasv 0 m rows A.
Hypothesis HK : rows_ok m rows.
Let adj := cols_of rows.
Let deg := degree rows.
Hypothesis ND : forall u, NoDup (adj u).
Variable srt : list Z -> list Z.
Hypothesis HS : sorts_by deg srt.
Variables (s n T offset maxDegree : Z) (g ps levels perm inv wo : list Z).
Hypothesis Hs : 0 <= s < m.
Hypothesis Hg : forall v, In v g <-> reach adj s v.
Hypothesis Ng : NoDup g.
Hypothesis HT : 1 <= T.
Hypothesis Ho : 0 <= offset /\ offset + Zlen g <= m.
Hypothesis Hmd : forall u, Zlen (adj u) <= maxDegree.
Hypothesis Hdep : bfs_depth adj s (n - 1).
Hypothesis Hlev : forall v k, dist adj s v k -> get levels v = Some k.
Hypothesis Lps : Zlen ps = n + 1.
Hypothesis Hcnt : counts rows s ps.
Hypothesis Ll : Zlen levels = m.
Hypothesis Lp : Zlen perm = m.
Hypothesis Li : Zlen inv = m.
Hypothesis Lw : Zlen wo = m + 1.

Let D (v : Z) : Z := match get levels v with Some k => k | None => 0 end.
Lemma D_dist v : reach adj s v -> dist adj s v (D v).
Proof. intros R. destruct (reach_dist _ _ _ R) as (k & Dk). unfold D. rewrite (Hlev v k Dk). auto. Qed.
Lemma n_pos : 1 <= n.
Proof. destruct Hdep as ((v & Dv) & _). apply dist_nonneg in Dv. lia. Qed.
(** The order computed here. *)
Let O := cm_at adj srt s (Z.to_nat (Zlen g)).
Lemma OR v : In v O <-> reach adj s v.
Proof. exact (O_reach rows ND srt HS s (Zlen g) g D Hg Ng eq_refl D_dist v). Qed.
Lemma dep_O v : In v O -> D v < n - 1.
Proof. intros Hv. apply OR in Hv. apply D_dist in Hv. apply Hdep in Hv. lia. Qed.
Lemma pl_place_ready sch : n <= m -> exists x, (forall sched, pl_place A T srt n offset maxDegree ps s sch sched levels perm inv wo = pl_run A T srt n offset maxDegree ps sched x) /\
  pl_ready rows srt s (Zlen g) D n ps offset perm inv levels x.
Proof.
  intros Hnm. pose proof n_pos as Hn. pose proof (N_pos rows ND s (Zlen g) g D Hg Ng eq_refl D_dist) as N1.
  assert (Sg : In s g) by (apply Hg; exists 0; constructor).
  destruct (place_ok A hasv rows HR offset perm inv [] (perm, inv) s) as ((p1 & i1) & E4 & P4); auto; try lia; [|change (Zlen (@nil Z)) with 0; fold m; lia|].
  { split; auto. split; auto. split; [intros k v G; apply get_Some_bounds in G; change (Zlen (@nil Z)) with 0 in G; lia|]. split; auto. }
  change (Zlen (@nil Z)) with 0 in E4. rewrite Z.add_0_r in E4. unfold pl_place. rewrite E4.
  destruct (offsets_ok A rows ND srt s (Zlen g) g D Hg D_dist n ps n_pos dep_O Lps T offset maxDegree HT Hnm Hmd sch wo Lw) as (wo' & Ew & Lw' & W0 & W1). rewrite Ew. exists (mkPL levels p1 i1 wo'). split; auto. destruct P4 as (Q1 & Q2 & Q3 & Q4 & Q5). change (Zlen ([] ++ [s])) with 1 in *. destruct (Q3 0 s eq_refl) as (Q3a & Q3b).
  split; [split; auto|]. split; [split; auto; split; auto; split; auto; cbn [pl_levels]; apply Hlev; now apply dist_0|]. split; [split; cbn [pl_inv pl_perm pl_levels]|split].
  - intros p Hp. apply Q4. fold m. lia.
  - intros v Hv. split; auto. apply Q5. intros [<-|[]]. apply Hv. apply OR. exists 0. constructor.
  - intros v Hv. cbn [pl_levels]. apply OR in Hv. destruct (reach_dist _ _ _ Hv) as (k & Dk). rewrite (Hlev v k Dk). unfold D. now rewrite (Hlev v k Dk).
  - intros l Hl. cbn [pl_wo]. auto.
Qed.
Theorem pl_place_ok sch sched : n <= m -> (forall t, In t sched -> 0 <= t < T) ->
  exists x pcs, pl_place A T srt n offset maxDegree ps s sch sched levels perm inv wo = Some (x, pcs) /\
    (pl_all_done pcs -> Zlen (pl_levels x) = m /\ exists o, cm_order adj deg s o /\ placed rows offset perm inv o (pl_perm x, pl_inv x)).
Proof.
  intros Hnm Hsch. destruct (pl_place_ready sch Hnm) as (x0 & E0 & R0).
  destruct (pl_run_ok A hasv rows HR HK ND srt HS s (Zlen g) g D Hs Hg Ng eq_refl D_dist n ps n_pos dep_O Lps Hcnt T offset maxDegree perm inv HT Ho Hnm Hmd levels sched x0 R0 Hsch) as ((x & pcs) & E & HI).
  exists x, pcs. rewrite E0. split; auto. intros Hd. destruct (Inv_done A rows ND srt HS s (Zlen g) g D Hg Ng eq_refl D_dist n ps dep_O Lps Hcnt T offset maxDegree perm inv HT Hmd levels x pcs HI Hd) as (P1 & P2 & _). split; auto. exists O. split; auto.
  exact (O_order rows ND srt HS s (Zlen g) g D Hg Ng eq_refl D_dist).
Qed.
Theorem pl_place_fair sch (f : nat -> Z) : n <= m -> (forall k, 0 <= f k < T) -> (forall t k, 0 <= t < T -> exists j, (k <= j)%nat /\ f j = t) ->
  exists k x pcs, pl_place A T srt n offset maxDegree ps s sch (map f (seq 0 k)) levels perm inv wo = Some (x, pcs) /\ pl_all_done pcs.
Proof.
  intros Hnm Hf Hfair. destruct (pl_place_ready sch Hnm) as (x0 & E0 & R0).
  destruct (pl_fair A hasv rows HR HK ND srt HS s (Zlen g) g D Hs Hg Ng eq_refl D_dist n ps n_pos dep_O Lps Hcnt T offset maxDegree perm inv HT Ho Hnm Hmd levels x0 f R0 Hf Hfair) as (k & (x & pcs) & E & F).
  exists k, x, pcs. rewrite E0. auto.
Qed.
(** With more levels than nodes write_offset is too short. *)
Theorem pl_place_overrun sch sched : m < n -> pl_place A T srt n offset maxDegree ps s sch sched levels perm inv wo = None.
Proof.
  intros Hnm. unfold pl_place. destruct (rcm_place A offset s (perm, inv)) as [[p1 i1]|]; auto. enough (E : pl_offsets T n offset ps sch wo = None) by now rewrite E.
  unfold pl_offsets. destruct (mapM (pl_stores T n offset ps) (zrange 0 T)) as [ts|] eqn:Em; auto. pose proof (Z.mod_pos_bound n T ltac:(lia)) as Bt.
  assert (Gt : get (zrange 0 T) (n mod T) = Some (n mod T)) by (rewrite get_zrange by lia; f_equal; lia). pose proof (mapM_get _ _ _ _ _ Em Gt) as Ge. unfold pl_stores in Ge.
  destruct (get_in_range ts (n mod T)) as (l & El). { pose proof (mapM_length _ _ _ Em) as Ml. unfold Zlen. rewrite Ml. fold (Zlen (zrange 0 T)). rewrite Zlen_zrange by lia. lia. } rewrite El in Ge.
  destruct (mapM (fun l => p <- get ps l ;; Some (l, p + offset)) (filter (fun l => l mod T =? n mod T) (zrange 0 (n + 1)))) as [ls|] eqn:Es; [|discriminate]. injection Ge as Ge.
  assert (Hn : In n (filter (fun l => l mod T =? n mod T) (zrange 0 (n + 1)))) by (apply filter_In; split; [apply In_zrange; pose proof n_pos; lia|lia]).
  apply In_get in Hn as (k & Bk & Gk). pose proof (mapM_get _ _ _ _ _ Es Gk) as Gv. destruct (get_in_range ps n ltac:(pose proof n_pos; lia)) as (pn & Ep). cbv beta in Gv. rewrite Ep in Gv.
  unfold par. apply (writes_out _ wo n (pn + offset)); [|lia]. apply In_merge. exists l. split; [eapply get_In; eauto|]. rewrite Ge. apply in_or_app. left. eapply get_In; eauto.
Qed.
End Place.

(** ** A worked case *)
(** A component of six nodes in a matrix with eight rows, two threads. *)
Definition pl_case : rows_t Z := map (map (fun c => (c, c))) [[1; 2; 3]; [0; 4]; [0; 4; 6]; [0]; [1; 2]; [5]; [2]; []].
Definition pl_case_run (sched : list Z) : option (pl_mem * list pl_pc) :=
  pl_place (csr_of 0 8 pl_case) 2 (dsort (degree pl_case)) 4 1 3 [0; 1; 4; 6; 6] 0 [1]%nat sched [0; 1; 1; 1; 2; 9; 2; 9] (repeat 7 8) (repeat 7 8) (repeat 7 9).
Definition pl_case_sched : list Z := concat (repeat [1; 0; 1; 1; 0; 0; 0; 1] 20).
Lemma pl_case_result : pl_case_run pl_case_sched = Some (mkPL [0; -1; -1; -1; -1; 9; -1; 9] [6; 4; 3; 5; 2; 7; 1; 7] [7; 6; 4; 2; 1; 3; 0; 7] [2; 5; 7; 7; 7; 7; 7; 7; 7], [PDone; PDone]).
Proof. vm_compute. reflexivity. Qed.
Lemma pl_case_hyps : rep true 0 (Zlen pl_case) pl_case (csr_of 0 8 pl_case) /\ rows_ok (Zlen pl_case) pl_case /\ (forall u, NoDup (cols_of pl_case u)) /\ sorts_by (degree pl_case) (dsort (degree pl_case)) /\
  NoDup [0; 1; 2; 3; 4; 6] /\ (forall v, In v [0; 1; 2; 3; 4; 6] <-> reach (cols_of pl_case) 0 v) /\ (forall u, Zlen (cols_of pl_case u) <= 3) /\
  bfs_depth (cols_of pl_case) 0 (4 - 1) /\ (forall v k, dist (cols_of pl_case) 0 v k -> get [0; 1; 1; 1; 2; 9; 2; 9] v = Some k) /\ counts pl_case 0 [0; 1; 4; 6; 6].
Proof.
  assert (HK : rows_ok (Zlen pl_case) pl_case). { intros r c v Hr Hc. change (Zlen pl_case) with 8. cbn in Hr. repeat (destruct Hr as [<-|Hr]; [cbn in Hc; repeat (destruct Hc as [Hc|Hc]; [injection Hc as <- <-; lia|]); contradiction|]). contradiction. }
  assert (HR : rep true 0 (Zlen pl_case) pl_case (csr_of 0 8 pl_case)) by apply csr_of_rep.
  assert (Hrow : forall u, NoDup (cols_of pl_case u) /\ Zlen (cols_of pl_case u) <= 3).
  { intros u. unfold cols_of, nthl. destruct (get pl_case u) as [r|] eqn:E; [|split; [constructor|cbn; lia]]. apply get_In in E. cbn in E. repeat (destruct E as [<-|E]; [split; [cbn; repeat constructor; cbn; lia|cbn; lia]|]). contradiction. }
  destruct (bfs_serial_ok (csr_of 0 8 pl_case) true 0 pl_case HR HK 0 (repeat (-1) 8)) as (n & levels & vis & E & Hd & Hl & Hv); [change (Zlen pl_case) with 8; lia|reflexivity|intros v Hv|].
  { pose proof (reach_range pl_case HK 0 v ltac:(change (Zlen pl_case) with 8; lia) Hv) as B. change (Zlen pl_case) with 8 in B. destruct (get_in_range (repeat (-1) 8) v B) as (y & Ey). rewrite Ey. apply get_In, repeat_spec in Ey. now subst y. }
  assert (E' : bfs_serial (csr_of 0 8 pl_case) 0 0 (repeat (-1) 8) = Some (4, [0; 1; 1; 1; 2; -1; 2; -1], [0; 1; 2; 3; 4; 6])) by (vm_compute; reflexivity).
  rewrite E' in E. injection E as En <- <-. replace n with 3 in Hd by lia. destruct Hv as (V1 & V2 & _). destruct Hl as (_ & L2 & _).
  assert (HL : forall v k, dist (cols_of pl_case) 0 v k -> get [0; 1; 1; 1; 2; 9; 2; 9] v = Some k).
  { intros v k Dk. pose proof (L2 v k Dk) as G. pose proof (dist_nonneg _ _ _ _ Dk). pose proof (get_In _ _ _ G) as Gi. pose proof (get_Some_bounds _ _ _ G) as B. change (Zlen [0; 1; 1; 1; 2; -1; 2; -1]) with 8 in B.
    destruct (Z.eq_dec v 5) as [->|]; [injection G as <-; lia|]. destruct (Z.eq_dec v 7) as [->|]; [injection G as <-; lia|]. assert (Hv : In v [0; 1; 2; 3; 4; 6]) by (apply V2; eapply dist_reach; eauto). cbn in Hv. repeat (destruct Hv as [<-|Hv]; [exact G|]). contradiction. }
  split; auto. split; auto. split; [apply Hrow|]. split; [apply dsort_sorts|]. split; auto. split; auto. split; [apply Hrow|]. split; auto. split; auto.
  destruct (prefix_ok (csr_of 0 8 pl_case) true pl_case HR 0 [0; 1; 2; 3; 4; 6] V2 V1 ltac:(reflexivity) 1 0 [0; 1; 1; 1; 2; 9; 2; 9] 3 Hd eq_refl HL) as (ps & E2 & _ & C); [lia|left; unfold PAR_THR; cbn; lia|].
  assert (E3 : rcm_prefix (csr_of 0 8 pl_case) 1 0 [0; 1; 1; 1; 2; 9; 2; 9] (3 + 1) [0; 1; 2; 3; 4; 6] = Some [0; 1; 4; 6; 6]) by (vm_compute; reflexivity).
  rewrite E3 in E2. injection E2 as <-. exact C.
Qed.

(** ** A path has as many levels as nodes, so numLevels is one more *)
Lemma path_depth_is m : 3 <= m -> bfs_depth (cols_of (path_rows m)) 0 m.
Proof.
  intros Hm. split; [exists (m - 1); apply path_dist; lia|]. intros v k D. pose proof (dist_reach _ _ _ _ D) as R. apply path_reach in R; [|lia]. rewrite (dist_unique _ _ _ _ _ D (path_dist m ltac:(lia) v R)). lia.
Qed.
Theorem pl_path_overrun m (A : csr Z) T srt offset ps sch sched perm inv wo : 3 <= m -> 1 <= T -> rep true 0 m (path_rows m) A -> Zlen ps = m + 2 -> Zlen wo = m + 1 ->
  pl_place A T srt (m + 1) offset 2 ps 0 sch sched (zrange 0 m) perm inv wo = None.
Proof.
  intros Hm HT HR Lp Lw. assert (PL : Zlen (path_rows m) = m) by (apply path_len; lia).
  apply (pl_place_overrun A (path_rows m) (path_NoDup m ltac:(lia)) srt 0 (m + 1) T offset 2 (zrange 0 m)); auto; try lia.
  - intros v. rewrite In_zrange, path_reach by lia. lia.
  - intros u. unfold cols_of. destruct (Z_lt_ge_dec u 0) as [Hu|Hu]; [unfold nthl; rewrite get_out by lia; cbn; lia|]. destruct (Z_lt_ge_dec u m) as [Hv|Hv]; [|unfold nthl; rewrite get_out by lia; cbn; lia].
    rewrite path_nth by lia. unfold path_row. destruct (0 <? u), (u + 1 <? m); cbn; lia.
  - replace (m + 1 - 1) with m by lia. apply path_depth_is; lia.
  - intros v k D. pose proof (dist_reach _ _ _ _ D) as R. apply path_reach in R; [|lia]. rewrite (dist_unique _ _ _ _ _ D (path_dist m ltac:(lia) v R)). rewrite get_zrange by lia. f_equal; lia.
Qed.
Lemma pl_path_refuted m (A : csr Z) T srt offset ps sch sched perm inv wo : 3 <= m -> 1 <= T -> rep true 0 m (path_rows m) A -> Zlen ps = m + 2 -> Zlen wo = m + 1 ->
  bfs_depth (cols_of (path_rows m)) 0 m /\ pl_place A T srt (m + 1) offset 2 ps 0 sch sched (zrange 0 m) perm inv wo = None.
Proof. intros. split; [now apply path_depth_is|now apply pl_path_overrun]. Qed.
