(** * Execution of row kernels over a schedule with point-to-point synchronisation.

    test/gs_test.cpp:189-281, 343-482, test/trsv_test.cpp:191-283 and
    test/pcg.cpp:45-133, 172-235 share one skeleton: the completion flags are
    cleared by all threads, a barrier, then each thread runs its tasks in order
    (forward) or in reverse order (backward), waiting before and notifying after
    each task (LevelSchedule.hpp:54-59, 109-111). *)
From Coq Require Import Relations.
From Verif Require Import Base Interleave Spec Partition Flat Csr P2P P2PProg Phased.

(** The fields of LevelSchedule that the executors read (LevelSchedule.hpp:157-166). *)
Record schedule := mkSched {
  ntasks : Z; taskBoundaries : list Z; threadBoundaries : list Z;
  nparentsForward : list Z; nparentsBackward : list Z;
  parentsForward : list (list Z); parentsBackward : list (list Z) }.
Definition nparents (fwd : bool) (S : schedule) := if fwd then nparentsForward S else nparentsBackward S.
Definition parents (fwd : bool) (S : schedule) := if fwd then parentsForward S else parentsBackward S.

(** ** Model *)
(** [for (i = b; i < e; ++i)] or [for (i = e - 1; i >= b; --i)]. *)
Definition dirZ (fwd : bool) (b e : Z) : list Z := if fwd then zrange b e else rev (zrange b e).

(** LevelSchedule.hpp:54-59: the parents waited for before a task. *)
Definition waits (fwd : bool) (S : schedule) (q : Z) : option (list Z) :=
  n <- get (nparents fwd S) q ;; c <- get (parents fwd S) q ;; mapM (get c) (zrange 0 n).
(** gs_test.cpp:220-221, 269-270: the rows of a task; [rowof i] is [perm[i]] or,
    with a reordered matrix (gs_test.cpp:377, 424), [i] itself. *)
Definition task_rows (fwd : bool) (S : schedule) (rowof : Z -> option Z) (q : Z) : option (list Z) :=
  b <- get (taskBoundaries S) q ;; e <- get (taskBoundaries S) (q + 1) ;; mapM rowof (dirZ fwd b e).
(** gs_test.cpp:218-229, 267-278: wait, rows, notify. *)
Definition task_code (fwd : bool) (S : schedule) (rowof : Z -> option Z) (nops : Z -> Z) (q : Z) : option (list instr) :=
  ws <- waits fwd S q ;; rs <- task_rows fwd S rowof q ;;
  Some (map IWait ws ++ concat (map (rowblk nops) rs) ++ [IDone q]).
Definition thread_code (fwd : bool) (S : schedule) (rowof : Z -> option Z) (nops : Z -> Z) (t : Z) : option (list instr) :=
  b <- get (threadBoundaries S) t ;; e <- get (threadBoundaries S) (t + 1) ;;
  cs <- mapM (task_code fwd S rowof nops) (dirZ fwd b e) ;; Some (concat cs).
Definition all_code (fwd : bool) (S : schedule) (rowof : Z -> option Z) (nops : Z -> Z) (T : Z) : option (list (list instr)) :=
  mapM (thread_code fwd S rowof nops) (zrange 0 T).
(** gs_test.cpp:206-213: the flags cleared by thread [t]. *)
Definition reset_part (NT T t : Z) : list Z :=
  let per := (NT + T - 1) / T in let b := Z.min (per * t) NT in zrange b (Z.min (b + per) NT).
Definition reset_flags (rsch : list nat) (NT T : Z) (flags : list Z) : option (list Z) :=
  par rsch (fun q f => set f q 0) (map (reset_part NT T) (zrange 0 T)) flags.

Section Run.
Context {V L O : Type}.
Variables (exec : O -> L -> list V -> option (L * list V)) (l0 : L) (ops : Z -> list O).
(** The barrier separates the clearing of the flags from the tasks; [sched]
    interleaves single steps of the threads. *)
Definition p2p_run (fwd : bool) (S : schedule) (rowof : Z -> option Z) (T : Z) (rsch : list nat) (sched : list Z)
    (flags : list Z) (locs : list L) (y : list V) : option (list (list instr) * mstate (V := V) (L := L)) :=
  code <- all_code fwd S rowof (fun r => Zlen (ops r)) T ;;
  f <- reset_flags rsch (ntasks S) T flags ;;
  s <- mrun exec l0 ops code sched (mkM (map (fun _ => 0) (zrange 0 T)) f locs y) ;;
  Some (code, s).

(** With a barrier after every task (gs_test.cpp:138-149, 171-181): in phase [k]
    thread [t] runs its k-th task.  Threads with different numbers of tasks would
    wait for each other forever. *)
Definition bar_task (fwd : bool) (S : schedule) (t k : Z) : option Z :=
  b <- get (threadBoundaries S) t ;; e <- get (threadBoundaries S) (t + 1) ;; Some (if fwd then b + k else e - 1 - k).
Definition bar_rows (fwd : bool) (S : schedule) (rowof : Z -> option Z) (T k : Z) : option (list (list Z)) :=
  mapM (fun t => q <- bar_task fwd S t k ;; task_rows fwd S rowof q) (zrange 0 T).
Definition nlevels (S : schedule) (T : Z) : option Z :=
  b0 <- get (threadBoundaries S) 0 ;; e0 <- get (threadBoundaries S) 1 ;;
  _ <- mapM (fun t => b <- get (threadBoundaries S) t ;; e <- get (threadBoundaries S) (t + 1) ;;
              if e - b =? e0 - b0 then Some tt else None) (zrange 0 T) ;;
  Some (e0 - b0).
Definition barrier_run (fwd : bool) (S : schedule) (rowof : Z -> option Z) (T : Z) (sch : Z -> list nat)
    (locs : list L) (y : list V) : option (list L * list V) :=
  K <- nlevels S T ;;
  foldM (fun k s => rs <- bar_rows fwd S rowof T k ;; phase exec l0 ops (sch k) rs s) (zrange 0 K) (locs, y).
End Run.

(** ** Specification of schedules *)
(** Task ranges tile the row positions, thread ranges tile the tasks, positions
    map one to one to rows, wait lists name tasks. *)
Definition bounds (n k : Z) (b : list Z) : Prop :=
  Zlen b = n + 1 /\ get b 0 = Some 0 /\ get b n = Some k /\ monotone b.
Definition waits_for (fwd : bool) (S : schedule) (q p : Z) : Prop :=
  0 <= q < ntasks S /\ exists n c k, get (nparents fwd S) q = Some n /\ get (parents fwd S) q = Some c /\ 0 <= k < n /\ get c k = Some p.
Definition same_thread (S : schedule) (q q' : Z) : Prop :=
  exists t b e, get (threadBoundaries S) t = Some b /\ get (threadBoundaries S) (t + 1) = Some e /\ b <= q < e /\ b <= q' < e.
Definition in_task (S : schedule) (i q : Z) : Prop :=
  exists b e, get (taskBoundaries S) q = Some b /\ get (taskBoundaries S) (q + 1) = Some e /\ b <= i < e.
Definition lt_dir (fwd : bool) (a b : Z) : Prop := if fwd then a < b else b < a.
(** Happens-before of tasks. *)
Definition task_before1 (fwd : bool) (S : schedule) (q q' : Z) : Prop :=
  waits_for fwd S q' q \/ (same_thread S q q' /\ lt_dir fwd q q').
Definition task_before (fwd : bool) (S : schedule) := clos_trans Z (task_before1 fwd S).
(** Happens-before of row positions. *)
Definition pos_before (fwd : bool) (S : schedule) (i i' : Z) : Prop :=
  exists q q', in_task S i q /\ in_task S i' q' /\ (task_before fwd S q q' \/ (q = q' /\ lt_dir fwd i i')).

(** The phase of a task between barriers. *)
Definition task_phase (fwd : bool) (S : schedule) (q k : Z) : Prop :=
  exists t b e, get (threadBoundaries S) t = Some b /\ get (threadBoundaries S) (t + 1) = Some e /\ b <= q < e /\ k = if fwd then q - b else e - 1 - q.
Definition pos_phase_before (fwd : bool) (S : schedule) (i i' : Z) : Prop :=
  exists q q' k k', in_task S i q /\ in_task S i' q' /\ task_phase fwd S q k /\ task_phase fwd S q' k' /\ (k < k' \/ (q = q' /\ lt_dir fwd i i')).

Record sched_ok (T m : Z) (S : schedule) (rowof : Z -> option Z) : Prop := {
  so_T : 1 <= T;
  so_tasks : bounds (ntasks S) m (taskBoundaries S);
  so_threads : bounds T (ntasks S) (threadBoundaries S);
  so_rows : forall i, 0 <= i < m -> exists r, rowof i = Some r /\ 0 <= r < m;
  so_inj : forall i i' r, 0 <= i < m -> 0 <= i' < m -> rowof i = Some r -> rowof i' = Some r -> i = i';
  so_surj : forall r, 0 <= r < m -> exists i, 0 <= i < m /\ rowof i = Some r }.
Definition waits_ok (fwd : bool) (S : schedule) : Prop :=
  forall q, 0 <= q < ntasks S -> exists n c, get (nparents fwd S) q = Some n /\ get (parents fwd S) q = Some c /\ 0 <= n <= Zlen c /\
    forall k p, 0 <= k < n -> get c k = Some p -> 0 <= p < ntasks S.
(** The waits never point against a ranking that grows along every thread. *)
Definition waits_ranked (fwd : bool) (S : schedule) : Prop :=
  exists rank : Z -> Z, forall q q', 0 <= q < ntasks S -> 0 <= q' < ntasks S -> task_before1 fwd S q q' -> 0 <= rank q < rank q'.

(** ** Proofs *)
Definition zget (l : list Z) (i : Z) : Z := match get l i with Some x => x | None => 0 end.
Definition lget {A} (l : list (list A)) (i : Z) : list A := match get l i with Some x => x | None => [] end.
Lemma zget_ok l i : 0 <= i < Zlen l -> get l i = Some (zget l i).
Proof. intros H. destruct (get_in_range l i H) as (x & E). unfold zget. now rewrite E. Qed.

(** Renaming of rows. *)
Definition ren (f : Z -> Z) (c : instr) : instr :=
  match c with IWait p => IWait p | IBegin i => IBegin (f i) | IOp i k => IOp (f i) k | IDone q => IDone q end.
Section Rename.
Context {V L O : Type}.
Variables (exec : O -> L -> list V -> option (L * list V)) (l0 : L) (ops ops' : Z -> list O) (progs : list (list instr)) (f : Z -> Z).
Hypothesis Hops : forall t p n i k, get progs t = Some p -> get p n = Some (IOp i k) -> ops' (f i) = ops i.
Lemma ren_step t s : mstep exec l0 ops' (map (map (ren f)) progs) t s = mstep exec l0 ops progs t s.
Proof.
  unfold mstep. destruct (get (pcs s) t) as [n|]; auto. rewrite get_map. destruct (get progs t) as [p|] eqn:Ep; auto. cbn [option_map]. rewrite get_map.
  destruct (get p n) as [c|] eqn:Ec; auto. cbn [option_map]. destruct (set (pcs s) t (n + 1)) as [pc'|]; auto. destruct c as [q|i|i k|q]; cbn [ren]; auto.
  rewrite (Hops _ _ _ _ _ Ep Ec). reflexivity.
Qed.
Lemma ren_run sched s : mrun exec l0 ops' (map (map (ren f)) progs) sched s = mrun exec l0 ops progs sched s.
Proof. unfold mrun. revert s. induction sched as [|t sched IH]; intros s; cbn [foldM]; auto. rewrite ren_step. destruct (mstep exec l0 ops progs t s); auto. Qed.
Lemma ren_finished (s : mstate (V := V) (L := L)) : finished (map (map (ren f)) progs) s <-> finished progs s.
Proof.
  unfold finished. split; intros H t p Hp.
  - specialize (H t (map (ren f) p)). rewrite get_map, Hp in H. rewrite H by reflexivity. now rewrite Zlen_map.
  - rewrite get_map in Hp. destruct (get progs t) as [p'|] eqn:E; [|discriminate]. cbn [option_map] in Hp. injection Hp as <-. rewrite Zlen_map. auto.
Qed.
End Rename.
Lemma ren_programs f thr par rows nops nops' : (forall q i, In q (concat thr) -> In i (rows q) -> nops' (f i) = nops i) ->
  map (map (ren f)) (programs thr par rows nops) = programs thr par (fun q => map f (rows q)) nops'.
Proof.
  intros H. unfold programs. rewrite map_map. apply map_ext_in. intros ts Hts. rewrite concat_map, map_map. f_equal. apply map_ext_in. intros q Hq. unfold block.
  rewrite !map_app, concat_map, !map_map. f_equal. f_equal. f_equal. apply map_ext_in. intros i Hi. unfold rowblk. cbn [map ren]. rewrite map_map, (H q i); auto. apply in_concat. eauto.
Qed.

Lemma In_dirZ fwd b e x : In x (dirZ fwd b e) <-> b <= x < e.
Proof. destruct fwd; cbn [dirZ]; rewrite <- ?in_rev; apply In_zrange. Qed.
Lemma dirZ_perm fwd b e : Permutation (dirZ fwd b e) (zrange b e).
Proof. destruct fwd; cbn [dirZ]; auto. apply Permutation_sym, Permutation_rev. Qed.
Lemma NoDup_dirZ fwd b e : NoDup (dirZ fwd b e).
Proof. eapply Permutation_NoDup; [apply Permutation_sym, dirZ_perm|apply NoDup_zrange]. Qed.
Lemma zrange_mid b e x : b <= x < e -> zrange b e = zrange b x ++ x :: zrange (x + 1) e.
Proof. intros H. rewrite (zrange_app b x e) by lia. f_equal. apply zrange_cons. lia. Qed.
Lemma dirZ_split fwd b e x y : b <= x < e -> b <= y < e -> lt_dir fwd x y -> exists pre mid post, dirZ fwd b e = pre ++ x :: mid ++ y :: post.
Proof.
  intros Hx Hy H. destruct fwd; cbn [dirZ lt_dir] in *.
  - exists (zrange b x), (zrange (x + 1) y), (zrange (y + 1) e). rewrite (zrange_mid b e x), (zrange_mid (x + 1) e y) by lia. reflexivity.
  - exists (rev (zrange (x + 1) e)), (rev (zrange (y + 1) x)), (rev (zrange b y)).
    rewrite (zrange_mid b e y), (zrange_mid (y + 1) e x) by lia. rewrite rev_app_distr. cbn [rev]. rewrite rev_app_distr. cbn [rev]. rewrite <- !app_assoc. reflexivity.
Qed.
Lemma foldM_map {A B St} (f : B -> St -> option St) (g : A -> B) l s : foldM f (map g l) s = foldM (fun a => f (g a)) l s.
Proof. revert s. induction l as [|a l IH]; intros s; cbn [map foldM]; auto. destruct (f (g a) s); auto. Qed.

Lemma foldM_ext_in {A St} (f g : A -> St -> option St) l s : (forall a s, In a l -> f a s = g a s) -> foldM f l s = foldM g l s.
Proof. revert s. induction l as [|a l IH]; intros s H; cbn [foldM]; auto. rewrite H by (cbn; auto). destruct (g a s); auto. apply IH. intros; apply H; cbn; auto. Qed.
Lemma upd_map {A B} (f : A -> B) l n x : upd (map f l) n (f x) = map f (upd l n x).
Proof. revert n. induction l as [|a l IH]; intros [|n]; cbn [map upd]; auto. now rewrite IH. Qed.
Lemma merge_map {A B} (f : A -> B) sch ts : merge sch (map (map f) ts) = map f (merge sch ts).
Proof.
  revert ts. induction sch as [|t sch IH]; intros ts; cbn [merge]. { now rewrite concat_map. }
  rewrite nth_error_map. destruct (nth_error ts t) as [[|a l]|]; cbn [option_map map]; auto. rewrite upd_map. now rewrite IH.
Qed.
Lemma par_map_ext {A B St} (f : A -> B) (F : B -> St -> option St) (G : A -> St -> option St) sch ts s :
  (forall t a s, In t ts -> In a t -> F (f a) s = G a s) -> par sch F (map (map f) ts) s = par sch G ts s.
Proof.
  intros H. unfold par. rewrite merge_map, foldM_map. apply foldM_ext_in. intros a s' Ha. apply In_merge in Ha as (t & Ht & Ha). eauto.
Qed.
Section PhaseRename.
Context {V L O : Type}.
Variables (exec : O -> L -> list V -> option (L * list V)) (l0 : L) (ops ops' : Z -> list O) (f : Z -> Z).
Lemma phase_ren sch rowss (s : list L * list V) : (forall rs r, In rs rowss -> In r rs -> ops' (f r) = ops r) ->
  phase exec l0 ops' sch (map (map f) rowss) s = phase exec l0 ops sch rowss s.
Proof.
  intros H. unfold phase.
  assert (E : phase_threads ops' (map (map f) rowss) = map (map (fun a => (fst a, ren f (snd a)))) (phase_threads ops rowss)).
  { unfold phase_threads. rewrite Zlen_map, map_map. apply map_ext_in. intros t Ht. apply In_zrange in Ht. rewrite map_map. cbn [fst snd].
    transitivity (map (pair t) (map (ren f) (rowcode ops (nthl rowss t)))); [|now rewrite map_map]. f_equal.
    unfold nthl. rewrite get_map. destruct (get rowss t) as [rs|] eqn:Er; cbn [option_map]; [|reflexivity]. apply get_In in Er.
    unfold rowcode. rewrite concat_map, !map_map. f_equal. apply map_ext_in. intros r Hr. unfold rowblk. cbn [map ren]. rewrite map_map, (H rs r); auto. }
  rewrite E. apply par_map_ext. intros ts (t, c) s' Hts Ha. cbn [fst snd]. destruct s' as (locs & mem). unfold pstep. destruct c as [q|i|i k|q]; cbn [ren]; auto.
  unfold phase_threads in Hts. apply in_map_iff in Hts as (t' & <- & Ht'). apply in_map_iff in Ha as (c & E2 & Hc). injection E2 as -> ->.
  unfold rowcode in Hc. apply in_concat in Hc as (blk & H1 & H2). apply in_map_iff in H1 as (r & <- & Hr). destruct H2 as [H2|H2]; [discriminate|].
  apply in_map_iff in H2 as (j & H3 & _). injection H3 as -> ->. unfold nthl in Hr. destruct (get rowss t) as [rs|] eqn:Er; [|contradiction].
  rewrite (H rs i); auto. eapply get_In; eauto.
Qed.
End PhaseRename.
Lemma NoDup_map_in {A B} (f : A -> B) l : (forall x y, In x l -> In y l -> f x = f y -> x = y) -> NoDup l -> NoDup (map f l).
Proof.
  induction l as [|a l IH]; intros H N; cbn [map]; constructor; inversion N as [|? ? N1 N2]; subst.
  - intros I. apply in_map_iff in I as (b & E & I). apply H in E; cbn; auto. subst b. contradiction.
  - apply IH; auto. intros x y Hx Hy. apply H; cbn; auto.
Qed.
(** Searching a range. *)
Definition zfind (P : Z -> bool) (n : Z) : Z := match find P (zrange 0 n) with Some x => x | None => 0 end.
Lemma zfind_ok P n x : 0 <= x < n -> P x = true -> 0 <= zfind P n < n /\ P (zfind P n) = true.
Proof.
  intros Hx HP. unfold zfind. destruct (find P (zrange 0 n)) as [y|] eqn:E.
  - apply find_some in E as (A & B). apply In_zrange in A. auto.
  - exfalso. rewrite (find_none _ _ E x) in HP; [discriminate|]. now apply In_zrange.
Qed.
(** Locating a position between boundaries. *)
Lemma bounds_range n k b i : bounds n k b -> 0 <= n -> 0 <= i <= n -> get b i = Some (zget b i) /\ 0 <= zget b i <= k.
Proof.
  intros (A & B & C & D) Hn Hi. assert (E : get b i = Some (zget b i)) by (apply zget_ok; lia). split; auto. split.
  - eapply (D 0 i); eauto. lia. - eapply (D i n); eauto. lia.
Qed.
Lemma bounds_mono n k b i j : bounds n k b -> 0 <= i <= j -> j <= n -> zget b i <= zget b j.
Proof. intros (A & B & C & D) Hi Hj. eapply (D i j); try lia; apply zget_ok; lia. Qed.
Lemma bounds_ends n k b : bounds n k b -> zget b 0 = 0 /\ zget b n = k.
Proof. intros (A & B & C & D). unfold zget. now rewrite B, C. Qed.
Lemma bounds_locate n k b x : bounds n k b -> 0 <= n -> 0 <= x < k -> exists q, 0 <= q < n /\ zget b q <= x < zget b (q + 1).
Proof.
  intros Hb Hn Hx. destruct (bounds_ends _ _ _ Hb) as (E0 & En).
  assert (G : forall j, 0 <= j -> j <= n -> x < zget b j -> exists q, 0 <= q < n /\ zget b q <= x < zget b (q + 1)).
  { intros j Hj. pattern j. revert j Hj. apply Z_ind0. - intros _ H. lia.
    - intros j Hj IH Hjn H. destruct (Z_lt_ge_dec x (zget b j)). + apply IH; lia. + exists j. lia. }
  apply (G n); lia.
Qed.
Lemma bounds_unique n k b x q q' : bounds n k b -> 0 <= q < n -> 0 <= q' < n -> zget b q <= x < zget b (q + 1) -> zget b q' <= x < zget b (q' + 1) -> q = q'.
Proof.
  intros Hb Hq Hq' A B. destruct (Z.lt_trichotomy q q') as [X|[X|X]]; auto.
  - pose proof (bounds_mono _ _ _ (q + 1) q' Hb). lia.
  - pose proof (bounds_mono _ _ _ (q' + 1) q Hb). lia.
Qed.

Lemma reset_flags_ok rsch NT T flags : 1 <= T -> 0 <= NT -> Zlen flags = NT ->
  exists f, reset_flags rsch NT T flags = Some f /\ Zlen f = NT /\ forall q, 0 <= q < NT -> get f q = Some 0.
Proof.
  intros HT HN Hf. unfold reset_flags, par.
  assert (EC : concat (map (reset_part NT T) (zrange 0 T)) = zrange 0 NT).
  { transitivity (concat (map (fun t => zrange (simple_boundary NT T t) (simple_boundary NT T (t + 1))) (zrange 0 T))).
    - f_equal. apply map_ext_in. intros t Ht. apply In_zrange in Ht. unfold reset_part, simple_boundary. f_equal.
      assert (0 <= (NT + T - 1) / T) by (apply Z.div_pos; lia). destruct (Z_le_gt_dec ((NT + T - 1) / T * t) NT); [|].
      + rewrite (Z.min_l ((NT + T - 1) / T * t)) by lia. f_equal. lia.
      + rewrite (Z.min_r ((NT + T - 1) / T * t)) by lia. rewrite !Z.min_r; nia.
    - rewrite (concat_zrange_tiling (simple_boundary NT T)); [|lia|intros t Ht; apply simple_boundary_mono; lia].
      rewrite simple_boundary_0, simple_boundary_last by lia. reflexivity. }
  destruct (write_all (fun q f => set f q 0) (fun q => q) (fun _ => 0) (merge rsch (map (reset_part NT T) (zrange 0 T))) flags) as (f & E & Lf & G & _); auto.
  - intros q Hq. rewrite Hf. apply In_zrange. rewrite <- EC. eapply Permutation_in; [apply merge_perm|exact Hq].
  - exists f. split; auto. split; [lia|]. intros q Hq. apply G. eapply Permutation_in; [apply Permutation_sym, merge_perm|]. rewrite EC. now apply In_zrange.
Qed.

Section Main.
Context {V L O : Type}.
Variables (exec : O -> L -> list V -> option (L * list V)) (l0 : L) (ops : Z -> list O).
Variables (fwd : bool) (T m : Z) (S : schedule) (rowof : Z -> option Z).
Hypothesis HS : sched_ok T m S rowof.
Hypothesis Hm : 0 <= m.
Let NT := ntasks S.
Lemma HNT : 0 <= NT.
Proof. destruct (so_tasks _ _ _ _ HS) as (A & B & _). apply get_Some_bounds in B. unfold NT. lia. Qed.
Let HbT := so_threads _ _ _ _ HS.
Let Hbk := so_tasks _ _ _ _ HS.
Let HT1 := so_T _ _ _ _ HS.

Definition thb (t : Z) : Z := zget (threadBoundaries S) t.
Definition tkb (q : Z) : Z := zget (taskBoundaries S) q.
Definition row (i : Z) : Z := match rowof i with Some r => r | None => 0 end.
Definition thr : list (list Z) := map (fun t => dirZ fwd (thb t) (thb (t + 1))) (zrange 0 T).
Definition trows (q : Z) : list Z := map row (dirZ fwd (tkb q) (tkb (q + 1))).
Definition tpar (q : Z) : list Z := map (fun k => match get (lget (parents fwd S) q) k with Some p => p | None => 0 end) (zrange 0 (zget (nparents fwd S) q)).
Definition nop (r : Z) : Z := Zlen (ops r).

Lemma row_ok i : 0 <= i < m -> rowof i = Some (row i) /\ 0 <= row i < m.
Proof. intros Hi. destruct (so_rows _ _ _ _ HS i Hi) as (r & E & R). unfold row. rewrite E. auto. Qed.
Lemma thb_ok t : 0 <= t <= T -> get (threadBoundaries S) t = Some (thb t) /\ 0 <= thb t <= NT.
Proof. intros Ht. apply (bounds_range T); auto. lia. Qed.
Lemma tkb_ok q : 0 <= q <= NT -> get (taskBoundaries S) q = Some (tkb q) /\ 0 <= tkb q <= m.
Proof. intros Hq. apply (bounds_range NT); auto. apply HNT. Qed.

Lemma thr_perm : Permutation (concat thr) (zrange 0 NT).
Proof.
  destruct (bounds_ends _ _ _ HbT) as (E0 & En). 
  assert (EC : concat (map (fun t => zrange (thb t) (thb (t + 1))) (zrange 0 T)) = zrange 0 NT).
  { rewrite (concat_zrange_tiling thb); [|lia|intros t Ht; apply (bounds_mono T (ntasks S)); auto; lia]. unfold thb. now rewrite E0, En. }
  rewrite <- EC. unfold thr. clear EC. induction (zrange 0 T) as [|t l IH]; cbn [map concat]; auto. apply Permutation_app; auto. apply dirZ_perm.
Qed.
(** Position and task of a row. *)
Definition posr (r : Z) : Z := zfind (fun i => row i =? r) m.
Definition tki (i : Z) : Z := zfind (fun q => (tkb q <=? i) && (i <? tkb (q + 1))) NT.
Lemma posr_ok r : 0 <= r < m -> 0 <= posr r < m /\ row (posr r) = r.
Proof.
  intros Hr. destruct (so_surj _ _ _ _ HS r Hr) as (i & Hi & E). destruct (zfind_ok (fun i => row i =? r) m i Hi) as (A & B).
  { unfold row. rewrite E. apply Z.eqb_refl. } split; auto. now apply Z.eqb_eq in B.
Qed.
Lemma posr_row i : 0 <= i < m -> posr (row i) = i.
Proof.
  intros Hi. destruct (row_ok i Hi) as (E & R). destruct (posr_ok (row i) R) as (A & B). destruct (row_ok _ A) as (E' & R').
  apply (so_inj _ _ _ _ HS _ _ (row i)); auto. congruence.
Qed.
Lemma tki_ok i : 0 <= i < m -> 0 <= tki i < NT /\ tkb (tki i) <= i < tkb (tki i + 1).
Proof.
  intros Hi. destruct (bounds_locate _ _ _ i Hbk HNT Hi) as (q & Hq & B). destruct (zfind_ok (fun q => (tkb q <=? i) && (i <? tkb (q + 1))) NT q Hq) as (C & D).
  { fold (tkb q) (tkb (q + 1)) in B. lia. } split; auto. fold (tki i) in D. lia.
Qed.
Lemma tki_unique i q : 0 <= i < m -> 0 <= q < NT -> tkb q <= i < tkb (q + 1) -> tki i = q.
Proof. intros Hi Hq B. destruct (tki_ok i Hi) as (C & D). eapply (bounds_unique NT m); eauto. Qed.
Lemma trows_range q r : 0 <= q < NT -> In r (trows q) -> 0 <= r < m /\ tki (posr r) = q.
Proof.
  intros Hq H. unfold trows in H. apply in_map_iff in H as (i & <- & Hi). apply In_dirZ in Hi.
  destruct (tkb_ok q) as (_ & R1); [lia|]. destruct (tkb_ok (q + 1)) as (_ & R2); [lia|]. assert (Him : 0 <= i < m) by lia.
  split; [apply row_ok; auto|]. rewrite posr_row by auto. apply tki_unique; auto.
Qed.
Lemma trows_in r : 0 <= r < m -> 0 <= tki (posr r) < NT /\ In r (trows (tki (posr r))).
Proof.
  intros Hr. destruct (posr_ok r Hr) as (A & B). destruct (tki_ok _ A) as (C & D). split; auto. unfold trows. apply in_map_iff. exists (posr r). split; auto. now apply In_dirZ.
Qed.
Lemma NoDup_trows q : 0 <= q < NT -> NoDup (trows q).
Proof.
  intros Hq. unfold trows. apply NoDup_map_in; [|apply NoDup_dirZ]. intros i i' Hi Hi' E. apply In_dirZ in Hi, Hi'.
  destruct (tkb_ok q) as (_ & R1); [lia|]. destruct (tkb_ok (q + 1)) as (_ & R2); [lia|]. rewrite <- (posr_row i), <- (posr_row i') by lia. now rewrite E.
Qed.

(** *** The kernel and the sequential sweep *)
Variables (ro so : Z -> Z) (own : Z -> Z) (dep : Z -> Z -> Prop) (y fin : list V).
(** [ro n] is the n-th row of the sequential sweep. *)
Hypothesis Hro : forall n, 0 <= n < m -> 0 <= ro n < m /\ so (ro n) = n.
Hypothesis Hso : forall r, 0 <= r < m -> 0 <= so r < m /\ ro (so r) = r.
(** Row [r] stores only in the cells it owns and reads only these, those of the
    rows it depends on and cells of no row. *)
Hypothesis Kframe : forall r o l s l' s', 0 <= r < m -> In o (ops r) -> exec o l s = Some (l', s') ->
  Zlen s' = Zlen s /\ forall p, own p <> r -> get s' p = get s p.
Hypothesis Klocal : forall r o l s1 s2 l' s1', 0 <= r < m -> In o (ops r) -> Zlen s1 = Zlen s2 ->
  (forall p, own p = r \/ dep r (own p) \/ ~ (0 <= own p < m) -> get s1 p = get s2 p) -> exec o l s1 = Some (l', s1') ->
  exists s2', exec o l s2 = Some (l', s2') /\ forall p, own p = r -> get s2' p = get s1' p.
Hypothesis Kseq : foldM (row_run exec l0 ops) (map ro (zrange 0 m)) y = Some fin.

Let ops' (n : Z) := ops (ro n).
Let nop' (n : Z) := nop (ro n).
Let rows' (q : Z) := map so (trows q).
Let owner (p : Z) := if (0 <=? own p) && (own p <? m) then so (own p) else -1.
Let adj (n c : Z) := (dep (ro n) (ro c) \/ dep (ro c) (ro n)) /\ n <> c.
Let tk' (n : Z) := tki (posr (ro n)).
Let progs' := programs thr tpar rows' nop'.

Lemma owner_own n p : 0 <= n < m -> (owner p = n <-> own p = ro n).
Proof.
  intros Hn. unfold owner. destruct (Hro n Hn) as (A & B). destruct (Z.leb_spec 0 (own p)), (Z.ltb_spec (own p) m); cbn [andb]; split; intros H1; try lia.
  - subst n. symmetry. apply Hso. lia.
  - rewrite H1. auto.
Qed.
Lemma M_T : Zlen progs' = T.
Proof. unfold progs', programs, thr. rewrite !Zlen_map, Zlen_zrange. lia. Qed.
Lemma M_frame n o l s l' s' : 0 <= n < m -> In o (ops' n) -> exec o l s = Some (l', s') -> Zlen s' = Zlen s /\ forall p, owner p <> n -> get s' p = get s p.
Proof.
  intros Hn Ho E. destruct (Hro n Hn) as (A & B). destruct (Kframe (ro n) o l s l' s' A Ho E) as (C & D). split; auto.
  intros p Hp. apply D. intros H. apply Hp. now apply owner_own.
Qed.
Lemma M_local n o l s1 s2 l' s1' : 0 <= n < m -> In o (ops' n) -> Zlen s1 = Zlen s2 ->
  (forall p, vis m owner adj n p -> get s1 p = get s2 p) -> exec o l s1 = Some (l', s1') ->
  exists s2', exec o l s2 = Some (l', s2') /\ forall p, owner p = n -> get s2' p = get s1' p.
Proof.
  intros Hn Ho HL Hv E. destruct (Hro n Hn) as (A & B). destruct (Klocal (ro n) o l s1 s2 l' s1' A Ho HL) as (s2' & E2 & D); auto.
  - intros p Hp. apply Hv. unfold vis. destruct (Z.eq_dec (own p) (ro n)) as [X|X]. { left. now apply owner_own. }
    right. destruct Hp as [Hp|[Hp|Hp]]; [contradiction| |].
    + unfold owner. destruct (Z.leb_spec 0 (own p)), (Z.ltb_spec (own p) m); cbn [andb]; try (right; lia). left.
      destruct (Hso (own p)) as (C1 & C2); [lia|]. unfold adj. rewrite C2. split; auto. intros ->. apply X. now rewrite C2.
    + right. unfold owner. destruct (Z.leb_spec 0 (own p)), (Z.ltb_spec (own p) m); cbn [andb]; lia.
  - exists s2'. split; auto. intros p Hp. apply D. now apply owner_own.
Qed.
Lemma M_adj n c : adj n c -> 0 <= n < m -> 0 <= c < m -> c <> n /\ adj c n.
Proof. unfold adj. intros (A & B) _ _. split; [lia|]. split; [tauto|lia]. Qed.
Lemma M_seq : sweep exec l0 ops' m y = Some fin.
Proof. unfold sweep. rewrite foldM_map in Kseq. exact Kseq. Qed.

Lemma P_ops n : 0 <= nop' n.
Proof. apply Zlen_nonneg. Qed.
Lemma P_tk n : 0 <= n < m -> 0 <= tk' n < NT /\ In n (rows' (tk' n)).
Proof.
  intros Hn. destruct (Hro n Hn) as (A & B). destruct (trows_in (ro n) A) as (C & D). split; auto. unfold rows'. apply in_map_iff. exists (ro n). auto.
Qed.
Lemma P_rows q n : 0 <= q < NT -> In n (rows' q) -> 0 <= n < m /\ tk' n = q.
Proof.
  intros Hq H. unfold rows' in H. apply in_map_iff in H as (r & <- & Hr). destruct (trows_range q r Hq Hr) as (A & B). destruct (Hso r A) as (C & D).
  split; auto. unfold tk'. now rewrite D.
Qed.
Lemma P_nd q : 0 <= q < NT -> NoDup (rows' q).
Proof.
  intros Hq. apply NoDup_map_in; [|now apply NoDup_trows]. intros r r' Hr Hr' E. apply trows_range in Hr as (A & _); auto. apply trows_range in Hr' as (A' & _); auto.
  destruct (Hso r A) as (_ & B). destruct (Hso r' A') as (_ & B'). congruence.
Qed.
Lemma in_task_tki i q : 0 <= i < m -> in_task S i q -> q = tki i.
Proof.
  intros Hi (b & e & A & B & C). pose proof (get_Some_bounds _ _ _ A). pose proof (get_Some_bounds _ _ _ B). destruct Hbk as (HL & _). symmetry. apply tki_unique; auto; [unfold NT; lia|].
  unfold tkb, zget. now rewrite A, B.
Qed.

(** *** Barriers *)
Section Barriers.
Variable K : Z.
Hypothesis HK : 0 <= K.
(** Every thread has [K] tasks. *)
Hypothesis HKt : forall t b e, get (threadBoundaries S) t = Some b -> get (threadBoundaries S) (t + 1) = Some e -> e = b + K.
Hypothesis Bcover : forall i i' r r', 0 <= i < m -> 0 <= i' < m -> rowof i = Some r -> rowof i' = Some r' ->
  dep r r' \/ dep r' r -> so r < so r' -> pos_phase_before fwd S i i'.
Let btask (k t : Z) := if fwd then thb t + k else thb (t + 1) - 1 - k.
Let tht (q : Z) := zfind (fun t => (thb t <=? q) && (q <? thb (t + 1))) T.
Let phq (q : Z) := if fwd then q - thb (tht q) else thb (tht q + 1) - 1 - q.
Lemma thb_S t : 0 <= t < T -> thb (t + 1) = thb t + K.
Proof. intros Ht. destruct (thb_ok t) as (A & _); [lia|]. destruct (thb_ok (t + 1)) as (B & _); [lia|]. eapply HKt; eauto. Qed.
Lemma tht_ok q : 0 <= q < NT -> 0 <= tht q < T /\ thb (tht q) <= q < thb (tht q + 1).
Proof.
  intros Hq. destruct (bounds_locate _ _ _ q HbT ltac:(lia) Hq) as (t & Ht & B). destruct (zfind_ok (fun t => (thb t <=? q) && (q <? thb (t + 1))) T t Ht) as (C & D).
  { fold (thb t) (thb (t + 1)) in B. lia. } split; auto. fold (tht q) in D. lia.
Qed.
Lemma tht_unique t q : 0 <= t < T -> thb t <= q < thb (t + 1) -> tht q = t.
Proof.
  intros Ht B. destruct (thb_ok t) as (_ & R1); [lia|]. destruct (thb_ok (t + 1)) as (_ & R2); [lia|].
  destruct (tht_ok q) as (C & D); [lia|]. eapply (bounds_unique T NT); eauto.
Qed.
Lemma btask_ok k t : 0 <= k < K -> 0 <= t < T -> 0 <= btask k t < NT /\ tht (btask k t) = t /\ phq (btask k t) = k.
Proof.
  intros Hk Ht. pose proof (thb_S t Ht) as E. destruct (thb_ok t) as (_ & R1); [lia|]. destruct (thb_ok (t + 1)) as (_ & R2); [lia|].
  assert (B : thb t <= btask k t < thb (t + 1)) by (unfold btask; destruct fwd; lia).
  split; [lia|]. pose proof (tht_unique t _ Ht B) as U. split; auto. unfold phq. rewrite U. unfold btask. destruct fwd; lia.
Qed.
Lemma phq_ok q : 0 <= q < NT -> 0 <= phq q < K /\ btask (phq q) (tht q) = q.
Proof.
  intros Hq. destruct (tht_ok q Hq) as (A & B). pose proof (thb_S _ A). unfold btask, phq. destruct fwd; lia.
Qed.
Lemma task_phase_phq q k : 0 <= q < NT -> task_phase fwd S q k -> k = phq q.
Proof.
  intros Hq (t & b & e & A & B & C & ->). pose proof (get_Some_bounds _ _ _ A). pose proof (get_Some_bounds _ _ _ B). destruct HbT as (HL & _).
  assert (Ht : 0 <= t < T) by lia. destruct (thb_ok t) as (E1 & _); [lia|]. destruct (thb_ok (t + 1)) as (E2 & _); [lia|].
  rewrite A in E1. injection E1 as ->. rewrite B in E2. injection E2 as ->. unfold phq. rewrite (tht_unique t q Ht C). reflexivity.
Qed.
Theorem barrier_run_ok (sch : Z -> list nat) locs : Zlen locs = T ->
  exists locs', barrier_run exec l0 ops fwd S rowof T sch locs y = Some (locs', fin).
Proof.
  intros Hl. unfold barrier_run.
  assert (EN : nlevels S T = Some K).
  { unfold nlevels. destruct (thb_ok 0) as (A & _); [lia|]. destruct (thb_ok 1) as (B & _); [lia|]. rewrite A, B. pose proof (thb_S 0 ltac:(lia)) as E0.
    replace (0 + 1) with 1 in E0 by lia. rewrite (mapM_Some _ (fun _ => tt)); [f_equal; lia|].
    intros t Ht. apply In_zrange in Ht. destruct (thb_ok t) as (A' & _); [lia|]. destruct (thb_ok (t + 1)) as (B' & _); [lia|]. rewrite A', B'. pose proof (thb_S t Ht).
    replace (thb (t + 1) - thb t =? thb 1 - thb 0) with true by lia. reflexivity. }
  rewrite EN. clear EN.
  destruct (phases_ok exec l0 ops' m T K owner adj y fin (fun k t => rows' (btask k t)) (fun n => phq (tk' n)) (fun n => tht (tk' n)) M_frame M_local M_adj M_seq) with (sch := sch) (locs := locs) as (locs' & E); auto.
  - lia.
  - intros n Hn. destruct (P_tk n Hn) as (A & B). destruct (phq_ok _ A) as (C & D). destruct (tht_ok _ A) as (F & _). split; auto. split; auto. now rewrite D.
  - intros k t n Hk Ht Hn. destruct (btask_ok k t Hk Ht) as (A & B & C). destruct (P_rows _ _ A Hn) as (D & F). rewrite F. auto.
  - intros k t Hk Ht. apply P_nd. now apply btask_ok.
  - intros n c Hc Hn (Ha & _). destruct (Hro n ltac:(lia)) as (A & B). destruct (Hro c ltac:(lia)) as (A' & B').
    destruct (posr_ok (ro c) A') as (P1 & P2). destruct (posr_ok (ro n) A) as (P3 & P4). destruct (row_ok _ P1) as (R1 & _). destruct (row_ok _ P3) as (R3 & _).
    rewrite P2 in R1. rewrite P4 in R3.
    destruct (Bcover _ _ _ _ P1 P3 R1 R3) as (q & q' & k & k' & I1 & I2 & T1 & T2 & H); [tauto|lia|].
    pose proof (in_task_tki _ _ P1 I1) as E1. pose proof (in_task_tki _ _ P3 I2) as E2.
    destruct (tki_ok _ P1) as (Q1 & Q2). destruct (tki_ok _ P3) as (Q3 & Q4). rewrite <- E1 in Q1, Q2. rewrite <- E2 in Q3, Q4.
    apply task_phase_phq in T1; auto. apply task_phase_phq in T2; auto. unfold tk'. rewrite <- E1, <- E2. destruct H as [H|(Eq & Hl2)].
    + left. lia.
    + right. subst q'. split; auto. split; auto. rewrite (proj2 (phq_ok q Q1)).
      destruct (dirZ_split fwd _ _ _ _ Q2 Q4 Hl2) as (pre & mid & post & E). exists (map so (map row pre)), (map so (map row mid)), (map so (map row post)).
      unfold rows', trows. rewrite E, !map_app. cbn [map]. rewrite !map_app. cbn [map]. now rewrite P2, P4, B, B'.
  - exists locs'. rewrite <- E. apply foldM_ext_in. intros k s Hk. apply In_zrange in Hk.
    assert (EB : bar_rows fwd S rowof T k = Some (map (fun t => trows (btask k t)) (zrange 0 T))).
    { unfold bar_rows. apply mapM_Some. intros t Ht. apply In_zrange in Ht. unfold bar_task. destruct (thb_ok t) as (A' & _); [lia|]. destruct (thb_ok (t + 1)) as (B' & _); [lia|].
      rewrite A', B'. fold (btask k t). destruct (btask_ok k t Hk Ht) as (C & _). unfold task_rows.
      destruct (tkb_ok (btask k t)) as (E3 & R3); [lia|]. destruct (tkb_ok (btask k t + 1)) as (E4 & R4); [lia|]. rewrite E3, E4.
      apply mapM_Some. intros i Hi. apply In_dirZ in Hi. apply row_ok. lia. }
    rewrite EB. unfold rows'. rewrite <- (map_map (fun t => trows (btask k t)) (map so)). symmetry. apply phase_ren.
    intros rs r Hrs Hr. apply in_map_iff in Hrs as (t & <- & Ht). apply In_zrange in Ht. destruct (btask_ok k t Hk Ht) as (C & _).
    destruct (trows_range _ _ C Hr) as (D & _). unfold ops'. now rewrite (proj2 (Hso r D)).
Qed.
End Barriers.

(** *** Point-to-point synchronisation *)
Hypothesis HW : waits_ok fwd S.
(** Rows of which one depends on the other are ordered by the schedule as in the sweep. *)
Hypothesis Kcover : forall i i' r r', 0 <= i < m -> 0 <= i' < m -> rowof i = Some r -> rowof i' = Some r' ->
  dep r r' \/ dep r' r -> so r < so r' -> pos_before fwd S i i'.
Lemma waits_eq q : 0 <= q < NT -> waits fwd S q = Some (tpar q) /\ (forall p, In p (tpar q) <-> waits_for fwd S q p) /\ (forall p, In p (tpar q) -> 0 <= p < NT).
Proof.
  intros Hq. destruct (HW q Hq) as (n & c & A & B & C & D). unfold waits, tpar, zget, lget. rewrite A, B. split; [|split].
  - apply mapM_Some. intros k Hk. apply In_zrange in Hk. destruct (get_in_range c k) as (p & Ep); [lia|]. now rewrite Ep.
  - intros p. rewrite in_map_iff. unfold waits_for. split.
    + intros (k & E & Hk). apply In_zrange in Hk. destruct (get_in_range c k) as (p' & Ep); [lia|]. rewrite Ep in E. split; auto. exists n, c, k. rewrite Ep. subst p'. auto.
    + intros (_ & n' & c' & k & A' & B' & C' & D'). exists k. rewrite A in A'. injection A' as <-. rewrite B in B'. injection B' as <-. rewrite D'. split; auto. now apply In_zrange.
  - intros p Hp. apply in_map_iff in Hp as (k & E & Hk). apply In_zrange in Hk. destruct (get_in_range c k) as (p' & Ep); [lia|]. rewrite Ep in E. subst p'. eapply D; eauto.
Qed.
Lemma code_eq : all_code fwd S rowof nop T = Some (programs thr tpar trows nop).
Proof.
  unfold all_code, programs, thr. rewrite map_map. apply mapM_Some. intros t Ht. apply In_zrange in Ht. unfold thread_code.
  destruct (thb_ok t) as (E1 & R1); [lia|]. destruct (thb_ok (t + 1)) as (E2 & R2); [lia|]. rewrite E1, E2.
  rewrite (mapM_Some _ (block tpar trows nop)); auto. intros q Hq. apply In_dirZ in Hq. unfold task_code, block.
  destruct (waits_eq q) as (W & _); [lia|]. rewrite W. unfold task_rows.
  destruct (tkb_ok q) as (E3 & R3); [lia|]. destruct (tkb_ok (q + 1)) as (E4 & R4); [lia|]. rewrite E3, E4.
  rewrite (mapM_Some _ row); [reflexivity|]. intros i Hi. apply In_dirZ in Hi. apply row_ok. lia.
Qed.
Lemma P_par q p : 0 <= q < NT -> In p (tpar q) -> 0 <= p < NT.
Proof. intros Hq. apply (waits_eq q Hq). Qed.
Lemma before_hb q q' : task_before1 fwd S q q' -> hb1 progs' tpar q q'.
Proof.
  intros H. apply (before1_hb1 thr tpar rows' nop' m NT tk' P_ops thr_perm P_par P_tk P_rows P_nd). destruct H as [H|((t & b & e & A & B & C & D) & Hl)].
  - left. pose proof H as (Hq & _). split; [exact Hq|]. now apply waits_eq.
  - right. destruct (dirZ_split fwd b e q q' C D Hl) as (pre & mid & post & E). exists t, (dirZ fwd b e), pre, mid, post. split; auto.
    pose proof (get_Some_bounds _ _ _ A). pose proof (get_Some_bounds _ _ _ B). destruct HbT as (HL & _). unfold thr. rewrite get_map, get_zrange by lia. cbn [option_map].
    replace (0 + t) with t by lia. unfold thb, zget. now rewrite A, B.
Qed.
Lemma before_hbs q q' : task_before fwd S q q' -> hb progs' tpar q q'.
Proof. intros H. induction H as [q q' H|q q1 q' _ IH1 _ IH2]. - apply t_step. now apply before_hb. - eapply t_trans; eauto. Qed.
Lemma M_cover n c : 0 <= c < n -> n < m -> adj n c ->
  hb progs' tpar (tk' c) (tk' n) \/ (exists t k k', at_ progs' t k (IBegin c) /\ at_ progs' t k' (IBegin n) /\ k + nops ops' c < k').
Proof.
  intros Hc Hn (Ha & _). destruct (Hro n ltac:(lia)) as (A & B). destruct (Hro c ltac:(lia)) as (A' & B').
  destruct (posr_ok (ro c) A') as (P1 & P2). destruct (posr_ok (ro n) A) as (P3 & P4). destruct (row_ok _ P1) as (R1 & _). destruct (row_ok _ P3) as (R3 & _).
  rewrite P2 in R1. rewrite P4 in R3.
  destruct (Kcover _ _ _ _ P1 P3 R1 R3) as (q & q' & I1 & I2 & H); [tauto|lia|].
  pose proof (in_task_tki _ _ P1 I1) as E1. pose proof (in_task_tki _ _ P3 I2) as E2. destruct H as [H|(Eq & Hl)].
  - left. unfold tk'. rewrite <- E1, <- E2. now apply before_hbs.
  - right. subst q'. destruct (tki_ok _ P1) as (Q1 & Q2). destruct (tki_ok _ P3) as (Q3 & Q4). rewrite <- E1 in Q1, Q2. rewrite <- E2 in Q3, Q4.
    destruct (dirZ_split fwd _ _ _ _ Q2 Q4 Hl) as (pre & mid & post & E).
    assert (ER : rows' q = map so (map row pre) ++ c :: map so (map row mid) ++ n :: map so (map row post)).
    { unfold rows', trows. rewrite E, !map_app. cbn [map]. rewrite !map_app. cbn [map]. now rewrite P2, P4, B, B'. }
    destruct (task_occurs thr NT thr_perm q Q1) as (t & ts & tpre & tpost & T1 & T2).
    exists t, (bpos tpar rows' nop' tpre + Zlen (tpar q) + rpos nop' (map so (map row pre))),
      (bpos tpar rows' nop' tpre + Zlen (tpar q) + rpos nop' (map so (map row pre) ++ c :: map so (map row mid))).
    split; [|split].
    + apply (pat_begin thr tpar rows' nop' m NT tk' P_ops P_par P_tk P_rows P_nd). exists ts, tpre, q, tpost. do 2 eexists. split; auto. split; auto. split; [exact ER|reflexivity].
    + apply (pat_begin thr tpar rows' nop' m NT tk' P_ops P_par P_tk P_rows P_nd). exists ts, tpre, q, tpost. do 2 eexists. split; auto. split; auto. split; [rewrite ER|reflexivity].
      rewrite <- app_assoc. reflexivity.
    + rewrite (rpos_mid tpar rows' nop' m NT tk' P_ops P_par P_tk P_rows P_nd). change (nops ops' c) with (nop' c). pose proof (rpos_nonneg nop' (map so (map row mid))). lia.
Qed.

Definition inv := minv exec l0 ops' progs' m T NT owner y.
Lemma run_inv sched f ls : Zlen f = NT -> (forall q, 0 <= q < NT -> get f q = Some 0) -> Zlen ls = T -> (forall t, In t sched -> 0 <= t < T) ->
  exists s, mrun exec l0 ops' progs' sched (minit T y f ls) = Some s /\ inv s.
Proof.
  apply (run_ok exec l0 ops' progs' m T NT owner adj tk' tpar y fin M_T M_frame M_local M_adj M_seq
    (Q_row thr tpar rows' nop' m NT tk' P_ops thr_perm P_par P_tk P_rows P_nd)
    (Q_row_range thr tpar rows' nop' m NT tk' P_ops thr_perm P_par P_tk P_rows P_nd)
    (Q_row_unique thr tpar rows' nop' m NT tk' P_ops thr_perm P_par P_tk P_rows P_nd)
    (Q_op thr tpar rows' nop' m NT tk' P_ops P_par P_tk P_rows P_nd)
    (Q_op_inv thr tpar rows' nop' m NT tk' P_ops P_par P_tk P_rows P_nd)
    (Q_done thr tpar rows' nop' m NT tk' P_ops thr_perm P_par P_tk P_rows P_nd)
    (Q_done_unique thr tpar rows' nop' m NT tk' P_ops thr_perm P_par P_tk P_rows P_nd)
    (Q_done_range thr tpar rows' nop' m NT tk' P_ops thr_perm P_par P_tk P_rows P_nd)
    (Q_wait_row thr tpar rows' nop' m NT tk' P_ops thr_perm P_par P_tk P_rows P_nd)
    (Q_wait_done thr tpar rows' nop' m NT tk' P_ops P_par P_tk P_rows P_nd)
    (Q_wait_inv thr tpar rows' nop' m NT tk' P_ops thr_perm P_par P_tk P_rows P_nd)
    (Q_block thr tpar rows' nop' m NT tk' P_ops thr_perm P_par P_tk P_rows P_nd)
    M_cover sched f ls).
Qed.

Lemma inv_finished s : inv s -> finished progs' s -> mem s = fin.
Proof.
  apply (finished_ok exec l0 ops' progs' m T NT owner adj tk' tpar y fin M_frame M_local M_adj M_seq
    (Q_row thr tpar rows' nop' m NT tk' P_ops thr_perm P_par P_tk P_rows P_nd)
    (Q_row_range thr tpar rows' nop' m NT tk' P_ops thr_perm P_par P_tk P_rows P_nd)
    (Q_row_unique thr tpar rows' nop' m NT tk' P_ops thr_perm P_par P_tk P_rows P_nd)
    (Q_op thr tpar rows' nop' m NT tk' P_ops P_par P_tk P_rows P_nd)
    (Q_op_inv thr tpar rows' nop' m NT tk' P_ops P_par P_tk P_rows P_nd)
    (Q_done thr tpar rows' nop' m NT tk' P_ops thr_perm P_par P_tk P_rows P_nd)
    (Q_done_unique thr tpar rows' nop' m NT tk' P_ops thr_perm P_par P_tk P_rows P_nd)
    (Q_done_range thr tpar rows' nop' m NT tk' P_ops thr_perm P_par P_tk P_rows P_nd)
    (Q_wait_row thr tpar rows' nop' m NT tk' P_ops thr_perm P_par P_tk P_rows P_nd)
    (Q_wait_done thr tpar rows' nop' m NT tk' P_ops P_par P_tk P_rows P_nd)
    (Q_wait_inv thr tpar rows' nop' m NT tk' P_ops thr_perm P_par P_tk P_rows P_nd)
    (Q_block thr tpar rows' nop' m NT tk' P_ops thr_perm P_par P_tk P_rows P_nd)
    M_cover s).
Qed.
Let code := programs thr tpar trows nop.
Lemma in_thr q : In q (concat thr) -> 0 <= q < NT.
Proof. intros H. apply In_zrange. eapply Permutation_in; [apply thr_perm|exact H]. Qed.
Lemma code_ren : map (map (ren so)) code = progs'.
Proof.
  unfold code, progs', rows'. apply ren_programs. intros q i Hq Hi. apply in_thr in Hq. destruct (trows_range q i Hq Hi) as (A & _). unfold nop'. now rewrite (proj2 (Hso i A)).
Qed.
Lemma R_ops q p : 0 <= q < NT -> In p (tpar q) -> 0 <= p < NT.
Proof. apply P_par. Qed.
Lemma code_ops t p n i k : get code t = Some p -> get p n = Some (IOp i k) -> ops' (so i) = ops i.
Proof.
  intros Hp Hn. assert (A : at_ code t n (IOp i k)) by (exists p; auto).
  assert (B : exists q, In q (concat thr) /\ In i (trows q)).
  { unfold code, programs in Hp. rewrite get_map in Hp. destruct (get thr t) as [ts|] eqn:Et; [|discriminate]. cbn [option_map] in Hp. injection Hp as <-.
    apply cat_at in Hn as (pre & q & post & k' & E & _ & G). exists q. split. { apply in_concat. exists ts. split; [eapply get_In; eauto|subst ts; apply in_elt]. }
    unfold block in G. apply get_In in G. apply in_app_or in G as [G|G]. { apply in_map_iff in G as (? & ? & _). discriminate. }
    apply in_app_or in G as [G|[G|[]]]; [|discriminate]. apply in_concat in G as (blk & G1 & G2). apply in_map_iff in G1 as (i' & <- & G1).
    destruct G2 as [G2|G2]; [discriminate|]. apply in_map_iff in G2 as (j & G3 & _). injection G3 as <- _. exact G1. }
  destruct B as (q & Hq & Hi). apply in_thr in Hq. destruct (trows_range q i Hq Hi) as (C & _). unfold ops'. now rewrite (proj2 (Hso i C)).
Qed.
Lemma code_step t s : mstep exec l0 ops code t s = mstep exec l0 ops' progs' t s.
Proof. rewrite <- code_ren. symmetry. apply ren_step. apply code_ops. Qed.
Lemma code_run sched s : mrun exec l0 ops code sched s = mrun exec l0 ops' progs' sched s.
Proof. rewrite <- code_ren. symmetry. apply ren_run. apply code_ops. Qed.
Lemma code_finished (s : mstate (V := V) (L := L)) : finished code s <-> finished progs' s.
Proof. rewrite <- code_ren. symmetry. apply ren_finished. Qed.

(** Every interleaving is free of undefined behaviour, and once all threads have
    ended the memory is that of the sequential sweep. *)
Theorem p2p_run_ok rsch sched flags locs : Zlen flags = NT -> Zlen locs = T -> (forall t, In t sched -> 0 <= t < T) ->
  exists s, p2p_run exec l0 ops fwd S rowof T rsch sched flags locs y = Some (code, s) /\ inv s /\ (finished code s -> mem s = fin).
Proof.
  intros Hf Hl Hs. unfold p2p_run. change (fun r => Zlen (ops r)) with nop. rewrite code_eq. fold code.
  destruct (reset_flags_ok rsch NT T flags) as (f & Ef & Lf & Zf); auto. { apply HNT. } unfold NT in Ef. rewrite Ef.
  destruct (run_inv sched f locs) as (s & Es & I); auto. change (mkM (map (fun _ => 0) (zrange 0 T)) f locs y) with (minit T y f locs).
  rewrite code_run, Es. exists s. split; auto. split; auto. intros F. apply inv_finished; auto. now apply code_finished.
Qed.

(** *** Progress *)
Hypothesis HR : waits_ranked fwd S.
Lemma rank_ex : exists rank, forall q q', hb1 progs' tpar q q' -> 0 <= rank q < rank q'.
Proof.
  destruct HR as (rank & Hr). exists rank. intros q q' H. apply (before1_hb1 thr tpar rows' nop' m NT tk' P_ops thr_perm P_par P_tk P_rows P_nd) in H. destruct H as [(Hq' & H)|H].
  - apply Hr; auto. { exact (R_ops _ _ Hq' H). } left. now apply waits_eq.
  - destruct H as (t & ts & pre & mid & post & A & B). pose proof (get_Some_bounds _ _ _ A) as Bt. unfold thr in Bt. rewrite Zlen_map, Zlen_zrange in Bt.
    unfold thr in A. rewrite get_map, get_zrange in A by lia. cbn [option_map] in A. replace (0 + t) with t in A by lia. injection A as A.
    destruct (thb_ok t) as (E1 & R1); [lia|]. destruct (thb_ok (t + 1)) as (E2 & R2); [lia|].
    assert (I1 : In q (dirZ fwd (thb t) (thb (t + 1)))) by (rewrite A, B; apply in_elt).
    assert (I2 : In q' (dirZ fwd (thb t) (thb (t + 1)))). { rewrite A, B. apply in_or_app. right. right. apply in_elt. }
    apply In_dirZ in I1, I2. fold NT in Hr. apply Hr; [lia|lia|]. right. split. { exists t, (thb t), (thb (t + 1)). auto. }
    assert (N : q <> q'). { intros <-. pose proof (NoDup_dirZ fwd (thb t) (thb (t + 1))) as N. rewrite A, B in N. apply NoDup_remove in N as (_ & N). apply N. apply in_or_app. right. apply in_elt. }
    assert (D : lt_dir fwd q q' \/ lt_dir fwd q' q) by (destruct fwd; cbn [lt_dir]; lia). destruct D as [D|D]; auto. exfalso.
    destruct (dirZ_split fwd _ _ _ _ I2 I1 D) as (pre' & mid' & post' & E). rewrite A, B in E.
    pose proof (NoDup_dirZ fwd (thb t) (thb (t + 1))) as Nd. rewrite A, B in Nd.
    replace (pre' ++ q' :: mid' ++ q :: post') with ((pre' ++ q' :: mid') ++ q :: post') in E by (now rewrite <- app_assoc).
    pose proof (split_unique _ _ _ _ _ Nd E) as Ep. rewrite Ep in Nd. rewrite <- app_assoc in Nd. cbn [app] in Nd. apply NoDup_remove in Nd as (_ & Nd). apply Nd.
    apply in_or_app. right. apply in_or_app. right. right. apply in_elt.
Qed.
Lemma inv_moves s : inv s -> finished code s \/ exists t, 0 <= t < T /\ moves exec l0 ops code s t.
Proof.
  intros I. destruct rank_ex as (rank & Hr). rewrite code_finished.
  destruct (progress exec l0 ops' progs' m T NT owner adj tk' tpar y fin M_T M_frame M_local M_adj M_seq
    (Q_row thr tpar rows' nop' m NT tk' P_ops thr_perm P_par P_tk P_rows P_nd)
    (Q_row_range thr tpar rows' nop' m NT tk' P_ops thr_perm P_par P_tk P_rows P_nd)
    (Q_row_unique thr tpar rows' nop' m NT tk' P_ops thr_perm P_par P_tk P_rows P_nd)
    (Q_op thr tpar rows' nop' m NT tk' P_ops P_par P_tk P_rows P_nd)
    (Q_op_inv thr tpar rows' nop' m NT tk' P_ops P_par P_tk P_rows P_nd)
    (Q_done thr tpar rows' nop' m NT tk' P_ops thr_perm P_par P_tk P_rows P_nd)
    (Q_done_unique thr tpar rows' nop' m NT tk' P_ops thr_perm P_par P_tk P_rows P_nd)
    (Q_done_range thr tpar rows' nop' m NT tk' P_ops thr_perm P_par P_tk P_rows P_nd)
    (Q_wait_row thr tpar rows' nop' m NT tk' P_ops thr_perm P_par P_tk P_rows P_nd)
    (Q_wait_done thr tpar rows' nop' m NT tk' P_ops P_par P_tk P_rows P_nd)
    (Q_wait_inv thr tpar rows' nop' m NT tk' P_ops thr_perm P_par P_tk P_rows P_nd)
    (Q_block thr tpar rows' nop' m NT tk' P_ops thr_perm P_par P_tk P_rows P_nd)
    M_cover rank Hr (Q_wait_own thr tpar rows' nop' m NT tk' P_ops thr_perm P_par P_tk P_rows P_nd) s I) as [F|(t & Ht & s' & n & A & B & C)]; auto.
  right. exists t. split; auto. exists s', n. rewrite code_step. auto.
Qed.
(** No deadlock: while some thread has not ended, some thread moves. *)
Theorem p2p_no_deadlock rsch sched flags locs s : Zlen flags = NT -> Zlen locs = T -> (forall t, In t sched -> 0 <= t < T) ->
  p2p_run exec l0 ops fwd S rowof T rsch sched flags locs y = Some (code, s) ->
  finished code s \/ exists t, 0 <= t < T /\ moves exec l0 ops code s t.
Proof.
  intros Hf Hl Hs E. destruct (p2p_run_ok rsch sched flags locs Hf Hl Hs) as (s' & E' & I & _). assert (s' = s) by congruence. subst s'. now apply inv_moves.
Qed.
(** Every fair execution ends, with the memory of the sequential sweep. *)
Theorem p2p_fair rsch flags locs (f : nat -> Z) : Zlen flags = NT -> Zlen locs = T -> (forall n, 0 <= f n < T) ->
  (forall t N, 0 <= t < T -> exists n, (N <= n)%nat /\ f n = t) ->
  exists N s, p2p_run exec l0 ops fwd S rowof T rsch (map f (seq 0 N)) flags locs y = Some (code, s) /\ finished code s /\ mem s = fin.
Proof.
  intros Hf Hl Hr Hfair. destruct rank_ex as (rank & Hrk). destruct (reset_flags_ok rsch NT T flags) as (fl & Ef & Lf & Zf); auto. { apply HNT. } unfold NT in Ef.
  destruct (run_inv [] fl locs) as (s0 & Es & I); auto. { intros t []. } injection Es as <-.
  destruct (fair_ends exec l0 ops' progs' m T NT owner adj tk' tpar y fin M_T M_frame M_local M_adj M_seq
    (Q_row thr tpar rows' nop' m NT tk' P_ops thr_perm P_par P_tk P_rows P_nd)
    (Q_row_range thr tpar rows' nop' m NT tk' P_ops thr_perm P_par P_tk P_rows P_nd)
    (Q_row_unique thr tpar rows' nop' m NT tk' P_ops thr_perm P_par P_tk P_rows P_nd)
    (Q_op thr tpar rows' nop' m NT tk' P_ops P_par P_tk P_rows P_nd)
    (Q_op_inv thr tpar rows' nop' m NT tk' P_ops P_par P_tk P_rows P_nd)
    (Q_done thr tpar rows' nop' m NT tk' P_ops thr_perm P_par P_tk P_rows P_nd)
    (Q_done_unique thr tpar rows' nop' m NT tk' P_ops thr_perm P_par P_tk P_rows P_nd)
    (Q_done_range thr tpar rows' nop' m NT tk' P_ops thr_perm P_par P_tk P_rows P_nd)
    (Q_wait_row thr tpar rows' nop' m NT tk' P_ops thr_perm P_par P_tk P_rows P_nd)
    (Q_wait_done thr tpar rows' nop' m NT tk' P_ops P_par P_tk P_rows P_nd)
    (Q_wait_inv thr tpar rows' nop' m NT tk' P_ops thr_perm P_par P_tk P_rows P_nd)
    (Q_block thr tpar rows' nop' m NT tk' P_ops thr_perm P_par P_tk P_rows P_nd)
    M_cover rank Hrk (Q_wait_own thr tpar rows' nop' m NT tk' P_ops thr_perm P_par P_tk P_rows P_nd) f Hr Hfair _ (minit T y fl locs) 0%nat (le_n _) I) as (N & s & E & I2 & F).
  exists N, s. unfold p2p_run. change (fun r => Zlen (ops r)) with nop. rewrite code_eq. fold code. rewrite Ef.
  change (mkM (map (fun _ => 0) (zrange 0 T)) fl locs y) with (minit T y fl locs). rewrite code_run, E. split; auto. split; [now apply code_finished|]. now apply inv_finished.
Qed.
End Main.
