(** * The dependency pattern of a CSR matrix, and when level construction is defined. *)
From Coq Require Import Permutation.
From Verif Require Import Base Interleave Spec Search Partition PrefixSum Flat Csr CsrTools Transpose RowPar CsrOps Exec Kernels Ilu Levels LevelsFacts LevelsMain Tasks.

(** ** Model *)
(** LevelSchedule.cpp:469-471: extptr, or rowptr + 1 when it is NULL. *)
Definition graph_of {V} (A : csr V) (base : Z) (dp : list Z) : gr :=
  mkGr (cm A) base (rowptr A) dp (match extptr A with Some e => e | None => tl (rowptr A) end) (colidx A).

(** ** Specification *)
(** Each row holds its columns left of the diagonal, the diagonal, and then its
    columns right of it, none twice; the pattern is symmetric.  The columns from
    [m] on (halo) have no mirror entries. *)
Record sym_pattern {V} (rows : rows_t V) : Prop := {
  sp_split : forall i, 0 <= i < Zlen rows -> exists l1 v l2, nthl rows i = l1 ++ (i, v) :: l2 /\
    (forall c w, In (c, w) l1 -> 0 <= c < i) /\ (forall c w, In (c, w) l2 -> i < c) /\ NoDup (map fst (nthl rows i));
  sp_sym : forall i j, 0 <= i < Zlen rows -> 0 <= j < Zlen rows -> entry rows i j -> entry rows j i }.
Definition lower_of {V} (rows : rows_t V) (i : Z) : list Z := filter (fun c => c <? i) (map fst (nthl rows i)).
Definition upper_of {V} (rows : rows_t V) (i : Z) : list Z := filter (fun c => (i <? c) && (c <? Zlen rows)) (map fst (nthl rows i)).

(** ** Proofs *)
Section Pattern.
Context {V : Type}.
Variables (hasv : bool) (base n : Z) (rows lrows : rows_t V) (A : csr V) (dp : list Z).
Hypothesis HR : rep hasv base n rows A.
Hypothesis HL : local_rows base rows A lrows.
Hypothesis HP : sym_pattern lrows.
Hypothesis HD : diag_first base rows dp.
Let m := Zlen rows.
Notation o_ := (off (nthl rows)).

Lemma len_l : Zlen lrows = m.
Proof. apply HL. Qed.
Lemma local_prefix i : 0 <= i < m -> exists h, nthl rows i = nthl lrows i ++ h.
Proof.
  intros Hi. destruct HL as (L & H). destruct (extptr A) as [e|]. { destruct H as (_ & H). destruct (H i Hi) as (h & E & _). eauto. }
  exists []. now rewrite H, app_nil_r.
Qed.
Lemma filter_none {X} (p : X -> bool) l : (forall x, In x l -> p x = false) -> filter p l = [].
Proof. induction l as [|a l IH]; intros H; cbn [filter]; auto. rewrite (H a) by (cbn; auto). apply IH. intros; apply H; cbn; auto. Qed.
Lemma filter_all {X} (p : X -> bool) l : (forall x, In x l -> p x = true) -> filter p l = l.
Proof. induction l as [|a l IH]; intros H; cbn [filter]; auto. rewrite (H a) by (cbn; auto). f_equal. apply IH. intros; apply H; cbn; auto. Qed.
Lemma app_split_unique {X} (i : Z) (l1 l2 l1' l2' : list (Z * X)) v v' h :
  (forall c w, In (c, w) l1 -> c < i) -> (forall c w, In (c, w) l1' -> c < i) -> (l1 ++ (i, v) :: l2) ++ h = l1' ++ (i, v') :: l2' -> l1 = l1' /\ v = v' /\ l2 ++ h = l2'.
Proof.
  revert l1'. induction l1 as [|[c w] l1 IH]; intros [|[c' w'] l1'] H H' E; cbn [app] in E.
  - injection E as -> <-. auto.
  - injection E as -> -> _. specialize (H' c' w' (or_introl eq_refl)). lia.
  - injection E as -> -> _. specialize (H i v' (or_introl eq_refl)). lia.
  - injection E as -> -> E. apply IH in E as (-> & -> & <-). auto. { intros; eapply H; cbn; eauto. } { intros; eapply H'; cbn; eauto. }
Qed.

Theorem csr_pattern : pattern_ok (graph_of A base dp) (lower_of lrows) (upper_of lrows).
Proof.
  pose proof HR as (Hm & _ & Hrp & Hci & _). pose proof len_l as LL. destruct HP as [Hsplit Hsym].
  assert (Hlow : forall i j, 0 <= j < m -> In i (lower_of lrows j) <-> entry lrows j i /\ i < j).
  { intros i j Hj. unfold lower_of, entry. rewrite (filter_In (fun c => c <? j)), in_map_iff. split.
    - intros (((c & v) & <- & H) & B). split; [eauto|]. cbn [fst] in *. lia.
    - intros ((v & H) & B). split; [exists (i, v); auto|lia]. }
  assert (Hup : forall i j, 0 <= j < m -> In i (upper_of lrows j) <-> entry lrows j i /\ j < i < m).
  { intros i j Hj. unfold upper_of, entry. rewrite (filter_In (fun c => (j <? c) && (c <? Zlen lrows))), in_map_iff. split.
    - intros (((c & v) & <- & H) & B). split; [eauto|]. cbn [fst] in *. lia.
    - intros ((v & H) & B). split; [exists (i, v); auto|lia]. }
  constructor; cbn [graph_of g_m g_base g_row g_dia g_ext g_col]; rewrite ?Hm; fold m.
  - apply Zlen_nonneg.
  - intros i Hi. destruct (Hsplit i ltac:(lia)) as (l1 & v & l2 & E & H1 & H2 & N). destruct HD as (_ & HD'). destruct (HD' i Hi) as (l1' & v' & l2' & E' & H1' & Gd).
    destruct (local_prefix i Hi) as (h & Eh). rewrite E, E' in Eh. symmetry in Eh. apply app_split_unique in Eh as (<- & <- & <-); auto. 2: { intros c w Hc. apply H1 in Hc. lia. }
    assert (Ge : get (match extptr A with Some e => e | None => tl (rowptr A) end) i = Some (base + o_ i + Zlen (nthl lrows i))).
    { destruct HL as (L & H). destruct (extptr A) as [e|]. { destruct H as (_ & H). destruct (H i Hi) as (h' & _ & G). exact G. }
      pose proof (rep_rowptr_S _ _ _ _ _ i HR Hi) as G. rewrite H. destruct (rowptr A) as [|x rp]; [rewrite get_out in G by (unfold Zlen; cbn; lia); discriminate|]. rewrite get_cons_pos in G by lia. cbn [tl]. replace (i + 1 - 1) with i in G by lia. rewrite G. f_equal. lia. }
    exists (base + o_ i), (base + o_ i + Zlen l1), (base + o_ i + Zlen (nthl lrows i)), (map fst l2).
    assert (Ls : Zlen (nthl lrows i) = Zlen l1 + 1 + Zlen l2) by (rewrite E, Zlen_app, Zlen_cons; lia).
    split; [apply (rep_rowptr _ _ _ _ _ i HR); lia|]. split; [exact Gd|]. split; [exact Ge|]. split.
    { unfold lower_of. rewrite E, map_app, filter_app. cbn [map filter]. replace (fst (i, v) <? i) with false by (cbn [fst]; lia).
      rewrite filter_all, filter_none, app_nil_r, Zlen_map. lia.
      - intros x Hx. apply in_map_iff in Hx as ((c & w) & <- & Hx). apply H2 in Hx. cbn [fst]. lia.
      - intros x Hx. apply in_map_iff in Hx as ((c & w) & <- & Hx). apply H1 in Hx. cbn [fst]. lia. }
    split.
    { unfold succs. cbn [graph_of g_dia g_ext g_col g_base]. rewrite Gd, Ge. rewrite Ls.
      replace (base + o_ i + (Zlen l1 + 1 + Zlen l2)) with (base + o_ i + Zlen l1 + 1 + Zlen l2) by lia.
      apply (mapM_list l2). intros k (c & w) Gk. pose proof (get_Some_bounds _ _ _ Gk).
      replace (base + o_ i + Zlen l1 + 1 + k - base) with (o_ i + (Zlen l1 + 1 + k)) by lia.
      pose proof (Zlen_nonneg l1). rewrite (rep_col _ _ _ _ _ i (Zlen l1 + 1 + k) c w HR Hi). { cbn [fst]. f_equal. lia. }
      rewrite E', get_app_r by lia. rewrite get_cons_pos by lia. replace (Zlen l1 + 1 + k - Zlen l1 - 1) with k by lia. rewrite get_app_l; auto. lia. }
    split. { rewrite Zlen_map. lia. }
    unfold inside, upper_of. rewrite E, map_app, filter_app. cbn [map filter]. replace ((i <? fst (i, v)) && (fst (i, v) <? Zlen lrows)) with false by (cbn [fst]; lia).
    rewrite (filter_none _ (map fst l1)).
    2: { intros x Hx. apply in_map_iff in Hx as ((c & w) & <- & Hx). apply H1 in Hx. cbn [fst]. lia. }
    cbn [app]. rewrite LL. apply filter_ext_in. intros x Hx. apply in_map_iff in Hx as ((c & w) & <- & Hx). apply H2 in Hx. cbn [fst]. lia.
  - intros i j Hj Hi. apply Hlow in Hi as ((v & Hi) & Hlt); auto. destruct (Hsplit j ltac:(lia)) as (l1 & v' & l2 & E & H1 & H2 & _). rewrite E in Hi. apply in_app_or in Hi as [Hi|[Hi|Hi]]; [apply H1 in Hi; lia|injection Hi as <- <-; lia|apply H2 in Hi; lia].
  - intros i j Hi Hj. apply Hup in Hj; auto. lia.
  - intros i j Hi Hj. rewrite Hup, Hlow by auto. split; intros (H & B); (split; [apply Hsym; auto; lia|lia]).
  - intros i Hi. destruct (Hsplit i ltac:(lia)) as (l1 & v & l2 & _ & _ & _ & N). now apply NoDup_filter.
  - intros i Hi. destruct (Hsplit i ltac:(lia)) as (l1 & v & l2 & _ & _ & _ & N). now apply NoDup_filter.
Qed.
End Pattern.

(** The default (static) distribution of an omp for. *)
Definition static_chunks (m T : Z) (chunks : list (list Z)) : Prop :=
  Zlen chunks = T /\ Permutation (concat chunks) (zrange 0 m) /\ forall t, 0 <= t < T -> Zlen (nthl chunks t) <= (m + T - 1) / T.
(** The number of rows of level [l]. *)
Definition level_size (m : Z) (lev : Z -> Z) (l : Z) : Z := Zlen (filter (fun x => lev x =? l) (zrange 0 m)).

(** :498-798 *)
Definition buildTasks (G : gr) (T : Z) (bar agg : bool) (cost : Z -> Z) (chunks : list (list Z)) (sch0 : list nat) (sch : nat -> nat -> list nat) (sch1 : list nat)
    (np rv : list Z) (tbj : Z -> Z) (o2t t2o : list Z) : option (list Z * list Z * list Z * list Z) :=
  ' (rv', lv) <- findLevels G T chunks sch0 sch np rv ;; makeTasks T bar agg cost sch1 rv' lv tbj o2t t2o.

(** Every thread has one task per level and rows of different levels are in different tasks. *)
Definition tasks_by_level (lev : Z -> Z) (nl : Z) (tasks : list (list (list Z))) : Prop :=
  forall t ks, get tasks t = Some ks -> Zlen ks = nl /\ forall k K i, get ks k = Some K -> In i K -> lev i = k.
Definition tasks_nonempty (tasks : list (list (list Z))) : Prop := forall t ks K, get tasks t = Some ks -> In K ks -> K <> [].

(** The largest value of [f] below [m], or -1. *)
Definition zmax_of (f : Z -> Z) (m : Z) : Z := fold_right (fun i a => Z.max (f i) a) (-1) (zrange 0 m).
Lemma zmax_of_min f m : -1 <= zmax_of f m.
Proof. unfold zmax_of. induction (zrange 0 m) as [|a l IH]; cbn [fold_right]; lia. Qed.
Lemma zmax_of_ge f m i : 0 <= i < m -> f i <= zmax_of f m.
Proof. intros Hi. apply In_zrange in Hi. unfold zmax_of. induction (zrange 0 m) as [|a l IH]; [destruct Hi|]. destruct Hi as [->|Hi]; cbn [fold_right]; [lia|]. specialize (IH Hi). lia. Qed.
Lemma zmax_of_in f m : zmax_of f m = -1 \/ exists i, 0 <= i < m /\ f i = zmax_of f m.
Proof.
  enough (H : zmax_of f m = -1 \/ exists i, In i (zrange 0 m) /\ f i = zmax_of f m). { destruct H as [H|(i & Hi & E)]; auto. apply In_zrange in Hi. eauto. }
  unfold zmax_of. induction (zrange 0 m) as [|a l IH]; [auto|]. cbn [fold_right]. destruct (Z.max_spec (f a) (fold_right (fun i a => Z.max (f i) a) (-1) l)) as [(H & ->)|(H & ->)].
  - destruct IH as [E|(i & Hi & E)]; [auto|]. right. exists i. cbn; auto.
  - right. exists a. cbn; auto.
Qed.

Section Levels.
Variables (G : gr) (lo up : Z -> list Z) (lev : Z -> Z) (T : Z).
Hypothesis HP : pattern_ok G lo up.
Hypothesis HD : is_depth (g_m G) lo lev.
Hypothesis HT : 1 <= T.
Let m := g_m G.

Lemma filter_len_lt {X} (p q : X -> bool) l x : In x l -> q x = false -> p x = true -> (forall y, q y = true -> p y = true) -> Zlen (filter q l) < Zlen (filter p l).
Proof.
  intros Hx Qx Px H. induction l as [|a l IH]; [destruct Hx|]. destruct Hx as [->|Hx].
  - cbn [filter]. rewrite Qx, Px, Zlen_cons. enough (Zlen (filter q l) <= Zlen (filter p l)) by lia. clear IH. induction l as [|b l IH]; cbn [filter]; [lia|]. destruct (q b) eqn:Eb. { rewrite (H b Eb), !Zlen_cons. lia. } destruct (p b); rewrite ?Zlen_cons; lia.
  - specialize (IH Hx). cbn [filter]. destruct (q a) eqn:Ea. { rewrite (H a Ea), !Zlen_cons. lia. } destruct (p a); rewrite ?Zlen_cons; lia.
Qed.
(** Levels beyond the first never hold all rows. *)
Lemma level_size_lt l : 0 < l -> 0 < m -> level_size m lev l < m.
Proof.
  intros Hl Hm0. destruct (Z_le_gt_dec m 0) as [|Hm]; [lia|].
  assert (exists x, 0 <= x < m /\ lev x = 0) as (x & Hx & Ex).
  { exists 0. split; [lia|]. destruct (HD 0) as (A & _ & B); [fold m; lia|]. destruct (Z.eq_dec (lev 0) 0); auto. destruct B as (i & Hi & _); [lia|]. apply (po_lt _ _ _ HP) in Hi; [lia|fold m; lia]. }
  unfold level_size. pose proof (filter_len_lt (fun _ => true) (fun x => lev x =? l) (zrange 0 m) x) as H. rewrite filter_true, Zlen_zrange in H. rewrite In_zrange in H. cbv beta in H. specialize (H Hx ltac:(lia) eq_refl (fun _ _ => eq_refl)). lia.
Qed.
Lemma share_two l : T <= 2 -> 0 < l -> level_size m lev l < share m T.
Proof.
  intros HT2 Hl. pose proof (po_m _ _ _ HP) as Hm0. fold m in Hm0. destruct (Z.eq_dec m 0) as [E|E].
  - unfold level_size. rewrite E. rewrite zrange_nil by lia. unfold share. cbn [filter]. change (Zlen (@nil Z)) with 0. assert (1 <= Z.max T (0 + T - 1) / T) by (apply Z.div_le_lower_bound; lia). lia.
  - pose proof (level_size_lt l Hl ltac:(lia)). unfold share. assert (T = 1 \/ T = 2) as [-> | ->] by lia.
    + rewrite Z.div_1_r. lia.
    + assert (m / 2 <= Z.max 2 (m + 2 - 1) / 2) by (apply Z.div_le_mono; lia). pose proof (Z.div_mod (Z.max 2 (m + 2 - 1)) 2 ltac:(lia)). pose proof (Z.mod_pos_bound (Z.max 2 (m + 2 - 1)) 2 ltac:(lia)). lia.
Qed.

Lemma level_count_unique ls ls' : level_sets m lev ls -> level_sets m lev ls' ->
  (forall i, 0 <= i < m -> 0 <= lev i < Zlen ls) -> (forall i, 0 <= i < m -> 0 <= lev i < Zlen ls') ->
  (forall l, 0 <= l < Zlen ls -> nthl ls l <> []) -> (forall l, 0 <= l < Zlen ls' -> nthl ls' l <> []) -> Zlen ls = Zlen ls'.
Proof.
  assert (H : forall ls ls' : list (list Z), level_sets m lev ls -> (forall i, 0 <= i < m -> 0 <= lev i < Zlen ls') -> (forall l, 0 <= l < Zlen ls -> nthl ls l <> []) -> Zlen ls <= Zlen ls').
  { intros l1 l2 A B C. destruct (Z_le_gt_dec (Zlen l1) 0). { pose proof (Zlen_nonneg l2). lia. }
    destruct (nthl l1 (Zlen l1 - 1)) as [|x r] eqn:E. { exfalso. apply (C (Zlen l1 - 1)); auto; lia. }
    destruct (A (Zlen l1 - 1)) as (_ & A'); [lia|]. rewrite E in A'. destruct (proj1 (A' x) (or_introl eq_refl)) as (Hx & Ex). specialize (B x Hx). lia. }
  intros. apply Z.le_antisymm; apply H; auto.
Qed.

Section Run.
Variables (chunks : list (list Z)) (sch0 : list nat) (sch : nat -> nat -> list nat) (np rv : list Z).
Hypothesis Hch : static_chunks m T chunks.
Hypotheses (Hnp : Zlen np = m) (Hrv : Zlen rv = m).

Lemma levels_defined : (forall l, 0 < l -> level_size m lev l < share m T) -> exists r, findLevels G T chunks sch0 sch np rv = Some r.
Proof. intros H. destruct Hch as (A & B & C). eapply (findLevels_ok G lo up lev T HP HD HT chunks sch0 sch np rv); eauto. Qed.

Lemma levels_sorted rv' lv : findLevels G T chunks sch0 sch np rv = Some (rv', lv) ->
  exists nl, 0 <= nl /\ (forall i, 0 <= i < m -> 0 <= lev i < nl) /\ (forall l, 0 <= l < nl -> exists i, 0 <= i < m /\ lev i = l) /\
    Permutation rv' (zrange 0 m) /\ lv = map (off (lvl m lev)) (zrange 0 (nl + 1)) /\
    sort_levels rv' lv = Some (map (lvl m lev) (zrange 0 nl)) /\
    exists ls, Zlen ls = nl /\ level_sets m lev ls /\ rv' = concat ls /\ lv = map (off (nthl ls)) (zrange 0 (nl + 1)).
Proof.
  intros E. destruct Hch as (A & B & C). destruct (findLevels_ok G lo up lev T HP HD HT chunks sch0 sch np rv A B C Hnp Hrv) as (F & _).
  destruct (F rv' lv E) as (ls & L1 & L2 & L3 & -> & ->). fold m in L1, L2. exists (Zlen ls). split; [apply Zlen_nonneg|]. split; auto. split.
  { intros l Hl. destruct (nthl ls l) as [|x r] eqn:El; [destruct (L3 l Hl El)|]. exists x. apply (L1 l Hl). rewrite El. cbn; auto. }
  split.
  { apply NoDup_Permutation.
    - apply (level_sets_NoDup m lev); auto.
    - apply NoDup_zrange.
    - intros x. rewrite In_zrange. split.
      + intros Hx. apply in_concat in Hx as (q & Hq & Hx). apply In_get in Hq as (l & Bl & Gl). destruct (L1 l Bl) as (_ & L). apply (nthl_get ls) in Gl. rewrite <- Gl in Hx. apply L in Hx. lia.
      + intros Hx. specialize (L2 x Hx). destruct (L1 (lev x) L2) as (_ & L). apply nthl_In. exists (lev x). split; auto. now apply L. }
  split.
  { apply map_ext_in. intros k Hk. apply In_zrange in Hk. apply before_ext. intros j Hj. destruct (L1 j ltac:(lia)) as (N & M). apply Zlen_same; auto. { apply NoDup_filter, NoDup_zrange. } intros i. rewrite M. unfold lvl. rewrite (filter_In (fun i => lev i =? j)), In_zrange. lia. }
  split; [now apply sort_levels_ok|]. exists ls. auto.
Qed.

(** All runs that succeed give the same tasks. *)
Definition level_count : Z := zmax_of lev m + 1.
Lemma level_count_ok nl : 0 <= nl -> (forall i, 0 <= i < m -> 0 <= lev i < nl) -> (forall l, 0 <= l < nl -> exists i, 0 <= i < m /\ lev i = l) -> nl = level_count.
Proof.
  intros Hnl H1 H2. unfold level_count. pose proof (zmax_of_ge lev m) as Z1. destruct (zmax_of_in lev m) as [Z2|(i & Hi & Z2)].
  - destruct (Z.eq_dec nl 0) as [->|N]; [lia|]. destruct (H2 (nl - 1)) as (i & Hi & Ei); [lia|]. specialize (Z1 i Hi). lia.
  - specialize (H1 i Hi). destruct (H2 (nl - 1)) as (j & Hj & Ej); [lia|]. specialize (Z1 j Hj). lia.
Qed.
Definition tasks_of (bar agg : bool) (cost : Z -> Z) := the_tasks m T level_count lev bar agg cost.

Theorem buildTasks_ok bar agg cost sch1 tbj o2t t2o : (forall i, 0 <= i < m -> 0 < cost i) -> Zlen o2t = m -> Zlen t2o = m ->
  (forall thb tb o2t' t2o', buildTasks G T bar agg cost chunks sch0 sch sch1 np rv tbj o2t t2o = Some (thb, tb, o2t', t2o') -> tasks_ok m T (tasks_of bar agg cost) thb tb o2t' t2o') /\
  ((forall l, 0 < l -> level_size m lev l < share m T) -> exists r, buildTasks G T bar agg cost chunks sch0 sch sch1 np rv tbj o2t t2o = Some r).
Proof.
  intros Hc Lo Lt. unfold buildTasks.
  assert (H : forall rv' lv, findLevels G T chunks sch0 sch np rv = Some (rv', lv) -> exists thb tb o2t' t2o', makeTasks T bar agg cost sch1 rv' lv tbj o2t t2o = Some (thb, tb, o2t', t2o') /\ tasks_ok m T (tasks_of bar agg cost) thb tb o2t' t2o').
  { intros rv' lv E. destruct (levels_sorted rv' lv E) as (nl & Hnl & H1 & H2 & _ & _ & _ & ls & Ll & Hls & -> & ->). pose proof (level_count_ok nl Hnl H1 H2) as Ec. unfold tasks_of. rewrite <- Ec.
    apply makeTasks_ok; auto. apply (po_m _ _ _ HP). }
  split.
  - intros thb tb o2t' t2o' E. destruct (findLevels G T chunks sch0 sch np rv) as [(rv' & lv)|] eqn:E1; [|discriminate]. destruct (H rv' lv eq_refl) as (a & b & c & d & E2 & Hok). rewrite E2 in E. injection E as <- <- <- <-. auto.
  - intros Hs. destruct (levels_defined Hs) as ((rv' & lv) & E). rewrite E. destruct (H rv' lv E) as (a & b & c & d & E2 & _). rewrite E2. eauto.
Qed.
End Run.

Section Facts.
Variables (bar agg : bool) (cost : Z -> Z).
Hypothesis Hcost : forall i, 0 <= i < m -> 0 < cost i.
Lemma level_count_range i : 0 <= i < m -> 0 <= lev i < level_count.
Proof. intros Hi. destruct (HD i Hi) as (A & _). pose proof (zmax_of_ge lev m i Hi). unfold level_count. lia. Qed.
Lemma level_count_nonneg : 0 <= level_count.
Proof. unfold level_count. pose proof (zmax_of_min lev m). lia. Qed.
Lemma tasks_of_levels : levels_increase lev (tasks_of bar agg cost).
Proof. apply tasks_levels; auto using level_count_range, level_count_nonneg. Qed.
Lemma tasks_of_barrier : bar = true -> tasks_by_level lev level_count (tasks_of bar agg cost).
Proof.
  intros ->. pose proof level_count_nonneg as Hn. intros t ks Hks. pose proof (get_Some_bounds _ _ _ Hks) as Bt. unfold tasks_of, the_tasks in Hks, Bt. rewrite Zlen_map, Zlen_zrange in Bt.
  rewrite get_map, get_zrange in Hks by lia. cbn [option_map] in Hks. replace (0 + t) with t in Hks by lia. injection Hks as <-.
  unfold lvs. cbn [orb]. rewrite filter_true. split. { rewrite Zlen_map, Zlen_zrange. lia. }
  intros k K i HK Hi. apply get_map_inv in HK as (l & Gl & ->). pose proof (get_Some_bounds _ _ _ Gl) as Bk. rewrite Zlen_zrange in Bk. rewrite get_zrange in Gl by lia. injection Gl as <-.
  replace (0 + k) with k in Hi by lia. eapply (piece_level m T level_count lev agg cost HT Hn); eauto using level_count_range; lia.
Qed.
Lemma tasks_of_nonempty : bar = false -> tasks_nonempty (tasks_of bar agg cost).
Proof.
  intros -> t ks K Hks HK. unfold tasks_of, the_tasks in Hks. apply get_map_inv in Hks as (t' & _ & ->). apply in_map_iff in HK as (l & <- & Hl). unfold lvs in Hl. cbn [orb] in Hl.
  apply (filter_In (fun l => 0 <? Zlen (piece m T level_count lev agg cost t' l))) in Hl as (_ & Hl). intros E. rewrite E in Hl. change (Zlen (@nil Z)) with 0 in Hl. lia.
Qed.
End Facts.
End Levels.

(** ** Checking patterns by computation *)
Fixpoint ssorted_b (l : list Z) : bool := match l with x :: (y :: _) as r => (x <? y) && ssorted_b r | _ => true end.
Definition sym_check {V} (rows : rows_t V) : bool :=
  forallb (fun i => let cs := map fst (nthl rows i) in
    ssorted_b cs && existsb (Z.eqb i) cs && forallb (fun c => 0 <=? c) cs &&
    forallb (fun c => (Zlen rows <=? c) || existsb (Z.eqb i) (map fst (nthl rows c))) cs) (zrange 0 (Zlen rows)).
Lemma ssorted_b_cons x l : ssorted_b (x :: l) = true -> ssorted_b l = true /\ forall y, In y l -> x < y.
Proof.
  revert x. induction l as [|y l IH]; intros x H; [split; [reflexivity|intros y []]|]. cbn [ssorted_b] in H. apply andb_prop in H as (H1 & H2). split; [exact H2|].
  destruct (IH y H2) as (_ & H3). intros z [<-|Hz]; [lia|]. specialize (H3 z Hz). lia.
Qed.
Lemma ssorted_b_NoDup l : ssorted_b l = true -> NoDup l.
Proof. induction l as [|x l IH]; intros H; constructor. - intros Hx. apply ssorted_b_cons in H as (_ & H). specialize (H x Hx). lia. - apply IH. now apply ssorted_b_cons in H. Qed.
Lemma ssorted_b_split {V} i (r : list (Z * V)) : ssorted_b (map fst r) = true -> In i (map fst r) ->
  exists l1 v l2, r = l1 ++ (i, v) :: l2 /\ (forall c w, In (c, w) l1 -> c < i) /\ (forall c w, In (c, w) l2 -> i < c).
Proof.
  induction r as [|(c, v) r IH]; intros Hs Hi; [destruct Hi|]. cbn [map fst] in *. apply ssorted_b_cons in Hs as (Hs & Hb). destruct Hi as [->|Hi].
  - exists [], v, r. split; auto. split; [intros c w []|]. intros c w H. apply Hb. apply (in_map fst) in H. exact H.
  - destruct (IH Hs Hi) as (l1 & v' & l2 & -> & H1 & H2). exists ((c, v) :: l1), v', l2. split; auto. split; auto. intros c' w [E|H]; [|eauto]. injection E as <- <-. apply Hb. exact Hi.
Qed.
Lemma sym_check_ok {V} (rows : rows_t V) : sym_check rows = true -> sym_pattern rows.
Proof.
  intros H. unfold sym_check in H. rewrite forallb_forall in H.
  assert (H' : forall i, 0 <= i < Zlen rows -> ssorted_b (map fst (nthl rows i)) = true /\ In i (map fst (nthl rows i)) /\ (forall c, In c (map fst (nthl rows i)) -> 0 <= c) /\
     forall c, In c (map fst (nthl rows i)) -> c < Zlen rows -> In i (map fst (nthl rows c))).
  { intros i Hi. specialize (H i (proj2 (In_zrange _ _ _) Hi)). cbv zeta in H. apply andb_prop in H as (H & H4). apply andb_prop in H as (H & H3). apply andb_prop in H as (H1 & H2). rewrite forallb_forall in H3, H4.
    split; [exact H1|]. split; [|split].
    - apply existsb_exists in H2 as (x & Hx & E). assert (x = i) by lia. congruence.
    - intros c Hc. specialize (H3 c Hc). lia.
    - intros c Hc Hlt. specialize (H4 c Hc). apply orb_prop in H4 as [H4|H4]; [lia|]. apply existsb_exists in H4 as (x & Hx & E). assert (x = i) by lia. congruence. }
  constructor.
  - intros i Hi. destruct (H' i Hi) as (A & B & C & _). destruct (ssorted_b_split i _ A B) as (l1 & v & l2 & E & H1 & H2). exists l1, v, l2. split; auto. split; [|split; auto using ssorted_b_NoDup].
    intros c w Hc. split; [|eauto]. apply C. rewrite E, map_app. apply in_or_app. left. apply (in_map fst) in Hc. exact Hc.
  - intros i j Hi Hj (v & Hv). destruct (H' i Hi) as (_ & _ & _ & D). specialize (D j (in_map fst _ _ Hv) ltac:(lia)). apply in_map_iff in D as ((c & w) & <- & Hw). exists w. exact Hw.
Qed.

Definition dp_of {V} (base : Z) (rows : rows_t V) : list Z := map (fun i => base + off (nthl rows) i + Zlen (lower_of rows i)) (zrange 0 (Zlen rows)).
Lemma dp_of_ok {V} base (rows : rows_t V) : sym_pattern rows -> diag_first base rows (dp_of base rows).
Proof.
  intros [Hs _]. split. { unfold dp_of. rewrite Zlen_map, Zlen_zrange. pose proof (Zlen_nonneg rows). lia. }
  intros i Hi. destruct (Hs i Hi) as (l1 & v & l2 & E & H1 & H2 & _). exists l1, v, l2. split; auto. split. { intros c w Hc. apply H1 in Hc. lia. }
  unfold dp_of. rewrite get_map, get_zrange by lia. cbn [option_map]. replace (0 + i) with i by lia. do 2 f_equal.
  unfold lower_of. rewrite E, map_app, filter_app. cbn [map filter]. replace (fst (i, v) <? i) with false by (cbn [fst]; lia).
  rewrite filter_all, filter_none, app_nil_r, Zlen_map; auto.
  - intros x Hx. apply in_map_iff in Hx as ((c & w) & <- & Hx). apply H2 in Hx. cbn [fst]. lia.
  - intros x Hx. apply in_map_iff in Hx as ((c & w) & <- & Hx). apply H1 in Hx. cbn [fst]. lia.
Qed.
Definition csr_of {V} (base n : Z) (rows : rows_t V) : csr V := mkCSR (Zlen rows) n (rowptr_of base rows) (colidx_of base rows) (Some (values_of rows)) None None None None.
Lemma csr_of_rep {V} base n (rows : rows_t V) : rep true base n rows (csr_of base n rows).
Proof. repeat split. Qed.
Lemma csr_of_local {V} base n (rows : rows_t V) : local_rows base rows (csr_of base n rows) rows.
Proof. split; reflexivity. Qed.
Lemma csr_of_pattern {V} base n (rows : rows_t V) : sym_check rows = true -> pattern_ok (graph_of (csr_of base n rows) base (dp_of base rows)) (lower_of rows) (upper_of rows).
Proof.
  intros H. apply sym_check_ok in H. eapply csr_pattern; eauto using csr_of_rep, csr_of_local, dp_of_ok.
Qed.

(** ** Worked case and refutations *)
(** Rows 0, 1 without dependencies, 2 behind 0, 3 behind 1 and 2. *)
Definition ex_rows : rows_t Z := [[(0, 4); (2, 1)]; [(1, 4); (3, 1)]; [(0, 1); (2, 4); (3, 1)]; [(1, 1); (2, 1); (3, 4)]].
Definition ex_G : gr := graph_of (csr_of 0 4 ex_rows) 0 (dp_of 0 ex_rows).
Lemma ex_rows_ok : sym_pattern ex_rows.
Proof. apply sym_check_ok. reflexivity. Qed.
Lemma ex_levels_run : findLevels ex_G 2 [[0; 1]; [2; 3]] [1; 1; 0; 0]%nat (fun _ _ => []) [9; 9; 9; 9] [9; 9; 9; 9] = Some ([0; 1; 2; 3], [0; 2; 3; 4]).
Proof. vm_compute. reflexivity. Qed.
Lemma ex_tasks_run : buildTasks ex_G 2 false false (fun _ => 1) [[0; 1]; [2; 3]] [] (fun _ _ => []) [] [9; 9; 9; 9] [9; 9; 9; 9] (fun _ => 7) [9; 9; 9; 9] [9; 9; 9; 9] =
  Some ([0; 3; 4], [0; 1; 2; 3; 4], [0; 3; 1; 2], [0; 2; 3; 1]).
Proof. vm_compute. reflexivity. Qed.

(** Row 0 is adjacent to rows 64..143 and nothing else; 4 threads. *)
Definition hub_rows : rows_t Z :=
  map (fun i => if i =? 0 then (0, 1) :: map (fun j => (j, 1)) (zrange 64 144) else if i <? 64 then [(i, 1)] else [(0, 1); (i, 1)]) (zrange 0 144).
Definition hub_G : gr := graph_of (csr_of 0 144 hub_rows) 0 (dp_of 0 hub_rows).
Definition hub_chunks : list (list Z) := map (fun t => zrange (36 * t) (36 * t + 36)) (zrange 0 4).
Definition hub_zero : list Z := map (fun _ => 0) (zrange 0 144).
Lemma hub_check : sym_check hub_rows = true.
Proof. vm_compute. reflexivity. Qed.
Lemma hub_run : findLevels hub_G 4 hub_chunks [] (fun _ _ => []) hub_zero hub_zero = None.
Proof. vm_compute. reflexivity. Qed.
Lemma hub_static : static_chunks 144 4 hub_chunks.
Proof.
  split; [reflexivity|]. split.
  - enough (concat hub_chunks = zrange 0 144) as -> by apply Permutation_refl. vm_compute. reflexivity.
  - intros t Ht. unfold hub_chunks. rewrite nthl_map_zrange by lia. rewrite Zlen_zrange. change ((144 + 4 - 1) / 4) with 36. lia.
Qed.
Lemma queue_overflow : exists (rows : rows_t Z) dp T chunks sch0 sch np rv,
  sym_pattern rows /\ diag_first 0 rows dp /\ 1 <= T /\ static_chunks (Zlen rows) T chunks /\ Zlen np = Zlen rows /\ Zlen rv = Zlen rows /\
  findLevels (graph_of (csr_of 0 (Zlen rows) rows) 0 dp) T chunks sch0 sch np rv = None.
Proof.
  exists hub_rows, (dp_of 0 hub_rows), 4, hub_chunks, [], (fun _ _ => []), hub_zero, hub_zero.
  assert (L : Zlen hub_rows = 144) by (vm_compute; reflexivity). rewrite L. pose proof (sym_check_ok _ hub_check) as HS.
  split; auto. split; [now apply dp_of_ok|]. split; [lia|]. split; [exact hub_static|]. split; [vm_compute; reflexivity|]. split; [vm_compute; reflexivity|]. exact hub_run.
Qed.

(** Three independent rows of cost 0 on two threads: two rows are in no task. *)
Lemma zero_cost_run : makeTasks 2 false false (fun _ => 0) [] [0; 1; 2] [0; 3] (fun _ => 7) [9; 9; 9] [9; 9; 9] = Some ([0; 0; 1], [0; 3], [0; 9; 9], [0; 9; 9]).
Proof. vm_compute. reflexivity. Qed.

(** ** The statements for CSR matrices *)
Section Csr.
Context {V : Type}.
Variables (hasv : bool) (base n : Z) (rows lrows : rows_t V) (A : csr V) (dp : list Z).
Hypothesis HR : rep hasv base n rows A.
Hypothesis HL : local_rows base rows A lrows.
Hypothesis HP : sym_pattern lrows.
Hypothesis HD : diag_first base rows dp.
Let m := Zlen rows.
Let G := graph_of A base dp.
Lemma G_m : g_m G = m.
Proof. apply HR. Qed.
Lemma csr_depth : exists lev, is_depth m (lower_of lrows) lev.
Proof. rewrite <- G_m. pose proof (csr_pattern _ _ _ _ _ _ _ HR HL HP HD) as P. apply depth_exists. intros i j Hj Hi. eapply (po_lt _ _ _ P); eauto. Qed.

Theorem csr_levels T chunks sch0 sch np rv rv' lv : 1 <= T -> static_chunks m T chunks -> Zlen np = m -> Zlen rv = m ->
  findLevels G T chunks sch0 sch np rv = Some (rv', lv) ->
  exists lev nl, is_depth m (lower_of lrows) lev /\ 0 <= nl /\ (forall i, 0 <= i < m -> 0 <= lev i < nl) /\ (forall l, 0 <= l < nl -> exists i, 0 <= i < m /\ lev i = l) /\
    Permutation rv' (zrange 0 m) /\ lv = map (off (lvl m lev)) (zrange 0 (nl + 1)) /\ sort_levels rv' lv = Some (map (lvl m lev) (zrange 0 nl)).
Proof.
  intros HT Hc Ln Lr E. destruct csr_depth as (lev & Hd). pose proof (csr_pattern _ _ _ _ _ _ _ HR HL HP HD) as P. fold G in P.
  destruct (levels_sorted G _ _ lev T P ltac:(now rewrite G_m) HT chunks sch0 sch np rv ltac:(now rewrite G_m) ltac:(now rewrite G_m) ltac:(now rewrite G_m) rv' lv E) as (nl & H). rewrite G_m in H.
  exists lev, nl. tauto.
Qed.
Theorem csr_levels_defined lev T chunks sch0 sch np rv : 1 <= T -> static_chunks m T chunks -> Zlen np = m -> Zlen rv = m ->
  is_depth m (lower_of lrows) lev -> T <= 2 \/ (forall l, 0 < l -> level_size m lev l < share m T) -> exists r, findLevels G T chunks sch0 sch np rv = Some r.
Proof.
  intros HT Hc Ln Lr Hd Hs. pose proof (csr_pattern _ _ _ _ _ _ _ HR HL HP HD) as P. fold G in P.
  apply (levels_defined G _ _ lev T P ltac:(now rewrite G_m) HT chunks sch0 sch np rv); rewrite ?G_m; auto. destruct Hs as [Hs|Hs]; auto.
  intros l Hl. rewrite <- G_m. eapply share_two; eauto. now rewrite G_m.
Qed.
Theorem csr_levels_det T1 chunks1 sch1 sch1' np1 rv1 T2 chunks2 sch2 sch2' np2 rv2 r1 lv1 r2 lv2 :
  1 <= T1 -> static_chunks m T1 chunks1 -> Zlen np1 = m -> Zlen rv1 = m -> 1 <= T2 -> static_chunks m T2 chunks2 -> Zlen np2 = m -> Zlen rv2 = m ->
  findLevels G T1 chunks1 sch1 sch1' np1 rv1 = Some (r1, lv1) -> findLevels G T2 chunks2 sch2 sch2' np2 rv2 = Some (r2, lv2) ->
  lv1 = lv2 /\ sort_levels r1 lv1 = sort_levels r2 lv2.
Proof.
  intros HT1 C1 Ln1 Lr1 HT2 C2 Ln2 Lr2 E1 E2. destruct csr_depth as (lev & Hd). pose proof (csr_pattern _ _ _ _ _ _ _ HR HL HP HD) as P. fold G in P.
  destruct (levels_sorted G _ _ lev T1 P ltac:(now rewrite G_m) HT1 chunks1 sch1 sch1' np1 rv1 ltac:(now rewrite G_m) ltac:(now rewrite G_m) ltac:(now rewrite G_m) r1 lv1 E1) as (n1 & H1 & H2 & H3 & _ & H4 & H5 & _).
  destruct (levels_sorted G _ _ lev T2 P ltac:(now rewrite G_m) HT2 chunks2 sch2 sch2' np2 rv2 ltac:(now rewrite G_m) ltac:(now rewrite G_m) ltac:(now rewrite G_m) r2 lv2 E2) as (n2 & H1' & H2' & H3' & _ & H4' & H5' & _).
  pose proof (level_count_ok G lev n1 H1 H2 H3). pose proof (level_count_ok G lev n2 H1' H2' H3'). assert (n1 = n2) by congruence. subst n2. split; congruence.
Qed.

Theorem csr_tasks T bar agg cost chunks sch0 sch sch1 np rv tbj o2t t2o thb tb o2t' t2o' :
  1 <= T -> static_chunks m T chunks -> Zlen np = m -> Zlen rv = m -> (forall i, 0 <= i < m -> 0 < cost i) -> Zlen o2t = m -> Zlen t2o = m ->
  buildTasks G T bar agg cost chunks sch0 sch sch1 np rv tbj o2t t2o = Some (thb, tb, o2t', t2o') ->
  exists lev nl tasks, is_depth m (lower_of lrows) lev /\ tasks_ok m T tasks thb tb o2t' t2o' /\ levels_increase lev tasks /\
    (bar = true -> tasks_by_level lev nl tasks) /\ (bar = false -> tasks_nonempty tasks).
Proof.
  intros HT Hc Ln Lr Hcost Lo Lt E. destruct csr_depth as (lev & Hd). pose proof (csr_pattern _ _ _ _ _ _ _ HR HL HP HD) as P. fold G in P.
  destruct (buildTasks_ok G _ _ lev T P ltac:(now rewrite G_m) HT chunks sch0 sch np rv ltac:(now rewrite G_m) ltac:(now rewrite G_m) ltac:(now rewrite G_m) bar agg cost sch1 tbj o2t t2o) as (H & _); rewrite ?G_m; auto.
  exists lev, (level_count G lev), (tasks_of G lev T bar agg cost). split; auto. split. { rewrite <- G_m. now apply H. }
  split. { apply (tasks_of_levels G (lower_of lrows)); rewrite ?G_m; auto. }
  split. { intros Hb. apply (tasks_of_barrier G (lower_of lrows)); rewrite ?G_m; auto. }
  intros Hb. apply tasks_of_nonempty; rewrite ?G_m; auto.
Qed.
Theorem csr_tasks_defined lev T bar agg cost chunks sch0 sch sch1 np rv tbj o2t t2o :
  1 <= T -> static_chunks m T chunks -> Zlen np = m -> Zlen rv = m -> (forall i, 0 <= i < m -> 0 < cost i) -> Zlen o2t = m -> Zlen t2o = m ->
  is_depth m (lower_of lrows) lev -> T <= 2 \/ (forall l, 0 < l -> level_size m lev l < share m T) ->
  exists thb tb o2t' t2o', buildTasks G T bar agg cost chunks sch0 sch sch1 np rv tbj o2t t2o = Some (thb, tb, o2t', t2o').
Proof.
  intros HT Hc Ln Lr Hcost Lo Lt Hd Hs. pose proof (csr_pattern _ _ _ _ _ _ _ HR HL HP HD) as P. fold G in P.
  destruct (buildTasks_ok G _ _ lev T P ltac:(now rewrite G_m) HT chunks sch0 sch np rv ltac:(now rewrite G_m) ltac:(now rewrite G_m) ltac:(now rewrite G_m) bar agg cost sch1 tbj o2t t2o) as (_ & H); rewrite ?G_m; auto.
  destruct H as ((((thb & tb) & a) & b) & E); [|eauto 6]. destruct Hs as [Hs|Hs]; rewrite ?G_m; auto. intros l Hl. rewrite <- G_m. eapply share_two; eauto. now rewrite G_m.
Qed.
Theorem csr_tasks_det T bar agg cost chunks1 sch1 sch1' sch1'' np1 rv1 tbj1 o2t1 t2o1 chunks2 sch2 sch2' sch2'' np2 rv2 tbj2 o2t2 t2o2 r1 r2 :
  1 <= T -> static_chunks m T chunks1 -> Zlen np1 = m -> Zlen rv1 = m -> static_chunks m T chunks2 -> Zlen np2 = m -> Zlen rv2 = m -> (forall i, 0 <= i < m -> 0 < cost i) ->
  Zlen o2t1 = m -> Zlen t2o1 = m -> Zlen o2t2 = m -> Zlen t2o2 = m ->
  buildTasks G T bar agg cost chunks1 sch1 sch1' sch1'' np1 rv1 tbj1 o2t1 t2o1 = Some r1 -> buildTasks G T bar agg cost chunks2 sch2 sch2' sch2'' np2 rv2 tbj2 o2t2 t2o2 = Some r2 -> r1 = r2.
Proof.
  intros HT C1 Ln1 Lr1 C2 Ln2 Lr2 Hcost Lo1 Lt1 Lo2 Lt2 E1 E2. destruct csr_depth as (lev & Hd). pose proof (csr_pattern _ _ _ _ _ _ _ HR HL HP HD) as P. fold G in P.
  destruct (buildTasks_ok G _ _ lev T P ltac:(now rewrite G_m) HT chunks1 sch1 sch1' np1 rv1 ltac:(now rewrite G_m) ltac:(now rewrite G_m) ltac:(now rewrite G_m) bar agg cost sch1'' tbj1 o2t1 t2o1) as (H1 & _); rewrite ?G_m; auto.
  destruct (buildTasks_ok G _ _ lev T P ltac:(now rewrite G_m) HT chunks2 sch2 sch2' np2 rv2 ltac:(now rewrite G_m) ltac:(now rewrite G_m) ltac:(now rewrite G_m) bar agg cost sch2'' tbj2 o2t2 t2o2) as (H2 & _); rewrite ?G_m; auto.
  destruct r1 as (((a1 & b1) & c1) & d1), r2 as (((a2 & b2) & c2) & d2). specialize (H1 _ _ _ _ E1). specialize (H2 _ _ _ _ E2). rewrite G_m in H1, H2.
  destruct H1 as [_ A1 A2 A3 A4 (A5 & A6)], H2 as [_ B1 B2 B3 B4 (B5 & B6)]. assert (c1 = c2) as ->; [|congruence].
  apply list_ext; [lia|]. intros i Hi. assert (In i d1) as Hd1. { eapply Permutation_in; [symmetry; exact A4|]. apply In_zrange. lia. }
  apply In_get in Hd1 as (p & _ & Gp). rewrite (A6 p i Gp). symmetry. apply B6. congruence.
Qed.
End Csr.
