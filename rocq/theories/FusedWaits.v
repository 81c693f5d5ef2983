(** * The wait lists of the fused schedule suffice.

    An SpMV task reads every column of its rows after the backward sweep.  When the
    tasks on its list are finished, the tasks of all these columns are. *)
From Coq Require Import Permutation Relations.
From Verif Require Import Base Interleave Spec Search Partition PrefixSum Flat Csr CsrOps CsrTools Transpose RowPar Exec Kernels Levels LevelsFacts LevelsMain Tasks LevelsCsr TaskGraph TaskGraphFacts TaskGraphLists TaskGraphMain TaskGraphOrder TaskGraphCsr Sched SchedPerm SchedCases Fused.

(** ** Lists *)
Lemma set_diff_ok p fuel : forall l, monotone l -> (length l + length (filter p l) <= fuel)%nat -> set_diff fuel l (filter p l) = filter (fun x => negb (p x)) l.
Proof.
  induction fuel as [|fuel IH]; intros [|x l] Hm Hf; cbn [set_diff filter]; auto; [cbn [length] in Hf; lia|].
  apply Sorted_mono in Hm as (H1 & H2). cbn [filter length] in Hf. destruct (p x) eqn:Ep; cbn [negb length] in *.
  - replace (x <? x) with false by lia. apply IH; auto. lia.
  - destruct (filter p l) as [|y r] eqn:Ef.
    + f_equal. symmetry. apply filter_all. intros z Hz. destruct (p z) eqn:E; auto. assert (I : In z (filter p l)) by (apply filter_In; auto). rewrite Ef in I. destruct I.
    + assert (Hy : In y (filter p l)) by (rewrite Ef; now left). apply filter_In in Hy as (Hy & Py). specialize (H1 y Hy). assert (x <> y) by (intros ->; congruence). replace (x <? y) with true by lia. rewrite <- Ef in *. f_equal. apply IH; auto. lia.
Qed.
Lemma zsort_id l : monotone l -> zsort l = l.
Proof. intros H. apply mono_unique; auto using zsort_mono, zsort_perm. Qed.
Lemma rev_last {A} (l : list A) b r : rev l = b :: r -> l = rev r ++ [b].
Proof. intros H. rewrite <- (rev_involutive l), H. reflexivity. Qed.
(** Counting pairs by rows and by columns. *)
Lemma double_count {A B} (p : A -> B -> bool) (la : list A) (lb : list B) :
  zsum (map (fun b => Zlen (filter (fun a => p a b) la)) lb) = zsum (map (fun a => Zlen (filter (p a) lb)) la).
Proof.
  induction la as [|a la IH]; cbn [map filter].
  - induction lb as [|b lb IHb]; auto.
  - change (zsum (?x :: ?y)) with (x + zsum y). rewrite <- IH. clear IH. induction lb as [|b lb IHb]; [reflexivity|]. cbn [map filter]. change (zsum (?x :: ?y)) with (x + zsum y). destruct (p a b); rewrite ?Zlen_cons; lia.
Qed.
Lemma zsum_le_map (f g : Z -> Z) l : (forall x, In x l -> f x <= g x) -> zsum (map f l) <= zsum (map g l).
Proof. induction l as [|x l IH]; intros H; cbn [map]; [lia|]. change (zsum (?x :: ?y)) with (x + zsum y). pose proof (H x (or_introl eq_refl)). specialize (IH (fun y Hy => H y (or_intror Hy))). lia. Qed.
Lemma zsum_plus (f : Z -> Z) l : zsum (map (fun x => f x + 1) l) = zsum (map f l) + Zlen l.
Proof. induction l as [|x l IH]; [reflexivity|]. cbn [map]. change (zsum (?x :: ?y)) with (x + zsum y). rewrite IH, Zlen_cons. lia. Qed.

Lemma get_mapz {A} (f : Z -> A) n v : 0 <= v < n -> get (map f (zrange 0 n)) v = Some (f v).
Proof. intros H. rewrite get_map, get_zrange by lia. reflexivity. Qed.
Lemma Zlen_mapz {A} (f : Z -> A) n : 0 <= n -> Zlen (map f (zrange 0 n)) = n.
Proof. intros H. rewrite Zlen_map, Zlen_zrange. lia. Qed.

Lemma mapM_fun {A} (f : Z -> option A) l : forall a, (forall k x, get l k = Some x -> f (a + k) = Some x) -> mapM f (zrange a (a + Zlen l)) = Some l.
Proof.
  induction l as [|x l IH]; intros a H. { rewrite zrange_nil by (change (Zlen (@nil A)) with 0; lia). reflexivity. }
  pose proof (Zlen_nonneg l). rewrite Zlen_cons, zrange_cons by lia. cbn [mapM]. replace (f a) with (Some x) by (rewrite <- (H 0 x eq_refl); f_equal; lia).
  replace (a + (1 + Zlen l)) with (a + 1 + Zlen l) by lia. rewrite IH; [reflexivity|]. intros k y Hk. replace (a + 1 + k) with (a + (k + 1)) by lia. apply H. pose proof (get_Some_bounds _ _ _ Hk). rewrite get_cons_pos by lia. now rewrite Z.add_simpl_r.
Qed.

(** The copy stays inside the buffer when the lists up to each task do. *)
Lemma copy_safe (tp : list (list Z)) : forall (invs : list (list Z)) buf cnt ps ns, Zlen invs = Zlen tp -> 0 <= cnt ->
  (forall k l, get tp k = Some l -> cnt + zsum (map (fun l => Zlen l) (slice invs 0 k)) + Zlen l <= Zlen buf) ->
  exists s, foldM (fun x s =>
      let '(ps, ns, buf, cnt) := s in let '(inv, l) := x in
      buf' <- foldM (fun kv buf => set buf (cnt + fst kv) (snd kv)) (combine (zrange 0 (Zlen l)) l) buf ;;
      Some (ps ++ [cnt], ns ++ [Zlen l], buf', cnt + Zlen inv)) (combine invs tp) (ps, ns, buf, cnt) = Some s.
Proof.
  induction tp as [|l tp IH]; intros invs buf c ps ns HL Hc H.
  - destruct invs; cbn [combine foldM]; eauto.
  - destruct invs as [|inv invs]. { eexists. reflexivity. } rewrite !Zlen_cons in HL. cbn [combine foldM].
    pose proof (H 0 l eq_refl) as H0. replace (slice (inv :: invs) 0 0) with (@nil (list Z)) in H0 by (unfold slice; reflexivity). cbn in H0.
    destruct (copy_one l c buf Hc ltac:(lia)) as (b2 & -> & L2 & _). apply IH; [lia|pose proof (Zlen_nonneg inv); lia|].
    intros k x Hk. rewrite L2. pose proof (get_Some_bounds _ _ _ Hk). specialize (H (k + 1) x). rewrite get_cons_pos in H by lia. rewrite Z.add_simpl_r in H. specialize (H Hk).
    replace (slice (inv :: invs) 0 (k + 1)) with (inv :: slice invs 0 k) in H. 2: { unfold slice. replace (Z.to_nat (k + 1 - 0)) with (S (Z.to_nat (k - 0))) by lia. reflexivity. }
    cbn [map] in H. change (zsum (?x :: ?y)) with (x + zsum y) in H. lia.
Qed.

Section Waits.
Variables (up : Z -> list Z) (T : Z) (tasks : list (list (list Z))) (thb : list Z).
Notation nt := (nt tasks).
Notation ts := (ts tasks).
Notation tof := (tof tasks).
Notation own v := (owner thb T v).
Notation Eb := (Eb up tasks).
Notation Xb := (Xb up T tasks thb).
Notation adj := (adj up T tasks thb).
Notation adjs := (map adj (zrange 0 nt)).
Lemma in_adj v w : In w (adj v) <-> 0 <= w < nt /\ Xb v w = true.
Proof. unfold TaskGraphMain.adj. now rewrite filter_In, In_zrange. Qed.
(** ** The parents in other threads *)
(** Task [p] is the first of its thread among the parents of [c]. *)
Definition Pb (c p : Z) : bool := Xb p c && negb (existsb (fun p' => (own p' =? own p) && Xb p' c) (zrange 0 p)).
Lemma Pb_spec c p : Pb c p = true <-> Xb p c = true /\ forall p', 0 <= p' < p -> own p' = own p -> Xb p' c = false.
Proof.
  unfold Pb. rewrite andb_true_iff, negb_true_iff. split; intros (A & B); split; auto.
  - intros p' Hp E. destruct (Xb p' c) eqn:X; auto. assert (existsb (fun p' => (own p' =? own p) && Xb p' c) (zrange 0 p) = true); [|congruence]. apply existsb_exists. exists p'. rewrite X, In_zrange. split; auto. lia.
  - apply Bool.not_true_is_false. intros H. apply existsb_exists in H as (p' & Hp & H). apply In_zrange in Hp. rewrite (B p') in H; [|auto|]; lia.
Qed.
Lemma Pb_first c p : 0 <= p -> Xb p c = true -> exists p', 0 <= p' <= p /\ own p' = own p /\ Pb c p' = true.
Proof.
  intros Hp. enough (H : forall n, 0 <= n -> forall p, 0 <= p < n -> Xb p c = true -> exists p', 0 <= p' <= p /\ own p' = own p /\ Pb c p' = true) by (apply (H (p + 1)); lia). clear p Hp.
  apply (Z_ind0 (fun n => forall p, 0 <= p < n -> Xb p c = true -> exists p', 0 <= p' <= p /\ own p' = own p /\ Pb c p' = true)); [intros; lia|].
  intros n Hn IH p Hp X. destruct (Pb c p) eqn:E; [exists p; repeat split; auto; lia|]. unfold Pb in E. rewrite X in E. cbn [andb] in E. apply negb_false_iff, existsb_exists in E as (q & Hq & E). apply In_zrange in Hq. apply andb_true_iff in E as (E1 & E2).
  destruct (IH q ltac:(lia) E2) as (p' & H1 & H2 & H3). exists p'. repeat split; auto; lia.
Qed.
Lemma Pb_X c p : Pb c p = true -> Xb p c = true. Proof. rewrite Pb_spec. tauto. Qed.
Definition pl (k c : Z) : list Z := filter (Pb c) (zrange 0 k).
Lemma In_pl k c p : In p (pl k c) <-> 0 <= p < k /\ Pb c p = true.
Proof. unfold pl. rewrite filter_In, In_zrange. tauto. Qed.
Lemma pl_S k c : 0 <= k -> pl (k + 1) c = pl k c ++ if Pb c k then [k] else [].
Proof. intros Hk. unfold pl. rewrite zrange_snoc by lia. rewrite filter_app. replace (k + 1 - 1) with k by lia. cbn [filter]. reflexivity. Qed.

Variables (G : gr) (tb o2t t2o : list Z).
Notation m := (g_m G).
Hypothesis HT : 1 <= T.
Hypothesis TO : tasks_ok m T tasks thb tb o2t t2o.
Lemma thread_of_ok v : 0 <= v < nt -> thread_of thb v = Some (own v) /\ get thb (own v) = Some (zget thb (own v)) /\ zget thb (own v) <= v < zget thb (own v + 1).
Proof.
  intros Hv. pose proof (thb_bounds G T tasks thb tb o2t t2o TO) as B. destruct (bounds_zget _ _ _ B ltac:(lia)) as (Gz & W0 & WT & WM).
  destruct (owner_ok T nt thb HT B v Hv) as (A1 & A2). split; [|split; auto; apply Gz; lia].
  unfold thread_of. assert (LB : Zlen thb = T + 1) by apply B. rewrite LB. destruct (upper_bound_safe thb 0 (T + 1) v ltac:(lia) ltac:(lia)) as (u & Eu & Hu). rewrite Eu. f_equal.
  assert (Hm : monotone thb). { intros i j a b Hij Ha Hb. pose proof (get_Some_bounds _ _ _ Ha). pose proof (get_Some_bounds _ _ _ Hb). rewrite Gz in Ha, Hb by lia. injection Ha as <-. injection Hb as <-. apply WM; lia. }
  destruct (upper_bound_spec thb 0 (T + 1) v u Eu ltac:(lia) (monotone_monotone_on _ _ _ Hm)) as (_ & S1 & S2).
  destruct (Z_lt_ge_dec (own v) u) as [L|L]. 2: { specialize (S2 (own v) _ ltac:(lia) (Gz (own v) ltac:(lia))). lia. }
  destruct (Z_lt_ge_dec (own v + 1) u) as [L'|L']; [|lia]. specialize (S1 (own v + 1) _ ltac:(lia) (Gz (own v + 1) ltac:(lia))). lia.
Qed.

Lemma add_parent_ok k c tp : 0 <= k < nt -> Xb k c = true -> get tp c = Some (pl k c) ->
  exists tp', add_parent thb k c tp = Some tp' /\ Zlen tp' = Zlen tp /\ get tp' c = Some (pl (k + 1) c) /\ forall d, d <> c -> get tp' d = get tp d.
Proof.
  intros Hk X Gc. unfold add_parent. rewrite Gc. pose proof (get_Some_bounds _ _ _ Gc) as Hc.
  assert (Hset : forall l, exists tp', set tp c l = Some tp' /\ Zlen tp' = Zlen tp /\ get tp' c = Some l /\ forall d, d <> c -> get tp' d = get tp d).
  { intros l. destruct (set_ok tp c l Hc) as (tp' & E). exists tp'. split; auto. split; [now apply set_len in E|]. split; [now apply get_set_same in E|]. intros d Hd. eapply get_set_other; eauto. }
  destruct (rev (pl k c)) as [|b r] eqn:Er.
  - assert (E0 : pl k c = []) by (rewrite <- (rev_involutive (pl k c)), Er; reflexivity).
    assert (Pk : Pb c k = true). { apply Pb_spec. split; auto. intros p' Hp _. destruct (Xb p' c) eqn:X'; auto. destruct (Pb_first c p' ltac:(lia) X') as (q & Hq & _ & Q). assert (I : In q (pl k c)) by (apply In_pl; split; auto; lia). rewrite E0 in I. destruct I. }
    rewrite pl_S, E0, Pk by lia. apply Hset.
  - apply rev_last in Er. assert (Ib : In b (pl k c)) by (rewrite Er; apply in_or_app; right; now left). apply In_pl in Ib as (Hb & PB).
    assert (Hlast : forall q, In q (pl k c) -> q <= b).
    { intros q Hq. assert (M : monotone (pl k c)) by apply filter_zrange_mono. rewrite Er in Hq, M. apply In_get in Hq as (i & Hi & Gi). rewrite Zlen_app in Hi. change (Zlen [b]) with 1 in Hi. apply (M i (Zlen (rev r)) q b); auto; [lia|]. rewrite get_app_r, Z.sub_diag by lia. reflexivity. }
    destruct (thread_of_ok k Hk) as (-> & _). destruct (thread_of_ok b ltac:(lia)) as (-> & _). destruct (Z.eqb_spec (own k) (own b)) as [E|N].
    + assert (Pk : Pb c k = false). { apply Bool.not_true_is_false. rewrite Pb_spec. intros (_ & H). apply Pb_X in PB. rewrite H in PB; [discriminate|lia|auto]. }
      exists tp. rewrite pl_S, Pk, app_nil_r by lia. auto.
    + assert (Pk : Pb c k = true).
      { apply Pb_spec. split; auto. intros p' Hp E. destruct (Xb p' c) eqn:X'; auto. exfalso. destruct (Pb_first c p' ltac:(lia) X') as (q & Hq & Eq & Q).
        assert (I : In q (pl k c)) by (apply In_pl; split; auto; lia). apply Hlast in I. pose proof (own_mono G T tasks thb tb o2t t2o HT TO q b ltac:(lia) ltac:(lia)). pose proof (own_mono G T tasks thb tb o2t t2o HT TO b k ltac:(lia) ltac:(lia)). lia. }
      rewrite pl_S, Pk by lia. apply Hset.
Qed.
Lemma add_list_ok k : forall l tp, 0 <= k < nt -> NoDup l -> (forall c, In c l -> Xb k c = true /\ get tp c = Some (pl k c)) ->
  exists tp', foldM (add_parent thb k) l tp = Some tp' /\ Zlen tp' = Zlen tp /\ (forall c, In c l -> get tp' c = Some (pl (k + 1) c)) /\ forall d, ~ In d l -> get tp' d = get tp d.
Proof.
  induction l as [|c l IH]; intros tp Hk N H; cbn [foldM]. { exists tp. repeat split; auto. intros c []. }
  inversion N as [|? ? N1 N2]; subst. destruct (H c (or_introl eq_refl)) as (X & Gc). destruct (add_parent_ok k c tp Hk X Gc) as (t1 & -> & L1 & G1 & F1).
  destruct (IH t1 Hk N2) as (t2 & E2 & L2 & G2 & F2). { intros d Hd. destruct (H d (or_intror Hd)) as (Xd & Gd). split; auto. rewrite F1; auto. intros ->. auto. }
  exists t2. split; auto. split; [lia|]. split.
  - intros d [<-|Hd]; auto. rewrite F2; auto.
  - intros d Hd. rewrite F2 by (intros I; apply Hd; now right). apply F1. intros ->. apply Hd. now left.
Qed.
Theorem add_parents_ok : add_parents thb nt adjs = Some (map (pl nt) (zrange 0 nt)).
Proof.
  pose proof (nt_nonneg tasks) as Hnt. unfold add_parents.
  enough (H : forall k, 0 <= k -> k <= nt -> exists tp, foldM (fun task tp => adj <- get adjs task ;; foldM (add_parent thb task) adj tp) (zrange 0 k) (map (fun _ => []) (zrange 0 nt)) = Some tp /\ Zlen tp = nt /\ forall c, 0 <= c < nt -> get tp c = Some (pl k c)).
  { destruct (H nt ltac:(lia) ltac:(lia)) as (tp & E & L & F). rewrite E. f_equal. apply list_ext. { rewrite Zlen_mapz by lia. auto. } intros c Hc. rewrite get_mapz by lia. apply F. lia. }
  intros k Hk. pattern k. revert k Hk. apply Z_ind0.
  - intros _. exists (map (fun _ => []) (zrange 0 nt)). split; [reflexivity|]. split; [rewrite Zlen_mapz; lia|]. intros c Hc. rewrite get_mapz by lia. reflexivity.
  - intros k Hk IH Hkn. destruct (IH ltac:(lia)) as (tp & E & L & F). rewrite zrange_snoc by lia. replace (k + 1 - 1) with k by lia. rewrite foldM_app, E. cbn [foldM]. rewrite get_mapz by lia.
    assert (Hadj : forall c, In c (adj k) <-> 0 <= c < nt /\ Xb k c = true) by (intros c; apply in_adj).
    destruct (add_list_ok k (adj k) tp ltac:(lia)) as (tp' & -> & L' & G1 & G2). { apply filter_zrange_NoDup. } { intros c Hc. apply Hadj in Hc as (Hc & X). auto. }
    exists tp'. split; auto. split; [lia|]. intros c Hc. destruct (Xb k c) eqn:X. { apply G1. now apply Hadj. }
    rewrite G2 by (rewrite Hadj; intros (_ & ?); congruence). rewrite F by auto. rewrite pl_S by lia. replace (Pb c k) with false by (unfold Pb; rewrite X; reflexivity). now rewrite app_nil_r.
Qed.

(** ** The reduction *)
(** [v] is covered by a task of [l] that the backward sweep starts after [v]. *)
Definition covered (l : list Z) (v : Z) : Prop := exists p q, In p l /\ In q (adj p) /\ own q = own v /\ q <= v.
Theorem reduce_ok sch tp : Zlen tp = nt -> (forall u l v, get tp u = Some l -> In v l -> 0 <= v < nt) ->
  exists tp', reduce_parents thb adjs sch nt tp = Some tp' /\ Zlen tp' = nt /\ forall u l, get tp u = Some l -> exists l', get tp' u = Some l' /\ monotone l' /\ (forall v, In v l' <-> In v l /\ ~ covered l v) /\ Zlen l' <= Zlen l.
Proof.
  intros L HR. pose proof (nt_nonneg tasks) as Hnt. pose proof (thb_bounds G T tasks thb tb o2t t2o TO) as B. destruct (bounds_zget _ _ _ B ltac:(lia)) as (Gz & W0 & WT & WM).
  unfold reduce_parents. destruct (par_any_write_rel sch (fun u tp => q <- get tp u ;; let l := zsort q in
    rm <- keepM (fun v => b <- removable thb adjs l v ;; Some (negb b)) l ;;
    set tp u (set_diff (length l + length rm) l (zsort rm))) (fun u l' => forall l, get tp u = Some l -> monotone l' /\ (forall v, In v l' <-> In v l /\ ~ covered l v) /\ Zlen l' <= Zlen l) 0 nt tp ltac:(lia) ltac:(lia)) as (tp' & E & L' & H & _).
  - intros u Hu. destruct (get_in_range tp u ltac:(lia)) as (l & Gl). set (s := zsort l).
    set (cov := fun v => existsb (fun q => (zget thb (own v) <=? q) && (q <=? v)) (concat (map adj s))). 
    assert (Hs : forall v, In v s -> 0 <= v < nt). { intros v Hv. apply (HR u l v Gl). eapply Permutation_in; [apply zsort_perm|exact Hv]. }
    assert (Hrem : forall v, In v s -> removable thb adjs s v = Some (cov v)).
    { intros v Hv. destruct (thread_of_ok v (Hs v Hv)) as (E1 & E2 & _). unfold removable. rewrite E1, E2. erewrite (mapM_Some _ adj). { reflexivity. } intros p Hp. apply get_mapz. auto. }
    assert (Hc : forall v, In v s -> (cov v = true <-> covered l v)).
    { intros v Hv. unfold cov. rewrite existsb_exists. destruct (owner_ok T nt thb HT B v (Hs v Hv)) as (O1 & O2). split.
      - intros (q & Hq & E). apply in_concat in Hq as (x & Hx & Hq). apply in_map_iff in Hx as (p & <- & Hp). exists p, q. split. { eapply Permutation_in; [apply zsort_perm|exact Hp]. } split; auto. split; [|lia]. apply (owner_unique T nt thb HT B); auto. lia.
      - intros (p & q & Hp & Hq & Eo & Hqv). exists q. split. { apply in_concat. exists (adj p). split; auto. apply in_map_iff. exists p. split; auto. eapply Permutation_in; [apply Permutation_sym, zsort_perm|exact Hp]. }
        assert (Hqn : 0 <= q < nt) by (apply in_adj in Hq; tauto). destruct (owner_ok T nt thb HT B q Hqn) as (_ & O3). rewrite Eo in O3. lia. }
    exists (filter (fun v => negb (cov v)) s). split.
    + intros l0 Gl0. rewrite Gl in Gl0. injection Gl0 as <-. split; [apply filter_mono, zsort_mono|]. split.
      * intros v. rewrite filter_In. assert (In v s <-> In v l) as <-. { split; apply Permutation_in; [|apply Permutation_sym]; apply zsort_perm. } split; intros (A & N); split; auto.
        { intros C. apply Hc in C; auto. rewrite C in N. discriminate. } { apply negb_true_iff, Bool.not_true_is_false. intros C. apply Hc in C; auto. }
      * rewrite <- (Zlen_perm _ _ (zsort_perm l)). apply Zlen_filter_le.
    + intros w Lw Gw. rewrite Gw, Gl. fold s. cbv zeta. rewrite (keepM_ok _ (fun v => negb (cov v))) by (intros v Hv; now rewrite Hrem). rewrite (filter_ext _ cov) by (intros; apply negb_involutive).
      assert (Ms : monotone s) by apply zsort_mono. rewrite zsort_id by (now apply filter_mono). rewrite set_diff_ok by auto. reflexivity.
  - exists tp'. split; [exact E|]. split; [lia|]. intros u l Gl. pose proof (get_Some_bounds _ _ _ Gl). destruct (H u ltac:(lia)) as (l' & G' & Q). destruct (Q l Gl) as (Q1 & Q2 & Q3). eauto.
Qed.

(** ** The parent in the own thread *)
Variable lo : Z -> list Z.
Hypothesis P : pattern_ok G lo up.
(** [p] is the first task of the thread of [u] that holds a column before the
    diagonal of a row of [u], or [u] itself. *)
Definition own_parent (u p : Z) : Prop :=
  0 <= p <= u /\ own p = own u /\ (p = u \/ exists i c, In i (nthl ts u) /\ In c (lo i) /\ tof c = p) /\
  forall i c, In i (nthl ts u) -> In c (lo i) -> own (tof c) = own u -> p <= tof c.
Section Own.
(** The columns before the diagonal are those of [lo]. *)
Hypothesis HLO : forall i, 0 <= i < m -> exists r d, get (g_row G) i = Some r /\ get (g_dia G) i = Some d /\ mapM (fun j => c <- get (g_col G) (j - g_base G) ;; Some (c - g_base G)) (zrange r d) = Some (lo i).
Variable ids : list Z.
Hypothesis Hids : forall i, 0 <= i < m -> get ids i = Some (tof i).
Lemma min_row u i mn a z : 0 <= u < nt -> 0 <= i < m -> a = zget thb (own u) -> z = zget thb (own u + 1) -> exists r d mn', get (g_row G) i = Some r /\ get (g_dia G) i = Some d /\
  foldM (fun j mn => c <- get (g_col G) (j - g_base G) ;; p <- get ids (c - g_base G) ;; Some (if (a <=? p) && (p <? z) && (p <? mn) then p else mn)) (zrange r d) mn = Some mn' /\
  mn' <= mn /\ (mn' = mn \/ (own mn' = own u /\ exists c, In c (lo i) /\ tof c = mn')) /\ forall c, In c (lo i) -> own (tof c) = own u -> mn' <= tof c.
Proof.
  intros Hu Hi Ea Ez. destruct (HLO i Hi) as (r & d & R1 & R2 & R3). exists r, d. enough (H : exists mn', foldM (fun j mn => c <- get (g_col G) (j - g_base G) ;; p <- get ids (c - g_base G) ;; Some (if (a <=? p) && (p <? z) && (p <? mn) then p else mn)) (zrange r d) mn = Some mn' /\
    mn' <= mn /\ (mn' = mn \/ (own mn' = own u /\ exists c, In c (lo i) /\ tof c = mn')) /\ forall c, In c (lo i) -> own (tof c) = own u -> mn' <= tof c) by (destruct H as (x & H); exists x; tauto).
  assert (Hc : forall c, In c (lo i) -> 0 <= c < m) by (intros c Hc; pose proof (po_lt _ _ _ P c i Hi Hc); lia). clear R1 R2. revert mn R3 Hc. generalize (lo i) as l. generalize (zrange r d) as js.
  assert (Ho : forall p, 0 <= p < nt -> ((a <=? p) && (p <? z) = true <-> own p = own u)).
  { intros p Hp. pose proof (thb_bounds G T tasks thb tb o2t t2o TO) as B. destruct (owner_ok T nt thb HT B u Hu) as (A1 & A2). split.
    - intros H. apply (owner_unique T nt thb HT B); auto. lia.
    - intros E. destruct (owner_ok T nt thb HT B p Hp) as (_ & A3). rewrite E in A3. lia. }
  induction js as [|j js IH]; intros l mn R3 Hc; cbn [mapM foldM] in *.
  - injection R3 as <-. exists mn. repeat split; auto; try lia. intros c [].
  - destruct (get (g_col G) (j - g_base G)) as [c|]; [|discriminate]. destruct (mapM _ js) as [l'|]; [|discriminate]. injection R3 as <-. rewrite (Hids (c - g_base G)) by (apply Hc; now left).
    set (p := tof (c - g_base G)). assert (Hp : 0 <= p < nt) by (apply (tof_ok G T tasks thb tb o2t t2o TO), Hc; now left).
    destruct (IH l' (if (a <=? p) && (p <? z) && (p <? mn) then p else mn) eq_refl ltac:(intros x Hx; apply Hc; now right)) as (mn' & E & H1 & H2 & H3). exists mn'. split; auto.
    destruct ((a <=? p) && (p <? z) && (p <? mn)) eqn:EP.
    + assert (own p = own u) by (apply Ho; auto; lia). split; [lia|]. split.
      * right. destruct H2 as [->|(H2 & x & Hx & Ex)]; [|split; auto; exists x; split; auto; now right]. split; auto. exists (c - g_base G). split; [now left|reflexivity].
      * intros x [<-|Hx] E0; auto.
    + split; [lia|]. split. { destruct H2 as [->|(H2 & x & Hx & Ex)]; auto. right. split; auto. exists x. split; auto. now right. }
      intros x [<-|Hx] E0; [|auto]. fold p. fold p in E0. apply Ho in E0; auto. lia.
Qed.
Lemma min_parent_ok u : 0 <= u < nt -> exists p, min_parent G tb t2o ids (zget thb (own u)) (zget thb (own u + 1)) u = Some p /\ own_parent u p.
Proof.
  intros Hu. unfold min_parent.
  rewrite (task_fold G T tasks thb tb o2t t2o TO u (fun row mn => r <- get (g_row G) row ;; d <- get (g_dia G) row ;; foldM (fun j mn => c <- get (g_col G) (j - g_base G) ;; p <- get ids (c - g_base G) ;; Some (if (zget thb (own u) <=? p) && (p <? zget thb (own u + 1)) && (p <? mn) then p else mn)) (zrange r d) mn) u Hu).
  assert (Hr : forall i, In i (nthl ts u) -> 0 <= i < m) by (intros i Hi; apply (in_ts G T tasks thb tb o2t t2o TO); eauto).
  assert (H : forall l mn, (forall i, In i l -> 0 <= i < m) -> exists p, foldM (fun row mn => r <- get (g_row G) row ;; d <- get (g_dia G) row ;; foldM (fun j mn => c <- get (g_col G) (j - g_base G) ;; p <- get ids (c - g_base G) ;; Some (if (zget thb (own u) <=? p) && (p <? zget thb (own u + 1)) && (p <? mn) then p else mn)) (zrange r d) mn) l mn = Some p /\
    p <= mn /\ (p = mn \/ (own p = own u /\ exists i c, In i l /\ In c (lo i) /\ tof c = p)) /\ forall i c, In i l -> In c (lo i) -> own (tof c) = own u -> p <= tof c).
  { induction l as [|i l IH]; intros mn Hl; cbn [foldM]. { exists mn. repeat split; auto; try lia. intros i c []. }
    destruct (min_row u i mn _ _ Hu (Hl i (or_introl eq_refl)) eq_refl eq_refl) as (r & d & mn1 & -> & -> & -> & A1 & A2 & A3). destruct (IH mn1 (fun x Hx => Hl x (or_intror Hx))) as (p & E & B1 & B2 & B3). exists p. split; auto. split; [lia|]. split.
    - destruct B2 as [->|(B2 & x & c & Hx & Hc & Ec)]; [|right; split; auto; exists x, c; repeat split; auto; now right]. destruct A2 as [->|(A2 & c & Hc & Ec)]; auto. right. split; auto. exists i, c. repeat split; auto. now left.
    - intros x c [<-|Hx] Hc E0; [|eauto]. specialize (A3 c Hc E0). lia. }
  destruct (H (nthl ts u) u Hr) as (p & E & H1 & H2 & H3). exists p. split; auto. split.
  { split; auto. destruct H2 as [->|(_ & i & c & Hi & Hc & <-)]; [lia|]. apply (tof_ok G T tasks thb tb o2t t2o TO). pose proof (po_lt _ _ _ P c i (Hr i Hi) Hc). pose proof (Hr i Hi). lia. }
  split. { destruct H2 as [->|(H2 & _)]; auto. } split; auto. destruct H2 as [->|(_ & H2)]; auto.
Qed.
Theorem add_own_ok sch (f : Z -> list Z) : exists tp, add_own G T sch thb tb t2o ids (map f (zrange 0 nt)) = Some tp /\ Zlen tp = nt /\ forall u, 0 <= u < nt -> exists p, get tp u = Some (f u ++ [p]) /\ own_parent u p.
Proof.
  pose proof (nt_nonneg tasks) as Hnt. pose proof (thb_bounds G T tasks thb tb o2t t2o TO) as B. destruct (bounds_zget _ _ _ B ltac:(lia)) as (Gz & W0 & WT & WM). unfold add_own.
  destruct (par_any_inv (fun done tp => Zlen tp = nt /\ forall u, 0 <= u < nt -> (In (own u) done -> exists p, get tp u = Some (f u ++ [p]) /\ own_parent u p) /\ (~ In (own u) done -> get tp u = Some (f u))) sch
    (fun t tp => lo <- get thb t ;; hi <- get thb (t + 1) ;; foldM (fun task tp => mn <- min_parent G tb t2o ids lo hi task ;; q <- get tp task ;; set tp task (q ++ [mn])) (zrange lo hi) tp) 0 T (map f (zrange 0 nt))) as (tp & done & E & (L & H) & Hd).
  - split; [rewrite Zlen_mapz; lia|]. intros u Hu. split; [intros []|]. intros _. now rewrite get_mapz.
  - intros done t tp Ht Nt _ (L & H). rewrite !Gz by lia. pose proof (WM 0 t ltac:(lia) ltac:(lia)) as M1. pose proof (WM (t + 1) T ltac:(lia) ltac:(lia)) as M2. pose proof (WM t (t + 1) ltac:(lia) ltac:(lia)) as M3. rewrite W0 in M1. rewrite WT in M2.
    assert (Hk : forall k, 0 <= k -> k <= zget thb (t + 1) - zget thb t -> exists tp', foldM (fun task tp => mn <- min_parent G tb t2o ids (zget thb t) (zget thb (t + 1)) task ;; q <- get tp task ;; set tp task (q ++ [mn])) (zrange (zget thb t) (zget thb t + k)) tp = Some tp' /\ Zlen tp' = nt /\
       (forall u, zget thb t <= u < zget thb t + k -> exists p, get tp' u = Some (f u ++ [p]) /\ own_parent u p) /\ forall u, ~ zget thb t <= u < zget thb t + k -> get tp' u = get tp u).
    { intros k Hk. pattern k. revert k Hk. apply Z_ind0.
      - intros _. rewrite Z.add_0_r. rewrite zrange_nil by lia. exists tp. repeat split; auto. intros u Hu. lia.
      - intros k Hk IH Hkk. destruct (IH ltac:(lia)) as (t1 & E1 & L1 & G1 & F1). rewrite Z.add_assoc, zrange_snoc by lia. rewrite foldM_app, E1. cbn [foldM].
        set (u := zget thb t + k) in *. assert (Hu : 0 <= u < nt) by lia. assert (Eo : own u = t) by (apply (owner_unique T nt thb HT B); auto; lia). destruct (min_parent_ok u Hu) as (p & Ep & Hp). rewrite Eo in Ep. rewrite Ep.
        rewrite F1 by lia. destruct (H u Hu) as (_ & H2). rewrite H2 by (rewrite Eo; auto). destruct (set_ok t1 u (f u ++ [p]) ltac:(lia)) as (t2 & E2). rewrite E2. exists t2. split; auto. split. { apply set_len in E2. lia. } split.
        + intros v Hv. destruct (Z.eq_dec v u) as [->|N]. { exists p. split; auto. now apply get_set_same in E2. } rewrite (get_set_other _ _ _ _ _ E2) by auto. apply G1. lia.
        + intros v Hv. rewrite (get_set_other _ _ _ _ _ E2) by lia. apply F1. lia. }
    destruct (Hk (zget thb (t + 1) - zget thb t) ltac:(lia) ltac:(lia)) as (t1 & E1 & L1 & G1 & F1). replace (zget thb t + (zget thb (t + 1) - zget thb t)) with (zget thb (t + 1)) in * by lia. exists t1. split; auto. split; auto.
    intros u Hu. destruct (H u Hu) as (H1 & H2). destruct (owner_ok T nt thb HT B u Hu) as (O1 & O2). destruct (Z.eq_dec (own u) t) as [Eo|No].
    + split; [|intros N; exfalso; apply N; now left]. intros _. apply G1. rewrite <- Eo. auto.
    + assert (Fu : get t1 u = get tp u). { apply F1. intros Hr. apply No. now apply (owner_unique T nt thb HT B). } rewrite Fu. split. { intros [Et|I]; [congruence|auto]. } intros N. apply H2. intros I. apply N. now right.
  - exists tp. split; auto. split; auto. intros u Hu. apply (H u Hu). apply Hd. apply (owner_ok T nt thb HT B u Hu).
Qed.
End Own.

(** ** The lists suffice *)
(** [F] is the set of finished tasks of a backward sweep. *)
Definition swept (F : Z -> Prop) : Prop := forall v w, R1 up T tasks thb v w -> F v -> F w.
(** What the list of [u] consists of. *)
Definition wait_list (u : Z) (l : list Z) : Prop := exists p, own_parent u p /\ monotone l /\ forall v, In v l <-> In v (pl nt u ++ [p]) /\ ~ covered (pl nt u ++ [p]) v.
Variable lev : Z -> Z.
Hypothesis D : is_depth m lo lev.
Hypothesis LI : levels_increase lev tasks.
Lemma wait_range u p v : 0 <= u < nt -> own_parent u p -> In v (pl nt u ++ [p]) -> 0 <= v < nt.
Proof. intros Hu (Hp & _) Hv. apply in_app_or in Hv as [Hv|[<-|[]]]; [apply In_pl in Hv; tauto|lia]. Qed.
Lemma uncovered u p F : 0 <= u < nt -> own_parent u p -> swept F -> (forall v, In v (pl nt u ++ [p]) -> ~ covered (pl nt u ++ [p]) v -> F v) -> forall v, In v (pl nt u ++ [p]) -> F v.
Proof.
  intros Hu Hp HF H. destruct (tlev_exists G lev T tasks thb tb o2t t2o HT TO LI) as (tl & T1 & T2).
  assert (Rl : forall v w, R1 up T tasks thb v w -> tl v < tl w). { intros v w R. exact (R1_lev G lo up lev T tasks thb tb o2t t2o P D TO tl v w T1 T2 R). }
  set (l := pl nt u ++ [p]) in *.
  (* ranks are bounded below on the list *)
  assert (Hb : exists b, forall v, In v l -> b <= tl v). { clear. induction l as [|x l (b & IH)]; [exists 0; intros v []|]. exists (Z.min (tl x) b). intros v [<-|Hv]; [lia|]. specialize (IH v Hv). lia. }
  destruct Hb as (b & Hb).
  enough (K : forall n, 0 <= n -> forall v, In v l -> tl v - b < n -> F v). { intros v Hv. pose proof (Hb v Hv). apply (K (tl v - b + 1)); auto; lia. }
  apply (Z_ind0 (fun n => forall v, In v l -> tl v - b < n -> F v)). { intros v Hv Hl. pose proof (Hb v Hv). lia. }
  intros n Hn IH v Hv Hl. pose proof (wait_range u p v Hu Hp Hv) as Hvn.
  destruct (existsb (fun p => existsb (fun q => (own q =? own v) && (q <=? v)) (adj p)) l) eqn:Ec.
  - apply existsb_exists in Ec as (w & Hw & Ec). apply existsb_exists in Ec as (q & Hq & Ec). apply andb_true_iff in Ec as (Ec1 & Ec2).
    pose proof (wait_range u p w Hu Hp Hw) as Hwn. apply in_adj in Hq as (Hqn & X).
    assert (Rw : R1 up T tasks thb w q) by (repeat split; auto; lia). pose proof (Rl _ _ Rw) as L1.
    assert (Fq : tl w < tl v /\ (F w -> F v)).
    { destruct (Z.eq_dec q v) as [->|N]. { split; auto. eauto. } assert (Rv : R1 up T tasks thb q v) by (repeat split; auto; try lia; right; lia). pose proof (Rl _ _ Rv). split; [lia|]. intros Fw. eauto. }
    apply Fq. apply IH; auto. lia.
  - apply H; auto. intros (w & q & Hw & Hq & Eo & Hle). assert (existsb (fun p => existsb (fun q => (own q =? own v) && (q <=? v)) (adj p)) l = true); [|congruence].
    apply existsb_exists. exists w. split; auto. apply existsb_exists. exists q. split; auto. lia.
Qed.
Theorem wait_enough u l F : 0 <= u < nt -> wait_list u l -> swept F -> (forall v, In v l -> F v) -> F u /\ forall i c, In i (nthl ts u) -> In c (lo i) \/ In c (up i) -> F (tof c).
Proof.
  intros Hu (p & Hp & _ & Hl) HF Hall. pose proof (uncovered u p F Hu Hp HF) as HU. assert (A : forall v, In v (pl nt u ++ [p]) -> F v). { apply HU. intros v H1 H2. apply Hall. now apply Hl. }
  assert (Hsame : forall q, own q = own u -> 0 <= p <= q -> q < nt -> F q).
  { intros q Eq Hq Hqn. pose proof Hp as (H1 & H2 & _). assert (Fp : F p) by (apply A; apply in_or_app; right; now left). destruct (Z.eq_dec q p) as [->|N]; auto. apply (HF p q); auto. split; [lia|]. split; [lia|]. right. split; [congruence|lia]. }
  assert (Fu : F u). { pose proof Hp as (H1 & _). apply Hsame; auto; lia. }
  split; auto. intros i c Hi Hc. assert (Him : 0 <= i < m) by (apply (in_ts G T tasks thb tb o2t t2o TO); eauto). destruct Hc as [Hc|Hc].
  - pose proof (po_lt _ _ _ P c i Him Hc) as Hci. assert (Hcm : 0 <= c < m) by lia. destruct (tof_ok G T tasks thb tb o2t t2o TO c Hcm) as (Htc & Hin). destruct (Z.eq_dec (own (tof c)) (own u)) as [E|N].
    + apply Hsame; auto; [|lia]. split; [apply Hp|]. destruct Hp as (_ & _ & _ & H4). eauto.
    + assert (X : Xb (tof c) u = true). { unfold TaskGraphMain.Xb. apply andb_true_iff. split; [|lia]. apply E_spec. exists c, i. split; auto. split; [now apply (po_sym _ _ _ P)|]. now apply (tof_unique G T tasks thb tb o2t t2o TO). }
      destruct (Pb_first u (tof c) ltac:(lia) X) as (p' & Hp' & E' & PB). assert (Fp' : F p') by (apply A; apply in_or_app; left; apply In_pl; split; auto; lia).
      destruct (Z.eq_dec p' (tof c)) as [->|N']; auto. apply (HF p'); auto. repeat split; auto; try lia.
  - pose proof (po_up _ _ _ P i c Him Hc) as Hcm. destruct (tof_ok G T tasks thb tb o2t t2o TO c Hcm) as (Htc & Hin). pose proof (adjacent_R1 G lo up lev T tasks thb tb o2t t2o P D HT TO LI i c Him Hc) as R. rewrite (tof_unique G T tasks thb tb o2t t2o TO i u Hu Hi) in R. eapply HF; eauto.
Qed.
End Waits.

(** ** The construction *)
Lemma filter_imp {A} (p q : A -> bool) l : (forall x, p x = true -> q x = true) -> Zlen (filter p l) <= Zlen (filter q l).
Proof. intros H. induction l as [|x l IH]; cbn [filter]; [lia|]. specialize (H x). destruct (p x), (q x); rewrite ?Zlen_cons; try lia; discriminate (H eq_refl). Qed.
Lemma filter_orb {A} (p q : A -> bool) l : Zlen (filter (fun x => p x || q x) l) <= Zlen (filter p l) + Zlen (filter q l).
Proof. induction l as [|x l IH]; cbn [filter]; [discriminate|]. destruct (p x), (q x); cbn [orb]; rewrite ?Zlen_cons; lia. Qed.
Lemma filter_pred w l : NoDup l -> Zlen (filter (fun v => w =? v + 1) l) <= 1.
Proof.
  intros N. assert (Z.of_nat (length (filter (fun v => w =? v + 1) l)) <= Z.of_nat (length [w - 1])); [|exact H]. apply inj_le. apply NoDup_incl_length; [now apply NoDup_filter|]. intros v Hv. apply filter_In in Hv as (_ & H). left. lia.
Qed.
Section Build.
Variables (G : gr) (lo up : Z -> list Z) (T : Z) (tasks : list (list (list Z))) (thb tb o2t t2o : list Z) (tr : bool).
Notation m := (g_m G).
Hypothesis P : pattern_ok G lo up.
Hypothesis HT : 1 <= T.
Hypothesis TO : tasks_ok m T tasks thb tb o2t t2o.
Hypothesis HLO : forall i, 0 <= i < m -> exists r d, get (g_row G) i = Some r /\ get (g_dia G) i = Some d /\ mapM (fun j => c <- get (g_col G) (j - g_base G) ;; Some (c - g_base G)) (zrange r d) = Some (lo i).
Hypothesis NE : tr = true -> forall v, 0 <= v < nt tasks -> nthl (ts tasks) v <> [].
Hypothesis HI : forall i cs c, 0 <= i < m -> succs G i = Some cs -> In c cs -> c < m.
Notation nt := (nt tasks).
Notation ts := (ts tasks).
Notation own v := (owner thb T v).
Notation Xb := (Xb up T tasks thb).
Notation adj := (adj up T tasks thb).
Notation inv := (inv up T tasks thb tr).
Notation sz := (sz up tasks).
Let cr (w : Z) : Z := Zlen (filter (fun v => Xb v w) (zrange 0 nt)).
Lemma inv_len w : Zlen (inv w) <= cr w + 1.
Proof.
  unfold TaskGraphMain.inv, TaskGraphMain.Ib. pose proof (filter_orb (fun v => Xb v w) (fun v => tr && Nb T thb v w) (zrange 0 nt)) as H1.
  pose proof (filter_imp (fun v => tr && Nb T thb v w) (fun v => w =? v + 1) (zrange 0 nt)) as H2. pose proof (filter_pred w (zrange 0 nt) (NoDup_zrange _ _)) as H3. unfold cr.
  assert (forall v, tr && Nb T thb v w = true -> (w =? v + 1) = true). { intros v H. apply andb_true_iff in H as (_ & H). unfold Nb in H. apply andb_true_iff in H. tauto. } specialize (H2 H). lia.
Qed.
Lemma pl_len w : Zlen (pl up T tasks thb nt w) <= cr w.
Proof. unfold pl, cr. apply filter_imp. intros v. apply Pb_X. Qed.
Lemma cr_sum u : 0 <= u < nt -> (forall v, 0 <= v < nt -> Zlen (adj v) <= sz v) -> zsum (map (fun w => Zlen (inv w)) (zrange 0 u)) + (cr u + 1) <= zsum (map sz (zrange 0 nt)) + nt.
Proof.
  intros Hu Hs. assert (H1 : zsum (map (fun w => Zlen (inv w)) (zrange 0 u)) <= zsum (map (fun w => cr w + 1) (zrange 0 u))) by (apply zsum_le_map; intros; apply inv_len). rewrite zsum_plus, Zlen_zrange in H1.
  assert (H2 : zsum (map cr (zrange 0 u)) + cr u <= zsum (map cr (zrange 0 nt))).
  { rewrite (zrange_app 0 (u + 1) nt) by lia. rewrite zrange_snoc by lia. rewrite !map_app, !zsum_app. assert (0 <= zsum (map cr (zrange (u + 1) nt))). { apply zsum_nonneg'. intros x Hx. apply in_map_iff in Hx as (w & <- & _). apply Zlen_nonneg. } cbn [map]. change (zsum [cr u]) with (cr u + 0). lia. }
  assert (H3 : zsum (map cr (zrange 0 nt)) = zsum (map (fun v => Zlen (filter (Xb v) (zrange 0 nt))) (zrange 0 nt))) by apply (double_count (fun v w => Xb v w)).
  pose proof (zsum_le_map (fun v => Zlen (filter (Xb v) (zrange 0 nt))) sz (zrange 0 nt)) as H4. assert (zsum (map (fun v => Zlen (filter (Xb v) (zrange 0 nt))) (zrange 0 nt)) <= zsum (map sz (zrange 0 nt))). { apply H4. intros v Hv. apply In_zrange in Hv. now apply Hs. } lia.
Qed.
Theorem fused_lists_ok nnz sch jid jadj junk : m <= nnz -> Zlen jid = m -> Zlen jadj = nt -> (forall n, 0 <= n -> Zlen (junk n) = n) ->
  exists tp r, fused_lists G T nnz tr sch thb tb t2o jid jadj junk = Some (tp, r) /\ Zlen tp = nt /\ forall u, 0 <= u < nt -> exists l, get tp u = Some l /\ wait_list up T tasks thb lo u l.
Proof.
  intros Hnnz Lid Ladj Lj. pose proof (nt_nonneg tasks) as Hnt. unfold fused_lists, graph_lists.
  rewrite (thb_get G T tasks thb tb o2t t2o TO) by lia. rewrite (Zlen_concat_off tasks T (to_T _ _ _ _ _ _ _ TO)). change (Zlen (concat tasks)) with nt.
  destruct (task_ids_ok G T tasks thb tb o2t t2o TO HI (sch 0%nat) jid Lid) as (ids & -> & Hids). rewrite (sizes_ok G lo up T tasks thb tb o2t t2o P TO HI), !map_map.
  change (map (fun x : Z => fst (sz x, isz lo tasks x))) with (map sz). change (map (fun x : Z => snd (sz x, isz lo tasks x))) with (map (isz lo tasks)).
  assert (Ls : Zlen (map sz (zrange 0 nt)) = nt) by (rewrite Zlen_mapz; lia).
  assert (Ps : forall x, In x (map sz (zrange 0 nt)) -> 0 <= x). { intros x Hx. apply in_map_iff in Hx as (v & <- & _). unfold TaskGraphMain.sz. apply zsum_nonneg'. intros y Hy. apply in_map_iff in Hy as (i & <- & _). apply Zlen_nonneg. }
  destruct (boundaries1_ok nnz m T nt (map sz (zrange 0 nt)) HT Ls Ps Hnnz) as (vb & -> & Bvb).
  destruct (phase1_ok G lo up T tasks thb tb o2t t2o P HT TO HI tr NE ids vb (sch 1%nat) jadj Hids Bvb Ladj) as (acts & inv0 & -> & -> & Linv & Hinv).
  destruct (sort_all G up T tasks thb t2o HT HI tr NE (sch 2%nat) vb inv0 Bvb Linv Hinv) as (rs & -> & ->).
  rewrite (add_parents_ok up T tasks thb G tb o2t t2o HT TO).
  destruct (add_own_ok up T tasks thb G tb o2t t2o HT TO lo P HLO ids Hids (sch 5%nat) (pl up T tasks thb nt)) as (tp1 & -> & L1 & H1).
  destruct (reduce_ok up T tasks thb G tb o2t t2o HT TO (sch 6%nat) tp1 L1) as (tp & -> & L & H).
  { intros u l v Gl Hv. pose proof (get_Some_bounds _ _ _ Gl). destruct (H1 u ltac:(lia)) as (p & Gp & Hp). rewrite Gp in Gl. injection Gl as <-. eapply wait_range; eauto. lia. }
  assert (HW : forall u, 0 <= u < nt -> exists l, get tp u = Some l /\ wait_list up T tasks thb lo u l /\ Zlen l <= cr u + 1).
  { intros u Hu. destruct (H1 u Hu) as (p & Gp & Hp). destruct (H u _ Gp) as (l & Gl & Ml & Il & Ll). exists l. split; auto. split. { exists p. auto. } rewrite Zlen_app in Ll. change (Zlen [p]) with 1 in Ll. pose proof (pl_len u). lia. }
  unfold copy_parents. destruct (copy_safe tp (map inv (zrange 0 nt)) (junk (zsum (map sz (zrange 0 nt)) + 2 * nt)) 0 [] []) as ((((ps & ns) & b) & c) & E).
  - rewrite Zlen_mapz; lia.
  - lia.
  - intros u l Gl. pose proof (get_Some_bounds _ _ _ Gl) as Hu. rewrite Lj by (pose proof (zsum_nonneg' _ Ps); lia). destruct (HW u ltac:(lia)) as (l' & Gl' & _ & Hl). rewrite Gl in Gl'. injection Gl' as <-.
    assert (Es : slice (map inv (zrange 0 nt)) 0 u = map inv (zrange 0 u)). { rewrite (zrange_app 0 u nt) by lia. rewrite map_app. unfold slice. cbn [skipn Z.to_nat]. rewrite Z.sub_0_r, firstn_app. assert (El : length (map inv (zrange 0 u)) = Z.to_nat u). { pose proof (Zlen_mapz inv u ltac:(lia)) as X. unfold Zlen in X. lia. } rewrite <- El, firstn_all, Nat.sub_diag. cbn [firstn]. now rewrite app_nil_r. }
    rewrite Es, map_map. pose proof (cr_sum u ltac:(lia)) as HC. assert (HA : forall v, 0 <= v < nt -> Zlen (adj v) <= sz v). { intros v Hv. now apply (cross_ok G lo up T tasks thb tb o2t t2o P HT TO HI ids v Hids Hv). } specialize (HC HA). lia.
  - rewrite E. eexists tp, _. split; [reflexivity|]. split; [lia|]. intros u Hu. destruct (HW u Hu) as (l & Gl & Wl & _). eauto.
Qed.
End Build.

(** ** Specification *)
(** The tasks finished in a state of a backward sweep. *)
Definition finished_set (S : schedule) (F : Z -> Prop) : Prop := forall q q', task_before1 false S q q' -> F q' -> F q.
(** A row of task [u] has an entry in the column of a row of task [q]. *)
Definition reads {V} (S : schedule) (t2o : list Z) (rows : rows_t V) (R : Z -> Z -> Prop) (u q : Z) : Prop :=
  exists i i' r c, in_task S i u /\ get t2o i = Some r /\ entry rows r c /\ get t2o i' = Some c /\ in_task S i' q /\ R r c.

(** ** For a stored matrix *)
Section Csr.
Context {V : Type}.
Variables (hasv : bool) (base n : Z) (rows lrows : rows_t V) (A : csr V) (dp : list Z).
Hypothesis HR : rep hasv base n rows A.
Hypothesis HL : local_rows base rows A lrows.
Hypothesis HP : sym_pattern lrows.
Hypothesis HD : diag_first base rows dp.
Let m := Zlen rows.
Let G := graph_of A base dp.
Lemma csr_lo i : 0 <= i < m -> exists r d, get (g_row G) i = Some r /\ get (g_dia G) i = Some d /\ mapM (fun j => c <- get (g_col G) (j - g_base G) ;; Some (c - g_base G)) (zrange r d) = Some (lower_of lrows i).
Proof.
  intros Hi. assert (LL : Zlen lrows = m) by apply HL. destruct (sp_split _ HP i ltac:(lia)) as (l1 & v & l2 & E & H1 & H2 & N). destruct HD as (_ & HD'). destruct (HD' i Hi) as (l1' & v' & l2' & E' & H1' & Gd).
  destruct (local_prefix base rows lrows A HL i Hi) as (h & Eh). pose proof Eh as Eh0. rewrite E, E' in Eh. symmetry in Eh. apply (app_split_unique rows) in Eh as (<- & <- & <-); auto. 2: { intros c w Hc. apply H1 in Hc. lia. }
  exists (base + off (nthl rows) i), (base + off (nthl rows) i + Zlen l1). cbn [G graph_of g_row g_dia g_col g_base]. split; [apply (rep_rowptr _ _ _ _ _ i HR); fold m; lia|]. split; [exact Gd|].
  assert (Elo : lower_of lrows i = map fst l1).
  { unfold lower_of. rewrite E, map_app, filter_app. cbn [map filter]. replace (fst (i, v) <? i) with false by (cbn [fst]; lia). rewrite filter_all, filter_none, app_nil_r; auto.
    - intros x Hx. apply in_map_iff in Hx as ((c & w) & <- & Hx). apply H2 in Hx. cbn [fst]. lia.
    - intros x Hx. apply in_map_iff in Hx as ((c & w) & <- & Hx). apply H1 in Hx. cbn [fst]. lia. }
  rewrite Elo. rewrite <- (Zlen_map fst l1). apply mapM_fun. intros k x Gx. rewrite get_map in Gx. destruct (get l1 k) as [(c & w)|] eqn:Gc; [|discriminate]. injection Gx as <-. cbn [fst].
  assert (Gr : get (nthl rows i) k = Some (c, w)) by (rewrite E', get_app_l by (apply get_Some_bounds in Gc; lia); exact Gc).
  replace (base + off (nthl rows) i + k - base) with (off (nthl rows) i + k) by lia. rewrite (rep_col _ _ _ _ _ i _ c w HR Hi Gr). f_equal. lia.
Qed.
Hypothesis HH : halo_last rows lrows.
Variables (T : Z) (agg : bool) (cost : Z -> Z) (w : world).
Hypothesis HT : 1 <= T.
Hypothesis Hcost : forall i, 0 <= i < m -> 0 < cost i.
Hypothesis HW : world_ok m T w.
Lemma csr_graph_ne tr S o2t t2o : constructTaskGraph G T false agg tr cost w = Some (S, o2t, t2o) ->
  exists lev tasks thb tb, is_depth m (lower_of lrows) lev /\ tasks_ok m T tasks thb tb o2t t2o /\ levels_increase lev tasks /\ graph_ok thb tb S (nt tasks) (Wb (upper_of lrows) T tasks thb tr) /\
    world_tasks G T false agg cost w = Some (thb, tb, o2t, t2o) /\ forall v, 0 <= v < nt tasks -> nthl (ts tasks) v <> [].
Proof.
  unfold constructTaskGraph. intros E. destruct (world_tasks G T false agg cost w) as [(((thb & tb) & o2t') & t2o')|] eqn:E1; [|discriminate].
  destruct HW as [W1 W2 W3 W4 W5 W6 W7 W8].
  destruct (csr_tasks hasv base n rows lrows A dp HR HL HP HD T false agg cost _ _ _ _ _ _ _ _ _ _ _ _ _ HT W1 W2 W3 Hcost W4 W5 E1) as (lev & nl & tasks & D & TO & LI & BL & NE). specialize (NE eq_refl).
  assert (Gm : g_m G = m) by exact (Gm hasv base n rows A dp HR). pose proof (csr_nnz hasv base n rows A dp HR HD) as (Gn & Ln). fold m in Gn, Ln. rewrite Gm in E. cbn [G graph_of g_row g_base] in E. rewrite Gn in E.
  fold m in TO. rewrite <- Gm in TO. pose proof (thb_get G T tasks thb tb o2t' t2o' TO T ltac:(lia)) as GT. assert (EnT : off (nthl tasks) T = nt tasks). { unfold nt, ts. apply (Zlen_concat_off tasks T (to_T _ _ _ _ _ _ _ TO)). }
  rewrite GT, EnT in E. pose proof (nt_nonneg tasks) as Hnt.
  replace (base + off (nthl rows) m - base) with (off (nthl rows) m) in E by lia.
  pose proof (P hasv base n rows lrows A dp HR HL HP HD) as PP. pose proof (nonempty_nthl tasks NE) as NN.
  destruct (taskGraph_ok G (lower_of lrows) (upper_of lrows) T tasks thb tb o2t' t2o' PP HT TO) with (tr := tr) (nnz := off (nthl rows) m) (sch := w_s3 w) (jid := w_ids w) (jadj := w_adj w (nt tasks)) (jch := w_ch w (nt tasks)) as (S' & ES & GO).
  - intros i cs c Hi Hs Hc. rewrite Gm in Hi |- *. exact (csr_inside hasv base n rows lrows A dp HR HL HP HD HH i cs c Hi Hs Hc).
  - intros _. exact NN.
  - rewrite Gm. lia.
  - rewrite Gm. auto.
  - auto.
  - auto.
  - fold G in E. rewrite ES in E. injection E as <- <- <-. rewrite Gm in TO. exists lev, tasks, thb, tb. auto 8.
Qed.
Theorem csr_fused tr S o2t t2o junk : constructTaskGraph G T false agg tr cost w = Some (S, o2t, t2o) -> (forall n, 0 <= n -> Zlen (junk n) = n) ->
  exists tp r, constructFused G T false agg tr cost w junk = Some (tp, r) /\ Zlen tp = ntasks S /\
    forall u l, get tp u = Some l ->
      (forall F, finished_set S F -> (forall v, In v l -> F v) -> forall q, reads S t2o rows (fun _ _ => True) u q -> F q) /\
      (forall v, In v l -> v = u \/ reads S t2o rows (fun r c => c < r) u v) /\
      (forall v p q, In v l -> In p l -> reads S t2o rows Z.lt p q -> ~ same_thread S p q -> same_thread S q v -> v < q).
Proof.
  intros E Hj. destruct (csr_graph_ne tr S o2t t2o E) as (lev & tasks & thb & tb & D & TO & LI & GO & E1 & NE). clear E.
  assert (Gm : g_m G = m) by exact (Gm hasv base n rows A dp HR). pose proof (csr_nnz hasv base n rows A dp HR HD) as (Gn & Ln). fold m in Gn, Ln. pose proof (P hasv base n rows lrows A dp HR HL HP HD) as PP. fold G in PP.
  rewrite <- Gm in TO, D. assert (EnT : off (nthl tasks) T = nt tasks). { unfold nt, ts. apply (Zlen_concat_off tasks T (to_T _ _ _ _ _ _ _ TO)). } pose proof (nt_nonneg tasks) as Hnt.
  unfold constructFused. rewrite E1. pose proof (thb_get G T tasks thb tb o2t t2o TO T ltac:(lia)) as GT. rewrite Gm. cbn [G graph_of g_row g_base]. fold G. rewrite Gn, GT, EnT. replace (base + off (nthl rows) m - base) with (off (nthl rows) m) by lia.
  destruct HW as [W1 W2 W3 W4 W5 W6 W7 W8].
  destruct (fused_lists_ok G (lower_of lrows) (upper_of lrows) T tasks thb tb o2t t2o tr PP HT TO) with (nnz := off (nthl rows) m) (sch := w_s3 w) (jid := w_ids w) (jadj := w_adj w (nt tasks)) (junk := junk) as (tp & r & EF & L & H).
  { intros i Hi. rewrite Gm in Hi. apply csr_lo. exact Hi. }
  { intros _. exact NE. }
  { intros i cs c Hi Hs Hc. rewrite Gm in Hi |- *. exact (csr_inside hasv base n rows lrows A dp HR HL HP HD HH i cs c Hi Hs Hc). }
  { rewrite Gm. lia. } { rewrite Gm. auto. } { auto. } { auto. }
  exists tp, r. split; [exact EF|]. rewrite (go_nt _ _ _ _ _ GO). split; auto.
  intros u l Gl. pose proof (get_Some_bounds _ _ _ Gl) as Hu. rewrite L in Hu. destruct (H u Hu) as (l' & Gl' & WL). rewrite Gl in Gl'. injection Gl' as <-. pose proof WL as (p0 & Hp0 & _ & Hl0).
  pose proof (graph_sched_ok G (lower_of lrows) (upper_of lrows) T tasks thb tb o2t t2o PP HT TO tr S GO) as SO.
  assert (PT : forall i r, get t2o i = Some r -> 0 <= r < m /\ in_task S i (tof tasks r)). { intros i r' Gi. rewrite <- Gm. exact (pos_task G T tasks thb tb o2t t2o TO S i r' (go_tb _ _ _ _ _ GO) Gi). }
  assert (RD : forall R x q, reads S t2o rows R x q -> exists r c, 0 <= r < m /\ 0 <= c < m /\ x = tof tasks r /\ q = tof tasks c /\ entry rows r c /\ R r c).
  { intros R x q (i & i' & r0 & c & A1 & A2 & A3 & A4 & A5 & A6). destruct (PT i r0 A2) as (B1 & B2), (PT i' c A4) as (C1 & C2). exists r0, c. repeat match goal with |- _ /\ _ => split end; try lia; auto; eapply in_task_unique; eauto. }
  assert (ED : forall (R : Z -> Z -> Prop) r c, 0 <= r < m -> 0 <= c < m -> entry rows r c -> R r c -> reads S t2o rows R (tof tasks r) (tof tasks c)).
  { intros R r0 c Hr Hc He Hrc. destruct (so_surj _ _ _ _ SO r0 ltac:(lia)) as (i & _ & Gi). destruct (so_surj _ _ _ _ SO c ltac:(lia)) as (i' & _ & Gi'). exists i, i', r0, c. destruct (PT i r0 Gi), (PT i' c Gi'). auto 8. }
  assert (TF : forall r, 0 <= r < m -> In r (nthl (ts tasks) (tof tasks r))). { intros r' Hr. apply (tof_ok G T tasks thb tb o2t t2o TO r'). lia. }
  assert (LO : forall i c, 0 <= i < m -> In c (lower_of lrows i) -> 0 <= c < i /\ entry rows i c).
  { intros i c Hi Hc. pose proof (po_lt _ _ _ PP c i ltac:(lia) Hc) as Hci. split; auto. unfold lower_of in Hc. apply filter_In in Hc as (Hc & _). apply in_map_iff in Hc as ((c' & v) & <- & Hv). exists v. destruct (local_prefix base rows lrows A HL i Hi) as (h & ->). apply in_or_app. now left. }
  assert (UP : forall i c, 0 <= i < m -> In c (upper_of lrows i) -> i < c < m /\ entry rows i c).
  { intros i c Hi Hc. unfold upper_of in Hc. apply (filter_In (fun c => (i <? c) && (c <? Zlen lrows))) in Hc as (Hc & Hb). assert (LL : Zlen lrows = m) by apply HL. split; [lia|]. apply in_map_iff in Hc as ((c' & v) & <- & Hv). exists v. destruct (local_prefix base rows lrows A HL i Hi) as (h & ->). apply in_or_app. now left. }
  assert (TS : forall v i, 0 <= v < nt tasks -> In i (nthl (ts tasks) v) -> 0 <= i < m /\ tof tasks i = v).
  { intros v i Hv Hi. split; [|now apply (tof_unique G T tasks thb tb o2t t2o TO)]. rewrite <- Gm. apply (in_ts G T tasks thb tb o2t t2o TO). eauto. }
  split; [|split].
  - intros F HF Hall q HQ. destruct (RD _ _ _ HQ) as (r0 & c & Hr0 & Hc & Eu & -> & He & _).
    assert (SW : swept (upper_of lrows) T tasks thb F).
    { intros v x R Fv. apply (R1_R2 G (lower_of lrows) (upper_of lrows) lev T tasks thb tb o2t t2o PP D HT TO LI tr v x) in R.
      induction R as [v x R|v y x R1 IH1 R2 IH2]; auto. apply (HF x v); auto. now apply (before1_false G (upper_of lrows) T tasks thb tb o2t t2o HT TO tr S GO v x). }
    destruct (wait_enough (upper_of lrows) T tasks thb G tb o2t t2o HT TO (lower_of lrows) PP lev D LI u l F Hu WL SW Hall) as (Fu & HE).
    destruct (Z.eq_dec c r0) as [->|N]. { congruence. }
    apply (HE r0 c); [rewrite Eu; auto|]. destruct (Z_lt_ge_dec r0 c).
    + right. apply (entry_upper base rows lrows A HL HP HH r0 c); auto.
    + left. apply (po_sym _ _ _ PP); try lia. apply (entry_upper base rows lrows A HL HP HH c r0); auto. lia.
  - intros v Hv. apply Hl0 in Hv as (Hv & _). apply in_app_or in Hv as [Hv|[<-|[]]].
    + apply In_pl in Hv as (Hvn & PB). apply Pb_X in PB. right. unfold Xb in PB. apply andb_true_iff in PB as (PB & _). apply E_spec in PB as (i & j & Hi & Hij0 & <-). destruct (TS v i Hvn Hi) as (Him & Ei). destruct (UP i j Him Hij0) as (Hij & He).
      subst v. apply ED; try lia. assert (In i (lower_of lrows j)). { apply (po_sym _ _ _ PP i j); auto; lia. } apply LO; auto. lia.
    + destruct Hp0 as (_ & _ & [->|(i & c & Hi & Hc & Ec)] & _); auto. right. destruct (TS u i Hu Hi) as (Him & Ei). destruct (LO i c Him Hc) as (Hci & He). subst. apply ED; auto; lia.
  - intros v p q Hv Hp HQ Hns Hs. destruct (Z_lt_ge_dec v q) as [|Hge]; auto. exfalso. pose proof Hv as Hv0. pose proof Hp as Hp1. apply Hl0 in Hv0 as (_ & NC). apply Hl0 in Hp1 as (Hp1 & _). apply NC. exists p, q. split; auto.
    apply (same_thread_own G (upper_of lrows) T tasks thb tb o2t t2o HT TO tr S GO) in Hs as (Hq & Hvn & Eo).
    destruct (RD _ _ _ HQ) as (r0 & c & Hr0 & Hc & -> & -> & He & Hlt). destruct (tof_ok G T tasks thb tb o2t t2o TO r0 ltac:(lia)) as (Htr & _).
    split; [|split; [auto|lia]]. apply in_adj. split; auto. unfold Xb. apply andb_true_iff. split.
    + apply E_spec. exists r0, c. split; auto. split; auto. apply (entry_upper base rows lrows A HL HP HH r0 c); auto.
    + apply negb_true_iff. apply Bool.not_true_is_false. intros X. apply Hns. apply (same_thread_own G (upper_of lrows) T tasks thb tb o2t t2o HT TO tr S GO). split; auto. split; auto. lia.
Qed.
End Csr.
Theorem fused_waits {V} hasv base n (rows lrows : rows_t V) A dp T agg tr cost w S o2t t2o junk : sched_matrix hasv base n rows lrows A dp -> sched_args (Zlen rows) T cost w ->
  constructTaskGraph (graph_of A base dp) T false agg tr cost w = Some (S, o2t, t2o) -> (forall n, 0 <= n -> Zlen (junk n) = n) ->
  exists tp r, constructFused (graph_of A base dp) T false agg tr cost w junk = Some (tp, r) /\ Zlen tp = ntasks S /\
    forall u l, get tp u = Some l ->
      (forall F, finished_set S F -> (forall v, In v l -> F v) -> forall q, reads S t2o rows (fun _ _ => True) u q -> F q) /\
      (forall v, In v l -> v = u \/ reads S t2o rows (fun r c => c < r) u v) /\
      (forall v p q, In v l -> In p l -> reads S t2o rows Z.lt p q -> ~ same_thread S p q -> same_thread S q v -> v < q).
Proof. intros [H1 H2 H3 H4 H5] [A1 A2 A3]. apply (csr_fused hasv base n rows lrows A dp H1 H2 H3 H4 H5 T agg cost w A1 A2 A3). Qed.

(** ** A worked case

    Rows 0 and 1 are the first level, rows 2 and 3 the second; thread 0 has rows 0
    and 2.  The SpMV task of row 2 waits for those of rows 0 and 1, which end the
    backward sweep of the two threads. *)
Definition cross_rows : rows_t Z := [[(0, 5); (2, 1); (3, 1)]; [(1, 6); (2, 1); (3, 1)]; [(0, 1); (1, 1); (2, 7)]; [(0, 1); (1, 1); (3, 8)]].
Definition cross_world : world := simple_world [[0; 1]; [2; 3]] 4 (fun k => repeat 1%nat k).
Definition cross_junk (n : Z) : list Z := map (fun _ => 77) (zrange 0 n).
Lemma cross_case : sched_matrix true 0 4 cross_rows cross_rows (csr_of 0 4 cross_rows) (dp_of 0 cross_rows) /\ sched_args 4 2 (fun _ => 1) cross_world /\ (forall n, 0 <= n -> Zlen (cross_junk n) = n) /\
  option_map (fun r => snd r) (constructTaskGraph (graph_of (csr_of 0 4 cross_rows) 0 (dp_of 0 cross_rows)) 2 false false true (fun _ => 1) cross_world) = Some [0; 2; 1; 3] /\
  option_map fst (constructFused (graph_of (csr_of 0 4 cross_rows) 0 (dp_of 0 cross_rows)) 2 false false true (fun _ => 1) cross_world cross_junk) = Some [[0]; [0; 2]; [2]; [0; 2]].
Proof.
  split; [|split; [|split; [|split]]].
  - apply csr_of_sched; [reflexivity|]. intros r c v Hr Hc. change (Zlen cross_rows) with 4. cbn [cross_rows In] in Hr. repeat (destruct Hr as [<-|Hr]; [cbn [In] in Hc; repeat (destruct Hc as [Hc|Hc]; [injection Hc as <- _; lia|]); destruct Hc|]). destruct Hr.
  - constructor; [lia|lia|]. apply simple_world_ok; [lia|]. split; [reflexivity|]. split; [reflexivity|]. intros t Ht. assert (t = 0 \/ t = 1) as [-> | ->] by lia; vm_compute; discriminate.
  - intros n Hn. unfold cross_junk. rewrite Zlen_map, Zlen_zrange; lia.
  - vm_compute. reflexivity.
  - vm_compute. reflexivity.
Qed.
