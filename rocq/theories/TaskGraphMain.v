(** * The wait lists built by constructTaskGraph_. *)
From Coq Require Import Permutation Relations.
From Verif Require Import Base Interleave Spec Search Partition PrefixSum Flat Csr Transpose RowPar PermUtils Exec Levels LevelsFacts LevelsMain Tasks LevelsCsr TaskGraph TaskGraphFacts TaskGraphLists.

Lemma bounds_off {A} (l : list (list A)) n : Zlen l = n -> bounds n (Zlen (concat l)) (map (off (nthl l)) (zrange 0 (n + 1))).
Proof.
  intros H. pose proof (Zlen_nonneg l) as Hn. rewrite H in Hn.
  assert (G : forall t, 0 <= t <= n -> get (map (off (nthl l)) (zrange 0 (n + 1))) t = Some (off (nthl l) t)). { intros t Ht. rewrite get_map, get_zrange by lia. cbn [option_map]. now replace (0 + t) with t by lia. }
  split. { rewrite Zlen_map, Zlen_zrange. lia. } rewrite !G by lia. rewrite off_0. split; auto. split. { f_equal. now apply Zlen_concat_off. }
  intros i j a b Hij Gi Gj. pose proof (get_Some_bounds _ _ _ Gi). pose proof (get_Some_bounds _ _ _ Gj). rewrite Zlen_map, Zlen_zrange in *. rewrite G in Gi, Gj by lia. injection Gi as <-. injection Gj as <-. apply off_mono. lia.
Qed.
Lemma mapM_ext_in {A B} (f g : A -> option B) l : (forall x, In x l -> f x = g x) -> mapM f l = mapM g l.
Proof. induction l as [|x l IH]; intros H; cbn [mapM]; auto. rewrite H by (now left). rewrite IH by (intros; apply H; now right). reflexivity. Qed.
Lemma foldM_set_const {X} (l : list Z) q (w : list X) : (forall i, In i l -> 0 <= i < Zlen w) ->
  exists w', foldM (fun i w => set w i q) l w = Some w' /\ Zlen w' = Zlen w /\ (forall i, In i l -> get w' i = Some q) /\ (forall i, ~ In i l -> get w' i = get w i).
Proof.
  intros H. destruct (write_all (fun i w => set w i q) (fun i => i) (fun _ => q) l w) as (w' & E & L & A & B); auto. exists w'. repeat split; auto. intros i Hi. apply B. intros a Ha ->. auto.
Qed.

Section Main.
Variables (G : gr) (lo up : Z -> list Z) (lev : Z -> Z) (T : Z) (tasks : list (list (list Z))) (thb tb o2t t2o : list Z).
Notation m := (g_m G).
Hypothesis P : pattern_ok G lo up.
Hypothesis D : is_depth m lo lev.
Hypothesis HT : 1 <= T.
Hypothesis TO : tasks_ok m T tasks thb tb o2t t2o.
Hypothesis LI : levels_increase lev tasks.

Definition ts := concat tasks.
Definition nt := Zlen ts.
Definition tof (i : Z) : Z := zfind (fun v => memb i (nthl ts v)) nt.
Notation own v := (owner thb T v).

Lemma nt_nonneg : 0 <= nt. Proof. apply Zlen_nonneg. Qed.
Lemma thb_bounds : bounds T nt thb.
Proof. rewrite (to_thb _ _ _ _ _ _ _ TO). apply bounds_off, (to_T _ _ _ _ _ _ _ TO). Qed.
Lemma t2o_len : Zlen (concat ts) = m.
Proof. unfold ts. rewrite <- (to_t2o _ _ _ _ _ _ _ TO), (Zlen_perm _ _ (to_perm _ _ _ _ _ _ _ TO)), Zlen_zrange. pose proof (po_m _ _ _ P). lia. Qed.
Lemma tb_bounds : bounds nt m tb.
Proof. rewrite (to_tb _ _ _ _ _ _ _ TO), <- t2o_len. apply bounds_off. reflexivity. Qed.
Lemma thb_get t : 0 <= t <= T -> get thb t = Some (off (nthl tasks) t).
Proof. intros Ht. rewrite (to_thb _ _ _ _ _ _ _ TO), get_map, get_zrange by lia. cbn [option_map]. now replace (0 + t) with t by lia. Qed.
Lemma thb_zget t : 0 <= t <= T -> zget thb t = off (nthl tasks) t.
Proof. intros Ht. unfold zget. now rewrite thb_get. Qed.
Lemma tb_get v : 0 <= v <= nt -> get tb v = Some (off (nthl ts) v).
Proof. intros Hv. rewrite (to_tb _ _ _ _ _ _ _ TO). fold ts. fold nt. rewrite get_map, get_zrange by lia. cbn [option_map]. now replace (0 + v) with v by lia. Qed.
Lemma t2o_get v k i : 0 <= v < nt -> get (nthl ts v) k = Some i -> get t2o (off (nthl ts) v + k) = Some i.
Proof. intros Hv Hk. rewrite (to_t2o _ _ _ _ _ _ _ TO). fold ts. rewrite LevelsFacts.get_concat; auto. eapply get_Some_bounds; eauto. Qed.
Lemma in_ts i : 0 <= i < m <-> exists v, 0 <= v < nt /\ In i (nthl ts v).
Proof. unfold nt. rewrite <- nthl_In. unfold ts. rewrite <- (to_t2o _ _ _ _ _ _ _ TO). rewrite <- In_zrange. split; apply Permutation_in; [apply Permutation_sym|]; apply (to_perm _ _ _ _ _ _ _ TO). Qed.
Lemma ts_nodup : NoDup (concat ts).
Proof. unfold ts. rewrite <- (to_t2o _ _ _ _ _ _ _ TO). eapply Permutation_NoDup; [apply Permutation_sym, (to_perm _ _ _ _ _ _ _ TO)|]. apply NoDup_zrange. Qed.
Lemma ts_unique v w i : 0 <= v < nt -> 0 <= w < nt -> In i (nthl ts v) -> In i (nthl ts w) -> v = w.
Proof. intros Hv Hw A B. apply In_get in A as (k & Hk & Gk), B as (l & Hl & Gl).
  rewrite <- LevelsFacts.get_concat in Gk, Gl by auto. pose proof (NoDup_get_inj _ _ _ _ ts_nodup Gk Gl) as E. apply off_unique in E; try lia. Qed.
Lemma tof_ok i : 0 <= i < m -> 0 <= tof i < nt /\ In i (nthl ts (tof i)).
Proof. intros Hi. apply in_ts in Hi as (v & Hv & H). destruct (zfind_ok (fun v => memb i (nthl ts v)) nt v Hv) as (A & B). { now apply memb_In. } split; auto. now apply memb_In. Qed.
Lemma tof_unique i v : 0 <= v < nt -> In i (nthl ts v) -> tof i = v.
Proof. intros Hv H. destruct (tof_ok i) as (A & B). { apply in_ts. eauto. } eapply ts_unique; eauto. Qed.
Lemma task_fold {S} v (f : Z -> S -> option S) s : 0 <= v < nt ->
  (b <- get tb v ;; e <- get tb (v + 1) ;; foldM (fun p s => i <- get t2o p ;; f i s) (zrange b e) s) = foldM f (nthl ts v) s.
Proof.
  intros Hv. rewrite !tb_get by lia. rewrite off_S by lia. apply (forZ_list (nthl ts v)). intros k i s' Gk. now rewrite (t2o_get v k i).
Qed.
Lemma task_mapM {B} v (f : Z -> option B) : 0 <= v < nt -> mapM (fun p => i <- get t2o p ;; f i) (zrange (off (nthl ts) v) (off (nthl ts) (v + 1))) = mapM f (nthl ts v).
Proof.
  intros Hv. rewrite off_S by lia. pose proof (mapM_get_list t2o (nthl ts v) (off (nthl ts) v)) as E. 
  assert (H : forall l bs, mapM (get t2o) l = Some bs -> mapM (fun p => i <- get t2o p ;; f i) l = mapM f bs).
  { induction l as [|p l IH]; intros bs Eb; cbn [mapM] in *. { now injection Eb as <-. } destruct (get t2o p) as [i|]; [|discriminate]. destruct (mapM (get t2o) l) as [r|]; [|discriminate]. injection Eb as <-. cbn [mapM]. now rewrite (IH r). }
  apply H. apply E. intros p Hp. destruct (@get_in_range _ (nthl ts v) p Hp) as (i & Gi). rewrite Gi. now apply t2o_get.
Qed.

Lemma own_ok v : 0 <= v < nt -> 0 <= own v < T /\ off (nthl tasks) (own v) <= v < off (nthl tasks) (own v + 1).
Proof. intros Hv. destruct (owner_ok T nt thb HT thb_bounds v Hv) as (A & B). split; auto. rewrite !thb_zget in B by lia. auto. Qed.
Lemma own_unique v t : 0 <= t < T -> off (nthl tasks) t <= v < off (nthl tasks) (t + 1) -> own v = t.
Proof. intros Ht Hv. apply (owner_unique T nt thb HT thb_bounds); auto. rewrite !thb_zget by lia. auto. Qed.
Lemma own_mono v w : 0 <= v <= w -> w < nt -> own v <= own w.
Proof.
  intros Hv Hw. destruct (own_ok v ltac:(lia)) as (A1 & A2), (own_ok w ltac:(lia)) as (B1 & B2). destruct (Z_le_gt_dec (own v) (own w)); auto.
  pose proof (off_mono (nthl tasks) (own w + 1) (own v) ltac:(lia)). lia.
Qed.
Lemma nthl_ts v : 0 <= v < nt -> get tasks (own v) = Some (nthl tasks (own v)) /\ get (nthl tasks (own v)) (v - off (nthl tasks) (own v)) = Some (nthl ts v).
Proof.
  intros Hv. destruct (own_ok v Hv) as (A & B). pose proof (to_T _ _ _ _ _ _ _ TO) as LT. split. { apply get_nthl. lia. }
  rewrite off_S in B by lia. rewrite <- (LevelsFacts.get_concat tasks (own v)) by lia. fold ts. replace (off (nthl tasks) (own v) + (v - off (nthl tasks) (own v))) with v by lia. now apply get_nthl.
Qed.
Lemma tlev_exists : exists tl : Z -> Z, (forall v i, 0 <= v < nt -> In i (nthl ts v) -> lev i = tl v) /\ (forall v w, 0 <= v < w -> w < nt -> own v = own w -> tl v < tl w).
Proof.
  destruct LI as (lv & HL). exists (fun v => lv (own v) (v - off (nthl tasks) (own v))). split.
  - intros v i Hv Hi. destruct (nthl_ts v Hv) as (A & B). destruct (HL _ _ A) as (C & _). eapply C; eauto.
  - intros v w Hv Hw E. destruct (nthl_ts v ltac:(lia)) as (A & _). destruct (HL _ _ A) as (_ & C). rewrite <- E. destruct (own_ok v ltac:(lia)) as (_ & O). destruct (own_ok w ltac:(lia)) as (OT & O'). rewrite <- E in O', OT. apply C; [lia|]. rewrite off_S in O' by lia. lia.
Qed.

(** Task [w] has a row depending on a row of task [v]. *)
Definition Eb (v w : Z) : bool := existsb (fun i => memb w (map tof (up i))) (nthl ts v).
Definition Xb (v w : Z) : bool := Eb v w && negb (own w =? own v).
Definition Nb (v w : Z) : bool := (w =? v + 1) && (own w =? own v).
Lemma E_spec v w : Eb v w = true <-> exists i j, In i (nthl ts v) /\ In j (up i) /\ tof j = w.
Proof.
  unfold Eb. rewrite existsb_exists. split.
  - intros (i & Hi & H). apply memb_In, in_map_iff in H as (j & E & Hj). eauto.
  - intros (i & j & Hi & Hj & E). exists i. split; auto. apply memb_In, in_map_iff. eauto.
Qed.
Lemma E_range v w : 0 <= v < nt -> Eb v w = true -> 0 <= w < nt.
Proof. intros Hv H. apply E_spec in H as (i & j & Hi & Hj & <-). apply tof_ok. eapply (po_up _ _ _ P); eauto. apply in_ts. eauto. Qed.
Lemma up_lev i j : 0 <= i < m -> In j (up i) -> lev i < lev j.
Proof. intros Hi Hj. pose proof (po_up _ _ _ P i j Hi Hj) as Hjm. destruct (D j Hjm) as (_ & H & _). apply H. now apply (po_sym _ _ _ P). Qed.
Lemma E_lev tl v w : (forall v i, 0 <= v < nt -> In i (nthl ts v) -> lev i = tl v) -> 0 <= v < nt -> Eb v w = true -> tl v < tl w.
Proof.
  intros Htl Hv H. pose proof (E_range v w Hv H) as Hw. apply E_spec in H as (i & j & Hi & Hj & <-). assert (Him : 0 <= i < m) by (apply in_ts; eauto).
  pose proof (po_up _ _ _ P i j Him Hj) as Hjm. destruct (tof_ok j Hjm) as (_ & Hjt). rewrite <- (Htl v i), <- (Htl (tof j) j); auto. now apply up_lev.
Qed.
Hypothesis HI : forall i cs c, 0 <= i < m -> succs G i = Some cs -> In c cs -> c < m.
Lemma succs_up i : 0 <= i < m -> exists r d, get (g_row G) i = Some r /\ get (g_dia G) i = Some d /\ get (g_ext G) i = Some (d + 1 + Zlen (up i)) /\ d - r = Zlen (lo i) /\ succs G i = Some (up i).
Proof.
  intros Hi. destruct (po_low _ _ _ P i Hi) as (r & d & e & cs & A & B & C & L & S & E & U). assert (Hc : cs = up i). { rewrite <- U. unfold inside. symmetry. apply filter_all. intros x Hx. pose proof (HI i cs x Hi S Hx). lia. }
  rewrite Hc in *. exists r, d. replace (d + 1 + Zlen (up i)) with e by lia. auto.
Qed.

(** ** The first phases *)
Lemma task_ids_ok sch jid : Zlen jid = m -> exists ids, task_ids sch nt tb t2o jid = Some ids /\ forall i, 0 <= i < m -> get ids i = Some (tof i).
Proof.
  intros Hj. unfold task_ids.
  destruct (par_any_inv (fun done w => Zlen w = m /\ forall q i, In q done -> In i (nthl ts q) -> get w i = Some q) sch
    (fun q w => b <- get tb q ;; e <- get tb (q + 1) ;; foldM (fun p w => i <- get t2o p ;; set w i q) (zrange b e) w) 0 nt jid) as (w & done & E & (L & H) & Hd).
  - split; auto. intros q i [].
  - intros done q w Hq Nq Hd (L & H). rewrite (task_fold q (fun i w => set w i q) w Hq).
    destruct (foldM_set_const (nthl ts q) q w) as (w' & E & L' & A & B). { intros i Hi. rewrite L. apply in_ts. eauto. }
    exists w'. split; auto. split; [lia|]. intros q' i [<-|Hq'] Hi; auto. rewrite B; auto. intros Hi'. apply Nq. replace q with q'; auto. apply (ts_unique q' q i); auto.
  - exists w. split; auto. intros i Hi. destruct (tof_ok i Hi) as (A & B). apply H; auto. now apply Hd.
Qed.

Definition sz (v : Z) : Z := zsum (map (fun i => Zlen (up i)) (nthl ts v)).
Definition isz (v : Z) : Z := zsum (map (fun i => Zlen (lo i) + 1) (nthl ts v)).
Lemma task_size_ok v : 0 <= v < nt -> task_size G tb t2o v = Some (sz v, isz v).
Proof.
  intros Hv. unfold task_size. rewrite !tb_get by lia. rewrite (task_mapM v (fun i => r <- get (g_row G) i ;; d <- get (g_dia G) i ;; x <- get (g_ext G) i ;; Some (x - d - 1, d - r + 1))) by auto.
  rewrite (mapM_Some _ (fun i => (Zlen (up i), Zlen (lo i) + 1))). { now rewrite !map_map. }
  intros i Hi. destruct (succs_up i) as (r & d & A & B & C & E & _). { apply in_ts. eauto. } rewrite A, B, C. do 2 f_equal; lia.
Qed.
Lemma sizes_ok : mapM (task_size G tb t2o) (zrange 0 nt) = Some (map (fun v => (sz v, isz v)) (zrange 0 nt)).
Proof. apply mapM_Some. intros v Hv. apply In_zrange in Hv. now apply task_size_ok. Qed.

Definition adj (v : Z) : list Z := filter (Xb v) (zrange 0 nt).
Lemma cross_ok ids v : (forall i, 0 <= i < m -> get ids i = Some (tof i)) -> 0 <= v < nt -> cross_list G tb thb t2o ids (own v) v = Some (adj v) /\ Zlen (adj v) <= sz v.
Proof.
  intros Hids Hv. unfold cross_list. destruct (own_ok v Hv) as (Ho & Hov). rewrite !thb_get, !tb_get by lia.
  rewrite (task_mapM v (fun i => cs <- succs G i ;; mapM (get ids) cs)) by auto.
  rewrite (mapM_Some _ (fun i => map tof (up i))).
  2: { intros i Hi. assert (Him : 0 <= i < m) by (apply in_ts; eauto). destruct (succs_up i Him) as (r & d & _ & _ & _ & _ & ->). apply mapM_Some. intros j Hj. apply Hids. eapply (po_up _ _ _ P); eauto. }
  set (l := filter _ (concat _)).
  assert (Hl : forall w, In w l <-> Xb v w = true).
  { intros w. unfold l. rewrite filter_In, in_concat. unfold Xb. rewrite andb_true_iff, E_spec. split.
    - intros ((x & Hx & H) & C). apply in_map_iff in Hx as (i & <- & Hi). apply in_map_iff in H as (j & <- & Hj). split; eauto.
      assert (Him : 0 <= i < m) by (apply in_ts; eauto). pose proof (po_up _ _ _ P i j Him Hj) as Hjm. destruct (own_ok (tof j)) as (A & B); [now apply tof_ok|]. destruct (owner thb T (tof j) =? owner thb T v) eqn:Q; auto. exfalso. replace (owner thb T (tof j)) with (owner thb T v) in B by lia. lia.
    - intros ((i & j & Hi & Hj & <-) & N). split. { exists (map tof (up i)). split; [apply in_map_iff; eauto|apply in_map_iff; eauto]. }
      destruct ((tof j <? _) || _) eqn:Q; auto. exfalso. rewrite (own_unique (tof j) (owner thb T v)) in N by lia. rewrite Z.eqb_refl in N. discriminate. }
  assert (Hr : forall w, In w l -> 0 <= w < nt). { intros w Hw. apply Hl in Hw. apply andb_true_iff in Hw as (Hw & _). eapply E_range; eauto. }
  assert (Ea : dedup (-1) (zsort l) = adj v). { rewrite (dedup_zsort nt l Hr). apply filter_ext_in. intros w _. apply eq_iff_eq_true. rewrite memb_In. apply Hl. }
  rewrite Ea. split; auto. rewrite <- Ea. etransitivity; [apply dedup_len|]. rewrite (Zlen_perm _ _ (zsort_perm l)). unfold l. etransitivity; [apply Zlen_filter_le|]. rewrite Zlen_concat_zsum, map_map. unfold sz. apply Z.eq_le_incl. f_equal. apply map_ext. intros i. apply Zlen_map.
Qed.

(** ** Adjacency lists and inverse edges *)
Variable tr : bool.
Definition Ib (v w : Z) : bool := Xb v w || (tr && Nb v w).
Definition inv (w : Z) : list Z := filter (fun v => Ib v w) (zrange 0 nt).
Definition adj' (v : Z) : list Z := if tr && negb (v =? zget thb (own v + 1) - 1) then v + 1 :: adj v else adj v.
Definition aof (v : Z) : list graph_act := inl (v, adj v) :: map inr (inv_edges tr (v =? zget thb (own v + 1) - 1) v (adj v)).
Lemma last_iff v : 0 <= v < nt -> (v =? zget thb (own v + 1) - 1) = false <-> v + 1 < nt /\ own (v + 1) = own v.
Proof.
  intros Hv. destruct (own_ok v Hv) as (A & B). rewrite thb_zget by lia. split.
  - intros E. assert (C : off (nthl tasks) (owner thb T v) <= v + 1 < off (nthl tasks) (owner thb T v + 1)) by lia. split; [|now apply own_unique].
    destruct (bounds_zget _ _ _ thb_bounds ltac:(lia)) as (_ & _ & WT & WM). specialize (WM (owner thb T v + 1) T ltac:(lia) ltac:(lia)). rewrite thb_zget in WM by lia. lia.
  - intros (C & E). destruct (own_ok (v + 1) ltac:(lia)) as (_ & F). rewrite E in F. lia.
Qed.
Lemma adj_no_next v : 0 <= v < nt -> (v =? zget thb (own v + 1) - 1) = false -> ~ In (v + 1) (adj v).
Proof. intros Hv E H. apply last_iff in E as (_ & E); auto. unfold adj in H. apply filter_In in H as (_ & H). unfold Xb in H. rewrite E, Z.eqb_refl, andb_false_r in H. discriminate. Qed.
Lemma In_adj v w : In w (adj v) <-> 0 <= w < nt /\ Xb v w = true.
Proof. unfold adj. rewrite filter_In, In_zrange. tauto. Qed.
Lemma In_adj' v w : 0 <= v < nt -> (In w (adj' v) <-> 0 <= w < nt /\ Ib v w = true).
Proof.
  intros Hv. unfold adj', Ib, Nb. destruct tr; cbn [andb]. 2: { rewrite orb_false_r. apply In_adj. }
  destruct (v =? zget thb (owner thb T v + 1) - 1) eqn:E; cbn [negb].
  - rewrite In_adj. split; [intros (A & B); rewrite B; auto|]. intros (A & B). split; auto. apply orb_true_iff in B as [B|B]; auto. exfalso. apply andb_true_iff in B as (B1 & B2).
    assert (C : (v =? zget thb (owner thb T v + 1) - 1) = false); [|congruence]. apply last_iff; auto. replace (v + 1) with w by lia. split; lia.
  - apply last_iff in E as (E1 & E2); auto. cbn [In]. rewrite In_adj. split.
    + intros [<-|(A & B)]; [split; [lia|]|split; auto; now rewrite B]. rewrite E2, !Z.eqb_refl. apply orb_true_r.
    + intros (A & B). apply orb_true_iff in B as [B|B]; [auto|]. apply andb_true_iff in B as (B & _). left. lia.
Qed.
Lemma NoDup_adj' v : 0 <= v < nt -> NoDup (adj' v).
Proof.
  intros Hv. assert (NoDup (adj v)) by apply filter_zrange_NoDup. unfold adj'. destruct (tr && _) eqn:E; auto. constructor; auto. apply adj_no_next; auto. apply andb_true_iff in E as (_ & E). destruct (v =? _); auto.
Qed.
Lemma aof_ok ids v : (forall i, 0 <= i < m -> get ids i = Some (tof i)) -> 0 <= v < nt -> graph_acts G tr tb thb t2o ids (own v, v) = Some (aof v).
Proof. intros H Hv. unfold graph_acts. destruct (cross_ok ids v H Hv) as (-> & _). destruct (own_ok v Hv) as (A & _). rewrite thb_get by lia. unfold aof. now rewrite thb_zget by lia. Qed.
Lemma concat_concat_map {A B C} (f : B -> list C) (g : A -> list B) l : concat (map (fun t => concat (map f (g t))) l) = concat (map f (concat (map g l))).
Proof. induction l as [|x l IH]; auto. cbn [map concat]. now rewrite map_app, concat_app, IH. Qed.
Lemma rights_aof v : Permutation (rights (aof v)) (map (fun a => (a, v)) (adj' v)) \/ ~ 0 <= v < nt.
Proof.
  destruct (Z_le_gt_dec 0 v); [|right; lia]. destruct (Z_lt_ge_dec v nt); [|right; lia]. left. unfold aof. change (rights (inl (v, adj v) :: ?l)) with (rights l). rewrite rights_map. unfold adj'.
  destruct (v =? zget thb (owner thb T v + 1) - 1) eqn:E.
  - assert (H : forall r, inv_edges tr true v r = map (fun a => (a, v)) r). { intros r; induction r as [|x r IH]; cbn [inv_edges negb andb map]; auto. now rewrite IH. } rewrite H. cbn [negb]. rewrite andb_false_r. reflexivity.
  - apply inv_edges_perm. now apply adj_no_next.
Qed.
Lemma concat_perm {A B} (f g : A -> list B) l : (forall x, In x l -> Permutation (f x) (g x)) -> Permutation (concat (map f l)) (concat (map g l)).
Proof. induction l as [|x l IH]; intros H; cbn [map concat]; auto. apply Permutation_app; [apply H; now left|apply IH; intros; apply H; now right]. Qed.

Hypothesis NE : tr = true -> forall v, 0 <= v < nt -> nthl ts v <> [].
Lemma pushes_bound l w : Permutation l (pairs_of adj' nt) -> 0 <= w < nt -> NoDup (at_ w l) /\ (forall v, In v (at_ w l) <-> 0 <= v < nt /\ Ib v w = true) /\ Zlen (at_ w l) <= isz w.
Proof.
  intros Pl Hw. assert (N : NoDup (at_ w l)). { apply NoDup_at. eapply Permutation_NoDup; [apply Permutation_sym; exact Pl|]. apply NoDup_pairs. intros v Hv. now apply NoDup_adj'. }
  assert (HIn : forall v, In v (at_ w l) <-> 0 <= v < nt /\ Ib v w = true).
  { intros v. rewrite In_at. transitivity (In (w, v) (pairs_of adj' nt)). { split; apply Permutation_in; auto using Permutation_sym. } rewrite In_pairs. split.
    - intros (Hv & H). split; auto. now apply In_adj' in H.
    - intros (Hv & H). split; auto. now apply In_adj'. }
  split; auto. split; auto.
  assert (Hl : (length (at_ w l) <= length (map tof (concat (map lo (nthl ts w))) ++ (if tr then [(w - 1)%Z] else [])))%nat).
  { apply NoDup_incl_length; auto. intros v Hv. apply HIn in Hv as (Hv & H). apply in_or_app. apply orb_true_iff in H as [H|H].
    - left. apply andb_true_iff in H as (H & _). apply E_spec in H as (i & j & Hi & Hj & Ej). assert (Him : 0 <= i < m) by (apply in_ts; eauto). pose proof (po_up _ _ _ P i j Him Hj) as Hjm. apply in_map_iff. exists i. split. { now apply tof_unique. }
      apply in_concat. exists (lo j). split; [|now apply (po_sym _ _ _ P)]. apply in_map_iff. exists j. split; auto. rewrite <- Ej. now apply tof_ok.
    - right. apply andb_true_iff in H as (-> & H). apply andb_true_iff in H as (H & _). left. lia. }
  assert (Hs : forall r, zsum (map (fun i => Zlen (lo i) + 1) r) = Zlen (concat (map lo r)) + Zlen r).
  { induction r as [|i r IH]; [reflexivity|]. cbn [map concat]. change (zsum (Zlen (lo i) + 1 :: ?q)) with (Zlen (lo i) + 1 + zsum q). rewrite IH, Zlen_app, Zlen_cons. lia. }
  unfold isz. rewrite Hs. rewrite app_length, map_length in Hl. pose proof (NE) as NE'. destruct tr.
  - specialize (NE' eq_refl w Hw). destruct (nthl ts w) as [|i r] eqn:E; [congruence|]. rewrite Zlen_cons. pose proof (Zlen_nonneg r). unfold Zlen in *. cbn [length] in Hl. lia.
  - pose proof (Zlen_nonneg (nthl ts w)). unfold Zlen in *. cbn [length] in Hl. lia.
Qed.

Lemma get_map_z {A} (f : Z -> A) n v : 0 <= v < n -> get (map f (zrange 0 n)) v = Some (f v).
Proof. intros H. rewrite get_map, get_zrange by lia. reflexivity. Qed.
Lemma zget_map_z (f : Z -> Z) n v : 0 <= v < n -> zget (map f (zrange 0 n)) v = f v.
Proof. intros H. unfold zget. now rewrite get_map_z. Qed.
Lemma Zlen_map_z {A} (f : Z -> A) n : 0 <= n -> Zlen (map f (zrange 0 n)) = n.
Proof. intros H. rewrite Zlen_map, Zlen_zrange. lia. Qed.

Lemma store_all {A} (f : Z -> list A) sizes n (acts : list (Z * list A)) w step : Zlen w = n -> 0 <= n ->
  (forall a w, step a w = (c <- get sizes (fst a) ;; if Zlen (snd a) <=? c then set w (fst a) (snd a) else None)) ->
  (forall v, 0 <= v < n -> exists c, get sizes v = Some c /\ Zlen (f v) <= c) ->
  (forall v l, In (v, l) acts <-> 0 <= v < n /\ l = f v) -> foldM step acts w = Some (map f (zrange 0 n)).
Proof.
  intros Lw Hn Hst Hs Ha. destruct (write_all step (fun a => fst a) (fun a => snd a) acts w) as (w' & E & L & H & _).
  - intros (v & l) w' Hin Lw'. apply Ha in Hin as (Hv & ->). rewrite Hst. cbn [fst snd]. destruct (Hs v Hv) as (c & -> & B). now replace (Zlen (f v) <=? c) with true by lia.
  - intros (v & l) Hin. apply Ha in Hin as (Hv & _). cbn [fst]. lia.
  - intros (v & l) (v' & l') Hin Hin' Ev. apply Ha in Hin as (_ & ->), Hin' as (_ & ->). cbn in *. now subst.
  - rewrite E. f_equal. apply list_ext. { rewrite Zlen_map_z; lia. } intros v Hv. rewrite get_map_z by lia. apply (H (v, f v)). apply Ha. split; auto. lia.
Qed.

Theorem phase1_ok ids vb s jadj : (forall i, 0 <= i < m -> get ids i = Some (tof i)) -> bounds T nt vb -> Zlen jadj = nt ->
  exists acts inv0, mapM (fun t => l <- owned_by thb T vb t ;; as_ <- mapM (graph_acts G tr tb thb t2o ids) l ;; Some (concat as_)) (zrange 0 T) = Some acts /\
    par s (graph_step (map sz (zrange 0 nt)) (map isz (zrange 0 nt))) acts (jadj, map (fun _ => []) (zrange 0 nt)) = Some (map adj (zrange 0 nt), inv0) /\
    Zlen inv0 = nt /\ forall w, 0 <= w < nt -> zsort (nthl inv0 w) = inv w.
Proof.
  intros Hids Hvb Hj. pose proof nt_nonneg as Hnt. destruct (bounds_zget _ _ _ Hvb ltac:(lia)) as (_ & W0 & WT & WM).
  exists (map (fun t => concat (map aof (zrange (zget vb t) (zget vb (t + 1))))) (zrange 0 T)).
  assert (Hacts : concat (map (fun t => concat (map aof (zrange (zget vb t) (zget vb (t + 1))))) (zrange 0 T)) = concat (map aof (zrange 0 nt))).
  { rewrite (concat_concat_map aof (fun t => zrange (zget vb t) (zget vb (t + 1)))). now rewrite (ranges_concat T nt thb HT vb Hvb). }
  set (acts := map _ (zrange 0 T)) in *. set (tr_ := merge s acts). assert (Pm : Permutation tr_ (concat (map aof (zrange 0 nt)))) by (rewrite <- Hacts; apply merge_perm).
  assert (Pr : Permutation (rights tr_) (pairs_of adj' nt)).
  { etransitivity; [apply rights_perm; exact Pm|]. pose proof (rights_concat (A := Z * list Z) (B := Z * Z) (map aof (zrange 0 nt))) as Er. transitivity (concat (map (@rights (Z * list Z) (Z * Z)) (map aof (zrange 0 nt)))); [rewrite <- Er; reflexivity|]. rewrite map_map. unfold pairs_of. apply concat_perm. intros v Hv. apply In_zrange in Hv. destruct (rights_aof v); [auto|lia]. }
  destruct (push_all (map isz (zrange 0 nt)) (rights tr_) (map (fun _ => []) (zrange 0 nt))) as (inv0 & E2 & L2 & H2).
  { rewrite !Zlen_map_z by lia. reflexivity. }
  { intros (a & v) Hin. rewrite Zlen_map_z by lia. apply (Permutation_in _ Pr), In_pairs in Hin as (Hv & Ha). apply In_adj' in Ha; auto. tauto. }
  { intros v Hv. rewrite Zlen_map_z in Hv by lia. rewrite nthl_nils, zget_map_z by lia. change (Zlen (@nil Z)) with 0. destruct (pushes_bound (rights tr_) v Pr Hv) as (_ & _ & B). lia. }
  rewrite Zlen_map_z in L2, H2 by lia. exists inv0. split; [|split; [|split]].
  - apply mapM_Some. intros t Ht. apply In_zrange in Ht. rewrite (owned_by_ok T nt thb HT thb_bounds vb t Hvb Ht). rewrite mapM_map.
    rewrite (mapM_Some _ aof). { reflexivity. } intros v Hv. apply In_zrange in Hv. apply aof_ok; auto. pose proof (WM 0 t ltac:(lia) ltac:(lia)). pose proof (WM (t + 1) T ltac:(lia) ltac:(lia)). lia.
  - unfold par. fold tr_. apply (foldM_sum (store_list (map sz (zrange 0 nt))) (push (map isz (zrange 0 nt)))); auto.
    apply (store_all adj (map sz (zrange 0 nt)) nt); auto.
    + intros v Hv. exists (sz v). rewrite get_map_z by lia. split; auto. eapply cross_ok; eauto.
    + intros v l. rewrite In_lefts. transitivity (In (inl (v, l)) (concat (map aof (zrange 0 nt)))). { split; apply Permutation_in; auto using Permutation_sym. }
      rewrite in_concat. split.
      * intros (x & Hx & H). apply in_map_iff in Hx as (u & <- & Hu). apply In_zrange in Hu. destruct H as [H|H]; [injection H as -> <-; auto|]. apply in_map_iff in H as (y & H & _). discriminate.
      * intros (Hv & ->). exists (aof v). split; [apply in_map_iff; exists v; split; auto; now apply In_zrange|now left].
  - exact L2.
  - intros w Hw. rewrite H2, nthl_nils by auto. cbn [app]. destruct (pushes_bound (rights tr_) w Pr Hw) as (A & B & _). now apply zsort_filter.
Qed.

Lemma sort_all s vb inv0 : bounds T nt vb -> Zlen inv0 = nt -> (forall w, 0 <= w < nt -> zsort (nthl inv0 w) = inv w) ->
  exists rs, mapM (fun t => b <- get vb t ;; e <- get vb (t + 1) ;; Some (zrange b e)) (zrange 0 T) = Some rs /\
    par s (fun v w => q <- get w v ;; set w v (zsort q)) rs inv0 = Some (map inv (zrange 0 nt)).
Proof.
  intros Hvb L Hs. pose proof nt_nonneg as Hnt. destruct (bounds_zget _ _ _ Hvb ltac:(lia)) as (Gv & W0 & WT & WM). exists (map (fun t => zrange (zget vb t) (zget vb (t + 1))) (zrange 0 T)). split.
  { apply mapM_Some. intros t Ht. apply In_zrange in Ht. rewrite !Gv by lia. reflexivity. }
  destruct (par_rows_ts (fun r => r) (fun i a b => b = zsort a) s (fun v w => q <- get w v ;; set w v (zsort q)) (map (fun t => zrange (zget vb t) (zget vb (t + 1))) (zrange 0 T)) inv0) as (r2 & E & L2 & H2).
  - rewrite L. now apply (ranges_concat T nt thb HT).
  - intros i rows' Hi Lr _ Ei. exists (zsort (nthl inv0 i)). split; auto. split. { apply Zlen_perm, zsort_perm. } rewrite get_nthl by lia. rewrite Ei. unfold set. replace (0 <=? i) with true by lia. replace (i <? Zlen rows') with true by lia. reflexivity.
  - rewrite E. f_equal. apply list_ext. { rewrite Zlen_map_z by lia. lia. } intros i Hi. rewrite get_map_z by lia. rewrite get_nthl by lia. f_equal. destruct (H2 i ltac:(lia)) as (_ & ->). apply Hs. lia.
Qed.

(** ** Transitive reduction *)
Definition Rb (v w : Z) : bool := existsb (fun k => Ib v k && Ib k w) (zrange 0 nt).
Definition Wb (v w : Z) : bool := Xb v w && negb (tr && Rb v w).
Definition ch (v : Z) : list Z := filter (Wb v) (zrange 0 nt).
Lemma Rb_spec v w : Rb v w = true <-> exists k, 0 <= k < nt /\ Ib v k = true /\ Ib k w = true.
Proof.
  unfold Rb. rewrite existsb_exists. split.
  - intros (k & Hk & H). apply In_zrange in Hk. apply andb_true_iff in H. eauto.
  - intros (k & Hk & A & B). exists k. split; [now apply In_zrange|]. now rewrite A, B.
Qed.
Lemma filter_filter {A} (p q : A -> bool) l : filter p (filter q l) = filter (fun x => q x && p x) l.
Proof. induction l as [|x l IH]; auto. cbn [filter]. destruct (q x); cbn [filter andb]; rewrite IH; auto. Qed.
Lemma kept_ok v : tr = true -> 0 <= v < nt -> kept thb (map adj (zrange 0 nt)) (map inv (zrange 0 nt)) (own v, v) = Some (ch v).
Proof.
  intros Et Hv. destruct (own_ok v Hv) as (A & B). unfold kept. rewrite get_map_z, thb_get by lia. unfold adj at 1.
  assert (Hlast : v < off (nthl tasks) (owner thb T v + 1) - 1 <-> v + 1 < nt /\ owner thb T (v + 1) = owner thb T v). { rewrite <- last_iff by auto. rewrite thb_zget by lia. lia. }
  rewrite temp_adj_ok; [|lia|intros H; now apply Hlast]. set (temp := filter _ (zrange 0 nt)).
  assert (Htemp : forall x, In x temp <-> 0 <= x < nt /\ Ib v x = true).
  { intros x. unfold temp. rewrite filter_In, In_zrange. unfold Ib, Nb. rewrite Et. cbn [andb]. split; intros (Hx & H); split; auto; apply orb_true_iff in H as [H|H]; rewrite ?H; auto.
    - apply andb_true_iff in H as (H1 & H2). assert (Hn : v + 1 < nt /\ owner thb T (v + 1) = owner thb T v) by (apply Hlast; lia). apply orb_true_iff. right. replace x with (v + 1) by lia. destruct Hn as (_ & ->). lia.
    - apply andb_true_iff in H as (H1 & H2). apply orb_true_iff. right. assert (v < off (nthl tasks) (owner thb T v + 1) - 1); [|lia]. apply Hlast. replace (v + 1) with x by lia. split; lia. }
  rewrite (keepM_ok _ (Rb v)). { f_equal. unfold ch, adj. rewrite filter_filter. apply filter_ext_in. intros w _. unfold Wb. now rewrite Et. }
  intros w Hw. apply In_adj in Hw as (Hw & _). rewrite get_map_z by auto. destruct (redundant_ok (inv w) temp) as (b & E & Hb); try apply filter_zrange_mono. rewrite E. f_equal. apply eq_iff_eq_true. rewrite Hb, Rb_spec. split.
  - intros (x & H1 & H2). apply Htemp in H2 as (Hx & H2). unfold inv in H1. apply filter_In in H1 as (_ & H1). eauto.
  - intros (k & Hk & H1 & H2). exists k. rewrite Htemp. split; auto. unfold inv. apply filter_In. split; auto. now apply In_zrange.
Qed.
Definition kof (v : Z) : list ((Z * list Z) + Z) := inl (v, ch v) :: map inr (ch v).
Lemma In_ch v w : In w (ch v) <-> 0 <= w < nt /\ Wb v w = true.
Proof. unfold ch. rewrite filter_In, In_zrange. tauto. Qed.
Lemma ch_len v : Zlen (ch v) <= Zlen (adj v).
Proof. unfold ch, adj, Wb. rewrite <- filter_filter. apply Zlen_filter_le. Qed.

Theorem phase3_ok vb s jch : tr = true -> bounds T nt vb -> Zlen jch = nt ->
  exists kacts npf, mapM (fun t => l <- owned_by thb T vb t ;; as_ <- mapM (kept_acts thb (map adj (zrange 0 nt)) (map inv (zrange 0 nt))) l ;; Some (concat as_)) (zrange 0 T) = Some kacts /\
    par s (kept_step (map (fun l => Zlen l) (map adj (zrange 0 nt)))) kacts (jch, map (fun _ => 0) (zrange 0 nt)) = Some (map ch (zrange 0 nt), npf) /\
    Zlen npf = nt /\ forall w, 0 <= w < nt -> zget npf w = cnt w (concat (map ch (zrange 0 nt))).
Proof.
  intros Et Hvb Hj. pose proof nt_nonneg as Hnt. destruct (bounds_zget _ _ _ Hvb ltac:(lia)) as (_ & W0 & WT & WM).
  exists (map (fun t => concat (map kof (zrange (zget vb t) (zget vb (t + 1))))) (zrange 0 T)).
  assert (Hacts : concat (map (fun t => concat (map kof (zrange (zget vb t) (zget vb (t + 1))))) (zrange 0 T)) = concat (map kof (zrange 0 nt))).
  { rewrite (concat_concat_map kof (fun t => zrange (zget vb t) (zget vb (t + 1)))). now rewrite (ranges_concat T nt thb HT vb Hvb). }
  set (acts := map _ (zrange 0 T)) in *. set (tr_ := merge s acts). assert (Pm : Permutation tr_ (concat (map kof (zrange 0 nt)))) by (rewrite <- Hacts; apply merge_perm).
  assert (Pr : Permutation (rights tr_) (concat (map ch (zrange 0 nt)))).
  { etransitivity; [apply rights_perm; exact Pm|]. rewrite rights_concat, map_map. apply concat_perm. intros v _. unfold kof. change (rights (inl (v, ch v) :: ?l)) with (rights l). now rewrite rights_map. }
  destruct (count_all (rights tr_) (map (fun _ => 0) (zrange 0 nt))) as (npf & E2 & L2 & H2).
  { intros c Hin. rewrite Zlen_map_z by lia. apply (Permutation_in _ Pr), in_concat in Hin as (x & Hx & Hc). apply in_map_iff in Hx as (v & <- & _). apply In_ch in Hc. tauto. }
  rewrite Zlen_map_z in L2, H2 by lia. exists npf. split; [|split; [|split]].
  - apply mapM_Some. intros t Ht. apply In_zrange in Ht. rewrite (owned_by_ok T nt thb HT thb_bounds vb t Hvb Ht). rewrite mapM_map.
    rewrite (mapM_Some _ kof). { reflexivity. } intros v Hv. apply In_zrange in Hv. unfold kept_acts. rewrite kept_ok; auto. pose proof (WM 0 t ltac:(lia) ltac:(lia)). pose proof (WM (t + 1) T ltac:(lia) ltac:(lia)). lia.
  - unfold par. fold tr_. apply (foldM_sum (store_list (map (fun l => Zlen l) (map adj (zrange 0 nt)))) count_up); auto.
    rewrite map_map. apply (store_all ch (map (fun v => Zlen (adj v)) (zrange 0 nt)) nt); auto.
    + intros v Hv. exists (Zlen (adj v)). rewrite get_map_z by lia. split; auto. apply ch_len.
    + intros v l. rewrite In_lefts. transitivity (In (inl (v, l)) (concat (map kof (zrange 0 nt)))). { split; apply Permutation_in; auto using Permutation_sym. }
      rewrite in_concat. split.
      * intros (x & Hx & H). apply in_map_iff in Hx as (u & <- & Hu). apply In_zrange in Hu. destruct H as [H|H]; [injection H as -> <-; auto|]. apply in_map_iff in H as (y & H & _). discriminate.
      * intros (Hv & ->). exists (kof v). split; [apply in_map_iff; exists v; split; auto; now apply In_zrange|now left].
  - exact L2.
  - intros w Hw. rewrite H2, zget_map_z by auto. unfold cnt. apply Zlen_perm. clear -Pr. induction Pr; cbn [filter]; auto.
    + destruct (w =? x); auto.
    + destruct (w =? x), (w =? y); auto. apply perm_swap.
    + etransitivity; eauto.
Qed.

(** The wait lists of [S]: task [w] waits for the tasks [v] with [W v w] forward, and [v] for [w] backward. *)
Record graph_ok (S : schedule) (n : Z) (W : Z -> Z -> bool) : Prop := {
  go_nt : ntasks S = n;
  go_tb : taskBoundaries S = tb;
  go_thb : threadBoundaries S = thb;
  go_fwd : forall w, 0 <= w < n -> exists pf, get (parentsForward S) w = Some pf /\ get (nparentsForward S) w = Some (Zlen pf) /\ NoDup pf /\ forall v, In v pf <-> 0 <= v < n /\ W v w = true;
  go_bwd : forall v, 0 <= v < n -> exists pb, get (parentsBackward S) v = Some pb /\ get (nparentsBackward S) v = Some (Zlen pb) /\ NoDup pb /\ forall w, In w pb <-> 0 <= w < n /\ W v w = true }.

Theorem taskGraph_ok nnz sch jid jadj jch : m <= nnz -> Zlen jid = m -> Zlen jadj = nt -> Zlen jch = nt ->
  exists S, taskGraph G T nnz tr sch thb tb t2o jid jadj jch = Some S /\ graph_ok S nt Wb.
Proof.
  intros Hnnz Lid Ladj Lch. pose proof nt_nonneg as Hnt. unfold taskGraph. rewrite thb_get by lia. rewrite (Zlen_concat_off tasks T (to_T _ _ _ _ _ _ _ TO)). fold ts. fold nt.
  destruct (task_ids_ok (sch 0%nat) jid Lid) as (ids & -> & Hids). rewrite sizes_ok, !map_map. change (map (fun x : Z => fst (sz x, isz x))) with (map sz). change (map (fun x : Z => snd (sz x, isz x))) with (map isz).
  assert (Ls : Zlen (map sz (zrange 0 nt)) = nt) by (rewrite Zlen_map_z; lia).
  assert (Ps : forall x, In x (map sz (zrange 0 nt)) -> 0 <= x). { intros x Hx. apply in_map_iff in Hx as (v & <- & _). unfold sz. apply zsum_nonneg'. intros y Hy. apply in_map_iff in Hy as (i & <- & _). apply Zlen_nonneg. }
  destruct (boundaries1_ok nnz m T nt (map sz (zrange 0 nt)) HT Ls Ps Hnnz) as (vb & -> & Bvb).
  destruct (phase1_ok ids vb (sch 1%nat) jadj Hids Bvb Ladj) as (acts & inv0 & -> & -> & Linv & Hinv).
  destruct (sort_all (sch 2%nat) vb inv0 Bvb Linv Hinv) as (rs & -> & ->).
  destruct (boundaries2_ok T nt (map sz (zrange 0 nt)) (map adj (zrange 0 nt)) vb HT Ls ltac:(rewrite Zlen_map_z; lia) Ps Bvb) as (vb2 & -> & Bvb2).
  assert (Hb : forall v, 0 <= v < nt -> NoDup (ch v) /\ forall w, In w (ch v) <-> 0 <= w < nt /\ Wb v w = true). { intros v Hv. split; [apply filter_zrange_NoDup|apply In_ch]. }
  destruct (Bool.bool_dec tr true) as [Et|Et].
  - destruct (phase3_ok vb2 (sch 3%nat) jch Et Bvb2 Lch) as (kacts & npf & Ek & Ep & Lnpf & Hnpf). rewrite Et. rewrite Ek, Ep.
    set (edges := map (fun i => map (fun c => (c, i)) (nthl (map ch (zrange 0 nt)) i)) (zrange 0 nt)).
    assert (Pe : Permutation (merge (sch 4%nat) edges) (pairs_of ch nt)).
    { etransitivity; [apply merge_perm|]. unfold edges, pairs_of. apply concat_perm. intros v Hv. apply In_zrange in Hv. rewrite nthl_map_zrange by auto. reflexivity. }
    destruct (push_all npf (merge (sch 4%nat) edges) (map (fun _ => []) (zrange 0 nt))) as (pf & E4 & L4 & H4).
    { rewrite Zlen_map_z; lia. }
    { intros (c & i) Hin. rewrite Zlen_map_z by lia. apply (Permutation_in _ Pe), In_pairs in Hin as (Hi & Hc). apply In_ch in Hc. tauto. }
    { intros v Hv. rewrite Zlen_map_z in Hv by lia. rewrite nthl_nils, Hnpf by auto. change (Zlen (@nil Z)) with 0. rewrite (Zlen_perm _ _ (at_perm v _ _ Pe)), Zlen_at_cnt, fst_pairs. lia. }
    rewrite Zlen_map_z in L4, H4 by lia. unfold par at 1. rewrite E4. eexists. split; [reflexivity|]. constructor; cbn [ntasks taskBoundaries threadBoundaries nparentsForward parentsForward nparentsBackward parentsBackward]; auto.
    + intros w Hw. exists (at_ w (merge (sch 4%nat) edges)). split. { rewrite get_nthl by lia. now rewrite H4, nthl_nils by auto. }
      split. { rewrite (zget_ok npf) by lia. f_equal. rewrite Hnpf by auto. now rewrite (Zlen_perm _ _ (at_perm w _ _ Pe)), Zlen_at_cnt, fst_pairs. }
      split. { apply NoDup_at. eapply Permutation_NoDup; [apply Permutation_sym; exact Pe|]. apply NoDup_pairs. intros v Hv. now apply Hb. }
      intros v. rewrite In_at. transitivity (In (w, v) (pairs_of ch nt)). { split; apply Permutation_in; auto using Permutation_sym. } rewrite In_pairs, In_ch. tauto.
    + intros v Hv. exists (ch v). rewrite map_map, !get_map_z by auto. destruct (Hb v Hv). auto.
  - apply Bool.not_true_is_false in Et. rewrite Et. eexists. split; [reflexivity|]. constructor; cbn [ntasks taskBoundaries threadBoundaries nparentsForward parentsForward nparentsBackward parentsBackward]; auto.
    + intros w Hw. exists (inv w). rewrite map_map, !get_map_z by auto. split; auto. split; auto. split; [apply filter_zrange_NoDup|]. intros v. unfold inv. rewrite filter_In, In_zrange. unfold Ib, Wb. rewrite Et. cbn [andb negb]. rewrite orb_false_r, andb_true_r. reflexivity.
    + intros v Hv. exists (adj v). rewrite map_map, !get_map_z by auto. split; auto. split; auto. split; [apply filter_zrange_NoDup|]. intros w. rewrite In_adj. unfold Wb. rewrite Et. cbn [andb negb]. now rewrite andb_true_r.
Qed.
End Main.
