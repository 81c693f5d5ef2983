(** * Programs of the threads of a schedule, and the machine of P2P.v on them. *)
From Coq Require Import Relations.
From Verif Require Import Base Flat Csr P2P.

(** ** Positions in concatenations *)
Lemma cat_at {A B} (f : A -> list B) ts n c :
  get (concat (map f ts)) n = Some c <->
  exists pre a post k, ts = pre ++ a :: post /\ n = Zlen (concat (map f pre)) + k /\ get (f a) k = Some c.
Proof.
  split.
  - revert n. induction ts as [|a ts IH]; intros n H; cbn [map concat] in H.
    { exfalso. apply get_Some_bounds in H. change (Zlen (@nil B)) with 0 in H. lia. }
    pose proof (get_Some_bounds _ _ _ H). destruct (Z_lt_ge_dec n (Zlen (f a))).
    + rewrite get_app_l in H by lia. exists [], a, ts, n. cbn [app map concat]. change (Zlen (@nil B)) with 0. split; auto.
    + rewrite get_app_r in H by lia. destruct (IH _ H) as (pre & b & post & k & -> & E & G). exists (a :: pre), b, post, k.
      cbn [app map concat]. rewrite Zlen_app. split; auto. split; auto. lia.
  - intros (pre & a & post & k & -> & -> & G). pose proof (get_Some_bounds _ _ _ G). rewrite map_app, concat_app. cbn [map concat].
    pose proof (Zlen_nonneg (concat (map f pre))). rewrite get_app_r by lia. rewrite get_app_l by lia.
    replace (Zlen (concat (map f pre)) + k - Zlen (concat (map f pre))) with k by lia. exact G.
Qed.
Lemma split_unique {A} (pre pre' : list A) a post post' : NoDup (pre ++ a :: post) -> pre ++ a :: post = pre' ++ a :: post' -> pre = pre'.
Proof.
  intros N E. destruct (app_eq_app _ _ _ _ E) as (l & [(-> & E2)|(-> & E2)]); destruct l as [|b l]; rewrite ?app_nil_r; auto; exfalso; cbn [app] in E2; injection E2 as <- E2.
  - rewrite <- app_assoc in N. cbn [app] in N. apply NoDup_remove in N as (_ & N). apply N. apply in_or_app. right. apply in_or_app. right. now left.
  - subst post. apply NoDup_remove in N as (_ & N). apply N. apply in_or_app. right. apply in_or_app. right. now left.
Qed.
Lemma split_cases {A} (pre pre' : list A) a b post post' : pre ++ a :: post = pre' ++ b :: post' ->
  (pre = pre' /\ a = b /\ post = post') \/ (exists mid, pre' = pre ++ a :: mid) \/ (exists mid, pre = pre' ++ b :: mid).
Proof.
  intros E. destruct (app_eq_app _ _ _ _ E) as (l & [(-> & E2)|(-> & E2)]); destruct l as [|c l]; cbn [app] in E2; injection E2 as <- E2.
  - left. rewrite app_nil_r. auto.
  - right. right. eauto.
  - left. rewrite app_nil_r. auto.
  - right. left. eauto.
Qed.

Section Program.
(** Tasks of every thread in execution order, wait list and rows of every task. *)
Variables (thr : list (list Z)) (parents rows : Z -> list Z) (nops : Z -> Z).
Definition rowblk (i : Z) : list instr := IBegin i :: map (IOp i) (zrange 0 (nops i)).
Definition block (q : Z) : list instr := map IWait (parents q) ++ concat (map rowblk (rows q)) ++ [IDone q].
Definition programs : list (list instr) := map (fun ts => concat (map block ts)) thr.

Variables (m NT : Z) (tk : Z -> Z).
Hypothesis Hops : forall i, 0 <= nops i.
Hypothesis Hthr : Permutation (concat thr) (zrange 0 NT).
Hypothesis Hpar : forall q p, 0 <= q < NT -> In p (parents q) -> 0 <= p < NT.
Hypothesis Htk : forall i, 0 <= i < m -> 0 <= tk i < NT /\ In i (rows (tk i)).
Hypothesis Hrows : forall q i, 0 <= q < NT -> In i (rows q) -> 0 <= i < m /\ tk i = q.
Hypothesis Hnd : forall q, 0 <= q < NT -> NoDup (rows q).

Definition pat := at_ programs.
Definition bpos (pre : list Z) : Z := Zlen (concat (map block pre)).
Definition rpos (pre : list Z) : Z := Zlen (concat (map rowblk pre)).

Lemma Zlen_rowblk i : Zlen (rowblk i) = nops i + 1.
Proof. unfold rowblk. rewrite Zlen_cons, Zlen_map, Zlen_zrange. specialize (Hops i). lia. Qed.
Lemma Zlen_block q : Zlen (block q) = Zlen (parents q) + rpos (rows q) + 1.
Proof. unfold block, rpos. rewrite !Zlen_app, Zlen_map. change (Zlen [IDone q]) with 1. lia. Qed.
Lemma rpos_nonneg l : 0 <= rpos l.
Proof. apply Zlen_nonneg. Qed.
Lemma bpos_nonneg l : 0 <= bpos l.
Proof. apply Zlen_nonneg. Qed.
Lemma rpos_mid pre i post : rpos (pre ++ i :: post) = rpos pre + nops i + 1 + rpos post.
Proof. unfold rpos. rewrite map_app, concat_app, Zlen_app. cbn [map concat]. rewrite Zlen_app, Zlen_rowblk. lia. Qed.
Lemma bpos_mid pre q post : bpos (pre ++ q :: post) = bpos pre + Zlen (block q) + bpos post.
Proof. unfold bpos. rewrite map_app, concat_app, Zlen_app. cbn [map concat]. rewrite Zlen_app. lia. Qed.

(** The instruction at a position of a block. *)
Definition in_block (q k : Z) (c : instr) : Prop :=
  (exists p, c = IWait p /\ get (parents q) k = Some p) \/
  (exists pre i post, rows q = pre ++ i :: post /\
     ((c = IBegin i /\ k = Zlen (parents q) + rpos pre) \/
      (exists j, c = IOp i j /\ 0 <= j < nops i /\ k = Zlen (parents q) + rpos pre + 1 + j))) \/
  (c = IDone q /\ k = Zlen (parents q) + rpos (rows q)).

Lemma block_at q k c : get (block q) k = Some c <-> in_block q k c.
Proof.
  unfold block, in_block. pose proof (Zlen_nonneg (parents q)). split.
  - intros H0. pose proof (get_Some_bounds _ _ _ H0) as B. destruct (Z_lt_ge_dec k (Zlen (parents q))) as [X|X].
    + left. rewrite get_app_l, get_map in H0 by (rewrite Zlen_map; lia). destruct (get (parents q) k) as [p|]; [|discriminate].
      exists p. cbn [option_map] in H0. split; congruence.
    + right. rewrite get_app_r in H0 by (rewrite Zlen_map; lia). rewrite Zlen_map in H0. fold (rpos (rows q)) in *.
      destruct (Z_lt_ge_dec (k - Zlen (parents q)) (rpos (rows q))) as [Y|Y].
      * left. rewrite get_app_l in H0 by exact Y. apply cat_at in H0 as (pre & i & post & k' & E & E2 & G). exists pre, i, post. split; auto. fold (rpos pre) in E2.
        unfold rowblk in G. destruct (Z.eq_dec k' 0) as [->|N].
        -- rewrite get_cons_0 in G. left. split; [congruence|lia].
        -- pose proof (get_Some_bounds _ _ _ G) as G2. rewrite get_cons_pos, get_map in G by lia. destruct (get (zrange 0 (nops i)) (k' - 1)) as [j|] eqn:Ej; [|discriminate].
           cbn [option_map] in G. pose proof (get_Some_bounds _ _ _ Ej) as Bj. rewrite Zlen_zrange in Bj. rewrite get_zrange in Ej by (specialize (Hops i); lia).
           injection Ej as <-. right. exists (k' - 1). split; [congruence|]. specialize (Hops i). lia.
      * right. rewrite get_app_r in H0 by (unfold rpos in Y; lia). pose proof (get_Some_bounds _ _ _ H0) as B2. change (Zlen [IDone q]) with 1 in B2. fold (rpos (rows q)) in *.
        replace (k - Zlen (parents q) - rpos (rows q)) with 0 in H0 by lia. rewrite get_cons_0 in H0. split; [congruence|lia].
  - intros [(p & -> & G)|[(pre & i & post & E & H1)|(-> & ->)]].
    + pose proof (get_Some_bounds _ _ _ G). rewrite get_app_l, get_map, G by (rewrite Zlen_map; lia). reflexivity.
    + assert (R : exists k', k = Zlen (parents q) + rpos pre + k' /\ get (rowblk i) k' = Some c /\ 0 <= k' < nops i + 1).
      { destruct H1 as [(-> & ->)|(j & -> & Hj & ->)].
        - exists 0. specialize (Hops i). split; [lia|]. split; [reflexivity|lia].
        - exists (1 + j). split; [lia|]. split; [|lia]. unfold rowblk. rewrite get_cons_pos, get_map by lia. replace (1 + j - 1) with j by lia. rewrite get_zrange by lia. reflexivity. }
      destruct R as (k' & -> & G & Hk'). pose proof (rpos_nonneg pre). rewrite get_app_r by (rewrite Zlen_map; lia). rewrite Zlen_map.
      rewrite get_app_l.
      2:{ fold (rpos (rows q)). rewrite E, rpos_mid. pose proof (rpos_nonneg post). lia. }
      apply cat_at. exists pre, i, post, k'. split; auto. split; auto. fold (rpos pre). lia.
    + pose proof (rpos_nonneg (rows q)). rewrite get_app_r by (rewrite Zlen_map; lia). rewrite Zlen_map. rewrite get_app_r by (unfold rpos in *; lia). fold (rpos (rows q)).
      replace (Zlen (parents q) + rpos (rows q) - Zlen (parents q) - rpos (rows q)) with 0 by lia. reflexivity.
Qed.

(** The instruction at a position of a program. *)
Lemma pat_iff t n c : pat t n c <->
  exists ts pre q post k, get thr t = Some ts /\ ts = pre ++ q :: post /\ n = bpos pre + k /\ in_block q k c.
Proof.
  unfold pat, at_, programs. split.
  - intros (p & Hp & Hc). rewrite get_map in Hp. destruct (get thr t) as [ts|] eqn:Et; [|discriminate]. cbn [option_map] in Hp. injection Hp as <-.
    apply cat_at in Hc as (pre & q & post & k & E & E2 & G). exists ts, pre, q, post, k. split; auto. split; auto. split; auto. now apply block_at.
  - intros (ts & pre & q & post & k & Et & E & E2 & G). exists (concat (map block ts)). split; [rewrite get_map, Et; reflexivity|].
    apply cat_at. exists pre, q, post, k. split; auto. split; auto. now apply block_at.
Qed.

(** Every task occurs once. *)
Lemma NoDup_thr : NoDup (concat thr).
Proof. eapply Permutation_NoDup; [apply Permutation_sym; exact Hthr|apply NoDup_zrange]. Qed.
Lemma task_in t ts q : get thr t = Some ts -> In q ts -> 0 <= q < NT.
Proof. intros A B. apply In_zrange. eapply Permutation_in; [exact Hthr|]. apply in_concat. exists ts. split; auto. eapply get_In; eauto. Qed.
Lemma task_mid t ts pre q post : get thr t = Some ts -> ts = pre ++ q :: post -> 0 <= q < NT.
Proof. intros A ->. eapply task_in; eauto. apply in_elt. Qed.
Lemma task_occurs q : 0 <= q < NT -> exists t ts pre post, get thr t = Some ts /\ ts = pre ++ q :: post.
Proof.
  intros Hq. assert (I : In q (concat thr)). { eapply Permutation_in; [apply Permutation_sym; exact Hthr|]. now apply In_zrange. }
  apply in_concat in I as (ts & I1 & I2). apply In_get in I1 as (t & _ & Et). apply in_split in I2 as (pre & post & E). exists t, ts, pre, post. auto.
Qed.
Lemma nodup_concat_get {A} (l : list (list A)) t t' ts ts' x : NoDup (concat l) -> get l t = Some ts -> get l t' = Some ts' -> In x ts -> In x ts' -> t = t'.
Proof.
  revert t t'. induction l as [|y l IH]; intros t t' N A1 A2 B1 B2. { exfalso. apply get_Some_bounds in A1. change (Zlen (@nil (list A))) with 0 in A1. lia. }
  cbn [concat] in N. pose proof (get_Some_bounds _ _ _ A1) as Ra. pose proof (get_Some_bounds _ _ _ A2) as Rb.
  assert (N2 : NoDup (concat l)). { clear -N. induction y as [|a y IH]; auto. inversion N; auto. }
  assert (NX : forall z, In z y -> ~ In z (concat l)). { clear -N. induction y as [|a y IH]; intros z [].
    - subst a. cbn [app] in N. inversion N as [|? ? N1 N3]; subst. intros H. apply N1. apply in_or_app. auto.
    - cbn [app] in N. inversion N; subst. auto. }
  destruct (Z.eq_dec t 0) as [->|Ht], (Z.eq_dec t' 0) as [->|Ht']; auto.
  - exfalso. rewrite get_cons_0 in A1. injection A1 as ->. rewrite get_cons_pos in A2 by lia. apply (NX x B1). apply in_concat. exists ts'. split; auto. eapply get_In; eauto.
  - exfalso. rewrite get_cons_0 in A2. injection A2 as ->. rewrite get_cons_pos in A1 by lia. apply (NX x B2). apply in_concat. exists ts. split; auto. eapply get_In; eauto.
  - rewrite get_cons_pos in A1, A2 by lia. assert (t - 1 = t' - 1); [|lia]. eapply IH; eauto.
Qed.
Lemma NoDup_thr_get t ts : get thr t = Some ts -> NoDup ts.
Proof.
  intros E. apply get_In in E. pose proof NoDup_thr as N. revert N E. generalize thr. clear. intros l. induction l as [|y l IH]; intros N []; cbn [concat] in N.
  - subst y. clear -N. induction ts as [|a ts IH]; constructor; inversion N; subst; auto. intros H. apply H1. apply in_or_app. auto.
  - apply IH; auto. clear -N. induction y as [|a y IH]; auto. inversion N; auto.
Qed.
Lemma occ_unique t ts pre q post t' ts' pre' post' : get thr t = Some ts -> ts = pre ++ q :: post -> get thr t' = Some ts' -> ts' = pre' ++ q :: post' ->
  t = t' /\ pre = pre'.
Proof.
  intros A B A' B'. assert (t = t'). { eapply (nodup_concat_get thr t t' ts ts' q); eauto. - apply NoDup_thr. - subst; apply in_elt. - subst; apply in_elt. }
  split; auto. subst t'. assert (ts' = ts) by congruence. assert (B2 : pre ++ q :: post = pre' ++ q :: post') by congruence. eapply split_unique; [|exact B2].
  rewrite <- B. eapply NoDup_thr_get; eauto.
Qed.

(** Inversion of the positions of each kind of instruction. *)
Lemma pat_begin t n i : pat t n (IBegin i) <->
  exists ts pre q post rpre rpost, get thr t = Some ts /\ ts = pre ++ q :: post /\ rows q = rpre ++ i :: rpost /\ n = bpos pre + Zlen (parents q) + rpos rpre.
Proof.
  rewrite pat_iff. split.
  - intros (ts & pre & q & post & k & A & B & C & [(p & D & _)|[(rpre & i' & rpost & E & [(F & ->)|(j & F & _)])|(D & _)]]); try discriminate.
    injection F as <-. exists ts, pre, q, post, rpre, rpost. auto 6 with zarith.
  - intros (ts & pre & q & post & rpre & rpost & A & B & C & D). exists ts, pre, q, post, (Zlen (parents q) + rpos rpre).
    split; auto. split; auto. split; [lia|]. right. left. exists rpre, i, rpost. auto.
Qed.
Lemma pat_op t n i j : pat t n (IOp i j) <->
  exists ts pre q post rpre rpost, get thr t = Some ts /\ ts = pre ++ q :: post /\ rows q = rpre ++ i :: rpost /\ 0 <= j < nops i /\
    n = bpos pre + Zlen (parents q) + rpos rpre + 1 + j.
Proof.
  rewrite pat_iff. split.
  - intros (ts & pre & q & post & k & A & B & C & [(p & D & _)|[(rpre & i' & rpost & E & [(F & _)|(j' & F & Hj & ->)])|(D & _)]]); try discriminate.
    injection F as <- <-. exists ts, pre, q, post, rpre, rpost. auto 7 with zarith.
  - intros (ts & pre & q & post & rpre & rpost & A & B & C & D & E). exists ts, pre, q, post, (Zlen (parents q) + rpos rpre + 1 + j).
    split; auto. split; auto. split; [lia|]. right. left. exists rpre, i, rpost. split; auto. right. exists j. auto.
Qed.
Lemma pat_done t n q : pat t n (IDone q) <->
  exists ts pre post, get thr t = Some ts /\ ts = pre ++ q :: post /\ n = bpos pre + Zlen (parents q) + rpos (rows q).
Proof.
  rewrite pat_iff. split.
  - intros (ts & pre & q' & post & k & A & B & C & [(p & D & _)|[(rpre & i' & rpost & E & [(F & _)|(j' & F & _)])|(D & ->)]]); try discriminate.
    injection D as <-. exists ts, pre, post. auto 6 with zarith.
  - intros (ts & pre & post & A & B & C). exists ts, pre, q, post, (Zlen (parents q) + rpos (rows q)).
    split; auto. split; auto. split; [lia|]. right. right. auto.
Qed.
Lemma pat_wait t n p : pat t n (IWait p) <->
  exists ts pre q post k, get thr t = Some ts /\ ts = pre ++ q :: post /\ get (parents q) k = Some p /\ n = bpos pre + k.
Proof.
  rewrite pat_iff. split.
  - intros (ts & pre & q' & post & k & A & B & C & [(p' & D & G)|[(rpre & i' & rpost & E & [(F & _)|(j' & F & _)])|(D & ->)]]); try discriminate.
    injection D as <-. exists ts, pre, q', post, k. auto.
  - intros (ts & pre & q & post & k & A & B & C & D). exists ts, pre, q, post, k.
    split; auto. split; auto. split; [lia|]. left. eauto.
Qed.

Lemma Q_row i : 0 <= i < m -> exists t n, pat t n (IBegin i).
Proof.
  intros Hi. destruct (Htk i Hi) as (Hq & Hin). destruct (task_occurs (tk i) Hq) as (t & ts & pre & post & A & B). apply in_split in Hin as (rpre & rpost & C).
  do 2 eexists. apply pat_begin. exists ts, pre, (tk i), post, rpre, rpost. eauto.
Qed.
Lemma Q_row_range i t n : pat t n (IBegin i) -> 0 <= i < m.
Proof.
  intros H. apply pat_begin in H as (ts & pre & q & post & rpre & rpost & A & B & C & _).
  apply (Hrows q i). - exact (task_mid _ _ _ _ _ A B). - rewrite C. apply in_elt.
Qed.
Lemma Q_same t n i ts pre q post rpre rpost : get thr t = Some ts -> ts = pre ++ q :: post -> rows q = rpre ++ i :: rpost -> pat t n (IBegin i) ->
  n = bpos pre + Zlen (parents q) + rpos rpre /\ q = tk i.
Proof.
  intros A B C H. apply pat_begin in H as (ts' & pre' & q' & post' & rpre' & rpost' & A' & B' & C' & ->).
  assert (Hq : 0 <= q < NT) by (exact (task_mid _ _ _ _ _ A B)). assert (Hq' : 0 <= q' < NT) by (exact (task_mid _ _ _ _ _ A' B')).
  assert (E1 : tk i = q) by (apply Hrows; auto; rewrite C; apply in_elt). assert (E2 : tk i = q') by (apply Hrows; auto; rewrite C'; apply in_elt).
  assert (E3 : q' = q) by congruence. clear E2. subst q'. destruct (occ_unique _ _ _ _ _ _ _ _ _ A B A' B') as (_ & <-).
  assert (rpre = rpre'). { eapply split_unique; [|rewrite <- C; exact C']. rewrite <- C. auto. } subst rpre'. rewrite E1. auto.
Qed.
Lemma Q_row_unique i t n t' n' : pat t n (IBegin i) -> pat t' n' (IBegin i) -> t = t' /\ n = n'.
Proof.
  intros H H'. pose proof H as H0. apply pat_begin in H as (ts & pre & q & post & rpre & rpost & A & B & C & ->).
  pose proof H' as H1. apply pat_begin in H' as (ts' & pre' & q' & post' & rpre' & rpost' & A' & B' & C' & E').
  assert (Hq : 0 <= q < NT) by (exact (task_mid _ _ _ _ _ A B)). assert (Hq' : 0 <= q' < NT) by (exact (task_mid _ _ _ _ _ A' B')).
  assert (E1 : tk i = q) by (apply Hrows; auto; rewrite C; apply in_elt). assert (E2 : tk i = q') by (apply Hrows; auto; rewrite C'; apply in_elt).
  assert (E3 : q' = q) by congruence. clear E2. subst q'. destruct (occ_unique _ _ _ _ _ _ _ _ _ A B A' B') as (<- & <-). split; auto.
  destruct (Q_same _ _ _ _ _ _ _ _ _ A B C H1) as (-> & _). auto.
Qed.
Lemma Q_op i t n k : pat t n (IBegin i) -> 0 <= k < nops i -> pat t (n + 1 + k) (IOp i k).
Proof.
  intros H Hk. apply pat_begin in H as (ts & pre & q & post & rpre & rpost & A & B & C & ->). apply pat_op. exists ts, pre, q, post, rpre, rpost. auto.
Qed.
Lemma Q_op_inv i t q k : pat t q (IOp i k) -> exists n, pat t n (IBegin i) /\ q = n + 1 + k /\ 0 <= k < nops i.
Proof.
  intros H. apply pat_op in H as (ts & pre & q' & post & rpre & rpost & A & B & C & D & ->).
  exists (bpos pre + Zlen (parents q') + rpos rpre). split; [|auto]. apply pat_begin. exists ts, pre, q', post, rpre, rpost. auto.
Qed.
Lemma Q_done i t n : pat t n (IBegin i) -> exists d, pat t d (IDone (tk i)) /\ n + nops i < d.
Proof.
  intros H. pose proof H as H0. apply pat_begin in H as (ts & pre & q & post & rpre & rpost & A & B & C & ->).
  destruct (Q_same _ _ _ _ _ _ _ _ _ A B C H0) as (_ & Eq); try rewrite <- Eq in *.
  exists (bpos pre + Zlen (parents q) + rpos (rows q)). split. { apply pat_done. exists ts, pre, post. auto. }
  rewrite C, rpos_mid. pose proof (rpos_nonneg rpost). lia.
Qed.
Lemma Q_done_unique q t d t' d' : pat t d (IDone q) -> pat t' d' (IDone q) -> t = t' /\ d = d'.
Proof.
  intros H H'. apply pat_done in H as (ts & pre & post & A & B & ->). apply pat_done in H' as (ts' & pre' & post' & A' & B' & ->).
  destruct (occ_unique _ _ _ _ _ _ _ _ _ A B A' B') as (<- & <-). auto.
Qed.
Lemma Q_done_range q t d : pat t d (IDone q) -> 0 <= q < NT.
Proof. intros H. apply pat_done in H as (ts & pre & post & A & B & ->). exact (task_mid _ _ _ _ _ A B). Qed.
Lemma Q_done_ex q : 0 <= q < NT -> exists t d, pat t d (IDone q).
Proof. intros Hq. destruct (task_occurs q Hq) as (t & ts & pre & post & A & B). do 2 eexists. apply pat_done. exists ts, pre, post. eauto. Qed.
Lemma Q_wait_row i t n p : pat t n (IBegin i) -> In p (parents (tk i)) -> exists w, pat t w (IWait p) /\ w < n.
Proof.
  intros H Hp. pose proof H as H0. apply pat_begin in H as (ts & pre & q & post & rpre & rpost & A & B & C & ->).
  destruct (Q_same _ _ _ _ _ _ _ _ _ A B C H0) as (_ & Eq); try rewrite <- Eq in *. apply In_get in Hp as (k & Hk & G).
  exists (bpos pre + k). split. { apply pat_wait. exists ts, pre, q, post, k. auto. } pose proof (rpos_nonneg rpre). lia.
Qed.
Lemma Q_wait_done q t d p : pat t d (IDone q) -> In p (parents q) -> exists w, pat t w (IWait p) /\ w < d.
Proof.
  intros H Hp. apply pat_done in H as (ts & pre & post & A & B & ->). apply In_get in Hp as (k & Hk & G).
  exists (bpos pre + k). split. { apply pat_wait. exists ts, pre, q, post, k. auto. } pose proof (rpos_nonneg (rows q)). lia.
Qed.
Lemma Q_wait_inv t w p : pat t w (IWait p) -> exists t' d', pat t' d' (IDone p).
Proof.
  intros H. apply pat_wait in H as (ts & pre & q & post & k & A & B & C & ->). apply Q_done_ex. apply (Hpar q). { exact (task_mid _ _ _ _ _ A B). }
  eapply get_In; eauto.
Qed.
Lemma block_order ts pre q post pre' q' post' : ts = pre ++ q :: post -> ts = pre' ++ q' :: post' ->
  bpos pre + Zlen (parents q) + rpos (rows q) < bpos pre' + Zlen (block q') -> q = q' \/ bpos pre + Zlen (block q) <= bpos pre'.
Proof.
  intros E E' H. rewrite Zlen_block in *. rewrite E in E'. destruct (split_cases _ _ _ _ _ _ E') as [(-> & -> & _)|[(mid & ->)|(mid & ->)]]; auto.
  - right. rewrite bpos_mid, Zlen_block. pose proof (bpos_nonneg mid). lia.
  - exfalso. rewrite bpos_mid, Zlen_block in H. pose proof (bpos_nonneg mid). pose proof (rpos_nonneg (rows q)). pose proof (Zlen_nonneg (parents q)). lia.
Qed.
Lemma Q_block q t d i n d' : pat t d (IDone q) -> pat t n (IBegin i) -> pat t d' (IDone (tk i)) -> d < d' -> d < n.
Proof.
  intros H1 H2 H3 Hd. apply pat_done in H1 as (ts & pre & post & A & B & ->). apply pat_done in H3 as (ts' & pre' & post' & A' & B' & ->).
  assert (ET : ts' = ts) by congruence. rewrite ET in A', B'. clear ET. pose proof H2 as H0.
  apply pat_begin in H2 as (ts2 & pre2 & q2 & post2 & rpre & rpost & A2 & B2 & C2 & ->). assert (ET2 : ts2 = ts) by congruence. rewrite ET2 in A2, B2. clear ET2.
  destruct (Q_same _ _ _ _ _ _ _ _ _ A2 B2 C2 H0) as (_ & ->). destruct (occ_unique _ _ _ _ _ _ _ _ _ A' B' A2 B2) as (_ & <-).
  destruct (block_order ts pre q post pre' (tk i) post' B B') as [->|X]. { rewrite Zlen_block. lia. }
  - exfalso. destruct (occ_unique _ _ _ _ _ _ _ _ _ A B A' B') as (_ & <-). lia.
  - rewrite Zlen_block in X. pose proof (rpos_nonneg rpre). pose proof (Zlen_nonneg (parents (tk i))). lia.
Qed.
Lemma Q_wait_own t w p : pat t w (IWait p) -> exists q' d', pat t d' (IDone q') /\ w < d' /\ In p (parents q') /\
  forall q2 d2, pat t d2 (IDone q2) -> w < d2 -> d' <= d2.
Proof.
  intros H. apply pat_wait in H as (ts & pre & q & post & k & A & B & C & ->). pose proof (get_Some_bounds _ _ _ C). pose proof (rpos_nonneg (rows q)).
  exists q, (bpos pre + Zlen (parents q) + rpos (rows q)). split; [|split; [lia|split]].
  - apply pat_done. exists ts, pre, post. auto.
  - eapply get_In; eauto.
  - intros q2 d2 H2 Hl. apply pat_done in H2 as (ts2 & pre2 & post2 & A2 & B2 & ->). assert (ET2 : ts2 = ts) by congruence. rewrite ET2 in A2, B2. clear ET2.
    destruct (Z_lt_ge_dec (bpos pre2 + Zlen (parents q2) + rpos (rows q2)) (bpos pre + Zlen (parents q) + rpos (rows q))) as [X|X]; [|lia].
    destruct (block_order ts pre2 q2 post2 pre q post B2 B) as [->|Y]. { rewrite Zlen_block. lia. }
    + destruct (occ_unique _ _ _ _ _ _ _ _ _ A B A2 B2) as (_ & <-). lia.
    + rewrite Zlen_block in Y. lia.
Qed.

(** Program order between tasks. *)
Definition po (q q' : Z) : Prop := exists t ts pre mid post, get thr t = Some ts /\ ts = pre ++ q :: mid ++ q' :: post.
Lemma po_iff q q' : po q q' <-> exists t d d', pat t d (IDone q) /\ pat t d' (IDone q') /\ d < d'.
Proof.
  split.
  - intros (t & ts & pre & mid & post & A & B). exists t, (bpos pre + Zlen (parents q) + rpos (rows q)), (bpos (pre ++ q :: mid) + Zlen (parents q') + rpos (rows q')).
    split; [|split].
    + apply pat_done. exists ts, pre, (mid ++ q' :: post). auto.
    + apply pat_done. exists ts, (pre ++ q :: mid), post. rewrite <- app_assoc. auto.
    + rewrite bpos_mid, Zlen_block. pose proof (bpos_nonneg mid). pose proof (rpos_nonneg (rows q')). pose proof (Zlen_nonneg (parents q')). lia.
  - intros (t & d & d' & H & H' & Hd). apply pat_done in H as (ts & pre & post & A & B & ->). apply pat_done in H' as (ts' & pre' & post' & A' & B' & ->).
    assert (ET : ts' = ts) by congruence. rewrite ET in A', B'. clear ET. pose proof B' as B2. rewrite B in B'. destruct (split_cases _ _ _ _ _ _ B') as [(-> & -> & _)|[(mid & ->)|(mid & ->)]]; [lia| |].
    + exists t, ts, pre, mid, post'. split; auto. rewrite B2, <- app_assoc. reflexivity.
    + exfalso. rewrite bpos_mid, Zlen_block in Hd. pose proof (bpos_nonneg mid). pose proof (rpos_nonneg (rows q)). pose proof (Zlen_nonneg (parents q)). lia.
Qed.
(** Happens-before: wait lists and program order. *)
Definition before1 (q q' : Z) : Prop := (0 <= q' < NT /\ In q (parents q')) \/ po q q'.
Lemma before1_hb1 q q' : before1 q q' <-> hb1 programs parents q q'.
Proof.
  unfold before1, hb1. rewrite po_iff. split; intros [H|H]; try (right; exact H); left.
  - split; [apply H|]. apply Q_done_ex. apply H.
  - destruct H as (H & t & d & Hd). split; auto. eapply Q_done_range; eauto.
Qed.
End Program.
