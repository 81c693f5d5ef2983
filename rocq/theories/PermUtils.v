(** * Permutation helpers and vector reordering (/repo/Utils.cpp:95-243). *)
From Verif Require Import Base Spec Interleave.

(** /repo/Utils.cpp:95-101 [getInversePerm]: one iteration of the parallel
    loop. *)
Definition inverse_perm_iter (perm : list Z) (i : Z) (inv : list Z) : option (list Z) :=
  k <- get perm i ;; set inv k i.

(** The loop with its iterations executed in the order [tr]; [inv] is the old
    contents of the output array. *)
Definition getInversePerm (perm inv : list Z) (tr : list Z) : option (list Z) :=
  foldM (inverse_perm_iter perm) tr inv.

(** std::sort on int; any correct sorting gives the same array. *)
Fixpoint insertZ (x : Z) (l : list Z) : list Z :=
  match l with
  | [] => [x]
  | y :: r => if x <=? y then x :: y :: r else y :: insertZ x r
  end.
Fixpoint sortZ (l : list Z) : list Z :=
  match l with [] => [] | x :: r => insertZ x (sortZ r) end.

(** std::unique: keep the first of each group of equal neighbours. *)
Fixpoint uniqueZ (l : list Z) : list Z :=
  match l with
  | [] => []
  | x :: r => match r with
              | [] => [x]
              | y :: _ => if x =? y then uniqueZ r else x :: uniqueZ r
              end
  end.

(** /repo/Utils.cpp:103-128 [isPerm], built with NDEBUG (the default): the
    printing and assert(false) before each [return false] are dropped. *)
Definition isPerm (perm : list Z) : bool :=
  let temp := sortZ perm in
  if Zlen (uniqueZ temp) =? Zlen temp then true
  else
    (fix scan (i : Z) (l : list Z) : bool :=
       match l with
       | [] => true
       | x :: r => if x =? i - 1 then false
                   else if negb (x =? i) then false
                   else scan (i + 1) r
       end) 0 temp.

(** /repo/Utils.cpp:130-136 [isInversePerm]. *)
Fixpoint isInversePerm_ (i : Z) (perm inv : list Z) : option bool :=
  match perm with
  | [] => Some true
  | p :: r => v <- get inv p ;;
              if negb (v =? i) then Some false else isInversePerm_ (i + 1) r inv
  end.
Definition isInversePerm (perm inv : list Z) : option bool := isInversePerm_ 0 perm inv.

Section Vectors.
Context {V : Type}.

(** /repo/Utils.cpp:138-145 [CopyVector], one iteration. *)
Definition copy_iter (src : list V) (i : Z) (dst : list V) : option (list V) :=
  v <- get src i ;; set dst i v.

(** /repo/Utils.cpp:147-160 [reorderVectorOutOfPlace_], one iteration:
    [dst[perm[i]] = src[i]].  [len] bounds the assertion. *)
Definition reorder_iter (len : Z) (src : list V) (perm : list Z) (i : Z) (dst : list V)
  : option (list V) :=
  p <- get perm i ;;
  assert! ((0 <=? p) && (p <? len)) ;;
  v <- get src i ;; set dst p v.

(** /repo/Utils.cpp:172-185, one iteration: [dst[i] = src[inversePerm[i]]]. *)
Definition reorder_inv_iter (len : Z) (src : list V) (inv : list Z) (i : Z) (dst : list V)
  : option (list V) :=
  p <- get inv i ;;
  assert! ((0 <=? p) && (p <? len)) ;;
  v <- get src p ;; set dst i v.

(** Whole functions; [perm = None] is the NULL pointer, [tr] the order in which
    the iterations of the parallel loop happen. *)
Definition reorderVectorOutOfPlace (dst src : list V) (perm : option (list Z)) (len : Z)
  (tr : list Z) : option (list V) :=
  match perm with
  | Some p => foldM (reorder_iter len src p) tr dst
  | None => foldM (copy_iter src) tr dst
  end.

Definition reorderVectorOutOfPlaceWithInversePerm (dst src : list V)
  (inv : option (list Z)) (len : Z) (tr : list Z) : option (list V) :=
  match inv with
  | Some p => foldM (reorder_inv_iter len src p) tr dst
  | None => foldM (copy_iter src) tr dst
  end.

(** /repo/Utils.cpp:215-221 [reorderVector] with temporary; [tr1], [tr2]: orders
    of the two parallel loops. *)
Definition reorderVector (v tmp : list V) (perm : option (list Z)) (len : Z)
  (tr1 tr2 : list Z) : option (list V) :=
  match perm with
  | None => Some v
  | Some _ => t <- reorderVectorOutOfPlace tmp v perm len tr1 ;; foldM (copy_iter t) tr2 v
  end.

(** /repo/Utils.cpp:223-229. *)
Definition reorderVectorWithInversePerm (v tmp : list V) (inv : option (list Z)) (len : Z)
  (tr1 tr2 : list Z) : option (list V) :=
  match inv with
  | None => Some v
  | Some _ => t <- reorderVectorOutOfPlaceWithInversePerm tmp v inv len tr1 ;;
              foldM (copy_iter t) tr2 v
  end.
End Vectors.

(** ** Facts about permutations *)

Lemma is_perm_len n p : 0 <= n -> is_perm n p -> Zlen p = n.
Proof.
  intros Hn H. unfold Zlen. rewrite (Permutation_length H).
  change (Z.of_nat (length (zrange 0 n))) with (Zlen (zrange 0 n)).
  rewrite Zlen_zrange. lia.
Qed.

Lemma is_perm_In n p x : is_perm n p -> In x p <-> 0 <= x < n.
Proof.
  intros H. rewrite <- In_zrange. split; apply Permutation_in; auto. now apply Permutation_sym.
Qed.

Lemma is_perm_NoDup n p : is_perm n p -> NoDup p.
Proof. intros H. apply (Permutation_NoDup (Permutation_sym H)). apply NoDup_zrange. Qed.

Lemma is_perm_intro n p :
  Zlen p = n -> NoDup p -> (forall x, In x p -> 0 <= x < n) -> is_perm n p.
Proof.
  intros Hl Hnd Hr. unfold is_perm. apply NoDup_Permutation_bis; auto.
  - apply Nat2Z.inj_le. fold (Zlen (zrange 0 n)) (Zlen p).
    rewrite Zlen_zrange. pose proof (Zlen_nonneg p). lia.
  - intros x Hx. apply In_zrange. auto.
Qed.

Lemma NoDup_get_inj {A} (l : list A) i j v :
  NoDup l -> get l i = Some v -> get l j = Some v -> i = j.
Proof.
  intros Hnd Hi Hj. pose proof (get_Some_bounds _ _ _ Hi). pose proof (get_Some_bounds _ _ _ Hj).
  unfold get in *. destruct (i <? 0) eqn:Ei; [discriminate|]. destruct (j <? 0) eqn:Ej; [discriminate|].
  assert (Z.to_nat i = Z.to_nat j); [|lia].
  apply (proj1 (NoDup_nth_error l) Hnd); [unfold Zlen in *; lia|congruence].
Qed.

Lemma is_perm_get_inj n p i j v :
  is_perm n p -> get p i = Some v -> get p j = Some v -> i = j.
Proof. intros H. apply NoDup_get_inj. eapply is_perm_NoDup; eauto. Qed.

Lemma is_perm_get_range n p i v : is_perm n p -> get p i = Some v -> 0 <= v < n.
Proof. intros H Hv. apply (is_perm_In n p v H). eapply get_In; eauto. Qed.

Lemma is_perm_onto n p k :
  is_perm n p -> 0 <= k < n -> exists i, 0 <= i < n /\ get p i = Some k.
Proof.
  intros H Hk. destruct (In_get p k) as (i & Hi & E).
  - apply (is_perm_In n p k H). auto.
  - exists i. rewrite (is_perm_len n p) in Hi by (auto; lia). auto.
Qed.

Lemma NoDup_from_get {A} (l : list A) :
  (forall i j v, get l i = Some v -> get l j = Some v -> i = j) -> NoDup l.
Proof.
  intros H. apply NoDup_nth_error. intros i j Hi E.
  destruct (nth_error l i) as [v|] eqn:Ev.
  - assert (Z.of_nat i = Z.of_nat j); [|lia]. apply (H _ _ v); rewrite get_nat; auto.
  - apply nth_error_None in Ev. lia.
Qed.

Lemma inverse_perms_is_perm n p q : inverse_perms n p q -> is_perm n p /\ is_perm n q.
Proof.
  intros (Hp & Hq & H1 & H2).
  assert (forall x, In x p -> 0 <= x < n) as Rp.
  { intros x Hx. apply In_get in Hx as (i & Hi & E). rewrite Hp in Hi.
    destruct (H1 i Hi) as (k & Ek & Eq). rewrite E in Ek. injection Ek as <-.
    apply get_Some_bounds in Eq. lia. }
  assert (forall x, In x q -> 0 <= x < n) as Rq.
  { intros x Hx. apply In_get in Hx as (i & Hi & E). rewrite Hq in Hi.
    destruct (H2 i Hi) as (k & Ek & Eq). rewrite E in Ek. injection Ek as <-.
    apply get_Some_bounds in Eq. lia. }
  split; apply is_perm_intro; auto; apply NoDup_from_get; intros i j v Ei Ej.
  - destruct (H1 i) as (k & Ek & Fk); [apply get_Some_bounds in Ei; lia|].
    destruct (H1 j) as (k' & Ek' & Fk'); [apply get_Some_bounds in Ej; lia|].
    congruence.
  - destruct (H2 i) as (k & Ek & Fk); [apply get_Some_bounds in Ei; lia|].
    destruct (H2 j) as (k' & Ek' & Fk'); [apply get_Some_bounds in Ej; lia|].
    congruence.
Qed.

(** A one-sided inverse of arrays of the same length with entries in range is
    two-sided. *)
Lemma left_inverse_two_sided n p q :
  Zlen p = n -> Zlen q = n ->
  (forall i, 0 <= i < n -> exists k, get p i = Some k /\ get q k = Some i) ->
  inverse_perms n p q.
Proof.
  intros Hp Hq H1. split; auto. split; auto. split; auto.
  assert (is_perm n p) as Pp.
  { apply is_perm_intro; auto.
    - apply NoDup_from_get. intros i j v Ei Ej.
      destruct (H1 i) as (k & Ek & Fk); [apply get_Some_bounds in Ei; lia|].
      destruct (H1 j) as (k' & Ek' & Fk'); [apply get_Some_bounds in Ej; lia|]. congruence.
    - intros x Hx. apply In_get in Hx as (i & Hi & E).
      destruct (H1 i) as (k & Ek & Fk); [lia|]. apply get_Some_bounds in Fk.
      rewrite E in Ek. injection Ek as <-. lia. }
  intros k Hk. destruct (is_perm_onto n p k Pp Hk) as (i & Hi & Ei).
  exists i. split; auto. destruct (H1 i Hi) as (k' & Ek' & Fk'). congruence.
Qed.

(** ** getInversePerm *)

Lemma inverse_perm_commute n perm i j :
  is_perm n perm -> 0 <= i < n -> 0 <= j < n -> i <> j ->
  commute (inverse_perm_iter perm) i j.
Proof.
  intros Hp Hi Hj Hne. apply (store_act_commute (get perm) (fun i => Some i) i j).
  intros a b Ea Eb ->. apply Hne. eapply is_perm_get_inj; eauto.
Qed.

(** Scatter: [dst[perm[i]] = g i] for all i. *)
Lemma scatter_ok {V} n perm (g : Z -> V) (dst : list V) f :
  0 <= n -> is_perm n perm -> Zlen dst = n ->
  (forall i d p, 0 <= i < n -> get perm i = Some p -> f i d = set d p (g i)) ->
  exists dst', forZ 0 n f dst = Some dst' /\ Zlen dst' = n /\
    (forall i p, 0 <= i < n -> get perm i = Some p -> get dst' p = Some (g i)).
Proof.
  intros Hn Hp Hd Hf.
  destruct (forZ_rule (fun k d => Zlen d = n /\
    (forall i p, 0 <= i < k -> get perm i = Some p -> get d p = Some (g i))) 0 n f dst)
    as (d & E & HI); auto.
  - split; auto. intros; lia.
  - intros i d Hi (L & H).
    destruct (@get_in_range _ perm i) as [p Ep]; [rewrite (is_perm_len n) by auto; lia|].
    rewrite (Hf i d p) by auto. pose proof (is_perm_get_range _ _ _ _ Hp Ep).
    destruct (set_ok d p (g i)) as (d' & Ed'); [lia|].
    exists d'. split; auto. rewrite (set_len _ _ _ _ Ed'). split; auto.
    intros k q Hk Eq. rewrite (get_set _ _ _ _ _ Ed').
    destruct (Z.eqb_spec q p) as [->|Hne].
    + assert (k = i) by (eapply is_perm_get_inj; eauto). subst. auto.
    + apply H; auto. assert (k <> i) by (intros ->; congruence). lia.
  - exists d. split; auto.
Qed.

Lemma getInversePerm_ok n perm inv tr :
  0 <= n -> is_perm n perm -> Zlen inv = n -> Permutation tr (zrange 0 n) ->
  exists inv', getInversePerm perm inv tr = Some inv' /\ inverse_perms n perm inv'.
Proof.
  intros Hn Hp Hi Htr. unfold getInversePerm.
  rewrite (par_for_any_order _ 0 n) by (auto; intros; eapply inverse_perm_commute; eauto).
  destruct (scatter_ok n perm (fun i => i) inv (inverse_perm_iter perm)) as (d & E & L & H); auto.
  - intros i d p _ Ep. unfold inverse_perm_iter. now rewrite Ep.
  - exists d. split; auto. apply left_inverse_two_sided; auto.
    + now apply is_perm_len.
    + intros i Hi'. destruct (@get_in_range _ perm i) as [p Ep].
      * rewrite (is_perm_len n) by auto. lia.
      * exists p. auto.
Qed.

Lemma inverse_perms_unique n p q q' : inverse_perms n p q -> inverse_perms n p q' -> q = q'.
Proof.
  intros (Hp & Hq & H1 & H2) (_ & Hq' & H1' & H2'). apply list_ext; [lia|].
  intros i Hi. destruct (H2 i) as (k & Ek & Fk); [lia|].
  destruct (H1' k) as (i' & Ei' & Fi'); [apply get_Some_bounds in Fk; lia|].
  congruence.
Qed.

Lemma inverse_perms_sym n p q : inverse_perms n p q -> inverse_perms n q p.
Proof. intros (A & B & C & D). repeat split; auto. Qed.

(** ** isPerm *)

Lemma insertZ_perm x l : Permutation (insertZ x l) (x :: l).
Proof.
  induction l as [|y l IH]; cbn; auto. destruct (x <=? y); auto.
  rewrite IH. apply perm_swap.
Qed.

Lemma sortZ_perm l : Permutation (sortZ l) l.
Proof. induction l as [|x l IH]; cbn; auto. rewrite insertZ_perm. now constructor. Qed.

Lemma insertZ_sorted x l : sortedZ l -> sortedZ (insertZ x l).
Proof.
  unfold sortedZ. induction 1 as [|y l Hs IH Hall]; cbn.
  - constructor; constructor.
  - destruct (Z.leb_spec x y).
    + constructor; [constructor; auto|]. constructor; auto.
      eapply Forall_impl; [|exact Hall]. cbn; intros; lia.
    + constructor; auto. rewrite Forall_forall in *. intros z Hz.
      apply (Permutation_in _ (insertZ_perm x l)) in Hz as [<-|Hz]; [lia|auto].
Qed.

Lemma sortZ_sorted l : sortedZ (sortZ l).
Proof. induction l; cbn; [constructor|now apply insertZ_sorted]. Qed.

Lemma uniqueZ_length_le l : (length (uniqueZ l) <= length l)%nat.
Proof.
  induction l as [|x l IH]; cbn [uniqueZ length]; auto.
  destruct l as [|y l]; [cbn; lia|]. destruct (x =? y).
  - cbn [length] in *. lia.
  - cbn [length] in *. lia.
Qed.

Lemma uniqueZ_full l : sortedZ l -> (length (uniqueZ l) = length l <-> NoDup l).
Proof.
  intros Hs. induction Hs as [|x l Hs IH Hall]; [split; constructor|].
  destruct l as [|y l].
  - cbn. split; auto. intros _. constructor; [cbn; tauto|constructor].
  - cbn [uniqueZ] in *. destruct (Z.eqb_spec x y) as [->|Hne].
    + split; intros H.
      * exfalso. pose proof (uniqueZ_length_le (y :: l)) as Hle. cbn [uniqueZ length] in *. lia.
      * exfalso. inversion H; subst. cbn in *; tauto.
    + cbn [length]. split; intros H.
      * injection H as H. constructor; [|apply IH; cbn; lia].
        intros Hin. rewrite Forall_forall in Hall. inversion Hs as [|? ? ? Hy]; subst.
        rewrite Forall_forall in Hy. cbn in Hin. destruct Hin as [->|Hin]; [lia|].
        pose proof (Hall y ltac:(cbn; auto)). pose proof (Hy x Hin). lia.
      * inversion H; subst. f_equal. apply IH. auto.
Qed.

Lemma scan_NoDup_range i l :
  (fix scan (i : Z) (l : list Z) : bool :=
       match l with
       | [] => true
       | x :: r => if x =? i - 1 then false
                   else if negb (x =? i) then false
                   else scan (i + 1) r
       end) i l = true -> l = zrange i (i + Zlen l).
Proof.
  revert i; induction l as [|x l IH]; intros i H.
  - rewrite Zlen_nil. now rewrite zrange_nil by lia.
  - destruct (Z.eqb_spec x (i - 1)); [discriminate|].
    destruct (Z.eqb_spec x i); cbn in H; [|discriminate]. subst.
    apply IH in H. rewrite Zlen_cons. rewrite zrange_cons by (pose proof (Zlen_nonneg l); lia).
    f_equal. rewrite H at 1. f_equal. lia.
Qed.

Lemma isPerm_iff_NoDup p : isPerm p = true <-> NoDup p.
Proof.
  unfold isPerm.
  assert (length (uniqueZ (sortZ p)) = length (sortZ p) <-> NoDup p) as E.
  { rewrite uniqueZ_full by apply sortZ_sorted.
    split; apply Permutation_NoDup; [|apply Permutation_sym]; apply sortZ_perm. }
  destruct (Z.eqb_spec (Zlen (uniqueZ (sortZ p))) (Zlen (sortZ p))) as [H|H].
  - split; auto. intros _. apply E. unfold Zlen in H. lia.
  - split; intros G.
    + apply scan_NoDup_range in G. apply (Permutation_NoDup (sortZ_perm p)).
      rewrite G. apply NoDup_zrange.
    + apply E in G. unfold Zlen in H. lia.
Qed.

Lemma isPerm_in_range n p :
  Zlen p = n -> (forall x, In x p -> 0 <= x < n) -> (isPerm p = true <-> is_perm n p).
Proof.
  intros Hl Hr. rewrite isPerm_iff_NoDup. split; intros H.
  - apply is_perm_intro; auto.
  - eapply is_perm_NoDup; eauto.
Qed.

Lemma isPerm_complete n p : is_perm n p -> isPerm p = true.
Proof. intros H. apply isPerm_iff_NoDup. eapply is_perm_NoDup; eauto. Qed.

Lemma isPerm_refuted_lem :
  ~ (forall n p, 0 <= n -> Zlen p = n -> isPerm p = true -> is_perm n p).
Proof.
  intros H. specialize (H 2 [5; 7] ltac:(lia) eq_refl eq_refl).
  apply (is_perm_In 2 [5; 7] 5) in H. cbn in H. lia.
Qed.

(** ** isInversePerm *)

Lemma isInversePerm_spec_ i perm inv :
  (forall x, In x perm -> 0 <= x < Zlen inv) ->
  exists b, isInversePerm_ i perm inv = Some b /\
    (b = true <-> forall k p, get perm k = Some p -> get inv p = Some (i + k)).
Proof.
  revert i; induction perm as [|p perm IH]; intros i H.
  - exists true. split; auto. split; auto. intros _ k p E.
    apply get_Some_bounds in E. unfold Zlen in E; cbn in E; lia.
  - cbn [isInversePerm_]. destruct (@get_in_range _ inv p) as [v Hv]; [apply H; cbn; auto|].
    rewrite Hv. destruct (Z.eqb_spec v i) as [->|Hne]; cbn [negb].
    + destruct (IH (i + 1)) as (b & E & Hb); [intros; apply H; cbn; auto|].
      exists b. split; auto. rewrite Hb. split; intros G k q Eq.
      * destruct (Z.eq_dec k 0) as [->|Hk].
        -- rewrite get_cons_0 in Eq. injection Eq as <-. rewrite Hv. f_equal. lia.
        -- pose proof (get_Some_bounds _ _ _ Eq). rewrite get_cons_pos in Eq by lia.
           apply G in Eq. rewrite Eq. f_equal. lia.
      * specialize (G (k + 1) q). rewrite get_cons_S in G
          by (apply get_Some_bounds in Eq; lia).
        rewrite (G Eq). f_equal. lia.
    + exists false. split; auto. split; [discriminate|]. intros G.
      specialize (G 0 p (get_cons_0 _ _)). rewrite Hv in G. injection G as ->. lia.
Qed.

Lemma isInversePerm_spec n perm inv :
  Zlen perm = n -> Zlen inv = n -> (forall x, In x perm -> 0 <= x < n) ->
  exists b, isInversePerm perm inv = Some b /\ (b = true <-> inverse_perms n perm inv).
Proof.
  intros Hp Hq Hr. destruct (isInversePerm_spec_ 0 perm inv) as (b & E & Hb).
  - intros x Hx. rewrite Hq. auto.
  - exists b. split; auto. rewrite Hb. split.
    + intros H. apply left_inverse_two_sided; auto. intros i Hi.
      destruct (@get_in_range _ perm i) as [p Ep]; [lia|]. exists p. split; auto.
      apply H in Ep. auto.
    + intros (_ & _ & H & _) k p Ep. destruct (H k) as (q & Eq & F).
      * apply get_Some_bounds in Ep. lia.
      * rewrite Z.add_0_l. congruence.
Qed.

(** ** Vector reordering *)
Section VectorProofs.
Context {V : Type}.
Implicit Types (src dst v tmp : list V).

Lemma copy_commute src i j : i <> j -> commute (copy_iter src) i j.
Proof.
  intros H. apply (store_act_commute (fun i => Some i) (get src) i j). congruence.
Qed.

Lemma copy_ok src dst n tr :
  Zlen src = n -> Zlen dst = n -> Permutation tr (zrange 0 n) ->
  foldM (copy_iter src) tr dst = Some src.
Proof.
  intros Hs Hd Htr. pose proof (Zlen_nonneg src).
  rewrite (par_for_any_order _ 0 n) by (auto; intros; now apply copy_commute).
  destruct (forZ_rule (fun k d => Zlen d = n /\ forall i, 0 <= i < k -> get d i = get src i) 0 n
    (copy_iter src) dst) as (d & E & L & H1); auto; try lia.
  - split; auto. intros; lia.
  - intros i d Hi (L & G). unfold copy_iter.
    destruct (@get_in_range _ src i) as [x Hx]; [lia|]. rewrite Hx.
    destruct (set_ok d i x) as (d' & Ed'); [lia|]. exists d'. split; auto.
    rewrite (set_len _ _ _ _ Ed'). split; auto. intros k Hk.
    rewrite (get_set _ _ _ _ _ Ed'). destruct (Z.eqb_spec k i); [subst; auto|apply G; lia].
  - rewrite E. f_equal. apply list_ext; [lia|]. intros i Hi. apply H1. lia.
Qed.

Lemma reorder_commute len src perm n i j :
  is_perm n perm -> i <> j -> commute (reorder_iter len src perm) i j.
Proof.
  intros Hp Hne s. unfold reorder_iter.
  destruct (get perm i) as [p|] eqn:Ei, (get perm j) as [q|] eqn:Ej; auto.
  - assert (p <> q) as Hpq by (intros ->; apply Hne; eapply is_perm_get_inj; eauto).
    destruct ((0 <=? p) && (p <? len)), ((0 <=? q) && (q <? len)); auto.
    + destruct (get src i) as [x|], (get src j) as [y|]; auto.
      * apply set_comm; auto.
      * now destruct (set s p x).
      * now destruct (set s q y).
    + destruct (get src i) as [x|]; auto. now destruct (set s p x).
    + destruct (get src j) as [y|]; auto. now destruct (set s q y).
  - destruct ((0 <=? p) && (p <? len)); auto.
    destruct (get src i) as [x|]; auto. now destruct (set s p x).
  - destruct ((0 <=? q) && (q <? len)); auto.
    destruct (get src j) as [y|]; auto. now destruct (set s q y).
Qed.

Lemma reorder_inv_commute len src inv i j :
  i <> j -> commute (reorder_inv_iter len src inv) i j.
Proof.
  intros Hne s. unfold reorder_inv_iter.
  destruct (get inv i) as [p|] eqn:Ei, (get inv j) as [q|] eqn:Ej; auto.
  - destruct ((0 <=? p) && (p <? len)), ((0 <=? q) && (q <? len)); auto.
    + destruct (get src p) as [x|], (get src q) as [y|]; auto.
      * apply set_comm; auto.
      * now destruct (set s i x).
      * now destruct (set s j y).
    + destruct (get src p) as [x|]; auto. now destruct (set s i x).
    + destruct (get src q) as [y|]; auto. now destruct (set s j y).
  - destruct ((0 <=? p) && (p <? len)); auto.
    destruct (get src p) as [x|]; auto. now destruct (set s i x).
  - destruct ((0 <=? q) && (q <? len)); auto.
    destruct (get src q) as [y|]; auto. now destruct (set s j y).
Qed.

Lemma get_some_default src n i :
  Zlen src = n -> 0 <= i < n -> exists x, get src i = Some x.
Proof. intros; apply get_in_range; lia. Qed.

(** dst[perm[i]] = src[i] *)
Lemma reorderVectorOutOfPlace_ok n src dst perm tr :
  0 <= n -> is_perm n perm -> Zlen src = n -> Zlen dst = n -> Permutation tr (zrange 0 n) ->
  exists dst', reorderVectorOutOfPlace dst src (Some perm) n tr = Some dst' /\ Zlen dst' = n /\
    (forall i p, 0 <= i < n -> get perm i = Some p -> get dst' p = get src i).
Proof.
  intros Hn Hp Hs Hd Htr. cbn [reorderVectorOutOfPlace].
  rewrite (par_for_any_order _ 0 n) by (auto; intros; eapply reorder_commute; eauto).
  destruct (forZ_rule (fun k d => Zlen d = n /\
    (forall i p, 0 <= i < k -> get perm i = Some p -> get d p = get src i)) 0 n
    (reorder_iter n src perm) dst)
    as (d & E & HI); auto.
  - split; auto. intros; lia.
  - intros i d Hi (L & H).
    destruct (@get_in_range _ perm i) as [p Ep]; [rewrite (is_perm_len n) by auto; lia|].
    destruct (@get_in_range _ src i) as [x Ex]; [lia|].
    unfold reorder_iter. rewrite Ep, Ex. pose proof (is_perm_get_range _ _ _ _ Hp Ep).
    destruct (Z.leb_spec 0 p), (Z.ltb_spec p n); try lia. cbn [andb].
    destruct (set_ok d p x) as (d' & Ed'); [lia|].
    exists d'. split; auto. rewrite (set_len _ _ _ _ Ed'). split; auto.
    intros k q Hk Eq. rewrite (get_set _ _ _ _ _ Ed').
    destruct (Z.eqb_spec q p) as [->|Hne].
    + assert (k = i) as Eki by (apply (is_perm_get_inj n perm k i p); auto). subst k. congruence.
    + apply H; auto. assert (k <> i) by (intros ->; congruence). lia.
  - exists d. split; auto.
Qed.

(** dst[i] = src[inv[i]] *)
Lemma reorderVectorOutOfPlaceWithInversePerm_ok n src dst inv tr :
  0 <= n -> is_perm n inv -> Zlen src = n -> Zlen dst = n -> Permutation tr (zrange 0 n) ->
  exists dst', reorderVectorOutOfPlaceWithInversePerm dst src (Some inv) n tr = Some dst' /\
    Zlen dst' = n /\
    (forall i p, 0 <= i < n -> get inv i = Some p -> get dst' i = get src p).
Proof.
  intros Hn Hp Hs Hd Htr. cbn [reorderVectorOutOfPlaceWithInversePerm].
  rewrite (par_for_any_order _ 0 n) by (auto; intros; eapply reorder_inv_commute; eauto).
  destruct (forZ_rule (fun k d => Zlen d = n /\
    (forall i p, 0 <= i < k -> get inv i = Some p -> get d i = get src p)) 0 n
    (reorder_inv_iter n src inv) dst)
    as (d & E & HI); auto.
  - split; auto. intros; lia.
  - intros i d Hi (L & H).
    destruct (@get_in_range _ inv i) as [p Ep]; [rewrite (is_perm_len n) by auto; lia|].
    pose proof (is_perm_get_range _ _ _ _ Hp Ep).
    destruct (@get_in_range _ src p) as [x Ex]; [lia|].
    unfold reorder_inv_iter. rewrite Ep, Ex.
    destruct (Z.leb_spec 0 p), (Z.ltb_spec p n); try lia. cbn [andb].
    destruct (set_ok d i x) as (d' & Ed'); [lia|].
    exists d'. split; auto. rewrite (set_len _ _ _ _ Ed'). split; auto.
    intros k q Hk Eq. rewrite (get_set _ _ _ _ _ Ed').
    destruct (Z.eqb_spec k i) as [->|Hne].
    + rewrite Ep in Eq. injection Eq as <-. congruence.
    + apply H; auto. lia.
  - exists d. split; auto.
Qed.

(** Reordering in place and undoing it with the same array. *)
Lemma reorder_roundtrip n v tmp tmp' perm tr1 tr2 tr3 tr4 :
  0 <= n -> is_perm n perm -> Zlen v = n -> Zlen tmp = n -> Zlen tmp' = n ->
  Permutation tr1 (zrange 0 n) -> Permutation tr2 (zrange 0 n) ->
  Permutation tr3 (zrange 0 n) -> Permutation tr4 (zrange 0 n) ->
  exists w, reorderVector v tmp (Some perm) n tr1 tr2 = Some w /\
    (forall i p, 0 <= i < n -> get perm i = Some p -> get w p = get v i) /\
    reorderVectorWithInversePerm w tmp' (Some perm) n tr3 tr4 = Some v.
Proof.
  intros Hn Hp Hv Ht Ht' H1 H2 H3 H4.
  unfold reorderVector, reorderVectorWithInversePerm.
  destruct (reorderVectorOutOfPlace_ok n v tmp perm tr1) as (w & E & L & H); auto.
  rewrite E. exists w. rewrite (copy_ok w v n) by auto. split; auto. split; auto.
  destruct (reorderVectorOutOfPlaceWithInversePerm_ok n w tmp' perm tr3) as (v' & E' & L' & H'); auto.
  rewrite E'. rewrite (copy_ok v' w n) by auto. f_equal. apply list_ext; [lia|].
  intros i Hi. destruct (@get_in_range _ perm i) as [p Ep].
  { rewrite (is_perm_len n) by auto. lia. }
  rewrite (H' i p) by (auto; lia). apply H; auto; lia.
Qed.

(** The other direction: reading through the array first, then scattering. *)
Lemma reorder_inv_roundtrip n v tmp tmp' perm tr1 tr2 tr3 tr4 :
  0 <= n -> is_perm n perm -> Zlen v = n -> Zlen tmp = n -> Zlen tmp' = n ->
  Permutation tr1 (zrange 0 n) -> Permutation tr2 (zrange 0 n) ->
  Permutation tr3 (zrange 0 n) -> Permutation tr4 (zrange 0 n) ->
  exists w, reorderVectorWithInversePerm v tmp (Some perm) n tr1 tr2 = Some w /\
    (forall i p, 0 <= i < n -> get perm i = Some p -> get w i = get v p) /\
    reorderVector w tmp' (Some perm) n tr3 tr4 = Some v.
Proof.
  intros Hn Hp Hv Ht Ht' H1 H2 H3 H4.
  unfold reorderVector, reorderVectorWithInversePerm.
  destruct (reorderVectorOutOfPlaceWithInversePerm_ok n v tmp perm tr1) as (w & E & L & H); auto.
  rewrite E. exists w. rewrite (copy_ok w v n) by auto. split; auto. split; auto.
  destruct (reorderVectorOutOfPlace_ok n w tmp' perm tr3) as (v' & E' & L' & H'); auto.
  rewrite E'. rewrite (copy_ok v' w n) by auto. f_equal. apply list_ext; [lia|].
  intros k Hk. destruct (is_perm_onto n perm k Hp) as (i & Hi & Ei); [lia|].
  rewrite (H' i k) by auto. apply H; auto.
Qed.

(** Reordering with a permutation is reading through its inverse. *)
Lemma reorder_with_inverse_agree n v t1 t2 p q tr1 tr2 :
  0 <= n -> inverse_perms n p q -> Zlen v = n -> Zlen t1 = n -> Zlen t2 = n ->
  Permutation tr1 (zrange 0 n) -> Permutation tr2 (zrange 0 n) ->
  reorderVectorOutOfPlace t1 v (Some p) n tr1 =
  reorderVectorOutOfPlaceWithInversePerm t2 v (Some q) n tr2.
Proof.
  intros Hn Hpq Hv H1 H2 P1 P2. destruct (inverse_perms_is_perm n p q Hpq) as [Hp Hq].
  destruct (reorderVectorOutOfPlace_ok n v t1 p tr1) as (w & E & L & H); auto.
  destruct (reorderVectorOutOfPlaceWithInversePerm_ok n v t2 q tr2) as (w' & E' & L' & H'); auto.
  rewrite E, E'. f_equal. apply list_ext; [lia|]. intros k Hk.
  destruct Hpq as (_ & _ & _ & G). destruct (G k) as (i & Ei & Ep); [lia|].
  rewrite (H i k) by (auto; apply get_Some_bounds in Ep; rewrite (is_perm_len n) in Ep by auto; lia).
  rewrite (H' k i) by (auto; lia). auto.
Qed.
End VectorProofs.
