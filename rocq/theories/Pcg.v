(** * Preconditioned conjugate gradients (test/pcg.cpp:237-385 and its copies
    387-486, 488-566, 568-669): vector operations and the iteration.

    Numbers are any type with any operations.  Simplifications: an iteration of
    the loops over vectors is one atomic action (it touches one index); timing
    and printing are left out. *)
From Coq Require Import Ring_theory Ring Permutation.
From Verif Require Import Base Interleave Spec Flat Csr Transpose CsrTools CsrOps Fill SpMV Permute PermuteMain PermuteFacts Kernels TaskGraphLists SchedPerm Solve.

Lemma Zlen_combine {X Y} (l : list X) (l' : list Y) : Zlen l = Zlen l' -> Zlen (combine l l') = Zlen l.
Proof. unfold Zlen. rewrite combine_length. lia. Qed.
Lemma get_combine {X Y} (l : list X) (l' : list Y) i a b : get l i = Some a -> get l' i = Some b -> get (combine l l') i = Some (a, b).
Proof.
  revert l' i. induction l as [|x l IH]; intros l' i Ha Hb; [pose proof (get_Some_bounds _ _ _ Ha) as B; cbn in B; lia|]. destruct l' as [|y l']; [pose proof (get_Some_bounds _ _ _ Hb) as B; cbn in B; lia|].
  pose proof (get_Some_bounds _ _ _ Ha) as B. cbn [combine]. destruct (Z.eq_dec i 0) as [->|N].
  - rewrite get_cons_0 in *. injection Ha as ->. injection Hb as ->. reflexivity.
  - assert (Hi : 0 < i) by lia. rewrite (get_cons_pos x l i Hi) in Ha. rewrite (get_cons_pos y l' i Hi) in Hb. rewrite get_cons_pos by lia. apply IH; auto.
Qed.

(** ** Vectors and matrices of the specification *)
Section At.
Context {V : Type}.
Variable zero : V.
Definition at_ (x : list V) (c : Z) : V := match get x c with Some v => v | None => zero end.
Lemma at_get x c v : get x c = Some v -> at_ x c = v.
Proof. unfold at_. now intros ->. Qed.
Lemma get_at x c : 0 <= c < Zlen x -> get x c = Some (at_ x c).
Proof. intros H. unfold at_. destruct (get_in_range x c H) as (v & ->). reflexivity. Qed.
Lemma holds_at x n : n <= Zlen x -> holds x n (at_ x).
Proof. intros H i Hi. apply get_at. lia. Qed.
End At.
Section Axpy.
Context {V : Type}.
Variables (zero : V) (add mul : V -> V -> V).
Definition vdot (x y : list V) : V := fold_right add zero (map (fun p => mul (fst p) (snd p)) (combine x y)).
Definition vaxpy (x : list V) (a : V) (y : list V) : list V := map (fun p => add (fst p) (mul a (snd p))) (combine x y).
Lemma Zlen_vaxpy x a y : Zlen x = Zlen y -> Zlen (vaxpy x a y) = Zlen x.
Proof. intros H. unfold vaxpy. rewrite Zlen_map, Zlen_combine; auto. Qed.
Lemma get_vaxpy x a y i u v : get x i = Some u -> get y i = Some v -> get (vaxpy x a y) i = Some (add u (mul a v)).
Proof. intros H1 H2. unfold vaxpy. rewrite get_map, (get_combine _ _ _ _ _ H1 H2). reflexivity. Qed.
End Axpy.
Section Mul.
Context {V : Type}.
Variables (zero one : V) (add mul : V -> V -> V).
Definition vmul (hasv : bool) (rows : rows_t V) (x : list V) : list V := map (fun row => row_times zero one add mul hasv row (at_ zero x)) rows.
Lemma Zlen_vmul hasv rows x : Zlen (vmul hasv rows x) = Zlen rows.
Proof. unfold vmul. now rewrite Zlen_map. Qed.
Lemma get_vmul hasv rows x i : 0 <= i < Zlen rows -> get (vmul hasv rows x) i = Some (row_times zero one add mul hasv (nthl rows i) (at_ zero x)).
Proof. intros H. unfold vmul. rewrite get_map, (get_nthl rows i H). reflexivity. Qed.
End Mul.

Section Model.
Context {V : Type}.
Variables (zero one : V) (add sub mul div : V -> V -> V) (opp sqrt : V -> V) (ltb : V -> V -> bool).
Variables (is0 is1 ism1 : V -> bool).    (* 0 == a, 1 == a, -1 == a *)

(** How an OpenMP reduction may be carried out: the iterations of a leaf are added
    up one after the other from 0, the partial results in the shape of the tree.
    The initial value of the variable is a leaf without iterations. *)
Inductive rtree := Leaf (l : list Z) | Node (a b : rtree).
Fixpoint leaves (t : rtree) : list Z := match t with Leaf l => l | Node a b => leaves a ++ leaves b end.
Definition splits (len : Z) (t : rtree) : Prop := Permutation (leaves t) (zrange 0 len).

(** pcg.cpp:237-245 *)
Fixpoint dot (x y : list V) (t : rtree) : option V :=
  match t with
  | Leaf l => foldM (fun i s => a <- get x i ;; b <- get y i ;; Some (add s (mul a b))) l zero
  | Node t1 t2 => u <- dot x y t1 ;; v <- dot x y t2 ;; Some (add u v)
  end.

(** pcg.cpp:247-250 *)
Definition norm (x : list V) (t : rtree) : option V := s <- dot x x t ;; Some (sqrt s).

(** pcg.cpp:253-307, one iteration; [Same]: the array is w *)
Definition wax_row (alpha : V) (x : arg) (beta : V) (y : arg) (i : Z) (w : list V) : option (list V) :=
  if is1 alpha then
    if is1 beta then a <- get (arr x w) i ;; b <- get (arr y w) i ;; set w i (add a b)
    else if ism1 beta then a <- get (arr x w) i ;; b <- get (arr y w) i ;; set w i (sub a b)
    else a <- get (arr x w) i ;; b <- get (arr y w) i ;; set w i (add a (mul beta b))
  else if is1 beta then a <- get (arr x w) i ;; b <- get (arr y w) i ;; set w i (add (mul alpha a) b)
  else if ism1 alpha then
    if is0 beta then a <- get (arr x w) i ;; set w i (opp a)
    else a <- get (arr x w) i ;; b <- get (arr y w) i ;; set w i (sub (mul beta b) a)
  else if is0 beta then a <- get (arr x w) i ;; set w i (mul alpha a)
  else a <- get (arr x w) i ;; b <- get (arr y w) i ;; set w i (add (mul alpha a) (mul beta b)).
Definition waxpby (n : Z) (w : list V) (alpha : V) (x : arg) (beta : V) (y : arg) (sch : list nat) : option (list V) :=
  par_any sch (wax_row alpha x beta y) 0 n w.

Notation mulvec := (multiplyWithVector zero add sub mul is0 is1 ism1).
Notation mulvec1 := (multiplyWithVector1 zero add sub mul is0 is1 ism1 one).

(** The interleavings: [pw_sch it site] of the loops and [pw_dot it site] of the
    reductions of iteration [it] (0: before the loop). *)
Record pworld := mkPw { pw_sch : Z -> Z -> nat -> list nat; pw_dot : Z -> Z -> rtree }.
(** Freshly allocated r, z, y, p, Ap (pcg.cpp:325, 332, 333, 340, 345). *)
Record pjunk := mkPj { pj_r : list V; pj_z : list V; pj_y : list V; pj_p : list V; pj_Ap : list V }.

Section Body.
Variables (A : csr V) (T : Z) (w : pworld) (tol : V).
(** z = M\r: the two triangular solves; arguments y, z, r, results y, z. *)
Variable prec : Z -> list V -> list V -> list V -> option (list V * list V).

(** pcg.cpp:347-369 and copies; [n] iterations are left, k is the number of the
    present one. *)
Fixpoint pcg_loop (n : nat) (k : Z) (x r z y p Ap : list V) (rz normr0 rel_err : V) : option (list V * Z * V) :=
  match n with
  | O => Some (x, k, rel_err)
  | S n =>
      Ap <- mulvec1 A Ap (Own p) T (pw_sch w k 0) [] ;;
      pAp <- dot p Ap (pw_dot w k 0) ;;
      let alpha := div rz pAp in
      x <- waxpby (cm A) x one Same alpha (Own p) (pw_sch w k 1 0%nat) ;;
      r <- waxpby (cm A) r one Same (opp alpha) (Own Ap) (pw_sch w k 2 0%nat) ;;
      nr <- norm r (pw_dot w k 1) ;;
      let rel_err := div nr normr0 in
      if ltb rel_err tol then Some (x, k, rel_err)
      else
        ' (y, z) <- prec k y z r ;;
        rz' <- dot r z (pw_dot w k 2) ;;
        let beta := div rz' rz in
        p <- waxpby (cm A) p one (Own z) beta Same (pw_sch w k 3 0%nat) ;;
        pcg_loop n (k + 1) x r z y p Ap rz' normr0 rel_err
  end.

(** pcg.cpp:325-369 and copies.  [while (k <= maxiter)] from k = 1. *)
Definition pcg_body (x b : list V) (maxiter : Z) (j : pjunk) : option (list V * Z * V) :=
  r <- mulvec A (pj_r j) (opp one) (Own x) one (Own b) zero T (pw_sch w 0 0) [] ;;
  normr0 <- norm r (pw_dot w 0 0) ;;
  ' (y, z) <- prec 0 (pj_y j) (pj_z j) r ;;
  p <- copyVector (pw_sch w 0 1 0%nat) (pj_p j) z (cm A) ;;
  rz <- dot r z (pw_dot w 0 1) ;;
  pcg_loop (Z.to_nat maxiter) 1 x r z y p (pj_Ap j) rz normr0 one.
End Body.
Definition pw_ok (m : Z) (w : pworld) : Prop := forall it site, splits m (pw_dot w it site).
Definition pj_ok (m : Z) (j : pjunk) : Prop := Zlen (pj_r j) = m /\ Zlen (pj_z j) = m /\ Zlen (pj_y j) = m /\ Zlen (pj_p j) = m /\ Zlen (pj_Ap j) = m.

(** ** Specification: the textbook method on vectors of length m *)
Definition residual (hasv : bool) (rows : rows_t V) (b x : list V) : list V := vaxpy add mul b (opp one) (vmul zero one add mul hasv rows x).
Fixpoint cg (hasv : bool) (rows : rows_t V) (minv : list V -> list V) (tol : V) (n : nat) (k : Z) (x r p : list V) (rz n0 e : V) : list V * Z * V :=
  match n with
  | O => (x, k, e)
  | S n =>
      let Ap := vmul zero one add mul hasv rows p in
      let alpha := div rz (vdot zero add mul p Ap) in
      let x := vaxpy add mul x alpha p in
      let r := vaxpy add mul r (opp alpha) Ap in
      let e := div (sqrt (vdot zero add mul r r)) n0 in
      if ltb e tol then (x, k, e)
      else
        let z := minv r in
        let rz' := vdot zero add mul r z in
        cg hasv rows minv tol n (k + 1) x r (vaxpy add mul z (div rz' rz) p) rz' n0 e
  end.
Definition pcg_spec (hasv : bool) (rows : rows_t V) (minv : list V -> list V) (tol : V) (x b : list V) (maxiter : Z) : list V * Z * V :=
  let r := residual hasv rows b x in
  cg hasv rows minv tol (Z.to_nat maxiter) 1 x r (minv r) (vdot zero add mul r (minv r)) (sqrt (vdot zero add mul r r)) one.

(** ** Facts that hold for any arithmetic *)
Lemma dot_safe x y m t : (forall i, In i (leaves t) -> 0 <= i < m) -> m <= Zlen x -> m <= Zlen y -> exists v, dot x y t = Some v.
Proof.
  intros Ht Hx Hy. induction t as [l|a IHa b IHb]; cbn [leaves dot] in *.
  - assert (G : forall l s, (forall i, In i l -> 0 <= i < m) -> exists v, foldM (fun i s => a <- get x i ;; b <- get y i ;; Some (add s (mul a b))) l s = Some v); [|now apply G].
    clear l Ht. induction l as [|i l IH]; intros s Hl; [eexists; reflexivity|]. cbn [foldM]. assert (Hi : 0 <= i < m) by (apply Hl; cbn; auto).
    destruct (get_in_range x i) as (u & ->); [lia|]. destruct (get_in_range y i) as (v & ->); [lia|]. apply IH. intros; apply Hl; cbn; auto.
  - destruct IHa as (u & ->); [intros; apply Ht, in_or_app; auto|]. destruct IHb as (v & ->); [intros; apply Ht, in_or_app; auto|]. eauto.
Qed.
Lemma splits_range m t : splits m t -> forall i, In i (leaves t) -> 0 <= i < m.
Proof. intros H i Hi. apply In_zrange. eapply Permutation_in; eauto. Qed.

(** What waxpby stores. *)
Definition wax_val (alpha beta a b : V) : V :=
  if is1 alpha then if is1 beta then add a b else if ism1 beta then sub a b else add a (mul beta b)
  else if is1 beta then add (mul alpha a) b
  else if ism1 alpha then if is0 beta then opp a else sub (mul beta b) a
  else if is0 beta then mul alpha a else add (mul alpha a) (mul beta b).
Lemma waxpby_ok n w alpha x beta y sch fx fy : n <= Zlen w -> holds (arr x w) n fx -> holds (arr y w) n fy ->
  exists w', waxpby n w alpha x beta y sch = Some w' /\ Zlen w' = Zlen w /\ (forall i, 0 <= i < n -> get w' i = Some (wax_val alpha beta (fx i) (fy i))) /\ (forall i, n <= i -> get w' i = get w i).
Proof.
  clear div sqrt ltb. intros Hn Hx Hy. destruct (par_any_write sch (wax_row alpha x beta y) (fun i => wax_val alpha beta (fx i) (fy i)) 0 n w) as (w' & E & L & G & F); auto; [lia| |].
  - intros i w' Hi L Ei.
    assert (Gx : get (arr x w') i = Some (fx i)). { rewrite <- (Hx i Hi). destruct x; cbn [arr]; auto. }
    assert (Gy : get (arr y w') i = Some (fy i)). { rewrite <- (Hy i Hi). destruct y; cbn [arr]; auto. }
    unfold wax_row, wax_val. rewrite Gx, Gy. repeat match goal with |- context [if ?b then _ else _] => destruct b end; reflexivity.
  - exists w'. split; auto. split; auto. split; auto. intros i Hi. apply F. lia.
Qed.
(** Nothing out of range is touched, whatever the arithmetic. *)
Section Safe.
Variables (hasv : bool) (base : Z) (rows : rows_t V) (A : csr V) (T : Z) (w : pworld) (tol : V).
Variable prec : Z -> list V -> list V -> list V -> option (list V * list V).
Notation m := (Zlen rows).
Hypothesis HR : rep hasv base m rows A.
Hypothesis Hok : rows_ok m rows.
Hypothesis HT : 1 <= T.
Hypothesis Hw : pw_ok m w.
Hypothesis Hprec : forall it y z r, Zlen y = m -> Zlen z = m -> Zlen r = m -> exists y' z', prec it y z r = Some (y', z') /\ Zlen y' = m /\ Zlen z' = m.
Lemma wax_safe v alpha x beta y sch : Zlen v = m -> Zlen (arr x v) = m -> Zlen (arr y v) = m -> exists v', waxpby m v alpha x beta y sch = Some v' /\ Zlen v' = m.
Proof.
  intros Hv Hx Hy. destruct (waxpby_ok m v alpha x beta y sch (at_ zero (arr x v)) (at_ zero (arr y v))) as (v' & E & L & _); [lia|apply holds_at; lia|apply holds_at; lia|].
  exists v'. split; auto. lia.
Qed.
Lemma dot_ok x y it site : Zlen x = m -> Zlen y = m -> exists v, dot x y (pw_dot w it site) = Some v.
Proof. intros Hx Hy. eapply dot_safe; [apply (splits_range m), Hw|lia|lia]. Qed.
Lemma loop_safe n : forall k x r z y p Ap rz n0 e, Zlen x = m -> Zlen r = m -> Zlen z = m -> Zlen y = m -> Zlen p = m -> Zlen Ap = m ->
  exists x' k' e', pcg_loop A T w tol prec n k x r z y p Ap rz n0 e = Some (x', k', e') /\ Zlen x' = m /\ k <= k' <= k + Z.of_nat n.
Proof.
  pose proof HR as (Em & _). induction n as [|n IH]; intros k x r z y p Ap rz n0 e Lx Lr Lz Ly Lp LA; cbn [pcg_loop]; [exists x, k, e; repeat split; auto; lia|].
  unfold multiplyWithVector1. destruct (multiply_ok zero add sub mul is0 is1 ism1 hasv base m rows A Ap one p (at_ zero p) zero Same (at_ zero Ap) zero T (pw_sch w k 0) [] HR Hok) as (Ap1 & -> & LA1 & _); auto; try (apply holds_at; lia); try lia. { intros _. cbn [arr]. apply holds_at. lia. }
  destruct (dot_ok p Ap1 k 0 Lp ltac:(lia)) as (pAp & ->). rewrite Em.
  destruct (wax_safe x one Same (div rz pAp) (Own p) (pw_sch w k 1 0%nat)) as (x1 & -> & Lx1); auto.
  destruct (wax_safe r one Same (opp (div rz pAp)) (Own Ap1) (pw_sch w k 2 0%nat)) as (r1 & -> & Lr1); auto. { cbn [arr]. lia. }
  unfold norm. destruct (dot_ok r1 r1 k 1 Lr1 Lr1) as (rr & ->). destruct (ltb _ tol); [exists x1, k, (div (sqrt rr) n0); repeat split; auto; lia|].
  destruct (Hprec k y z r1 Ly Lz Lr1) as (y1 & z1 & -> & Ly1 & Lz1). destruct (dot_ok r1 z1 k 2 Lr1 Lz1) as (rz' & ->).
  destruct (wax_safe p one (Own z1) (div rz' rz) Same (pw_sch w k 3 0%nat)) as (p1 & -> & Lp1); auto.
  destruct (IH (k + 1) x1 r1 z1 y1 p1 Ap1 rz' n0 (div (sqrt rr) n0)) as (x' & k' & e' & E & Lx' & B); auto; [lia|]. exists x', k', e'. split; auto. split; auto. lia.
Qed.
Theorem body_safe x b maxiter j : Zlen x = m -> Zlen b = m -> 0 <= maxiter -> pj_ok m j ->
  exists x' k e, pcg_body A T w tol prec x b maxiter j = Some (x', k, e) /\ Zlen x' = m /\ 1 <= k <= maxiter + 1.
Proof.
  intros Lx Lb HM (J1 & J2 & J3 & J4 & J5). unfold pcg_body. pose proof HR as (Em & _).
  destruct (multiply_ok zero add sub mul is0 is1 ism1 hasv base m rows A (pj_r j) (opp one) x (at_ zero x) one (Own b) (at_ zero b) zero T (pw_sch w 0 0) [] HR Hok) as (r & -> & Lr & _); auto; try (apply holds_at; lia); try lia. { intros _. cbn [arr]. apply holds_at. lia. }
  rewrite J1 in Lr. unfold norm. destruct (dot_ok r r 0 0 Lr Lr) as (rr & ->). destruct (Hprec 0 (pj_y j) (pj_z j) r J3 J2 Lr) as (y & z & -> & Ly & Lz).
  unfold copyVector. rewrite Em, par_copy by auto. destruct (dot_ok r z 0 1 Lr Lz) as (rz & ->).
  destruct (loop_safe (Z.to_nat maxiter) 1 x r z y z (pj_Ap j) rz (sqrt rr) one) as (x' & k' & e' & E & Lx' & B); auto. exists x', k', e'. split; auto. split; auto. lia.
Qed.
End Safe.
End Model.

(** ** Exact arithmetic: the iteration is the textbook method, also on reordered
    data *)
Section Ring.
Context {V : Type}.
Variables (zero one : V) (add mul sub : V -> V -> V) (opp : V -> V).
Variable RT : ring_theory zero one add mul sub opp (@eq V).
Add Ring Vring3 : RT.
Variables (div : V -> V -> V) (sqrt : V -> V) (ltb : V -> V -> bool) (is0 is1 ism1 : V -> bool).
Hypothesis H0 : forall a, is0 a = true -> a = zero.
Hypothesis H1 : forall a, is1 a = true -> a = one.
Hypothesis Hm1 : forall a, ism1 a = true -> a = opp one.
Notation at_ := (at_ zero).
Notation rt := (row_times zero one add mul true).
Notation sum := (sum zero add).

Lemma wax_ring alpha beta a b : wax_val add sub mul opp is0 is1 ism1 alpha beta a b = add (mul alpha a) (mul beta b).
Proof.
  unfold wax_val. destruct (is1 alpha) eqn:E1; [apply H1 in E1 as ->|]; (destruct (is1 beta) eqn:E2; [apply H1 in E2 as ->; ring|]).
  - destruct (ism1 beta) eqn:E3; [apply Hm1 in E3 as ->|]; ring.
  - destruct (ism1 alpha) eqn:E3; [apply Hm1 in E3 as ->|]; (destruct (is0 beta) eqn:E4; [apply H0 in E4 as ->|]); ring.
Qed.
Lemma sum_app l l' : sum (l ++ l') = add (sum l) (sum l').
Proof. induction l as [|a l IH]; cbn [app SpMV.sum fold_right]; [unfold SpMV.sum; ring|]. unfold SpMV.sum in *. rewrite IH. ring. Qed.
Lemma sum_perm l l' : Permutation l l' -> sum l = sum l'.
Proof. unfold SpMV.sum. induction 1; cbn [fold_right]; auto; try congruence. ring. Qed.
Lemma dot_sum x y m t : (forall i, In i (leaves t) -> 0 <= i < m) -> m <= Zlen x -> m <= Zlen y ->
  dot zero add mul x y t = Some (sum (map (fun i => mul (at_ x i) (at_ y i)) (leaves t))).
Proof.
  intros Ht Hx Hy. induction t as [l|a IHa b IHb]; cbn [leaves dot] in *.
  - assert (G : forall l s, (forall i, In i l -> 0 <= i < m) -> foldM (fun i s => a <- get x i ;; b <- get y i ;; Some (add s (mul a b))) l s = Some (add s (sum (map (fun i => mul (at_ x i) (at_ y i)) l)))).
    { clear l Ht. induction l as [|i l IH]; intros s Hl; cbn [foldM map]. { f_equal. unfold SpMV.sum. cbn. ring. } assert (Hi : 0 <= i < m) by (apply Hl; cbn; auto).
      rewrite (get_at zero x i), (get_at zero y i) by lia. rewrite IH by (intros; apply Hl; cbn; auto). f_equal. unfold SpMV.sum. cbn [fold_right]. ring. }
    rewrite G by auto. f_equal. ring.
  - rewrite IHa by (intros; apply Ht, in_or_app; auto). rewrite IHb by (intros; apply Ht, in_or_app; auto). f_equal. now rewrite map_app, sum_app.
Qed.
Lemma vdot_sum x y : Zlen x = Zlen y -> vdot zero add mul x y = sum (map (fun i => mul (at_ x i) (at_ y i)) (zrange 0 (Zlen x))).
Proof.
  intros H. unfold vdot. change (fold_right add zero) with sum. f_equal. apply list_ext. { rewrite !Zlen_map, (Zlen_combine x y H), Zlen_zrange. pose proof (Zlen_nonneg x). lia. }
  intros i Hi. rewrite Zlen_map, (Zlen_combine x y H) in Hi. rewrite !get_map, get_zrange by lia. rewrite (get_combine x y i (at_ x i) (at_ y i)) by (apply get_at; lia). reflexivity.
Qed.

(** [l'] is [l] in the order of [t2o]. *)
Section Move.
Variables (m : Z) (o2t t2o : list Z).
Hypothesis HP : Permutation t2o (zrange 0 m).
Hypothesis HL : Zlen o2t = m.
Hypothesis HI : forall p i, get t2o p = Some i -> get o2t i = Some p.
Definition placed {X} (l l' : list X) : Prop := Zlen l = m /\ Zlen l' = m /\ forall i r, get t2o i = Some r -> get l' i = get l r.
Lemma m_nn : 0 <= m.
Proof. rewrite <- HL. apply Zlen_nonneg. Qed.
Lemma len_t2o : Zlen t2o = m.
Proof. rewrite (Zlen_perm _ _ HP), Zlen_zrange. pose proof m_nn. lia. Qed.
Lemma placed_moved {X} (l l' : list X) : placed l l' -> moved m t2o l l'.
Proof. intros (A & B & C). split; [lia|]. split; auto. intros p Hp. rewrite !get_out by lia. reflexivity. Qed.
Lemma moved_placed {X} (l l' : list X) : moved m t2o l l' -> Zlen l = m -> placed l l'.
Proof. intros (A & B & _) H. split; auto. split; [lia|]. auto. Qed.
Lemma placed_at x x' i r : placed x x' -> get t2o i = Some r -> at_ x' i = at_ x r.
Proof. intros (_ & _ & H) E. unfold Pcg.at_. now rewrite (H _ _ E). Qed.
Lemma placed_intro {X} (l l' : list X) : Zlen l = m -> Zlen l' = m -> (forall i r, 0 <= i < m -> 0 <= r < m -> get t2o i = Some r -> get l' i = get l r) -> placed l l'.
Proof. intros A B C. split; auto. split; auto. intros i r E. destruct (t2o_range m o2t t2o HP HI i r E). auto. Qed.

Lemma placed_dot x y x' y' t : placed x x' -> placed y y' -> splits m t -> dot zero add mul x' y' t = Some (vdot zero add mul x y).
Proof.
  intros Hx Hy Ht. pose proof Hx as (Lx & Lx' & _). pose proof Hy as (Ly & Ly' & _). rewrite (dot_sum x' y' m t (splits_range m t Ht)) by lia. f_equal. rewrite vdot_sum by congruence. rewrite Lx.
  transitivity (sum (map (fun i => mul (at_ x' i) (at_ y' i)) (zrange 0 m))). { apply sum_perm, Permutation_map, Ht. }
  transitivity (sum (map (fun r => mul (at_ x r) (at_ y r)) t2o)). 2: { apply sum_perm, Permutation_map, HP. }
  f_equal. apply list_ext. { rewrite !Zlen_map, Zlen_zrange, len_t2o. pose proof m_nn. lia. }
  intros i Hi. rewrite Zlen_map, Zlen_zrange in Hi. rewrite !get_map, get_zrange by lia. destruct (t2o_ok m o2t t2o HP HI i ltac:(lia)) as (r & E). rewrite E. cbn [option_map]. rewrite Z.add_0_l. now rewrite (placed_at x x' i r Hx E), (placed_at y y' i r Hy E).
Qed.
Lemma placed_norm x x' t : placed x x' -> splits m t -> norm zero add mul sqrt x' t = Some (sqrt (vdot zero add mul x x)).
Proof. intros Hx Ht. unfold norm. now rewrite (placed_dot x x x' x' t Hx Hx Ht). Qed.
(** w = alpha*x + beta*y *)
Lemma placed_wax w' alpha xa beta ya sch x y : Zlen w' = m -> placed x (arr xa w') -> placed y (arr ya w') ->
  exists v', waxpby add sub mul opp is0 is1 ism1 m w' alpha xa beta ya sch = Some v' /\
    forall v, Zlen v = m -> (forall r, 0 <= r < m -> get v r = Some (add (mul alpha (at_ x r)) (mul beta (at_ y r)))) -> placed v v'.
Proof.
  intros Lw Hx Hy. destruct (waxpby_ok add sub mul opp is0 is1 ism1 m w' alpha xa beta ya sch (at_ (arr xa w')) (at_ (arr ya w'))) as (v' & E & L & G & _); [lia| | |].
  { apply holds_at. pose proof (proj1 (proj2 Hx)). lia. } { apply holds_at. pose proof (proj1 (proj2 Hy)). lia. }
  exists v'. split; auto. intros v Lv Gv. apply placed_intro; auto; [lia|]. intros i r Hi Hr E'. rewrite G, Gv, wax_ring by auto. now rewrite (placed_at x _ i r Hx E'), (placed_at y _ i r Hy E').
Qed.
Lemma placed_axpy w' xa ya beta sch x y : Zlen w' = m -> placed x (arr xa w') -> placed y (arr ya w') ->
  exists v', waxpby add sub mul opp is0 is1 ism1 m w' one xa beta ya sch = Some v' /\ placed (vaxpy add mul x beta y) v'.
Proof.
  intros Lw Hx Hy. destruct (placed_wax w' one xa beta ya sch x y Lw Hx Hy) as (v' & E & H). exists v'. split; auto. pose proof Hx as (Lx & _). pose proof Hy as (Ly & _).
  apply H. { rewrite Zlen_vaxpy; lia. } intros r Hr. rewrite (get_vaxpy add mul x beta y r (at_ x r) (at_ y r)) by (apply get_at; lia). f_equal. ring.
Qed.

Variables (rows rows' : rows_t V) (base : Z) (A' : csr V) (T : Z).
Hypothesis HN : Zlen rows = m.
Hypothesis Hok : rows_ok m rows.
Hypothesis MR : moved_rows sub o2t t2o rows rows'.
Hypothesis HR : rep true base m rows' A'.
Hypothesis Hok' : rows_ok m rows'.
Hypothesis HT : 1 <= T.
Lemma LN : Zlen rows' = m.
Proof. rewrite (proj1 MR). exact HN. Qed.

Lemma placed_row x x' i r : placed x x' -> get t2o i = Some r -> rt (nthl rows' i) (at_ x') = rt (nthl rows r) (at_ x).
Proof.
  intros Hx E. assert (G : rt (rename o2t (nthl rows r)) (at_ x') = rt (nthl rows r) (at_ x)).
  { destruct (t2o_range m o2t t2o HP HI i r E) as (_ & Hr). assert (HC : forall c v, In (c, v) (nthl rows r) -> 0 <= c). { intros c v Hc. apply (Hok _ _ _ (nth_row_In rows r ltac:(lia))) in Hc. lia. }
    revert HC. generalize (nthl rows r) as row. induction row as [|(c, v) row IH]; intros HC; [reflexivity|]. unfold rename in *. cbn [map fst snd]. rewrite !(rt_cons zero one add mul). cbn [fst snd]. rewrite IH by (intros c' v' Hc'; apply (HC c' v'); cbn; auto).
    f_equal. f_equal. unfold Pcg.at_. now rewrite (moved_col m o2t t2o HP HL HI x x' c (placed_moved _ _ Hx) (HC c v (or_introl eq_refl))). }
  destruct (proj2 MR i r E) as [-> | (_ & P)]; auto. rewrite <- G. apply (rt_perm zero one add mul sub opp RT); auto.
Qed.
Lemma placed_vmul Ap' p p' sch junk : Zlen Ap' = m -> placed p p' ->
  exists v', multiplyWithVector1 zero add sub mul is0 is1 ism1 one A' Ap' (Own p') T sch junk = Some v' /\ placed (vmul zero one add mul true rows p) v'.
Proof.
  pose proof LN as LN. intros LA Hp. pose proof Hp as (Lp & Lp' & _).
  destruct (multiply1_ring zero one add mul sub opp RT is0 is1 ism1 H0 H1 Hm1 true base m rows' A' Ap' (Own p') (at_ p') T sch junk HR Hok') as (v' & E & L & G & _); auto; try discriminate; try lia.
  { cbn [arr]. apply holds_at. lia. }
  exists v'. split; auto. apply placed_intro; try lia. { now rewrite Zlen_vmul. } intros i r Hi Hr Er. rewrite G by lia. rewrite get_vmul by lia. now rewrite (placed_row p p' i r Hp Er).
Qed.
Lemma placed_residual r0' x x' b b' sch junk : Zlen r0' = m -> placed x x' -> placed b b' ->
  exists v', multiplyWithVector zero add sub mul is0 is1 ism1 A' r0' (opp one) (Own x') one (Own b') zero T sch junk = Some v' /\ placed (residual zero one add mul opp true rows b x) v'.
Proof.
  pose proof LN as LN. intros LA Hx Hb. pose proof Hx as (Lx & Lx' & _). pose proof Hb as (Lb & Lb' & _).
  destruct (multiply_ring zero one add mul sub opp RT is0 is1 ism1 H0 H1 Hm1 true base m rows' A' r0' (opp one) x' (at_ x') one (Own b') (at_ b') zero T sch junk HR Hok') as (v' & E & L & G & _); auto; try lia.
  { apply holds_at. lia. } { cbn [arr]. apply holds_at. lia. }
  exists v'. split; auto. unfold residual. apply placed_intro; try lia. { rewrite Zlen_vaxpy; auto. rewrite Zlen_vmul. lia. } intros i r Hi Hr Er. rewrite G by lia.
  rewrite (get_vaxpy add mul b (opp one) _ r (at_ b r) (rt (nthl rows r) (at_ x))). 2: { apply get_at. lia. } 2: { apply get_vmul. lia. }
  rewrite (placed_row x x' i r Hx Er), (placed_at b b' i r Hb Er). f_equal. ring.
Qed.
Lemma placed_copy sch (p' z z' : list V) : Zlen p' = m -> placed z z' -> copyVector sch p' z' m = Some z'.
Proof. intros L (_ & L' & _). unfold copyVector. apply par_copy; auto. Qed.

Variables (w : pworld) (tol : V) (minv : list V -> list V).
Variable prec : Z -> list V -> list V -> list V -> option (list V * list V).
Hypothesis Hw : pw_ok m w.
Hypothesis Hprec : forall it y z r r', Zlen y = m -> Zlen z = m -> placed r r' -> exists y' z', prec it y z r' = Some (y', z') /\ Zlen y' = m /\ placed (minv r) z'.
Notation loop := (pcg_loop zero one add sub mul div opp sqrt ltb is0 is1 ism1 A' T w tol prec).
Notation spec_cg := (cg zero one add mul div opp sqrt ltb true rows minv tol).

Lemma loop_ok n : forall k x r z y p Ap rz n0 e sx sr sp, Zlen z = m -> Zlen y = m -> Zlen Ap = m -> placed sx x -> placed sr r -> placed sp p ->
  exists x', loop n k x r z y p Ap rz n0 e = Some (x', snd (fst (spec_cg n k sx sr sp rz n0 e)), snd (spec_cg n k sx sr sp rz n0 e)) /\ placed (fst (fst (spec_cg n k sx sr sp rz n0 e))) x'.
Proof.
  pose proof HR as (Em & _). rewrite LN in Em.
  induction n as [|n IH]; intros k x r z y p Ap rz n0 e sx sr sp Lz Ly LA Hx Hr Hp; cbn [pcg_loop cg]; [cbn [fst snd]; eauto|].
  destruct (placed_vmul Ap sp p (pw_sch w k 0) [] LA Hp) as (Ap1 & -> & HA1). rewrite (placed_dot sp _ p Ap1 (pw_dot w k 0) Hp HA1) by apply Hw.
  set (alpha := div rz (vdot zero add mul sp (vmul zero one add mul true rows sp))). rewrite Em.
  destruct (placed_axpy x Same (Own p) alpha (pw_sch w k 1 0%nat) sx sp) as (x1 & -> & Hx1); [apply Hx|exact Hx|exact Hp|].
  destruct (placed_axpy r Same (Own Ap1) (opp alpha) (pw_sch w k 2 0%nat) sr _ (proj1 (proj2 Hr)) Hr HA1) as (r1 & -> & Hr1).
  rewrite (placed_norm _ r1 (pw_dot w k 1) Hr1) by apply Hw.
  set (e1 := div (sqrt _) n0). destruct (ltb e1 tol); [cbn [fst snd]; eauto|].
  set (sr1 := vaxpy add mul sr (opp alpha) _) in *.
  destruct (Hprec k y z sr1 r1 Ly Lz Hr1) as (y1 & z1 & -> & Ly1 & Hz1).
  rewrite (placed_dot sr1 _ r1 z1 (pw_dot w k 2) Hr1 Hz1) by apply Hw.
  destruct (placed_axpy p (Own z1) Same (div (vdot zero add mul sr1 (minv sr1)) rz) (pw_sch w k 3 0%nat) (minv sr1) sp (proj1 (proj2 Hp)) Hz1 Hp) as (p1 & -> & Hp1).
  apply IH; auto; [apply Hz1|apply HA1].
Qed.
Theorem body_ok x x' b b' maxiter j : placed x x' -> placed b b' -> pj_ok m j ->
  exists xf', pcg_body zero one add sub mul div opp sqrt ltb is0 is1 ism1 A' T w tol prec x' b' maxiter j =
      Some (xf', snd (fst (pcg_spec zero one add mul div opp sqrt ltb true rows minv tol x b maxiter)), snd (pcg_spec zero one add mul div opp sqrt ltb true rows minv tol x b maxiter)) /\
    placed (fst (fst (pcg_spec zero one add mul div opp sqrt ltb true rows minv tol x b maxiter))) xf'.
Proof.
  intros Hx Hb (J1 & J2 & J3 & J4 & J5). unfold pcg_body, pcg_spec. pose proof HR as (Em & _). rewrite LN in Em.
  destruct (placed_residual (pj_r j) x x' b b' (pw_sch w 0 0) [] J1 Hx Hb) as (r' & -> & Hr). set (r := residual _ _ _ _ _ _ _ _ _) in *.
  rewrite (placed_norm r r' _ Hr) by apply Hw. destruct (Hprec 0 (pj_y j) (pj_z j) r r' J3 J2 Hr) as (y' & z' & -> & Ly & Hz).
  rewrite Em, (placed_copy _ (pj_p j) _ z' J4 Hz), (placed_dot r _ r' z' _ Hr Hz) by apply Hw.
  apply loop_ok; auto. apply Hz.
Qed.
End Move.
(** ** What the method reports *)
Section Report.
Variables (rows : rows_t V) (minv : list V -> list V) (tol : V).
Notation m := (Zlen rows).
Hypothesis Hok : rows_ok m rows.
Hypothesis Hminv : forall r, Zlen r = m -> Zlen (minv r) = m.
Notation resid := (residual zero one add mul opp true rows).
Notation "x +[ a ] y" := (vaxpy add mul x a y) (at level 50, left associativity).
Notation A_ := (vmul zero one add mul true rows).

Lemma rt_axpy row x a y : rt row (fun c => add (x c) (mul a (y c))) = add (rt row x) (mul a (rt row y)).
Proof. induction row as [|e row IH]; [rewrite !(rt_nil zero one add mul); ring|]. rewrite !(rt_cons zero one add mul), IH. ring. Qed.
Lemma at_axpy x a y c : Zlen x = Zlen y -> 0 <= c < Zlen x -> at_ (x +[a] y) c = add (at_ x c) (mul a (at_ y c)).
Proof. intros H Hc. apply at_get. apply get_vaxpy; apply get_at; lia. Qed.
Lemma vmul_axpy x a y : Zlen x = m -> Zlen y = m -> A_ (x +[a] y) = A_ x +[a] A_ y.
Proof.
  intros Hx Hy. apply list_ext. { rewrite Zlen_vaxpy, !Zlen_vmul; auto. now rewrite !Zlen_vmul. } intros i Hi. rewrite Zlen_vmul in Hi.
  rewrite get_vmul by auto. rewrite (get_vaxpy add mul (A_ x) a (A_ y) i _ _ (get_vmul zero one add mul true rows x i Hi) (get_vmul zero one add mul true rows y i Hi)). f_equal. rewrite <- rt_axpy.
  apply (rt_ext zero one add mul). intros c v Hc. apply (Hok _ _ _ (nth_row_In rows i Hi)) in Hc. apply at_axpy; lia.
Qed.
Lemma resid_len b x : Zlen b = m -> Zlen (resid b x) = m.
Proof. intros H. unfold residual. rewrite Zlen_vaxpy; auto. now rewrite Zlen_vmul. Qed.
Lemma resid_axpy b x a p : Zlen b = m -> Zlen x = m -> Zlen p = m -> resid b (x +[a] p) = resid b x +[opp a] A_ p.
Proof.
  intros Hb Hx Hp. unfold residual. rewrite vmul_axpy by auto. apply list_ext. { rewrite !Zlen_vaxpy; rewrite ?Zlen_vmul; auto; rewrite ?Zlen_vaxpy, ?Zlen_vmul; auto; now rewrite ?Zlen_vmul. }
  intros i Hi. rewrite Zlen_vaxpy in Hi by (rewrite Zlen_vaxpy, Zlen_vmul; auto; now rewrite !Zlen_vmul). rewrite Hb in Hi.
  pose proof (get_vmul zero one add mul true rows x i Hi) as G1. pose proof (get_vmul zero one add mul true rows p i Hi) as G2. pose proof (get_at zero b i ltac:(lia)) as G3.
  rewrite (get_vaxpy add mul b _ _ i _ _ G3 (get_vaxpy add mul (A_ x) a (A_ p) i _ _ G1 G2)). rewrite (get_vaxpy add mul _ _ _ i _ _ (get_vaxpy add mul b (opp one) (A_ x) i _ _ G3 G1) G2). f_equal. ring.
Qed.
Notation spec_cg := (cg zero one add mul div opp sqrt ltb true rows minv tol).
Notation relerr b x n0 := (div (sqrt (vdot zero add mul (resid b x) (resid b x))) n0).
Lemma cg_report b n : Zlen b = m -> forall k x p rz n0 e, Zlen x = m -> Zlen p = m ->
  exists x' k' e', spec_cg n k x (resid b x) p rz n0 e = (x', k', e') /\ Zlen x' = m /\ k <= k' <= k + Z.of_nat n /\
    (n = O -> x' = x /\ e' = e) /\ (n <> O -> e' = relerr b x' n0) /\ (k' < k + Z.of_nat n -> ltb e' tol = true) /\ (k' = k + Z.of_nat n -> n <> O -> ltb e' tol = false).
Proof.
  intros Lb. induction n as [|n IH]; intros k x p rz n0 e Lx Lp; cbn [cg]; [exists x, k, e; repeat split; auto; lia|].
  set (alpha := div rz _). rewrite <- (resid_axpy b x alpha p Lb Lx Lp). set (x1 := x +[alpha] p).
  assert (Lx1 : Zlen x1 = m). { unfold x1. rewrite Zlen_vaxpy; lia. }
  set (e1 := relerr b x1 n0). destruct (ltb e1 tol) eqn:Et; [exists x1, k, e1; repeat split; auto; try lia|].
  set (r1 := resid b x1). set (beta := div _ rz). destruct (IH (k + 1) x1 (minv r1 +[beta] p) (vdot zero add mul r1 (minv r1)) n0 e1 Lx1) as (x' & k' & e' & E & Lx' & Bk & C0 & C1 & C2 & C3).
  { assert (Lr1 : Zlen r1 = m) by now apply resid_len. rewrite Zlen_vaxpy; rewrite (Hminv r1 Lr1); auto. }
  exists x', k', e'. split; [exact E|]. split; auto. split; [lia|]. split; [discriminate|].
  destruct n as [|n]. { destruct (C0 eq_refl) as (-> & ->). repeat split; auto; try lia. }
  repeat split; intros; try (apply C1; discriminate); try (apply C2; lia). apply C3; [lia|discriminate].
Qed.
(** What is printed for x': the iterations k and the relative residual. *)
Definition reports (b x0 x' : list V) (maxiter k : Z) (e : V) : Prop :=
  Zlen x' = m /\ 1 <= k <= maxiter + 1 /\ (maxiter = 0 -> x' = x0 /\ e = one) /\ (0 < maxiter -> e = relerr b x' (sqrt (vdot zero add mul (resid b x0) (resid b x0)))) /\
  (k <= maxiter -> ltb e tol = true) /\ (k = maxiter + 1 -> 0 < maxiter -> ltb e tol = false).
Theorem spec_reports x b maxiter : Zlen x = m -> Zlen b = m -> 0 <= maxiter ->
  exists x' k e, pcg_spec zero one add mul div opp sqrt ltb true rows minv tol x b maxiter = (x', k, e) /\ reports b x x' maxiter k e.
Proof.
  intros Lx Lb HM. unfold pcg_spec. pose proof (resid_len b x Lb) as Lr.
  destruct (cg_report b (Z.to_nat maxiter) Lb 1 x (minv (resid b x)) (vdot zero add mul (resid b x) (minv (resid b x))) (sqrt (vdot zero add mul (resid b x) (resid b x))) one Lx (Hminv _ Lr)) as (x' & k' & e' & E & Lx' & Bk & C0 & C1 & C2 & C3).
  exists x', k', e'. split; auto. unfold reports. split; auto. split; [lia|]. split; [intros ->; apply C0; reflexivity|]. split; [intros; apply C1; lia|]. split; [intros; apply C2; lia|]. intros; apply C3; lia.
Qed.
End Report.
End Ring.
