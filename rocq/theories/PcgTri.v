(** * The preconditioners of test/pcg.cpp: how they are set up and what the two
    triangular solves compute. *)
From Coq Require Import Ring_theory Ring Permutation.
From Verif Require Import Base Interleave Spec Flat Csr Transpose CsrTools CsrOps RowPar Fill SpMV SplitLU P2P P2PProg Exec Kernels TaskGraphLists Tasks TaskGraph TaskGraphCsr Sched SchedPerm Solve IluExact SolveCases Pcg.

Lemma off_mono {X} (f : Z -> list X) i j : 0 <= i <= j -> off f i <= off f j.
Proof.
  intros H. replace j with (i + (j - i)) by lia. assert (G : forall k, 0 <= k -> off f i <= off f (i + k)).
  { intros k Hk. pattern k. revert k Hk. apply Z_ind0; [replace (i + 0) with i by lia; lia|]. intros k Hk IH. replace (i + (k + 1)) with (i + k + 1) by lia. rewrite off_S by lia. pose proof (Zlen_nonneg (f (i + k))). lia. }
  apply G. lia.
Qed.

Section Model.
Context {V : Type}.
Variables (one : V) (add sub mul : V -> V -> V).

(** pcg.cpp:317-323 (395-401): U := D^-1 U.  The loop runs over the elements
    rowptr[i], ..., rowptr[i+1]-1 of values although rowptr may start at 1. *)
Definition scale_row (U : csr V) (i : Z) (s : list V * list V) : option (list V * list V) :=
  let '(vs, id) := s in
  lo <- get (rowptr U) i ;; hi <- get (rowptr U) (i + 1) ;;
  vs <- forZ lo hi (fun j vs => v <- get vs j ;; d <- get id i ;; set vs j (mul v d)) vs ;;
  id <- set id i one ;; Some (vs, id).
Definition scaleU (U : csr V) (sch : list nat) : option (csr V) :=
  vs <- values U ;; id <- idiag U ;; ' (vs, id) <- par_any sch (scale_row U) 0 (cm U) (vs, id) ;;
  Some (mkCSR (cm U) (cn U) (rowptr U) (colidx U) (Some vs) (Some id) (diag U) (diagptr U) (extptr U)).
(** pcg.cpp:501-504 (585-588) *)
Definition unitL (L : csr V) (sch : list nat) : option (csr V) :=
  id <- idiag L ;; id <- par_any sch (fun i w => set w i one) 0 (cm L) id ;;
  Some (mkCSR (cm L) (cn L) (rowptr L) (colidx L) (values L) (Some id) (diag L) (diagptr L) (extptr L)).

(** pcg.cpp:15-39 *)
Definition solveRef (fwd : bool) (M : csr V) (b y : list V) : option (list V) :=
  base <- getBase M ;; vs <- values M ;; id <- idiag M ;; ref_sweep add sub mul Scaled fwd M base vs id b y.
(** pcg.cpp:336-337, 361-362 (517-518, 542-543) *)
Definition prec_ref (L U : csr V) (it : Z) (y z r : list V) : option (list V * list V) :=
  y <- solveRef true L r y ;; z <- solveRef false U y z ;; Some (y, z).

(** Results of complete executions of a point-to-point program; None: undefined. *)
Definition outcome {O L} (exec : O -> L -> list V -> option (L * list V)) l0 (ops : Z -> list O) (fwd : bool) (S : schedule) (rowof : Z -> option Z) (T : Z) (y : list V) (res : option (list V)) : Prop :=
  exists rsch flags locs sched, Zlen flags = ntasks S /\ Zlen locs = T /\ (forall t, In t sched -> 0 <= t < T) /\
    match p2p_run exec l0 ops fwd S rowof T rsch sched flags locs y with Some (code, s) => finished code s /\ res = Some (mem s) | None => res = None end.
(** pcg.cpp:45-133: the backward solve runs through the rows and their entries in
    descending order. *)
Definition solveP2P (fwd : bool) (M : csr V) (S : schedule) (T : Z) (b y : list V) (res : option (list V)) : Prop :=
  match getBase M, values M, idiag M with
  | Some base, Some vs, Some id => outcome (rexec add sub mul Scaled M base vs id b) None (rops fwd M) fwd S (fun i => Some i) T y res
  | _, _, _ => res = None
  end.
(** pcg.cpp:431-432, 456-457 (614-615, 639-640): [prec] is what the calls of a run
    of the program return. *)
Definition prec_p2p (L U : csr V) (S : schedule) (T : Z) (prec : Z -> list V -> list V -> list V -> option (list V * list V)) : Prop :=
  forall it y z r, Zlen y = cm L -> Zlen z = cm L -> Zlen r = cm L ->
  exists y1, solveP2P true L S T r y y1 /\
    match y1 with
    | None => prec it y z r = None
    | Some y1 => exists z1, solveP2P false U S T y1 z z1 /\ prec it y z r = match z1 with Some z1 => Some (y1, z1) | None => None end
    end.

(** ** Specification *)
Definition scaled_rows (id : Z -> V) (rows : rows_t V) : rows_t V :=
  map (fun i => map (fun e => (fst e, mul (snd e) (id i))) (nthl rows i)) (zrange 0 (Zlen rows)).
Lemma Zlen_scaled id rows : Zlen (scaled_rows id rows) = Zlen rows.
Proof. clear add sub. unfold scaled_rows. rewrite Zlen_map, Zlen_zrange. pose proof (Zlen_nonneg rows). lia. Qed.
Lemma nthl_scaled id rows i : 0 <= i < Zlen rows -> nthl (scaled_rows id rows) i = map (fun e => (fst e, mul (snd e) (id i))) (nthl rows i).
Proof. clear add sub. intros Hi. apply nthl_get. unfold scaled_rows. rewrite get_map, get_zrange by lia. reflexivity. Qed.
Lemma off_scaled id rows i : 0 <= i <= Zlen rows -> off (nthl (scaled_rows id rows)) i = off (nthl rows) i.
Proof. clear add sub. intros Hi. apply (off_ext _ _ (Zlen rows)); [|lia]. intros j Hj. rewrite nthl_scaled by auto. now rewrite Zlen_map. Qed.
Lemma scaled_struct id rows base : rowptr_of base (scaled_rows id rows) = rowptr_of base rows /\ colidx_of base (scaled_rows id rows) = colidx_of base rows.
Proof.
  clear add sub. assert (Hm := Zlen_nonneg rows). split.
  - apply list_ext; [rewrite !Zlen_rowptr_of, Zlen_scaled; auto|]. intros i Hi. rewrite Zlen_rowptr_of, Zlen_scaled in Hi. rewrite !get_rowptr_of by (rewrite ?Zlen_scaled; lia). now rewrite off_scaled by lia.
  - apply list_ext. { rewrite !Zlen_colidx_of, Zlen_scaled, off_scaled by lia. reflexivity. }
    intros q Hq. rewrite Zlen_colidx_of, Zlen_scaled, off_scaled in Hq by lia. destruct (flat_locate (nthl rows) (Zlen rows) q Hm Hq) as (i & k & Hi & Hk & ->).
    destruct (get_in_range (nthl rows i) k Hk) as ((c & v) & G). rewrite (get_colidx_of _ _ i k c v Hi G). rewrite <- (off_scaled id rows i) by lia.
    apply (get_colidx_of _ _ i k c (mul v (id i))); [rewrite Zlen_scaled; auto|]. rewrite nthl_scaled by auto. rewrite get_map, G. reflexivity.
Qed.

(** ** Proofs *)
Theorem scaleU_ok n rows U dg id sch : rep true 0 n rows U -> idiag U = Some dg -> Zlen dg = Zlen rows -> holds dg (Zlen rows) id ->
  exists U' ones, scaleU U sch = Some U' /\ rep true 0 n (scaled_rows id rows) U' /\ idiag U' = Some ones /\ Zlen ones = Zlen rows /\ holds ones (Zlen rows) (fun _ => one) /\
    extptr U' = extptr U /\ diagptr U' = diagptr U.
Proof.
  clear add sub. intros HR Ed Ld Hd. pose proof HR as (H1 & H2 & H3 & H4 & H5). unfold scaleU. rewrite H5, Ed, H1. assert (Hm := Zlen_nonneg rows).
  set (o := off (nthl rows)). set (vs0 := values_of rows).
  set (I := fun (done : list Z) (s : list V * list V) => Zlen (fst s) = Zlen vs0 /\ Zlen (snd s) = Zlen rows /\
    forall i, 0 <= i < Zlen rows -> (In i done -> get (snd s) i = Some one /\ forall q v, o i <= q < o (i + 1) -> get vs0 q = Some v -> get (fst s) q = Some (mul v (id i))) /\
      (~ In i done -> get (snd s) i = Some (id i) /\ forall q, o i <= q < o (i + 1) -> get (fst s) q = get vs0 q)).
  destruct (par_any_inv I sch (scale_row U) 0 (Zlen rows) (vs0, dg)) as (s & done & E & HI & HD).
  - split; [reflexivity|]. split; [exact Ld|]. intros i Hi. split; [intros []|]. intros _. split; [cbn [snd]; auto|reflexivity].
  - intros done i (vs & ids) Hi Hn Hdone (L1 & L2 & HQ). cbn [fst snd] in *. unfold scale_row. rewrite H3, !get_rowptr_of by lia.
    destruct (HQ i Hi) as (_ & Q). destruct (Q Hn) as (Gi & Gv). fold (o i) (o (i + 1)). rewrite !Z.add_0_l.
    assert (Oi : 0 <= o i <= o (i + 1)). { unfold o. split; [rewrite <- (off_0 (nthl rows)); apply off_mono; lia|apply off_mono; lia]. }
    assert (Om : o (i + 1) <= Zlen vs0). { unfold vs0. rewrite Zlen_values_of. apply off_mono. lia. }
    destruct (forZ_rule (fun j v' => Zlen v' = Zlen vs /\ (forall q v, o i <= q < j -> get vs0 q = Some v -> get v' q = Some (mul v (id i))) /\ (forall q, ~ (o i <= q < j) -> get v' q = get vs q)) (o i) (o (i + 1))
       (fun j vs => v <- get vs j ;; d <- get ids i ;; set vs j (mul v d)) vs) as (vs1 & Ev & Lv & Gn & Go); [lia| | |].
    { split; auto. split; [intros; lia|]. auto. }
    { intros j v' Hj (Lv & Gn & Go). rewrite (Go j) by lia. rewrite (Gv j) by lia. destruct (get_in_range vs0 j ltac:(lia)) as (v & Gj). rewrite Gj, Gi.
      destruct (set_ok v' j (mul v (id i)) ltac:(lia)) as (v2 & Es). exists v2. split; auto. split; [rewrite (set_len _ _ _ _ Es); auto|]. split.
      - intros q u Hq Gq. destruct (Z.eq_dec q j) as [->|N]; [rewrite (get_set_same _ _ _ _ Es); congruence|]. rewrite (get_set_other _ _ _ _ _ Es) by auto. apply Gn; auto. lia.
      - intros q Hq. rewrite (get_set_other _ _ _ _ _ Es) by lia. apply Go. lia. }
    rewrite Ev. destruct (set_ok ids i one ltac:(lia)) as (ids1 & Es). rewrite Es. exists (vs1, ids1). split; auto. split; [cbn; lia|]. split; [cbn [snd]; rewrite (set_len _ _ _ _ Es); auto|].
    cbn [fst snd]. intros j Hj. split.
    + intros [<-|Hin]; [split; [eapply get_set_same; eauto|]; intros q v Hq Gq; apply Gn; auto|].
      assert (N : j <> i) by (intros ->; tauto). destruct (HQ j Hj) as (Q1 & _). destruct (Q1 Hin) as (A1 & A2). split; [rewrite (get_set_other _ _ _ _ _ Es); auto|].
      intros q v Hq Gq. rewrite Go; [apply A2; auto|]. intros Hq2. destruct (Z_lt_ge_dec j i); [pose proof (off_mono (nthl rows) (j + 1) i ltac:(lia))|pose proof (off_mono (nthl rows) (i + 1) j ltac:(lia))]; unfold o in *; lia.
    + intros Hin. assert (N : j <> i) by (intros ->; cbn in Hin; tauto). destruct (HQ j Hj) as (_ & Q1). destruct (Q1 ltac:(cbn in Hin; tauto)) as (A1 & A2). split; [rewrite (get_set_other _ _ _ _ _ Es); auto|].
      intros q Hq. rewrite Go; [apply A2; auto|]. intros Hq2. destruct (Z_lt_ge_dec j i); [pose proof (off_mono (nthl rows) (j + 1) i ltac:(lia))|pose proof (off_mono (nthl rows) (i + 1) j ltac:(lia))]; unfold o in *; lia.
  - destruct s as (vs & ids). destruct HI as (L1 & L2 & HQ). cbn [fst snd] in *. fold vs0. rewrite E. eexists _, ids. split; [reflexivity|]. cbn [idiag extptr diagptr].
    destruct (scaled_struct id rows 0) as (S1 & S2).
    assert (EV : vs = values_of (scaled_rows id rows)).
    { apply list_ext. { rewrite L1. unfold vs0. rewrite !Zlen_values_of, Zlen_scaled, off_scaled by lia. reflexivity. }
      intros q Hq. rewrite L1 in Hq. unfold vs0 in Hq. rewrite Zlen_values_of in Hq. destruct (flat_locate (nthl rows) (Zlen rows) q Hm Hq) as (i & k & Hi & Hk & ->).
      destruct (get_in_range (nthl rows i) k Hk) as ((c & v) & G). destruct (HQ i Hi) as (Q & _). destruct (Q (proj2 (HD i) Hi)) as (_ & Q2).
      rewrite (Q2 (off (nthl rows) i + k) v). 2: { unfold o. rewrite off_S by lia. lia. } 2: { apply (get_values_of rows i k c v Hi G). }
      symmetry. rewrite <- (off_scaled id rows i) by lia. apply (get_values_of _ i k c (mul v (id i))); [rewrite Zlen_scaled; auto|]. rewrite nthl_scaled by auto. rewrite get_map, G. reflexivity. }
    split. { split; [cbn; now rewrite Zlen_scaled|]. split; auto. split; [cbn; congruence|]. split; [cbn; congruence|]. cbn. now rewrite EV. }
    split; auto. split; auto. split; auto. intros i Hi. destruct (HQ i Hi) as (Q & _). apply Q. now apply HD.
Qed.
Theorem unitL_ok {base n rows L dg sch} : rep true base n rows L -> idiag L = Some dg -> Zlen dg = Zlen rows ->
  exists L' ones, unitL L sch = Some L' /\ rep true base n rows L' /\ idiag L' = Some ones /\ Zlen ones = Zlen rows /\ holds ones (Zlen rows) (fun _ => one) /\ extptr L' = extptr L /\ diagptr L' = diagptr L.
Proof.
  clear add sub mul. intros HR Ed Ld. pose proof HR as (H1 & H2 & H3 & H4 & H5). unfold unitL. rewrite Ed, H1.
  destruct (par_any_write sch (fun i w => set w i one) (fun _ => one) 0 (Zlen rows) dg) as (w' & E & L1 & G & _); auto; try lia.
  rewrite E. eexists _, w'. split; [reflexivity|]. cbn [idiag extptr diagptr]. split; [repeat split; cbn; auto|]. split; auto. split; [lia|]. split; auto.
Qed.

Lemma outcome_of {O L} (exec : O -> L -> list V -> option (L * list V)) (l0 : L) ops fwd S rowof T y fin : 1 <= T -> 0 <= ntasks S -> p2p_computes exec l0 ops fwd S rowof T y fin ->
  outcome exec l0 ops fwd S rowof T y (Some fin) /\ forall res, outcome exec l0 ops fwd S rowof T y res -> res = Some fin.
Proof.
  clear add sub mul one. intros HT HS H. split.
  - destruct (H [] (map (fun _ => 0) (zrange 0 (ntasks S))) (map (fun _ => l0) (zrange 0 T))) as (_ & F). { rewrite Zlen_map, Zlen_zrange. lia. } { rewrite Zlen_map, Zlen_zrange. lia. }
    destruct (F (fun n => Z.of_nat n mod T)) as (N & code & s & E & Fi & Me). { intros n. apply Z.mod_pos_bound. lia. }
    { intros t N Ht. exists (Z.to_nat (Z.of_nat N * T + t)). split; [nia|]. rewrite Z2Nat.id by nia. rewrite Z.add_comm, Z_mod_plus_full. apply Z.mod_small. lia. }
    exists [], (map (fun _ => 0) (zrange 0 (ntasks S))), (map (fun _ => l0) (zrange 0 T)), (map (fun n => Z.of_nat n mod T) (seq 0 N)).
    split; [rewrite Zlen_map, Zlen_zrange; lia|]. split; [rewrite Zlen_map, Zlen_zrange; lia|]. split. { intros t Ht. apply in_map_iff in Ht as (n & <- & _). apply Z.mod_pos_bound. lia. }
    rewrite E. split; auto. congruence.
  - intros res (rsch & flags & locs & sched & L1 & L2 & Hs & R). destruct (H rsch flags locs L1 L2) as (G & _). destruct (G sched Hs) as (code & s & E & _ & F & _). rewrite E in R. destruct R as (Fi & ->). now rewrite F.
Qed.
End Model.

(** ** Exact arithmetic *)
Section Ring.
Context {V : Type}.
Variables (zero one : V) (add mul sub : V -> V -> V) (opp : V -> V).
Variable RT : ring_theory zero one add mul sub opp (@eq V).
Add Ring Vring4 : RT.
Notation at_ := (at_ zero).
Notation rt := (row_times zero one add mul true).
Notation coefat := (coefat zero add).
Notation upd_all := (updates add sub mul Scaled).

(** [minv] is the inverse of the matrix [M] on vectors of length m. *)
Definition inverts (m : Z) (M minv : list V -> list V) : Prop := forall r, Zlen r = m -> Zlen (minv r) = m /\ M (minv r) = r.
(** (D + L) D^-1 (D + U) z for the parts of a matrix; [id]: D^-1. *)
Definition symgs_matrix (rows : rows_t V) (id : Z -> V) (z : list V) : list V :=
  let u := map (fun i => rt (filter (fun e => i <=? fst e) (nthl rows i)) (at_ z)) (zrange 0 (Zlen rows)) in
  let v := map (fun i => mul (id i) (at_ u i)) (zrange 0 (Zlen rows)) in
  map (fun i => rt (filter (fun e => fst e <=? i) (nthl rows i)) (at_ v)) (zrange 0 (Zlen rows)).
(** L U z for a unit lower and an upper factor stored in one matrix. *)
Definition ilu_matrix (lu : rows_t V) (z : list V) : list V :=
  let u := map (fun i => rt (filter (fun e => i <=? fst e) (nthl lu i)) (at_ z)) (zrange 0 (Zlen lu)) in
  map (fun i => add (at_ u i) (rt (filter (fun e => fst e <? i) (nthl lu i)) (at_ u))) (zrange 0 (Zlen lu)).

Lemma Zlen_mapz {X} (f : Z -> X) (rows : rows_t V) : Zlen (map f (zrange 0 (Zlen rows))) = Zlen rows.
Proof. clear. rewrite Zlen_map, Zlen_zrange. pose proof (Zlen_nonneg rows). lia. Qed.
Lemma at_mapz (f : Z -> V) m i : 0 <= i < m -> at_ (map f (zrange 0 m)) i = f i.
Proof. intros Hi. apply at_get. rewrite get_map, get_zrange by lia. reflexivity. Qed.
Lemma rt_split_ge row i x : rt (filter (fun e => i <=? fst e) row) x = add (mul (coefat row i) (x i)) (rt (filter (fun e => i <? fst e) row) x).
Proof.
  induction row as [|(c, v) row IH]; [cbn; ring|]. unfold Solve.coefat in *. cbn [filter fst]. destruct (Z.eqb_spec c i) as [->|N].
  - rewrite Z.leb_refl, Z.ltb_irrefl. rewrite (rt_cons zero one add mul), IH. cbn [map snd fold_right fst]. ring.
  - destruct (i <=? c) eqn:E1; destruct (i <? c) eqn:E2; try lia; [rewrite !(rt_cons zero one add mul), IH; cbn [fst snd]; ring|exact IH].
Qed.
Lemma rt_split_le row i x : rt (filter (fun e => fst e <=? i) row) x = add (mul (coefat row i) (x i)) (rt (filter (fun e => fst e <? i) row) x).
Proof.
  induction row as [|(c, v) row IH]; [cbn; ring|]. unfold Solve.coefat in *. cbn [filter fst]. destruct (Z.eqb_spec c i) as [->|N].
  - rewrite Z.leb_refl, Z.ltb_irrefl. rewrite (rt_cons zero one add mul), IH. cbn [map snd fold_right fst]. ring.
  - destruct (c <=? i) eqn:E1; destruct (c <? i) eqn:E2; try lia; [rewrite !(rt_cons zero one add mul), IH; cbn [fst snd]; ring|exact IH].
Qed.
Lemma rt_scaled row (a : V) x : rt (map (fun e => (fst e, mul (snd e) a)) row) x = mul a (rt row x).
Proof. induction row as [|e row IH]; [cbn; ring|]. cbn [map]. rewrite !(rt_cons zero one add mul), IH. cbn [fst snd]. ring. Qed.

(** One triangular system. *)
Section One.
Variables (fwd : bool) (rows : rows_t V) (ids : list V) (id d : Z -> V).
Notation m := (Zlen rows).
Hypothesis Hok : rows_ok m rows.
Hypothesis HS : strictly fwd rows.
Hypothesis Li : Zlen ids = m.
Hypothesis Hid : holds ids m id.
Hypothesis Hd : forall r, 0 <= r < m -> mul (d r) (id r) = one.
Definition tri (b : list V) : list V := match upd_all true rows ids b (dirZ fwd 0 m) b with Some x => x | None => b end.
Lemma tri_run asc b y : Zlen b = m -> Zlen y = m -> exists fin, upd_all asc rows ids b (dirZ fwd 0 m) y = Some fin /\ Zlen fin = m /\ solves zero one add mul rows d (at_ b) (at_ fin).
Proof.
  intros Lb Ly. destruct (solve_value zero one add mul sub opp RT Scaled asc m rows ids b id (at_ b) Hok (Z.le_refl _) (holds_at zero b m ltac:(lia)) (fun _ => Hid) fwd d y (at_ y) ltac:(discriminate) HS Hd (holds_at zero y m ltac:(lia))) as (fin & x & E & L & Hf & _ & Hx).
  exists fin. split; auto. split; [lia|]. intros r Hr. rewrite <- (Hx r Hr). rewrite (at_get zero fin r (x r) (Hf r Hr)). f_equal. apply (rt_ext zero one add mul). intros c v Hc. apply at_get. apply Hf. apply (Hok _ _ _ (nth_row_In rows r Hr) Hc).
Qed.
Lemma tri_unique b x x' : Zlen x = m -> Zlen x' = m -> solves zero one add mul rows d b (at_ x) -> solves zero one add mul rows d b (at_ x') -> x = x'.
Proof.
  intros L L' H H'. apply list_ext; [lia|]. intros i Hi. rewrite !(get_at zero) by lia. f_equal. apply (solves_unique zero one add mul sub opp RT fwd rows d id b (at_ x) (at_ x') HS Hd H H'). lia.
Qed.
(** The result does not depend on the contents of y and on the order of the entries. *)
Lemma tri_any asc b y : Zlen b = m -> Zlen y = m -> upd_all asc rows ids b (dirZ fwd 0 m) y = Some (tri b) /\ Zlen (tri b) = m /\ solves zero one add mul rows d (at_ b) (at_ (tri b)).
Proof.
  intros Lb Ly. destruct (tri_run true b b Lb Lb) as (f1 & E1 & L1 & S1). destruct (tri_run asc b y Lb Ly) as (f2 & E2 & L2 & S2). unfold tri. rewrite E1. rewrite (tri_unique _ f1 f2 L1 L2 S1 S2) at 1. auto.
Qed.
Lemma solveRef_ok base M b y : rep true base m rows M -> idiag M = Some ids -> Zlen b = m -> Zlen y = m -> solveRef add sub mul fwd M b y = Some (tri b).
Proof.
  intros HR Ei Lb Ly. unfold solveRef. rewrite (rep_base _ _ _ _ _ HR), Ei. pose proof HR as (_ & _ & _ & _ & ->). rewrite (ref_sweep_updates add sub mul Scaled fwd base m rows M ids b y).
  - exact (proj1 (tri_any true b y Lb Ly)).
  - exact HR.
  - exact Hok.
Qed.
End One.
End Ring.
