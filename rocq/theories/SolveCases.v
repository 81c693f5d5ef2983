(** * Triangular solves, Gauss-Seidel and ILU(0) with constructed schedules, in
    exact arithmetic: the theorems of Solve.v and IluExact.v for every execution,
    and worked cases. *)
From Coq Require Import Ring_theory Field_theory Permutation QArith Qcanon ZArithRing.
From Verif Require Import Base Interleave Spec Flat Csr CsrOps Fill SpMV P2P P2PProg Exec Kernels Ilu Levels LevelsCsr Tasks TaskGraph TaskGraphCsr Sched SchedCases Solve IluExact.
Open Scope Z_scope.

Lemma holds_len {V} (l : list V) n f : holds l n f -> n <= Zlen l.
Proof. intros H. destruct (Z_lt_le_dec 0 n) as [Hn|Hn]; [|pose proof (Zlen_nonneg l); lia]. specialize (H (n - 1) ltac:(lia)). apply get_Some_bounds in H. lia. Qed.
Lemma holds_id_len {V} k (l : list V) m f : holds_id k l m f -> needs_idiag k = true -> m <= Zlen l.
Proof. intros H Hk. exact (holds_len _ _ _ (H Hk)). Qed.

Section Ring.
Context {V : Type}.
Variables (zero one : V) (add mul sub : V -> V -> V) (opp : V -> V).
Variable RT : ring_theory zero one add mul sub opp (@eq V).
Notation rt := (row_times zero one add mul true).

(** What is to hold of the vector [fin] after a triangular solve started with [y]:
    (D + N) x = b, and nothing else is changed. *)
Definition solved (n : Z) (rows : rows_t V) (d b : Z -> V) (y fin : list V) : Prop :=
  Zlen fin = Zlen y /\ (forall c, ~ (0 <= c < Zlen rows) -> get fin c = get y c) /\ exists x, holds fin n x /\ solves zero one add mul rows d b x.
(** After a sweep of Gauss-Seidel started with x0: equation r holds with the new
    values of the unknowns up to r and the old ones of the others; and a solution
    is not changed. *)
Definition swept (fwd : bool) (n : Z) (rows : rows_t V) (b x0 : Z -> V) (y fin : list V) : Prop :=
  Zlen fin = Zlen y /\ (forall c, ~ (0 <= c < Zlen rows) -> get fin c = get y c) /\ exists x, holds fin n x /\
    (forall r, 0 <= r < Zlen rows -> rt (nthl rows r) (fun c => if (c =? r) || earlier fwd (Zlen rows) r c then x c else x0 c) = b r) /\
    ((forall r, 0 <= r < Zlen rows -> rt (nthl rows r) x0 = b r) -> forall c, x c = x0 c).

Section Seq.
Variables (base n : Z) (rows : rows_t V) (A : csr V).
Hypothesis HR : rep true base n rows A.
Hypothesis Hok : rows_ok n rows.
Hypothesis Hn : Zlen rows <= n.
Variables (k : ending) (idiag b y : list V) (id bf x0 : Z -> V).
Hypothesis Hb : holds b (Zlen rows) bf.
Hypothesis Hid : holds_id k idiag (Zlen rows) id.
Hypothesis Hy : holds y n x0.
Variable fwd : bool.

Lemma solve_seq d asc : k <> AddScaled -> strictly fwd rows -> (forall r, 0 <= r < Zlen rows -> match k with Plain => d r = one | _ => mul (d r) (id r) = one end) ->
  exists fin, updates add sub mul k asc rows idiag b (dirZ fwd 0 (Zlen rows)) y = Some fin /\ solved n rows d bf y fin.
Proof.
  intros Hk HS Hd. destruct (solve_value zero one add mul sub opp RT k asc n rows idiag b id bf Hok Hn Hb Hid fwd d y x0 Hk HS Hd Hy) as (fin & x & E & L & Hf & Ho & Hx).
  exists fin. split; auto. split; auto. split; eauto.
Qed.
Theorem solve_ref d : k <> AddScaled -> strictly fwd rows -> (forall r, 0 <= r < Zlen rows -> match k with Plain => d r = one | _ => mul (d r) (id r) = one end) ->
  exists fin, ref_sweep add sub mul k fwd A base (values_of rows) idiag b y = Some fin /\ solved n rows d bf y fin.
Proof. intros Hk HS Hd. destruct (solve_seq d true Hk HS Hd) as (fin & E & H). exists fin. split; auto. rewrite (ref_sweep_updates add sub mul k fwd base n rows A idiag b y HR Hok). exact E. Qed.
Lemma gs_seq asc : k = AddScaled -> (forall r, 0 <= r < Zlen rows -> mul (coefat zero add (nthl rows r) r) (id r) = one) ->
  exists fin, updates add sub mul k asc rows idiag b (dirZ fwd 0 (Zlen rows)) y = Some fin /\ swept fwd n rows bf x0 y fin.
Proof.
  intros Hk Hd. destruct (gs_value zero one add mul sub opp RT k asc n rows idiag b id bf Hok Hn Hb Hid fwd y x0 Hk Hd Hy) as (fin & x & E & L & Hf & Ho & Hx & Hx').
  exists fin. split; auto. split; auto. split; [|exists x; auto]. intros c Hc. now apply Ho.
Qed.
Theorem gs_ref : k = AddScaled -> (forall r, 0 <= r < Zlen rows -> mul (coefat zero add (nthl rows r) r) (id r) = one) ->
  exists fin, ref_sweep add sub mul k fwd A base (values_of rows) idiag b y = Some fin /\ swept fwd n rows bf x0 y fin.
Proof. intros Hk Hd. destruct (gs_seq true Hk Hd) as (fin & E & H). exists fin. split; auto. rewrite (ref_sweep_updates add sub mul k fwd base n rows A idiag b y HR Hok). exact E. Qed.

(** Every execution with a schedule constructed for a matrix with at least the pattern. *)
Context {W : Type}.
Variables (hasv : bool) (base' n' : Z) (rows' lrows : rows_t W) (A' : csr W) (dp : list Z).
Hypothesis HM : sched_matrix hasv base' n' rows' lrows A' dp.
Hypothesis Hsub : sub_pattern rows rows'.
Variables (T : Z) (agg : bool) (cost : Z -> Z).
Lemma rows_len : Zlen rows = Zlen rows'.
Proof. apply Hsub. Qed.
Definition by_p2p asc S t2o (P : list V -> Prop) : Prop := exists fin, p2p_computes (rexec add sub mul k A base (values_of rows) idiag b) None (rops asc A) fwd S (get t2o) T y fin /\ P fin.
Definition by_barrier asc S t2o (P : list V -> Prop) : Prop := exists fin, barrier_computes (rexec add sub mul k A base (values_of rows) idiag b) None (rops asc A) fwd S (get t2o) T y fin /\ P fin.
Lemma sweep_p2p_value asc w tr S o2t t2o (P : list V -> Prop) : sched_args (Zlen rows') T cost w -> constructTaskGraph (graph_of A' base' dp) T false agg tr cost w = Some (S, o2t, t2o) ->
  (exists fin, updates add sub mul k asc rows idiag b (dirZ fwd 0 (Zlen rows)) y = Some fin /\ P fin) -> by_p2p asc S t2o P.
Proof.
  pose proof rows_len as RL. intros HA E (fin & E1 & HP).
  destruct (sched_sweep_p2p hasv base' n' rows' lrows A' dp HM T agg cost base n rows A HR Hok Hsub ltac:(lia) add sub mul k idiag b y (holds_len _ _ _ Hy) ltac:(rewrite <- RL; exact (holds_len _ _ _ Hb)) ltac:(rewrite <- RL; exact (holds_id_len _ _ _ _ Hid)) w tr S o2t t2o fwd asc HA E) as (fin' & E2 & C).
  rewrite RL in E1. rewrite E2 in E1. injection E1 as ->. exists fin; auto.
Qed.
Lemma sweep_barrier_value asc w thb tb S o2t t2o (P : list V -> Prop) : sched_args (Zlen rows') T cost w -> world_tasks (graph_of A' base' dp) T true agg cost w = Some (thb, tb, o2t, t2o) -> has_tasks S T thb tb ->
  (exists fin, updates add sub mul k asc rows idiag b (dirZ fwd 0 (Zlen rows)) y = Some fin /\ P fin) -> by_barrier asc S t2o P.
Proof.
  pose proof rows_len as RL. intros HA E HS (fin & E1 & HP).
  destruct (sched_sweep_barrier hasv base' n' rows' lrows A' dp HM T agg cost base n rows A HR Hok Hsub ltac:(lia) add sub mul k idiag b y (holds_len _ _ _ Hy) ltac:(rewrite <- RL; exact (holds_len _ _ _ Hb)) ltac:(rewrite <- RL; exact (holds_id_len _ _ _ _ Hid)) w thb tb S o2t t2o fwd asc HA E HS) as (fin' & E2 & C).
  rewrite RL in E1. rewrite E2 in E1. injection E1 as ->. exists fin; auto.
Qed.
Theorem solve_par d : k <> AddScaled -> strictly fwd rows -> (forall r, 0 <= r < Zlen rows -> match k with Plain => d r = one | _ => mul (d r) (id r) = one end) ->
  (forall asc w tr S o2t t2o, sched_args (Zlen rows') T cost w -> constructTaskGraph (graph_of A' base' dp) T false agg tr cost w = Some (S, o2t, t2o) -> by_p2p asc S t2o (solved n rows d bf y)) /\
  (forall asc w thb tb S o2t t2o, sched_args (Zlen rows') T cost w -> world_tasks (graph_of A' base' dp) T true agg cost w = Some (thb, tb, o2t, t2o) -> has_tasks S T thb tb -> by_barrier asc S t2o (solved n rows d bf y)).
Proof. intros Hk HS Hd. split; intros; [eapply sweep_p2p_value|eapply sweep_barrier_value]; eauto using solve_seq. Qed.
Theorem gs_par : k = AddScaled -> (forall r, 0 <= r < Zlen rows -> mul (coefat zero add (nthl rows r) r) (id r) = one) ->
  (forall asc w tr S o2t t2o, sched_args (Zlen rows') T cost w -> constructTaskGraph (graph_of A' base' dp) T false agg tr cost w = Some (S, o2t, t2o) -> by_p2p asc S t2o (swept fwd n rows bf x0 y)) /\
  (forall asc w thb tb S o2t t2o, sched_args (Zlen rows') T cost w -> world_tasks (graph_of A' base' dp) T true agg cost w = Some (thb, tb, o2t, t2o) -> has_tasks S T thb tb -> by_barrier asc S t2o (swept fwd n rows bf x0 y)).
Proof. intros Hk Hd. split; intros; [eapply sweep_p2p_value|eapply sweep_barrier_value]; eauto using gs_seq. Qed.
End Seq.
End Ring.

Section Field.
Context {V : Type}.
Variables (zero one : V) (add mul sub : V -> V -> V) (opp : V -> V) (div : V -> V -> V) (inv : V -> V).
Variable FT : field_theory zero one add mul sub opp div inv (@eq V).
Variables (base n : Z) (rows lrows : rows_t V) (A : csr V) (dp : list Z).
Hypothesis HM : sched_matrix true base n rows lrows A dp.
Hypothesis Hok : rows_ok n rows.
Hypothesis Hsort : sorted_rows rows.
Variables (T : Z) (agg : bool) (cost : Z -> Z).
(** The matrix with the structure of A and the values [fin] (pcg.cpp:496, 580). *)
Definition with_values {X} (M : csr X) (fin : list X) : csr X := mkCSR (cm M) (cn M) (rowptr M) (colidx M) (Some fin) None None None None.
Definition pivots_ok (lu : rows_t V) : Prop := forall r, 0 <= r < Zlen lu -> upper_at zero add lu r r <> zero.
Theorem ilu_exact w tr S o2t t2o : sched_args (Zlen rows) T cost w -> constructTaskGraph (graph_of A base dp) T false agg tr cost w = Some (S, o2t, t2o) ->
  exists fin lu, rep true base n lu (with_values A fin) /\ map (map fst) lu = map (map fst) rows /\
    (base = 0 -> forall lu0, Zlen lu0 = off (nthl rows) (Zlen rows) -> ilu0_ref sub mul div A dp lu0 = Some fin) /\
    (forall sch lu0, Zlen lu0 = off (nthl rows) (Zlen rows) -> ilu_copy A sch lu0 = Some (values_of rows)) /\
    p2p_computes (lexec sub mul div) None (ilu_ops A base dp) true S (get t2o) T (values_of rows) fin /\
    (pivots_ok lu -> factors zero one add mul rows lu /\ forall lu', factors zero one add mul rows lu' -> lu' = lu).
Proof.
  intros HA E. pose proof (sm_rep _ _ _ _ _ _ _ HM) as HR. pose proof (diagptr_of base n rows lrows A dp HM Hok sub mul div cost) as Hdp.
  destruct (ilu_factors zero one add mul sub opp div inv FT base n rows A dp HR Hdp Hsort) as (fin & lu & E1 & R & P & F).
  assert (L : Zlen lu = Zlen rows). { apply (f_equal (fun l => Zlen l)) in P. now rewrite !Zlen_map in P. }
  set (junk := values_of rows).
  assert (LJ : Zlen junk = off (nthl rows) (Zlen rows)) by apply Zlen_values_of.
  exists fin, lu. split; auto. split; auto.
  split. { intros E0 lu0 HL. destruct (sched_ilu base n rows lrows A dp HM Hok sub mul div T agg cost w tr S o2t t2o [] lu0 HA E HL) as (fin' & E2 & _ & E4 & _). rewrite (E4 E0 lu0 HL). congruence. }
  split. { intros sch lu0 HL. destruct (sched_ilu base n rows lrows A dp HM Hok sub mul div T agg cost w tr S o2t t2o sch lu0 HA E HL) as (fin' & _ & E3 & _). exact E3. }
  split. { destruct (sched_ilu base n rows lrows A dp HM Hok sub mul div T agg cost w tr S o2t t2o [] junk HA E LJ) as (fin' & E2 & _ & _ & E4). rewrite E1 in E2. injection E2 as ->. exact E4. }
  intros Hp. unfold pivots_ok in Hp. rewrite L in Hp. specialize (F Hp). split; auto. intros lu' F'. symmetry. eapply (factors_unique zero one add mul sub opp div inv FT base n rows A dp HR Hdp Hsort); eauto.
Qed.
End Field.

(** ** Worked cases *)
Definition qz (z : Z) : Qc := Q2Qc (inject_Z z).
Definition tri_q : rows_t Qc := map (map (fun e => (fst e, qz (snd e)))) tri_rows.
Definition tri_qA (base : Z) : csr Qc := csr_of base 6 tri_q.
Lemma tri_q_ok : rows_ok 6 tri_q.
Proof. intros r c v Hr Hc. unfold tri_q in Hr. apply in_map_iff in Hr as (r' & <- & Hr). apply in_map_iff in Hc as ((c', v') & E & Hc). injection E as <- _. exact (tri_ok r' c' v' Hr Hc). Qed.
Lemma tri_q_sched base : sched_matrix true base 6 tri_q tri_q (tri_qA base) (dp_of base tri_q).
Proof. apply csr_of_sched; [vm_compute; reflexivity|exact tri_q_ok]. Qed.
Lemma tri_q_sorted : sorted_rows tri_q.
Proof.
  intros r Hr. change (Zlen tri_q) with 6 in Hr. assert (r = 0 \/ r = 1 \/ r = 2 \/ r = 3 \/ r = 4 \/ r = 5) as [-> | [-> | [-> | [-> | [-> | ->]]]]] by lia;
    match goal with |- ssortedZ ?l => let v := eval vm_compute in l in change (ssortedZ v) end; repeat constructor; lia.
Qed.
Definition tri_run_q : option (schedule * list Z * list Z) := constructTaskGraph (graph_of (tri_qA 0) 0 (dp_of 0 tri_q)) 2 false false true (fun _ => 1) tri_world.
Lemma tri_run_q_ok : tri_run_q = Some (mkSched 6 [0; 1; 2; 3; 4; 5; 6] [0; 3; 6] [0; 1; 1; 0; 1; 1] [1; 1; 0; 1; 1; 0] [[]; [3]; [4]; []; [0]; [1]] [[4]; [5]; []; [1]; [2]; []], [0; 3; 1; 4; 2; 5], [0; 2; 4; 1; 3; 5]).
Proof. vm_compute. reflexivity. Qed.
Lemma tri_run_q_some : tri_run_q <> None.
Proof. rewrite tri_run_q_ok. discriminate. Qed.
(** The rows of tri_q with the values [fin]. *)
Definition tri_lu (fin : list Qc) : rows_t Qc := map (fun r => combine (map fst (nthl tri_q r)) (slice fin (off (nthl tri_q) r) (off (nthl tri_q) (r + 1)))) (zrange 0 6).
Definition tri_fin : list Qc := match ilu0_ref Qcminus Qcmult Qcdiv (tri_qA 0) (dp_of 0 tri_q) (map (fun _ => qz 77) (zrange 0 30)) with Some l => l | None => [] end.
Lemma tri_fin_run : ilu0_ref Qcminus Qcmult Qcdiv (tri_qA 0) (dp_of 0 tri_q) (map (fun _ => qz 77) (zrange 0 30)) = Some tri_fin /\ Zlen tri_fin = 30.
Proof. unfold tri_fin. destruct (ilu0_ref _ _ _ _ _ _) eqn:E; vm_compute in E; [|discriminate]. split; auto. injection E as <-. reflexivity. Qed.
(** The factors; the pivots; an entry of the product where the matrix has none. *)
Lemma tri_factors : map this tri_fin = [9; 3; 4; 5; 6; 9; 4; 5; 6; 7; 1 # 3; 4 # 9; 56 # 9; 8 # 3; 26 # 9; 4 # 9; 5 # 9; 40 # 9; 22 # 9; 22 # 9; 5 # 9; 2 # 3; 3 # 7; 11 # 20; -167 # 630; 2 # 3; 7 # 9; 13 # 28; 11 # 20; -986 # 315]%Q /\
  map (map fst) (tri_lu tri_fin) = map (map fst) tri_q /\ pivots_ok (qz 0) Qcplus (tri_lu tri_fin) /\ this (product_at (qz 0) (qz 1) Qcplus Qcmult (tri_lu tri_fin) 2 3) = (32 # 9)%Q /\ ~ entry tri_q 2 3.
Proof.
  split; [vm_compute; reflexivity|]. split; [vm_compute; reflexivity|]. split; [|split; [vm_compute; reflexivity|]].
  - intros r Hr E. change (Zlen (tri_lu tri_fin)) with 6 in Hr. apply (f_equal this) in E. assert (r = 0 \/ r = 1 \/ r = 2 \/ r = 3 \/ r = 4 \/ r = 5) as [-> | [-> | [-> | [-> | [-> | ->]]]]] by lia; vm_compute in E; discriminate.
  - intros (v & Hv). apply (in_map fst) in Hv. vm_compute in Hv. repeat (destruct Hv as [Hv|Hv]; [discriminate|]). exact Hv.
Qed.

(** A triangular system with the diagonal 1, -1, 1, -1, 1, -1. *)
Definition alt (r : Z) : Z := if Z.even r then 1 else -1.
Lemma Zring : ring_theory 0 1 Z.add Z.mul Z.sub Z.opp (@eq Z).
Proof. exact Zth. Qed.
Lemma tri_strict fwd : strictly fwd (tri_part fwd).
Proof.
  intros r c v Hv. destruct (get (tri_part fwd) r) as [row|] eqn:G; [|unfold nthl in Hv; rewrite G in Hv; destruct Hv]. pose proof (get_Some_bounds _ _ _ G) as B. change (Zlen (tri_part fwd)) with 6 in B |- *.
  pose proof (proj1 (proj2 (tri_part_sub fwd)) _ c v (nth_row_In (tri_part fwd) r B) Hv). unfold tri_part, nthl in Hv. rewrite get_map, get_zrange in Hv by lia. cbn [option_map] in Hv. apply filter_In in Hv as (_ & Hv). cbn [fst] in Hv. unfold earlier. destruct fwd; lia.
Qed.
Lemma tri_solve_case : rows_ok 6 (tri_part true) /\ strictly true (tri_part true) /\ holds bvec 6 (fun i => i + 1) /\ holds (map alt (zrange 0 6)) 6 alt /\ (forall r, 0 <= r < 6 -> alt r * alt r = 1) /\
  ref_sweep Z.add Z.sub Z.mul Scaled true (csr_of 0 6 (tri_part true)) 0 (values_of (tri_part true)) (map alt (zrange 0 6)) bvec [7; 7; 7; 7; 7; 7] = Some [1; -2; 8; -10; 36; -40] /\
  solved 0 1 Z.add Z.mul 6 (tri_part true) alt (fun i => i + 1) [7; 7; 7; 7; 7; 7] [1; -2; 8; -10; 36; -40].
Proof.
  split; [apply tri_part_sub|]. split; [apply tri_strict|].
  assert (Hb : holds bvec 6 (fun i => i + 1)). { intros i Hi. assert (i = 0 \/ i = 1 \/ i = 2 \/ i = 3 \/ i = 4 \/ i = 5) as [-> | [-> | [-> | [-> | [-> | ->]]]]] by lia; reflexivity. }
  assert (Hd : holds (map alt (zrange 0 6)) 6 alt). { intros i Hi. rewrite get_map, get_zrange by lia. reflexivity. }
  assert (H1 : forall r, 0 <= r < 6 -> alt r * alt r = 1) by (intros; unfold alt; destruct (Z.even r); reflexivity).
  assert (E : ref_sweep Z.add Z.sub Z.mul Scaled true (csr_of 0 6 (tri_part true)) 0 (values_of (tri_part true)) (map alt (zrange 0 6)) bvec [7; 7; 7; 7; 7; 7] = Some [1; -2; 8; -10; 36; -40]) by (vm_compute; reflexivity).
  split; auto. split; auto. split; auto. split; auto.
  destruct (solve_ref 0 1 Z.add Z.mul Z.sub Z.opp Zring 0 6 (tri_part true) (csr_of 0 6 (tri_part true)) ltac:(apply tri_part_sub) ltac:(apply tri_part_sub) ltac:(vm_compute; discriminate) Scaled (map alt (zrange 0 6)) bvec [7; 7; 7; 7; 7; 7] alt (fun i => i + 1) (fun _ => 7)) with (fwd := true) (d := alt) as (fin & E' & H); auto.
  { intros _. exact Hd. }
  { intros i Hi. assert (i = 0 \/ i = 1 \/ i = 2 \/ i = 3 \/ i = 4 \/ i = 5) as [-> | [-> | [-> | [-> | [-> | ->]]]]] by lia; reflexivity. }
  { discriminate. } { apply tri_strict. }
  rewrite E in E'. injection E' as <-. exact H.
Qed.
(** Gauss-Seidel on a matrix with that diagonal, backwards. *)
Definition alt_rows : rows_t Z := map (fun i => map (fun j => (j, if j =? i then alt i else 1 + i + j)) (filter (fun j => (j =? i) || negb (j / 2 =? i / 2)) (zrange 0 6))) (zrange 0 6).
Lemma alt_ok : rows_ok 6 alt_rows.
Proof. intros r c v Hr Hc. unfold alt_rows in Hr. apply in_map_iff in Hr as (i & <- & Hi). apply in_map_iff in Hc as (j & E & Hj). injection E as <- _. apply filter_In in Hj as (Hj & _). now apply In_zrange in Hj. Qed.
Lemma alt_gs_case : rows_ok 6 alt_rows /\ (forall r, 0 <= r < 6 -> coefat 0 Z.add (nthl alt_rows r) r * alt r = 1) /\
  ref_sweep Z.add Z.sub Z.mul AddScaled false (csr_of 0 6 alt_rows) 0 (values_of alt_rows) (map alt (zrange 0 6)) bvec [1; 1; 1; 1; 1; 1] = Some [-103; 109; -49; 53; -21; 24] /\
  swept 0 1 Z.add Z.mul false 6 alt_rows (fun i => i + 1) (fun _ => 1) [1; 1; 1; 1; 1; 1] [-103; 109; -49; 53; -21; 24].
Proof.
  split; [exact alt_ok|].
  assert (Hb : holds bvec 6 (fun i => i + 1)). { intros i Hi. assert (i = 0 \/ i = 1 \/ i = 2 \/ i = 3 \/ i = 4 \/ i = 5) as [-> | [-> | [-> | [-> | [-> | ->]]]]] by lia; reflexivity. }
  assert (Hd : holds (map alt (zrange 0 6)) 6 alt). { intros i Hi. rewrite get_map, get_zrange by lia. reflexivity. }
  assert (H1 : forall r, 0 <= r < 6 -> coefat 0 Z.add (nthl alt_rows r) r * alt r = 1). { intros i Hi. assert (i = 0 \/ i = 1 \/ i = 2 \/ i = 3 \/ i = 4 \/ i = 5) as [-> | [-> | [-> | [-> | [-> | ->]]]]] by lia; reflexivity. }
  assert (E : ref_sweep Z.add Z.sub Z.mul AddScaled false (csr_of 0 6 alt_rows) 0 (values_of alt_rows) (map alt (zrange 0 6)) bvec [1; 1; 1; 1; 1; 1] = Some [-103; 109; -49; 53; -21; 24]) by (vm_compute; reflexivity).
  split; auto. split; auto.
  destruct (gs_ref 0 1 Z.add Z.mul Z.sub Z.opp Zring 0 6 alt_rows (csr_of 0 6 alt_rows) (csr_of_rep _ _ _) alt_ok ltac:(vm_compute; discriminate) AddScaled (map alt (zrange 0 6)) bvec [1; 1; 1; 1; 1; 1] alt (fun i => i + 1) (fun _ => 1)) with (fwd := false) as (fin & E' & H); auto.
  { intros _. exact Hd. }
  { intros i Hi. assert (i = 0 \/ i = 1 \/ i = 2 \/ i = 3 \/ i = 4 \/ i = 5) as [-> | [-> | [-> | [-> | [-> | ->]]]]] by lia; reflexivity. }
  rewrite E in E'. injection E' as <-. exact H.
Qed.

(** With the columns of a row not in ascending order the merge of two rows misses
    common columns. *)
Definition uns_q : rows_t Qc := map (map (fun e => (fst e, qz (snd e)))) [[(0, 2); (2, 1); (1, 1)]; [(0, 1); (1, 2); (2, 1)]; [(0, 1); (1, 1); (2, 2)]].
Definition uns_fin : list Qc := match ilu0_ref Qcminus Qcmult Qcdiv (csr_of 0 3 uns_q) (dp_of 0 uns_q) (map (fun _ => qz 77) (zrange 0 9)) with Some l => l | None => [] end.
Definition uns_lu : rows_t Qc := map (fun r => combine (map fst (nthl uns_q r)) (slice uns_fin (3 * r) (3 * r + 3))) (zrange 0 3).
Theorem ilu_unsorted_refuted : exists (rows : rows_t Qc) A dp lu0 fin lu, sched_matrix true 0 (Zlen rows) rows rows A dp /\ rows_ok (Zlen rows) rows /\ Zlen lu0 = off (nthl rows) (Zlen rows) /\ ilu0_ref Qcminus Qcmult Qcdiv A dp lu0 = Some fin /\
  rep true 0 (Zlen rows) lu (with_values A fin) /\ map (map fst) lu = map (map fst) rows /\ pivots_ok (qz 0) Qcplus lu /\ ~ factors (qz 0) (qz 1) Qcplus Qcmult rows lu.
Proof.
  assert (Hok : rows_ok 3 uns_q). { intros r c v [<-|[<-|[<-|[]]]] [E|[E|[E|[]]]]; injection E as <- _; lia. }
  exists uns_q, (csr_of 0 3 uns_q), (dp_of 0 uns_q), (map (fun _ => qz 77) (zrange 0 9)), uns_fin, uns_lu. change (Zlen uns_q) with 3.
  assert (HS : sym_pattern uns_q).
  { constructor; change (Zlen uns_q) with 3.
    - intros i Hi. assert (i = 0 \/ i = 1 \/ i = 2) as [-> | [-> | ->]] by lia.
      + exists [], (qz 2), [(2, qz 1); (1, qz 1)]. split; [reflexivity|]. split; [intros c v []|]. split; [intros c v [E|[E|[]]]; injection E as <- _; lia|]. change (NoDup [0; 2; 1]). repeat constructor; cbn; lia.
      + exists [(0, qz 1)], (qz 2), [(2, qz 1)]. split; [reflexivity|]. split; [intros c v [E|[]]; injection E as <- _; lia|]. split; [intros c v [E|[]]; injection E as <- _; lia|]. change (NoDup [0; 1; 2]). repeat constructor; cbn; lia.
      + exists [(0, qz 1); (1, qz 1)], (qz 2), []. split; [reflexivity|]. split; [intros c v [E|[E|[]]]; injection E as <- _; lia|]. split; [intros c v []|]. change (NoDup [0; 1; 2]). repeat constructor; cbn; lia.
    - assert (F : forall i j, 0 <= i < 3 -> 0 <= j < 3 -> entry uns_q i j); [|auto]. intros i j Hi Hj. assert (i = 0 \/ i = 1 \/ i = 2) as [-> | [-> | ->]] by lia; assert (j = 0 \/ j = 1 \/ j = 2) as [-> | [-> | ->]] by lia; first [exists (qz 2); vm_compute; tauto|exists (qz 1); vm_compute; tauto]. }
  split. { constructor; auto using csr_of_rep, csr_of_local, halo_none, dp_of_ok. } split; [exact Hok|]. split; [vm_compute; reflexivity|].
  split. { unfold uns_fin. destruct (ilu0_ref _ _ _ _ _ _) eqn:E; [reflexivity|]. vm_compute in E. discriminate. }
  split. { split; [reflexivity|]. split; [reflexivity|]. split; [vm_compute; reflexivity|]. split; [vm_compute; reflexivity|]. reflexivity. }
  split; [vm_compute; reflexivity|].
  split. { intros r Hr E. change (Zlen uns_lu) with 3 in Hr. apply (f_equal this) in E. assert (r = 0 \/ r = 1 \/ r = 2) as [-> | [-> | ->]] by lia; vm_compute in E; discriminate. }
  intros (_ & F). specialize (F 1 1 (qz 2) ltac:(vm_compute; auto; split; [discriminate|reflexivity])). specialize (F ltac:(vm_compute; auto)). apply (f_equal this) in F. vm_compute in F. discriminate.
Qed.
