(** * The symmetric Gauss-Seidel pair with the fused solve, in exact arithmetic
    (test/gs_test.cpp:570, 608-609, 731-762): the same vectors as the two
    reference sweeps. *)
From Coq Require Import Ring_theory Ring Permutation.
From Verif Require Import Base Interleave Spec PermUtils Flat Csr Transpose CsrTools CsrOps Sort RowPar Fill Permute PermuteMain PermuteFacts SpMV SplitLU P2P P2PProg Exec Kernels Levels LevelsCsr Tasks TaskGraph TaskGraphCsr Sched SchedPerm Solve SolveCases Pcg PcgMain Sgs.
Set Warnings "-ambiguous-paths".
Open Scope Z_scope.

Section Ring.
Context {V : Type}.
Variables (zero one : V) (add mul sub : V -> V -> V) (opp : V -> V).
Variable RT : ring_theory zero one add mul sub opp (@eq V).
Add Ring Vring4 : RT.
Notation rt := (row_times zero one add mul true).

Definition at0 (l : list V) (i : Z) : V := match get l i with Some v => v | None => zero end.
Lemma holds_at0 l n : n <= Zlen l -> holds l n (at0 l).
Proof. intros H i Hi. unfold at0. destruct (get_in_range l i) as (v & E); [lia|]. now rewrite E. Qed.
Lemma rt_diag row r x : rt (filter (fun e => fst e =? r) row) x = mul (coefat zero add row r) (x r).
Proof.
  unfold coefat. induction row as [|(c, v) row IH]; cbn [filter fst map fold_right]; [rewrite rt_nil; ring|]. destruct (Z.eqb_spec c r) as [->|N]; auto.
  rewrite rt_cons, IH. cbn [map fold_right fst snd]. ring.
Qed.
Lemma rt_parts row r x : rt row x = add (add (rt (filter (fun e => lower r (fst e)) row) x) (mul (coefat zero add row r) (x r))) (rt (filter (fun e => upper r (fst e)) row) x).
Proof. rewrite (rt_perm zero one add mul sub opp RT _ _ x (row_parts r row)), !(rt_app zero one add mul sub opp RT), rt_diag. ring. Qed.
Lemma dot_rt x xf n row : (forall c v, In (c, v) row -> 0 <= c < n) -> holds x n xf -> dot zero add mul x row = Some (rt row xf).
Proof.
  intros HC Hx. unfold dot. assert (G : forall s, foldM (fun e s => u <- get x (fst e) ;; Some (add s (mul (snd e) u))) row s = Some (add s (rt row xf))).
  { induction row as [|(c, v) row IH]; intros s; cbn [foldM]; [rewrite rt_nil; f_equal; ring|]. cbn [fst snd]. rewrite (Hx c) by (apply (HC c v); cbn; auto).
    rewrite IH by (intros c' v' Hi; apply (HC c' v'); cbn; auto). f_equal. rewrite rt_cons. cbn [fst snd]. ring. }
  rewrite G. f_equal. ring.
Qed.
(** The sum over a moved row. *)
Lemma rt_moved m o2t t2o (rows rows' : rows_t V) n xf xf' i r : Zlen rows = m -> rows_ok n rows -> Permutation t2o (zrange 0 m) -> Zlen o2t = m -> (forall p i, get t2o p = Some i -> get o2t i = Some p) ->
  moved_rows sub o2t t2o rows rows' -> (forall p c, get t2o p = Some c -> xf' p = xf c) -> n <= m -> get t2o i = Some r -> rt (nthl rows' i) xf' = rt (nthl rows r) xf.
Proof.
  intros L Hok P1 P2 P3 MR HX Hn E. destruct (t2o_range m o2t t2o P1 P3 _ _ E) as (_ & Br).
  assert (G : rt (rename o2t (nthl rows r)) xf' = rt (nthl rows r) xf).
  { assert (HC : forall c v, In (c, v) (nthl rows r) -> 0 <= c < m). { intros c v He. pose proof (Hok _ _ _ (nth_row_In rows r ltac:(lia)) He). lia. }
    revert HC. generalize (nthl rows r). intros row. unfold rename. induction row as [|(c, v) row IH]; intros HC; [reflexivity|]. cbn [map]. rewrite !rt_cons. cbn [fst snd]. rewrite IH by (intros c' v' Hi; apply (HC c' v'); cbn; auto).
    f_equal. f_equal. pose proof (HC c v ltac:(cbn; auto)) as Hc. destruct (col_cases m o2t t2o P1 P2 P3 c ltac:(lia)) as [(A & _)|(_ & _ & Gc)]; [lia|]. auto. }
  destruct (proj2 MR i r E) as [->|(_ & Pm)]; auto. rewrite (rt_perm zero one add mul sub opp RT _ _ _ Pm). exact G.
Qed.

(** ** A sweep of Gauss-Seidel is a triangular solve *)
Section Split.
Variables (rows : rows_t V) (ids b tmp y : list V) (id bf x0 : Z -> V).
Notation m := (Zlen rows).
Hypothesis Hok : rows_ok m rows.
Hypothesis Hb : holds b m bf.
Hypothesis Hid : holds ids m id.
Hypothesis Hy : holds y m x0.
Hypothesis Hd : forall r, 0 <= r < m -> mul (coefat zero add (nthl rows r) r) (id r) = one.
Variable fwd : bool.
Definition near := if fwd then lower else upper.
Definition far := if fwd then upper else lower.
Hypothesis Ht : holds tmp m (fun r => sub (bf r) (rt (nthl (select far rows) r) x0)).
Lemma gs_is_solve asc asc' :
  exists fin, updates add sub mul Scaled asc (select near rows) ids tmp (dirZ fwd 0 m) y = Some fin /\
    updates add sub mul AddScaled asc' rows ids b (dirZ fwd 0 m) y = Some fin.
Proof.
  pose proof (Zlen_select near rows) as LS.
  destruct (sweep_value zero one add mul sub opp RT Scaled asc m (select near rows) ids tmp id (fun r => sub (bf r) (rt (nthl (select far rows) r) x0)) (rows_ok_select _ _ _ Hok) ltac:(lia) ltac:(rewrite LS; exact Ht) ltac:(intros _; rewrite LS; exact Hid) fwd y x0 Hy)
    as (f1 & x1 & E1 & L1 & H1 & O1 & V1).
  destruct (sweep_value zero one add mul sub opp RT AddScaled asc' m rows ids b id bf Hok ltac:(lia) Hb (fun _ => Hid) fwd y x0 Hy) as (f2 & x2 & E2 & L2 & H2 & O2 & V2).
  rewrite LS in *. cbn [new_value] in V1, V2.
  assert (G : forall j, 0 <= j -> forall r, 0 <= r < m -> (if fwd then r else m - 1 - r) = j -> x1 r = x2 r).
  { intros j Hj. pattern j. revert j Hj. apply Zlt_0_ind. intros j IH Hj r Hr Er. rewrite (V1 r Hr), (V2 r Hr). rewrite !nthl_select by lia. set (row := nthl rows r).
    assert (N1 : rt (filter (fun e => near r (fst e)) row) (fun c => if earlier fwd m r c then x1 c else x0 c) = rt (filter (fun e => near r (fst e)) row) (fun c => if earlier fwd m r c then x2 c else x0 c)).
    { apply rt_ext. intros c v _. destruct (earlier fwd m r c) eqn:Ee; auto. unfold earlier in Ee. destruct fwd; [apply (IH c)|apply (IH (m - 1 - c))]; lia. }
    rewrite N1. rewrite (rt_parts row r (fun c => if earlier fwd m r c then x2 c else x0 c)).
    assert (Ed : (fun c => if earlier fwd m r c then x2 c else x0 c) r = x0 r). { cbv beta. unfold earlier. destruct fwd; [replace ((0 <=? r) && (r <? r)) with false by lia|replace ((r <? r) && (r <? m)) with false by lia]; auto. }
    cbv beta in Ed. rewrite Ed. specialize (Hd r Hr). fold row in Hd. set (d := coefat zero add row r) in *. 
    assert (F1 : rt (filter (fun e => far r (fst e)) row) (fun c => if earlier fwd m r c then x2 c else x0 c) = rt (filter (fun e => far r (fst e)) row) x0).
    { apply rt_ext. intros c v Hc. apply filter_In in Hc as (Hc & Hf). cbn [fst] in Hf. replace (earlier fwd m r c) with false; auto. unfold far, lower, upper, earlier in *. destruct fwd; lia. }
    assert (AD : forall p q, add (x0 r) (mul (sub (bf r) (add (add p (mul d (x0 r))) q)) (id r)) = mul (sub (sub (bf r) q) p) (id r)).
    { intros p q. replace (add (x0 r) (mul (sub (bf r) (add (add p (mul d (x0 r))) q)) (id r))) with (add (sub (x0 r) (mul (mul d (id r)) (x0 r))) (mul (sub (sub (bf r) q) p) (id r))) by ring. rewrite Hd. ring. }
    unfold near, far in *. destruct fwd; cbv beta iota in *.
    - rewrite F1, AD. reflexivity.
    - rewrite F1. set (u := rt (filter (fun e => upper r (fst e)) row) _). set (l := rt (filter (fun e => lower r (fst e)) row) x0).
      rewrite <- (AD u l). f_equal. f_equal. f_equal. ring. }
  assert (f1 = f2). { apply list_ext; [lia|]. intros c Hc. destruct (Z_lt_le_dec c m) as [Hm|Hm].
    - rewrite (H1 c), (H2 c) by lia. f_equal. apply (G (if fwd then c else m - 1 - c)); auto; destruct fwd; lia.
    - rewrite (proj1 (O1 c ltac:(lia))), (proj1 (O2 c ltac:(lia))). reflexivity. }
  subst f2. exists f1. auto.
Qed.
End Split.

(** ** The whole pair on the permuted parts *)
Section Pair.
Variables (is0 is1 ism1 : V -> bool).
Hypothesis H0 : forall a, is0 a = true -> a = zero.
Hypothesis H1 : forall a, is1 a = true -> a = one.
Hypothesis Hm1 : forall a, ism1 a = true -> a = opp one.
Variables (base : Z) (rows : rows_t V) (A : csr V) (dp : list Z).
Notation m := (Zlen rows).
Hypothesis HM : sched_matrix true base m rows rows A dp.
Hypothesis Hok : rows_ok m rows.
Variables (ids : list V).
Hypothesis Lid : Zlen ids = m.
Hypothesis Hd : forall r, 0 <= r < m -> mul (coefat zero add (nthl rows r) r) (at0 ids r) = one.
Variables (T : Z) (agg : bool) (cost : Z -> Z) (w : world) (tr : bool) (S : schedule) (o2t t2o : list Z).
Hypothesis HA : sched_args m T cost w.
Hypothesis HE : constructTaskGraph (graph_of A base dp) T false agg tr cost w = Some (S, o2t, t2o).
Variables (bl bu : Z) (lr' ur' : rows_t V) (L' U' : csr V) (ids' : list V).
Hypothesis HRl : rep true bl m lr' L'.
Hypothesis HBl : bl = 0.
Hypothesis MRl : moved_rows sub o2t t2o (select lower rows) lr'.
Hypothesis HRu : rep true bu m ur' U'.
Hypothesis Hoku : rows_ok m ur'.
Hypothesis MRu : moved_rows sub o2t t2o (select upper rows) ur'.
Hypothesis Mid : placed m t2o ids ids'.

(** gs_test.cpp:731-735, 758-760 *)
Theorem fused_pair b y x b' y' x' tmp sch junk : placed m t2o b b' -> placed m t2o y y' -> placed m t2o x x' -> Zlen tmp = m ->
  exists t' fy fy' t2' fx fx',
    multiplyWithVector zero add sub mul is0 is1 ism1 U' tmp (opp one) (Own y') one (Own b') zero T sch junk = Some t' /\
    p2p_computes (fexec zero add sub mul L' bl (values_of lr') ids' x' (Zlen y')) None (fops L') true S (fun i => Some i) T (y' ++ t') (fy' ++ t2') /\
    p2p_computes (rexec add sub mul Scaled U' bu (values_of ur') ids' t2') None (rops false U') false S (fun i => Some i) T x' fx' /\
    ref_sweep add sub mul AddScaled true A base (values_of rows) ids b y = Some fy /\ ref_sweep add sub mul AddScaled false A base (values_of rows) ids fy x = Some fx /\
    placed m t2o fy fy' /\ placed m t2o fx fx' /\ Zlen t2' = m.
Proof.
  intros Mb My Mx Lt. destruct (re_perms base rows A dp HM T agg cost w tr S o2t t2o HA HE) as (P1 & P2 & P3). pose proof (t2o_len m o2t t2o P1 P2) as LT.
  pose proof (sa_T _ _ _ _ HA) as HT. pose proof (Zlen_select lower rows) as LL. pose proof (Zlen_select upper rows) as LU.
  pose proof (proj1 MRl) as Ll'. pose proof (proj1 MRu) as Lu'. rewrite LL in Ll'. rewrite LU in Lu'.
  destruct Mb as (Lb & Lb' & Gb). destruct My as (Ly & Ly' & Gy). destruct Mx as (Lx & Lx' & Gx).
  assert (AT : forall l l', (forall i r, get t2o i = Some r -> get l' i = get l r) -> forall p c, get t2o p = Some c -> at0 l' p = at0 l c). { intros l l' G p c E. unfold at0. now rewrite (G _ _ E). }
  destruct (multiply_ring zero one add mul sub opp RT is0 is1 ism1 H0 H1 Hm1 true bu m ur' U' tmp (opp one) y' (at0 y') one (Own b') (at0 b') zero T sch junk HRu Hoku (holds_at0 y' m ltac:(lia)) ltac:(lia) (eq_ind_r (fun k => holds b' k (at0 b')) (holds_at0 b' m ltac:(lia)) Lu') HT) as (t' & Et & Lt' & Gt & _).
  (* the same vector in the original order *)
  set (t := map (fun r => sub (at0 b r) (rt (nthl (select upper rows) r) (at0 y))) (zrange 0 m)).
  assert (Lt0 : Zlen t = m). { unfold t. rewrite Zlen_map, Zlen_zrange. pose proof (Zlen_nonneg rows). lia. }
  assert (Ht : holds t m (fun r => sub (at0 b r) (rt (nthl (select upper rows) r) (at0 y)))). { intros r Hr. unfold t. rewrite get_map, get_zrange by lia. reflexivity. }
  assert (Mt : moved m t2o t t'). { split; [lia|]. split; [|intros p Hp; rewrite !get_out by lia; reflexivity]. intros i r Er. destruct (t2o_range m o2t t2o P1 P3 _ _ Er) as (Bi & Br). rewrite (Gt i) by lia. rewrite (Ht r Br). f_equal.
    rewrite (rt_moved m o2t t2o (select upper rows) ur' m (at0 y) (at0 y') i r LU (rows_ok_select _ _ _ Hok) P1 P2 P3 MRu (AT _ _ Gy) (Z.le_refl _) Er). rewrite (AT _ _ Gb _ _ Er). ring. }
  assert (PM : forall l l' : list V, Zlen l = m -> Zlen l' = m -> (forall i r, get t2o i = Some r -> get l' i = get l r) -> moved m t2o l l'). { intros l l' A1 A2 A3. apply placed_moves. split; auto. }
  destruct (fused_p2p true base m rows rows A dp HM T agg cost w HA bl m (select lower rows) lr' L' HRl HBl (rows_ok_select _ _ _ Hok) (sub_select _ _) (Z.le_refl _) zero add sub mul ids t y ids' t' y' x' ltac:(lia) ltac:(lia) ltac:(lia) ltac:(lia) tr S o2t t2o HE MRl Mt (placed_moves _ _ _ _ Mid) (PM _ _ Ly Ly' Gy))
    as (fy & fy' & t2' & F1 & F2 & F3 & F4).
  destruct (gs_is_solve rows ids b t y (at0 ids) (at0 b) (at0 y) Hok (holds_at0 b m ltac:(lia)) (holds_at0 ids m ltac:(lia)) (holds_at0 y m ltac:(lia)) Hd true Ht true true) as (f0 & F5 & F6).
  cbn [near] in F5. rewrite F1 in F5. injection F5 as <-.
  assert (Lfy : Zlen fy = m). { destruct (updates_ok add sub mul AddScaled true m rows ids b Hok (dirZ true 0 m) y) as (g & G1 & G2); try lia. { intros r Hr. now apply In_dirZ in Hr. } rewrite F6 in G1. injection G1 as <-. lia. }
  pose proof (moves_placed _ _ _ _ F2 Lfy) as Mfy. destruct Mfy as (_ & Lfy' & Gfy).
  destruct F3 as (L3 & G3 & _).
  set (t2 := map (fun r => sub (at0 fy r) (rt (nthl (select lower rows) r) (at0 x))) (zrange 0 m)).
  assert (Lt2 : Zlen t2 = m). { unfold t2. rewrite Zlen_map, Zlen_zrange. pose proof (Zlen_nonneg rows). lia. }
  assert (Ht2 : holds t2 m (fun r => sub (at0 fy r) (rt (nthl (select lower rows) r) (at0 x)))). { intros r Hr. unfold t2. rewrite get_map, get_zrange by lia. reflexivity. }
  assert (Okl : rows_ok m lr'). { refine (moved_ok rows m (select lower rows) lr' (rows_ok_select _ _ _ Hok) (sub_select _ _) (Z.le_refl _) add sub mul Scaled ids (fun _ => _) o2t t2o P1 P2 P3 MRl). lia. }
  assert (Mt2 : moved m t2o t2 t2'). { apply PM; [auto|lia|]. intros i r Er. destruct (t2o_range m o2t t2o P1 P3 _ _ Er) as (Bi & Br). destruct (G3 i ltac:(lia)) as (v & p & Ev & Ep & Eb). rewrite Eb, (Ht2 r Br). f_equal.
    rewrite (dot_rt x' (at0 x') m _) in Ep; [|intros c v0 Hc; exact (Okl _ _ _ (nth_row_In lr' i ltac:(lia)) Hc)|apply holds_at0; lia]. injection Ep as <-.
    rewrite (rt_moved m o2t t2o (select lower rows) lr' m (at0 x) (at0 x') i r LL (rows_ok_select _ _ _ Hok) P1 P2 P3 MRl (AT _ _ Gx) (Z.le_refl _) Er). f_equal. rewrite <- (AT _ _ Gfy _ _ Er). unfold at0. now rewrite Ev. }
  destruct (moved_sweep_p2p true base m rows rows A dp HM T agg cost w HA bu m (select upper rows) ur' U' HRu (rows_ok_select _ _ _ Hok) (sub_select _ _) (Z.le_refl _) add sub mul Scaled ids t2 x ids' t2' x' ltac:(lia) ltac:(lia) ltac:(intros; lia) tr S o2t t2o false false HE MRu Mt2 (placed_moves _ _ _ _ Mid) (PM _ _ Lx Lx' Gx))
    as (fx & fx' & K1 & K2 & K3).
  destruct (gs_is_solve rows ids fy t2 x (at0 ids) (at0 fy) (at0 x) Hok (holds_at0 fy m ltac:(lia)) (holds_at0 ids m ltac:(lia)) (holds_at0 x m ltac:(lia)) Hd false Ht2 false true) as (f1 & K5 & K6).
  cbn [near] in K5. rewrite K1 in K5. injection K5 as <-.
  assert (Lfx : Zlen fx = m). { destruct (updates_ok add sub mul AddScaled true m rows ids fy Hok (dirZ false 0 m) x) as (g & G1 & G2); try lia. { intros r Hr. now apply In_dirZ in Hr. } rewrite K6 in G1. injection G1 as <-. lia. }
  exists t', fy, fy', t2', fx, fx'. split; auto. split; auto. split; auto.
  rewrite !(ref_sweep_updates add sub mul AddScaled _ base m rows A ids _ _ (sm_rep _ _ _ _ _ _ _ HM) Hok). split; auto. split; auto. split; [split; auto|]. split; [apply moves_placed; auto|lia].
Qed.
End Pair.
End Ring.

(** ** From the matrix: splitLU, permute with sorting, the pair *)
Section Permuted.
Context {V : Type}.
Variables (nd : bool) (base : Z) (rows : rows_t V) (M : csr V) (o2t t2o : list Z).
Notation m := (Zlen rows).
Hypothesis HR : rep true base m rows M.
Hypothesis Hb : base = 0 \/ base = 1.
Hypothesis Hok : rows_ok m rows.
Hypothesis HX : extptr M = None.
Hypothesis HD : diagptr M = None.
Hypothesis HP : Permutation t2o (zrange 0 m).
Hypothesis HL : Zlen o2t = m.
Hypothesis HI : forall p i, get t2o p = Some i -> get o2t i = Some p.
Lemma sorted_permute (sub : V -> V -> V) d T sch j : (forall s a b, sub (sub s a) b = sub (sub s b) a) -> idiag M = Some d -> Zlen d = m -> 1 <= T -> junk_ok M T j ->
  exists M' rows' d', permute nd true M o2t (Some t2o) T sch j = Some M' /\ rep true base m rows' M' /\ moved_rows sub o2t t2o rows rows' /\ idiag M' = Some d' /\ placed m t2o d d'.
Proof.
  intros Hs Ed Ld HT J. assert (Hm := Zlen_nonneg rows).
  assert (HLo : local_rows base rows M rows). { split; auto. now rewrite HX. }
  assert (Pre : permute_pre nd true base m true rows rows M o2t (Some t2o)).
  { split; auto. split; auto. split; [lia|]. split; [exact HP|]. split; [intros r c v Hr Hc; rewrite HL; apply (Hok r c v Hr Hc)|].
    split. { intros c Hc. apply In_get in Hc as (i & _ & E). destruct (o2t_range m o2t t2o HP HL HI _ _ E). lia. }
    split; auto. split; auto. split; [intros d0 E0; congruence|]. intros _ N. congruence. }
  destruct (permute_main nd true base m true rows rows M o2t (Some t2o) T sch j Pre HT J) as (M' & E & R' & _ & _ & _ & Sh & _ & Id & _).
  cbn [sources] in *. rewrite Ed in Sh. destruct Sh as (d' & Ed' & Ld'). exists M', (perm_rows true o2t t2o rows rows), d'. split; auto. split; auto. split; [|split; auto; split; auto].
  assert (LT : Zlen t2o = m) by (eapply t2o_len; eauto).
  split. { unfold perm_rows. now rewrite Zlen_map. }
  intros i r Er. right. split; auto. unfold perm_rows, nthl at 1. rewrite get_map, Er. cbn [option_map]. unfold perm_row.
  replace (slice (nthl rows r) (Zlen (nthl rows r)) (Zlen (nthl rows r))) with (@nil (Z * V)) by (symmetry; apply slice_nil; lia). rewrite app_nil_r. apply (perm_local_spec true o2t (nthl rows r)).
Qed.
End Permuted.

Section Whole.
Context {V : Type}.
Variables (zero one : V) (add mul sub : V -> V -> V) (opp : V -> V).
Variable RT : ring_theory zero one add mul sub opp (@eq V).
Add Ring Vring5 : RT.
Theorem symgs_fused is0 is1 ism1 base (rows : rows_t V) A dp ids : (forall a, is0 a = true -> a = zero) -> (forall a, is1 a = true -> a = one) -> (forall a, ism1 a = true -> a = opp one) ->
  base = 0 -> sched_matrix true base (Zlen rows) rows rows A dp -> rows_ok (Zlen rows) rows -> diagptr_len A -> extptr A = None ->
  idiag A = Some ids -> Zlen ids = Zlen rows -> (forall r d, 0 <= r < Zlen rows -> get ids r = Some d -> mul (coefat zero add (nthl rows r) r) d = one) ->
  forall T agg cost w tr S o2t t2o, sched_args (Zlen rows) T cost w -> constructTaskGraph (graph_of A base dp) T false agg tr cost w = Some (S, o2t, t2o) ->
  forall ssch sj s1 s2 s3 s4, sl_junk_ok (Zlen rows) T sj ->
  exists L U, splitLU A T ssch sj s1 s2 s3 s4 = Some (A, L, U) /\
  forall nd psch psch' jl ju, junk_ok L T jl -> junk_ok U T ju ->
  exists L' U' vl vu ids', permute nd true L o2t (Some t2o) T psch jl = Some L' /\ permute nd true U o2t (Some t2o) T psch' ju = Some U' /\
    values L' = Some vl /\ values U' = Some vu /\ idiag L' = Some ids' /\ idiag U' = Some ids' /\
  forall b y x b' y' x' tmp sch junk, placed (Zlen rows) t2o b b' -> placed (Zlen rows) t2o y y' -> placed (Zlen rows) t2o x x' -> Zlen tmp = Zlen rows ->
  exists t' fy fy' t2' fx fx',
    multiplyWithVector zero add sub mul is0 is1 ism1 U' tmp (opp one) (Own y') one (Own b') zero T sch junk = Some t' /\
    p2p_computes (fexec zero add sub mul L' base vl ids' x' (Zlen y')) None (fops L') true S (fun i => Some i) T (y' ++ t') (fy' ++ t2') /\
    p2p_computes (rexec add sub mul Scaled U' base vu ids' t2') None (rops false U') false S (fun i => Some i) T x' fx' /\
    ref_sweep add sub mul AddScaled true A base (values_of rows) ids b y = Some fy /\ ref_sweep add sub mul AddScaled false A base (values_of rows) ids fy x = Some fx /\
    placed (Zlen rows) t2o fy fy' /\ placed (Zlen rows) t2o fx fx' /\ Zlen t2' = Zlen rows.
Proof.
  intros H0 H1 Hm1 Hb HM Hok HDl HX Hid Lid Hd T agg cost w tr S o2t t2o HA HE ssch sj s1 s2 s3 s4 HJ.
  destruct (re_perms base rows A dp HM T agg cost w tr S o2t t2o HA HE) as (P1 & P2 & P3). pose proof (sa_T _ _ _ _ HA) as HT.
  destruct (splitLU_ok base (Zlen rows) rows rows A ids T ssch sj s1 s2 s3 s4 (or_introl Hb) (sm_rep _ _ _ _ _ _ _ HM) (sm_local _ _ _ _ _ _ _ HM) HDl) as (L & U & ES & RL & RU & XL & LU & XU & IL & IU & DL & DU); auto.
  { intros i k c v Hi Hk E. apply get_Some_bounds in E. lia. } { congruence. }
  exists L, U. split; auto. intros nd psch psch' jl ju Jl Ju.
  assert (Hs : forall s a b, sub (sub s a) b = sub (sub s b) a) by (intros; ring).
  pose proof (Zlen_select lower rows) as LL. pose proof (Zlen_select upper rows) as LU'. apply XU in HX.
  assert (QL : exists L' lr' d', permute nd true L o2t (Some t2o) T psch jl = Some L' /\ rep true base (Zlen rows) lr' L' /\ moved_rows sub o2t t2o (select lower rows) lr' /\ idiag L' = Some d' /\ placed (Zlen rows) t2o ids d').
  { rewrite <- LL in *. apply sorted_permute; auto; rewrite ?LL in *; auto using rows_ok_select. }
  assert (QU : exists U' ur' d', permute nd true U o2t (Some t2o) T psch' ju = Some U' /\ rep true base (Zlen rows) ur' U' /\ moved_rows sub o2t t2o (select upper rows) ur' /\ idiag U' = Some d' /\ placed (Zlen rows) t2o ids d').
  { rewrite <- LU' in *. apply sorted_permute; auto; rewrite ?LU' in *; auto using rows_ok_select. }
  destruct QL as (L' & lr' & ids' & EL & RL' & ML & IL' & PL). destruct QU as (U' & ur' & ids2 & EU & RU' & MU & IU' & PU).
  assert (ids2 = ids') by (eapply placed_fun; eauto). subst ids2.
  exists L', U', (values_of lr'), (values_of ur'), ids'. split; auto. split; auto. split; [apply RL'|]. split; [apply RU'|]. split; auto. split; auto.
  intros b y x b' y' x' tmp sch junk Mb My Mx Lt.
  assert (Oku : rows_ok (Zlen rows) ur'). { refine (moved_ok rows (Zlen rows) (select upper rows) ur' (rows_ok_select _ _ _ Hok) (sub_select _ _) (Z.le_refl _) add sub mul Scaled ids (fun _ => _) o2t t2o P1 P2 P3 MU). lia. }
  refine (fused_pair zero one add mul sub opp RT is0 is1 ism1 H0 H1 Hm1 base rows A dp HM Hok ids Lid _ T agg cost w tr S o2t t2o HA HE base base lr' ur' L' U' ids' RL' Hb ML RU' Oku MU PL b y x b' y' x' tmp sch junk Mb My Mx Lt).
  intros r Hr. destruct (get_in_range ids r) as (d & Ed); [lia|]. unfold at0. rewrite Ed. auto.
Qed.
End Whole.
