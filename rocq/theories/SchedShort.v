(** * The counters of the task graph fit a short (LevelSchedule.cpp:850-857, 1462, 1542-1547, 1609, 1625-1642, 1678-1679).

    The models count in unbounded integers; nparentsForward, nparentsBackward,
    numOfChildren and nparentsTemp are shorts.  They are cleared, and then only count
    upwards to the final numbers of waits or are set to them. *)
From Coq Require Import Permutation Relations.
From Verif Require Import Base Interleave Spec Flat Csr CsrOps P2P P2PProg Exec Kernels Levels LevelsCsr Tasks TaskGraph TaskGraphMain TaskGraphOrder TaskGraphCsr Sched FusedWaits SchedCases.

Definition SHRT_MAX : Z := 32767.

Lemma bounded_nodup l n : NoDup l -> (forall x, In x l -> 0 <= x < n) -> 0 <= n -> Zlen l <= n.
Proof.
  intros HN HB Hn. pose proof (NoDup_incl_length HN (l' := zrange 0 n)) as H.
  assert (I : incl l (zrange 0 n)) by (intros x Hx; apply In_zrange; auto). specialize (H I).
  pose proof (Zlen_zrange 0 n). unfold Zlen in *. lia.
Qed.

Lemma nonempty_count {X} (l : list (list X)) : (forall k K, get l k = Some K -> K <> []) -> Zlen l <= Zlen (concat l).
Proof.
  induction l as [|K l IH]; intros H; [apply Z.le_refl|]. cbn [concat]. rewrite Zlen_cons, Zlen_app.
  assert (K <> []) by (apply (H 0); reflexivity). assert (1 <= Zlen K) by (destruct K; [congruence|rewrite Zlen_cons; pose proof (Zlen_nonneg K); lia]).
  enough (Zlen l <= Zlen (concat l)) by lia. apply IH. intros k J G. apply (H (k + 1)). pose proof (get_Some_bounds _ _ _ G). now rewrite get_cons_S by lia.
Qed.

Section Short.
Context {V : Type}.
Variables (hasv : bool) (base n : Z) (rows lrows : rows_t V) (A : csr V) (dp : list Z).
Hypothesis HM : sched_matrix hasv base n rows lrows A dp.

(** A task waits for fewer tasks than there are, and never for itself or twice for
    the same task. *)
Theorem sched_counts T agg cost w : sched_args (Zlen rows) T cost w ->
  forall tr S o2t t2o, constructTaskGraph (graph_of A base dp) T false agg tr cost w = Some (S, o2t, t2o) ->
  forall fwd q, 0 <= q < ntasks S -> exists k c, get (nparents fwd S) q = Some k /\ get (parents fwd S) q = Some c /\ Zlen c = k /\ NoDup c /\ ~ In q c /\ 0 <= k < ntasks S.
Proof.
  intros [HT HC HW] tr S o2t t2o E fwd q Hq. destruct HM as [H1 H2 H3 H4 H5].
  destruct (csr_graph hasv base n rows lrows A dp H1 H2 H3 H4 H5 T agg cost w HT HC HW false tr S o2t t2o (or_introl eq_refl) E) as (lev & tk & thb & tb & D & TO & LI & GO & B).
  pose proof (csr_p2p_schedule hasv base n rows lrows A dp H1 H2 H3 H4 H5 T agg cost w HT HC HW false tr S o2t t2o fwd (or_introl eq_refl) E) as PS.
  assert (Irr : ~ waits_for fwd S q q). { destruct PS as [_ _ (rank & HR) _]. intros F. specialize (HR q q Hq Hq (or_introl F)). lia. }
  assert (G : exists c, get (parents fwd S) q = Some c /\ get (nparents fwd S) q = Some (Zlen c) /\ NoDup c /\ forall v, In v c -> 0 <= v < ntasks S).
  { rewrite (go_nt _ _ _ _ _ GO) in Hq |- *. destruct fwd; cbn [nparents parents].
    - destruct (go_fwd _ _ _ _ _ GO q Hq) as (c & F1 & F2 & F3 & F4). exists c. split; auto. split; auto. split; auto. intros v Hv. apply F4 in Hv. tauto.
    - destruct (go_bwd _ _ _ _ _ GO q Hq) as (c & F1 & F2 & F3 & F4). exists c. split; auto. split; auto. split; auto. intros v Hv. apply F4 in Hv. tauto. }
  destruct G as (c & G1 & G2 & G3 & G4). exists (Zlen c), c. do 2 (split; [auto|]). split; auto. split; auto.
  assert (Nq : ~ In q c). { intros Hi. apply Irr. split; auto. apply In_get in Hi as (k & Hk & Ek). exists (Zlen c), c, k. auto. }
  split; auto. split; [apply Zlen_nonneg|]. pose proof (bounded_nodup (q :: c) (ntasks S)) as K. rewrite Zlen_cons in K. enough (1 + Zlen c <= ntasks S) by lia. apply K; [now constructor| |lia].
  intros x [<-|Hx]; auto.
Qed.

(** No task is empty, so there are at most as many as rows. *)
Theorem sched_tasks T agg cost w : sched_args (Zlen rows) T cost w ->
  forall tr S o2t t2o, constructTaskGraph (graph_of A base dp) T false agg tr cost w = Some (S, o2t, t2o) -> 0 <= ntasks S <= Zlen rows.
Proof.
  intros [HT HC HW] tr S o2t t2o E. destruct HM as [H1 H2 H3 H4 H5].
  destruct (csr_graph_ne hasv base n rows lrows A dp H1 H2 H3 H4 H5 T agg cost w HT HC HW tr S o2t t2o E) as (lev & tk & thb & tb & D & TO & LI & GO & EW & NE).
  rewrite (go_nt _ _ _ _ _ GO). unfold nt in *. split; [apply Zlen_nonneg|].
  pose proof (nonempty_count (ts tk)) as K. destruct TO as [_ _ _ To Tp _]. unfold ts in *. rewrite <- To in K.
  assert (Zlen t2o = Zlen rows). { pose proof (Permutation_length Tp) as L. pose proof (Zlen_zrange 0 (Zlen rows)). pose proof (Zlen_nonneg rows). unfold Zlen in *. lia. }
  rewrite H in K. apply K. intros k J G. pose proof (get_Some_bounds _ _ _ G) as B. specialize (NE k B). rewrite (nthl_get _ _ _ G) in NE. exact NE.
Qed.

(** No counter overflows with at most 32768 rows, or at most 32768 tasks. *)
Theorem sched_short T agg cost w : sched_args (Zlen rows) T cost w ->
  forall tr S o2t t2o, constructTaskGraph (graph_of A base dp) T false agg tr cost w = Some (S, o2t, t2o) -> Zlen rows <= 32768 \/ ntasks S <= 32768 ->
  forall fwd q, 0 <= q < ntasks S -> exists k, get (nparents fwd S) q = Some k /\ 0 <= k <= SHRT_MAX.
Proof.
  intros HA tr S o2t t2o E HN fwd q Hq. destruct (sched_counts T agg cost w HA tr S o2t t2o E fwd q Hq) as (k & c & G1 & _ & _ & _ & _ & Hk). exists k. split; auto.
  pose proof (sched_tasks T agg cost w HA tr S o2t t2o E). unfold SHRT_MAX. lia.
Qed.
End Short.

Lemma short_case : sched_matrix true 1 6 tri_rows tri_rows (tri_A 1) (tri_dp 1) /\ sched_args 6 2 (fun _ => 1) tri_world /\
  exists S o2t t2o, constructTaskGraph (graph_of (tri_A 1) 1 (tri_dp 1)) 2 false false false (fun _ => 1) tri_world = Some (S, o2t, t2o) /\ ntasks S = 6 /\ nparents true S = [0; 1; 2; 0; 1; 2].
Proof. split; [apply tri_sched|]. split; [exact tri_args|]. do 3 eexists. split; [exact tri_run|]. split; reflexivity. Qed.
