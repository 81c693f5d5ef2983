(** * The barrier shared by a program: Barrier::initializeInstance, getInstance and
    deleteInstance, and the destructor (/repo/synk/barrier.cpp:45-123, 279-295).

    The threads of a team call getInstance, each as often as it likes; every access
    to the pointer [instance], every arrival at an OpenMP barrier and every access
    of Barrier::init (InitSkel) is a step of its own, in any order.  An OpenMP
    barrier is a count of arrivals and a number of releases: the last arrival of
    the team releases the others.  Not modelled: memory order (the accesses are
    sequentially consistent), failing allocations. *)
From Verif Require Import Base InitSkel Barrier BarrierInit.

Inductive gpc :=
| GTest               (* barrier.cpp:72: if (!instance); no call in progress before it *)
| GArr1 | GWait1 (g : Z)   (* 86: the first omp barrier; released when [g] is not the number of releases any more *)
| GMake               (* 87, 88: the master thread makes the object *)
| GArr2 | GWait2 (g : Z)   (* 89: the second omp barrier *)
| GInit (o : Z)       (* 90: inside instance->init(tid) *)
| GRet.               (* 101: return instance *)

Section Inst.
Context {M : Type}.
(** The size of the team; what the object is made for; Barrier::init. *)
Variables (T N : Z) (setup : Z -> M -> option M) (nact : Z -> Z) (act : Z -> Z -> M -> option M) (m0 : M).

(** A thread: where it is, how many calls are left, and the pointers returned so far. *)
Record gth := mkT { t_pc : gpc; t_left : Z; t_got : list Z }.
(** [instance], every object ever made, the OpenMP barrier, the threads. *)
Record gstate := mkG { g_inst : option Z; g_objs : list (@istate M); g_arr : Z; g_gen : Z; g_th : list gth }.

(** barrier.cpp:88 and synk.cpp:57-77: a new object; the pcs are those of the team that initialises it. *)
Definition new_obj : @istate M := mkI m0 N 0 (repeat ISetup (Z.to_nat T)).

Definition gmove (s : gstate) (t : Z) (i : option Z) (os : list istate) (a g : Z) (th : gth) : option (option gstate) :=
  ths <- set (g_th s) t th ;; Some (Some (mkG i os a g ths)).
Definition goto (s : gstate) (t : Z) (th : gth) (p : gpc) : option (option gstate) :=
  gmove s t (g_inst s) (g_objs s) (g_arr s) (g_gen s) (mkT p (t_left th) (t_got th)).
Definition garrive (s : gstate) (t : Z) (th : gth) (p : gpc) : option (option gstate) :=
  if g_arr s + 1 =? T then gmove s t (g_inst s) (g_objs s) 0 (g_gen s + 1) (mkT p (t_left th) (t_got th))
  else gmove s t (g_inst s) (g_objs s) (g_arr s + 1) (g_gen s) (mkT p (t_left th) (t_got th)).

(** One access of thread [t]: [None] is undefined behaviour, [Some None] a thread that waits or has made all its calls. *)
Definition gstep (t : Z) (s : gstate) : option (option gstate) :=
  th <- get (g_th s) t ;;
  match t_pc th with
  | GTest => if t_left th =? 0 then Some None else goto s t th (match g_inst s with Some _ => GRet | None => GArr1 end)
  | GArr1 => garrive s t th (GWait1 (g_gen s))
  | GWait1 g => if g_gen s =? g then Some None else goto s t th (if t =? 0 then GMake else GArr2)
  | GMake => gmove s t (Some (Zlen (g_objs s))) (g_objs s ++ [new_obj]) (g_arr s) (g_gen s) (mkT GArr2 (t_left th) (t_got th))
  | GArr2 => garrive s t th (GWait2 (g_gen s))
  | GWait2 g => if g_gen s =? g then Some None else o <- g_inst s ;; goto s t th (GInit o)
  | GInit o =>
      ob <- get (g_objs s) o ;; p <- get (ipcs ob) t ;;
      match p with
      | IDone => goto s t th GRet
      | _ => r <- istep N setup nact act t ob ;;
             match r with
             | None => Some None
             | Some ob' => os <- set (g_objs s) o ob' ;; gmove s t (g_inst s) os (g_arr s) (g_gen s) th
             end
      end
  | GRet => o <- g_inst s ;; gmove s t (g_inst s) (g_objs s) (g_arr s) (g_gen s) (mkT GTest (t_left th - 1) (t_got th ++ [o]))
  end.

(** The team enters the region: thread [t] will make [calls t] calls. *)
Definition gstart (i : option Z) (old : list istate) (calls : Z -> Z) : gstate :=
  mkG i old 0 0 (map (fun t => mkT GTest (calls t) []) (zrange 0 T)).
Inductive grun (s0 : gstate) : Z -> gstate -> Prop :=
| gr_nil : grun s0 0 s0
| gr_step k s t s' : grun s0 k s -> 0 <= t < T -> gstep t s = Some (Some s') -> grun s0 (k + 1) s'.
Fixpoint gexec (tr : list Z) (s : gstate) : option gstate :=
  match tr with
  | [] => Some s
  | t :: tr => r <- gstep t s ;; gexec tr (match r with Some s' => s' | None => s end)
  end.

(** ** Specification *)
(** What a region in which the threads call getInstance must guarantee: no
    undefined behaviour, at most [bound] moves, some thread can move until all
    calls are made, and every pointer a thread was given is [o]. *)
Definition all_made (calls : Z -> Z) (o : Z) (s : gstate) : Prop :=
  forall t, 0 <= t < T -> get (g_th s) t = Some (mkT GTest 0 (repeat o (Z.to_nat (calls t)))).
Definition gives (s0 : gstate) (calls : Z -> Z) (bound o : Z) (also : gstate -> Prop) : Prop :=
  forall k s, grun s0 k s ->
    k <= bound /\ (forall t, 0 <= t < T -> gstep t s <> None) /\
    (all_made calls o s \/ exists t s', 0 <= t < T /\ gstep t s = Some (Some s')) /\
    (forall t th v, get (g_th s) t = Some th -> In v (t_got th) -> v = o) /\ also s.

(** ** Counting threads *)
Definition tcnt (f : gth -> Z) (l : list gth) : Z := zsum (map f l).
Lemma tcnt_upd f l n p q : nth_error l n = Some p -> tcnt f (upd l n q) = tcnt f l - f p + f q.
Proof using.
  clear. unfold tcnt. revert n. induction l as [|x l IH]; intros [|n] H; try discriminate.
  - injection H as ->. cbn [upd map zsum fold_right]. lia.
  - cbn [upd map zsum fold_right]. cbn [nth_error] in H. specialize (IH n H). unfold zsum in IH. lia.
Qed.
Lemma tcnt_set f l l' t p q : get l t = Some p -> set l t q = Some l' -> tcnt f l' = tcnt f l - f p + f q.
Proof using.
  clear. intros G S. apply set_Some_inv in S as (B & ->). apply tcnt_upd. unfold get in G. destruct (t <? 0); [discriminate|auto].
Qed.
Lemma tcnt_all f l : (forall t th, get l t = Some th -> f th = 1) -> tcnt f l = Zlen l.
Proof using.
  clear. unfold tcnt. intros H. assert (H' : forall x, In x l -> f x = 1) by (intros x Hx; destruct (In_get _ _ Hx) as (t & _ & G); eauto). clear H.
  induction l as [|x l IH]; [reflexivity|]. rewrite Zlen_cons. cbn [map zsum fold_right]. unfold zsum in IH. rewrite IH by (intros; apply H'; now right). rewrite (H' x) by now left. lia.
Qed.
Lemma tcnt_none f l : (forall t th, get l t = Some th -> f th = 0) -> tcnt f l = 0.
Proof using.
  clear. unfold tcnt. intros H. assert (H' : forall x, In x l -> f x = 0) by (intros x Hx; destruct (In_get _ _ Hx) as (t & _ & G); eauto). clear H.
  induction l as [|x l IH]; [reflexivity|]. cbn [map zsum fold_right]. unfold zsum in IH. rewrite IH by (intros; apply H'; now right). rewrite (H' x) by now left. lia.
Qed.
Lemma tcnt_nonneg f l : (forall t th, get l t = Some th -> 0 <= f th) -> 0 <= tcnt f l.
Proof using.
  clear. intros H. apply zsum_nonneg. intros x Hx. apply in_map_iff in Hx as (th & <- & Hx). destruct (In_get _ _ Hx) as (t & _ & G). eauto.
Qed.
(** Either every thread is as [f] says, or some thread is not. *)
Lemma tcnt_find (f : gth -> bool) l : (forall t th, get l t = Some th -> f th = true) \/ exists t th, get l t = Some th /\ f th = false.
Proof using.
  clear. destruct (forallb f l) eqn:E.
  - left. intros t th G. rewrite forallb_forall in E. apply E. eapply get_In; eauto.
  - right. assert (X : exists th, In th l /\ f th = false).
    { clear -E. induction l as [|x l IH]; [discriminate|]. cbn [forallb] in E. destruct (f x) eqn:F; [destruct IH as (th & H1 & H2); [auto|exists th; split; [now right|auto]]|exists x; split; [now left|auto]]. }
    destruct X as (th & H1 & H2). destruct (In_get _ _ H1) as (t & _ & G). eauto.
Qed.

Definition isW1 (th : gth) : bool := match t_pc th with GWait1 _ => true | _ => false end.
Definition isW2 (th : gth) : bool := match t_pc th with GWait2 _ => true | _ => false end.
(** Moves a thread has left, without those inside init. *)
Definition left1 (th : gth) : Z :=
  8 * t_left th - match t_pc th with GTest => 0 | GArr1 => 1 | GWait1 _ => 2 | GMake => 3 | GArr2 => 4 | GWait2 _ => 5 | GInit _ => 6 | GRet => 7 end.
End Inst.

Lemma tcnt_full (f : gth -> bool) l : tcnt (fun th => b2z (f th)) l = Zlen l -> forall t th, get l t = Some th -> f th = true.
Proof.
  unfold tcnt. intros H t th G. apply get_In in G. revert H G. induction l as [|x l IH]; [contradiction|]. rewrite Zlen_cons. cbn [map zsum fold_right].
  assert (LE : zsum (map (fun th => b2z (f th)) l) <= Zlen l).
  { clear. induction l as [|x l IH]; [reflexivity|]. rewrite Zlen_cons. cbn [map zsum fold_right]. unfold zsum in IH. unfold b2z at 1. destruct (f x); lia. }
  unfold zsum in LE, IH. unfold b2z at 1. intros H [->|G].
  - destruct (f th); auto; lia.
  - apply IH; auto. destruct (f x); lia.
Qed.

Lemma get_last {A} (l : list A) x : get (l ++ [x]) (Zlen l) = Some x.
Proof. rewrite get_app_r by lia. replace (Zlen l - Zlen l) with 0 by lia. reflexivity. Qed.
Lemma set_last {A} (l : list A) x y : set (l ++ [x]) (Zlen l) y = Some (l ++ [y]).
Proof.
  unfold set. pose proof (Zlen_nonneg l). rewrite Zlen_app. change (Zlen [x]) with 1.
  destruct (Z.leb_spec 0 (Zlen l)); [|lia]. destruct (Z.ltb_spec (Zlen l) (Zlen l + 1)); [|lia]. cbn [andb].
  assert (E : Z.to_nat (Zlen l) = length l) by (unfold Zlen; lia). rewrite E.
  assert (Q : forall k : list A, upd (k ++ [x]) (length k) y = k ++ [y]) by (induction k as [|a k IH]; [reflexivity|cbn; now rewrite IH]).
  now rewrite Q.
Qed.
Lemma set_all {A} (l l' : list A) t x (P : Z -> A -> Prop) : set l t x = Some l' -> P t x -> (forall u y, get l u = Some y -> P u y) -> forall u y, get l' u = Some y -> P u y.
Proof.
  intros S Px H u y G. destruct (Z.eq_dec u t) as [->|NE].
  - rewrite (get_set_same _ _ _ _ S) in G. now injection G as <-.
  - rewrite (get_set_other _ _ _ _ _ S) in G by auto. eauto.
Qed.

(** ** What the calls do, whatever init does *)
Section Phases.
Context {M : Type}.
Variables (T N : Z) (setup : Z -> M -> option M) (nact : Z -> Z) (act : Z -> Z -> M -> option M) (m0 : M).
Hypothesis HT : 1 <= T.
Variables (old : list (@istate M)) (calls : Z -> Z).
Hypothesis Hcalls : forall t, 0 <= t < T -> 1 <= calls t.
(** What is known of the object after [k] moves of init. *)
Variables (J : Z -> @istate M -> Prop) (bad : Prop).
Hypothesis J_new : J 0 (new_obj T N m0).
Hypothesis J_len : forall k ob, J k ob -> Zlen (ipcs ob) = T.
Hypothesis J_step : forall k ob t, J k ob -> 0 <= t < T -> match istep N setup nact act t ob with None => bad | Some None => True | Some (Some ob') => J (k + 1) ob' end.

Notation step := (gstep T N setup nact act m0).
Notation start := (gstart T None old calls).
Notation O := (Zlen old).
Definition gleft (s : @gstate M) : Z := tcnt left1 (g_th s).
Definition pre0 (p : gpc) : bool := match p with GWait1 _ | GMake => true | _ => false end.

Inductive ginv (k : Z) (s : @gstate M) : Prop :=
| GP0 : g_inst s = None -> g_objs s = old -> g_gen s = 0 -> g_arr s = tcnt (fun th => b2z (isW1 th)) (g_th s) -> g_arr s < T ->
    (forall t th, get (g_th s) t = Some th -> t_left th = calls t /\ t_got th = [] /\ (t_pc th = GTest \/ t_pc th = GArr1 \/ t_pc th = GWait1 0)) ->
    k + gleft s <= gleft start -> ginv k s
| GP1 : g_gen s = 1 -> g_arr s = tcnt (fun th => b2z (isW2 th)) (g_th s) -> g_arr s < T ->
    (forall t th, get (g_th s) t = Some th -> t_left th = calls t /\ t_got th = [] /\
       (t_pc th = GWait1 0 \/ (t_pc th = GMake /\ t = 0) \/ t_pc th = GArr2 \/ t_pc th = GWait2 1)) ->
    (forall th0, get (g_th s) 0 = Some th0 -> if pre0 (t_pc th0) then g_inst s = None /\ g_objs s = old else g_inst s = Some O /\ g_objs s = old ++ [new_obj T N m0]) ->
    k + gleft s <= gleft start -> ginv k s
| GP2 ob ko : g_gen s = 2 -> g_inst s = Some O -> g_objs s = old ++ [ob] -> J ko ob ->
    (forall t th, get (g_th s) t = Some th -> 0 <= t_left th <= calls t /\ t_got th = repeat O (Z.to_nat (calls t - t_left th)) /\
       (t_pc th = GTest /\ get (ipcs ob) t = Some IDone \/ 1 <= t_left th /\
          (t_left th = calls t /\ (t_pc th = GWait2 1 \/ t_pc th = GInit O) \/ t_pc th = GRet /\ get (ipcs ob) t = Some IDone))) ->
    k + gleft s <= gleft start + ko -> ginv k s.
Definition gok (k : Z) (s : @gstate M) : Prop := Zlen (g_th s) = T /\ ginv k s.

Lemma gok_start : gok 0 start.
Proof.
  assert (L : Zlen (g_th start) = T) by (cbn [g_th gstart]; rewrite Zlen_map, Zlen_zrange; lia).
  assert (A : forall t th, get (g_th start) t = Some th -> th = mkT GTest (calls t) []).
  { intros t th G. pose proof (get_Some_bounds _ _ _ G) as Bd. rewrite L in Bd. cbn [g_th gstart] in G. rewrite get_map in G. rewrite get_zrange in G by lia. cbn [option_map] in G. injection G as <-. reflexivity. }
  split; auto. apply GP0; [reflexivity|reflexivity|reflexivity| |cbn [g_arr gstart]; lia| |lia].
  - rewrite tcnt_none; auto. intros t th G. rewrite (A t th G). reflexivity.
  - intros t th G. rewrite (A t th G). auto.
Qed.

(** A thread that is done stays done, whoever moves. *)
Lemma istep_done t u s s' : get (ipcs s) u = Some IDone -> istep N setup nact act t s = Some (Some s') -> get (ipcs s') u = Some IDone.
Proof.
  clear. intros G E. unfold istep in E. destruct (get (ipcs s) t) as [p|] eqn:P; [|discriminate]. unfold imove in E.
  assert (Q : p <> IDone -> t <> u) by (intros NP ->; congruence).
  destruct p;
    repeat match type of E with
      | context [istat s =? ?c] => destruct (istat s =? c); [try discriminate|]
      | context [?j <? nact t] => destruct (j <? nact t)
      | context [setup t ?m] => destruct (setup t m)
      | context [act t ?j ?m] => destruct (act t j m)
      | context [set ?a ?b ?c] => let S := fresh in destruct (set a b c) eqn:S; [pose proof (get_set_other _ _ _ _ u S)|]
      end; try discriminate; injection E as <-; cbn [ipcs]; match goal with H : _ -> _ = _ |- _ => rewrite H; auto; apply not_eq_sym, Q; discriminate end.
Qed.

Lemma gok_step k s t : gok k s -> 0 <= t < T -> match step t s with None => bad | Some None => True | Some (Some s') => gok (k + 1) s' end.
Proof.
  intros (HL & HI) Ht. destruct (get_in_range (g_th s) t) as (th & G); [lia|].
  assert (SS : forall x, exists l', set (g_th s) t x = Some l' /\ Zlen l' = T /\ tcnt left1 l' = gleft s - left1 th + left1 x /\
     tcnt (fun th => b2z (isW1 th)) l' = tcnt (fun th => b2z (isW1 th)) (g_th s) - b2z (isW1 th) + b2z (isW1 x) /\
     tcnt (fun th => b2z (isW2 th)) l' = tcnt (fun th => b2z (isW2 th)) (g_th s) - b2z (isW2 th) + b2z (isW2 x)).
  { intros x. destruct (set_ok (g_th s) t x) as (l' & S); [lia|]. exists l'. split; auto. split; [rewrite (set_len _ _ _ _ S); auto|].
    split; [apply (tcnt_set left1 _ _ _ _ _ G S)|]. split; [apply (tcnt_set (fun th => b2z (isW1 th)) _ _ _ _ _ G S)|apply (tcnt_set (fun th => b2z (isW2 th)) _ _ _ _ _ G S)]. }
  assert (V1 : isW1 th = match t_pc th with GWait1 _ => true | _ => false end) by reflexivity.
  assert (V2 : isW2 th = match t_pc th with GWait2 _ => true | _ => false end) by reflexivity.
  unfold gstep, goto, garrive, gmove. rewrite G. destruct HI as [E1 E2 E3 E4 E5 HA HW|E3 E4 E5 HA H0 HW|ob ko E3 E1 E2 R HA HW].
  - (* before the first release *)
    pose proof (HA t th G) as (Hl & Hg & HP). pose proof (Hcalls t Ht) as Hc. destruct HP as [HP|[HP|HP]]; rewrite HP.
    + destruct (Z.eqb_spec (t_left th) 0) as [Z0|_]; [lia|]. rewrite E1.
      destruct (SS (mkT GArr1 (t_left th) (t_got th))) as (l' & S & L & LW & LC1 & LC2). rewrite S. split; [exact L|].
      apply GP0; cbn [g_inst g_objs g_arr g_gen g_th]; auto.
      * rewrite LC1, E4, V1, HP. unfold isW1 at 3. cbn [t_pc]. cbn [b2z]. lia.
      * apply (set_all _ _ _ _ _ S); [|exact HA]. cbn [t_pc t_left t_got]. auto 10.
      * unfold gleft at 1. cbn [g_th]. rewrite LW. unfold left1. cbn [t_pc t_left]. rewrite HP. lia.
    + destruct (SS (mkT (GWait1 (g_gen s)) (t_left th) (t_got th))) as (l' & S & L & LW & LC1 & LC2). rewrite S.
      rewrite V1, HP in LC1. unfold isW1 at 3 in LC1. cbn [t_pc b2z] in LC1.
      assert (ALL : forall u y, get l' u = Some y -> t_left y = calls u /\ t_got y = [] /\ (t_pc y = GTest \/ t_pc y = GArr1 \/ t_pc y = GWait1 0)).
      { apply (set_all _ _ _ _ _ S); [|exact HA]. cbn [t_pc t_left t_got]. rewrite E3. auto 10. }
      assert (LB : k + 1 + tcnt left1 l' <= gleft start) by (rewrite LW; unfold left1; cbn [t_pc t_left]; rewrite HP; lia).
      destruct (Z.eqb_spec (g_arr s + 1) T) as [EN|NN].
      * split; [exact L|]. assert (F : tcnt (fun th => b2z (isW1 th)) l' = Zlen l') by lia. pose proof (tcnt_full isW1 l' F) as W.
        apply GP1; cbn [g_inst g_objs g_arr g_gen g_th]; auto; try lia.
        -- symmetry. apply tcnt_none. intros u y Gu. pose proof (W u y Gu) as Wu. unfold isW1 in Wu. unfold isW2. destruct (t_pc y); try discriminate; reflexivity.
        -- intros u y Gu. destruct (ALL u y Gu) as (A1 & A2 & A3). pose proof (W u y Gu) as Wu. unfold isW1 in Wu. split; auto. split; auto. destruct A3 as [A3|[A3|A3]]; rewrite A3 in Wu; try discriminate. auto.
        -- intros y Gu. pose proof (W 0 y Gu) as Wu. unfold isW1 in Wu. destruct (t_pc y); try discriminate. cbn [pre0]. auto.
      * split; [exact L|]. apply GP0; cbn [g_inst g_objs g_arr g_gen g_th]; auto; try lia.
    + rewrite E3. rewrite Z.eqb_refl. exact I.
  - (* between the releases *)
    pose proof (HA t th G) as (Hl & Hg & HP). pose proof (Hcalls t Ht) as Hc.
    destruct HP as [HP|[(HP & T0)|[HP|HP]]]; rewrite HP.
    + rewrite E3. cbn [Z.eqb].
      destruct (SS (mkT (if t =? 0 then GMake else GArr2) (t_left th) (t_got th))) as (l' & S & L & LW & LC1 & LC2). rewrite S. split; [exact L|].
      apply GP1; cbn [g_inst g_objs g_arr g_gen g_th]; auto.
      * rewrite LC2, E4, V2, HP. unfold isW2 at 3. cbn [t_pc]. destruct (t =? 0); cbn [b2z]; lia.
      * apply (set_all _ _ _ _ _ S); [|exact HA]. cbn [t_pc t_left t_got]. split; auto. split; auto. destruct (Z.eqb_spec t 0); auto.
      * intros y Gu. destruct (Z.eq_dec t 0) as [T0|T0].
        -- subst t. rewrite (get_set_same _ _ _ _ S) in Gu. injection Gu as <-. cbn [t_pc Z.eqb pre0]. specialize (H0 th G). rewrite HP in H0. exact H0.
        -- rewrite (get_set_other _ _ _ _ _ S) in Gu by auto. apply H0; auto.
      * unfold gleft at 1. cbn [g_th]. rewrite LW. unfold left1. cbn [t_pc t_left]. rewrite HP. destruct (t =? 0); lia.
    + subst t. destruct (SS (mkT GArr2 (t_left th) (t_got th))) as (l' & S & L & LW & LC1 & LC2). rewrite S. split; [exact L|].
      specialize (H0 th G). rewrite HP in H0. cbn [pre0] in H0. destruct H0 as (H01 & H02).
      apply GP1; cbn [g_inst g_objs g_arr g_gen g_th]; auto.
      * rewrite LC2, E4, V2, HP. unfold isW2 at 3. cbn [t_pc]. cbn [b2z]. lia.
      * apply (set_all _ _ _ _ _ S); [|exact HA]. cbn [t_pc t_left t_got]. auto 10.
      * intros y Gu. rewrite (get_set_same _ _ _ _ S) in Gu. injection Gu as <-. cbn [t_pc pre0]. rewrite H02. split; reflexivity.
      * unfold gleft at 1. cbn [g_th]. rewrite LW. unfold left1. cbn [t_pc t_left]. rewrite HP. lia.
    + destruct (SS (mkT (GWait2 (g_gen s)) (t_left th) (t_got th))) as (l' & S & L & LW & LC1 & LC2). rewrite S.
      rewrite V2, HP in LC2. unfold isW2 at 3 in LC2. cbn [t_pc b2z] in LC2.
      assert (ALL : forall u y, get l' u = Some y -> t_left y = calls u /\ t_got y = [] /\ (t_pc y = GWait1 0 \/ (t_pc y = GMake /\ u = 0) \/ t_pc y = GArr2 \/ t_pc y = GWait2 1)).
      { apply (set_all _ _ _ _ _ S); [|exact HA]. cbn [t_pc t_left t_got]. rewrite E3. auto 10. }
      assert (LB : k + 1 + tcnt left1 l' <= gleft start) by (rewrite LW; unfold left1; cbn [t_pc t_left]; rewrite HP; lia).
      assert (Z0 : forall th0, get l' 0 = Some th0 -> if pre0 (t_pc th0) then g_inst s = None /\ g_objs s = old else g_inst s = Some O /\ g_objs s = old ++ [new_obj T N m0]).
      { intros y Gu. destruct (Z.eq_dec t 0) as [T0|T0].
        - subst t. rewrite (get_set_same _ _ _ _ S) in Gu. injection Gu as <-. cbn [t_pc pre0]. specialize (H0 th G). rewrite HP in H0. exact H0.
        - rewrite (get_set_other _ _ _ _ _ S) in Gu by auto. apply H0; auto. }
      destruct (Z.eqb_spec (g_arr s + 1) T) as [EN|NN].
      * split; [exact L|]. assert (F : tcnt (fun th => b2z (isW2 th)) l' = Zlen l') by lia. pose proof (tcnt_full isW2 l' F) as W.
        destruct (get_in_range l' 0) as (y0 & G0); [lia|]. pose proof (Z0 y0 G0) as Q0. pose proof (W 0 y0 G0) as W0. unfold isW2 in W0.
        assert (Q1 : pre0 (t_pc y0) = false) by (destruct (t_pc y0); try discriminate; reflexivity). rewrite Q1 in Q0. destruct Q0 as (Q01 & Q02).
        apply (GP2 _ _ (new_obj T N m0) 0); cbn [g_inst g_objs g_arr g_gen g_th]; auto; try lia.
        -- intros u y Gu. destruct (ALL u y Gu) as (A1 & A2 & A3). pose proof (W u y Gu) as Wu. unfold isW2 in Wu.
           assert (Bu : 0 <= u < T) by (apply get_Some_bounds in Gu; lia). pose proof (Hcalls u Bu). split; [lia|]. split.
           ++ rewrite A2. replace (calls u - t_left y) with 0 by lia. reflexivity.
           ++ right. split; [lia|]. left. split; auto. destruct A3 as [A3|[(A3 & _)|[A3|A3]]]; rewrite A3 in Wu; try discriminate. auto.
        -- unfold gleft at 1. cbn [g_th]. lia.
      * split; [exact L|]. apply GP1; cbn [g_inst g_objs g_arr g_gen g_th]; auto; try lia.
    + rewrite E3. rewrite Z.eqb_refl. exact I.
  - (* after both *)
    pose proof (HA t th G) as (Hl & Hg & HP). pose proof (Hcalls t Ht) as Hc. pose proof (J_len _ _ R) as PL.
    assert (GO : get (g_objs s) O = Some ob) by (rewrite E2; apply get_last).
    destruct HP as [(HP & HD)|(Hl1 & [(Hlc & [HP|HP])|(HP & HD)])]; rewrite HP.
    + destruct (Z.eqb_spec (t_left th) 0) as [Z0|NZ]; [exact I|]. rewrite E1.
      destruct (SS (mkT GRet (t_left th) (t_got th))) as (l' & S & L & LW & LC1 & LC2). rewrite S. split; [exact L|].
      apply (GP2 _ _ ob ko); cbn [g_inst g_objs g_arr g_gen g_th]; auto.
      * apply (set_all _ _ _ _ _ S); [|exact HA]. cbn [t_pc t_left t_got]. split; [lia|]. split; auto. right. split; [lia|]. auto.
      * unfold gleft at 1. cbn [g_th]. rewrite LW. unfold left1. cbn [t_pc t_left]. rewrite HP. lia.
    + rewrite E3, E1. cbn [Z.eqb Pos.eqb].
      destruct (SS (mkT (GInit O) (t_left th) (t_got th))) as (l' & S & L & LW & LC1 & LC2). rewrite S. split; [exact L|].
      apply (GP2 _ _ ob ko); cbn [g_inst g_objs g_arr g_gen g_th]; auto.
      * apply (set_all _ _ _ _ _ S); [|exact HA]. cbn [t_pc t_left t_got]. split; [lia|]. split; auto. right. split; [lia|]. auto 10.
      * unfold gleft at 1. cbn [g_th]. rewrite LW. unfold left1. cbn [t_pc t_left]. rewrite HP. lia.
    + rewrite GO. destruct (get_in_range (ipcs ob) t) as (p & Gp); [lia|]. rewrite Gp.
      assert (DN : p = IDone \/ p <> IDone) by (destruct p; (left; reflexivity) || (right; discriminate)).
      destruct DN as [->|NP].
      * destruct (SS (mkT GRet (t_left th) (t_got th))) as (l' & S & L & LW & LC1 & LC2). rewrite S. split; [exact L|].
        apply (GP2 _ _ ob ko); cbn [g_inst g_objs g_arr g_gen g_th]; auto.
        -- apply (set_all _ _ _ _ _ S); [|exact HA]. cbn [t_pc t_left t_got]. split; [lia|]. split; auto 10.
        -- unfold gleft at 1. cbn [g_th]. rewrite LW. unfold left1. cbn [t_pc t_left]. rewrite HP. lia.
      * pose proof (J_step ko ob t R Ht) as NU.
        assert (X : match istep N setup nact act t ob with
            | None => bad | Some None => True
            | Some (Some ob') => match (os <- set (g_objs s) O ob' ;; ths <- set (g_th s) t th ;; Some (Some (mkG (g_inst s) os (g_arr s) (g_gen s) ths))) with
               None => bad | Some None => True | Some (Some s') => gok (k + 1) s' end end).
        { destruct (istep N setup nact act t ob) as [[ob'|]|] eqn:EI; [|exact I|exact NU].
          rewrite E2, set_last. destruct (SS th) as (l' & S & L & LW & LC1 & LC2). rewrite S. split; [exact L|].
          apply (GP2 _ _ ob' (ko + 1)); cbn [g_inst g_objs g_arr g_gen g_th]; auto.
          - intros u y Gu. assert (Gu' : get (g_th s) u = Some y).
            { destruct (Z.eq_dec u t) as [->|NE]; [rewrite (get_set_same _ _ _ _ S) in Gu; congruence|rewrite (get_set_other _ _ _ _ _ S) in Gu; auto]. }
            destruct (HA u y Gu') as (A1 & A2 & A3). split; auto. split; auto.
            destruct A3 as [(A3 & A4)|(A3 & [(A6 & [A4|A4])|(A4 & A5)])]; [left|right|right|right]; auto.
            + split; auto. eapply istep_done; eauto.
            + split; auto. right. split; auto. eapply istep_done; eauto.
          - unfold gleft at 1. cbn [g_th]. rewrite LW. lia. }
        destruct p; try congruence; destruct (istep N setup nact act t ob) as [[ob'|]|]; exact X.
    + rewrite E1. destruct (SS (mkT GTest (t_left th - 1) (t_got th ++ [O]))) as (l' & S & L & LW & LC1 & LC2). rewrite S. split; [exact L|].
      apply (GP2 _ _ ob ko); cbn [g_inst g_objs g_arr g_gen g_th]; auto.
      * apply (set_all _ _ _ _ _ S); [|exact HA]. cbn [t_pc t_left t_got]. split; [lia|]. split; auto.
        rewrite Hg. replace (Z.to_nat (calls t - (t_left th - 1))) with (Z.to_nat (calls t - t_left th) + 1)%nat by lia. rewrite repeat_app. reflexivity.
      * unfold gleft at 1. cbn [g_th]. rewrite LW. unfold left1. cbn [t_pc t_left]. rewrite HP. lia.
Qed.

Lemma gok_run k s : grun T N setup nact act m0 start k s -> gok k s.
Proof.
  induction 1 as [|k s t s' R IH Ht E]; [apply gok_start|]. pose proof (gok_step k s t IH Ht) as X. rewrite E in X. exact X.
Qed.

End Phases.

(** ** The object is made for the team that calls *)
Section Same.
Context {M : Type}.
Variables (N : Z) (setup : Z -> M -> option M) (nact : Z -> Z) (act : Z -> Z -> M -> option M) (m0 : M) (B : Z) (complete : M -> Prop).
Hypothesis HN : 1 <= N.
Hypothesis Hset : set_up N setup nact act m0 B complete.
Variables (old : list (@istate M)) (calls : Z -> Z).
Hypothesis Hcalls : forall t, 0 <= t < N -> 1 <= calls t.
Notation step := (gstep N N setup nact act m0).
Notation start := (gstart N None old calls).
Notation O := (Zlen old).
Lemma pcs_len ko ob : irun N setup nact act (istart N m0) ko ob -> Zlen (ipcs ob) = N.
Proof.
  clear Hset. induction 1 as [|k s t s' R IH Ht E]; [cbn [istart ipcs]; rewrite Zlen_repeat; lia|].
  rewrite <- IH. unfold istep in E. destruct (get (ipcs s) t) as [p|]; [|discriminate]. unfold imove in E.
  destruct p;
    repeat match type of E with
      | context [istat s =? ?c] => destruct (istat s =? c); [try discriminate|]
      | context [?j <? nact t] => destruct (j <? nact t)
      | context [setup t ?m] => destruct (setup t m)
      | context [act t ?j ?m] => destruct (act t j m)
      | context [set ?a ?b ?c] => let S := fresh in destruct (set a b c) eqn:S; [apply set_len in S|]
      end; try discriminate; injection E as <-; cbn [ipcs]; auto.
Qed.

Notation Jr := (irun N setup nact act (istart N m0)).
Lemma Jr_step k ob t : Jr k ob -> 0 <= t < N -> match istep N setup nact act t ob with None => False | Some None => True | Some (Some ob') => Jr (k + 1) ob' end.
Proof.
  intros R Ht. destruct (Hset k ob R) as (_ & NU & _). specialize (NU t Ht). destruct (istep N setup nact act t ob) as [[ob'|]|] eqn:E; [econstructor; eauto|exact I|congruence].
Qed.
Notation ok := (gok N N m0 old calls Jr).
Lemma ok_step k s t : ok k s -> 0 <= t < N -> match step t s with None => False | Some None => True | Some (Some s') => ok (k + 1) s' end.
Proof. exact (gok_step N N setup nact act m0 HN old calls Hcalls Jr False ltac:(constructor) pcs_len Jr_step k s t). Qed.

(** Somebody can move until all calls are made. *)
Lemma gok_live k s : ok k s -> all_made N calls O s \/ exists t s', 0 <= t < N /\ step t s = Some (Some s').
Proof.
  intros GK. pose proof GK as (HL & HI).
  assert (MV : forall t th, get (g_th s) t = Some th -> step t s <> Some None -> exists t s', 0 <= t < N /\ step t s = Some (Some s')).
  { intros t th G NS. assert (Ht : 0 <= t < N) by (apply get_Some_bounds in G; lia). pose proof (ok_step k s t GK Ht) as X. destruct (step t s) as [[s'|]|] eqn:E; [eauto|congruence|contradiction]. }
  assert (GM : forall t i os a g th, gmove s t i os a g th <> Some None) by (intros; unfold gmove; destruct (set _ _ _); discriminate).
  assert (AR : forall t th p, garrive N s t th p <> Some None) by (intros; unfold garrive; destruct (_ =? _); apply GM).
  destruct HI as [E1 E2 E3 E4 E5 HA HW|E3 E4 E5 HA H0 HW|ob ko E3 E1 E2 R HA HW].
  - right. destruct (tcnt_find isW1 (g_th s)) as [F|(t & th & G & F)].
    + rewrite tcnt_all in E4; [lia|]. intros t th G. now rewrite (F t th G).
    + apply (MV t th G). unfold gstep. rewrite G. destruct (HA t th G) as (A1 & _ & A2). pose proof (Hcalls t ltac:(apply get_Some_bounds in G; lia)).
      unfold isW1 in F. destruct A2 as [A2|[A2|A2]]; rewrite A2 in *; try discriminate.
      * destruct (Z.eqb_spec (t_left th) 0); [lia|]. apply GM.
      * apply AR.
  - right. destruct (tcnt_find isW2 (g_th s)) as [F|(t & th & G & F)].
    + rewrite tcnt_all in E4; [lia|]. intros t th G. now rewrite (F t th G).
    + apply (MV t th G). unfold gstep. rewrite G. destruct (HA t th G) as (A1 & _ & A2).
      unfold isW2 in F. destruct A2 as [A2|[(A2 & _)|[A2|A2]]]; rewrite A2 in *; try discriminate.
      * rewrite E3. cbn [Z.eqb]. apply GM.
      * apply GM.
      * apply AR.
  - destruct (tcnt_find (fun th => match t_pc th with GTest => t_left th =? 0 | GInit _ => true | _ => false end) (g_th s)) as [F|(t & th & G & F)].
    + destruct (Hset ko ob R) as (_ & _ & [AD|(t & ob' & Ht & EI)] & _).
      * destruct (tcnt_find (fun th => match t_pc th with GTest => t_left th =? 0 | _ => false end) (g_th s)) as [F'|(t & th & G & F')].
        -- left. intros t Ht. destruct (get_in_range (g_th s) t) as (th & G); [lia|]. rewrite G. specialize (F' t th G). destruct (HA t th G) as (A1 & A2 & _).
           destruct th as [pc lf gt]. cbn [t_pc t_left t_got] in *. destruct pc; try discriminate. assert (lf = 0) by lia. subst lf. rewrite A2. now rewrite Z.sub_0_r.
        -- right. apply (MV t th G). unfold gstep. rewrite G. specialize (F t th G). cbn beta in F.
           destruct (HA t th G) as (A1 & A2 & [(A3 & _)|(A3 & [(A6 & [A4|A4])|(A4 & _)])]); [rewrite A3 in *; congruence|rewrite A4 in F; discriminate| |rewrite A4 in F; discriminate].
           rewrite A4. rewrite E2, get_last, (AD t) by (apply get_Some_bounds in G; lia). apply GM.
      * right. destruct (get_in_range (g_th s) t) as (th & G); [lia|]. apply (MV t th G). unfold gstep. rewrite G. specialize (F t th G). cbn beta in F.
        assert (ND : get (ipcs ob) t <> Some IDone) by (intros D; unfold istep in EI; rewrite D in EI; discriminate).
        destruct (HA t th G) as (A1 & A2 & [(A3 & A4)|(A3 & [(A6 & [A4|A4])|(A4 & _)])]); [contradiction|rewrite A4 in F; discriminate| |rewrite A4 in F; discriminate].
        rewrite A4. rewrite E2, get_last. rewrite EI, set_last. destruct (get (ipcs ob) t) as [p|]; [|discriminate]. destruct p; try congruence; apply GM.
    + right. apply (MV t th G). unfold gstep. rewrite G.
      destruct (HA t th G) as (A1 & A2 & [(A3 & A4)|(A3 & [(A6 & [A4|A4])|(A4 & A5)])]).
      * rewrite A3 in *. rewrite F. apply GM.
      * rewrite A4. rewrite E3, E1. cbn [Z.eqb Pos.eqb]. apply GM.
      * rewrite A4 in F. discriminate.
      * rewrite A4. rewrite E1. apply GM.
Qed.

(** Every thread gets the same object, made once, and only after it is set up
    completely; objects made earlier are not touched. *)
Definition one_object (s : @gstate M) : Prop :=
  (g_objs s = old \/ exists ob, g_objs s = old ++ [ob]) /\
  ((exists t th, get (g_th s) t = Some th /\ t_got th <> []) ->
   g_inst s = Some O /\ exists ob, g_objs s = old ++ [ob] /\ complete (imem ob)).
Theorem same_gives : gives N N setup nact act m0 start calls (8 * zsum (map calls (zrange 0 N)) + B) O one_object.
Proof.
  intros k s R. pose proof (gok_run N N setup nact act m0 HN old calls Hcalls Jr False ltac:(constructor) pcs_len Jr_step k s R) as GK. pose proof GK as (HL & HI).
  assert (W0 : gleft (M := M) start = 8 * zsum (map calls (zrange 0 N))).
  { unfold gleft, tcnt, gstart. cbn [g_th]. rewrite map_map. generalize (zrange 0 N). induction l as [|x l IH]; [reflexivity|]. cbn [map zsum fold_right]. unfold zsum in IH. rewrite IH. unfold left1. cbn [t_pc t_left]. lia. }
  split; [|split; [|split; [|split]]].
  - assert (B0 : 0 <= B). { destruct (Hset 0 (istart N m0) ltac:(constructor)) as (X & _). lia. }
    destruct HI as [E1 E2 E3 E4 E5 HA HW|E3 E4 E5 HA H0 HW|ob ko E3 E1 E2 R' HA HW].
    + assert (0 <= gleft s); [|lia]. apply tcnt_nonneg. intros t th G. destruct (HA t th G) as (A1 & _ & A2). pose proof (Hcalls t ltac:(apply get_Some_bounds in G; lia)). unfold left1. destruct (t_pc th); lia.
    + assert (0 <= gleft s); [|lia]. apply tcnt_nonneg. intros t th G. destruct (HA t th G) as (A1 & _ & A2). pose proof (Hcalls t ltac:(apply get_Some_bounds in G; lia)). unfold left1. destruct (t_pc th); lia.
    + destruct (Hset ko ob R') as (KB & _). assert (0 <= gleft s); [|lia]. apply tcnt_nonneg. intros t th G. destruct (HA t th G) as (A1 & _ & A2). unfold left1.
      destruct A2 as [(A2 & _)|(A3 & _)]; [rewrite A2; lia|]. destruct (t_pc th); lia.
  - intros t Ht E. pose proof (ok_step k s t GK Ht) as X. now rewrite E in X.
  - eapply gok_live; eauto.
  - intros t th v G V. destruct HI as [E1 E2 E3 E4 E5 HA HW|E3 E4 E5 HA H0 HW|ob ko E3 E1 E2 R' HA HW].
    + destruct (HA t th G) as (_ & A & _). rewrite A in V. contradiction.
    + destruct (HA t th G) as (_ & A & _). rewrite A in V. contradiction.
    + destruct (HA t th G) as (_ & A & _). rewrite A in V. now apply repeat_spec in V.
  - destruct HI as [E1 E2 E3 E4 E5 HA HW|E3 E4 E5 HA H0 HW|ob ko E3 E1 E2 R' HA HW].
    + split; [auto|]. intros (t & th & G & NE). destruct (HA t th G) as (_ & A & _). contradiction.
    + split.
      * destruct (get_in_range (g_th s) 0) as (th0 & G0); [lia|]. specialize (H0 th0 G0). destruct (pre0 (t_pc th0)); destruct H0 as (_ & ->); eauto.
      * intros (t & th & G & NE). destruct (HA t th G) as (_ & A & _). contradiction.
    + split; [eauto|]. intros (t & th & G & NE). split; auto. exists ob. split; auto.
      destruct (Hset ko ob R') as (_ & _ & _ & CP). apply CP. exists t. destruct (HA t th G) as (A1 & A2 & A3).
      destruct A3 as [(_ & A3)|(_ & [(A4 & _)|(_ & A4)])]; auto.
      rewrite A2, A4, Z.sub_diag in NE. now elim NE.
Qed.
End Same.

(** ** The instance exists already *)
Section There.
Context {M : Type}.
Variables (T N : Z) (setup : Z -> M -> option M) (nact : Z -> Z) (act : Z -> Z -> M -> option M) (m0 : M).
Variables (o : Z) (old : list (@istate M)) (calls : Z -> Z).
Hypothesis HT : 0 <= T.
Hypothesis Hcalls : forall t, 0 <= t < T -> 0 <= calls t.
Definition left2 (th : gth) : Z := 2 * t_left th - match t_pc th with GTest => 0 | _ => 1 end.
Definition there (k : Z) (s : @gstate M) : Prop :=
  g_inst s = Some o /\ g_objs s = old /\ Zlen (g_th s) = T /\ k + tcnt left2 (g_th s) = 2 * zsum (map calls (zrange 0 T)) /\
  forall t th, get (g_th s) t = Some th -> 0 <= t_left th <= calls t /\ t_got th = repeat o (Z.to_nat (calls t - t_left th)) /\ (t_pc th = GTest \/ t_pc th = GRet /\ 1 <= t_left th).
Lemma there_step k s t : there k s -> 0 <= t < T ->
  match gstep T N setup nact act m0 t s with None => False | Some None => exists th, get (g_th s) t = Some th /\ t_pc th = GTest /\ t_left th = 0 | Some (Some s') => there (k + 1) s' end.
Proof.
  intros (E1 & E2 & HL & HW & HA) Ht. destruct (get_in_range (g_th s) t) as (th & G); [lia|].
  destruct (HA t th G) as (Hl & Hg & HP). unfold gstep, goto, gmove. rewrite G.
  assert (SS : forall x, exists l', set (g_th s) t x = Some l' /\ Zlen l' = T /\ tcnt left2 l' = tcnt left2 (g_th s) - left2 th + left2 x).
  { intros x. destruct (set_ok (g_th s) t x) as (l' & S); [lia|]. exists l'. split; auto. split; [rewrite (set_len _ _ _ _ S); auto|apply (tcnt_set left2 _ _ _ _ _ G S)]. }
  destruct HP as [HP|(HP & Hl1)]; rewrite HP.
  - destruct (Z.eqb_spec (t_left th) 0) as [Z0|NZ]; [eauto|]. rewrite E1. destruct (SS (mkT GRet (t_left th) (t_got th))) as (l' & S & L & LW). rewrite S.
    split; auto. split; auto. split; auto. cbn [g_th]. split; [rewrite LW; unfold left2 at 2 3; cbn [t_pc t_left]; rewrite HP; lia|].
    apply (set_all _ _ _ _ _ S); [|exact HA]. cbn [t_pc t_left t_got]. split; [lia|]. split; auto. right. split; auto. lia.
  - rewrite E1. destruct (SS (mkT GTest (t_left th - 1) (t_got th ++ [o]))) as (l' & S & L & LW). rewrite S.
    split; auto. split; auto. split; auto. cbn [g_th]. split; [rewrite LW; unfold left2 at 2 3; cbn [t_pc t_left]; rewrite HP; lia|].
    apply (set_all _ _ _ _ _ S); [|exact HA]. cbn [t_pc t_left t_got]. split; [lia|]. split; auto.
    rewrite Hg. replace (Z.to_nat (calls t - (t_left th - 1))) with (Z.to_nat (calls t - t_left th) + 1)%nat by lia. rewrite repeat_app. reflexivity.
Qed.
Lemma there_run k s : grun T N setup nact act m0 (gstart T (Some o) old calls) k s -> there k s.
Proof.
  induction 1 as [|k s t s' R IH Ht E]; [|pose proof (there_step k s t IH Ht) as X; now rewrite E in X].
  split; [reflexivity|]. split; [reflexivity|]. assert (L : Zlen (g_th (gstart T (Some o) old calls)) = T) by (cbn [g_th gstart]; rewrite Zlen_map, Zlen_zrange; lia).
  split; auto. split.
  - cbn [g_th gstart]. unfold tcnt. rewrite map_map. generalize (zrange 0 T). induction l as [|x l IH]; [reflexivity|]. cbn [map zsum fold_right]. unfold zsum in IH. unfold left2 at 1. cbn [t_pc t_left]. lia.
  - intros t th G. pose proof (get_Some_bounds _ _ _ G) as Bd. rewrite L in Bd. cbn [g_th gstart] in G. rewrite get_map in G. rewrite get_zrange in G by lia. cbn [option_map] in G. injection G as <-. cbn [t_pc t_left t_got].
    change (0 + t) with t. pose proof (Hcalls t Bd). split; [lia|]. rewrite Z.sub_diag. auto.
Qed.
Theorem there_gives : gives T N setup nact act m0 (gstart T (Some o) old calls) calls (2 * zsum (map calls (zrange 0 T))) o (fun s => g_inst s = Some o /\ g_objs s = old).
Proof.
  intros k s R. pose proof (there_run k s R) as TH. pose proof TH as (E1 & E2 & HL & HW & HA). split; [|split; [|split; [|split]]].
  - assert (0 <= tcnt left2 (g_th s)); [|lia]. apply tcnt_nonneg. intros t th G. destruct (HA t th G) as (A1 & _ & A2). unfold left2. destruct A2 as [A2|(A2 & A3)]; rewrite A2; lia.
  - intros t Ht E. pose proof (there_step k s t TH Ht) as X. now rewrite E in X.
  - destruct (tcnt_find (fun th => match t_pc th with GTest => t_left th =? 0 | _ => false end) (g_th s)) as [F|(t & th & G & F)].
    + left. intros t Ht. destruct (get_in_range (g_th s) t) as (th & G); [lia|]. rewrite G. specialize (F t th G). destruct (HA t th G) as (A1 & A2 & _).
      destruct th as [pc lf gt]. cbn [t_pc t_left t_got] in *. destruct pc; try discriminate. assert (lf = 0) by lia. subst lf. rewrite A2. now rewrite Z.sub_0_r.
    + right. assert (Ht : 0 <= t < T) by (apply get_Some_bounds in G; lia). pose proof (there_step k s t TH Ht) as X. destruct (gstep T N setup nact act m0 t s) as [[s'|]|] eqn:E; [eauto| |contradiction].
      destruct X as (th' & G' & X1 & X2). rewrite G in G'. injection G' as <-. rewrite X1, X2 in F. discriminate.
  - intros t th v G V. destruct (HA t th G) as (_ & A & _). rewrite A in V. now apply repeat_spec in V.
  - auto.
Qed.
End There.

(** ** The object is made for a larger team *)
Section Short.
Context {M : Type}.
Variables (T N : Z) (setup : Z -> M -> option M) (nact : Z -> Z) (act : Z -> Z -> M -> option M) (m0 : M).
Hypothesis HT : 1 <= T < N.
Definition short (k : Z) (ob : @istate M) : Prop :=
  Zlen (ipcs ob) = T /\ istat ob = 0 /\ iwait ob + cnt 3 (ipcs ob) = N /\ forall t p, get (ipcs ob) t = Some p -> p = ISetup \/ p = IDec1 \/ p = ISpin1.
Lemma cnt_le c l : cnt c l <= Zlen l.
Proof. clear. unfold cnt. induction l as [|x l IH]; [reflexivity|]. rewrite Zlen_cons. cbn [map zsum fold_right]. unfold zsum in IH. unfold b2z at 1. destruct (cls x =? c); lia. Qed.
Lemma short_new : short 0 (new_obj T N m0).
Proof.
  unfold short, new_obj. cbn [ipcs istat iwait]. split; [rewrite Zlen_repeat; lia|]. split; auto. split; [destruct (cnt_start N setup nact act (Z.to_nat T)) as (_ & ->); lia|].
  intros t p G. apply get_In, repeat_spec in G. auto.
Qed.
Lemma short_step k ob t : short k ob -> 0 <= t < T -> match istep N setup nact act t ob with None => True | Some None => True | Some (Some ob') => short (k + 1) ob' end.
Proof.
  intros (HL & H0 & HW & HA) Ht. unfold istep. destruct (get_in_range (ipcs ob) t) as (p & G); [lia|]. rewrite G.
  destruct (HA t p G) as [-> | [-> | ->]].
  - destruct (setup t (imem ob)) as [m|]; auto. unfold imove. destruct (set_ok (ipcs ob) t IDec1 ltac:(lia)) as (l' & S). rewrite S. split; [cbn [ipcs]; rewrite (set_len _ _ _ _ S); auto|].
    cbn [ipcs istat iwait]. split; auto. split; [rewrite (cnt_set setup nact act 3 _ _ _ _ _ G S); cbn [cls Z.eqb b2z]; lia|]. apply (set_all _ _ _ _ _ S); auto.
  - unfold imove. assert (C3 : cnt 3 (ipcs ob) + 1 <= T).
    { destruct (set_ok (ipcs ob) t ISpin1 ltac:(lia)) as (l' & S). pose proof (cnt_set setup nact act 3 _ _ _ _ _ G S) as C. cbn [cls Z.eqb Pos.eqb b2z] in C. pose proof (cnt_le 3 l'). rewrite (set_len _ _ _ _ S) in *. lia. }
    destruct (Z.eqb_spec (iwait ob - 1) 0) as [E|_]; [lia|].
    destruct (set_ok (ipcs ob) t ISpin1 ltac:(lia)) as (l' & S). rewrite S. split; [cbn [ipcs]; rewrite (set_len _ _ _ _ S); auto|].
    cbn [ipcs istat iwait]. split; auto. split; [rewrite (cnt_set setup nact act 3 _ _ _ _ _ G S); cbn [cls Z.eqb Pos.eqb b2z]; lia|]. apply (set_all _ _ _ _ _ S); auto.
  - rewrite H0. cbn [Z.eqb]. exact I.
Qed.
Theorem short_never old calls : (forall t, 0 <= t < T -> 1 <= calls t) ->
  forall k s, grun T N setup nact act m0 (gstart T None old calls) k s -> forall t th, get (g_th s) t = Some th -> t_got th = [].
Proof.
  intros Hc k s R t th G.
  assert (X : gok T N m0 old calls short k s).
  { eapply gok_run; eauto; [lia|exact short_new|intros ? ? X; apply X|exact short_step]. }
  destruct X as (HL & HI). destruct HI as [E1 E2 E3 E4 E5 HA HW|E3 E4 E5 HA H0 HW|ob ko E3 E1 E2 R' HA HW].
  - apply (HA t th G).
  - apply (HA t th G).
  - destruct R' as (_ & _ & _ & NP). destruct (HA t th G) as (A1 & A2 & A3).
    assert (ND : get (ipcs ob) t <> Some IDone) by (intros D; destruct (NP t _ D) as [Q|[Q|Q]]; discriminate).
    destruct A3 as [(_ & A3)|(_ & [(A4 & _)|(_ & A4)])]; try contradiction. rewrite A2, A4, Z.sub_diag. reflexivity.
Qed.
End Short.

(** ** The destructor *)
(** The blocks of an object: the three tables of the constructor (barrier.cpp:111-122)
    and, for every core, what its first thread allocates in init (137-152). *)
Inductive blk := BCores | BThreadCores | BCoreTids | BCore (i : Z) | BSenses (i : Z) | BFlags (i j : Z) | BPartner (i j : Z).
Definition blk_eq_dec (a b : blk) : {a = b} + {a <> b}.
Proof. decide equality; apply Z.eq_dec. Defined.
Definition heap := blk -> bool.
Definition free (b : blk) (h : heap) : option heap := if h b then Some (fun x => if blk_eq_dec x b then false else h x) else None.
Definition touch (b : blk) (h : heap) : option heap := if h b then Some h else None.
(** barrier.cpp:279-295, where [m] is the memory of the object; [n] is numCores. *)
Definition destroy (n : Z) (ready : bool) (m : bmem) (h : heap) : option heap :=
  h <- (if ready then
          forZ 0 n (fun i h =>
            h <- touch BCores h ;; c <- rd n (b_cores m) i ;; h <- touch (BCore c) h ;;
            h <- free (BSenses c) h ;;
            h <- forZ 0 2 (fun j h => h <- touch (BCore c) h ;; h <- free (BFlags c j) h ;; free (BPartner c j) h) h ;;
            free (BCore c) h) h
        else Some h) ;;
  h <- free BCoreTids h ;; h <- free BThreadCores h ;; free BCores h.
(** What the constructor and [n] first threads have allocated. *)
Definition allocated (n : Z) : heap := fun b =>
  match b with
  | BCores | BThreadCores | BCoreTids => true
  | BCore i | BSenses i => (0 <=? i) && (i <? n)
  | BFlags i j | BPartner i j => (0 <=? i) && (i <? n) && ((j =? 0) || (j =? 1))
  end.

Definition from (k n : Z) (h : heap) : Prop := forall b, h b = allocated n b && match b with BCore i | BSenses i | BFlags i _ | BPartner i _ => k <=? i | _ => true end.
Lemma free_ok b h : h b = true -> exists h', free b h = Some h' /\ forall x, h' x = if blk_eq_dec x b then false else h x.
Proof. intros H. unfold free. rewrite H. eauto. Qed.
Theorem destroy_ok n tpc L m h : 0 <= n -> b_ready n tpc L m -> (forall b, h b = allocated n b) -> exists h', destroy n true m h = Some h' /\ forall b, h' b = false.
Proof.
  intros Hn (HR & _) HH. unfold destroy. cbn [forZ].
  destruct (forZ_rule (fun i h => from i n h) 0 n (fun i h =>
            h <- touch BCores h ;; c <- rd n (b_cores m) i ;; h <- touch (BCore c) h ;;
            h <- free (BSenses c) h ;;
            h <- forZ 0 2 (fun j h => h <- touch (BCore c) h ;; h <- free (BFlags c j) h ;; free (BPartner c j) h) h ;;
            free (BCore c) h) h) as (h1 & E & F); [lia| | |].
  - intros b. rewrite HH. destruct b; cbn [allocated]; lia.
  - clear h HH. intros i h Hi F. unfold touch at 1. rewrite (F BCores). cbn [allocated andb].
    destruct (HR i Hi) as (Hc & _). rewrite (rd_ok _ _ _ _ Hi Hc). unfold touch at 1. rewrite (F (BCore i)). cbn [allocated].
    replace ((0 <=? i) && (i <? n) && (i <=? i)) with true by lia.
    destruct (free_ok (BSenses i) h) as (h1 & E1 & F1); [rewrite F; cbn [allocated]; lia|]. rewrite E1.
    change (zrange 0 2) with [0; 1]. unfold forZ. change (zrange 0 2) with [0; 1]. cbn [foldM].
    unfold touch at 1. rewrite F1. destruct (blk_eq_dec (BCore i) (BSenses i)) as [X|_]; [discriminate|]. rewrite F. cbn [allocated]. replace ((0 <=? i) && (i <? n) && (i <=? i)) with true by lia.
    destruct (free_ok (BFlags i 0) h1) as (h2 & E2 & F2); [rewrite F1; destruct (blk_eq_dec _ _) as [X|_]; [discriminate|]; rewrite F; cbn [allocated]; lia|]. rewrite E2.
    destruct (free_ok (BPartner i 0) h2) as (h3 & E3 & F3); [rewrite F2, F1; repeat (destruct (blk_eq_dec _ _) as [X|_]; [discriminate|]); rewrite F; cbn [allocated]; lia|]. rewrite E3.
    unfold touch at 1. rewrite F3, F2, F1. repeat (destruct (blk_eq_dec (BCore i) _) as [X|_]; [discriminate|]). rewrite F. cbn [allocated]. replace ((0 <=? i) && (i <? n) && (i <=? i)) with true by lia.
    destruct (free_ok (BFlags i 1) h3) as (h4 & E4 & F4); [rewrite F3, F2, F1; repeat (destruct (blk_eq_dec _ _) as [X|_]; [discriminate|]); rewrite F; cbn [allocated]; lia|]. rewrite E4.
    destruct (free_ok (BPartner i 1) h4) as (h5 & E5 & F5); [rewrite F4, F3, F2, F1; repeat (destruct (blk_eq_dec _ _) as [X|_]; [discriminate|]); rewrite F; cbn [allocated]; lia|]. rewrite E5.
    destruct (free_ok (BCore i) h5) as (h6 & E6 & F6); [rewrite F5, F4, F3, F2, F1; repeat (destruct (blk_eq_dec _ _) as [X|_]; [discriminate|]); rewrite F; cbn [allocated]; lia|]. rewrite E6.
    exists h6. split; auto. intros b. rewrite F6, F5, F4, F3, F2, F1, F.
    repeat (match goal with |- context [blk_eq_dec b ?x] => destruct (blk_eq_dec b x) as [->|?] end; [cbn [allocated]; lia|]).
    destruct b as [| | |j|j|j q|j q]; cbn [allocated]; auto.
    + assert (j <> i) by congruence. lia.
    + assert (j <> i) by congruence. lia.
    + assert (j <> i \/ (q <> 0 /\ q <> 1)) by (destruct (Z.eq_dec j i) as [->|]; [right; split; congruence|left; auto]). lia.
    + assert (j <> i \/ (q <> 0 /\ q <> 1)) by (destruct (Z.eq_dec j i) as [->|]; [right; split; congruence|left; auto]). lia.
  - rewrite E.
    destruct (free_ok BCoreTids h1) as (h2 & E2 & F2); [rewrite F; reflexivity|]. rewrite E2.
    destruct (free_ok BThreadCores h2) as (h3 & E3 & F3); [rewrite F2; destruct (blk_eq_dec _ _) as [X|_]; [discriminate|]; rewrite F; reflexivity|]. rewrite E3.
    destruct (free_ok BCores h3) as (h4 & E4 & F4); [rewrite F3, F2; repeat (destruct (blk_eq_dec _ _) as [X|_]; [discriminate|]); rewrite F; reflexivity|]. rewrite E4.
    exists h4. split; auto. intros b. rewrite F4, F3, F2, F. repeat (match goal with |- context [blk_eq_dec b ?x] => destruct (blk_eq_dec b x) as [->|?] end; [reflexivity|]).
    destruct b as [| | |j|j|j q|j q]; cbn [allocated]; try congruence; lia.
Qed.

(** ** Uses of the instance one after another *)
Section Life.
Context {M : Type}.
Variables (N : Z) (setup : Z -> M -> option M) (nact : Z -> Z) (act : Z -> Z -> M -> option M) (m0 : M) (B : Z) (complete : M -> Prop).
Hypothesis HN : 1 <= N.
Hypothesis Hset : set_up N setup nact act m0 B complete.
(** [instance], every object made so far (as init left it) and the objects deleted. *)
Record world := mkW { w_inst : option Z; w_objs : list (@istate M); w_dead : list Z }.
(** A region whose threads all call getInstance or initializeInstance, or, once
    there is an instance, some of them; a call outside of a region
    (barrier.cpp:92-99), after which init runs in a region of its own; deleteInstance
    (104-108). *)
Inductive used : world -> world -> Prop :=
| U_region w calls k s : (forall t, 0 <= t < N -> (match w_inst w with None => 1 | Some _ => 0 end) <= calls t) ->
    grun N N setup nact act m0 (gstart N (w_inst w) (w_objs w) calls) k s ->
    (forall t, 0 <= t < N -> exists got, get (g_th s) t = Some (mkT GTest 0 got)) ->
    used w (mkW (g_inst s) (g_objs s) (w_dead w))
| U_serial w k ob : w_inst w = None -> irun N setup nact act (istart N m0) k ob -> (forall t, 0 <= t < N -> get (ipcs ob) t = Some IDone) ->
    used w (mkW (Some (Zlen (w_objs w))) (w_objs w ++ [ob]) (w_dead w))
| U_delete w : used w (mkW None (w_objs w) (match w_inst w with Some o => o :: w_dead w | None => w_dead w end)).
Inductive lived : world -> Prop :=
| L_start : lived (mkW None [] [])
| L_use w w' : lived w -> used w w' -> lived w'.

(** Every object was deleted at most once, all but the instance have been
    deleted, and the instance was set up completely. *)
Definition well_kept (w : world) : Prop :=
  NoDup (w_dead w) /\ (forall o, In o (w_dead w) -> 0 <= o < Zlen (w_objs w)) /\
  Zlen (w_dead w) + match w_inst w with Some _ => 1 | None => 0 end = Zlen (w_objs w) /\
  match w_inst w with Some o => ~ In o (w_dead w) /\ exists ob, get (w_objs w) o = Some ob /\ complete (imem ob) | None => True end.

Lemma stopped s : (forall t, 0 <= t < N -> exists got, get (g_th s) t = Some (mkT GTest 0 got)) -> forall t s', 0 <= t < N -> gstep N N setup nact act m0 t s = Some (Some s') -> False.
Proof. intros H t s' Ht E. destruct (H t Ht) as (got & G). unfold gstep in E. rewrite G in E. cbn [t_pc t_left Z.eqb] in E. discriminate. Qed.

Theorem life_ok w : lived w -> well_kept w.
Proof.
  induction 1 as [|w w' L IH U].
  - split; [constructor|]. split; [intros o []|]. split; [reflexivity|exact I].
  - destruct IH as (D1 & D2 & D3 & D4). pose proof (Zlen_nonneg (w_objs w)) as LN. destruct U as [w calls k s Hc R F|w k ob E R F|w].
    + destruct (w_inst w) as [o|] eqn:E.
      * destruct (there_gives N N setup nact act m0 o (w_objs w) calls ltac:(lia) Hc k s R) as (_ & _ & _ & _ & E1 & E2).
        unfold well_kept. cbn [w_inst w_objs w_dead]. rewrite E1, E2. auto.
      * destruct (same_gives N setup nact act m0 B complete HN Hset (w_objs w) calls Hc k s R) as (_ & _ & [AM|(t & s' & Ht & E')] & _ & _ & OB); [|exfalso; eapply stopped; eauto].
        destruct OB as (E1 & ob & E2 & C).
        { exists 0. eexists. split; [apply AM; lia|]. cbn [t_got]. specialize (Hc 0 ltac:(lia)). destruct (Z.to_nat (calls 0)) eqn:Q; [lia|]. discriminate. }
        unfold well_kept. cbn [w_inst w_objs w_dead]. rewrite E1, E2, Zlen_app. change (Zlen [ob]) with 1.
        split; auto. split; [intros o Ho; specialize (D2 o Ho); lia|]. split; [lia|]. split; [intros Ho; specialize (D2 _ Ho); lia|].
        exists ob. split; auto. apply get_last.
    + rewrite E in *. unfold well_kept. cbn [w_inst w_objs w_dead]. rewrite Zlen_app. change (Zlen [ob]) with 1.
      split; auto. split; [intros o Ho; specialize (D2 o Ho); lia|]. split; [lia|]. split; [intros Ho; specialize (D2 _ Ho); lia|].
      exists ob. split; [apply get_last|]. destruct (Hset k ob R) as (_ & _ & _ & C). apply C. exists 0. apply F. lia.
    + unfold well_kept. cbn [w_inst w_objs w_dead]. destruct (w_inst w) as [o|]; [|auto]. destruct D4 as (ND & ob & G & _).
      split; [constructor; auto|]. split; [intros x [<-|Hx]; [apply get_Some_bounds in G; lia|auto]|]. split; [rewrite Zlen_cons; lia|exact I].
Qed.
End Life.

(** ** The barrier *)
(** barrier.cpp:74-83: with __MIC__ four, two or one threads per core, else one. *)
Definition threads_per_core (mic : bool) (T : nat) : nat :=
  if mic then (if (T mod 4 =? 0)%nat then 4 else if (T mod 2 =? 0)%nat then 2 else 1)%nat else 1%nat.
Lemma threads_per_core_ok mic T : (1 <= T)%nat -> (1 <= threads_per_core mic T <= 4)%nat /\ (1 <= T / threads_per_core mic T)%nat /\ (T / threads_per_core mic T * threads_per_core mic T = T)%nat.
Proof.
  intros HT. unfold threads_per_core.
  assert (Q : forall k, k <> 0%nat -> (T mod k = 0)%nat -> (1 <= T / k /\ T / k * k = T)%nat).
  { intros k Hk E. pose proof (Nat.div_mod T k Hk) as D. rewrite E in D. split; [|lia]. destruct (T / k)%nat; lia. }
  destruct mic; [|split; [lia|]; apply Q; [lia|apply Nat.mod_1_r]].
  destruct (Nat.eqb_spec (T mod 4) 0); [split; [lia|]; apply Q; auto|].
  destruct (Nat.eqb_spec (T mod 2) 0); [split; [lia|]; apply Q; auto|]. split; [lia|]. apply Q; [lia|apply Nat.mod_1_r].
Qed.

(** The junk that the allocations of init return. *)
Definition bjunk_ok (n tpc L : nat) (jt jf : Z -> list Z) : Prop := (forall c, Zlen (jt c) = Z.of_nat tpc) /\ (forall c, Zlen (jf c) = Z.of_nat L).
Notation bsetup n tpc jt jf := (b_setup (Z.of_nat n) (Z.of_nat tpc) (Z.of_nat (rounds n)) jt jf).
Notation bnact n tpc := (b_nact (Z.of_nat tpc) (Z.of_nat (rounds n))).
Notation bact n tpc := (b_act (Z.of_nat n) (Z.of_nat tpc)).

Lemma barrier_ready n tpc jt jf : (1 <= n)%nat -> (1 <= tpc <= 128)%nat -> bjunk_ok n tpc (rounds n) jt jf ->
  set_up (Z.of_nat n * Z.of_nat tpc) (bsetup n tpc jt jf) (bnact n tpc) (bact n tpc) b_start (Z.of_nat n * Z.of_nat tpc * (11 + Z.of_nat (rounds n))) (b_ready (Z.of_nat n) (Z.of_nat tpc) (Z.of_nat (rounds n))).
Proof.
  intros Hn Ht (Hjt & Hjf) k s R. destruct (b_init_skeleton (Z.of_nat n) (Z.of_nat tpc) (Z.of_nat (rounds n)) ltac:(lia) ltac:(lia) ltac:(lia) jt jf Hjt Hjf k s R) as (S1 & S2 & S3 & S4).
  split; [|split; [exact S2|split; [exact S3|exact S4]]].
  etransitivity; [exact S1|]. apply zsum_bound; [nia|]. intros t _. unfold b_nact. destruct (_ =? 0); lia.
Qed.

(** What the first region gives: one object, ready when the first thread has it. *)
Definition ready_object (n tpc : nat) (old : list (@istate bmem)) (s : @gstate bmem) : Prop :=
  (g_objs s = old \/ exists ob, g_objs s = old ++ [ob]) /\
  ((exists t th, get (g_th s) t = Some th /\ t_got th <> []) ->
   g_inst s = Some (Zlen old) /\ exists ob, g_objs s = old ++ [ob] /\ b_shows n tpc (rounds n) (imem ob) Barrier.init).

Theorem initialize_ok n tpc jt jf : (1 <= n)%nat -> (1 <= tpc <= 128)%nat -> bjunk_ok n tpc (rounds n) jt jf ->
  forall old calls, (forall t, 0 <= t < Z.of_nat (n * tpc) -> 1 <= calls t) ->
  gives (Z.of_nat (n * tpc)) (Z.of_nat n * Z.of_nat tpc) (bsetup n tpc jt jf) (bnact n tpc) (bact n tpc) b_start (gstart (Z.of_nat (n * tpc)) None old calls) calls
    (8 * zsum (map calls (zrange 0 (Z.of_nat (n * tpc)))) + Z.of_nat (n * tpc) * (11 + Z.of_nat (rounds n))) (Zlen old) (ready_object n tpc old).
Proof.
  intros Hn Ht Hj old calls Hc. rewrite Nat2Z.inj_mul in *. intros k s R.
  assert (HN : 1 <= Z.of_nat n * Z.of_nat tpc) by nia.
  destruct (same_gives _ _ _ _ _ _ _ HN (barrier_ready n tpc jt jf Hn Ht Hj) old calls Hc k s R) as (G1 & G2 & G3 & G4 & O1 & O2).
  split; auto. split; auto. split; auto. split; auto. split; auto. intros X. destruct (O2 X) as (E & ob & E2 & RD). split; auto. exists ob. split; auto. apply b_ready_shows; auto; lia.
Qed.

Theorem get_ok mic T jt jf : (1 <= T)%nat -> let tpc := threads_per_core mic T in let n := (T / tpc)%nat in bjunk_ok n tpc (rounds n) jt jf ->
  forall old calls, (forall t, 0 <= t < Z.of_nat T -> 1 <= calls t) ->
  gives (Z.of_nat T) (Z.of_nat n * Z.of_nat tpc) (bsetup n tpc jt jf) (bnact n tpc) (bact n tpc) b_start (gstart (Z.of_nat T) None old calls) calls
    (8 * zsum (map calls (zrange 0 (Z.of_nat T))) + Z.of_nat T * (11 + Z.of_nat (rounds n))) (Zlen old) (ready_object n tpc old).
Proof.
  intros HT tpc n Hj old calls Hc. destruct (threads_per_core_ok mic T HT) as (H1 & H2 & H3). fold tpc in H1, H2, H3. fold n in H2, H3.
  pose proof (initialize_ok n tpc jt jf H2 ltac:(lia) Hj old calls) as X. rewrite H3 in X. apply X; auto.
Qed.

Theorem barrier_life n tpc jt jf : (1 <= n)%nat -> (1 <= tpc <= 128)%nat -> bjunk_ok n tpc (rounds n) jt jf ->
  forall w, lived (Z.of_nat n * Z.of_nat tpc) (bsetup n tpc jt jf) (bnact n tpc) (bact n tpc) b_start w ->
  well_kept (b_ready (Z.of_nat n) (Z.of_nat tpc) (Z.of_nat (rounds n))) w /\
  forall o ob h, w_inst w = Some o -> get (w_objs w) o = Some ob -> (forall b, h b = allocated (Z.of_nat n) b) ->
    exists h', destroy (Z.of_nat n) true (imem ob) h = Some h' /\ forall b, h' b = false.
Proof.
  intros Hn Ht Hj w L. assert (HN : 1 <= Z.of_nat n * Z.of_nat tpc) by nia. pose proof (life_ok _ _ _ _ _ _ _ HN (barrier_ready n tpc jt jf Hn Ht Hj) w L) as WK. split; auto.
  intros o ob h Ei Go Hh. destruct WK as (_ & _ & _ & X). rewrite Ei in X. destruct X as (_ & ob' & G' & RD). rewrite Go in G'. injection G' as <-.
  eapply destroy_ok; eauto. lia.
Qed.

(** ** Cases *)
(** Three threads with 1, 2 and 3 calls, one object made and deleted earlier. *)
Definition g_old : list (@istate bmem) := [mkI b_start 3 2 [IDone; IDone; IDone]].
Definition g_calls (t : Z) : Z := t + 1.
Definition g_run (tr : list Z) := gexec 3 3 (bsetup 3 1 (fun _ => [7]) (fun _ => [8; 9])) (bnact 3 1) (bact 3 1) b_start tr (gstart 3 None g_old g_calls).
Lemma instance_case : bjunk_ok 3 1 (rounds 3) (fun _ => [7]) (fun _ => [8; 9]) /\
  option_map (fun s => (g_inst s, Zlen (g_objs s), g_th s, option_map (fun ob => (istat ob, map (b_tc (imem ob)) [0; 1; 2])) (get (g_objs s) 1))) (g_run (turns 3 40))
  = Some (Some 1, 2, [mkT GTest 0 [1]; mkT GTest 0 [1; 1]; mkT GTest 0 [1; 1; 1]], Some (2, [Some 0; Some 1; Some 2])).
Proof. split; [split; reflexivity|vm_compute; reflexivity]. Qed.
(** A thread that has not called yet: the others wait at the first barrier of OpenMP. *)
Lemma instance_waits : option_map (fun s => (g_inst s, Zlen (g_objs s), map t_pc (g_th s))) (g_run (concat (repeat [1; 2] 40))) = Some (None, 1, [GTest; GWait1 0; GWait1 0]).
Proof. vm_compute. reflexivity. Qed.

(** initializeInstance(3, 1) by two threads: nobody ever gets the object. *)
Lemma instance_short : forall jt jf calls k s, (forall t, 0 <= t < 2 -> 1 <= calls t) ->
  grun 2 3 (bsetup 3 1 jt jf) (bnact 3 1) (bact 3 1) b_start (gstart 2 None [] calls) k s -> forall t th, get (g_th s) t = Some th -> t_got th = [].
Proof. intros jt jf calls k s Hc R. eapply short_never; eauto. lia. Qed.
Lemma instance_short_case : option_map (fun s => (g_inst s, map t_pc (g_th s), map (fun ob => (iwait ob, ipcs ob)) (g_objs s)))
  (gexec 2 3 (bsetup 3 1 (fun _ => [7]) (fun _ => [8; 9])) (bnact 3 1) (bact 3 1) b_start (turns 2 60) (gstart 2 None [] (fun _ => 1)))
  = Some (Some 0, [GInit 0; GInit 0], [(1, [ISpin1; ISpin1])]).
Proof. vm_compute. reflexivity. Qed.

(** initializeInstance(2, 1) by three threads: the third writes behind the table of cores. *)
Lemma grun_exec {M} T N setup nact act (m0 : M) tr : Forall (fun t => 0 <= t < T) tr -> forall s0 s s' k,
  grun T N setup nact act m0 s0 k s -> gexec T N setup nact act m0 tr s = Some s' -> exists k', grun T N setup nact act m0 s0 k' s'.
Proof.
  induction 1 as [|t tr Hh Hr IH]; intros s0 s s' k R E; cbn [gexec] in E; [injection E as <-; eauto|].
  destruct (gstep T N setup nact act m0 t s) as [[s1|]|] eqn:S; [| |discriminate].
  - eapply IH; [|exact E]. econstructor; eauto.
  - eapply IH; eauto.
Qed.
Lemma instance_long : exists jt jf k s, bjunk_ok 2 1 (rounds 2) jt jf /\
  grun 3 2 (bsetup 2 1 jt jf) (bnact 2 1) (bact 2 1) b_start (gstart 3 None [] (fun _ => 1)) k s /\ gstep 3 2 (bsetup 2 1 jt jf) (bnact 2 1) (bact 2 1) b_start 2 s = None.
Proof.
  exists (fun _ => [7]), (fun _ => [8]).
  destruct (gexec 3 2 (bsetup 2 1 (fun _ => [7]) (fun _ => [8])) (bnact 2 1) (bact 2 1) b_start (turns 3 2 ++ [0; 1; 2; 0; 0; 1; 2; 2; 1; 0]) (gstart 3 None [] (fun _ => 1))) as [s|] eqn:E; [|vm_compute in E; discriminate].
  destruct (grun_exec 3 2 (bsetup 2 1 (fun _ => [7]) (fun _ => [8])) (bnact 2 1) (bact 2 1) b_start (turns 3 2 ++ [0; 1; 2; 0; 0; 1; 2; 2; 1; 0])) with (s0 := gstart 3 None (@nil (@istate bmem)) (fun _ : Z => 1)) (s := gstart 3 None (@nil (@istate bmem)) (fun _ : Z => 1)) (s' := s) (k := 0) as (k & R); auto.
  - vm_compute. repeat constructor; discriminate.
  - constructor.
  - exists k, s. split; [split; reflexivity|]. split; [exact R|].
    assert (Q : option_map (gstep 3 2 (bsetup 2 1 (fun _ => [7]) (fun _ => [8])) (bnact 2 1) (bact 2 1) b_start 2) (Some s) = Some None) by (rewrite <- E; vm_compute; reflexivity).
    cbn [option_map] in Q. injection Q as Q. exact Q.
Qed.

(** Outside of a region, deleted, and again in a region of two threads. *)
Definition i2_setup := bsetup 2 1 (fun _ => [7]) (fun _ => [8]).
Definition l_ob := match iexec 2 i2_setup (bnact 2 1) (bact 2 1) (turns 2 16) (istart 2 b_start) with Some s => s | None => istart 2 b_start end.
Definition l_end := match gexec 2 2 i2_setup (bnact 2 1) (bact 2 1) b_start (turns 2 40) (gstart 2 None [l_ob] g_calls) with Some s => s | None => gstart 2 None [] g_calls end.
Lemma turns_in N k : Forall (fun t => 0 <= t < N) (turns N k).
Proof. apply Forall_forall. intros t H. unfold turns in H. apply in_concat in H as (l & H1 & H2). apply repeat_spec in H1. subst l. apply in_rev in H2. now apply In_zrange in H2. Qed.
Lemma two_cases (P : Z -> Prop) : P 0 -> P 1 -> forall t, 0 <= t < 2 -> P t.
Proof. intros H0 H1 t Ht. assert (E : t = 0 \/ t = 1) by lia. destruct E as [-> | ->]; auto. Qed.
Lemma life_case : let w := mkW (g_inst l_end) (g_objs l_end) [0] in
  lived 2 i2_setup (bnact 2 1) (bact 2 1) b_start w /\ (w_inst w, Zlen (w_objs w), g_th l_end) = (Some 1, 2, [mkT GTest 0 [1]; mkT GTest 0 [1; 1]]).
Proof.
  split; [|vm_compute; reflexivity].
  assert (Eo : iexec 2 i2_setup (bnact 2 1) (bact 2 1) (turns 2 16) (istart 2 b_start) = Some l_ob) by (vm_compute; reflexivity).
  assert (Ee : gexec 2 2 i2_setup (bnact 2 1) (bact 2 1) b_start (turns 2 40) (gstart 2 None [l_ob] g_calls) = Some l_end) by (vm_compute; reflexivity).
  destruct (iexec_irun 2 i2_setup (bnact 2 1) (bact 2 1) b_start (turns 2 16) (turns_in 2 16) _ _ 0 ltac:(constructor) Eo) as (ko & Ro).
  destruct (grun_exec 2 2 i2_setup (bnact 2 1) (bact 2 1) b_start (turns 2 40) (turns_in 2 40) (gstart 2 None [l_ob] g_calls) _ _ 0 ltac:(constructor) Ee) as (ke & Re).
  eapply L_use; [eapply L_use; [eapply L_use; [apply L_start|]|]|].
  - eapply (U_serial _ _ _ _ _ (mkW None [] []) ko l_ob); auto. apply two_cases; vm_compute; reflexivity.
  - apply U_delete.
  - eapply (U_region _ _ _ _ _ (mkW None [l_ob] [0]) g_calls ke l_end).
    + intros t Ht. cbn [w_inst]. unfold g_calls. lia.
    + exact Re.
    + apply two_cases; eexists; vm_compute; reflexivity.
Qed.
Lemma destroy_case : option_map (fun h => map h [BCores; BThreadCores; BCoreTids; BCore 0; BCore 1; BSenses 0; BSenses 1; BFlags 0 0; BFlags 1 1; BPartner 0 1; BPartner 1 0]) (destroy 2 true (imem l_ob) (allocated 2)) = Some (repeat false 11) /\
  destroy 2 true (imem l_ob) (allocated 1) = None.
Proof. split; vm_compute; reflexivity. Qed.
Lemma there_case : option_map (fun s => (g_inst s, Zlen (g_objs s), g_th s)) (gexec 2 3 i2_setup (bnact 2 1) (bact 2 1) b_start (turns 2 6) (gstart 2 (Some 0) [l_ob] g_calls)) = Some (Some 0, 1, [mkT GTest 0 [0]; mkT GTest 0 [0; 0]]).
Proof. vm_compute. reflexivity. Qed.
Lemma initialize_case : bjunk_ok 1 2 (rounds 1) (fun _ => [7; 8]) (fun _ => [9]) /\
  option_map (fun s => (g_inst s, g_th s, map (fun ob => map (b_ct (imem ob)) [0; 1]) (g_objs s))) (gexec 2 2 (bsetup 1 2 (fun _ => [7; 8]) (fun _ => [9])) (bnact 1 2) (bact 1 2) b_start (turns 2 40) (gstart 2 None [] (fun _ => 1)))
  = Some (Some 0, [mkT GTest 0 [0]; mkT GTest 0 [0]], [[Some 0; Some 1]]).
Proof. split; [split; reflexivity|vm_compute; reflexivity]. Qed.
