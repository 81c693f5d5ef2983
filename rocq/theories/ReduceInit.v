(** * Setting up the reducing barrier (/repo/synk/reduce.hpp:107-246) *)
From Verif Require Import Base InitSkel Barrier Reduce BarrierInit.

Section ReduceInit.
(** numCores, nearestPow2Cores, numThreadsPerCore, lgNumCores *)
Variables n P tpc L : Z.

(** Core [c] is named [c], its pseudo core [c] + n.  PseudoCore: coreId, an int8_t,
    myFlags, parity and sense (reduce.hpp:56-65). *)
Record pseudo_obj := mkPs { p_id : Z; p_fl0 : list Z; p_fl1 : list Z; p_par : Z; p_sns : Z }.
Record rmem := mkR {
  r_cores : Z -> option Z;                  (* cores *)
  r_obj : Z -> option core_obj;
  r_ps : Z -> option pseudo_obj;            (* pseudoCore of a core; None: NULL *)
  r_pf : Z -> Z -> Z -> option (Z * Z * Z); (* partnerFlags[j][i] *)
  r_pr : Z -> Z -> option (Z * Z);          (* partnerRvals[i]: element i of myRvals of ... *)
  r_tc : Z -> option Z;                     (* threadCores *)
  r_ct : Z -> option Z }.                   (* coreTids *)
(** reduce.hpp:107-118 *)
Definition r_start : rmem := mkR (fun _ => None) (fun _ => None) (fun _ => None) (fun _ _ _ => None) (fun _ _ => None) (fun _ => None) (fun _ => None).

(** reduce.hpp:130-178; [jt], [jf], [jp]: the memory the allocations return. *)
Definition r_setup (jt jf jp : Z -> list Z) (tid : Z) (m : rmem) : option rmem :=
  let cid := tid / tpc in
  if tid mod tpc =? 0 then
    ts <- fill tpc 1 (jt cid) ;; f0 <- fill L 0 (jf cid) ;; f1 <- fill L 0 (jf (cid + n)) ;;
    ps <- (if cid + n <? P then
             g0 <- fill L 0 (jp cid) ;; g1 <- fill L 0 (jp (cid + n)) ;; Some (Some (mkPs (int8 (cid + n)) g0 g1 0 1))
           else Some None) ;;
    cs <- wr n (r_cores m) cid cid ;;
    Some (mkR cs (put (r_obj m) cid (Some (mkCore 1 ts f0 f1 0 1))) (put (r_ps m) cid ps) (r_pf m) (r_pr m) (r_tc m) (r_ct m))
  else Some m.

(** reduce.hpp:195-211, 222-238: the participant with number [rc]. *)
Definition r_find (m : rmem) (rc : Z) : option Z :=
  if rc <? n then q <- rd n (r_cores m) rc ;; o <- r_obj m q ;; Some q
  else q <- rd n (r_cores m) (rc - n) ;; o <- r_obj m q ;; p <- r_ps m q ;; Some (q + n).
(** partnerRvals[i] and partnerFlags[.][i] of participant [v] point to [q]. *)
Definition r_link (v i q : Z) (m : rmem) : rmem :=
  mkR (r_cores m) (r_obj m) (r_ps m)
    (fun c j r => if (c =? v) && (r =? i) && ((j =? 0) || (j =? 1)) then Some (q, j, i) else r_pf m c j r)
    (fun c r => if (c =? v) && (r =? i) then Some (q, i) else r_pr m c r) (r_tc m) (r_ct m).
(** reduce.hpp:184-242: entry of threadCores, entry of coreTids, the links of round
    [k] - 2.  The operator % is Z.rem. *)
Definition r_nact (tid : Z) : Z := if tid mod tpc =? 0 then 2 + L else 2.
Definition r_act (tid k : Z) (m : rmem) : option rmem :=
  let cid := tid / tpc in
  if k =? 0 then
    c <- rd n (r_cores m) cid ;; tc <- wr (n * tpc) (r_tc m) tid c ;; Some (mkR (r_cores m) (r_obj m) (r_ps m) (r_pf m) (r_pr m) tc (r_ct m))
  else if k =? 1 then
    ct <- wr (n * tpc) (r_ct m) tid (int8 (tid mod tpc)) ;; Some (mkR (r_cores m) (r_obj m) (r_ps m) (r_pf m) (r_pr m) (r_tc m) ct)
  else
    let i := k - 2 in
    own <- r_obj m cid ;;
    q <- r_find m (Z.rem (cid + 2 ^ i) P) ;;
    match r_ps m cid with
    | None => Some (r_link cid i q m)
    | Some p => q' <- r_find m (Z.rem (p_id p + 2 ^ i) P) ;; Some (r_link (cid + n) i q' (r_link cid i q m))
    end.

(** ** Specification *)
Definition r_ready (m : rmem) : Prop :=
  (forall c, 0 <= c < n -> r_cores m c = Some c /\
     r_obj m c = Some (mkCore 1 (repeat 1 (Z.to_nat tpc)) (repeat 0 (Z.to_nat L)) (repeat 0 (Z.to_nat L)) 0 1) /\
     r_ps m c = if c + n <? P then Some (mkPs (int8 (c + n)) (repeat 0 (Z.to_nat L)) (repeat 0 (Z.to_nat L)) 0 1) else None) /\
  (forall v i, 0 <= v < P -> 0 <= i < L -> r_pr m v i = Some ((v + 2 ^ i) mod P, i) /\
     forall j, j = 0 \/ j = 1 -> r_pf m v j i = Some ((v + 2 ^ i) mod P, j, i)) /\
  (forall c t, 0 <= c < n -> 0 <= t < tpc -> r_tc m (c * tpc + t) = Some c /\ r_ct m (c * tpc + t) = Some (int8 t)).

(** ** Proof *)
Hypothesis Hn : 1 <= n.
Hypothesis HP : n <= P < 2 * n.
Hypothesis HP8 : n = P \/ P <= 128.
Hypothesis Ht : 1 <= tpc.
Hypothesis HL : 0 <= L.
Variables jt jf jp : Z -> list Z.
Hypothesis Hjt : forall c, Zlen (jt c) = tpc.
Hypothesis Hjf : forall c, Zlen (jf c) = L.
Hypothesis Hjp : forall c, Zlen (jp c) = L.

Let fresh := mkCore 1 (repeat 1 (Z.to_nat tpc)) (repeat 0 (Z.to_nat L)) (repeat 0 (Z.to_nat L)) 0 1.
Let pfresh c := if c + n <? P then Some (mkPs (int8 (c + n)) (repeat 0 (Z.to_nat L)) (repeat 0 (Z.to_nat L)) 0 1) else None.
Definition r_I1 (d : Z -> bool) (m : rmem) : Prop :=
  forall c, 0 <= c < n -> d (c * tpc) = true -> r_cores m c = Some c /\ r_obj m c = Some fresh /\ r_ps m c = pfresh c.
(** The core that represents a participant. *)
Definition host (v : Z) : Z := if v <? n then v else v - n.
Definition r_I2 (d : Z -> Z) (m : rmem) : Prop :=
  (forall c, 0 <= c < n -> r_cores m c = Some c /\ r_obj m c = Some fresh /\ r_ps m c = pfresh c) /\
  (forall v i, 0 <= v < P -> 0 <= i < L -> i + 2 < d (host v * tpc) -> r_pr m v i = Some ((v + 2 ^ i) mod P, i) /\
     forall j, j = 0 \/ j = 1 -> r_pf m v j i = Some ((v + 2 ^ i) mod P, j, i)) /\
  (forall t, 0 <= t < n * tpc -> (0 < d t -> r_tc m t = Some (t / tpc)) /\ (1 < d t -> r_ct m t = Some (int8 (t mod tpc)))).

Lemma host_ok v : 0 <= v < P -> 0 <= host v < n /\ (v = host v \/ v = host v + n).
Proof using HP. clear - HP. intros H. unfold host. destruct (Z.ltb_spec v n); lia. Qed.
Lemma find_ok m v : (forall c, 0 <= c < n -> r_cores m c = Some c /\ r_obj m c = Some fresh /\ r_ps m c = pfresh c) -> 0 <= v < P -> r_find m v = Some v.
Proof.
  intros H Hv. unfold r_find. destruct (Z.ltb_spec v n) as [A|A].
  - destruct (H v) as (E1 & E2 & _); [lia|]. rewrite (rd_ok n _ v v ltac:(lia) E1), E2. reflexivity.
  - destruct (H (v - n)) as (E1 & E2 & E3); [lia|]. rewrite (rd_ok n _ (v - n) (v - n) ltac:(lia) E1), E2, E3. unfold pfresh. destruct (Z.ltb_spec (v - n + n) P); [|lia]. f_equal. lia.
Qed.
Lemma rem_mod v i : 0 <= v -> 0 <= i -> Z.rem (v + 2 ^ i) P = (v + 2 ^ i) mod P /\ 0 <= (v + 2 ^ i) mod P < P.
Proof. intros Hv Hi. pose proof (Z.pow_nonneg 2 i ltac:(lia)). split; [apply Z.rem_mod_nonneg; lia|apply Z.mod_pos_bound; lia]. Qed.

Theorem r_init_skeleton k s : irun (n * tpc) (r_setup jt jf jp) r_nact r_act (istart (n * tpc) r_start) k s ->
  k <= zsum (map (fun t => 9 + r_nact t) (zrange 0 (n * tpc))) /\
  (forall t, 0 <= t < n * tpc -> istep (n * tpc) (r_setup jt jf jp) r_nact r_act t s <> None) /\
  ((forall t, 0 <= t < n * tpc -> get (ipcs s) t = Some IDone) \/ exists t s', 0 <= t < n * tpc /\ istep (n * tpc) (r_setup jt jf jp) r_nact r_act t s = Some (Some s')) /\
  ((exists t, get (ipcs s) t = Some IDone) -> r_ready (imem s)).
Proof.
  intros R.
  assert (C0 : forall c, 0 <= c < n -> 0 <= c * tpc < n * tpc /\ (c * tpc) / tpc = c /\ (c * tpc) mod tpc = 0).
  { intros c Hc. pose proof (core_tid n tpc Ht c 0 Hc ltac:(lia)) as H. rewrite Z.add_0_r in H. auto. }
  destruct (skeleton (n * tpc) (r_setup jt jf jp) r_nact r_act r_I1 r_I2) with (m := r_start) (k := k) (s := s) as (S1 & S2 & S3 & S4); auto.
  - nia.
  - intros t _. unfold r_nact. destruct (t mod tpc =? 0); lia.
  - intros d d' m E H c Hc D. apply H; auto. rewrite E; auto. apply C0; auto.
  - intros d d' m E (H & H1 & H2). split; auto. split.
    + intros v i Hv Hi Hd. apply H1; auto. rewrite E; auto. apply C0. apply host_ok; auto.
    + intros t Hh. rewrite <- (E t Hh). auto.
  - intros d m t Hh D H. destruct (tid_core n tpc Ht t Hh) as (T1 & T2 & T3). unfold r_setup. destruct (Z.eqb_spec (t mod tpc) 0) as [E|E].
    + rewrite !fill_ok by (auto; lia).
      replace (if t / tpc + n <? P then Some (Some (mkPs (int8 (t / tpc + n)) (repeat 0 (Z.to_nat L)) (repeat 0 (Z.to_nat L)) 0 1)) else Some None) with (Some (pfresh (t / tpc))) by (unfold pfresh; destruct (_ <? P); reflexivity).
      rewrite wr_ok by lia. eexists. split; [reflexivity|]. intros c Hc Dc. cbn [r_cores r_obj r_ps]. unfold put.
      destruct (Z.eqb_spec c (t / tpc)) as [->|Nc]; [auto|]. apply H; auto. destruct (Z.eqb_spec (c * tpc) t) as [Et|Et]; auto. exfalso. apply Nc. rewrite <- Et. symmetry. apply C0; auto.
    + exists m. split; auto. intros c Hc Dc. apply H; auto. destruct (Z.eqb_spec (c * tpc) t) as [Et|Et]; auto. exfalso. apply E. rewrite <- Et. apply C0; auto.
  - intros m H. split; [intros c Hc; apply H; auto|]. split; [intros; lia|]. intros t Hh. split; lia.
  - intros d m t Hh Hd (H & H1 & H2). destruct (tid_core n tpc Ht t Hh) as (T1 & T2 & T3). unfold r_act. destruct (Z.eqb_spec (d t) 0) as [D0|D0]; [|destruct (Z.eqb_spec (d t) 1) as [D1|D1]].
    + destruct (H _ T1) as (A1 & A2 & A3). rewrite (rd_ok n _ _ _ T1 A1). rewrite wr_ok by lia. eexists. split; [reflexivity|]. split; [auto|]. split.
      * intros v i Hv Hi Hd'. cbn [r_pr r_pf]. apply H1; auto. destruct (Z.eqb_spec (host v * tpc) t) as [Et|Et]; [rewrite Et in *|]; lia.
      * intros u Hu. cbn [r_tc r_ct]. unfold put. destruct (H2 u Hu) as (B1 & B2). destruct (Z.eqb_spec u t) as [->|Nu]; split; auto. lia.
    + rewrite wr_ok by lia. eexists. split; [reflexivity|]. split; [auto|]. split.
      * intros v i Hv Hi Hd'. cbn [r_pr r_pf]. apply H1; auto. destruct (Z.eqb_spec (host v * tpc) t) as [Et|Et]; [rewrite Et in *|]; lia.
      * intros u Hu. cbn [r_tc r_ct]. unfold put. destruct (H2 u Hu) as (B1 & B2). destruct (Z.eqb_spec u t) as [->|Nu]; split; auto. intros _. apply B1. lia.
    + assert (Z0 : t mod tpc = 0 /\ d t < 2 + L) by (unfold r_nact in Hd; destruct (Z.eqb_spec (t mod tpc) 0); lia). destruct Z0 as (Z0 & Zd).
      set (c := t / tpc) in *. set (i := d t - 2) in *. assert (Ec : t / tpc = c) by reflexivity. assert (Ei : i = d t - 2) by reflexivity. clearbody c i. assert (Ect : c * tpc = t) by (rewrite Z0 in T3; clear - T3; lia). destruct (H c T1) as (A1 & A2 & A3). rewrite A2.
      assert (I0 : 0 <= i) by lia. destruct (rem_mod c i ltac:(lia) I0) as (R1 & R2). rewrite R1. rewrite (find_ok m _ H R2). rewrite A3. unfold pfresh.
      assert (REST : forall m', r_cores m' = r_cores m -> r_obj m' = r_obj m -> r_ps m' = r_ps m -> r_tc m' = r_tc m -> r_ct m' = r_ct m ->
        (forall v r, 0 <= v < P -> (host v = c -> r = i -> r_pr m' v r = Some ((v + 2 ^ i) mod P, i) /\ forall j, j = 0 \/ j = 1 -> r_pf m' v j r = Some ((v + 2 ^ i) mod P, j, i)) /\
                     (host v <> c \/ r <> i -> r_pr m' v r = r_pr m v r /\ forall j, r_pf m' v j r = r_pf m v j r)) ->
        r_I2 (fun u => if u =? t then d u + 1 else d u) m').
      { intros m' E1 E2 E3 E4 E5 E6. split; [rewrite E1, E2, E3; auto|]. split.
        - intros v r Hv Hr Hd'. destruct (E6 v r Hv) as (F1 & F2). destruct (Z.eq_dec (host v) c) as [Ev|Nv].
          + destruct (Z.eq_dec r i) as [Er|Nr]; [subst r; apply F1; auto|]. destruct (F2 (or_intror Nr)) as (F3 & F4). rewrite F3. rewrite Ev, Ect, Z.eqb_refl in Hd'.
            destruct (H1 v r Hv Hr) as (G1 & G2); [rewrite Ev, Ect; clear - Hd' Nr Ei; lia|]. split; auto. intros j Hj. rewrite F4. auto.
          + destruct (F2 (or_introl Nv)) as (F3 & F4). rewrite F3. destruct (H1 v r Hv Hr) as (G1 & G2).
            { destruct (Z.eqb_spec (host v * tpc) t) as [Et|Et]; auto. exfalso. apply Nv. rewrite <- Ec, <- Et. symmetry. apply C0. apply host_ok; auto. }
            split; auto. intros j Hj. rewrite F4. auto.
        - intros u Hu. rewrite E4, E5. destruct (H2 u Hu) as (B1 & B2). destruct (Z.eqb_spec u t) as [->|Nu]; auto. split; intros _; [apply B1|apply B2]; lia. }
      destruct (Z.ltb_spec (c + n) P) as [PS|PS].
      * cbn [p_id]. assert (B8 : 0 <= c + n < 128) by (clear - HP HP8 Hn T1 PS; lia). rewrite (int8_small (c + n)) by (clear - B8; lia). destruct (rem_mod (c + n) i ltac:(clear - B8; lia) I0) as (R3 & R4). rewrite R3. rewrite (find_ok m _ H R4). eexists. split; [reflexivity|].
        apply REST; try reflexivity. intros v r Hv. unfold r_link. cbn [r_pr r_pf]. clear - HP T1 PS Hv. split.
        -- intros Ev ->. rewrite Z.eqb_refl, !Bool.andb_true_r. destruct (host_ok v Hv) as (_ & [Hh|Hh]).
           ++ rewrite Ev in Hh. subst v. destruct (Z.eqb_spec c (c + n)); [lia|]. rewrite Z.eqb_refl. split; auto. intros j [->| ->]; reflexivity.
           ++ rewrite Ev in Hh. subst v. rewrite Z.eqb_refl. split; auto. intros j [->| ->]; reflexivity.
        -- intros NE. destruct (Z.eqb_spec r i) as [->|Nr]; [|rewrite !Bool.andb_false_r; auto]. rewrite !Bool.andb_true_r. unfold host in NE.
           destruct (Z.eqb_spec v (c + n)) as [->|N1]; [exfalso; destruct (Z.ltb_spec (c + n) n); lia|]. destruct (Z.eqb_spec v c) as [->|N2]; [exfalso; destruct (Z.ltb_spec c n); lia|]. auto.
      * eexists. split; [reflexivity|].
        apply REST; try reflexivity. intros v r Hv. unfold r_link. cbn [r_pr r_pf]. clear - HP T1 PS Hv. split.
        -- intros Ev ->. rewrite Z.eqb_refl, !Bool.andb_true_r. destruct (host_ok v Hv) as (_ & [Hh|Hh]); rewrite Ev in Hh; subst v; [|lia].
           rewrite Z.eqb_refl. split; auto. intros j [->| ->]; reflexivity.
        -- intros NE. destruct (Z.eqb_spec r i) as [->|Nr]; [|rewrite !Bool.andb_false_r; auto]. rewrite !Bool.andb_true_r. unfold host in NE.
           destruct (Z.eqb_spec v c) as [->|N2]; [exfalso; destruct (Z.ltb_spec c n); lia|]. auto.
  - intros c Hc H. discriminate.
  - rewrite todo_start in S1. split; [exact S1|]. split; [exact S2|]. split; [exact S3|]. intros (t & G). destruct (S4 t G) as (H & H1 & H2). split; auto. split.
    + intros v i Hv Hi. apply H1; auto. unfold r_nact. destruct (C0 (host v)) as (_ & _ & ->); [apply host_ok; auto|]. rewrite Z.eqb_refl. lia.
    + intros c u Hc Hu. destruct (core_tid n tpc Ht c u Hc Hu) as (E1 & E2 & E3). destruct (H2 _ E1) as (B1 & B2). rewrite E2 in B1. rewrite E3 in B2.
      assert (2 <= r_nact (c * tpc + u)) by (unfold r_nact; destruct (_ =? 0); lia). split; [apply B1; lia|apply B2; lia].
Qed.
End ReduceInit.

(** ** The start of the machine of Reduce *)
(** The memory is that of state [s] of the machine: senses, flags, parities and links
    of every participant and, for every thread, its core and its number there. *)
Definition r_shows (n P tpc L : nat) (m : rmem) {V} (s : @mstate V) : Prop :=
  (forall c, (c < n)%nat -> exists o, r_cores m (Z.of_nat c) = Some (Z.of_nat c) /\ r_obj m (Z.of_nat c) = Some o /\ o_cs o = b2z (mcs s c) /\
    (forall t, (t < tpc)%nat -> get (o_ts o) (Z.of_nat t) = Some (b2z (mts s c t)) /\
       r_tc m (Z.of_nat (c * tpc + t)) = Some (Z.of_nat c) /\ r_ct m (Z.of_nat (c * tpc + t)) = Some (Z.of_nat t)) /\
    o_par o = b2z (xpar (mx s) c) /\ o_sns o = b2z (xsns (mx s) c) /\
    (forall i, (i < L)%nat -> get (o_fl0 o) (Z.of_nat i) = Some (b2z (xflag (mx s) c false i)) /\ get (o_fl1 o) (Z.of_nat i) = Some (b2z (xflag (mx s) c true i))) /\
    match r_ps m (Z.of_nat c) with
    | None => has_pseudo n P c = false
    | Some p => has_pseudo n P c = true /\ p_par p = b2z (xpar (mx s) (c + n)) /\ p_sns p = b2z (xsns (mx s) (c + n)) /\
        forall i, (i < L)%nat -> get (p_fl0 p) (Z.of_nat i) = Some (b2z (xflag (mx s) (c + n) false i)) /\ get (p_fl1 p) (Z.of_nat i) = Some (b2z (xflag (mx s) (c + n) true i))
    end) /\
  forall v i, (v < P)%nat -> (i < L)%nat -> r_pr m (Z.of_nat v) (Z.of_nat i) = Some (Z.of_nat (xpartner P v i), Z.of_nat i) /\
    forall b, r_pf m (Z.of_nat v) (b2z b) (Z.of_nat i) = Some (Z.of_nat (xpartner P v i), b2z b, Z.of_nat i).

Lemma r_ready_shows n P tpc L m {V} rv0 acc0 tr0 red0 r0 : (1 <= n)%nat -> (1 <= P)%nat -> (tpc <= 128)%nat ->
  r_ready (Z.of_nat n) (Z.of_nat P) (Z.of_nat tpc) (Z.of_nat L) m -> r_shows n P tpc L m (@minit V rv0 acc0 tr0 red0 r0).
Proof.
  intros Hn HP Ht (A & B & C). split.
  - intros c Hc. destruct (A (Z.of_nat c)) as (A1 & A2 & A3); [lia|]. eexists. split; [exact A1|]. split; [exact A2|].
    cbn [o_cs o_par o_sns o_ts o_fl0 o_fl1 mcs mts mx minit xinit xpar xsns xflag b2z]. split; auto. split.
    { intros t Hu. split; [apply get_repeat; lia|]. destruct (C (Z.of_nat c) (Z.of_nat t)) as (B1 & B2); [lia|lia|]. rewrite Nat2Z.inj_add, Nat2Z.inj_mul. rewrite int8_small in B2 by lia. auto. }
    split; auto. split; auto. split; [intros i Hi; split; apply get_repeat; lia|]. rewrite A3. unfold has_pseudo.
    destruct (Z.ltb_spec (Z.of_nat c + Z.of_nat n) (Z.of_nat P)) as [E|E]; destruct (Nat.ltb_spec (c + n) P) as [F|F]; try lia; auto.
    cbn [p_par p_sns p_fl0 p_fl1]. split; auto. split; auto. split; auto. intros i Hi; split; apply get_repeat; lia.
  - intros v i Hv Hi. destruct (B (Z.of_nat v) (Z.of_nat i)) as (B1 & B2); [lia|lia|]. unfold xpartner. rewrite Nat2Z.inj_mod, Nat2Z.inj_add, Nat2Z.inj_pow. split; [exact B1|].
    intros b. apply B2. destruct b; cbn [b2z]; lia.
Qed.

(** /repo/synk/synk.cpp:70-72: while (nearestPow2Cores < numCores) nearestPow2Cores <<= 1.
    [None]: [fuel] was not enough. *)
Fixpoint pow2_loop (fuel : nat) (p n : Z) : option Z :=
  match fuel with O => None | S f => if p <? n then pow2_loop f (2 * p) n else Some p end.
Lemma pow2_loop_ok (n : nat) : (1 <= n)%nat -> exists fuel0, forall fuel, (fuel0 <= fuel)%nat -> pow2_loop fuel 1 (Z.of_nat n) = Some (Z.of_nat (nearest_pow2 n)).
Proof.
  intros Hn. exists (S (Nat.log2_up n)). intros fuel Hf. unfold nearest_pow2. set (l := Nat.log2_up n) in *.
  assert (U : (n <= 2 ^ l)%nat).
  { destruct (Nat.eq_dec n 1) as [->|N1]; [cbv; lia|]. apply Nat.log2_up_spec. lia. }
  assert (B : forall k, (k < l)%nat -> (2 ^ k < n)%nat).
  { intros k Hk. destruct (Nat.eq_dec n 1) as [->|N1]; [cbv in l; subst l; lia|]. pose proof (Nat.log2_up_spec n ltac:(lia)) as [H1 H2].
    apply Nat.le_lt_trans with (2 ^ pred l)%nat; auto. apply Nat.pow_le_mono_r; lia. }
  assert (G : forall j k f, (j + k = l)%nat -> (S j <= f)%nat -> pow2_loop f (2 ^ Z.of_nat k) (Z.of_nat n) = Some (Z.of_nat (2 ^ l))).
  { induction j as [|j IH]; intros k f E F; (destruct f as [|f]; [lia|]); cbn [pow2_loop].
    - replace k with l by lia. change 2 with (Z.of_nat 2). rewrite <- Nat2Z.inj_pow. destruct (Z.ltb_spec (Z.of_nat (2 ^ l)) (Z.of_nat n)); [lia|reflexivity].
    - specialize (B k ltac:(lia)). replace (2 ^ Z.of_nat k <? Z.of_nat n) with true.
      + replace (2 * 2 ^ Z.of_nat k) with (2 ^ Z.of_nat (S k)) by (rewrite Nat2Z.inj_succ, Z.pow_succ_r by lia; reflexivity). apply IH; lia.
      + symmetry. apply Z.ltb_lt. change 2 with (Z.of_nat 2). rewrite <- Nat2Z.inj_pow. lia. }
  apply (G l 0%nat fuel); lia.
Qed.

(** ReduceBarrier::init with [n] cores of [tpc] threads; nearestPow2Cores and
    lgNumCores as computed by synk.cpp:63-72 ([rounds]: Barrier.v). *)
Definition reduce_set_up (n tpc : nat) (jt jf jp : Z -> list Z) (complete : rmem -> Prop) : Prop :=
  let zn := Z.of_nat n in let zP := Z.of_nat (nearest_pow2 n) in let zt := Z.of_nat tpc in let zL := Z.of_nat (rounds n) in
  set_up (zn * zt) (r_setup zn zP zt zL jt jf jp) (r_nact zt zL) (r_act zn zP zt) r_start (zn * zt * (11 + zL)) complete.

Theorem reduce_is_set_up n tpc jt jf jp V rv0 acc0 tr0 red0 r0 : (1 <= n)%nat -> (n = nearest_pow2 n \/ n <= 128)%nat -> (1 <= tpc <= 128)%nat ->
  (forall c, Zlen (jt c) = Z.of_nat tpc) -> (forall c, Zlen (jf c) = Z.of_nat (rounds n)) -> (forall c, Zlen (jp c) = Z.of_nat (rounds n)) ->
  reduce_set_up n tpc jt jf jp (fun m => r_shows n (nearest_pow2 n) tpc (rounds n) m (@minit V rv0 acc0 tr0 red0 r0)).
Proof.
  intros Hn H8 Ht Hjt Hjf Hjp k s R.
  assert (HP : (n <= nearest_pow2 n < 2 * n)%nat).
  { destruct (Nat.eq_dec n 1) as [->|N1]; [cbv; lia|]. pose proof (nearest_pow2_ok n ltac:(lia)). lia. }
  assert (H9 : (n = nearest_pow2 n \/ nearest_pow2 n <= 128)%nat).
  { destruct H8 as [E|E]; auto. right. unfold nearest_pow2. pose proof (Nat.log2_up_le_mono n 128 E) as M. change (Nat.log2_up 128) with 7%nat in M.
    pose proof (Nat.pow_le_mono_r 2 (Nat.log2_up n) 7 ltac:(lia) M) as Q. change (2 ^ 7)%nat with 128%nat in Q. exact Q. }
  destruct (r_init_skeleton (Z.of_nat n) (Z.of_nat (nearest_pow2 n)) (Z.of_nat tpc) (Z.of_nat (rounds n)) ltac:(lia) ltac:(lia) ltac:(lia) ltac:(lia) ltac:(lia) jt jf jp Hjt Hjf Hjp k s R) as (S1 & S2 & S3 & S4).
  split; [|split; [exact S2|split; [exact S3|]]].
  - etransitivity; [exact S1|]. apply zsum_bound; [nia|]. intros t _. unfold r_nact. destruct (_ =? 0); lia.
  - intros D. apply r_ready_shows; auto; lia.
Qed.

(** Three cores of one thread, two rounds, four participants. *)
Lemma reduce_init_case :
  option_map (fun s => (ipcs s, istat s, map (r_ps (imem s)) [0; 1; 2], map (fun v => map (r_pr (imem s) v) [0; 1]) [0; 1; 2; 3], map (fun v => map (r_pf (imem s) v 1) [0; 1]) [0; 1; 2; 3], map (r_tc (imem s)) [0; 1; 2]))
    (iexec 3 (r_setup 3 4 1 2 (fun _ => [7]) (fun _ => [8; 9]) (fun _ => [5; 6])) (r_nact 1 2) (r_act 3 4 1) (turns 3 16) (istart 3 r_start))
  = Some (repeat IDone 3, 2, [Some (mkPs 3 [0; 0] [0; 0] 0 1); None; None],
      [[Some (1, 0); Some (2, 1)]; [Some (2, 0); Some (3, 1)]; [Some (3, 0); Some (0, 1)]; [Some (0, 0); Some (1, 1)]],
      [[Some (1, 1, 0); Some (2, 1, 1)]; [Some (2, 1, 0); Some (3, 1, 1)]; [Some (3, 1, 0); Some (0, 1, 1)]; [Some (0, 1, 0); Some (1, 1, 1)]],
      [Some 0; Some 1; Some 2]).
Proof. vm_compute. reflexivity. Qed.

(** 240 cores: pseudo core 240 of core 0 has coreId -16, and the set-up reads
    cores[-15] (reduce.hpp:222-225). *)
Definition over_run : list Z := turns 240 3 ++ [0; 0; 0].
Lemma reduce_init_int8 : exists jt jf jp k s, (forall c, Zlen (jt c) = 1) /\ (forall c, Zlen (jf c) = 8) /\ (forall c, Zlen (jp c) = 8) /\
  irun 240 (r_setup 240 256 1 8 jt jf jp) (r_nact 1 8) (r_act 240 256 1) (istart 240 r_start) k s /\
  istep 240 (r_setup 240 256 1 8 jt jf jp) (r_nact 1 8) (r_act 240 256 1) 0 s = None.
Proof.
  exists (fun _ => [0]), (fun _ => repeat 0 8), (fun _ => repeat 0 8).
  destruct (iexec 240 (r_setup 240 256 1 8 (fun _ => [0]) (fun _ => repeat 0 8) (fun _ => repeat 0 8)) (r_nact 1 8) (r_act 240 256 1) over_run (istart 240 r_start)) as [s|] eqn:E; [|vm_compute in E; discriminate].
  destruct (iexec_irun 240 (r_setup 240 256 1 8 (fun _ => [0]) (fun _ => repeat 0 8) (fun _ => repeat 0 8)) (r_nact 1 8) (r_act 240 256 1) r_start over_run) with (s := istart 240 r_start) (s' := s) (k := 0) as (k & R); auto.
  - apply Forall_app. split; [|repeat constructor; lia]. apply Forall_forall. intros t H. unfold turns in H. apply in_concat in H as (l & H1 & H2). apply repeat_spec in H1. subst l. apply in_rev in H2. apply In_zrange in H2. exact H2.
  - constructor.
  - exists k, s. split; [reflexivity|]. split; [reflexivity|]. split; [reflexivity|]. split; [exact R|].
    assert (Q : option_map (fun s => istep 240 (r_setup 240 256 1 8 (fun _ => [0]) (fun _ => repeat 0 8) (fun _ => repeat 0 8)) (r_nact 1 8) (r_act 240 256 1) 0 s) (Some s) = Some None) by (rewrite <- E; vm_compute; reflexivity).
    cbn [option_map] in Q. injection Q as Q. exact Q.
Qed.
