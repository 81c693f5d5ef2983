(** * The 27-point Laplacian generator (Laplacian.cpp:30-137, without
    LOWER_TRIANGULAR). *)
From Coq Require Import Permutation Sorting.Sorted.
From Verif Require Import Base Interleave Spec PrefixSum Flat Csr Transpose CsrTools CsrOps RowPar SymPattern BinIO.

(** ** Model *)
Section Model.
Context {V : Type}.
(** 26.0, 1/26.0 and -1 *)
Variables (vdiag vinv voff : V).

(** :67, :69, :73 (without the factor): one dimension's share of the row length. *)
Definition lap_count (k size nz : Z) : Z := if (1 <=? k) && (k <? size - 1) then 3 else if nz =? 1 then 1 else 2.
(** :66-78; state: idx and rowptr *)
Definition lap_rowptr (nx ny nz : Z) (junk : list Z) : option (Z * list Z) :=
  rp0 <- set junk 0 0 ;;
  forZ 0 nz (fun iz s =>
    forZ 0 ny (fun iy s =>
      forZ 0 nx (fun ix s =>
        let '(idx, rp) := s in
        let idx' := idx + lap_count ix nx nz * (lap_count iy ny nz * lap_count iz nz nz) in
        rp' <- set rp ((iz * ny + iy) * nx + ix + 1) idx' ;; Some (idx', rp')) s) s) (0, rp0).

Record lap_arrays := mkLap { lp_cols : list Z; lp_vals : list V; lp_diag : list V; lp_idiag : list V; lp_dptr : list Z }.
(** :103-117 *)
Definition lap_emit (row col : Z) (s : Z * lap_arrays) : option (Z * lap_arrays) :=
  let '(idx, a) := s in
  a1 <- (if col =? row
         then dg <- set (lp_diag a) row vdiag ;; vs <- set (lp_vals a) idx vdiag ;; idg <- set (lp_idiag a) row vinv ;; dp <- set (lp_dptr a) row idx ;;
              Some (mkLap (lp_cols a) vs dg idg dp)
         else vs <- set (lp_vals a) idx voff ;; Some (mkLap (lp_cols a) vs (lp_diag a) (lp_idiag a) (lp_dptr a))) ;;
  cs <- set (lp_cols a1) idx col ;; Some (idx + 1, mkLap cs (lp_vals a1) (lp_diag a1) (lp_idiag a1) (lp_dptr a1)).
(** :88-95: the first and the last offset in one dimension *)
Definition lap_begin (k : Z) : Z := if k <=? 0 then 0 else -1.
Definition lap_end (k size : Z) : Z := if k >=? size - 1 then 0 else 1.
(** :93-121, one row *)
Definition lap_row_fill (nx ny nz : Z) (rp : list Z) (iz iy ix : Z) (a : lap_arrays) : option lap_arrays :=
  let row := (iz * ny + iy) * nx + ix in
  idx <- get rp row ;;
  s <- forZ (lap_begin iz) (lap_end iz nz + 1) (fun sz s =>
    forZ (lap_begin iy) (lap_end iy ny + 1) (fun sy s =>
      forZ (lap_begin ix) (lap_end ix nx + 1) (fun sx s => lap_emit row (row + (sz * ny + sy) * nx + sx) s) s) s) (idx, a) ;;
  Some (snd s).
(** :85-123.  The iterations of the two outer loops, collapsed, in any order. *)
Definition lap_fill (nx ny nz : Z) (rp : list Z) (sch : list nat) (a : lap_arrays) : option lap_arrays :=
  par sch (fun p a => forZ 0 nx (fun ix a => lap_row_fill nx ny nz rp (fst p) (snd p) ix a) a) (map (fun p => [p]) (list_prod (zrange 0 nz) (zrange 0 ny))) a.
(** Laplacian.cpp:30-133.  Overflow of nx*ny*nz is not modelled.  The memory
    allocated: [j k] and [jv k] have [k] elements. *)
Definition laplacian (nx ny nz base : Z) (sch : list nat) (sch' : nat -> list nat) (j : Z -> list Z) (jv : Z -> list V) : option (csr V) :=
  let m := nx * ny * nz in
  ' (nnz, rp) <- lap_rowptr nx ny nz (j (m + 1)) ;;
  a <- lap_fill nx ny nz rp sch (mkLap (j nnz) (jv nnz) (jv m) (jv m) (j m)) ;;
  let A := mkCSR m m rp (lp_cols a) (Some (lp_vals a)) (Some (lp_idiag a)) (Some (lp_diag a)) (Some (lp_dptr a)) None in
  if 1 =? base then make1Based A sch' else Some A.
End Model.

(** ** Specification *)
(** Cells of the grid, their numbers, neighbours. *)
Definition in_grid (nx ny nz : Z) (p : Z * Z * Z) : Prop := let '(x, y, z) := p in 0 <= x < nx /\ 0 <= y < ny /\ 0 <= z < nz.
Definition cell (nx ny : Z) (p : Z * Z * Z) : Z := let '(x, y, z) := p in (z * ny + y) * nx + x.
Definition touching (p q : Z * Z * Z) : Prop := let '(x, y, z) := p in let '(x', y', z') := q in Z.abs (x - x') <= 1 /\ Z.abs (y - y') <= 1 /\ Z.abs (z - z') <= 1.
(** The rows of the matrix: [d] on the diagonal and [o] for each neighbour. *)
Definition laplacian_rows {V} (d o : V) (nx ny nz : Z) (rows : rows_t V) : Prop :=
  Zlen rows = nx * ny * nz /\
  forall p, in_grid nx ny nz p -> ssortedZ (map fst (nthl rows (cell nx ny p))) /\
    forall c v, In (c, v) (nthl rows (cell nx ny p)) <->
      exists q, in_grid nx ny nz q /\ touching p q /\ c = cell nx ny q /\ v = if cell nx ny q =? cell nx ny p then d else o.

(** ** Proof *)
Lemma foldM_flat_map {X Y S} (f : Y -> S -> option S) (g : X -> list Y) l s : foldM f (flat_map g l) s = foldM (fun a s => foldM f (g a) s) l s.
Proof. revert s. induction l as [|a l IH]; [reflexivity|]. intros s. cbn [flat_map foldM]. rewrite foldM_app. destruct (foldM f (g a) s) as [s1|]; [apply IH|reflexivity]. Qed.
Lemma foldM_map' {X Y S} (f : Y -> S -> option S) (g : X -> Y) l s : foldM f (map g l) s = foldM (fun a s => f (g a) s) l s.
Proof. revert s. induction l as [|a l IH]; [reflexivity|]. intros s. cbn [map foldM]. destruct (f (g a) s) as [s1|]; [apply IH|reflexivity]. Qed.
Lemma foldM_done {X S} (I : list X -> S -> Prop) (f : X -> S -> option S) (l : list X) s :
  I [] s -> (forall a done s, In a l -> I done s -> exists s', f a s = Some s' /\ I (a :: done) s') ->
  exists s' done, foldM f l s = Some s' /\ I done s' /\ forall x, In x l -> In x done.
Proof.
  intros H0 Hs. assert (G : forall l' done s, (forall x, In x l' -> In x l) -> I done s -> exists s' done', foldM f l' s = Some s' /\ I done' s' /\ (forall x, In x l' -> In x done') /\ forall x, In x done -> In x done').
  { induction l' as [|a l' IH]; intros done s1 Hl H1; [exists s1, done; split; [reflexivity|]; split; [auto|]; split; [intros x []|auto]|]. destruct (Hs a done s1) as (s2 & E & H2); [apply Hl; now left|auto|].
    destruct (IH (a :: done) s2) as (s3 & d3 & E3 & H3 & A3 & B3); [intros; apply Hl; now right|auto|]. exists s3, d3. cbn [foldM]. rewrite E. split; auto. split; auto. split; [intros x [->|Hx]; auto; apply B3; now left|]. intros; apply B3; now right. }
  destruct (G l [] s) as (s' & d & E & H1 & A1 & _); eauto.
Qed.
Lemma ssorted_app l1 l2 : ssortedZ l1 -> ssortedZ l2 -> (forall x y, In x l1 -> In y l2 -> x < y) -> ssortedZ (l1 ++ l2).
Proof.
  unfold ssortedZ. induction l1 as [|a l1 IH]; intros H1 H2 H; auto. inversion H1; subst. cbn [app]. constructor; [apply IH; auto; intros; apply H; auto; now right|].
  apply Forall_app. split; auto. apply Forall_forall. intros y Hy. apply H; auto. now left.
Qed.
Lemma ssorted_flat_map {X} (R : X -> X -> Prop) (g : X -> list Z) l : StronglySorted R l -> (forall a, In a l -> ssortedZ (g a)) ->
  (forall a b x y, In a l -> In b l -> R a b -> In x (g a) -> In y (g b) -> x < y) -> ssortedZ (flat_map g l).
Proof.
  induction l as [|a l IH]; intros H1 H2 H3; [constructor|]. inversion H1 as [|u v H4 H5]; subst. cbn [flat_map]. apply ssorted_app; [apply H2; now left|apply IH; auto; intros; [apply H2; now right|eapply H3; eauto; now right]|].
  intros x y Hx Hy. apply in_flat_map in Hy as (b & Hb & Hy). rewrite Forall_forall in H5. eapply (H3 a b); eauto; [now left|now right].
Qed.
Lemma ssorted_map_mono (f : Z -> Z) l : (forall a b, In a l -> In b l -> a < b -> f a < f b) -> ssortedZ l -> ssortedZ (map f l).
Proof.
  unfold ssortedZ. induction l as [|a l IH]; intros H1 H2; [constructor|]. inversion H2 as [|u v H4 H5]; subst. cbn [map]. constructor; [apply IH; auto; intros; apply H1; auto; now right|].
  rewrite Forall_forall in *. intros y Hy. apply in_map_iff in Hy as (b & <- & Hb). apply H1; [now left|now right|auto].
Qed.
Lemma Zlen_flat_map {X Y} (g : X -> list Y) l k : (forall a, In a l -> Zlen (g a) = k) -> Zlen (flat_map g l) = Zlen l * k.
Proof. induction l as [|a l IH]; intros H; [reflexivity|]. cbn [flat_map]. rewrite Zlen_app, Zlen_cons, IH, (H a) by (auto using in_eq; intros; apply H; now right). lia. Qed.

(** Cells next to each other in one dimension. *)
Definition span (k size : Z) : list Z := map (fun s => k + s) (zrange (lap_begin k) (lap_end k size + 1)).
Lemma In_span k size x : 0 <= k < size -> In x (span k size) <-> 0 <= x < size /\ Z.abs (k - x) <= 1.
Proof.
  intros H. unfold span. rewrite in_map_iff. unfold lap_begin, lap_end. split.
  - intros (s & <- & Hs). apply In_zrange in Hs. destruct (Z.leb_spec k 0), (Z.geb_spec k (size - 1)); lia.
  - intros H1. exists (x - k). split; [lia|]. apply In_zrange. destruct (Z.leb_spec k 0), (Z.geb_spec k (size - 1)); lia.
Qed.
Lemma Zlen_span k size nz : 0 <= k < size -> (size = 1 <-> nz = 1) -> Zlen (span k size) = lap_count k size nz.
Proof.
  intros H H1. unfold span. rewrite Zlen_map, Zlen_zrange. unfold lap_begin, lap_end, lap_count.
  destruct (Z.leb_spec k 0), (Z.geb_spec k (size - 1)), (Z.leb_spec 1 k), (Z.ltb_spec k (size - 1)), (Z.eqb_spec nz 1); cbn [andb]; lia.
Qed.
Lemma ssorted_zrange' lo hi : ssortedZ (zrange lo hi).
Proof.
  unfold ssortedZ. remember (Z.to_nat (hi - lo)) as k eqn:E. revert lo E. induction k as [|k IH]; intros lo E; [rewrite zrange_nil by lia; constructor|]. rewrite zrange_cons by lia. constructor; [apply IH; lia|].
  apply Forall_forall. intros x Hx. apply In_zrange in Hx. lia.
Qed.
Lemma ssorted_span k size : ssortedZ (span k size).
Proof. apply ssorted_map_mono; [intros; lia|]. apply ssorted_zrange'. Qed.

Section Proof.
Context {V : Type}.
Variables (vdiag vinv voff : V).
Variables (nx ny nz : Z).
Hypothesis Hx : 1 <= nx.
Hypothesis Hy : 1 <= ny.
Hypothesis Hz : 1 <= nz.

Definition lap_cols (iz iy ix : Z) : list Z :=
  flat_map (fun z => flat_map (fun y => map (fun x => cell nx ny (x, y, z)) (span ix nx)) (span iy ny)) (span iz nz).
Let m := nx * ny * nz.
Definition lap_row (r : Z) : list (Z * V) := map (fun c => (c, if c =? r then vdiag else voff)) (lap_cols (r / nx / ny) (r / nx mod ny) (r mod nx)).
Definition lap_rows : rows_t V := map lap_row (zrange 0 m).

Lemma lap_m : 0 <= m.
Proof. unfold m. nia. Qed.
Lemma cell_parts x y z : 0 <= x < nx -> 0 <= y < ny -> cell nx ny (x, y, z) mod nx = x /\ cell nx ny (x, y, z) / nx mod ny = y /\ cell nx ny (x, y, z) / nx / ny = z.
Proof.
  intros H1 H2. unfold cell. rewrite Z.add_comm, Z_mod_plus_full, Z.div_add by lia. rewrite Z.mod_small, (Z.div_small x) by lia. rewrite Z.add_0_l, Z.add_comm, Z_mod_plus_full, Z.div_add by lia. rewrite Z.mod_small, (Z.div_small y) by lia. lia.
Qed.
Lemma cell_range x y z : in_grid nx ny nz (x, y, z) -> 0 <= cell nx ny (x, y, z) < m.
Proof. unfold in_grid, cell, m. intros (H1 & H2 & H3). assert (0 <= z * ny + y <= ny * nz - 1) by nia. nia. Qed.
Lemma cell_mono x y z x' y' z' : 0 <= x < nx -> 0 <= x' < nx -> 0 <= y < ny -> 0 <= y' < ny -> z < z' \/ z = z' /\ (y < y' \/ y = y' /\ x < x') -> cell nx ny (x, y, z) < cell nx ny (x', y', z').
Proof. unfold cell. intros. assert (z * ny + y < z' * ny + y' \/ z * ny + y = z' * ny + y' /\ x < x') by nia. nia. Qed.
Lemma row_cell r : 0 <= r < m -> exists x y z, in_grid nx ny nz (x, y, z) /\ r = cell nx ny (x, y, z).
Proof.
  intros H. exists (r mod nx), (r / nx mod ny), (r / nx / ny). unfold in_grid, cell. assert (D1 := Z.div_mod r nx ltac:(lia)). assert (D2 := Z.div_mod (r / nx) ny ltac:(lia)).
  assert (M1 := Z.mod_pos_bound r nx ltac:(lia)). assert (M2 := Z.mod_pos_bound (r / nx) ny ltac:(lia)). split; [|lia]. split; auto. split; auto. unfold m in H. split; [apply Z.div_pos; [apply Z.div_pos|]; lia|].
  apply Z.div_lt_upper_bound; [lia|]. apply Z.div_lt_upper_bound; [lia|]. lia.
Qed.
Lemma lap_nthl x y z : in_grid nx ny nz (x, y, z) -> nthl lap_rows (cell nx ny (x, y, z)) = map (fun c => (c, if c =? cell nx ny (x, y, z) then vdiag else voff)) (lap_cols z y x).
Proof.
  intros H. pose proof (cell_range x y z H) as B. apply nthl_get. unfold lap_rows. rewrite get_map, get_zrange by lia. cbn [option_map]. rewrite Z.add_0_l. unfold lap_row. destruct H as (H1 & H2 & H3).
  destruct (cell_parts x y z H1 H2) as (-> & -> & ->). reflexivity.
Qed.
Lemma Zlen_lap : Zlen lap_rows = m.
Proof. pose proof lap_m. unfold lap_rows. rewrite Zlen_map, Zlen_zrange. lia. Qed.
Lemma In_lap_cols x y z c : in_grid nx ny nz (x, y, z) -> In c (lap_cols z y x) <-> exists q, in_grid nx ny nz q /\ touching (x, y, z) q /\ c = cell nx ny q.
Proof.
  intros (H1 & H2 & H3). unfold lap_cols. rewrite in_flat_map. split.
  - intros (z' & A1 & A2). apply in_flat_map in A2 as (y' & A2 & A3). apply in_map_iff in A3 as (x' & <- & A3). apply In_span in A1, A2, A3; auto. exists (x', y', z'). unfold in_grid, touching. intuition.
  - intros (((x' & y') & z') & (A1 & A2 & A3) & (B1 & B2 & B3) & ->). exists z'. split; [apply In_span; auto|]. apply in_flat_map. exists y'. split; [apply In_span; auto|]. apply in_map_iff. exists x'. split; auto. apply In_span; auto.
Qed.
Lemma ssorted_lap_cols x y z : in_grid nx ny nz (x, y, z) -> ssortedZ (lap_cols z y x).
Proof.
  intros (H1 & H2 & H3). unfold lap_cols. apply (ssorted_flat_map Z.lt); [apply ssorted_span| |].
  - intros z' Hz'. apply (ssorted_flat_map Z.lt); [apply ssorted_span| |].
    + intros y' Hy'. apply ssorted_map_mono; [|apply ssorted_span]. intros a b Ha Hb Hab. apply In_span in Ha, Hb, Hy'; auto. apply cell_mono; lia.
    + intros a b u v Ha Hb Hab Hu Hv. apply in_map_iff in Hu as (x1 & <- & Hu). apply in_map_iff in Hv as (x2 & <- & Hv). apply In_span in Ha, Hb, Hu, Hv; auto. apply cell_mono; lia.
  - intros a b u v Ha Hb Hab Hu Hv. apply in_flat_map in Hu as (y1 & Hy1 & Hu). apply in_flat_map in Hv as (y2 & Hy2 & Hv). apply in_map_iff in Hu as (x1 & <- & Hu). apply in_map_iff in Hv as (x2 & <- & Hv). apply In_span in Ha, Hb, Hu, Hv, Hy1, Hy2; auto. apply cell_mono; lia.
Qed.
Theorem lap_rows_spec : laplacian_rows vdiag voff nx ny nz lap_rows.
Proof.
  split; [apply Zlen_lap|]. intros ((x & y) & z) H. rewrite lap_nthl by auto. rewrite map_map. cbn [fst]. rewrite map_id. split; [apply ssorted_lap_cols; auto|]. intros c v. rewrite in_map_iff. split.
  - intros (c' & E & Hc). injection E as <- <-. apply In_lap_cols in Hc as (q & Q1 & Q2 & ->); auto. exists q. auto.
  - intros (q & Q1 & Q2 & -> & ->). exists (cell nx ny q). split; auto. apply In_lap_cols; auto. eauto.
Qed.

(** The counting loops, whatever the sizes. *)
Definition lap_cnt (r : Z) : Z := lap_count (r mod nx) nx nz * (lap_count (r / nx mod ny) ny nz * lap_count (r / nx / ny) nz nz).
Lemma lap_cnt_cell x y z : 0 <= x < nx -> 0 <= y < ny -> lap_cnt (cell nx ny (x, y, z)) = lap_count x nx nz * (lap_count y ny nz * lap_count z nz nz).
Proof. intros H1 H2. unfold lap_cnt. destruct (cell_parts x y z H1 H2) as (-> & -> & ->). reflexivity. Qed.
Lemma lap_rowptr_gen j : Zlen j = m + 1 -> lap_rowptr nx ny nz j = Some (before lap_cnt m, map (before lap_cnt) (zrange 0 (m + 1))).
Proof.
  intros L. unfold lap_rowptr. destruct (set_ok j 0 0 ltac:(pose proof lap_m; lia)) as (rp0 & E0). rewrite E0.
  set (I := fun r (s : Z * list Z) => fst s = before lap_cnt r /\ Zlen (snd s) = m + 1 /\ forall q, 0 <= q <= r -> get (snd s) q = Some (before lap_cnt q)).
  assert (F : I 0 (0, rp0)). { unfold I. cbn [fst snd]. rewrite before_0. split; auto. split; [rewrite (set_len _ _ _ _ E0); auto|]. intros q Hq. replace q with 0 by lia. rewrite before_0. apply (get_set_same _ _ _ _ E0). }
  match goal with |- forZ 0 nz ?f _ = _ => destruct (forZ_rule (fun iz s => I (iz * ny * nx) s) 0 nz f (0, rp0)) as ((idx & rp) & E & G1 & G2 & G3) end; [lia|exact F| |].
  2:{ rewrite E. cbn [fst snd] in *. replace (nz * ny * nx) with m in * by (unfold m; ring). f_equal. f_equal; auto. pose proof lap_m. apply list_ext; [rewrite Zlen_map, Zlen_zrange; lia|]. intros i Hi. rewrite G3 by lia. rewrite get_map, get_zrange by lia. reflexivity. }
  intros iz s Hiz HI. match goal with |- exists s', forZ 0 ny ?f _ = _ /\ _ => destruct (forZ_rule (fun iy s => I ((iz * ny + iy) * nx) s) 0 ny f s) as (s' & E & G) end; [lia| | |].
  - replace ((iz * ny + 0) * nx) with (iz * ny * nx) by ring. auto.
  - intros iy s1 Hiy HI1. match goal with |- exists s', forZ 0 nx ?f _ = _ /\ _ => destruct (forZ_rule (fun ix s => I ((iz * ny + iy) * nx + ix) s) 0 nx f s1) as (s' & E & G) end; [lia| | |].
    + rewrite Z.add_0_r. auto.
    + intros ix (idx & rp) Hix (J1 & J2 & J3). cbn [fst snd] in *. assert (B : in_grid nx ny nz (ix, iy, iz)) by (unfold in_grid; auto). pose proof (cell_range _ _ _ B) as CR. pose proof (lap_cnt_cell ix iy iz Hix Hiy) as ZL. unfold cell in CR, ZL.
      set (r := (iz * ny + iy) * nx + ix) in *. destruct (set_ok rp (r + 1) (idx + lap_count ix nx nz * (lap_count iy ny nz * lap_count iz nz nz)) ltac:(lia)) as (rp' & E'). rewrite E'. eexists. split; [reflexivity|].
      rewrite Z.add_assoc. fold r. unfold I. cbn [fst snd]. rewrite before_S by lia. split; [lia|]. split; [rewrite (set_len _ _ _ _ E'); auto|]. intros q Hq. rewrite (get_set _ _ _ _ _ E'). destruct (q =? r + 1) eqn:Eq; [|apply J3; lia].
      apply Z.eqb_eq in Eq. subst q. rewrite before_S by lia. f_equal. lia.
    + exists s'. split; auto. replace ((iz * ny + (iy + 1)) * nx) with ((iz * ny + iy) * nx + nx) by ring. auto.
  - exists s'. split; auto. replace ((iz + 1) * ny * nx) with ((iz * ny + ny) * nx) by ring. auto.
Qed.

(** When one size alone is 1 the count is wrong. *)
Lemma emit_len row cs : forall idx a idx' a', foldM (lap_emit vdiag vinv voff row) cs (idx, a) = Some (idx', a') -> Zlen (lp_cols a') = Zlen (lp_cols a) /\ (cs <> [] -> idx + Zlen cs <= Zlen (lp_cols a)).
Proof.
  induction cs as [|c cs IH]; intros idx a idx' a' E; [injection E as _ <-; split; [auto|congruence]|]. cbn [foldM] in E. destruct (lap_emit vdiag vinv voff row c (idx, a)) as [(idx1 & a1)|] eqn:E1; [|discriminate].
  assert (idx1 = idx + 1 /\ Zlen (lp_cols a1) = Zlen (lp_cols a) /\ idx < Zlen (lp_cols a)) as (-> & L1 & B1).
  { unfold lap_emit in E1. destruct (c =? row).
    - destruct (set (lp_diag a) row vdiag) as [dg|]; [|discriminate]. destruct (set (lp_vals a) idx vdiag) as [vs|]; [|discriminate]. destruct (set (lp_idiag a) row vinv) as [ig|]; [|discriminate]. destruct (set (lp_dptr a) row idx) as [dp|]; [|discriminate]. cbn [lp_cols lp_vals lp_diag lp_idiag lp_dptr] in E1.
      destruct (set (lp_cols a) idx c) as [cs'|] eqn:Ec; [|discriminate]. injection E1 as <- <-. cbn [lp_cols]. rewrite (set_len _ _ _ _ Ec). pose proof (proj1 (set_Some_inv _ _ _ _ Ec)). lia.
    - destruct (set (lp_vals a) idx voff) as [vs|]; [|discriminate]. cbn [lp_cols lp_vals lp_diag lp_idiag lp_dptr] in E1. destruct (set (lp_cols a) idx c) as [cs'|] eqn:Ec; [|discriminate]. injection E1 as <- <-. cbn [lp_cols]. rewrite (set_len _ _ _ _ Ec). pose proof (proj1 (set_Some_inv _ _ _ _ Ec)). lia. }
  destruct (IH _ _ _ _ E) as (L2 & B2). split; [lia|]. intros _. rewrite Zlen_cons. destruct cs as [|c' cs]; [change (Zlen (@nil Z)) with 0; lia|]. specialize (B2 ltac:(discriminate)). lia.
Qed.
(** The row lengths are counted right when the sizes agree on being 1. *)
Hypothesis Hyz : ny = 1 <-> nz = 1.
Hypothesis Hxz : nx = 1 <-> nz = 1.
Lemma Zlen_lap_row x y z : in_grid nx ny nz (x, y, z) -> Zlen (nthl lap_rows (cell nx ny (x, y, z))) = lap_count x nx nz * (lap_count y ny nz * lap_count z nz nz).
Proof.
  intros H. rewrite lap_nthl, Zlen_map by auto. destruct H as (H1 & H2 & H3). unfold lap_cols.
  rewrite (Zlen_flat_map _ _ (lap_count y ny nz * lap_count x nx nz)); [rewrite (Zlen_span z nz nz) by (auto; tauto); lia|].
  intros z' _. rewrite (Zlen_flat_map _ _ (lap_count x nx nz)); [rewrite (Zlen_span y ny nz) by auto; lia|]. intros y' _. rewrite Zlen_map. apply Zlen_span; auto.
Qed.
Lemma lap_off i : 0 <= i <= m -> before lap_cnt i = off (nthl lap_rows) i.
Proof. intros Hi. apply before_ext. intros r Hr. destruct (row_cell r ltac:(lia)) as (x & y & z & Hg & ->). rewrite Zlen_lap_row by auto. destruct Hg as (G1 & G2 & G3). apply lap_cnt_cell; auto. Qed.
Lemma lap_rowptr_ok j : Zlen j = m + 1 -> lap_rowptr nx ny nz j = Some (off (nthl lap_rows) m, rowptr_of 0 lap_rows).
Proof.
  intros L. rewrite lap_rowptr_gen by auto. pose proof lap_m. rewrite lap_off by lia. f_equal. f_equal. unfold rowptr_of. rewrite Zlen_lap. apply map_ext_in. intros i Hi. apply In_zrange in Hi. rewrite lap_off by lia. lia.
Qed.

(** Writing the entries of a row. *)
Let emit := lap_emit vdiag vinv voff.
Lemma emit_ok row cs : forall idx a, 0 <= idx -> idx + Zlen cs <= Zlen (lp_cols a) -> idx + Zlen cs <= Zlen (lp_vals a) -> 0 <= row < Zlen (lp_diag a) -> row < Zlen (lp_idiag a) -> row < Zlen (lp_dptr a) ->
  exists a', foldM (emit row) cs (idx, a) = Some (idx + Zlen cs, a') /\
    (Zlen (lp_cols a') = Zlen (lp_cols a) /\ Zlen (lp_vals a') = Zlen (lp_vals a) /\ Zlen (lp_diag a') = Zlen (lp_diag a) /\ Zlen (lp_idiag a') = Zlen (lp_idiag a) /\ Zlen (lp_dptr a') = Zlen (lp_dptr a)) /\
    (forall q, q < idx \/ idx + Zlen cs <= q -> get (lp_cols a') q = get (lp_cols a) q /\ get (lp_vals a') q = get (lp_vals a) q) /\
    (forall q, q <> row -> get (lp_diag a') q = get (lp_diag a) q /\ get (lp_idiag a') q = get (lp_idiag a) q /\ get (lp_dptr a') q = get (lp_dptr a) q) /\
    (forall k c, get cs k = Some c -> get (lp_cols a') (idx + k) = Some c /\ get (lp_vals a') (idx + k) = Some (if c =? row then vdiag else voff)) /\
    (forall l1 l2, cs = l1 ++ row :: l2 -> ~ In row l2 -> get (lp_diag a') row = Some vdiag /\ get (lp_idiag a') row = Some vinv /\ get (lp_dptr a') row = Some (idx + Zlen l1)).
Proof.
  induction cs as [|c cs IH] using rev_ind; intros idx a H0 H1 H2 H3 H4 H5.
  - exists a. cbn [foldM]. change (Zlen (@nil Z)) with 0. rewrite Z.add_0_r. split; auto. split; [tauto|]. split; [auto|]. split; [auto|]. split; [intros k c E; apply get_Some_bounds in E; change (Zlen (@nil Z)) with 0 in E; lia|]. intros l1 l2 E. destruct l1; discriminate.
  - rewrite Zlen_app in *. change (Zlen [c]) with 1 in *. pose proof (Zlen_nonneg cs). destruct (IH idx a) as (a1 & E & (L1 & L2 & L3 & L4 & L5) & O1 & O2 & W & D); try lia. clear IH. rewrite foldM_app, E. cbn [foldM].
    set (p := idx + Zlen cs) in *. unfold emit, lap_emit.
    assert (LW : forall cs' vs', set (lp_cols a1) p c = Some cs' -> set (lp_vals a1) p (if c =? row then vdiag else voff) = Some vs' ->
       (forall q, q < idx \/ idx + (Zlen cs + 1) <= q -> get cs' q = get (lp_cols a) q /\ get vs' q = get (lp_vals a) q) /\
       forall k c0, get (cs ++ [c]) k = Some c0 -> get cs' (idx + k) = Some c0 /\ get vs' (idx + k) = Some (if c0 =? row then vdiag else voff)).
    { intros cs' vs' S1 S2. split.
      - intros q Hq. assert (q <> p) by (unfold p; lia). rewrite (get_set_other _ _ _ _ _ S1), (get_set_other _ _ _ _ _ S2) by auto. apply O1. lia.
      - intros k c0 Ek. pose proof (get_Some_bounds _ _ _ Ek) as Bk. rewrite Zlen_app in Bk. change (Zlen [c]) with 1 in Bk. destruct (Z.eq_dec k (Zlen cs)) as [->|Nk].
        + rewrite get_app_r, Z.sub_diag in Ek by lia. injection Ek as <-. fold p. rewrite (get_set_same _ _ _ _ S1), (get_set_same _ _ _ _ S2). auto.
        + rewrite get_app_l in Ek by lia. assert (idx + k <> p) by (unfold p; lia). rewrite (get_set_other _ _ _ _ _ S1), (get_set_other _ _ _ _ _ S2) by auto. apply W; auto. }
    destruct (c =? row) eqn:Ec.
    + apply Z.eqb_eq in Ec. subst c. destruct (set_ok (lp_diag a1) row vdiag ltac:(lia)) as (dg & S1). destruct (set_ok (lp_vals a1) p vdiag ltac:(lia)) as (vs & S2). destruct (set_ok (lp_idiag a1) row vinv ltac:(lia)) as (idg & S3). destruct (set_ok (lp_dptr a1) row p ltac:(lia)) as (dp & S4). destruct (set_ok (lp_cols a1) p row ltac:(lia)) as (cs' & S5).
      rewrite S1, S2, S3, S4. cbn [lp_cols lp_vals lp_diag lp_idiag lp_dptr]. rewrite S5. eexists. split; [f_equal; f_equal; unfold p; lia|]. cbn [lp_cols lp_vals lp_diag lp_idiag lp_dptr].
      rewrite (set_len _ _ _ _ S1), (set_len _ _ _ _ S2), (set_len _ _ _ _ S3), (set_len _ _ _ _ S4), (set_len _ _ _ _ S5). split; [auto|].
      destruct (LW cs' vs S5 S2) as (G1 & G2). split; [exact G1|]. split.
      * intros q Hq. rewrite (get_set_other _ _ _ _ _ S1), (get_set_other _ _ _ _ _ S3), (get_set_other _ _ _ _ _ S4) by auto. auto.
      * split; [exact G2|]. intros l1 l2 El Hn. destruct l2 as [|x l2] using rev_ind; [apply app_inj_tail in El as (<- & _); rewrite (get_set_same _ _ _ _ S1), (get_set_same _ _ _ _ S3), (get_set_same _ _ _ _ S4); auto|].
        exfalso. rewrite app_comm_cons, app_assoc in El. apply app_inj_tail in El as (_ & <-). apply Hn. apply in_or_app. right. now left.
    + destruct (set_ok (lp_vals a1) p voff ltac:(lia)) as (vs & S2). destruct (set_ok (lp_cols a1) p c ltac:(lia)) as (cs' & S5). rewrite S2. cbn [lp_cols lp_vals lp_diag lp_idiag lp_dptr]. rewrite S5. eexists. split; [f_equal; f_equal; unfold p; lia|]. cbn [lp_cols lp_vals lp_diag lp_idiag lp_dptr].
      rewrite (set_len _ _ _ _ S2), (set_len _ _ _ _ S5). split; [auto|]. destruct (LW cs' vs S5 S2) as (G1 & G2). split; [exact G1|]. split; [exact O2|]. split; [exact G2|].
      intros l1 l2 El Hn. destruct l2 as [|x l2] using rev_ind; [apply app_inj_tail in El as (_ & ->); lia|]. rewrite app_comm_cons, app_assoc in El. apply app_inj_tail in El as (El & _). apply (D l1 l2 El). intros Hi. apply Hn. apply in_or_app. auto.
Qed.

Definition lens (a : lap_arrays (V := V)) : Prop :=
  Zlen (lp_cols a) = off (nthl lap_rows) m /\ Zlen (lp_vals a) = off (nthl lap_rows) m /\ Zlen (lp_diag a) = m /\ Zlen (lp_idiag a) = m /\ Zlen (lp_dptr a) = m.
Definition stored (a : lap_arrays (V := V)) (r : Z) : Prop :=
  (forall k c v, get (nthl lap_rows r) k = Some (c, v) -> get (lp_cols a) (off (nthl lap_rows) r + k) = Some c /\ get (lp_vals a) (off (nthl lap_rows) r + k) = Some v) /\
  forall l1 v l2, nthl lap_rows r = l1 ++ (r, v) :: l2 -> (forall w, ~ In (r, w) l2) -> get (lp_dptr a) r = Some (off (nthl lap_rows) r + Zlen l1) /\ get (lp_diag a) r = Some v /\ get (lp_idiag a) r = Some vinv.

Lemma row_fill_cols iz iy ix idx a : let row := (iz * ny + iy) * nx + ix in
  forZ (lap_begin iz) (lap_end iz nz + 1) (fun sz s =>
    forZ (lap_begin iy) (lap_end iy ny + 1) (fun sy s =>
      forZ (lap_begin ix) (lap_end ix nx + 1) (fun sx s => emit row (row + (sz * ny + sy) * nx + sx) s) s) s) (idx, a) = foldM (emit row) (lap_cols iz iy ix) (idx, a).
Proof.
  intros row. unfold lap_cols. rewrite foldM_flat_map. change (span iz nz) with (map (fun s => iz + s) (zrange (lap_begin iz) (lap_end iz nz + 1))). rewrite foldM_map'. unfold forZ. apply foldM_ext. intros sz s1 _. rewrite foldM_flat_map. change (span iy ny) with (map (fun s => iy + s) (zrange (lap_begin iy) (lap_end iy ny + 1))). rewrite foldM_map'. apply foldM_ext. intros sy s2 _.
  unfold span. rewrite map_map, foldM_map'. apply foldM_ext. intros sx s3 _. f_equal. unfold row, cell. ring.
Qed.
Lemma lap_row_fill_ok ix iy iz a : in_grid nx ny nz (ix, iy, iz) -> lens a ->
  exists a', lap_row_fill vdiag vinv voff nx ny nz (rowptr_of 0 lap_rows) iz iy ix a = Some a' /\ lens a' /\ stored a' (cell nx ny (ix, iy, iz)) /\
    forall r, 0 <= r < m -> stored a r -> stored a' r.
Proof.
  intros B (L1 & L2 & L3 & L4 & L5). pose proof (cell_range _ _ _ B) as CR. pose proof (lap_nthl _ _ _ B) as NL. unfold lap_row_fill. pose proof (row_fill_cols iz iy ix) as RF. cbv zeta in RF. unfold cell in CR, NL. change (cell nx ny (ix, iy, iz)) with ((iz * ny + iy) * nx + ix). set (row := (iz * ny + iy) * nx + ix) in *. cbv zeta.
  rewrite get_rowptr_of by (rewrite Zlen_lap; lia). rewrite Z.add_0_l. unfold emit in RF. rewrite RF. clear RF.
  assert (ZC : Zlen (nthl lap_rows row) = Zlen (lap_cols iz iy ix)) by (rewrite NL, Zlen_map; auto).
  assert (OM : off (nthl lap_rows) row + Zlen (lap_cols iz iy ix) <= off (nthl lap_rows) m). { rewrite <- ZC, <- off_S by lia. apply off_mono. lia. }
  destruct (emit_ok row (lap_cols iz iy ix) (off (nthl lap_rows) row) a) as (a' & E & (M1 & M2 & M3 & M4 & M5) & O1 & O2 & W & D); try lia; [apply off_nonneg|].
  unfold emit in E. rewrite E. cbn [snd]. exists a'. split; auto. split; [unfold lens; repeat split; lia|].
  assert (ST : stored a' row).
  { split.
    - intros k c v Ek. rewrite NL, get_map in Ek. destruct (get (lap_cols iz iy ix) k) as [c0|] eqn:Ec; [|discriminate]. injection Ek as <- <-. apply W; auto.
    - intros l1 v l2 El Hn. rewrite NL in El. apply map_eq_app in El as (c1 & c2 & E1 & <- & E2). apply map_eq_cons in E2 as (c & c3 & -> & Ec & <-). injection Ec as -> <-. rewrite Z.eqb_refl. rewrite Zlen_map.
      destruct (D c1 c3 E1) as (D1 & D2 & D3); auto. intros Hi. apply (Hn (if row =? row then vdiag else voff)). apply in_map_iff. eauto. }
  split; auto. intros r Hr (S1 & S2). destruct (Z.eq_dec r row) as [->|Nr]; auto. split.
  - intros k c v Ek. pose proof (get_Some_bounds _ _ _ Ek) as Bk. destruct (O1 (off (nthl lap_rows) r + k)) as (-> & ->); [|apply S1; auto].
    assert (r < row \/ row < r) as [Hlt|Hlt] by lia; [left; pose proof (off_mono (nthl lap_rows) (r + 1) row ltac:(lia)) as OO; rewrite off_S in OO by lia; lia|].
    right. pose proof (off_mono (nthl lap_rows) (row + 1) r ltac:(lia)) as OO. rewrite off_S in OO by lia. lia.
  - intros l1 v l2 El Hn. destruct (O2 r Nr) as (-> & -> & ->). eauto.
Qed.
Lemma lap_fill_ok sch a : lens a -> exists a', lap_fill vdiag vinv voff nx ny nz (rowptr_of 0 lap_rows) sch a = Some a' /\ lens a' /\ forall r, 0 <= r < m -> stored a' r.
Proof.
  intros L. unfold lap_fill, par. set (f := fun (p : Z * Z) a => _).
  destruct (foldM_done (fun done a => lens a /\ forall x y z, In (z, y) done -> in_grid nx ny nz (x, y, z) -> stored a (cell nx ny (x, y, z))) f (merge sch (map (fun p => [p]) (list_prod (zrange 0 nz) (zrange 0 ny)))) a) as (a' & done & E & (L' & S') & D).
  - split; auto. intros x y z [].
  - intros (iz & iy) done a1 Hi (L1 & S1). assert (Hi' : In (iz, iy) (list_prod (zrange 0 nz) (zrange 0 ny))). { rewrite <- (concat_singletons (list_prod _ _)). eapply Permutation_in; [apply merge_perm|exact Hi]. }
    apply in_prod_iff in Hi' as (B1 & B2). apply In_zrange in B1, B2. unfold f. cbn [fst snd].
    match goal with |- exists s', forZ 0 nx ?g _ = _ /\ _ => destruct (forZ_rule (fun ix a => lens a /\ (forall x y z, In (z, y) done -> in_grid nx ny nz (x, y, z) -> stored a (cell nx ny (x, y, z))) /\ forall x, 0 <= x < ix -> stored a (cell nx ny (x, iy, iz))) 0 nx g a1) as (a2 & E & L2 & S2 & T2) end; [lia| | |].
    + split; auto. split; auto. intros; lia.
    + intros ix a2 Hix (L2 & S2 & T2). assert (B : in_grid nx ny nz (ix, iy, iz)) by (unfold in_grid; auto). destruct (lap_row_fill_ok ix iy iz a2 B L2) as (a3 & E & L3 & S3 & F3). exists a3. split; auto. split; auto. split.
      * intros x y z H1 H2. apply F3; auto. apply cell_range; auto.
      * intros x Hx'. destruct (Z.eq_dec x ix) as [->|]; auto. apply F3; [apply cell_range; unfold in_grid; lia|]. apply T2. lia.
    + exists a2. split; auto. split; auto. intros x y z [Eq|Hin] Hg; [|auto]. injection Eq as <- <-. apply T2. unfold in_grid in Hg. lia.
  - exists a'. split; auto. split; auto. intros r Hr. destruct (row_cell r Hr) as (x & y & z & Hg & ->). apply S'; auto. apply D. eapply Permutation_in; [apply Permutation_sym, merge_perm|]. rewrite concat_singletons. destruct Hg as (G1 & G2 & G3). apply in_prod; apply In_zrange; auto.
Qed.

Theorem laplacian_ok base sch sch' j jv : (forall k, 0 <= k -> Zlen (j k) = k /\ Zlen (jv k) = k) -> base = 0 \/ base = 1 ->
  exists A, laplacian vdiag vinv voff nx ny nz base sch sch' j jv = Some A /\ rep true base m lap_rows A /\ extptr A = None /\ diag_described (fun _ => vinv) base lap_rows A.
Proof.
  intros HJ Hb. pose proof lap_m as Hm. unfold laplacian. fold m. rewrite lap_rowptr_ok by (apply HJ; lia). pose proof (off_nonneg (nthl lap_rows) m) as Hoff.
  destruct (lap_fill_ok sch (mkLap (j (off (nthl lap_rows) m)) (jv (off (nthl lap_rows) m)) (jv m) (jv m) (j m))) as (a & -> & (L1 & L2 & L3 & L4 & L5) & S). { unfold lens. cbn [lp_cols lp_vals lp_diag lp_idiag lp_dptr]. repeat split; apply HJ; lia. }
  set (A := mkCSR _ _ _ _ _ _ _ _ _).
  assert (CF : concat lap_rows = flat (nthl lap_rows) m) by (rewrite <- Zlen_lap; apply concat_flat).
  assert (HA : rep true 0 m lap_rows A).
  { unfold rep, A. cbn [cm cn rowptr colidx values]. rewrite Zlen_lap. split; auto. split; auto. split; auto. unfold colidx_of, values_of. split; [|f_equal].
    - apply list_ext; [rewrite Zlen_map, CF, Zlen_flat by lia; auto|]. intros o Ho. destruct (flat_locate (nthl lap_rows) m o Hm) as (i & k & Hi & Hk & ->); [lia|]. destruct (get_in_range (nthl lap_rows i) k Hk) as ((c & v) & E). destruct (S i Hi) as (S1 & _). rewrite (proj1 (S1 k c v E)).
      rewrite get_map, CF, get_flat, E by auto. cbn [option_map fst]. f_equal. lia.
    - apply list_ext; [rewrite Zlen_map, CF, Zlen_flat by lia; auto|]. intros o Ho. destruct (flat_locate (nthl lap_rows) m o Hm) as (i & k & Hi & Hk & ->); [lia|]. destruct (get_in_range (nthl lap_rows i) k Hk) as ((c & v) & E). destruct (S i Hi) as (S1 & _). rewrite (proj2 (S1 k c v E)).
      rewrite get_map, CF, get_flat, E by auto. reflexivity. }
  assert (HD : forall i l1 v l2, 0 <= i < m -> nthl lap_rows i = l1 ++ (i, v) :: l2 -> (forall w, ~ In (i, w) l2) -> get (lp_dptr a) i = Some (off (nthl lap_rows) i + Zlen l1) /\ get (lp_diag a) i = Some v /\ get (lp_idiag a) i = Some vinv).
  { intros i l1 v l2 Hi. apply S; auto. }
  destruct Hb as [-> | ->].
  - change (1 =? 0) with false. exists A. split; auto. split; auto. split; auto. exists (lp_dptr a), (lp_diag a), (lp_idiag a). rewrite Zlen_lap. repeat split; auto; eapply HD; eauto.
  - change (1 =? 1) with true. cbv iota. destruct (make1_ok true m lap_rows A sch' HA) as (A' & E & HA' & V1 & V2 & V3 & V4 & V5). { intros d Ed. injection Ed as <-. auto. }
    exists A'. split; auto. split; auto. split; auto. exists (map (fun x => x + 1) (lp_dptr a)), (lp_diag a), (lp_idiag a). rewrite V2, V3, V5, Zlen_map, Zlen_lap. split; [reflexivity|]. split; [reflexivity|]. split; [reflexivity|]. split; auto. split; auto. split; auto.
    intros i l1 v l2 Hi Hr Hl. destruct (HD i l1 v l2 Hi Hr Hl) as (G1 & G2 & G3). rewrite get_map, G1. cbn [option_map]. split; auto. f_equal. lia.
Qed.
End Proof.

(** The rows are determined by the specification. *)
Theorem laplacian_rows_unique {V} (d o : V) nx ny nz r1 r2 : 1 <= nx -> 1 <= ny -> 1 <= nz -> laplacian_rows d o nx ny nz r1 -> laplacian_rows d o nx ny nz r2 -> r1 = r2.
Proof.
  intros Hx Hy Hz (L1 & S1) (L2 & S2). apply rows_ext; [congruence|]. intros i Hi. rewrite L1 in Hi. destruct (row_cell nx ny nz Hx Hy i Hi) as (x & y & z & Hg & ->).
  destruct (S1 _ Hg) as (A1 & B1). destruct (S2 _ Hg) as (A2 & B2).
  assert (F : map fst (nthl r1 (cell nx ny (x, y, z))) = map fst (nthl r2 (cell nx ny (x, y, z)))).
  { apply ssorted_unique; auto. intros c. rewrite !in_map_iff. split; intros ((c' & v) & <- & Hc); exists (c', v); split; auto; [apply B2, B1|apply B1, B2]; auto. }
  assert (VV : forall c v, In (c, v) (nthl r1 (cell nx ny (x, y, z))) \/ In (c, v) (nthl r2 (cell nx ny (x, y, z))) -> v = if c =? cell nx ny (x, y, z) then d else o).
  { intros c v [H|H]; [apply B1 in H|apply B2 in H]; destruct H as (q & _ & _ & -> & ->); reflexivity. }
  revert F VV. generalize (nthl r1 (cell nx ny (x, y, z))) (nthl r2 (cell nx ny (x, y, z))). induction l as [|(c & v) l IH]; intros [|(c' & v') l'] F VV; try discriminate; auto. cbn [map fst] in F. injection F as <- F.
  rewrite (VV c v), (VV c v') by (cbn; auto). f_equal. apply IH; auto. intros c0 v0 [H|H]; apply VV; [left|right]; now right.
Qed.
(** The matrix is symmetric. *)
Theorem laplacian_rows_symmetric {V} (d o : V) nx ny nz rows i c v : 1 <= nx -> 1 <= ny -> 1 <= nz -> laplacian_rows d o nx ny nz rows -> 0 <= i < Zlen rows -> In (c, v) (nthl rows i) -> 0 <= c < Zlen rows /\ In (i, v) (nthl rows c).
Proof.
  intros Hx Hy Hz (L & S) Hi Hc. rewrite L in *. destruct (row_cell nx ny nz Hx Hy i Hi) as (x & y & z & Hg & ->). apply (S _ Hg) in Hc as (((x' & y') & z') & Q1 & Q2 & -> & ->). split; [apply cell_range; auto|].
  apply (S _ Q1). exists (x, y, z). split; auto. split; [unfold touching in *; lia|]. split; auto. rewrite Z.eqb_sym. reflexivity.
Qed.

Section Wrong.
Context {V : Type}.
Variables (vdiag vinv voff : V).
Variables (nx ny nz : Z).
Hypothesis Hx : 1 <= nx.
Hypothesis Hy : 1 <= ny.
Hypothesis Hz : 1 <= nz.
Let m := nx * ny * nz.

Lemma row_fill_len rp iz iy ix a a' : lap_row_fill vdiag vinv voff nx ny nz rp iz iy ix a = Some a' -> Zlen (lp_cols a') = Zlen (lp_cols a) /\
  forall idx, get rp (cell nx ny (ix, iy, iz)) = Some idx -> in_grid nx ny nz (ix, iy, iz) -> idx + Zlen (lap_cols nx ny nz iz iy ix) <= Zlen (lp_cols a).
Proof.
  unfold lap_row_fill, cell. set (row := (iz * ny + iy) * nx + ix). destruct (get rp row) as [idx|]; [|discriminate]. pose proof (row_fill_cols vdiag vinv voff nx ny nz iz iy ix idx a) as RF. cbv zeta in RF. fold row in RF. rewrite RF. clear RF.
  destruct (foldM (lap_emit vdiag vinv voff row) (lap_cols nx ny nz iz iy ix) (idx, a)) as [(idx' & a1)|] eqn:E; [|discriminate]. intros Ea. injection Ea as <-. eapply emit_len in E as (L & B); [|eauto..]. cbn [snd]. split; auto. intros idx0 E0 Hg. injection E0 as <-. apply B. intros E1.
  assert (In row (lap_cols nx ny nz iz iy ix)) as Hin; [|rewrite E1 in Hin; contradiction]. apply (In_lap_cols nx ny nz ix iy iz row Hg). exists (ix, iy, iz). split; auto. split; [unfold touching; lia|reflexivity].
Qed.

Lemma Zlen_lap_cols x y z : in_grid nx ny nz (x, y, z) -> Zlen (lap_cols nx ny nz z y x) = Zlen (span z nz) * (Zlen (span y ny) * Zlen (span x nx)).
Proof.
  intros _. unfold lap_cols. rewrite (Zlen_flat_map _ _ (Zlen (span y ny) * Zlen (span x nx))); auto. intros z' _. rewrite (Zlen_flat_map _ _ (Zlen (span x nx))); auto. intros y' _. apply Zlen_map.
Qed.
Lemma Zlen_span' k size : 0 <= k < size -> Zlen (span k size) = if (1 <=? k) && (k <? size - 1) then 3 else if size =? 1 then 1 else 2.
Proof. intros H. rewrite (Zlen_span k size size) by (auto; tauto). reflexivity. Qed.

(** A flat grid: out of bounds in every execution. *)
Theorem flat_grid_fails base sch sch' j jv : nz = 1 -> 2 <= nx \/ 2 <= ny -> (forall k, 0 <= k -> Zlen (j k) = k /\ Zlen (jv k) = k) -> laplacian vdiag vinv voff nx ny nz base sch sch' j jv = None.
Proof.
  intros E1 H2 HJ. pose proof (lap_m nx ny nz Hx Hy Hz) as Hm. fold m in Hm. unfold laplacian. fold m. rewrite (lap_rowptr_gen nx ny nz Hx Hy Hz) by (apply HJ; fold m; lia). fold m. set (rp := map _ _). set (nnz := before _ m).
  assert (Hg : in_grid nx ny nz (nx - 1, ny - 1, nz - 1)) by (unfold in_grid; lia).
  assert (Hc : cell nx ny (nx - 1, ny - 1, nz - 1) = m - 1) by (unfold cell, m; ring).
  assert (Hm1 : 1 <= m) by (pose proof (cell_range nx ny nz Hx Hy Hz _ _ _ Hg) as R; rewrite Hc in R; fold m in R; lia).
  assert (NN : nnz = before (lap_cnt nx ny nz) (m - 1) + 1).
  { unfold nnz. replace m with (m - 1 + 1) at 1 by lia. rewrite before_S by lia. f_equal. rewrite <- Hc. rewrite (lap_cnt_cell nx ny nz Hx Hy) by lia. unfold lap_count.
    replace (nx - 1 <? nx - 1) with false by lia. replace (ny - 1 <? ny - 1) with false by lia. replace (nz - 1 <? nz - 1) with false by lia. rewrite !andb_false_r, E1. reflexivity. }
  assert (N0 : 0 <= nnz). { unfold nnz. apply before_nonneg. intros i _. unfold lap_cnt, lap_count. destruct (_ && _), (_ && _), (_ && _), (nz =? 1); lia. }
  assert (F : lap_fill vdiag vinv voff nx ny nz rp sch (mkLap (j nnz) (jv nnz) (jv m) (jv m) (j m)) = None); [|rewrite F; reflexivity].
  unfold lap_fill, par. set (f := fun (p : Z * Z) a => _).
  assert (G : forall l a, Zlen (lp_cols a) = nnz -> In (nz - 1, ny - 1) l -> foldM f l a = None).
  { induction l as [|p l IH]; intros a La Hin; [contradiction|]. cbn [foldM]. destruct (f p a) as [a1|] eqn:Ef; auto.
    assert (La1 : Zlen (lp_cols a1) = nnz). { unfold f, forZ in Ef. refine (foldM_inv (fun a => Zlen (lp_cols a) = nnz) _ _ _ _ _ La Ef). intros ix s s' _ Hs Es. apply row_fill_len in Es. lia. }
    destruct Hin as [->|Hin]; [|apply IH; auto]. exfalso. unfold f in Ef. cbn [fst snd] in Ef. replace nx with (nx - 1 + 1) in Ef at 1 by lia. rewrite forZ_snoc in Ef by lia.
    destruct (forZ 0 (nx - 1) _ a) as [a2|] eqn:E2; [|discriminate]. assert (La2 : Zlen (lp_cols a2) = nnz). { unfold forZ in E2. refine (foldM_inv (fun a => Zlen (lp_cols a) = nnz) _ _ _ _ _ La E2). intros ix s s' _ Hs Es. apply row_fill_len in Es. lia. }
    apply row_fill_len in Ef as (_ & Ef). assert (Er : get rp (cell nx ny (nx - 1, ny - 1, nz - 1)) = Some (before (lap_cnt nx ny nz) (m - 1))). { unfold rp. rewrite Hc, get_map, get_zrange by lia. reflexivity. }
    specialize (Ef _ Er Hg). rewrite (Zlen_lap_cols _ _ _ Hg) in Ef. rewrite !Zlen_span' in Ef by lia. replace (nx - 1 <? nx - 1) with false in Ef by lia. replace (ny - 1 <? ny - 1) with false in Ef by lia. replace (nz - 1 <? nz - 1) with false in Ef by lia. rewrite !andb_false_r in Ef.
    replace (nz =? 1) with true in Ef by lia. destruct (Z.eqb_spec nx 1), (Z.eqb_spec ny 1); lia. }
  apply G; [cbn [lp_cols]; now apply HJ|]. eapply Permutation_in; [apply Permutation_sym, merge_perm|]. rewrite concat_singletons. apply in_prod; apply In_zrange; lia.
Qed.

(** So the result is right exactly when the sizes agree on being 1. *)
Theorem laplacian_only_if sch sch' j jv A rows : (forall k, 0 <= k -> Zlen (j k) = k /\ Zlen (jv k) = k) ->
  laplacian vdiag vinv voff nx ny nz 0 sch sch' j jv = Some A -> rep true 0 m rows A -> laplacian_rows vdiag voff nx ny nz rows -> (nx = 1 <-> nz = 1) /\ (ny = 1 <-> nz = 1).
Proof.
  intros HJ E HR HL. destruct (Z.eq_dec nz 1) as [E1|N1].
  - destruct (Z_lt_ge_dec nx 2), (Z_lt_ge_dec ny 2); [lia|rewrite flat_grid_fails in E by (auto; lia); discriminate..].
  - pose proof (lap_m nx ny nz Hx Hy Hz) as Hm. fold m in Hm. pose proof (laplacian_rows_unique vdiag voff nx ny nz _ _ Hx Hy Hz HL (lap_rows_spec vdiag voff nx ny nz Hx Hy Hz)) as ->.
    assert (Hg : in_grid nx ny nz (0, 0, 0)) by (unfold in_grid; lia). pose proof (cell_range nx ny nz Hx Hy Hz _ _ _ Hg) as CR. fold m in CR. change (cell nx ny (0, 0, 0)) with ((0 * ny + 0) * nx + 0) in CR. replace ((0 * ny + 0) * nx + 0) with 0 in CR by ring.
    pose proof (rep_rowptr_S _ _ _ _ _ 0 HR) as R. rewrite (Zlen_lap vdiag voff nx ny nz Hx Hy Hz) in R. fold m in R. specialize (R CR). rewrite off_0 in R.
    pose proof (lap_nthl vdiag voff nx ny nz Hx Hy Hz 0 0 0 Hg) as NL. unfold cell in NL. replace ((0 * ny + 0) * nx + 0) with 0 in NL by ring. rewrite NL, Zlen_map, (Zlen_lap_cols 0 0 0 Hg) in R. rewrite !Zlen_span' in R by lia.
    unfold laplacian in E. fold m in E. rewrite (lap_rowptr_gen nx ny nz Hx Hy Hz) in E by (apply HJ; fold m; lia). fold m in E. destruct (lap_fill _ _ _ _ _ _ _ _ _) as [a|]; [|discriminate]. change (1 =? 0) with false in E. injection E as <-. cbn [rowptr] in R.
    rewrite get_map, get_zrange in R by lia. change (0 + (0 + 1)) with 1 in R. assert (B1 : before (lap_cnt nx ny nz) 1 = lap_cnt nx ny nz 0) by (change 1 with (0 + 1); rewrite before_S, before_0 by lia; lia). cbn [option_map] in R. rewrite B1 in R. injection R as R.
    pose proof (lap_cnt_cell nx ny nz Hx Hy 0 0 0 ltac:(lia) ltac:(lia)) as LC. unfold cell in LC. replace ((0 * ny + 0) * nx + 0) with 0 in LC by ring. rewrite LC in R. unfold lap_count in R. change (1 <=? 0) with false in R. cbn [andb] in R.
    destruct (Z.eqb_spec nx 1), (Z.eqb_spec ny 1), (Z.eqb_spec nz 1); lia.
Qed.
End Wrong.

(** ** Worked cases *)
Definition lap_junk (k : Z) : list Z := repeat 77 (Z.to_nat k).
Lemma lap_junk_ok k : 0 <= k -> Zlen (lap_junk k) = k /\ Zlen (lap_junk k) = k.
Proof. intros H. unfold lap_junk, Zlen. rewrite repeat_length. lia. Qed.
Lemma lap_run : exists A, laplacian 26 0 (-1) 3 2 2 1 [3; 1]%nat (fun _ => []) lap_junk lap_junk = Some A /\
  rowptr A = [1; 9; 21; 29; 37; 49; 57; 65; 77; 85; 93; 105; 113] /\ slice (colidx A) 0 8 = [1; 2; 4; 5; 7; 8; 10; 11] /\ diagptr A = Some [1; 10; 22; 31; 41; 52; 61; 72; 82; 91; 103; 112].
Proof. eexists. split; [vm_compute; reflexivity|]. repeat split; reflexivity. Qed.
(** A thin grid: the rows have gaps, which keep what was in memory. *)
Lemma lap_thin_run : laplacian 26 0 (-1) 1 1 2 0 [] (fun _ => []) lap_junk lap_junk =
  Some (mkCSR 2 2 [0; 8; 16] [0; 1; 77; 77; 77; 77; 77; 77; 0; 1; 77; 77; 77; 77; 77; 77] (Some [26; -1; 77; 77; 77; 77; 77; 77; -1; 26; 77; 77; 77; 77; 77; 77]) (Some [0; 0]) (Some [26; 26]) (Some [0; 9]) None).
Proof. vm_compute. reflexivity. Qed.
Theorem laplacian_correct {V} (d di o : V) nx ny nz : 1 <= nx -> 1 <= ny -> 1 <= nz -> (nx = 1 <-> nz = 1) -> (ny = 1 <-> nz = 1) ->
  exists rows, laplacian_rows d o nx ny nz rows /\
  forall base sch sch' j jv, base = 0 \/ base = 1 -> (forall k, 0 <= k -> Zlen (j k) = k /\ Zlen (jv k) = k) ->
  exists A, laplacian d di o nx ny nz base sch sch' j jv = Some A /\ rep true base (nx * ny * nz) rows A /\ extptr A = None /\ diag_described (fun _ => di) base rows A.
Proof. intros. exists (lap_rows d o nx ny nz). split; [apply lap_rows_spec; auto|]. intros. apply laplacian_ok; auto. Qed.
