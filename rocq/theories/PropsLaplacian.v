(** * The 27-point Laplacian generator: the theorems (C25). *)
From Verif Require Import Base Interleave Spec Flat Csr CsrOps BinIO Laplacian.

(** C25.  When all sizes are at least 2, or all are 1, the generator gives the
    matrix with [d] on the diagonal and [o] for each of the up to 26 neighbours,
    rows sorted, with its diagonal arrays; for both bases, any order of the
    parallel loop and any previous contents of memory. *)
Theorem C25_laplacian : forall (V : Type) (d di o : V) nx ny nz, 1 <= nx -> 1 <= ny -> 1 <= nz -> (nx = 1 <-> nz = 1) -> (ny = 1 <-> nz = 1) ->
  exists rows, laplacian_rows d o nx ny nz rows /\
  forall base sch sch' j jv, base = 0 \/ base = 1 -> (forall k, 0 <= k -> Zlen (j k) = k /\ Zlen (jv k) = k) ->
  exists A, laplacian d di o nx ny nz base sch sch' j jv = Some A /\ rep true base (nx * ny * nz) rows A /\ extptr A = None /\ diag_described (fun _ => di) base rows A.
Proof. exact @laplacian_correct. Qed.
Print Assumptions C25_laplacian.
Example C25_run : exists A, laplacian 26 0 (-1) 3 2 2 1 [3; 1]%nat (fun _ => []) lap_junk lap_junk = Some A /\
  rowptr A = [1; 9; 21; 29; 37; 49; 57; 65; 77; 85; 93; 105; 113] /\ slice (colidx A) 0 8 = [1; 2; 4; 5; 7; 8; 10; 11] /\ diagptr A = Some [1; 10; 22; 31; 41; 52; 61; 72; 82; 91; 103; 112].
Proof. exact lap_run. Qed.
Example C25_case : forall k, 0 <= k -> Zlen (lap_junk k) = k /\ Zlen (lap_junk k) = k.
Proof. exact lap_junk_ok. Qed.

(** The specification leaves no choice, and such a matrix is symmetric. *)
Theorem C25_unique : forall (V : Type) (d o : V) nx ny nz r1 r2, 1 <= nx -> 1 <= ny -> 1 <= nz -> laplacian_rows d o nx ny nz r1 -> laplacian_rows d o nx ny nz r2 -> r1 = r2.
Proof. exact @laplacian_rows_unique. Qed.
Print Assumptions C25_unique.
Theorem C25_symmetric : forall (V : Type) (d o : V) nx ny nz rows i c v, 1 <= nx -> 1 <= ny -> 1 <= nz -> laplacian_rows d o nx ny nz rows ->
  0 <= i < Zlen rows -> In (c, v) (nthl rows i) -> 0 <= c < Zlen rows /\ In (i, v) (nthl rows c).
Proof. exact @laplacian_rows_symmetric. Qed.
Print Assumptions C25_symmetric.

(** For a flat grid (nz = 1, another size above 1) every execution writes out of
    bounds. *)
Theorem C25_flat_refuted : forall (V : Type) (d di o : V) nx ny nz, 1 <= nx -> 1 <= ny -> 1 <= nz -> forall base sch sch' j jv, nz = 1 -> 2 <= nx \/ 2 <= ny ->
  (forall k, 0 <= k -> Zlen (j k) = k /\ Zlen (jv k) = k) -> laplacian d di o nx ny nz base sch sch' j jv = None.
Proof. exact @flat_grid_fails. Qed.
Print Assumptions C25_flat_refuted.
(** The sizes of C25_laplacian are the only ones with a right result. *)
Theorem C25_only_if : forall (V : Type) (d di o : V) nx ny nz, 1 <= nx -> 1 <= ny -> 1 <= nz -> forall sch sch' j jv A rows, (forall k, 0 <= k -> Zlen (j k) = k /\ Zlen (jv k) = k) ->
  laplacian d di o nx ny nz 0 sch sch' j jv = Some A -> rep true 0 (nx * ny * nz) rows A -> laplacian_rows d o nx ny nz rows -> (nx = 1 <-> nz = 1) /\ (ny = 1 <-> nz = 1).
Proof. exact @laplacian_only_if. Qed.
Print Assumptions C25_only_if.
(** For instance a 1 x 1 x 2 grid keeps what was in memory. *)
Example C25_thin_run : laplacian 26 0 (-1) 1 1 2 0 [] (fun _ => []) lap_junk lap_junk =
  Some (mkCSR 2 2 [0; 8; 16] [0; 1; 77; 77; 77; 77; 77; 77; 0; 1; 77; 77; 77; 77; 77; 77] (Some [26; -1; 77; 77; 77; 77; 77; 77; -1; 26; 77; 77; 77; 77; 77; 77]) (Some [0; 0]) (Some [26; 26]) (Some [0; 9]) None).
Proof. exact lap_thin_run. Qed.
