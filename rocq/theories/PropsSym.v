(** * Property C19: the symmetrised pattern. *)
From Verif Require Import Base Spec Flat Csr CsrOps Kernels LevelsCsr TaskGraphCsr SymPattern.

(** C19.  For every interleaving [sch], number of threads and previous memory
    contents [j]: the result tells whether the pattern of the square part is
    symmetric, and if not, the arrays store the union of it and its transpose,
    sorted, followed by the columns behind extptr. *)
Theorem C19_symmetrised : forall {V} hasv n (rows lrows : rows_t V) A, rep hasv 0 n rows A -> local_rows 0 rows A lrows -> halo_last rows lrows ->
  (forall i, 0 <= i < Zlen rows -> ssortedZ (map fst (nthl lrows i))) -> (forall i c v, 0 <= i < Zlen rows -> In (c, v) (nthl lrows i) -> 0 <= c) ->
  forall T sch, 1 <= T -> forall j, sym_junk_ok (Zlen rows) j -> exists b r, getSymmetricNnzPattern A T sch j = Some (b, r) /\ (b = true <-> symmetric_pattern lrows) /\
  match r with None => b = true | Some a => b = false /\ exists ps, union_pattern lrows ps /\ sym_stored rows lrows ps (match extptr A with Some _ => true | None => false end) a end.
Proof. intros V. exact symmetrise_ok. Qed.
Print Assumptions C19_symmetrised.
Example C19_ex : rep true 0 5 uns_rows uns_A /\ local_rows 0 uns_rows uns_A uns_lrows /\ halo_last uns_rows uns_lrows /\
  (forall i, 0 <= i < 3 -> ssortedZ (map fst (nthl uns_lrows i))) /\ (forall i c v, 0 <= i < 3 -> In (c, v) (nthl uns_lrows i) -> 0 <= c) /\ sym_junk_ok 3 uns_junk.
Proof. exact uns_hyps. Qed.
Example C19_run : getSymmetricNnzPattern uns_A 2 (fun k => [0; 1; 1; 0]%nat) uns_junk =
  Some (false, Some (mkSymArrays [0; 4; 8; 11] [0; 1; 2; 4; 0; 1; 2; 3; 0; 1; 2] (Some [3; 7; 11; 5]) [0; 5; 10; 6])).
Proof. exact uns_run. Qed.

(** The specification determines the arrays, so all runs agree. *)
Theorem C19_determined : forall {V} (rows lrows : rows_t V) ps ps' he a a', union_pattern lrows ps -> union_pattern lrows ps' ->
  sym_stored rows lrows ps he a -> sym_stored rows lrows ps' he a' ->
  sy_rowptr a = sy_rowptr a' /\ sy_colidx a = sy_colidx a' /\ match sy_extptr a, sy_extptr a' with Some e, Some e' => forall i, 0 <= i < Zlen rows -> get e i = get e' i | None, None => True | _, _ => False end.
Proof. intros V. exact determined. Qed.
Print Assumptions C19_determined.

(** For base 1 the function writes out of bounds. *)
Theorem C19_base1_refuted : exists (rows : rows_t Z) A T sch j, rep true 1 (Zlen rows) rows A /\ rows_ok (Zlen rows) rows /\ local_rows 1 rows A rows /\ (forall i, 0 <= i < Zlen rows -> ssortedZ (map fst (nthl rows i))) /\ sym_junk_ok (Zlen rows) j /\ 1 <= T /\
  getSymmetricNnzPattern A T sch j = None.
Proof. exact base1_refuted. Qed.
Print Assumptions C19_base1_refuted.
