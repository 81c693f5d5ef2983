(** * Specifications.

    Small definitions used to state the properties.  They mention neither the
    model functions nor their helpers. *)
From Verif Require Import Base.

(** [ranges t] is the half-open index range of thread [t] out of [T].  The
    ranges are consecutive, stay in [0,n), and every index is in exactly one. *)
Definition tiles (n T : Z) (ranges : Z -> option (Z * Z)) : Prop :=
  (forall t, 0 <= t < T -> exists lo hi,
      ranges t = Some (lo, hi) /\ 0 <= lo <= hi /\ hi <= n) /\
  (exists hi, ranges 0 = Some (0, hi)) /\
  (exists lo, ranges (T - 1) = Some (lo, n)) /\
  (forall t, 0 <= t -> t + 1 < T -> exists lo mid hi,
      ranges t = Some (lo, mid) /\ ranges (t + 1) = Some (mid, hi)) /\
  (forall i, 0 <= i < n -> exists! t, 0 <= t < T /\
      exists lo hi, ranges t = Some (lo, hi) /\ lo <= i < hi).

(** The array holds a permutation of 0..n-1. *)
Definition is_perm (n : Z) (p : list Z) : Prop := Permutation p (zrange 0 n).

(** [q] is the two-sided inverse of [p] on 0..n-1. *)
Definition inverse_perms (n : Z) (p q : list Z) : Prop :=
  Zlen p = n /\ Zlen q = n /\
  (forall i, 0 <= i < n -> exists k, get p i = Some k /\ get q k = Some i) /\
  (forall k, 0 <= k < n -> exists i, get q k = Some i /\ get p i = Some k).

(** Non-decreasing. *)
Definition sortedZ (l : list Z) : Prop := StronglySorted Z.le l.
(** Strictly increasing. *)
Definition ssortedZ (l : list Z) : Prop := StronglySorted Z.lt l.

Definition monotone (l : list Z) : Prop :=
  forall i j a b, i <= j -> get l i = Some a -> get l j = Some b -> a <= b.

(** Sum of the first [k] values of [f]. *)
Fixpoint nsum (f : nat -> Z) (k : nat) : Z :=
  match k with O => 0 | S k => nsum f k + f k end.
