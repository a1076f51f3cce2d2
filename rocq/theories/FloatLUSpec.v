(** Vocabulary of C75: error bounds of the LU decomposition on doubles. *)
From Coq Require Import ZArith Reals List Arith SpecFloat Permutation.
From Verif Require Import Base Num NumInst MatI DetSpec FloatSpec.
Local Open Scope R_scope.

(** Entries of L (below the diagonal) and of U (on and above it) are finite and the pivots do not exceed 2^1022. *)
Definition lu_usable (n : nat) (l u : nat -> nat -> NumF64) : Prop :=
  (forall i j, (j < i < n)%nat -> finite (l i j)) /\ (forall i j, (i <= j < n)%nat -> finite (u i j)) /\
  (forall j, (j < n)%nat -> Rabs (real (u j j)) <= powerRZ 2 1022).
(** |L||U| in entry (i,j). *)
Definition lu_terms (l u : nat -> nat -> NumF64) (i j : nat) : R := rsum (S (min i j)) (fun t => Rabs (real (l i t) * real (u t j))).
(** |L||U||x| in row i. *)
Definition lux_terms (n : nat) (l u : nat -> nat -> NumF64) (x : list NumF64) (i : nat) : R := rsum n (fun j => lu_terms l u i j * Rabs (real (nth j x n0))).
(** Weight of the underflow term in row i. *)
Definition slack (n : nat) (l u : nat -> nat -> NumF64) (i : nat) : R :=
  INR n + Rabs (real (l i i)) + rsum (S i) (fun j => Rabs (real (l i j)) * (INR n + Rabs (real (u j j)))).
(** The multipliers are at most 1, and the entries of the product of the lower triangle of L and the upper
    triangle of U differ from those of the row-permuted matrix by at most (1+2^-53)^(n+1) - 1 times |L||U|. *)
Definition lu_bounds (n : nat) (a l u : nat -> nat -> NumF64) (rt : list nat) : Prop := lu_usable n l u ->
  (forall i j, (j < i < n)%nat -> Rabs (real (l i j)) <= 1) /\
  forall i j, (i < n)%nat -> (j < n)%nat ->
    Rabs (real (a (nth i rt 0%nat) j) - rsum (S (min i j)) (fun t => real (l i t) * real (u t j)))
      <= row_bound (n + 1) (lu_terms l u i j) (real (u j j)).
(** Result of doolittle for the table a; l0 and p0 are the tables of the output objects L and P before the call. *)
Definition lu_float (n : nat) (a l0 p0 : nat -> nat -> NumF64) {I : MatI NumF64} (r : I * I * I * nat) : Prop := let '(L, U, P, cnt) := r in exists l u rt,
  MatI.holds L n n l /\ MatI.holds U n n u /\ MatI.holds P n n (fun i j => if (j =? nth i rt 0)%nat then n1 else p0 i j) /\
  exchanges n rt cnt /\ (cnt < n)%nat /\ Permutation rt (seq 0 n) /\ doubles2 n n l /\ doubles2 n n u /\
  (forall i j, (i < n)%nat -> (j < n)%nat -> (i <= j)%nat -> l i j = if (i =? j)%nat then n1 else l0 i j) /\
  lu_bounds n a l u rt.
