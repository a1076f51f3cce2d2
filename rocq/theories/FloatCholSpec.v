(** Vocabulary of C89: cholesky on doubles. *)
From Coq Require Import ZArith Reals List Arith SpecFloat.
From Verif Require Import Base Num NumInst MatI FloatSpec.
Local Open Scope R_scope.

(** Entry (i,j), j <= i, of |L||L^T|. *)
Definition chol_terms (l : nat -> nat -> NumF64) (i j : nat) : R := rsum (S j) (fun t => Rabs (real (l i t) * real (l j t))).
(** Entry (i,j), j <= i, of A and of the exact product L L^T differ by at most (1+2^-53)^(n+7) - 1 times |L||L^T| (and an underflow term).
    A NaN counts as 0 here ([real]). *)
Definition chol_entry (n : nat) (a l : nat -> nat -> NumF64) (i j : nat) : Prop :=
  Rabs (real (a i j) - rsum (S j) (fun t => real (l i t) * real (l j t))) <= row_bound (n + 7) (chol_terms l i j) (real (l j j)).
(** The factor of a: doubles, zeros above the diagonal; below and on the diagonal finite, with a positive diagonal, except that the very last entry
    may be a NaN; and L L^T is close to a. *)
Definition chol_float (n : nat) (a : nat -> nat -> NumF64) {I : MatI NumF64} (L : I) : Prop := exists l,
  MatI.holds L n n l /\ doubles2 n n l /\ (forall i j, (i < j < n)%nat -> l i j = n0) /\
  (forall i j, (j < i < n)%nat -> finite (l i j)) /\
  (forall j, (j < n)%nat -> (finite (l j j) /\ 0 < real (l j j)) \/ (S j = n /\ l j j = S754_nan)) /\
  forall i j, (j <= i < n)%nat -> chol_entry n a l i j.
(** The entries of a on and below the diagonal are finite. *)
Definition lower_finite (n : nat) (a : nat -> nat -> NumF64) : Prop := forall i j, (j <= i < n)%nat -> finite (a i j).

(** Bound on the entries of A - L L^T for an n x n matrix with entries of modulus at most 2^e. *)
Definition chol_error (n : nat) (e : Z) : R := row_bound (n + 7) (powerRZ 2 (e + 2)) (1 + powerRZ 2 (e + 1)).
(** Every symmetric real matrix whose entries differ from those of a by at most d is positive definite. *)
Definition safely_pd (n : nat) (d : R) (a : nat -> nat -> NumF64) : Prop := forall E : nat -> nat -> R,
  (forall i j, (i < n)%nat -> (j < n)%nat -> E i j = E j i /\ Rabs (E i j) <= d) ->
  forall x : nat -> R, (exists i, (i < n)%nat /\ x i <> 0) -> 0 < rsum n (fun i => rsum n (fun j => x i * (real (a i j) + E i j) * x j)).
(** A finite lower triangular factor with positive diagonal; L L^T differs from a by at most d in every entry. *)
Definition chol_success (n : nat) (d : R) (a : nat -> nat -> NumF64) {I : MatI NumF64} (L : I) : Prop := exists l,
  MatI.holds L n n l /\ (forall i j, (i < n)%nat -> (j < n)%nat -> double (l i j) /\ finite (l i j)) /\
  (forall i j, (i < j < n)%nat -> l i j = n0) /\ (forall j, (j < n)%nat -> 0 < real (l j j)) /\
  forall i j, (i < n)%nat -> (j < n)%nat -> Rabs (real (a i j) - rsum n (fun t => real (l i t) * real (l j t))) <= d.
(** The diagonal exceeds the sum of the other entries of its row by more than n d. *)
Definition dominant_by (n : nat) (d : R) (a : nat -> nat -> NumF64) : Prop := forall i, (i < n)%nat ->
  rsum n (fun j => if (j =? i)%nat then 0 else Rabs (real (a i j))) + INR n * d < real (a i i).
