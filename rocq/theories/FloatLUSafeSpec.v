(** Vocabulary of C91: LU decomposition on doubles of matrices that stay nonsingular under perturbations of the size of its rounding errors. *)
From Coq Require Import ZArith Reals List Arith SpecFloat Permutation.
From Verif Require Import Base Num NumInst DetSpec MatI FloatSpec FloatLUSpec FloatDetSpec.
Local Open Scope R_scope.

(** No real matrix whose entries differ from those of a by at most d is singular. *)
Definition safely_nonsingular (n : nat) (d : R) (a : nat -> nat -> NumF64) : Prop := forall E : nat -> nat -> R,
  (forall i j, (i < n)%nat -> (j < n)%nat -> Rabs (E i j) <= d) -> det n (perturbed a E) <> 0.
(** The rounding errors of the decomposition, and the threshold 2^-52 under which it takes a pivot for 0. *)
Definition lu_margin (n : nat) (e : Z) : R := lu_error n e + powerRZ 2 (-52).
(** y is the exact inverse of a (as a matrix of real numbers). *)
Definition real_inverse (n : nat) (a : nat -> nat -> NumF64) (y : nat -> nat -> R) : Prop := forall i j, (i < n)%nat -> (j < n)%nat ->
  rsum n (fun k => y i k * real (a k j)) = if (i =? j)%nat then 1 else 0.
(** Sum of the moduli of row i of y. *)
Definition row_norm (n : nat) (y : nat -> nat -> R) (i : nat) : R := rsum n (fun k => Rabs (y i k)).
(** L is unit lower triangular with entries of modulus at most 1, the entries of U are at most 2^(e+n), all pivots exceed 2^-52; everything is finite,
    and the rows of L U are those of a in the order rt, up to lu_error in each entry; P is the matrix of the order rt. *)
Definition lu_success {I : MatI NumF64} (n : nat) (e : Z) (a : nat -> nat -> NumF64) (r : I * I * I * nat) : Prop := let '(L, U, P, _) := r in exists l u rt,
  MatI.holds L n n l /\ MatI.holds U n n u /\ MatI.holds P n n (fun i j => if (j =? nth i rt 0)%nat then n1 else n0) /\ Permutation rt (seq 0 n) /\
  (forall i j, (i < n)%nat -> (j < n)%nat -> double (l i j) /\ finite (l i j) /\ Rabs (real (l i j)) <= 1 /\
     double (u i j) /\ finite (u i j) /\ Rabs (real (u i j)) <= powerRZ 2 (e + Z.of_nat n)) /\
  (forall i, (i < n)%nat -> l i i = n1 /\ powerRZ 2 (-52) < Rabs (real (u i i))) /\
  forall i j, (i < n)%nat -> (j < n)%nat -> Rabs (rsum (S (min i j)) (fun t => real (l i t) * real (u t j)) - real (a (nth i rt 0%nat) j)) <= lu_error n e.
(** The solution is finite and solves every equation up to solve_error. *)
Definition solves_finite (n : nat) (e : Z) (a : nat -> nat -> NumF64) (b x : nat -> NumF64) : Prop :=
  (forall i, (i < n)%nat -> finite (x i)) /\ residual n e a b x.
(** Enough room for the substitutions with right hand sides of modulus at most 2^s: each unknown can be 2^52 2^n 2^(e+n) times the largest one before. *)
Definition room (n : nat) (e s : Z) : Prop := (-1074 <= s /\ s + Z.of_nat n + Z.of_nat n * (Z.max 0 (e + Z.of_nat n) + Z.of_nat n + 52) <= 1022)%Z.
