(** Vocabulary of C87: the determinant of matrices of doubles. *)
From Coq Require Import ZArith Reals List Arith SpecFloat.
From Verif Require Import Base Num NumInst OrdField Spec DetSpec FloatSpec FloatLUSpec.
Local Open Scope R_scope.

(** Bound on the entries of the perturbation of an n by n matrix with entries of modulus at most 2^e: the pivots and the entries of U are at most 2^(e+n),
    those of L at most 1, so |L||U| is at most n 2^(e+n). *)
Definition lu_error (n : nat) (e : Z) : R := row_bound (n + 1) (INR n * powerRZ 2 (e + Z.of_nat n)) (powerRZ 2 (e + Z.of_nat n)).
(** The exact matrix a + E. *)
Definition perturbed (a : nat -> nat -> NumF64) (E : nat -> nat -> R) : nat -> nat -> NumR := fun i j => real (a i j) + E i j.
(** Rounding of the product of the n pivots, D being the exact product. *)
Definition det_rounding (n : nat) (e : Z) (D : R) : R :=
  ((1 + u64) ^ n - 1) * Rabs D + INR n * (1 + u64) ^ n * eta64 * (Rmax 1 (powerRZ 2 (e + Z.of_nat n))) ^ n.
(** d is the determinant of a matrix near a, up to the rounding of the last product, or 0 while a matrix near a is exactly singular. *)
Definition float_det (n : nat) (e : Z) (a : nat -> nat -> NumF64) (d : NumF64) : Prop :=
  (exists E, (forall i j, (i < n)%nat -> (j < n)%nat -> Rabs (E i j) <= lu_error n e) /\
     (finite d -> Rabs (real d - det n (perturbed a E)) <= det_rounding n e (det n (perturbed a E)))) \/
  (d = n0 /\ exists E c, (c < n)%nat /\ (forall i j, (i < n)%nat -> (j < n)%nat -> Rabs (E i j) <= lu_error n e + (if (j =? c)%nat then powerRZ 2 (-52) else 0)) /\
     det n (perturbed a E) = 0).
(** Bound on the residual of each equation of A x = b, where X is the sum of the |x_j|. *)
Definition solve_error (n : nat) (e : Z) (X : R) : R :=
  lu_error n e * X + solve_bound n (INR n * powerRZ 2 (e + Z.of_nat n) * X) (INR n + 1 + INR n * (INR n + powerRZ 2 (e + Z.of_nat n))).
(** Every equation of A x = b holds up to solve_error. *)
Definition residual (n : nat) (e : Z) (a : nat -> nat -> NumF64) (b x : nat -> NumF64) : Prop := forall i, (i < n)%nat ->
  Rabs (rsum n (fun j => real (a i j) * real (x j)) - real (b i)) <= solve_error n e (rsum n (fun j => Rabs (real (x j)))).
(** A table of finite doubles of modulus at most 2^e. *)
Definition entries_bounded (n : nat) (e : Z) (a : nat -> nat -> NumF64) : Prop :=
  forall i j, (i < n)%nat -> (j < n)%nat -> finite (a i j) /\ Rabs (real (a i j)) <= powerRZ 2 e.
