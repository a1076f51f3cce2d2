(** Vocabulary of the convergence of the iterative solvers on doubles. *)
From Coq Require Import ZArith Reals Arith List.
From Verif Require Import Num NumInst FloatSpec FloatIterSpec.
Local Open Scope R_scope.

(** Rounding error of one equation solved for its diagonal unknown, relative to the size Z of the solution, and its underflow part.
    q bounds the off-diagonal sum relative to the diagonal entry, d0 the diagonal entry from below, m the nonzero entries of a row. *)
Definition row_noise (m : nat) (q d0 Z : R) : R :=
  ((1 + u64) ^ (m + 2) - 1) * ((1 + 2 * q) * Z) + (INR (m + 2) / d0 + 1) * (1 + u64) ^ (m + 2) * eta64.
(** Jacobi: factor per sweep, and the error that remains in the limit. *)
Definition jac_rate (m : nat) (q : R) : R := q * (1 + u64) ^ (m + 2).
Definition jac_floor (m : nat) (q d0 Z : R) : R := row_noise m q d0 Z / (1 - jac_rate m q).
(** SOR with weight w: the same. *)
Definition sor_rate (m : nat) (q w : R) : R := Rabs (1 - w) * (1 + u64) ^ 3 + Rabs w * (1 + u64) ^ 2 * jac_rate m q.
Definition sor_noise (m : nat) (q d0 Z w : R) : R :=
  Rabs w * (1 + u64) ^ 2 * row_noise m q d0 Z + (((1 + u64) ^ 3 - 1) * Rabs (1 - w) + ((1 + u64) ^ 2 - 1) * Rabs w) * Z + 2 * (1 + u64) * eta64.
Definition sor_floor (m : nat) (q d0 Z w : R) : R := sor_noise m q d0 Z w / (1 - sor_rate m q w).

(** The matrix a of order n: every off-diagonal row sum is at most q times the diagonal entry, whose absolute value lies between
    d0 and d, and no row has more than m nonzero entries. *)
Definition dominated (n : nat) (a : nat -> nat -> NumF64) (q d0 d : R) (m : nat) : Prop :=
  forall i, (i < n)%nat -> roff n i (fun j => Rabs (real (a i j))) <= q * Rabs (real (a i i)) /\
    d0 <= Rabs (real (a i i)) <= d /\ (nonzero_count n (a i) <= m)%nat.
(** The vector y of n finite doubles is within e of z. *)
Definition within (n : nat) (z : nat -> R) (e : R) (y : list NumF64) : Prop :=
  length y = n /\ doubles y /\ forall i, (i < n)%nat -> finite (nth i y n0) /\ Rabs (real (nth i y n0) - z i) <= e.
(** Nothing comes near the largest double: the solution is at most Z, the iterates are within E of it, the diagonal entries are
    between d0 and d. *)
Definition moderate (Z E d0 d : R) : Prop := Z + E <= powerRZ 2 990 /\ d * (Z + E) <= powerRZ 2 990 /\ / d0 <= powerRZ 2 990.
(** Two iterates within t of the same vector of n components are certain to pass the stopping test with the tolerance eps: about
    2 t sqrt n <= eps. *)
Definition settled (n : nat) (eps t : R) : Prop :=
  INR n * (2 * t) ^ 2 * (1 + u64) ^ (n + 2) + (INR n * (1 + u64) ^ n + 1) * eta64 <= (1 - u64) * eps ^ 2.
