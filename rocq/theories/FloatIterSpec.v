(** Vocabulary of the properties of the iterative solvers on doubles. *)
From Coq Require Import ZArith Reals Arith List.
From Verif Require Import Num NumInst FloatSpec.
Local Open Scope R_scope.

(** What the stopping test leaves of the last update when it passes for the tolerance eps: slightly more than eps. *)
Definition step_bound (eps : R) : R := sqrt (((1 + u64) * eps ^ 2 + 2 * eta64) / (1 - u64) ^ 3).
(** The sum of f j over all j < n but j = i. *)
Definition roff (n i : nat) (f : nat -> R) : R := rsum n (fun j => if Nat.eqb j i then 0 else f j).
(** The sum of f j over i < j < n. *)
Definition rabove (n i : nat) (f : nat -> R) : R := rsum n (fun j => if Nat.ltb i j then f j else 0).
(** Rounding error of one relaxed equation: weight w, diagonal entry d, mixed with a value of size x, the terms of the
    equation add up to t; m operations. *)
Definition relax_bound (m : nat) (w d x t : R) : R :=
  ((1 + u64) ^ 3 - 1) * (Rabs (1 - w) * Rabs d * x) + Rabs w * row_bound m t d + 2 * (1 + u64) * Rabs d * eta64.

(** The residual of equation i of a y = b, a real number computed without rounding. *)
Definition residual (n : nat) (a : nat -> nat -> NumF64) (b y : list NumF64) (i : nat) : R :=
  Rabs (real (nth i b n0) - rsum n (fun j => real (a i j) * real (nth j y n0))).
(** z solves a z = b exactly. *)
Definition exact_solution (n : nat) (a : nat -> nat -> NumF64) (b : list NumF64) (z : nat -> R) : Prop :=
  forall i, (i < n)%nat -> rsum n (fun j => real (a i j) * z j) = real (nth i b n0).
(** Strict diagonal dominance with margin c. *)
Definition dominant (n : nat) (a : nat -> nat -> NumF64) (c : R) : Prop :=
  forall i, (i < n)%nat -> c + roff n i (fun j => Rabs (real (a i j))) <= Rabs (real (a i i)).
(** Size of the data: the entries of a on the diagonal, the sums of the others in a row, the right-hand side, the vector y, and
    the number of nonzero entries in a row. *)
Definition sized (n : nat) (a : nat -> nat -> NumF64) (b y : list NumF64) (d s B Y : R) (m : nat) : Prop :=
  forall i, (i < n)%nat -> Rabs (real (a i i)) <= d /\ roff n i (fun j => Rabs (real (a i j))) <= s /\
    Rabs (real (nth i b n0)) <= B /\ Rabs (real (nth i y n0)) <= Y /\ (nonzero_count n (a i) <= m)%nat.
(** Both iterates are finite and the sum of the squares of their differences cannot overflow. *)
Definition tame (n : nat) (x y : list NumF64) : Prop :=
  (forall i, (i < n)%nat -> finite (nth i x n0) /\ finite (nth i y n0)) /\
  rsum n (fun i => (real (nth i y n0) - real (nth i x n0)) ^ 2) <= powerRZ 2 1000.
