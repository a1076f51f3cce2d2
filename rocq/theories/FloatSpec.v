(** Vocabulary of the floating point properties (C72-...): what a double is and which real number it
    stands for, stated with the standard library only. *)
From Coq Require Import ZArith Reals List SpecFloat.
From Verif Require Import Num NumInst.
Import ListNotations.
Local Open Scope R_scope.

(** A bit pattern of an IEEE binary64: mantissa of at most 53 bits, exponent in range, canonical.
    Every C++ double is one ([spec_float] also contains mantissa/exponent pairs that no double
    has). *)
Definition double (x : NumF64) : Prop := valid_binary prec64 emax64 x = true.
(** Neither an infinity nor a NaN: std::isfinite. *)
Definition finite (x : NumF64) : Prop := match (x : spec_float) with S754_zero _ | S754_finite _ _ _ => True | _ => False end.
(** The real number a finite double stands for: (-1)^s m 2^e. *)
Definition real (x : NumF64) : R :=
  match (x : spec_float) with
  | S754_finite s m e => IZR (if s then Zneg m else Zpos m) * powerRZ 2 e
  | _ => 0
  end.
(** x is the integer z. *)
Definition is_int (x : NumF64) (z : Z) : Prop := double x /\ finite x /\ real x = IZR z.
(** Unit roundoff 2^-53 and the largest rounding error below the normal range, 2^-1075. *)
Definition u64 : R := powerRZ 2 (-53).
Definition eta64 : R := powerRZ 2 (-1075).
(** f 0 + ... + f (n-1) *)
Fixpoint rsum (n : nat) (f : nat -> R) : R := match n with O => 0 | S k => rsum k f + f k end.
Fixpoint zsum (n : nat) (f : nat -> Z) : Z := match n with O => 0%Z | S k => (zsum k f + f k)%Z end.
(** r is a double nearest to the real number t. *)
Definition nearest (r : NumF64) (t : R) : Prop := double r /\
  forall z : NumF64, double z -> finite z -> Rabs (real r - t) <= Rabs (real z - t).
(** All elements of a vector / all entries of a d1 x d2 table are doubles. *)
Definition doubles (v : list NumF64) : Prop := forall x, In x v -> double x.
Definition doubles2 (d1 d2 : nat) (a : nat -> nat -> NumF64) : Prop := forall i j, (i < d1)%nat -> (j < d2)%nat -> double (a i j).
(** The entries of an n x n table are finite. *)
Definition all_finite (n : nat) (a : nat -> nat -> NumF64) : Prop := forall i j, (i < n)%nat -> (j < n)%nat -> finite (a i j).
(** The entries of a d1 x d2 table of doubles are the integers p. *)
Definition ints (d1 d2 : nat) (a : nat -> nat -> NumF64) (p : nat -> nat -> Z) : Prop :=
  forall i j, (i < d1)%nat -> (j < d2)%nat -> is_int (a i j) (p i j).
(** Error bound of an accumulation of n products whose absolute values sum up to t:
    ((1+u)^n - 1) t + n (1+u)^n eta. *)
Definition dot_bound (n : nat) (t : R) : R := ((1 + u64) ^ n - 1) * t + INR n * (1 + u64) ^ n * eta64.
(** Number of entries of f 0 ... f (n-1) that are not zero. *)
Fixpoint nonzero_count (n : nat) (f : nat -> NumF64) : nat :=
  match n with O => O | S k => (nonzero_count k f + if neqb (f k) n0 then 0 else 1)%nat end.
(** Error bound of one row of a triangular solve of order n: t is the sum of the absolute values of the
    terms of the row, d the diagonal entry. *)
Definition row_bound (n : nat) (t d : R) : R := ((1 + u64) ^ n - 1) * t + (INR n + Rabs d) * (1 + u64) ^ n * eta64.
(** Error bound of solve_lu of order n: t is |L||U||x| in the row, s collects the underflow terms. *)
Definition solve_bound (n : nat) (t s : R) : R := ((1 + u64) ^ (2 * n) - 1) * t + s * (1 + u64) ^ (2 * n) * eta64.
