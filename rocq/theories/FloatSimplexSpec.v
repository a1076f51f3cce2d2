(** Vocabulary of C94: triangles with corners in doubles. *)
From Coq Require Import ZArith Reals Arith List.
From Verif Require Import Num NumInst FloatSpec.
Local Open Scope R_scope.

(** The coordinates are finite doubles of modulus at most 2^e, and 0 <= e <= 400. *)
Definition coordinates (e : Z) (p : nat -> nat -> NumF64) : Prop :=
  (0 <= e <= 400)%Z /\ forall i k, (i < 3)%nat -> (k < 2)%nat -> double (p i k) /\ finite (p i k) /\ Rabs (real (p i k)) <= powerRZ 2 e.
(** Unit of the bounds: 2^-53 times the square of the bound on the coordinates. *)
Definition area_unit (e : Z) : R := u64 * (powerRZ 2 e * powerRZ 2 e).
(** Twice the signed area of the triangle, a real number computed without rounding. *)
Definition exact_area2 (p : nat -> nat -> NumF64) : R :=
  (real (p 1%nat 0%nat) - real (p 0%nat 0%nat)) * (real (p 2%nat 1%nat) - real (p 0%nat 1%nat))
  - (real (p 2%nat 0%nat) - real (p 0%nat 0%nat)) * (real (p 1%nat 1%nat) - real (p 0%nat 1%nat)).
(** The point with barycentric coordinates l1, l2 at the corners 1 and 2, computed without rounding. *)
Definition exact_point (p : nat -> nat -> NumF64) (l1 l2 : R) (k : nat) : R :=
  (1 - l1 - l2) * real (p 0%nat k) + l1 * real (p 1%nat k) + l2 * real (p 2%nat k).
(** Barycentric coordinate c of the point with the coordinates l1, l2. *)
Definition coord3 (c : nat) (l1 l2 : R) : R := match c with 0%nat => 1 - l1 - l2 | 1%nat => l1 | _ => l2 end.
(** g0, g1 is the exact gradient of barycentric coordinate c: moving from one point to another changes it by the scalar product. *)
Definition exact_gradient (p : nat -> nat -> NumF64) (c : nat) (g0 g1 : R) : Prop := forall l1 l2 m1 m2,
  coord3 c m1 m2 - coord3 c l1 l2 =
  g0 * (exact_point p m1 m2 0%nat - exact_point p l1 l2 0%nat) + g1 * (exact_point p m1 m2 1%nat - exact_point p l1 l2 1%nat).
(** Squared distance of the corners i and j, and the length of the longest edge, computed without rounding. *)
Definition exact_dist2 (p : nat -> nat -> NumF64) (i j : nat) : R :=
  (real (p i 0%nat) - real (p j 0%nat)) * (real (p i 0%nat) - real (p j 0%nat)) + (real (p i 1%nat) - real (p j 1%nat)) * (real (p i 1%nat) - real (p j 1%nat)).
Definition longest_edge (p : nat -> nat -> NumF64) (L : R) : Prop :=
  0 <= L /\ (exists i j, (i < 3)%nat /\ (j < 3)%nat /\ i <> j /\ L * L = exact_dist2 p i j) /\
  forall i j, (i < 3)%nat -> (j < 3)%nat -> exact_dist2 p i j <= L * L.
