(** Plane geometry vocabulary for the Simplex properties: the three corners p 0, p 1, p 2 with
    coordinates p i 0 and p i 1. *)
From Coq Require Import List Arith Bool.
From Verif Require Import Base Num SimplexModel LUModel.
Import ListNotations.

Section SimplexSpec.
Context {N : Num}.
(** A Simplex object (with any history) whose operator[] yields the corners p. *)
Definition corners (s : simplex N) (p : nat -> nat -> N) : Prop :=
  sx_made s /\ forall i, i < 3 -> sx_get s i = Ok [p i 0; p i 1].
(** Twice the signed area. *)
Definition area2 (p : nat -> nat -> N) : N :=
  ((p 1 0 - p 0 0) * (p 2 1 - p 0 1) - (p 2 0 - p 0 0) * (p 1 1 - p 0 1))%num.
(** Both coordinates of the first edge p1-p0 are at most epsilon: the LU decomposition behind
    determinant() then reports a singular matrix. *)
Definition flat (p : nat -> nat -> N) : bool := tiny (p 1 0 - p 0 0)%num && tiny (p 1 1 - p 0 1)%num.
(** A triangle whose area is not 0 and is not mistaken for 0. *)
Definition proper (p : nat -> nat -> N) : Prop := area2 p <> n0 /\ flat p = false.
(** Squared distance of two points. *)
Definition dist2 (x y : nat -> N) : N :=
  ((x 0 - y 0) * (x 0 - y 0) + (x 1 - y 1) * (x 1 - y 1))%num.
(** l1, l2 are the barycentric coordinates of the point x belonging to p1 and p2. *)
Definition barycentric (p : nat -> nat -> N) (l1 l2 : N) (x : nat -> N) : Prop :=
  forall k, k < 2 -> x k = ((n1 - l1 - l2) * p 0 k + l1 * p 1 k + l2 * p 2 k)%num.
Definition vec2 (x : nat -> N) : list N := [x 0; x 1].
End SimplexSpec.
