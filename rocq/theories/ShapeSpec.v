(** Specification vocabulary for the shape functions: the DOF nodes of the standard simplex in the order the comments of
    PolyShapeFunction.inl draw them (x0, x1, ...), and polynomials. *)
From Coq Require Import List Arith Bool Reals.
From Verif Require Import Base Num NumInst VectorModel.
Import ListNotations.
Local Open Scope nat_scope.

Section ShapeSpec.
Context {N : Num}.
Definition one_half : N := (n1 / (n1 + n1))%num.
(** Line: x0 -- x1 and x0 --x2-- x1.  Triangle: corners (0,0), (1,0), (0,1), then the midpoints of x0x1, x1x2, x2x0. *)
Definition nodes (k o : nat) : list (list N) :=
  match k, o with
  | 1, 1 => [[n0]; [n1]]
  | 1, 2 => [[n0]; [n1]; [one_half]]
  | 2, 1 => [[n0; n0]; [n1; n0]; [n0; n1]]
  | 2, 2 => [[n0; n0]; [n1; n0]; [n0; n1]; [one_half; n0]; [one_half; one_half]; [n0; one_half]]
  | 3, 1 => [[n0; n0; n0]; [n1; n0; n0]; [n0; n1; n0]; [n0; n0; n1]]
  | _, _ => []
  end.
(** The (dimension, order) pairs that work. *)
Definition usable : list (nat * nat) := [(1, 1); (1, 2); (2, 1); (2, 2); (3, 1)].
Definition nodal : list (nat * nat) := [(1, 1); (2, 1); (2, 2); (3, 1)].

(** All exponent vectors of k variables with sum at most o. *)
Fixpoint exponents (k o : nat) : list (list nat) :=
  match k with
  | O => [[]]
  | S k' => flat_map (fun a => map (cons a) (exponents k' (o - a))) (seq 0 (S o))
  end.
Fixpoint npow (x : N) (n : nat) : N := match n with O => n1 | S m => (x * npow x m)%num end.
Fixpoint monomial (es : list nat) (x : list N) : N :=
  match es, x with e :: es', a :: x' => (npow a e * monomial es' x')%num | _, _ => n1 end.
(** The polynomial of degree at most o with the coefficients c. *)
Definition poly (k o : nat) (c : list N) (x : list N) : N :=
  fold_right (fun p s => (fst p * monomial (snd p) x + s)%num) n0 (combine c (exponents k o)).
Fixpoint total (l : list N) : N := match l with [] => n0 | x :: r => (x + total r)%num end.
End ShapeSpec.

(** g is the vector of partial derivatives of f at x, d that of the second derivatives: component k of d is the derivative
    of component k of the vector field G in direction k. *)
Definition partials (f : list R -> R) (x g : list R) : Prop :=
  length g = length x /\ forall k, k < length x -> derivable_pt_lim (fun t => f (upd x k t)) (nth k x 0%R) (nth k g 0%R).
Definition second_partials (G : list R -> list R) (x d : list R) : Prop :=
  length d = length x /\ forall k, k < length x -> derivable_pt_lim (fun t => nth k (G (upd x k t)) 0%R) (nth k x 0%R) (nth k d 0%R).
