(** Specification vocabulary for quadrature: the rules, their degrees, the standard simplex, and integrals over it. *)
From Coq Require Import List Arith Reals.
From Coquelicot Require Import Coquelicot.
From Verif Require Import Base Num NumInst ShapeSpec.
Import ListNotations.
Local Open Scope nat_scope.

(** The (dimension, order) pairs that compile. *)
Definition rules : list (nat * nat) := [(1, 1); (1, 2); (1, 3); (2, 1); (2, 2); (2, 3)].
(** The degree a rule is exact for: 2 o - 1 for o Gauss points on the line, o for the triangle rules. *)
Definition degree (k o : nat) : nat := match k with 1 => 2 * o - 1 | _ => o end.
(** All coordinates nonnegative with sum at most 1. *)
Definition in_simplex (p : list R) : Prop := List.Forall (fun a => 0 <= a)%R p /\ (fold_right Rplus 0 p <= 1)%R.
(** I is the (Riemann) integral of f over the standard line [0,1], or over the standard triangle. *)
Definition integral (k : nat) (f : list R -> R) (I : R) : Prop :=
  match k with
  | 1 => is_RInt (fun x => f [x]) 0 1 I
  | 2 => exists g, (forall x, 0 <= x <= 1 -> is_RInt (fun y => f [x; y]) 0 (1 - x) (g x))%R /\ is_RInt g 0 1 I
  | _ => False
  end.
Definition abs_total (c : list R) : R := fold_right (fun a s => Rabs a + s)%R 0%R c.
