(** Small specification vocabulary shared by the property files: sums, zero tests, positions. *)
From Coq Require Import List Arith Bool.
From Verif Require Import Base Num.
Import ListNotations.

Section Spec.
Context {N : Num}.

(** f 0 + f 1 + ... + f (n-1), accumulated from 0 left to right. *)
Fixpoint bigsum (n : nat) (f : nat -> N) : N :=
  match n with O => n0 | S k => (bigsum k f + f k)%num end.

(** x compares equal to 0 (both IEEE zeros do). *)
Definition is0 (x : N) : bool := neqb x n0.

(** A value as a matrix that does not store zeros returns it: everything == 0 reads as 0. *)
Definition norm0 (x : N) : N := if is0 x then n0 else x.

(** All positions of a d1 x d2 matrix in row-major order. *)
Definition positions (d1 d2 : nat) : list (nat * nat) := list_prod (seq 0 d1) (seq 0 d2).

(** The positions holding a non-zero, row-major. *)
Definition nonzeros (d1 d2 : nat) (a : nat -> nat -> N) : list (nat * nat) :=
  filter (fun p => negb (is0 (a (fst p) (snd p)))) (positions d1 d2).

(** A position with its value. *)
Definition with_value (a : nat -> nat -> N) (p : nat * nat) : nat * nat * N :=
  (fst p, snd p, a (fst p) (snd p)).

(** Facts about 0 that hold for IEEE doubles and for every exact field: 0 == 0, and adding or
    subtracting an exact 0 leaves every non-zero value (also infinities and NaN) unchanged;
    comparing with 0 is symmetric. *)
Record ZeroLaws : Prop := {
  zl_refl : @neqb N n0 n0 = true;
  zl_add_r : forall x : N, neqb x n0 = false -> nadd x n0 = x;
  zl_sub_r : forall x : N, neqb x n0 = false -> nsub x n0 = x;
  zl_add_00 : neqb (nadd (@n0 N) n0) n0 = true;
  zl_sub_00 : neqb (nsub (@n0 N) n0) n0 = true;
  zl_sym0 : forall x : N, neqb n0 x = neqb x n0
}.
End Spec.
Arguments ZeroLaws N : clear implicits.
