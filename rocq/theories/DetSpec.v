(** The determinant of an n x n table, by expansion along the first column. *)
From Coq Require Import List Arith Bool.
From Verif Require Import Base Num Spec.

Section Det.
Context {N : Num}.
(** (-1)^k *)
Fixpoint sgn (k : nat) : N := match k with O => n1 | S k' => (- sgn k')%num end.
(** Index r of the table without row i. *)
Definition skip (i r : nat) : nat := if r <? i then r else S r.
(** The table without row i and column 0. *)
Definition minor (i : nat) (a : nat -> nat -> N) : nat -> nat -> N := fun r c => a (skip i r) (S c).
Fixpoint det (n : nat) (a : nat -> nat -> N) : N :=
  match n with
  | O => n1
  | S k => bigsum n (fun i => (sgn i * a i 0 * det k (minor i a))%num)
  end.
(** Two rows exchanged. *)
Definition swap_rows (p q : nat) (a : nat -> nat -> N) : nat -> nat -> N :=
  fun r c => if r =? p then a q c else if r =? q then a p c else a r c.
End Det.

(** The list rt is obtained from 0,1,...,n-1 by exactly c exchanges of two different places. *)
Inductive exchanges (n : nat) : list nat -> nat -> Prop :=
| ex_none : exchanges n (seq 0 n) 0
| ex_one rt c rt' i k : exchanges n rt c -> i < n -> k < n -> i <> k -> length rt' = n ->
    (forall r, r < n -> nth r rt' 0 = if r =? i then nth k rt 0 else if r =? k then nth i rt 0 else nth r rt 0) ->
    exchanges n rt' (S c).

Section Tri.
Context {N : Num}.
(** The lower / upper triangular part of a table (with diagonal). *)
Definition lo_part (a : nat -> nat -> N) (i j : nat) : N := if j <=? i then a i j else n0.
Definition up_part (a : nat -> nat -> N) (i j : nat) : N := if i <=? j then a i j else n0.
(** Row i of the product of an n-column table with a vector. *)
Definition mulvec (n : nat) (a : nat -> nat -> N) (x : nat -> N) (i : nat) : N := bigsum n (fun j => a i j * x j)%num.
End Tri.

(** What a pivoted LU decomposition P*A = L*U of an n x n matrix is: rt.(i) is the row of A that ended up
    in row i of L*U, reached by cnt row exchanges. *)
Record plu {N : Num} (n : nat) (a l u p : nat -> nat -> N) (cnt : nat) : Prop := {
  plu_lower : forall i j, i < j -> j < n -> l i j = n0;
  plu_unit : forall i, i < n -> l i i = n1;
  plu_upper : forall i j, j < i -> i < n -> u i j = n0;
  plu_perm : exists rt, exchanges n rt cnt /\ forall i j, i < n -> j < n -> p i j = if j =? nth i rt 0 then n1 else n0;
  plu_prod : forall i j, i < n -> j < n -> bigsum n (fun k => p i k * a k j)%num = bigsum n (fun k => l i k * u k j)%num
}.

(** Close to a singular matrix: changing the entries of one single column, each by at most epsilon<T>() in absolute value, makes
    the determinant vanish. *)
Definition near_singular {N : Num} (n : nat) (a : nat -> nat -> N) : Prop := exists c (d : nat -> N), c < n /\
  (forall i, i < n -> nleb (nabs (d i)) neps = true) /\
  det n (fun i j => if j =? c then (a i j + d i)%num else a i j) = n0.

(** The incomplete factorisation of the first m rows, in plain tables: l unit lower, u upper triangular, nothing outside the
    pattern of a, and the product equals a on the pattern. *)
Definition ilu_tables {N : Num} (n m : nat) (a l u : nat -> nat -> N) : Prop :=
  (forall i j, i < m -> j < n -> i < j -> l i j = n0) /\ (forall i, i < m -> l i i = n1) /\
  (forall i j, i < m -> j < n -> j < i -> u i j = n0) /\
  (forall i j, i < m -> j < n -> a i j = n0 -> l i j = n0 /\ u i j = n0) /\
  forall i j, i < m -> j < n -> a i j <> n0 -> bigsum n (fun k => l i k * u k j)%num = a i j.
