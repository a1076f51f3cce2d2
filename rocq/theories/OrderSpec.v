(** Specification of the Cuthill-McKee numbering, for the pattern of an n x n table. *)
From Coq Require Import List Arith.
From Verif Require Import Base Num VectorModel SparseModel Spec.
Import ListNotations.

Section OrderSpec.
Context {N : Num} (n : nat) (a : nat -> nat -> N).

(** Row i has an entry. *)
Definition row_used (i : nat) : Prop := exists j, j < n /\ is0 (a i j) = false.
(** The degree of row i: its number of entries. *)
Definition degree (i : nat) : nat := length (filter (fun j => negb (is0 (a i j))) (seq 0 n)).
(** Row j is a neighbour of row i: a(i,j) is an entry off the diagonal and row j is not empty. *)
Definition neighbour (i j : nat) : Prop := j < n /\ j <> i /\ is0 (a i j) = false /\ row_used j.
(** Smaller degree first, then smaller index. *)
Definition before (i j : nat) : Prop := degree i < degree j \/ degree i = degree j /\ i < j.
Definition least (P : nat -> Prop) (c : nat) : Prop := P c /\ forall d, P d -> d = c \/ before c d.

(** Why the row at place t of the numbering l stands there: it is the first, by increasing degree, of the rows not numbered so far
    next to the earliest numbered row that still has such neighbours; if there is no such row left, a new component starts with
    the row of least degree. *)
Definition numbering_rule (l : list nat) (t : nat) : Prop :=
  let fresh j := ~ In j (firstn t l) in
  (exists s, s < t /\ (forall s' j, s' < s -> neighbour (nth s' l 0) j -> ~ fresh j) /\
     least (fun j => neighbour (nth s l 0) j /\ fresh j) (nth t l 0)) \/
  ((forall s j, s < t -> neighbour (nth s l 0) j -> ~ fresh j) /\
     least (fun j => j < n /\ row_used j /\ fresh j) (nth t l 0)).
(** A Cuthill-McKee numbering of the non-empty rows. *)
Record numbering (l : list nat) : Prop := {
  num_nodup : NoDup l;
  num_used : forall i, In i l <-> i < n /\ row_used i;
  num_rule : forall t, t < length l -> numbering_rule l t
}.
End OrderSpec.
