(** n!, Pascal's triangle, and embeddings of naturals. *)
From Coq Require Import Arith.
From Verif Require Import Num.

(** Number of k-element subsets of an n-element set (Pascal's rule). *)
Fixpoint choose (n k : nat) : nat :=
  match n, k with
  | _, O => 1
  | O, S _ => 0
  | S n', S k' => choose n' k' + choose n' k
  end.

(** Conversion from unsigned integers is exact. *)
Record NatLaws (N : Num) : Prop := {
  nl_0 : @nofnat N 0 = n0;
  nl_S : forall n, @nofnat N (S n) = nadd (nofnat n) n1
}.

(** x (x-1) ... (x-k+1) *)
Fixpoint falling {N : Num} (x : N) (k : nat) : N :=
  match k with
  | O => n1
  | S k' => nmul (falling x k') (nsub x (nofnat k'))
  end.
