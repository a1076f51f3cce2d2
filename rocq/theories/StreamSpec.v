(** Vocabulary of C70: the words of a text and the words expected in the output. *)
From Coq Require Import String Ascii List Arith Bool.
From Verif Require Import Base Num.
From Verif Require Import StreamModel.
Import ListNotations.
Local Open Scope list_scope.
Local Open Scope nat_scope.

(** The pieces of a text between blanks. *)
Fixpoint words (t : text) : list text :=
  match t with
  | [] => [[]]
  | c :: r => if (c =? " ")%char then [] :: words r
              else match words r with w :: ws => (c :: w) :: ws | [] => [[c]] end
  end.
(** rows separated by the word | *)
Fixpoint bars {A} (bar : A) (rows : list (list A)) : list A :=
  match rows with
  | [] => []
  | [r] => r
  | r :: rest => r ++ bar :: bars bar rest
  end.
Definition no_blank (w : text) : Prop := ~ In " "%char w.
(** Row i of a table with d2 columns. *)
Definition table_row {N : Num} (d2 : nat) (a : nat -> nat -> N) (i : nat) : list N := map (a i) (seq 0 d2).
