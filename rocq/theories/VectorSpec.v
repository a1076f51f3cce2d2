(** Vocabulary of the vector properties. *)
From Coq Require Import List.
From Verif Require Import Base Num.
Import ListNotations.

Section VectorSpec.
Context {N : Num}.
(** [op x0 y0; op x1 y1; ...] *)
Definition zip (op : N -> N -> N) (v w : list N) : list N :=
  map (fun p => op (fst p) (snd p)) (combine v w).
(** x is an entry of v and no entry is larger / smaller. *)
Definition largest (v : list N) (x : N) : Prop := In x v /\ forall y, In y v -> nleb y x = true.
Definition smallest (v : list N) (x : N) : Prop := In x v /\ forall y, In y v -> nleb x y = true.
End VectorSpec.
