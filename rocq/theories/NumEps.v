(** The same numbers with another value of numeric_limits<T>::epsilon().  Exact arithmetic has no rounding
    unit: with epsilon 0 the test |x| <= epsilon of the code is exactly x = 0. *)
From Coq Require Import Bool.
From Verif Require Import Num.

Definition with_eps (N : Num) (e : N) : Num := {|
  T := N; n0 := n0; n1 := n1; nadd := nadd; nsub := nsub; nmul := nmul; ndiv := ndiv; nopp := nopp;
  neqb := neqb; nltb := nltb; nleb := nleb; nabs := nabs; nsqrt := nsqrt; nconj := nconj;
  neps := e; nminpos := nminpos; nmax := nmax; nisnan := nisnan; nisinf := nisinf; nofnat := nofnat |}.
Lemma with_eps_field N e : FieldLaws N -> FieldLaws (with_eps N e).
Proof. intros [H1 H2]. constructor; assumption. Qed.
Lemma with_eps_ord N e : OrdFieldLaws N -> nleb n0 e = true -> OrdFieldLaws (with_eps N e).
Proof. intros H He. destruct H. constructor; try assumption. now apply with_eps_field. Qed.
