(** The number type T of the templates: a record of operations, without laws, and the predicates
    that algebraic theorems assume.  Instances: exact rationals Qc, reals R, IEEE binary64. *)
From Coq Require Import Bool ZArith Field_theory.

(** Operations of T used by the code.  [nabs] is std::abs, [nsqrt] std::sqrt, [nconj] is
    complex_conj (src/lib/Types.h:66-76), [neps] numeric_limits<T>::epsilon(), [nminpos]
    numeric_limits<T>::min() (smallest positive normal), [nmax] numeric_limits<T>::max(),
    [nisnan]/[nisinf] std::isnan/isinf, [nofnat] conversion from an unsigned integer. *)
Record Num : Type := {
  T :> Type;
  n0 : T;
  n1 : T;
  nadd : T -> T -> T;
  nsub : T -> T -> T;
  nmul : T -> T -> T;
  ndiv : T -> T -> T;
  nopp : T -> T;
  neqb : T -> T -> bool;
  nltb : T -> T -> bool;
  nleb : T -> T -> bool;
  nabs : T -> T;
  nsqrt : T -> T;
  nconj : T -> T;
  neps : T;
  nminpos : T;
  nmax : T;
  nisnan : T -> bool;
  nisinf : T -> bool;
  nofnat : nat -> T
}.

Arguments n0 {n}.
Arguments n1 {n}.
Arguments nadd {n} _ _.
Arguments nsub {n} _ _.
Arguments nmul {n} _ _.
Arguments ndiv {n} _ _.
Arguments nopp {n} _.
Arguments neqb {n} _ _.
Arguments nltb {n} _ _.
Arguments nleb {n} _ _.
Arguments nabs {n} _.
Arguments nsqrt {n} _.
Arguments nconj {n} _.
Arguments neps {n}.
Arguments nminpos {n}.
Arguments nmax {n}.
Arguments nisnan {n} _.
Arguments nisinf {n} _.
Arguments nofnat {n} _.

Declare Scope num_scope.
Delimit Scope num_scope with num.
Infix "+" := nadd : num_scope.
Infix "-" := nsub : num_scope.
Infix "*" := nmul : num_scope.
Infix "/" := ndiv : num_scope.
Notation "- x" := (nopp x) : num_scope.
Infix "==?" := neqb (at level 70) : num_scope.

(** The only fact storage theorems need: 0 == 0.  True of IEEE doubles. *)
Definition zero_refl (N : Num) : Prop := @neqb N n0 n0 = true.

(** Field laws for exact arithmetic; == decides equality. *)
Record FieldLaws (N : Num) : Prop := {
  fl_field : field_theory (@n0 N) n1 nadd nmul nsub nopp ndiv (fun x => ndiv n1 x) eq;
  fl_eqb : forall x y : N, neqb x y = true <-> x = y
}.

(** Ordered field with absolute value; [neps] a non-negative threshold. *)
Record OrdFieldLaws (N : Num) : Prop := {
  of_field : FieldLaws N;
  of_le_refl : forall x : N, nleb x x = true;
  of_le_trans : forall x y z : N, nleb x y = true -> nleb y z = true -> nleb x z = true;
  of_le_antisym : forall x y : N, nleb x y = true -> nleb y x = true -> x = y;
  of_le_total : forall x y : N, nleb x y = true \/ nleb y x = true;
  of_lt : forall x y : N, nltb x y = negb (nleb y x);
  of_le_add : forall x y z : N, nleb x y = true -> nleb (nadd x z) (nadd y z) = true;
  of_le_mul : forall x y : N, nleb n0 x = true -> nleb n0 y = true -> nleb n0 (nmul x y) = true;
  of_abs_pos : forall x : N, nleb n0 x = true -> nabs x = x;
  of_abs_neg : forall x : N, nleb x n0 = true -> nabs x = nopp x;
  of_eps : nleb (@n0 N) neps = true;
  of_nan : forall x : N, nisnan x = false;
  of_inf : forall x : N, nisinf x = false
}.

(** Conjugation is a field involution (identity for real types). *)
Record ConjLaws (N : Num) : Prop := {
  cj_invol : forall x : N, nconj (nconj x) = x;
  cj_add : forall x y : N, nconj (nadd x y) = nadd (nconj x) (nconj y);
  cj_mul : forall x y : N, nconj (nmul x y) = nmul (nconj x) (nconj y);
  cj_0 : nconj (@n0 N) = n0;
  cj_1 : nconj (@n1 N) = n1
}.

(** Square roots exist (real arithmetic). *)
Record SqrtLaws (N : Num) : Prop := {
  sq_nonneg : forall x : N, nleb n0 x = true -> nleb n0 (nsqrt x) = true;
  sq_sqr : forall x : N, nleb n0 x = true -> nmul (nsqrt x) (nsqrt x) = x
}.
