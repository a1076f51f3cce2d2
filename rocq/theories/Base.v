(** Outcomes of C++ calls, loops, and a small weakest-precondition calculus.
    Nothing here is specific to NumericSim except the list of exceptions. *)
From Coq Require Import List Arith Lia Bool.
Import ListNotations.

(** src/lib/Exceptions.h:39-66 (one constructor per exception class used by modelled code);
    the loader exceptions of MeshTriangleLoader.inl / MeshObjLoader.inl are added at the end. *)
Inductive exn : Type :=
| MatrixInitializerListFailed
| DivisionByZero | MatrixHasZeroInDiag | NotSquare | Singular | NotPositiveDefinite
| NotHermitian | InvalidOutputMatrix | MatrixVectorMismatch
| VectorSizeMismatch | MatrixSizeMismatch | MatrixMulMismatch
| InvalidVertexIndex | IsolatedVertex | MalformedVertexElementConnection | IncompleteElement
| ZeroVolumeSimplex | MalformedElementNeighborConnection | ElementNeighborVertex
| InvalidElementCount | TooManySharedFaces
| LoaderError (code : nat).

(** src/lib/Exceptions.h:42-54: the exceptions deriving from MathException
    (MatrixVectorMismatch is declared in the Math group at line 54). *)
Definition is_math_exn (e : exn) : bool :=
  match e with
  | DivisionByZero | MatrixHasZeroInDiag | NotSquare | Singular | NotPositiveDefinite
  | NotHermitian | InvalidOutputMatrix | MatrixVectorMismatch => true
  | _ => false
  end.

(** What a C++ call can do. *)
Inductive res (A : Type) : Type :=
| Ok (a : A)        (* returns normally *)
| Throw (e : exn)   (* throws *)
| Abort             (* NS_ASSERT fails: src/lib/nsConfig.h:61-79 *)
| UB                (* undefined behaviour *)
| Wrap              (* size_t subtraction wrapped; model does not follow further *)
| Hang.             (* fuel exhausted *)
Arguments Ok {A} a.
Arguments Throw {A} e.
Arguments Abort {A}.
Arguments UB {A}.
Arguments Wrap {A}.
Arguments Hang {A}.

Definition bind {A B} (r : res A) (f : A -> res B) : res B :=
  match r with
  | Ok a => f a
  | Throw e => Throw e
  | Abort => Abort
  | UB => UB
  | Wrap => Wrap
  | Hang => Hang
  end.

Declare Scope res_scope.
Delimit Scope res_scope with res.
Notation "'let*' x ':=' r 'in' k" := (bind r (fun x => k))
  (at level 200, x pattern, r at level 100, k at level 200, right associativity) : res_scope.
Open Scope res_scope.

(** NS_ASSERT(cond): nsConfig.h:63-79. *)
Definition assert_ (b : bool) : res unit := if b then Ok tt else Abort.

(** A counting loop  for (i = lo; i < lo + n; ++i) s = f(i, s). *)
Fixpoint for_n {S : Type} (n lo : nat) (f : nat -> S -> res S) (s : S) : res S :=
  match n with
  | O => Ok s
  | Datatypes.S n' => let* s1 := f lo s in for_n n' (Datatypes.S lo) f s1
  end.

(** for (i = lo; i < hi; ++i) *)
Definition for_ {S : Type} (lo hi : nat) (f : nat -> S -> res S) (s : S) : res S :=
  for_n (hi - lo) lo f s.

(** for (i = hi-1; ; --i) { ...; if (i == lo) break; }   with hi > lo: visits hi-1, ..., lo. *)
Fixpoint down_n {S : Type} (n lo : nat) (f : nat -> S -> res S) (s : S) : res S :=
  match n with
  | O => Ok s
  | Datatypes.S n' => let* s1 := f (lo + n') s in down_n n' lo f s1
  end.

(** A loop over a C++ range: for (x : l) s = f(x, s). *)
Fixpoint foreach {X S : Type} (l : list X) (f : X -> S -> res S) (s : S) : res S :=
  match l with
  | [] => Ok s
  | x :: l' => let* s1 := f x s in foreach l' f s1
  end.

(** while (c(s)) s = f(s), with explicit fuel. *)
Fixpoint while_ {S : Type} (fuel : nat) (c : S -> res bool) (f : S -> res S) (s : S) : res S :=
  match fuel with
  | O => Hang
  | Datatypes.S fuel' =>
      let* b := c s in
      if b then let* s1 := f s in while_ fuel' c f s1 else Ok s
  end.

(** std::vector element write (no bounds check; caller checks). *)
Fixpoint upd {A} (l : list A) (i : nat) (v : A) : list A :=
  match l, i with
  | [], _ => []
  | _ :: l', O => v :: l'
  | x :: l', Datatypes.S i' => x :: upd l' i' v
  end.

(** std::vector::operator[] read: out of range is undefined behaviour. *)
Definition vget {A} (l : list A) (i : nat) : res A :=
  match nth_error l i with Some a => Ok a | None => UB end.

(** std::vector::operator[] write. *)
Definition vset {A} (l : list A) (i : nat) (v : A) : res (list A) :=
  if i <? length l then Ok (upd l i v) else UB.

(** std::vector::insert(begin()+i, v): i <= size or undefined. *)
Definition vinsert {A} (l : list A) (i : nat) (v : A) : res (list A) :=
  if i <=? length l then Ok (firstn i l ++ v :: skipn i l) else UB.

(** std::vector::erase(begin()+i): i < size or undefined. *)
Definition verase {A} (l : list A) (i : nat) : res (list A) :=
  if i <? length l then Ok (firstn i l ++ skipn (Datatypes.S i) l) else UB.

(** Postcondition of a call that may return or throw, but must not do anything else. *)
Definition post {A} (r : res A) (Q : A -> Prop) (E : exn -> Prop) : Prop :=
  match r with
  | Ok a => Q a
  | Throw e => E e
  | _ => False
  end.

(** The call returns normally, with a result satisfying Q. *)
Definition returns {A} (r : res A) (Q : A -> Prop) : Prop := exists a, r = Ok a /\ Q a.
