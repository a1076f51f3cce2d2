(** Vocabulary of the dense-matrix properties: calls of the public interface and tables of values. *)
From Coq Require Import List Arith Bool.
From Verif Require Import Base Num Spec VectorModel SparseSpec DenseModel MatI.
Import ListNotations.
Open Scope res_scope.

Section DenseSpec.
Context {N : Num}.

(** The object answers rows(), columns() and at(i,j) like the d1 x d2 table [a]. *)
Definition dreads (m : dmat N) (d1 d2 : nat) (a : nat -> nat -> N) : Prop :=
  d_rows m = d1 /\ d_cols m = d2 /\
  forall i j, i < d1 -> j < d2 -> d_at m i j = Ok (a i j).

(** The matrices a program can have: everything the public interface returns. *)
Inductive dbuilt : dmat N -> Prop :=
| db_default : dbuilt d_default
| db_new d1 d2 m : d_new d1 d2 = Ok m -> dbuilt m
| db_fixed k1 k2 : dbuilt (d_fixed_new k1 k2)
| db_list l m : d_of_list l = Ok m -> dbuilt m
| db_fixed_list k1 k2 l m : d_fixed_of_list k1 k2 l = Ok m -> dbuilt m
| db_set m i j v m' : dbuilt m -> d_set m i j v = Ok m' -> dbuilt m'
| db_lset m k v m' : dbuilt m -> d_linear_set m k v = Ok m' -> dbuilt m'
| db_setit m it v m' it' : dbuilt m -> d_set_it m it v = Ok (m', it') -> dbuilt m'
| db_erase m it m' it' : dbuilt m -> d_erase m it = Ok (m', it') -> dbuilt m'
| db_combine op a b m : dbuilt a -> dbuilt b -> d_combine_eq op a b = Ok m -> dbuilt m
| db_self op a m : dbuilt a -> d_combine_self op a = Ok m -> dbuilt m
| db_scale a f m : dbuilt a -> d_scale_eq a f = Ok m -> dbuilt m
| db_alias a k m : dbuilt a -> d_scale_alias a k = Ok m -> dbuilt m
| db_swap1 a b : dbuilt a -> dbuilt b -> dbuilt (fst (d_swap a b))
| db_swap2 a b : dbuilt a -> dbuilt b -> dbuilt (snd (d_swap a b))
| db_transpose a m : dbuilt a -> d_transpose a = Ok m -> dbuilt m
| db_ftranspose a m : dbuilt a -> d_fixed_transpose a = Ok m -> dbuilt m
| db_conjugate a m : dbuilt a -> d_conjugate a = Ok m -> dbuilt m
| db_adjugate a m : dbuilt a -> d_adjugate a = Ok m -> dbuilt m
| db_mul a b m : dbuilt a -> dbuilt b -> d_mul a b = Ok m -> dbuilt m
| db_fmul a b m : dbuilt a -> dbuilt b -> d_fixed_mul a b = Ok m -> dbuilt m
| db_resize a d1 d2 m : dbuilt a -> d_resize a d1 d2 = Ok m -> dbuilt m.

(** Writes, as a program issues them. *)
Definition d_do (m : dmat N) (o : wop N) : res (dmat N) :=
  match o with WSet i j v => d_set m i j v | WLin k v => d_linear_set m k v end.
Fixpoint d_run (m : dmat N) (ops : list (wop N)) : res (dmat N) :=
  match ops with [] => Ok m | o :: t => let* m1 := d_do m o in d_run m1 t end.

(** The entries of a table in row-major order. *)
Definition values (d1 d2 : nat) (a : nat -> nat -> N) : list N :=
  map (fun p => a (fst p) (snd p)) (positions d1 d2).

(** Entry (i,j) of a ragged list of rows, padded with zeros. *)
Definition ragged (l : list (list N)) (i j : nat) : N := nth j (nth i l []) n0.

(** Matrix product, entry (i,k). *)
Definition prod2 (n : nat) (a b : nat -> nat -> N) (i k : nat) : N :=
  bigsum n (fun j => (a i j * b j k)%num).
End DenseSpec.

(** DenseMatrix as an instance of the generic matrix interface; its objects are those whose storage
    holds exactly rows()*columns() numbers (every [dbuilt] one does). *)
Definition DenseI (N : Num) : MatI N := {|
  mt := dmat N;
  mi_ok := fun m => length (dv m) = dr m * dc m;
  mi_rows := d_rows;
  mi_cols := d_cols;
  mi_at := d_at;
  mi_set := d_set;
  mi_new := d_new |}.
