(** The rest of the matrix interface used by the generic algorithms: products, transposition, adjoint,
    negation and ==, with their meaning; instances for DenseMatrix and SparseMatrix. *)
From Coq Require Import List Arith Bool.
From Verif Require Import Base Num Spec VectorModel SparseModel SparseSpec DenseModel DenseSpec MatI.
Import ListNotations.
Open Scope res_scope.

Record MatOps (N : Num) : Type := {
  mo :> MatI N;
  mo_mul : mo -> mo -> res mo;
  mo_mulv : mo -> list N -> res (list N);
  mo_transpose : mo -> res mo;
  mo_adjugate : mo -> res mo;
  mo_neg : mo -> res mo;
  mo_eq : mo -> mo -> res bool
}.
Arguments mo_mul {N m} _ _.
Arguments mo_mulv {N m} _ _.
Arguments mo_transpose {N m} _.
Arguments mo_adjugate {N m} _.
Arguments mo_neg {N m} _.
Arguments mo_eq {N m} _ _.

Record OpLaws {N : Num} (M : MatOps N) : Prop := {
  ol_mat : MatLaws M;
  ol_mul : forall (A B : M) d1 d2 d3 a b, 0 < d1 -> 0 < d2 -> 0 < d3 -> holds A d1 d2 a -> holds B d2 d3 b ->
    returns (mo_mul A B) (fun C => holds C d1 d3 (prod2 d2 a b));
  ol_mulv : forall (A : M) d1 d2 a v, holds A d1 d2 a -> length v = d2 ->
    mo_mulv A v = Ok (map (fun i => bigsum d2 (fun j => (a i j * nth j v n0)%num)) (seq 0 d1));
  ol_mulv_bad : forall (A : M) v, mi_cols A <> length v -> mo_mulv A v = Throw MatrixMulMismatch;
  ol_transpose : forall (A : M) d1 d2 a, 0 < d1 -> 0 < d2 -> holds A d1 d2 a ->
    returns (mo_transpose A) (fun C => holds C d2 d1 (fun i j => a j i));
  ol_adjugate : nconj (@n0 N) = n0 -> forall (A : M) d1 d2 a, 0 < d1 -> 0 < d2 -> holds A d1 d2 a ->
    returns (mo_adjugate A) (fun C => holds C d2 d1 (fun i j => nconj (a j i)));
  ol_neg : forall (A : M) d1 d2 a, holds A d1 d2 a -> returns (mo_neg A) (fun C => holds C d1 d2 (fun i j => - a i j)%num);
  ol_eq : forall (A B : M) d1 d2 a b, holds A d1 d2 a -> holds B d1 d2 b ->
    returns (mo_eq A B) (fun r => r = true <-> forall i j, i < d1 -> j < d2 -> a i j = b i j)
}.

(** SparseMatrix as an instance: its proper objects are those obtained through the interface. *)
Definition SparseI (N : Num) : MatI N := {|
  mt := smat N;
  mi_ok := built;
  mi_rows := s_rows;
  mi_cols := s_cols;
  mi_at := s_at;
  mi_set := s_set;
  mi_new := s_new |}.

Definition DenseOps (N : Num) : MatOps N := {|
  mo := DenseI N;
  mo_mul := d_mul; mo_mulv := d_mulv; mo_transpose := d_transpose; mo_adjugate := d_adjugate;
  mo_neg := d_neg; mo_eq := d_eq |}.
Definition SparseOps (N : Num) : MatOps N := {|
  mo := SparseI N;
  mo_mul := s_mul; mo_mulv := s_mulv; mo_transpose := s_transpose; mo_adjugate := s_adjugate;
  mo_neg := s_neg; mo_eq := s_eq |}.
