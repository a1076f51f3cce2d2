(** The part of the matrix interface that the algorithms use through their template parameter M:
    rows(), columns(), at(i,j), set(i,j,v), the constructor M(d1,d2); plus the predicate [mi_ok]
    singling out the objects a program can construct.  Instances: DenseMatrix, SparseMatrix. *)
From Coq Require Import List Arith Bool.
From Verif Require Import Base Num.
Open Scope res_scope.

Record MatI (N : Num) : Type := {
  mt :> Type;
  mi_ok : mt -> Prop;
  mi_rows : mt -> nat;
  mi_cols : mt -> nat;
  mi_at : mt -> nat -> nat -> res N;
  mi_set : mt -> nat -> nat -> N -> res mt;
  mi_new : nat -> nat -> res mt
}.
Arguments mi_ok {N m} _.
Arguments mi_rows {N m} _.
Arguments mi_cols {N m} _.
Arguments mi_at {N m} _ _ _.
Arguments mi_set {N m} _ _ _ _.
Arguments mi_new {N m} _ _.

(** The object is a proper matrix and answers rows(), columns() and at(i,j) like the table [a]. *)
Definition holds {N} {I : MatI N} (m : I) (d1 d2 : nat) (a : nat -> nat -> N) : Prop :=
  mi_ok m /\ mi_rows m = d1 /\ mi_cols m = d2 /\
  forall i j, i < d1 -> j < d2 -> mi_at m i j = Ok (a i j).

(** A table with one entry replaced. *)
Definition put2 {N : Num} (a : nat -> nat -> N) (i j : nat) (v : N) : nat -> nat -> N :=
  fun i' j' => if (i' =? i) && (j' =? j) then v else a i' j'.

Record MatLaws {N} (I : MatI N) : Prop := {
  ml_at : forall (m : I) i j, mi_ok m -> i < mi_rows m -> j < mi_cols m -> exists x, mi_at m i j = Ok x;
  ml_at_out : forall (m : I) i j, mi_rows m <= i \/ mi_cols m <= j -> mi_at m i j = Abort;
  ml_set : forall (m : I) i j v, mi_ok m -> i < mi_rows m -> j < mi_cols m ->
    exists m', mi_set m i j v = Ok m' /\ mi_ok m' /\ mi_rows m' = mi_rows m /\ mi_cols m' = mi_cols m /\
    forall i' j', i' < mi_rows m -> j' < mi_cols m ->
      mi_at m' i' j' = if (i' =? i) && (j' =? j) then Ok v else mi_at m i' j';
  ml_set_out : forall (m : I) i j v, mi_rows m <= i \/ mi_cols m <= j -> mi_set m i j v = Abort;
  ml_new : forall d1 d2, 0 < d1 -> 0 < d2 ->
    exists m : I, mi_new d1 d2 = Ok m /\ holds m d1 d2 (fun _ _ => n0);
  ml_new0 : forall d1 d2, d1 = 0 \/ d2 = 0 -> @mi_new N I d1 d2 = Abort
}.
