(** Model of the stream operators, src/lib/OutputStream.h.  Text is a list of characters.  How the stream writes one
    number (operator<< of T with the stream's flags) is the parameter [fmt]; indices are written in decimal. *)
From Coq Require Import String Ascii List Arith Bool Decimal DecimalString.
From Verif Require Import Base Num VectorModel SparseModel DenseModel.
Import ListNotations.
Local Open Scope list_scope.
Local Open Scope nat_scope.
Open Scope res_scope.

Notation text := (list ascii).
Definition str (s : string) : text := list_ascii_of_string s.
(** operator<<(unsigned long) with default flags: decimal digits *)
Definition dec (n : nat) : text := str (NilZero.string_of_uint (Nat.to_uint n)).

Section Stream.
Context {N : Num} (fmt : N -> text).

(** operator<<(Vector), OutputStream.h:11-19 *)
Definition out_vector (v : list N) : res text :=
  let* s := v_iterate v (fun x out => Ok (out ++ fmt x ++ str " ")) (str "[ ") in
  Ok (s ++ str "]").

(** operator<<(BaseMatrix), OutputStream.h:21-36.  rows() - 1 is computed inside the loop, where rows() > 0. *)
Definition out_dense (m : dmat N) : res text :=
  let* s := for_ 0 (d_rows m) (fun i out =>
    let* out := for_ 0 (d_cols m) (fun j out => let* x := d_at m i j in Ok (out ++ fmt x ++ str " ")) out in
    Ok (if negb (i =? d_rows m - 1) then out ++ str "| " else out)) (str "[ ") in
  Ok (s ++ str "]").

(** operator<<(SparseMatrix), OutputStream.h:38-48 *)
Definition out_sparse (m : smat N) : res text :=
  let* s := s_for m (fun it out =>
    let* x := it_get m it in
    Ok (out ++ str "(" ++ dec (it1 it) ++ str ", " ++ dec (it2 it) ++ str "; " ++ fmt x ++ str ") ")) (str "[ ") in
  Ok (s ++ str "]").
End Stream.
