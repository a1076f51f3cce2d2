(** Model of writing through the mutable iterators: *it = x with the non-const operator* of
    src/lib/matrix/BaseMatrix.inl:56-68 and src/lib/matrix/SparseMatrix.inl:73-85 ([it_put] in SparseModel.v),
    and of the loops  for(auto it = m.begin(); it != m.end(); ++it) *it = h( *it ). *)
From Coq Require Import List Arith Bool.
From Verif Require Import Base Num SparseModel DenseModel.
Import ListNotations.
Open Scope res_scope.
Section IterWrite.
Context {N : Num}.
(** A dense matrix with its member mEmpty, BaseMatrix.h:247-249. *)
Definition dobj : Type := (dmat N * N)%type.
(** operator*(), BaseMatrix.inl:56-68: reading through the reference; Container[...] is not checked *)
Definition di_ref (o : dobj) (it : dit) : res N :=
  if di_valid (fst o) it then vget (dv (fst o)) (di1 it * d_cols (fst o) + di2 it)
  else let* _ := assert_ (neqb (snd o) n0) in Ok (snd o).
(** operator*(), BaseMatrix.inl:56-68: writing through the reference *)
Definition di_put (o : dobj) (it : dit) (x : N) : res dobj :=
  if di_valid (fst o) it then
    let* v := vset (dv (fst o)) (di1 it * d_cols (fst o) + di2 it) x in Ok (mkD v (dr (fst o)) (dc (fst o)), snd o)
  else let* _ := assert_ (neqb (snd o) n0) in Ok (fst o, x).
(** *it = h( *it ): one reference, read and written *)
Definition di_mod (h : N -> N) (it : dit) (o : dobj) : res dobj := let* x := di_ref o it in di_put o it (h x).
(** The loops over the whole matrix, a row and a column.  Writing does not change the dimensions, on which alone ++ and !=
    depend, so the loop is run with those of the start. *)
Definition d_modify (h : N -> N) (o : dobj) : res dobj := d_for (fst o) (di_mod h) o.
Definition d_modify_row (h : N -> N) (i : nat) (o : dobj) : res dobj := d_for_row (fst o) i (di_mod h) o.
Definition d_modify_col (h : N -> N) (j : nat) (o : dobj) : res dobj := d_for_col (fst o) j (di_mod h) o.

(** The loop over the stored entries of a sparse matrix (SparseMatrix.inl:20-50, 73-85, 431-454). *)
Fixpoint s_modify_loop (fuel : nat) (h : N -> N) (m : smat N) (it : sit) : res (smat N) :=
  match fuel with
  | O => Hang
  | S k =>
      let* e := s_end m in
      if negb (it_eq m it e) then
        let* x := it_get m it in
        let* m' := it_put m it (h x) in
        let* it' := it_inc m' it in
        s_modify_loop k h m' it'
      else Ok m
  end.
Definition s_modify (h : N -> N) (m : smat N) : res (smat N) :=
  let* it := s_begin m in s_modify_loop (S (s_filled m)) h m it.
End IterWrite.
Arguments dobj : clear implicits.
