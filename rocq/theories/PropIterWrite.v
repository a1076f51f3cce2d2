(** Property C84: writing through the mutable iterators of dense and sparse matrices ( *it = x ).
    [dobj]: a dense matrix with the value of the dummy element to which an end iterator refers (0 in a fresh matrix). *)
From Coq Require Import List Arith Bool ZArith.
From Verif Require Import Base BaseProofs Num NumInst Spec SpecProofs ExampleBase SparseModel SparseSpec DenseModel DenseSpec IterWrite IterWriteProofs PropSparse.
Import ListNotations.
Local Open Scope nat_scope.
Open Scope res_scope.

(** for(it = m.begin(); it != m.end(); ++it) *it = h( *it ) applies h to every entry, once. *)
Theorem C84_dense_loop (N : Num) : forall (m : dmat N) d1 d2 a h e, dbuilt m -> dreads m d1 d2 a ->
  exists m', d_modify h (m, e) = Ok (m', e) /\ dbuilt m' /\ dreads m' d1 d2 (fun i j => h (a i j)).
Proof. exact (modify_ok N). Qed.
(** The same over one row or column; an index out of range aborts. *)
Theorem C84_dense_row (N : Num) : forall (m : dmat N) d1 d2 a h e i, dbuilt m -> dreads m d1 d2 a ->
  (i < d1 -> exists m', d_modify_row h i (m, e) = Ok (m', e) /\ dbuilt m' /\ dreads m' d1 d2 (fun x y => if x =? i then h (a x y) else a x y)) /\
  (d1 <= i -> d_modify_row h i (m, e) = Abort).
Proof. exact (modify_row_ok N). Qed.
Theorem C84_dense_column (N : Num) : forall (m : dmat N) d1 d2 a h e j, dbuilt m -> dreads m d1 d2 a ->
  (j < d2 -> exists m', d_modify_col h j (m, e) = Ok (m', e) /\ dbuilt m' /\ dreads m' d1 d2 (fun x y => if y =? j then h (a x y) else a x y)) /\
  (d2 <= j -> d_modify_col h j (m, e) = Abort).
Proof. exact (modify_col_ok N). Qed.
(** One write changes that entry only; through an end iterator it changes no entry but the dummy element, and aborts if an
    earlier such write left a non-zero there. *)
Theorem C84_dense_write (N : Num) : forall (m : dmat N) d1 d2 a e it x, dbuilt m -> dreads m d1 d2 a ->
  (di1 it < d1 -> di2 it < d2 -> exists m', di_put (m, e) it x = Ok (m', e) /\ dbuilt m' /\
     dreads m' d1 d2 (fun i j => if (i =? di1 it) && (j =? di2 it) then x else a i j)) /\
  (d1 <= di1 it \/ d2 <= di2 it -> di_put (m, e) it x = if is0 e then Ok (m, x) else Abort).
Proof. exact (put_ok N). Qed.
Theorem C84_dense_end (N : Num) : forall (m : dmat N) d1 d2 a e it, dreads m d1 d2 a -> d1 <= di1 it \/ d2 <= di2 it ->
  di_ref (m, e) it = if is0 e then Ok e else Abort.
Proof. exact (ref_end N). Qed.
(** Sparse: the loop applies h to every stored (non-zero) entry and stores the result even if it is 0; without zero results
    the matrix is as good as one written with set(). *)
Theorem C84_sparse_loop (N : Num) (HZ : ZeroLaws N) : forall (m : smat N) d1 d2 a h, built m -> reads m d1 d2 a ->
  exists m', s_modify h m = Ok m' /\
    reads m' d1 d2 (fun i j => if is0 (a i j) then a i j else h (a i j)) /\
    s_entries m' = Ok (map (fun p => (fst p, snd p, h (a (fst p) (snd p)))) (nonzeros d1 d2 a)) /\
    s_filled m' = s_filled m /\
    ((forall i j, i < d1 -> j < d2 -> is0 (a i j) = false -> is0 (h (a i j)) = false) -> built m').
Proof. exact (s_modify_ok N HZ). Qed.
Theorem C84_sparse_write (N : Num) (HZ : ZeroLaws N) : forall (m : smat N) d1 d2 a it x, built m -> reads m d1 d2 a -> walks m it -> ~ at_end m it ->
  exists m', it_put m it x = Ok m' /\ reads m' d1 d2 (fun i j => if (i =? it1 it) && (j =? it2 it) then x else a i j) /\
    s_filled m' = s_filled m /\ (is0 x = false -> built m').
Proof. exact (s_put_ok N HZ). Qed.
(** [BUG] Writing through an end iterator of a sparse matrix is not rejected: it changes what every position without a stored
    entry reads, and if the value is not 0 every later at() of such a position aborts. *)
Theorem C84_sparse_end (N : Num) (HZ : ZeroLaws N) : forall (m : smat N) d1 d2 a it x, built m -> reads m d1 d2 a -> at_end m it ->
  exists m', it_put m it x = Ok m' /\ s_rows m' = d1 /\ s_cols m' = d2 /\
    forall i j, i < d1 -> j < d2 -> s_at m' i j = if is0 (a i j) then if is0 x then Ok x else Abort else Ok (a i j).
Proof. exact (s_put_end N HZ). Qed.

Example C84_dense_example : let m := get d_default (d_of_list [[fz 1; fz 2]; [fz 3; fz 4]]) in
  (let* o := d_modify (fun x => nmul x x) (m, fz 0) in d_entries (fst o)) = Ok [(0, 0, fz 1); (0, 1, fz 4); (1, 0, fz 9); (1, 1, fz 16)] /\
  (let* o := d_modify_col (fun x => nmul x x) 1 (m, fz 0) in d_entries (fst o)) = Ok [(0, 0, fz 1); (0, 1, fz 4); (1, 0, fz 3); (1, 1, fz 16)] /\
  (let* o := d_modify_row (fun x => nmul x x) 1 (m, fz 0) in d_entries (fst o)) = Ok [(0, 0, fz 1); (0, 1, fz 2); (1, 0, fz 9); (1, 1, fz 16)] /\
  (let* o := di_put (m, fz 0) (d_end m) (fz 7) in let* o := di_put o (d_end m) (fz 0) in Ok tt) = Abort.
Proof. vm_compute. repeat split. Qed.
(** exA of C01: entries (0,1) = 2, (2,0) = -3, (2,2) = 5. *)
Example C84_sparse_example :
  (let* m := s_modify (fun x => nadd x (fz 3)) exA in s_entries m) = Ok [(0, 1, fz 5); (2, 0, fz 0); (2, 2, fz 8)] /\
  (let* m := s_modify (fun x => nadd x x) exA in s_entries m) = Ok [(0, 1, fz 4); (2, 0, fz (-6)); (2, 2, fz 10)] /\
  (let* it := s_end exA in let* m := it_put exA it (fz 9) in s_at m 2 2) = Ok (fz 5) /\
  (let* it := s_end exA in let* m := it_put exA it (fz 9) in s_at m 0 0) = Abort.
Proof. vm_compute. repeat split. Qed.
