(** Model of src/lib/matrix/MatrixConstructor.inl, MatrixCheck.inl and MatrixConverter.inl, for every
    matrix type M given by its interface (MatI, MatOps). *)
From Coq Require Import List Arith Bool ZArith.
From Verif Require Import Base Num VectorModel SparseModel DenseModel MatI MatOps UtilsModel.
Import ListNotations.
Open Scope res_scope.

Section Construct.
Context {N : Num} (I : MatI N).

(** eye<M,T>(d1,d2), MatrixConstructor.inl:9-17 *)
Definition c_eye (d1 d2 : nat) : res I :=
  let* m := mi_new d1 d2 in
  for_ 0 (Nat.min d1 d2) (fun i m => mi_set m i i n1) m.

(** diag<M>(v), MatrixConstructor.inl:29-39 *)
Definition c_diag (v : list N) : res I :=
  let* m := mi_new (v_size v) (v_size v) in
  for_ 0 (v_size v) (fun i m => let* x := v_at v i in mi_set m i i x) m.

(** diag(m), MatrixConstructor.inl:41-52 *)
Definition c_diag_of (m : I) : res (list N) :=
  let v := v_resize [] (Nat.min (mi_rows m) (mi_cols m)) in
  for_ 0 (Nat.min (mi_rows m) (mi_cols m)) (fun i v => let* x := mi_at m i i in v_set v i x) v.

(** tril(m,k), MatrixConstructor.inl:54-75.  k is an int32; i + k and j - k are evaluated in size_t:
    for k < 0 the subtraction of the converted k adds |k| modulo 2^64 (sums assumed below 2^64). *)
Definition c_tril (m : I) (k : Z) : res I :=
  let* r := mi_new (mi_rows m) (mi_cols m) in
  if (0 <=? k)%Z then
    for_ 0 (mi_rows m) (fun i r =>
      for_ 0 (Nat.min (i + Z.to_nat k + 1) (mi_cols m)) (fun j r =>
        let* x := mi_at m i j in mi_set r i j x) r) r
  else
    for_ 0 (mi_cols m) (fun j r =>
      for_ (j + Z.to_nat (- k)) (mi_rows m) (fun i r =>
        let* x := mi_at m i j in mi_set r i j x) r) r.

(** triu(m,k), MatrixConstructor.inl:77-98; same conventions *)
Definition c_triu (m : I) (k : Z) : res I :=
  let* r := mi_new (mi_rows m) (mi_cols m) in
  if (0 <=? k)%Z then
    for_ 0 (mi_rows m) (fun i r =>
      for_ (i + Z.to_nat k) (mi_cols m) (fun j r =>
        let* x := mi_at m i j in mi_set r i j x) r) r
  else
    for_ 0 (mi_cols m) (fun j r =>
      for_ 0 (Nat.min (j + Z.to_nat (- k) + 1) (mi_rows m)) (fun i r =>
        let* x := mi_at m i j in mi_set r i j x) r) r.

(** hilbert<M,T>(d), MatrixConstructor.inl:100-114 (t computed in double, converted to T: identical at
    T = double) *)
Definition c_hilbert (d : nat) : res I :=
  let* m := mi_new d d in
  for_ 0 d (fun i m => for_ 0 d (fun j m =>
    let t := (n1 / (nofnat (i + j) + n1))%num in mi_set m i j t) m) m.

(** The integer factor of one entry of inv_hilbert, in size_t arithmetic, MatrixConstructor.inl:123-125;
    binom(n,k) has k <= n here, so at most one recursive call (fuel 2). *)
Definition ih_int (d i j : nat) : res Z :=
  let* v := u_binom 2 (u64 (Z.of_nat i + Z.of_nat j)) (Z.of_nat i) in
  let* b1 := u_binom 2 (u64 (Z.of_nat d + Z.of_nat i)) (u64 (Z.of_nat d - Z.of_nat j - 1)) in
  let* b2 := u_binom 2 (u64 (Z.of_nat d + Z.of_nat j)) (u64 (Z.of_nat d - Z.of_nat i - 1)) in
  Ok (u64 (u64 (u64 (u64 (u64 (Z.of_nat i + Z.of_nat j + 1) * b1) * b2) * v) * v)).
(** inv_hilbert<M,T>(d), MatrixConstructor.inl:116-131; (T)sign is 1 or -1 *)
Definition c_inv_hilbert (d : nat) : res I :=
  let* m := mi_new d d in
  for_ 0 d (fun i m => for_ 0 d (fun j m =>
    let* w := ih_int d i j in
    let s := if (sign_pow (u64 (Z.of_nat i + Z.of_nat j)) =? 1)%Z then n1 else (- n1)%num in
    mi_set m i j (s * nofnat (Z.to_nat w))%num) m) m.
End Construct.

(** eye<T,K1,K2>() for FixedMatrix, MatrixConstructor.inl:19-27 *)
Definition c_eye_fixed {N : Num} (k1 k2 : nat) : res (dmat N) :=
  for_ 0 (Nat.min k1 k2) (fun i m => d_set m i i n1) (d_fixed_new k1 k2).

Section Check.
Context {N : Num} (M : MatOps N).
Definition square (m : M) : bool := mi_rows m =? mi_cols m.
(** matrixIsOrthogonal, MatrixCheck.inl:9-17 *)
Definition ck_orthogonal (m : M) : res bool :=
  if negb (square m) then Ok false else
  let* t := mo_transpose m in let* p := mo_mul m t in let* e := c_eye M (mi_rows m) (mi_cols m) in mo_eq p e.
(** matrixIsUnitary, MatrixCheck.inl:25-33 *)
Definition ck_unitary (m : M) : res bool :=
  if negb (square m) then Ok false else
  let* t := mo_adjugate m in let* p := mo_mul m t in let* e := c_eye M (mi_rows m) (mi_cols m) in mo_eq p e.
(** matrixIsProjection, MatrixCheck.inl:41-48 *)
Definition ck_projection (m : M) : res bool :=
  if negb (square m) then Ok false else let* p := mo_mul m m in mo_eq p m.
(** matrixIsSymmetric, MatrixCheck.inl:50-57 *)
Definition ck_symmetric (m : M) : res bool :=
  if negb (square m) then Ok false else let* t := mo_transpose m in mo_eq t m.
(** matrixIsHermitian, MatrixCheck.inl:59-66 *)
Definition ck_hermitian (m : M) : res bool :=
  if negb (square m) then Ok false else let* t := mo_adjugate m in mo_eq t m.
(** matrixIsSkewSymmetric, MatrixCheck.inl:68-75 *)
Definition ck_skewsymmetric (m : M) : res bool :=
  if negb (square m) then Ok false else let* t := mo_transpose m in let* n := mo_neg t in mo_eq n m.
(** matrixIsSkewHermitian, MatrixCheck.inl:77-84 *)
Definition ck_skewhermitian (m : M) : res bool :=
  if negb (square m) then Ok false else let* t := mo_adjugate m in let* n := mo_neg t in mo_eq n m.
End Check.

(** matrixIsOrthogonal for FixedMatrix<T,K,K>, MatrixCheck.inl:19-23.  (matrixIsUnitary for FixedMatrix,
    :35-39, uses FixedMatrix::adjugate, which cannot be instantiated.) *)
Definition ck_orthogonal_fixed {N : Num} (k : nat) (m : dmat N) : res bool :=
  let* t := d_fixed_transpose m in let* p := d_fixed_mul m t in let* e := c_eye_fixed k k in d_eq p e.

(** toSparseMatrix, MatrixConverter.inl:9-24 *)
Definition to_sparse {N : Num} (m : dmat N) : res (smat N) :=
  let* r := s_new (d_rows m) (d_cols m) in
  for_ 0 (d_rows m) (fun i r => for_ 0 (d_cols m) (fun j r =>
    let* v := d_at m i j in
    if negb (neqb v n0) then s_set r i j v else Ok r) r) r.
(** toDenseMatrix, MatrixConverter.inl:26-36.  The source names the result types DynamicMatrix<T> and
    Matrix<T>, which the library does not define; the model reads both as DenseMatrix<T>. *)
Definition to_dense {N : Num} (m : smat N) : res (dmat N) :=
  let* r := d_new (s_rows m) (s_cols m) in
  s_for m (fun it r => let* v := it_get m it in d_set r (it1 it) (it2 it) v) r.
