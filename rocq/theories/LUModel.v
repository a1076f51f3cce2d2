(** Model of src/lib/LU.inl and of determinant/inverse/norms of src/lib/matrix/MatrixOperations.inl. *)
From Coq Require Import List Arith Bool.
From Verif Require Import Base Num Spec VectorModel SparseModel DenseModel DenseSpec MatI MatOps UtilsModel.
Import ListNotations.
Open Scope res_scope.

(** A matrix with row iterators.  [rm_row m i] is what a loop from row_begin(i) to row_end(i) sees: the
    sequence of (column, value).  Simplification: the model walks the row before running the loop body;
    no loop below modifies the matrix it iterates over. *)
Record RowMat (N : Num) : Type := {
  rm :> MatOps N;
  rm_row : rm -> nat -> res (list (nat * N))
}.
Arguments rm_row {N r} _ _.
(** SparseMatrix::row_begin/row_end, increment, dereference, SparseMatrix.inl:94-119, 468-492 *)
Definition SparseR (N : Num) : RowMat N := {|
  rm := SparseOps N;
  rm_row := fun m i => let* l := s_row_entries m i in Ok (map (fun e => (snd (fst e), snd e)) l) |}.
(** BaseMatrix::row_begin/row_end, increment, dereference, BaseMatrix.inl:229-252 *)
Definition DenseR (N : Num) : RowMat N := {|
  rm := DenseOps N;
  rm_row := fun m i => let* l := d_row_entries m i in Ok (map (fun e => (snd (fst e), snd e)) l) |}.

(** The part of a sequence a loop with the extra condition p visits. *)
Fixpoint takewhile {A} (p : A -> bool) (l : list A) : list A :=
  match l with [] => [] | x :: t => if p x then x :: takewhile p t else [] end.
Fixpoint dropwhile {A} (p : A -> bool) (l : list A) : list A :=
  match l with [] => [] | x :: t => if p x then dropwhile p t else l end.

Section LU.
Context {N : Num}.

(** sqrt_allowed for real T, Types.h:54-58 *)
Definition sqrt_allowed (t : N) : bool := nleb n0 t.

(** std::abs(x) <= numeric_limits::epsilon(), LU.inl:111-113 etc. *)
Definition tiny (x : N) : bool := nleb (nabs x) neps.

Section Generic.
Context {I : MatI N}.

(** The two inner sums of cholesky, LU.inl:25-30 and 37-40 *)
Definition chol_sum (L : I) (i j n : nat) : res N :=
  for_ 0 n (fun k s => let* x := mi_at L i k in let* y := mi_at L j k in Ok (s + x * y)%num) n0.
(** cholesky, LU.inl:8-46 (NS_ALLOW_CHECKS off), real T *)
Definition cholesky (m L0 : I) : res I :=
  if negb (mi_rows m =? mi_cols m) then Throw NotSquare
  else if negb (mi_rows m =? mi_rows L0) || negb (mi_cols m =? mi_cols L0) then Throw InvalidOutputMatrix
  else
    for_ 0 (mi_rows L0) (fun j L =>
      let* s := chol_sum L j j j in
      let* mjj := mi_at m j j in
      let s := (mjj - s)%num in
      if negb (sqrt_allowed s) then Throw NotPositiveDefinite
      else
        let* L := mi_set L j j (nsqrt s) in
        for_ j (mi_rows L0) (fun i L =>
          let* s := chol_sum L i j i in
          let* mij := mi_at m i j in
          let* d := mi_at L j j in
          mi_set L i j ((mij - s) / d)%num) L) L0.

(** Pivot search, LU.inl:76-87 and 160-171 *)
Definition lu_pivot (U : I) (n k : nat) : res nat :=
  let* u := mi_at U k k in
  let* r := for_ (k + 1) n (fun j st =>
    let* v := mi_at U j k in
    Ok (if nleb (fst st) (nabs v) then (nabs v, j) else st)) (nabs u, k) in
  Ok (snd r).
(** Swapping rows i and k in columns lo..hi-1, LU.inl:95-107 and 179-191 *)
Definition lu_swap (M : I) (i k lo hi : nat) : res I :=
  for_ lo hi (fun j M =>
    let* tmp := mi_at M k j in
    let* x := mi_at M i j in
    let* M1 := mi_set M k j x in
    mi_set M1 i j tmp) M.
(** Elimination below the pivot, LU.inl:117-124 and 201-208 *)
Definition lu_elim (L U : I) (n k : nat) : res (I * I) :=
  let* mid := mi_at U k k in
  let inv := (n1 / mid)%num in
  for_ (k + 1) n (fun j LU =>
    let '(L, U) := LU in
    let* u := mi_at U j k in
    let* L := mi_set L j k (u * inv)%num in
    let* U := for_ k n (fun t U =>
      let* x := mi_at U j t in
      let* l := mi_at L j k in
      let* y := mi_at U k t in
      mi_set U j t (x - l * y)%num) U in
    Ok (L, U)) (L, U).
(** One column of the elimination, LU.inl:72-125 and 157-209.  State: L, U, rowTable, *pivotCount. *)
Definition lu_state : Type := (I * I * list nat * nat)%type.
Definition lu_column (n k : nat) (st : lu_state) : res lu_state :=
  let '(L, U, rt, cnt) := st in
  let* i := lu_pivot U n k in
  let* st1 := (if negb (i =? k) then
      let* U := lu_swap U i k k n in
      let* L := lu_swap L i k 0 k in
      let* ri := vget rt i in
      let* rk := vget rt k in
      let* rt := vset rt i rk in
      let* rt := vset rt k ri in
      Ok (L, U, rt, cnt + 1)
    else Ok st) in
  let '(L, U, rt, cnt) := st1 in
  let* mid := mi_at U k k in
  if tiny mid then Throw Singular
  else
    let* LU := lu_elim L U n k in
    Ok (fst LU, snd LU, rt, cnt).
(** LU.inl:65-132 from the unit diagonal to the pivot matrix, common to both overloads; newP stands for
    the pivot matrix object (a parameter in the dense overload, SparseMatrix(n,n) in the sparse one).
    For n = 0 the bound n-1 wraps. *)
Definition lu_main (A L0 : I) (newP : res I) : res (I * I * I * nat) :=
  let n := mi_rows A in
  let* L := for_ 0 n (fun i L => mi_set L i i n1) L0 in
  let* last := usub n 1 in
  let* st := for_ 0 last (lu_column n) (L, A, seq 0 n, 0) in
  let '(L, U, rt, cnt) := st in
  let* P0 := newP in
  let* P := for_ 0 n (fun i P => let* r := vget rt i in mi_set P i r n1) P0 in
  Ok (L, U, P, cnt).

(** doolittle for BaseMatrix (DenseMatrix, FixedMatrix), LU.inl:48-132: returns L, U, P, pivotCount *)
Definition doolittle_dense (A L0 P0 : I) : res (I * I * I * nat) :=
  if negb (mi_rows A =? mi_cols A) then Throw NotSquare
  else if negb (mi_rows A =? mi_rows L0) || negb (mi_cols A =? mi_cols L0) ||
          negb (mi_rows A =? mi_rows P0) || negb (mi_cols A =? mi_cols P0) then Throw InvalidOutputMatrix
  else lu_main A L0 (Ok P0).
(** doolittle for SparseMatrix, LU.inl:134-216 *)
Definition doolittle_sparse (A : I) : res (I * I * I * nat) :=
  if negb (mi_rows A =? mi_cols A) then Throw NotSquare
  else let* L0 := mi_new (mi_rows A) (mi_rows A) in lu_main A L0 (mi_new (mi_rows A) (mi_rows A)).

(** try { ... } catch (const MathException&) { return 0; }, MatrixOperations.inl:12-27 *)
Definition catch_math (r : res N) : res N :=
  match r with Throw e => if is_math_exn e then Ok n0 else Throw e | _ => r end.
(** The product over the diagonal, MatrixOperations.inl:17-22 *)
Definition det_product (U : I) (cnt : nat) : res N :=
  for_ 0 (mi_rows U) (fun i d => let* x := mi_at U i i in Ok (d * x)%num) (if Nat.even cnt then n1 else (- n1)%num).
End Generic.
Arguments lu_state : clear implicits.

(** determinant, MatrixOperations.inl:8-28, for DenseMatrix and for SparseMatrix; the fixed-size overload
    (30-49) differs only in the constructors. *)
Definition det_dense (m : DenseI N) : res N :=
  catch_math (
    let* L := mi_new (mi_rows m) (mi_cols m) in
    let* U := @mi_new N (DenseI N) (mi_rows m) (mi_cols m) in
    let* P := mi_new (mi_rows m) (mi_cols m) in
    let* r := doolittle_dense m L P in
    det_product (snd (fst (fst r))) (snd r)).
Definition det_fixed (m : DenseI N) : res N :=
  catch_math (
    let* r := doolittle_dense m (d_fixed_new (mi_rows m) (mi_cols m)) (d_fixed_new (mi_rows m) (mi_cols m)) in
    det_product (snd (fst (fst r))) (snd r)).
Definition det_sparse (m : SparseI N) : res N :=
  catch_math (
    let* L := @mi_new N (SparseI N) (mi_rows m) (mi_cols m) in
    let* U := @mi_new N (SparseI N) (mi_rows m) (mi_cols m) in
    let* P := @mi_new N (SparseI N) (mi_rows m) (mi_cols m) in
    let* r := doolittle_sparse m in
    det_product (snd (fst (fst r))) (snd r)).

Section Rows.
Context {M : RowMat N}.

(** y[i] -= value * y[column], LU.inl:282 and 298 *)
Definition sub_term (i : nat) (e : nat * N) (y : list N) : res (list N) :=
  let* yi := v_at y i in
  let* yc := v_at y (fst e) in
  v_set y i (yi - snd e * yc)%num.
(** const mid = ...; if (tiny) throw; y[i] /= mid, LU.inl:284-287 and 301-304 *)
Definition div_mid (A : M) (i : nat) (y : list N) : res (list N) :=
  let* mid := mi_at A i i in
  if tiny mid then Throw Singular
  else let* yi := v_at y i in v_set y i (yi / mid)%num.
(** forward substitution, LU.inl:277-288 *)
Definition lu_forward (L : M) (b : list N) : res (list N) :=
  for_ 0 (mi_rows L) (fun i y =>
    let* l := rm_row L i in
    let* y := foreach (takewhile (fun e => fst e <? i) l) (sub_term i) y in
    div_mid L i y) b.
(** backward substitution, LU.inl:290-309; for an empty U the start index wraps *)
Definition lu_backward (U : M) (y : list N) : res (list N) :=
  let* _ := usub (mi_rows U) 1 in
  down_n (mi_rows U) 0 (fun i x =>
    let* l := rm_row U i in
    let* x := foreach l (fun e x => if fst e <? i + 1 then Ok x else sub_term i e x) x in
    div_mid U i x) y.
(** solve_lu, LU.inl:263-313 *)
Definition solve_lu (L U : M) (b : list N) : res (list N) :=
  if negb (mi_rows L =? mi_cols L) then Throw NotSquare
  else if negb (mi_rows U =? mi_cols U) then Throw NotSquare
  else if negb (mi_rows L =? mi_rows U) then Throw MatrixSizeMismatch
  else if negb (mi_rows L =? v_size b) then Throw MatrixVectorMismatch
  else let* y := lu_forward L b in lu_backward U y.

(** ainv_lu, LU.inl:315-386.  Subtraction loops: *)
Definition ainv_sum (l : list (nat * N)) (X : M) (k : nat) (m : N) : res N :=
  foreach l (fun e m => let* x := mi_at X (fst e) k in Ok (m - snd e * x)%num) m.
Definition ainv_lower (L : M) (k : nat) (X : M) : res M :=
  let* X := mi_set X k k n1 in
  for_ (k + 1) (mi_cols L) (fun i X =>
    let* m := mi_at X i k in
    let* l := rm_row L i in
    let* m := ainv_sum (takewhile (fun e => fst e <? i) (dropwhile (fun e => fst e <? k) l)) X k m in
    mi_set X i k m) X.
Definition ainv_upper (U : M) (n k : nat) (X : M) : res M :=
  let* d := mi_at U k k in
  let* X := mi_set X k k (n1 / d)%num in
  down_n (n - k) 0 (fun i X =>
    let* m := mi_at X i k in
    let* l := rm_row U i in
    let* m := ainv_sum (takewhile (fun e => fst e <? k + 1) (dropwhile (fun e => fst e <? i + 1) l)) X k m in
    let* mid := mi_at U i i in
    if tiny mid then Throw Singular else mi_set X i k (m / mid)%num) X.
Definition ainv_lu (L U invL invU : M) : res (M * M) :=
  if negb (mi_rows L =? mi_cols L) then Throw NotSquare
  else if negb (mi_rows U =? mi_cols U) then Throw NotSquare
  else if negb (mi_rows invL =? mi_cols invL) then Throw NotSquare
  else if negb (mi_rows invU =? mi_cols invU) then Throw NotSquare
  else if negb (mi_rows L =? mi_rows U) then Throw MatrixSizeMismatch
  else if negb (mi_rows L =? mi_rows invL) then Throw MatrixSizeMismatch
  else if negb (mi_rows L =? mi_rows invU) then Throw MatrixSizeMismatch
  else
    for_ 0 (mi_cols L) (fun k XY =>
      let* X := ainv_lower L k (fst XY) in
      let* Y := ainv_upper U (mi_cols L) k (snd XY) in
      Ok (X, Y)) (invL, invU).

(** inverse(L,U), MatrixOperations.inl:63-110 (the object Inv is not iterated over) *)
Definition inv2_term (j i : nat) (e : nat * N) (X : M) : res M :=
  let* x := mi_at X j i in
  let* y := mi_at X (fst e) i in
  mi_set X j i (x - snd e * y)%num.
Definition inverse2 (L U : M) : res M :=
  if negb (mi_rows L =? mi_cols L) then Throw NotSquare
  else if negb (mi_rows U =? mi_cols U) then Throw NotSquare
  else if negb (mi_rows L =? mi_rows U) then Throw MatrixSizeMismatch
  else
    let* X := mi_new (mi_rows L) (mi_cols L) in
    for_ 0 (mi_cols L) (fun i X =>
      let* X := mi_set X i i n1 in
      let* X := for_ (i + 1) (mi_rows L) (fun j X =>
        let* l := rm_row L j in
        foreach (takewhile (fun e => fst e <? j) l) (inv2_term j i) X) X in
      down_n (mi_rows U) 0 (fun j X =>
        let* l := rm_row U j in
        let* X := foreach l (fun e X => if fst e <? j + 1 then Ok X else inv2_term j i e X) X in
        let* mid := mi_at U j j in
        if tiny mid then Throw Singular
        else let* x := mi_at X j j in mi_set X j j (x / mid)%num) X) X.

(** inverse(L,U,P), MatrixOperations.inl:112-148; Inv starts as a copy of L *)
Definition inverse3 (L U P : M) : res M :=
  if negb (mi_rows L =? mi_cols L) then Throw NotSquare
  else if negb (mi_rows U =? mi_cols U) then Throw NotSquare
  else if negb (mi_rows P =? mi_cols P) then Throw NotSquare
  else if negb (mi_rows L =? mi_rows U) then Throw MatrixSizeMismatch
  else if negb (mi_rows P =? mi_rows U) then Throw MatrixSizeMismatch
  else
    let* r := for_ 0 (mi_cols L) (fun i st =>
      let '(b, X) := st in
      let* b := v_set b i n1 in
      let* pb := mo_mulv P b in
      let* x := solve_lu L U pb in
      let* X := for_ 0 (mi_rows L) (fun j X => let* xj := v_at x j in mi_set X j i xj) X in
      let* b := v_set b i n0 in
      Ok (b, X)) (v_new (mi_rows L), L) in
    Ok (snd r).

(** max_norm2, min_norm2, cond, MatrixOperations.inl:150-196, real T *)
Definition row_fold (sel : N -> N -> bool) (init : N) (m : M) (i : nat) : res N :=
  let* l := rm_row m i in
  Ok (fold_left (fun s (e : nat * N) => if sel (nabs (snd e)) s then nabs (snd e) else s) l init).
Definition norm2_of (sel : N -> N -> bool) (init : N) (m : M) : res N :=
  let* v := for_ 0 (mi_rows m) (fun i v => let* s := row_fold sel init m i in Ok (v + s * s)%num) n0 in
  Ok (nsqrt v).
Definition max_norm2 : M -> res N := norm2_of (fun x s => nltb s x) n0.
Definition min_norm2 : M -> res N := norm2_of (fun x s => nltb x s) nmax.
Definition cond (m : M) : res N := let* a := max_norm2 m in let* b := min_norm2 m in Ok (a / b)%num.
End Rows.

(** inverse(m), MatrixOperations.inl:51-61: L, U and P all start as copies of m *)
Definition inverse_dense (m : DenseR N) : res (DenseR N) :=
  let* r := doolittle_dense (I := DenseI N) m m m in
  let '(L, U, P, _) := r in inverse3 (M := DenseR N) L U P.
Definition inverse_sparse (m : SparseR N) : res (SparseR N) :=
  let* r := doolittle_sparse (I := SparseI N) m in
  let '(L, U, P, _) := r in inverse3 (M := SparseR N) L U P.

(** ilu0, LU.inl:218-261.  The matrix is modified through the iterators while it is iterated over; only
    stored values change, never the pattern.  Inner loop over it2: *)
Fixpoint ilu_inner (fuel : nat) (k : nat) (d : N) (m : smat N) (it2_ : sit) : res (smat N) :=
  match fuel with
  | O => Hang
  | S f =>
      let* e := s_end m in
      if negb (it_eq m it2_ e) then
        let* x := it_get m it2_ in
        let* y := s_at m k (it2 it2_) in
        let* m := it_put m it2_ (x - d * y)%num in
        let* it' := rit_inc m it2_ in
        ilu_inner f k d m it'
      else Ok m
  end.
(** The loop over it (row i, columns below i), LU.inl:229-243 *)
Fixpoint ilu_row (fuel : nat) (i : nat) (m : smat N) (it : sit) : res (smat N) :=
  match fuel with
  | O => Hang
  | S f =>
      let* e := s_end m in
      if negb (it_eq m it e) && (it2 it <? i) then
        let* mid := s_at m (it2 it) (it2 it) in
        if tiny mid then Throw Singular
        else
          let* x := it_get m it in
          let d := (x / mid)%num in
          let* m := it_put m it d in
          let* nx := rit_inc m it in
          let* m := ilu_inner (S (s_filled m)) (it2 it) d m nx in
          let* it' := rit_inc m it in
          ilu_row f i m it'
      else Ok m
  end.
Definition ilu_split (m L U : smat N) : res (smat N * smat N) :=
  s_for m (fun it LU =>
    let* x := it_get m it in
    if it2 it =? it1 it then
      let* L := s_set (fst LU) (it1 it) (it2 it) n1 in
      let* U := s_set (snd LU) (it1 it) (it2 it) x in
      Ok (L, U)
    else if it2 it <? it1 it then
      let* L := s_set (fst LU) (it1 it) (it2 it) x in Ok (L, snd LU)
    else
      let* U := s_set (snd LU) (it1 it) (it2 it) x in Ok (fst LU, U)) (L, U).
Definition ilu0 (A L U : smat N) : res (smat N * smat N) :=
  if negb (s_rows A =? s_cols A) then Throw NotSquare
  else
    let* m := for_ 1 (s_rows A) (fun i m =>
      let* it := s_row_begin m i in ilu_row (S (s_filled m)) i m it) A in
    ilu_split m L U.
End LU.
