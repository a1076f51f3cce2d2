(** Model of src/lib/matrix/BaseMatrix.{h,inl}, DenseMatrix.inl and FixedMatrix.inl (row-major flat
    storage).  A FixedMatrix<T,K1,K2> is the same object with the constants K1, K2 as its counts.
    mEmpty is left out here: it is only reachable by dereferencing an end iterator (IterWrite.v).  The post-increments
    BaseMatrix.inl:35-41, 93-99, 125-131 copy the iterator and call the pre-increment. *)
From Coq Require Import List Arith Bool.
From Verif Require Import Base Num VectorModel.
Import ListNotations.
Open Scope res_scope.

(** DataContainer2D, BaseMatrix.h:13-36 *)
Record dmat (N : Num) : Type := mkD {
  dv : list N;   (* Container *)
  dr : nat;      (* RowCount *)
  dc : nat       (* ColumnCount *)
}.
Arguments mkD {N} dv dr dc.
Arguments dv {N} d.
Arguments dr {N} d.
Arguments dc {N} d.

(** MatrixIterator without its matrix pointer, BaseMatrix.h:146-149; constructors BaseMatrix.inl:8-12, 71-75, 102-106 *)
Record dit : Type := mkDI { di1 : nat; di2 : nat }.

Section DenseModel.
Context {N : Num}.
Notation mat := (dmat N).

(** rows/columns/size, BaseMatrix.inl:333-348 *)
Definition d_rows (m : mat) : nat := dr m.
Definition d_cols (m : mat) : nat := dc m.
Definition d_size (m : mat) : nat := d_rows m * d_cols m.

(** DenseMatrix(), DenseMatrix.inl:8-11 *)
Definition d_default : mat := mkD [] 0 0.
(** DenseMatrix(d1,d2), DenseMatrix.inl:14-23 *)
Definition d_new (d1 d2 : nat) : res mat :=
  let* _ := assert_ (0 <? d1) in
  let* _ := assert_ (0 <? d2) in
  Ok (mkD (repeat n0 (d1 * d2)) d1 d2).
(** FixedMatrix<T,K1,K2>(), FixedMatrix.inl:8-11: value-initialised array *)
Definition d_fixed_new (k1 k2 : nat) : mat := mkD (repeat n0 (k1 * k2)) k1 k2.

(** linear_at / linear_set, BaseMatrix.inl:164-175 *)
Definition d_linear_at (m : mat) (i : nat) : res N :=
  let* _ := assert_ (i <? d_size m) in vget (dv m) i.
Definition d_linear_set (m : mat) (i : nat) (v : N) : res mat :=
  let* _ := assert_ (i <? d_size m) in
  let* c := vset (dv m) i v in Ok (mkD c (dr m) (dc m)).
(** at / set, BaseMatrix.inl:148-161 *)
Definition d_at (m : mat) (i j : nat) : res N :=
  let* _ := assert_ (i <? d_rows m) in
  let* _ := assert_ (j <? d_cols m) in
  d_linear_at m (i * d_cols m + j).
Definition d_set (m : mat) (i j : nat) (v : N) : res mat :=
  let* _ := assert_ (i <? d_rows m) in
  let* _ := assert_ (j <? d_cols m) in
  d_linear_set m (i * d_cols m + j) v.
(** has(i,j) and has(i,j,val), BaseMatrix.inl:178-188 *)
Definition d_has (m : mat) (i j : nat) : res bool :=
  let* x := d_at m i j in Ok (negb (neqb x n0)).
Definition d_has_val (m : mat) (i j : nat) : res (bool * N) :=
  let* x := d_at m i j in Ok (negb (neqb x n0), x).

(** The loops of both initializer-list constructors, DenseMatrix.inl:31-41 and FixedMatrix.inl:21-31 *)
Definition d_fill_list (l : list (list N)) (cols : nat) (c0 : list N) : res (list N) :=
  let* st := foreach l (fun v st =>
      let '(i, c) := st in
      let* st2 := foreach v (fun w st2 =>
          let '(j, c2) := st2 in
          let* c3 := vset c2 (i * cols + j) w in Ok (S j, c3)) (O, c) in
      Ok (S i, snd st2)) (O, c0) in
  Ok (snd st).
(** DenseMatrix(initializer_list), DenseMatrix.inl:26-42; an empty outer list dereferences end() *)
Definition d_of_list (l : list (list N)) : res mat :=
  match l with
  | [] => UB
  | _ =>
    let cols := list_max (map (@length N) l) in
    let* m := d_new (length l) cols in
    let* c := d_fill_list l cols (dv m) in
    Ok (mkD c (dr m) (dc m))
  end.
(** FixedMatrix(initializer_list), FixedMatrix.inl:14-32 *)
Definition d_fixed_of_list (k1 k2 : nat) (l : list (list N)) : res mat :=
  let m := d_fixed_new k1 k2 in
  let* _ := assert_ (length l <=? k1) in
  match l with
  | [] => UB
  | _ =>
    let* _ := assert_ (list_max (map (@length N) l) <=? k2) in
    let* c := d_fill_list l k2 (dv m) in
    Ok (mkD c (dr m) (dc m))
  end.

(** resize, DenseMatrix.inl:50-55: asserts only *)
Definition d_resize (m : mat) (d1 d2 : nat) : res mat :=
  let* _ := assert_ (0 <? d1) in
  let* _ := assert_ (0 <? d2) in
  Ok m.

(** isValid and operator==, BaseMatrix.h:85-102, same matrix *)
Definition di_valid (m : mat) (it : dit) : bool := (di1 it <? d_rows m) && (di2 it <? d_cols m).
Definition di_eq (m : mat) (a b : dit) : bool :=
  (negb (di_valid m a) && negb (di_valid m b)) || ((di1 a =? di1 b) && (di2 a =? di2 b)).
(** begin/end, BaseMatrix.inl:192-225 *)
Definition d_begin : dit := mkDI 0 0.
Definition d_end (m : mat) : dit := mkDI (d_rows m) (d_cols m).
(** row_begin / column_begin, BaseMatrix.inl:229-264, 268-303; row_end/column_end = end, and the c-variants call the others *)
Definition d_row_begin (m : mat) (i : nat) : res dit := let* _ := assert_ (i <? d_rows m) in Ok (mkDI i 0).
Definition d_col_begin (m : mat) (j : nat) : res dit := let* _ := assert_ (j <? d_cols m) in Ok (mkDI 0 j).
(** MatrixIterator::operator++, BaseMatrix.inl:14-32 *)
Definition di_inc (m : mat) (it : dit) : dit :=
  if di_valid m it then
    if d_cols m <=? di2 it + 1 then
      if d_rows m <=? di1 it + 1 then mkDI (d_rows m) (d_cols m) else mkDI (di1 it + 1) 0
    else mkDI (di1 it) (di2 it + 1)
  else it.
(** MatrixRowIterator::operator++, BaseMatrix.inl:75-88 *)
Definition dri_inc (m : mat) (it : dit) : dit :=
  if di_valid m it then
    if d_cols m <=? di2 it + 1 then mkDI (d_rows m) (d_cols m) else mkDI (di1 it) (di2 it + 1)
  else it.
(** MatrixColumnIterator::operator++, BaseMatrix.inl:106-120 *)
Definition dci_inc (m : mat) (it : dit) : dit :=
  if di_valid m it then
    if d_rows m <=? di1 it + 1 then mkDI (d_rows m) (d_cols m) else mkDI (di1 it + 1) (di2 it)
  else it.
(** operator* const, BaseMatrix.inl:43-53 *)
Definition di_get (m : mat) (it : dit) : res N :=
  if di_valid m it then d_at m (di1 it) (di2 it) else Ok n0.

(** for (it = first; it != end; ++it) s = f(it, s).  Fuel: size()+1, always enough (C21). *)
Fixpoint di_loop {St : Type} (fuel : nat) (m : mat) (inc : mat -> dit -> dit) (it : dit)
         (f : dit -> St -> res St) (s : St) : res St :=
  match fuel with
  | O => Hang
  | S k =>
      if negb (di_eq m it (d_end m)) then
        let* s1 := f it s in di_loop k m inc (inc m it) f s1
      else Ok s
  end.
Definition d_for {St : Type} (m : mat) (f : dit -> St -> res St) (s : St) : res St :=
  di_loop (S (d_size m)) m di_inc d_begin f s.
Definition d_for_row {St : Type} (m : mat) (i : nat) (f : dit -> St -> res St) (s : St) : res St :=
  let* it := d_row_begin m i in di_loop (S (d_cols m)) m dri_inc it f s.
Definition d_for_col {St : Type} (m : mat) (j : nat) (f : dit -> St -> res St) (s : St) : res St :=
  let* it := d_col_begin m j in di_loop (S (d_rows m)) m dci_inc it f s.
(** What a user loop sees. *)
Definition d_entries (m : mat) : res (list (nat * nat * N)) :=
  d_for m (fun it acc => let* v := di_get m it in Ok (acc ++ [(di1 it, di2 it, v)])) [].
Definition d_row_entries (m : mat) (i : nat) : res (list (nat * nat * N)) :=
  d_for_row m i (fun it acc => let* v := di_get m it in Ok (acc ++ [(di1 it, di2 it, v)])) [].
Definition d_col_entries (m : mat) (j : nat) : res (list (nat * nat * N)) :=
  d_for_col m j (fun it acc => let* v := di_get m it in Ok (acc ++ [(di1 it, di2 it, v)])) [].

(** set(it,val) / erase(it), BaseMatrix.inl:307-330: return the iterator unchanged *)
Definition d_set_it (m : mat) (it : dit) (v : N) : res (mat * dit) :=
  if (di1 it <? d_rows m) && (di2 it <? d_cols m)
  then let* m' := d_set m (di1 it) (di2 it) v in Ok (m', it) else Ok (m, it).
Definition d_erase (m : mat) (it : dit) : res (mat * dit) := d_set_it m it n0.

(** operator += -= *= (matrix), DenseMatrix.inl:60-95 and FixedMatrix.inl:41-74: only the sizes
    (rows*columns) are compared. *)
Definition d_combine_eq (op : N -> N -> N) (m w : mat) : res mat :=
  if negb (d_size m =? d_size w) then Throw MatrixSizeMismatch
  else
    let* c := for_ 0 (d_size m) (fun i c =>
      let* x := vget c i in
      let* y := d_linear_at w i in
      vset c i (op x y)) (dv m) in
    Ok (mkD c (dr m) (dc m)).
(** the same with the argument being this very object *)
Definition d_combine_self (op : N -> N -> N) (m : mat) : res mat :=
  let* c := for_ 0 (d_size m) (fun i c =>
      let* x := vget c i in
      let* y := d_linear_at (mkD c (dr m) (dc m)) i in
      vset c i (op x y)) (dv m) in
  Ok (mkD c (dr m) (dc m)).
Definition d_add_eq := d_combine_eq nadd.
Definition d_sub_eq := d_combine_eq nsub.
Definition d_hadamard_eq := d_combine_eq nmul.
(** operator *=(const T&), DenseMatrix.inl:98-104, FixedMatrix.inl:77-83 *)
Definition d_scale_eq (m : mat) (f : N) : res mat :=
  let* c := for_ 0 (d_size m) (fun i c => let* x := vget c i in vset c i (x * f)%num) (dv m) in
  Ok (mkD c (dr m) (dc m)).
(** the same when f refers to the stored element k (e.g. A *= *it with a non-const iterator) *)
Definition d_scale_alias (m : mat) (k : nat) : res mat :=
  let* c := for_ 0 (d_size m) (fun i c => let* x := vget c i in
                                          let* f := vget c k in vset c i (x * f)%num) (dv m) in
  Ok (mkD c (dr m) (dc m)).
(** free operators, DenseMatrix.inl:222-260, FixedMatrix.inl:192-230 *)
Definition d_add (a b : mat) : res mat := d_add_eq a b.
Definition d_sub (a b : mat) : res mat := d_sub_eq a b.
Definition d_hadamard (a b : mat) : res mat := d_hadamard_eq a b.
Definition d_scale (a : mat) (f : N) : res mat := d_scale_eq a f.
Definition d_neg (a : mat) : res mat := d_scale_eq a (- n1)%num.

(** swap, DenseMatrix.inl:107-112 (FixedMatrix.inl:86-89: same counts on both sides) *)
Definition d_swap (a b : mat) : mat * mat := (mkD (dv b) (dr b) (dc b), mkD (dv a) (dr a) (dc a)).

(** transpose / conjugate / adjugate, DenseMatrix.inl:115-157.  (FixedMatrix.inl:92-103 has the same
    transpose without the assertions of the constructor; its conjugate and adjugate call an
    undeclared conjugate_vt and cannot be instantiated.) *)
Definition d_transpose (m : mat) : res mat :=
  let* t := d_new (d_cols m) (d_rows m) in
  for_ 0 (d_cols m) (fun i t1 => for_ 0 (d_rows m) (fun j t2 =>
    let* x := d_at m j i in d_set t2 i j x) t1) t.
Definition d_fixed_transpose (m : mat) : res mat :=
  for_ 0 (d_cols m) (fun i t1 => for_ 0 (d_rows m) (fun j t2 =>
    let* x := d_at m j i in d_set t2 i j x) t1) (d_fixed_new (d_cols m) (d_rows m)).
Definition d_conjugate (m : mat) : res mat :=
  let* t := d_new (d_rows m) (d_cols m) in
  for_ 0 (d_rows m) (fun i t1 => for_ 0 (d_cols m) (fun j t2 =>
    let* x := d_at m i j in d_set t2 i j (nconj x)) t1) t.
Definition d_adjugate (m : mat) : res mat :=
  let* t := d_new (d_cols m) (d_rows m) in
  for_ 0 (d_cols m) (fun i t1 => for_ 0 (d_rows m) (fun j t2 =>
    let* x := d_at m j i in d_set t2 i j (nconj x)) t1) t.

(** mul(matrix), DenseMatrix.inl:160-180; FixedMatrix.inl:138-155 *)
Definition d_mul_into (a m t : mat) : res mat :=
  for_ 0 (d_rows a) (fun i t1 => for_ 0 (d_cols m) (fun k t2 =>
    let* v := for_ 0 (d_cols a) (fun j v => let* x := d_at a i j in
                                            let* y := d_at m j k in Ok (v + x * y)%num) n0 in
    d_set t2 i k v) t1) t.
Definition d_mul (a m : mat) : res mat :=
  if negb (d_cols a =? d_rows m) then Throw MatrixMulMismatch
  else let* t := d_new (d_rows a) (d_cols m) in d_mul_into a m t.
Definition d_fixed_mul (a m : mat) : res mat :=
  if negb (d_cols a =? d_rows m) then Throw MatrixMulMismatch
  else d_mul_into a m (d_fixed_new (d_rows a) (d_cols m)).

(** mul(vector) / mul_left(vector), DenseMatrix.inl:183-219; FixedMatrix.inl:158-189 *)
Definition d_mulv (m : mat) (v : list N) : res (list N) :=
  if negb (d_cols m =? v_size v) then Throw MatrixMulMismatch
  else for_ 0 (d_rows m) (fun i r =>
    let* t := for_ 0 (d_cols m) (fun j t => let* x := d_at m i j in
                                            let* y := v_at v j in Ok (t + x * y)%num) n0 in
    v_set r i t) (v_resize [] (d_rows m)).
Definition d_mulv_left (m : mat) (v : list N) : res (list N) :=
  if negb (d_rows m =? v_size v) then Throw MatrixMulMismatch
  else for_ 0 (d_cols m) (fun j r =>
    let* t := for_ 0 (d_rows m) (fun i t => let* x := d_at m i j in
                                            let* y := v_at v i in Ok (t + x * y)%num) n0 in
    v_set r j t) (v_resize [] (d_cols m)).

(** sum/max/min/avg/has_nan/has_inf/has_zero/empty, BaseMatrix.inl:351-438 *)
Definition d_sum (m : mat) : N := fold_left nadd (dv m) n0.
Definition d_max (m : mat) : N := fold_left (fun s l => if nltb s l then l else s) (dv m) nminpos.
Definition d_min (m : mat) : N := fold_left (fun s l => if nltb l s then l else s) (dv m) nmax.
Definition d_avg (m : mat) : N := (d_sum m / nofnat (d_size m))%num.
Definition d_has_nan (m : mat) : bool := existsb nisnan (dv m).
Definition d_has_inf (m : mat) : bool := existsb nisinf (dv m).
Definition d_has_zero (m : mat) : bool := existsb (fun l => neqb l n0) (dv m).
Definition d_empty (m : mat) : bool := negb (existsb (fun l => negb (neqb l n0)) (dv m)).

(** trace, BaseMatrix.inl:441-448 *)
Definition d_trace (m : mat) : res N :=
  for_ 0 (Nat.min (d_rows m) (d_cols m)) (fun i v => let* x := d_at m i i in Ok (v + x)%num) n0.

(** operator== / !=, BaseMatrix.inl:451-469 *)
Fixpoint d_eq_loop (n i : nat) (a b : mat) : res bool :=
  match n with
  | O => Ok true
  | S n' => let* x := d_linear_at a i in
            let* y := d_linear_at b i in
            if negb (neqb x y) then Ok false else d_eq_loop n' (S i) a b
  end.
Definition d_eq (a b : mat) : res bool :=
  if negb (d_rows a =? d_rows b) || negb (d_cols a =? d_cols b) then Throw MatrixSizeMismatch
  else d_eq_loop (d_size a) 0 a b.
Definition d_ne (a b : mat) : res bool := let* r := d_eq a b in Ok (negb r).
End DenseModel.
