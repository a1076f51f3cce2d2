(** Model of src/lib/matrix/SparseMatrix.h / SparseMatrix.inl (compressed row storage). *)
From Coq Require Import List Arith Bool.
From Verif Require Import Base Num VectorModel.
Import ListNotations.
Open Scope res_scope.

(** size_t subtraction; an underflow stops the model with [Wrap]. *)
Definition usub (a b : nat) : res nat := if b <=? a then Ok (a - b) else Wrap.

(** Private members of SparseMatrix<T>, SparseMatrix.h:216-223. *)
Record smat (N : Num) : Type := mkS {
  sv : list N;       (* mValues *)
  sc : list nat;     (* mColumnPtr *)
  srp : list nat;    (* mRowPtr *)
  scn : nat;         (* mColumnCount *)
  semp : N           (* mEmpty *)
}.
Arguments mkS {N} sv sc srp scn semp.
Arguments sv {N} s.
Arguments sc {N} s.
Arguments srp {N} s.
Arguments scn {N} s.
Arguments semp {N} s.

(** SparseMatrixIterator without its matrix pointer, SparseMatrix.h:118-122.  The post-increments SparseMatrix.inl:52-58,
    121-127, 176-182 copy the iterator and call the pre-increment. *)
Record sit : Type := mkI { it1 : nat; it2 : nat; itp : nat }.

Section SparseModel.
Context {N : Num}.

(** rows/columns/size/filled_count/empty, SparseMatrix.inl:703-725, 745-749 *)
Definition s_rows (m : smat N) : nat := length (srp m).
Definition s_cols (m : smat N) : nat := scn m.
Definition s_size (m : smat N) : nat := s_rows m * s_cols m.
Definition s_filled (m : smat N) : nat := length (sv m).
Definition s_empty (m : smat N) : bool := s_filled m =? 0.

(** SparseMatrix(), SparseMatrix.inl:185-190 *)
Definition s_default : smat N := mkS [] [] [] 0 n0.

(** SparseMatrix(d1,d2,expected), SparseMatrix.inl:192-205 (reserve has no observable effect) *)
Definition s_new (d1 d2 : nat) : res (smat N) :=
  let* _ := assert_ (0 <? d1) in
  let* _ := assert_ (0 <? d2) in
  Ok (mkS [] [] (repeat 0 d1) d2 n0).

(** resize, SparseMatrix.inl:233-239: asserts only *)
Definition s_resize (m : smat N) (d1 d2 : nat) : res (smat N) :=
  let* _ := assert_ (0 <? d1) in
  let* _ := assert_ (0 <? d2) in
  Ok m.

(** row_entry_count, SparseMatrix.inl:327-340: (count, rowPtr) *)
Definition s_row_entry_count (m : smat N) (i : nat) : res (nat * nat) :=
  if i <? s_rows m then
    let* p := vget (srp m) i in
    if negb (i =? s_rows m - 1) then
      let* q := vget (srp m) (i + 1) in
      let* c := usub q p in Ok (c, p)
    else
      let* c := usub (length (sc m)) p in Ok (c, p)
  else Ok (0, 0).

(** The needNear loop of internal_at, SparseMatrix.inl:256-260: returns (tmp_i1, s, rowPtr). *)
Fixpoint s_near (fuel : nat) (m : smat N) (t s p : nat) : res (nat * nat * nat) :=
  match fuel with
  | O => Hang
  | S k =>
      if (s =? 0) && (t <? s_rows m - 1) then
        let* (s', p') := s_row_entry_count m (t + 1) in
        s_near k m (t + 1) s' p'
      else Ok (t, s, p)
  end.

(** The search loop of internal_at, SparseMatrix.inl:264-277, over [n] remaining entries:
    (columnPtrIndex at exit, found). *)
Fixpoint s_search (n : nat) (m : smat N) (i2 idx : nat) : res (nat * bool) :=
  match n with
  | O => Ok (idx, false)
  | S n' =>
      let* ci := vget (sc m) idx in
      if ci =? i2 then Ok (idx, true)
      else if i2 <? ci then Ok (idx, false)
      else s_search n' m i2 (idx + 1)
  end.

(** internal_at, SparseMatrix.inl:244-287: (value, columnPtrIndex, found). *)
Definition s_internal_at (m : smat N) (i1 i2 : nat) (needNear : bool) : res (N * nat * bool) :=
  let not_found (idx : nat) : res (N * nat * bool) :=
    let* _ := assert_ (neqb (semp m) n0) in Ok (semp m, idx, false) in
  if negb (s_empty m) then
    let* (s, p) := s_row_entry_count m i1 in
    let* (t, s', p') := (if needNear then s_near (s_rows m) m i1 s p else Ok (i1, s, p)) in
    if t =? i1 then
      let* (idx, found) := s_search s' m i2 p' in
      if found then let* v := vget (sv m) idx in Ok (v, idx, true)
      else not_found idx
    else not_found p'
  else not_found 0.

(** remove_at, SparseMatrix.inl:289-304 *)
Definition s_dec_rows (rp : list nat) (from : nat) : res (list nat) :=
  for_ from (length rp) (fun k r => let* x := vget r k in
                                    let* y := usub x 1 in vset r k y) rp.
Definition s_remove_at (m : smat N) (i1 i2 : nat) : res (smat N) :=
  let* (_, idx, found) := s_internal_at m i1 i2 false in
  if (found : bool) then
    let* v' := verase (sv m) idx in
    let* c' := verase (sc m) idx in
    let* r' := s_dec_rows (srp m) (i1 + 1) in
    Ok (mkS v' c' r' (scn m) (semp m))
  else Ok m.

(** set_at, SparseMatrix.inl:306-325 *)
Definition s_inc_rows (rp : list nat) (from : nat) : res (list nat) :=
  for_ from (length rp) (fun k r => let* x := vget r k in vset r k (x + 1)) rp.
Definition s_set_at (m : smat N) (i1 i2 : nat) (v : N) : res (smat N) :=
  let* (_, idx, found) := s_internal_at m i1 i2 true in
  if (found : bool) then
    let* v' := vset (sv m) idx v in
    Ok (mkS v' (sc m) (srp m) (scn m) (semp m))
  else
    let* v' := vinsert (sv m) idx v in
    let* c' := vinsert (sc m) idx i2 in
    let* r' := s_inc_rows (srp m) (i1 + 1) in
    Ok (mkS v' c' r' (scn m) (semp m)).

(** at, SparseMatrix.inl:342-351 *)
Definition s_at (m : smat N) (i1 i2 : nat) : res N :=
  let* _ := assert_ (i1 <? s_rows m) in
  let* _ := assert_ (i2 <? s_cols m) in
  let* (v, _, _) := s_internal_at m i1 i2 false in Ok v.

(** set(i1,i2,t), SparseMatrix.inl:353-363 *)
Definition s_set (m : smat N) (i1 i2 : nat) (t : N) : res (smat N) :=
  let* _ := assert_ (i1 <? s_rows m) in
  let* _ := assert_ (i2 <? s_cols m) in
  if neqb t n0 then s_remove_at m i1 i2 else s_set_at m i1 i2 t.

(** linear_at / linear_set, SparseMatrix.inl:365-377 *)
Definition s_linear_at (m : smat N) (i : nat) : res N :=
  let* _ := assert_ (i <? s_size m) in s_at m (Nat.div i (s_cols m)) (Nat.modulo i (s_cols m)).
Definition s_linear_set (m : smat N) (i : nat) (v : N) : res (smat N) :=
  let* _ := assert_ (i <? s_size m) in
  s_set m (Nat.div i (s_cols m)) (Nat.modulo i (s_cols m)) v.

(** has(i1,i2) and has(i1,i2,val), SparseMatrix.inl:379-403 *)
Definition s_has (m : smat N) (i1 i2 : nat) : res bool :=
  let* _ := assert_ (i1 <? s_rows m) in
  let* _ := assert_ (i2 <? s_cols m) in
  let* (_, _, f) := s_internal_at m i1 i2 false in Ok f.
Definition s_has_val (m : smat N) (i1 i2 : nat) : res (bool * N) :=
  let* _ := assert_ (i1 <? s_rows m) in
  let* _ := assert_ (i2 <? s_cols m) in
  let* (v, _, f) := s_internal_at m i1 i2 false in Ok (f, v).

(** SparseMatrix(initializer_list), SparseMatrix.inl:207-226. std::max_element on the rows by
    size; an empty outer list dereferences end(): undefined. *)
Definition s_of_list (l : list (list N)) : res (smat N) :=
  match l with
  | [] => UB
  | _ =>
    let* m0 := s_new (length l) (list_max (map (@length N) l)) in
    let* st := foreach l (fun v st =>
        let '(i, m) := st in
        let* st2 := foreach v (fun w st2 =>
            let '(j, m2) := st2 in
            let* m3 := (if negb (neqb w n0) then s_set m2 i j w else Ok m2) in
            Ok (S j, m3)) (O, m) in
        Ok (S i, snd st2)) (O, m0) in
    Ok (snd st)
  end.

(** SparseMatrixIterator::isValid, SparseMatrix.h:55-61 *)
Definition it_valid (m : smat N) (it : sit) : bool := (it1 it <? s_rows m) && (it2 it <? s_cols m).

(** SparseMatrixIterator::operator==, SparseMatrix.h:69-73, both iterators on the same matrix *)
Definition it_eq (m : smat N) (a b : sit) : bool :=
  (negb (it_valid m a) && negb (it_valid m b)) || ((it1 a =? it1 b) && (it2 a =? it2 b)).

(** SparseMatrixIterator constructor, SparseMatrix.inl:8-18; also row/column iterators (88-92, 130-134) *)
Definition it_make (m : smat N) (i1 i2 : nat) : res sit :=
  if it_valid m (mkI i1 i2 0) then
    let* (_, idx, found) := s_internal_at m i1 i2 false in
    let* _ := assert_ found in Ok (mkI i1 i2 idx)
  else Ok (mkI i1 i2 0).

(** end / row_end / column_end, SparseMatrix.inl:425-429, 450-454, 462-466, 478-482, 494-510, 531-535, 555-571 (the c-variants
    call the others) *)
Definition s_end (m : smat N) : res sit := it_make m (s_rows m) (s_cols m).

(** The row search of operator++, SparseMatrix.inl:36-46, over [n] remaining rows from s1. *)
Fixpoint it_inc_row (n : nat) (m : smat N) (p s1 cur : nat) : res nat :=
  match n with
  | O => Ok cur
  | S n' =>
      let* r := vget (srp m) s1 in
      if r =? p then it_inc_row n' m p (s1 + 1) s1
      else if p <? r then Ok cur
      else it_inc_row n' m p (s1 + 1) cur
  end.

(** SparseMatrixIterator::operator++, SparseMatrix.inl:20-50 *)
Definition it_inc (m : smat N) (it : sit) : res sit :=
  if it_valid m it then
    let p := itp it + 1 in
    if length (sc m) <=? p then Ok (mkI (s_rows m) (s_cols m) p)
    else
      let* c := vget (sc m) p in
      let* r := it_inc_row (s_rows m - it1 it) m p (it1 it) (it1 it) in
      Ok (mkI r c p)
  else Ok it.

(** SparseMatrixRowIterator::operator++, SparseMatrix.inl:94-119 *)
Definition rit_inc (m : smat N) (it : sit) : res sit :=
  if it_valid m it then
    let p := itp it + 1 in
    if length (sc m) <=? p then Ok (mkI (s_rows m) (s_cols m) p)
    else
      let* c := vget (sc m) p in
      if negb (it1 it =? s_rows m - 1) then
        let* q := vget (srp m) (it1 it + 1) in
        if q <=? p then Ok (mkI (s_rows m) (s_cols m) p) else Ok (mkI (it1 it) c p)
      else Ok (mkI (it1 it) c p)
  else Ok it.

(** SparseMatrixColumnIterator::operator++, SparseMatrix.inl:136-174; [n] rows remain below. *)
Fixpoint cit_inc_loop (n : nat) (m : smat N) (i1 i2 p : nat) : res sit :=
  match n with
  | O => Hang
  | S n' =>
      let i1' := i1 + 1 in
      if s_rows m <=? i1' then Ok (mkI (s_rows m) (s_cols m) p)
      else
        let* (s, rp) := s_row_entry_count m i1' in
        let* (p', found) := s_search s m i2 rp in
        if (found : bool) then Ok (mkI i1' i2 p') else cit_inc_loop n' m i1' i2 p'
  end.
Definition cit_inc (m : smat N) (it : sit) : res sit :=
  if it_valid m it then cit_inc_loop (s_rows m - it1 it) m (it1 it) (it2 it) (itp it) else Ok it.

(** operator* , SparseMatrix.inl:60-85 (the reference version, whose value is read) *)
Definition it_get (m : smat N) (it : sit) : res N :=
  if it_valid m it then vget (sv m) (itp it)
  else let* _ := assert_ (neqb (semp m) n0) in Ok (semp m).
(** writing through the reference *)
Definition it_put (m : smat N) (it : sit) (x : N) : res (smat N) :=
  if it_valid m it then
    let* v' := vset (sv m) (itp it) x in Ok (mkS v' (sc m) (srp m) (scn m) (semp m))
  else let* _ := assert_ (neqb (semp m) n0) in Ok (mkS (sv m) (sc m) (srp m) (scn m) x).

(** The loop looking for the first non-empty row in begin(), SparseMatrix.inl:413-416 and 438-441:
    (row, rowPtr). *)
Fixpoint s_first_row (fuel : nat) (m : smat N) (row : nat) : res (nat * nat) :=
  match fuel with
  | O => Hang
  | S k =>
      let* (c, p) := s_row_entry_count m row in
      if (c =? 0) && negb (row =? s_rows m) then s_first_row k m (row + 1) else Ok (row, p)
  end.

(** begin() const / cbegin(), SparseMatrix.inl:406-423, 456-460: uses mColumnPtr.front() *)
Definition s_cbegin (m : smat N) : res sit :=
  if s_empty m then s_end m
  else
    let* (row, _) := s_first_row (s_rows m + 1) m 0 in
    if row =? s_rows m then s_end m
    else let* c := vget (sc m) 0 in it_make m row c.

(** begin(), SparseMatrix.inl:431-448 *)
Definition s_begin (m : smat N) : res sit :=
  if s_empty m then s_end m
  else
    let* (row, p) := s_first_row (s_rows m + 1) m 0 in
    if row =? s_rows m then s_end m
    else let* c := vget (sc m) p in it_make m row c.

(** row_begin, SparseMatrix.inl:468-476, 484-492 *)
Definition s_row_begin (m : smat N) (i : nat) : res sit :=
  if s_empty m then s_end m
  else
    let* (c, p) := s_row_entry_count m i in
    if c =? 0 then s_end m
    else let* cc := vget (sc m) p in it_make m i cc.

(** column_begin, SparseMatrix.inl:513-529, 537-553 *)
Fixpoint s_col_first (fuel : nat) (m : smat N) (j row : nat) : res nat :=
  match fuel with
  | O => Hang
  | S k =>
      let* h := s_has m row j in
      if negb h && negb (row =? s_rows m) then s_col_first k m j (row + 1) else Ok row
  end.
Definition s_col_begin (m : smat N) (j : nat) : res sit :=
  if s_empty m then s_end m
  else
    let* row := s_col_first (s_rows m + 1) m j 0 in
    if row =? s_rows m then s_end m else it_make m row j.

(** for (it = first; it != end; ++it) s = body(it, s), with the given increment.
    The matrix is not modified by the body. *)
Fixpoint it_loop {St : Type} (fuel : nat) (m : smat N) (inc : smat N -> sit -> res sit)
         (it : sit) (f : sit -> St -> res St) (s : St) : res St :=
  match fuel with
  | O => Hang
  | S k =>
      let* e := s_end m in
      if negb (it_eq m it e) then
        let* s1 := f it s in
        let* it' := inc m it in
        it_loop k m inc it' f s1
      else Ok s
  end.
(** Loops over the whole matrix, one row, one column. Fuel: filled_count+1 resp. rows+1. *)
Definition s_for {St : Type} (m : smat N) (f : sit -> St -> res St) (s : St) : res St :=
  let* it := s_cbegin m in it_loop (S (s_filled m)) m it_inc it f s.
Definition s_for_row {St : Type} (m : smat N) (i : nat) (f : sit -> St -> res St) (s : St) : res St :=
  let* it := s_row_begin m i in it_loop (S (s_filled m)) m rit_inc it f s.
Definition s_for_col {St : Type} (m : smat N) (j : nat) (f : sit -> St -> res St) (s : St) : res St :=
  let* it := s_col_begin m j in it_loop (S (s_rows m)) m cit_inc it f s.

(** What a user loop sees: the list of (row(), column(), value). *)
Definition s_entries (m : smat N) : res (list (nat * nat * N)) :=
  s_for m (fun it acc => let* v := it_get m it in Ok (acc ++ [(it1 it, it2 it, v)])) [].
Definition s_row_entries (m : smat N) (i : nat) : res (list (nat * nat * N)) :=
  s_for_row m i (fun it acc => let* v := it_get m it in Ok (acc ++ [(it1 it, it2 it, v)])) [].
Definition s_col_entries (m : smat N) (j : nat) : res (list (nat * nat * N)) :=
  s_for_col m j (fun it acc => let* v := it_get m it in Ok (acc ++ [(it1 it, it2 it, v)])) [].

(** row_filled_count / column_filled_count, SparseMatrix.inl:727-743 *)
Definition s_row_filled (m : smat N) (r : nat) : res nat := s_for_row m r (fun _ i => Ok (S i)) O.
Definition s_col_filled (m : smat N) (c : nat) : res nat := s_for_col m c (fun _ i => Ok (S i)) O.

(** erase(it), SparseMatrix.inl:596-641: (matrix, returned iterator) *)
Fixpoint erase_row (n : nat) (rp : list nat) (p s1 cur : nat) : res nat :=
  match n with
  | O => Ok cur
  | S n' =>
      let* r := vget rp s1 in
      if r =? p then Ok s1
      else if p <? r then Ok cur
      else erase_row n' rp p (s1 + 1) cur
  end.
Definition s_erase (m : smat N) (it : sit) : res (smat N * sit) :=
  if it_valid m it then
    let* v' := verase (sv m) (itp it) in
    let* c' := verase (sc m) (itp it) in
    let* r' := s_dec_rows (srp m) (it1 it + 1) in
    let m' := mkS v' c' r' (scn m) (semp m) in
    if length c' <=? itp it then Ok (m', mkI (s_rows m) (s_cols m) (itp it))
    else
      let* c := vget c' (itp it) in
      let* r := erase_row (s_rows m - it1 it) r' (itp it) (it1 it) (it1 it) in
      Ok (m', mkI r c (itp it))
  else Ok (m, it).

(** set(it,val), SparseMatrix.inl:574-594 *)
Definition s_set_it (m : smat N) (it : sit) (v : N) : res (smat N * sit) :=
  if it_valid m it then
    if neqb v n0 then s_erase m it
    else
      let* v' := vset (sv m) (itp it) v in
      Ok (mkS v' (sc m) (srp m) (scn m) (semp m), it)
  else Ok (m, it).

(** operator+= / -=, SparseMatrix.inl:644-660, argument distinct from this. (C++ leaves the order
    of the two reads in at(i,j) + *it open; neither has a side effect.) *)
Definition s_combine_eq (op : N -> N -> N) (m v2 : smat N) : res (smat N) :=
  s_for v2 (fun it a =>
    let* y := it_get v2 it in
    let* x := s_at a (it1 it) (it2 it) in
    s_set a (it1 it) (it2 it) (op x y)) m.
Definition s_add_eq := s_combine_eq nadd.
Definition s_sub_eq := s_combine_eq nsub.

(** the same loop when the argument is this very object: the iterated matrix is modified *)
Fixpoint s_combine_self_loop (fuel : nat) (op : N -> N -> N) (m : smat N) (it : sit) : res (smat N) :=
  match fuel with
  | O => Hang
  | S k =>
      let* e := s_end m in
      if negb (it_eq m it e) then
        let* x := s_at m (it1 it) (it2 it) in
        let* y := it_get m it in
        let* m' := s_set m (it1 it) (it2 it) (op x y) in
        let* it' := it_inc m' it in
        s_combine_self_loop k op m' it'
      else Ok m
  end.
Definition s_combine_self (op : N -> N -> N) (m : smat N) : res (smat N) :=
  let* it := s_cbegin m in s_combine_self_loop (S (s_filled m)) op m it.
Definition s_sub_self := s_combine_self nsub.
Definition s_add_self := s_combine_self nadd.

(** operator*=(const SparseMatrix&), SparseMatrix.inl:662-683. First loop: multiplies the entry
    (or mEmpty, when there is none) in place; second loop: erases what v2 does not have. *)
Definition s_had_mul (m v2 : smat N) : res (smat N) :=
  s_for v2 (fun it a =>
    let* y := it_get v2 it in
    let* (x, idx, found) := s_internal_at a (it1 it) (it2 it) false in
    if (found : bool) then
      let* v' := vset (sv a) idx (x * y)%num in Ok (mkS v' (sc a) (srp a) (scn a) (semp a))
    else Ok (mkS (sv a) (sc a) (srp a) (scn a) (x * y)%num)) m.
Fixpoint s_had_filter (fuel : nat) (v2 m : smat N) (it : sit) : res (smat N) :=
  match fuel with
  | O => Hang
  | S k =>
      let* e := s_end m in
      if negb (it_eq m it e) then
        let* h := s_has v2 (it1 it) (it2 it) in
        if negb h then
          let* (m', it') := s_erase m it in s_had_filter k v2 m' it'
        else
          let* it' := it_inc m it in s_had_filter k v2 m it'
      else Ok m
  end.
Definition s_hadamard_eq (m v2 : smat N) : res (smat N) :=
  let* m1 := s_had_mul m v2 in
  let* it := s_begin m1 in
  s_had_filter (S (s_filled m1)) v2 m1 it.

(** operator*=(const T&), SparseMatrix.inl:685-701 *)
Fixpoint s_scale_loop (fuel : nat) (f : N) (m : smat N) (it : sit) : res (smat N) :=
  match fuel with
  | O => Hang
  | S k =>
      let* e := s_end m in
      if negb (it_eq m it e) then
        let* x := it_get m it in
        let* m' := it_put m it (x * f)%num in
        let* it' := it_inc m' it in
        s_scale_loop k f m' it'
      else Ok m
  end.
Definition s_scale_eq (m : smat N) (f : N) : res (smat N) :=
  if neqb f n0 then Ok (mkS [] [] (map (fun _ => 0) (srp m)) (scn m) (semp m))
  else let* it := s_begin m in s_scale_loop (S (s_filled m)) f m it.

(** sum, SparseMatrix.inl:751-759 *)
Definition s_sum (m : smat N) : N := fold_left nadd (sv m) n0.
(** max, SparseMatrix.inl:761-775 *)
Definition s_max (m : smat N) : N :=
  let s := fold_left (fun s l => if nltb s l then l else s) (sv m) nminpos in
  if negb (s_filled m =? s_size m) && nltb s n0 then n0 else s.
(** min, SparseMatrix.inl:777-791 *)
Definition s_min (m : smat N) : N :=
  let s := fold_left (fun s l => if nltb l s then l else s) (sv m) nmax in
  if negb (s_filled m =? s_size m) && nltb n0 s then n0 else s.
(** avg, SparseMatrix.inl:793-797 *)
Definition s_avg (m : smat N) : N := (s_sum m / nofnat (s_size m))%num.
(** has_nan / has_inf / has_zero, SparseMatrix.inl:799-827 *)
Definition s_has_nan (m : smat N) : bool := existsb nisnan (sv m).
Definition s_has_inf (m : smat N) : bool := existsb nisinf (sv m).
Definition s_has_zero (m : smat N) : bool := negb (s_filled m =? s_size m).

(** swap, SparseMatrix.inl:829-835: mColumnCount (and mEmpty) stay *)
Definition s_swap (a b : smat N) : smat N * smat N :=
  (mkS (sv b) (sc b) (srp b) (scn a) (semp a), mkS (sv a) (sc a) (srp a) (scn b) (semp b)).

(** transpose / conjugate / adjugate, SparseMatrix.inl:837-868 *)
Definition s_transpose (m : smat N) : res (smat N) :=
  let* t := s_new (s_cols m) (s_rows m) in
  s_for m (fun it a => let* v := it_get m it in s_set a (it2 it) (it1 it) v) t.
Definition s_conjugate (m : smat N) : res (smat N) :=
  let* t := s_new (s_rows m) (s_cols m) in
  s_for m (fun it a => let* v := it_get m it in s_set a (it1 it) (it2 it) (nconj v)) t.
Definition s_adjugate (m : smat N) : res (smat N) :=
  let* t := s_new (s_cols m) (s_rows m) in
  s_for m (fun it a => let* v := it_get m it in s_set a (it2 it) (it1 it) (nconj v)) t.

(** trace, SparseMatrix.inl:870-878 *)
Definition s_trace (m : smat N) : res N :=
  for_ 0 (Nat.min (s_rows m) (s_cols m)) (fun i v => let* x := s_at m i i in Ok (v + x)%num) n0.

(** mul(const SparseMatrix&), SparseMatrix.inl:881-900 *)
Definition s_mul (a m : smat N) : res (smat N) :=
  if negb (s_cols a =? s_rows m) then Throw MatrixMulMismatch
  else
    let* t := s_new (s_rows a) (s_cols m) in
    for_ 0 (s_rows a) (fun i t1 =>
      for_ 0 (s_cols m) (fun k t2 =>
        let* v := s_for_row a i (fun it v => let* x := it_get a it in
                                             let* y := s_at m (it2 it) k in Ok (v + x * y)%num) n0 in
        s_set t2 i k v) t1) t.

(** mul(const Vector&), SparseMatrix.inl:902-916 *)
Definition s_mulv (m : smat N) (v : list N) : res (list N) :=
  if negb (s_cols m =? v_size v) then Throw MatrixMulMismatch
  else
    s_for m (fun it r =>
      let* x := it_get m it in
      let* a := v_at r (it1 it) in
      let* y := v_at v (it2 it) in
      v_set r (it1 it) (a + x * y)%num) (v_resize [] (s_rows m)).

(** mul_left(const Vector&), SparseMatrix.inl:918-932 *)
Definition s_mulv_left (m : smat N) (v : list N) : res (list N) :=
  if negb (s_rows m =? v_size v) then Throw MatrixMulMismatch
  else
    s_for m (fun it r =>
      let* x := it_get m it in
      let* a := v_at r (it2 it) in
      let* y := v_at v (it1 it) in
      v_set r (it2 it) (a + x * y)%num) (v_resize [] (s_cols m)).

(** free operators, SparseMatrix.inl:934-973: copy, then the compound operator *)
Definition s_add (a b : smat N) : res (smat N) := s_add_eq a b.
Definition s_sub (a b : smat N) : res (smat N) := s_sub_eq a b.
Definition s_neg (a : smat N) : res (smat N) := s_scale_eq a (- n1)%num.
Definition s_hadamard (a b : smat N) : res (smat N) := s_hadamard_eq a b.
Definition s_scale (a : smat N) (f : N) : res (smat N) := s_scale_eq a f.

(** operator==, SparseMatrix.inl:975-996 *)
Fixpoint s_eq_loop (fuel : nat) (a b : smat N) (i j : sit) : res bool :=
  match fuel with
  | O => Hang
  | S k =>
      let* ea := s_end a in
      let* eb := s_end b in
      if negb (it_eq a i ea) && negb (it_eq b j eb) then
        let* x := it_get a i in
        let* y := it_get b j in
        if negb (it1 i =? it1 j) || negb (it2 i =? it2 j) || negb (neqb x y) then Ok false
        else
          let* i' := it_inc a i in
          let* j' := it_inc b j in
          s_eq_loop k a b i' j'
      else
        if negb (it_eq a i ea) || negb (it_eq b j eb) then Ok false else Ok true
  end.
Definition s_eq (a b : smat N) : res bool :=
  if negb (s_rows a =? s_rows b) || negb (s_cols a =? s_cols b) || negb (s_filled a =? s_filled b)
  then Ok false
  else
    let* i := s_cbegin a in
    let* j := s_cbegin b in
    s_eq_loop (S (s_filled a)) a b i j.
(** operator!=, SparseMatrix.inl:998-1002 *)
Definition s_ne (a b : smat N) : res bool := let* r := s_eq a b in Ok (negb r).

End SparseModel.
