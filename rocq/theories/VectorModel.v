(** Model of src/lib/CountableSet.inl and src/lib/Vector.inl.
    A vector (fixed or dynamic) is the list of its elements; [mData] is the list itself.
    A FixedVector<T,n> is a list of length n. *)
From Coq Require Import List Arith Bool.
From Verif Require Import Base Num.
Import ListNotations.
Open Scope res_scope.

Section VectorModel.
Context {N : Num}.
Notation vec := (list N).

(** CountableSet::size, CountableSet.inl:58-62 *)
Definition v_size (v : vec) : nat := length v.

(** CountableSet::linear_at / operator[] const, CountableSet.inl:30-41; Vector::at, Vector.inl:51-55 *)
Definition v_at (v : vec) (i : nat) : res N :=
  let* _ := assert_ (i <? v_size v) in vget v i.

(** CountableSet::linear_set / operator[], CountableSet.inl:43-55; Vector::set, Vector.inl:57-61 *)
Definition v_set (v : vec) (i : nat) (x : N) : res vec :=
  let* _ := assert_ (i <? v_size v) in vset v i x.

(** CountableSet::CountableSet(size) and CountableSet(), CountableSet.inl:7-22;
    Vector(size), Vector.inl:13-18: zero filled. *)
Definition v_new (n : nat) : vec := repeat n0 n.

(** The loop of both initializer-list constructors, Vector.inl:25-30 and 38-43. *)
Definition v_fill_from (l : list N) (v0 : vec) : res vec :=
  let* st := foreach l (fun x st => let '(i, v) := st in
                         let* v' := v_set v i x in Ok (S i, v')) (O, v0) in
  Ok (snd st).

(** Vector(initializer_list) for DynamicVector, Vector.inl:20-31 *)
Definition v_of_list_dyn (l : list N) : res vec := v_fill_from l (v_new (length l)).

(** Vector(initializer_list) for FixedVector<T,n>, Vector.inl:33-44 *)
Definition v_of_list_fixed (n : nat) (l : list N) : res vec := v_fill_from l (v_new n).

(** CountableSet::sum, CountableSet.inl:64-72 *)
Definition v_sum (v : vec) : res N :=
  for_ 0 (v_size v) (fun i s => let* x := vget v i in Ok (s + x)%num) n0.

(** CountableSet::max, CountableSet.inl:74-88, for real T: complex_abs is the identity
    (Types.h:78-82) and the start value is numeric_limits<T>::min(). *)
Definition v_max (v : vec) : res N :=
  for_ 0 (v_size v) (fun i s => let* d := vget v i in Ok (if nltb s d then d else s)) nminpos.

(** CountableSet::min, CountableSet.inl:90-104 *)
Definition v_min (v : vec) : res N :=
  for_ 0 (v_size v) (fun i s => let* d := vget v i in Ok (if nltb d s then d else s)) nmax.

(** CountableSet::avg, CountableSet.inl:106-110 *)
Definition v_avg (v : vec) : res N := let* s := v_sum v in Ok (s / nofnat (v_size v))%num.

(** CountableSet::do_reciprocal, CountableSet.inl:112-117 *)
Definition v_recip (v : vec) : res vec :=
  for_ 0 (v_size v) (fun i w => let* x := vget w i in vset w i (n1 / x)%num) v.

(** CountableSet::hasNaN / hasInf / hasZero, CountableSet.inl:119-153: linear search. *)
Fixpoint v_any (p : N -> bool) (v : vec) : bool :=
  match v with [] => false | x :: v' => if p x then true else v_any p v' end.
Definition v_hasNaN (v : vec) : bool := v_any nisnan v.
Definition v_hasInf (v : vec) : bool := v_any nisinf v.
Definition v_hasZero (v : vec) : bool := v_any (fun x => neqb x n0) v.

(** CountableSet::fill, CountableSet.inl:155-160 *)
Definition v_fill (v : vec) (f : N) : res vec :=
  for_ 0 (v_size v) (fun i w => vset w i f) v.

(** CountableSet::swap, CountableSet.inl:162-166 (returns both objects afterwards) *)
Definition v_swap (v w : vec) : vec * vec := (w, v).

(** CountableSet::resize = std::vector::resize, CountableSet.inl:168-174: keeps the prefix,
    value-initialises (zeroes) new elements. *)
Definition v_resize (v : vec) (n : nat) : vec := firstn n v ++ repeat n0 (n - length v).

(** CountableSetIterator, CountableSet.h:20-66: the loop
    for (it = begin(); it != end(); ++it) s = f( *it, s). Fuel: size+1. *)
Fixpoint v_iter_loop {S : Type} (fuel : nat) (v : vec) (pos : nat) (f : N -> S -> res S) (s : S)
  : res S :=
  match fuel with
  | O => Hang
  | Datatypes.S k =>
      (* it == end(): both invalid, or same position (CountableSet.h:35-38) *)
      let eq_end := (negb (pos <? v_size v) && negb (v_size v <? v_size v)) || (pos =? v_size v) in
      if eq_end then Ok s
      else
        let* _ := assert_ (pos <? v_size v) in
        let* x := v_at v pos in
        let* s1 := f x s in
        v_iter_loop k v (pos + 1) f s1
  end.
Definition v_iterate {S : Type} (v : vec) (f : N -> S -> res S) (s : S) : res S :=
  v_iter_loop (Datatypes.S (v_size v)) v 0 f s.

(** Vector::dot, Vector.inl:64-74 *)
Definition v_dot (v w : vec) : res N :=
  if negb (v_size v =? v_size w) then Throw VectorSizeMismatch
  else for_ 0 (v_size v) (fun i s => let* a := v_at v i in
                                     let* b := v_at w i in Ok (s + a * b)%num) n0.

(** Vector::magSqr, Vector.inl:82-86 *)
Definition v_magSqr (v : vec) : res N := v_dot v v.

(** Vector::mag, Vector.inl:76-80 *)
Definition v_mag (v : vec) : res N := let* s := v_magSqr v in Ok (nsqrt s).

(** The loop shape shared by the elementwise compound operators. *)
Definition v_inplace (op : N -> N -> N) (v w : vec) : res vec :=
  if negb (v_size v =? v_size w) then Throw VectorSizeMismatch
  else for_ 0 (v_size v) (fun i u => let* a := vget u i in
                                     let* b := v_at w i in vset u i (op a b)) v.

(** The same loop when the argument is the object itself (v op= v). *)
Definition v_inplace_self (op : N -> N -> N) (v : vec) : res vec :=
  for_ 0 (v_size v) (fun i u => let* a := vget u i in
                                let* b := v_at u i in vset u i (op a b)) v.

(** Vector::operator += -= *= /= (const Vector&), Vector.inl:147-157, 168-178, 189-199, 210-220 *)
Definition v_add_eq := v_inplace nadd.
Definition v_sub_eq := v_inplace nsub.
Definition v_mul_eq := v_inplace nmul.
Definition v_div_eq := v_inplace ndiv.

(** Vector::operator += -= *= (const T& f), Vector.inl:159-166, 180-187, 201-208, for an f that is
    not an element of this vector. *)
Definition v_scalar (op : N -> N -> N) (v : vec) (f : N) : res vec :=
  for_ 0 (v_size v) (fun i u => let* a := vget u i in vset u i (op a f)) v.

(** The same functions when f is a reference to element k of the vector itself:
    the value is read again in every iteration. *)
Definition v_scalar_alias (op : N -> N -> N) (v : vec) (k : nat) : res vec :=
  for_ 0 (v_size v) (fun i u => let* a := vget u i in
                                let* f := vget u k in vset u i (op a f)) v.

(** Vector::operator /=(const T& f), Vector.inl:222-230: multiplies by 1/f computed first. *)
Definition v_scalar_div (v : vec) (f : N) : res vec :=
  let invF := (n1 / f)%num in v_scalar nmul v invF.
(** with f a reference to element k *)
Definition v_scalar_div_alias (v : vec) (k : nat) : res vec :=
  let* f := vget v k in v_scalar_div v f.

(** Binary operators, Vector.inl:234-322 *)
Definition v_add (v w : vec) : res vec := v_add_eq v w.
Definition v_sub (v w : vec) : res vec := v_sub_eq v w.
Definition v_mul (v w : vec) : res vec := v_mul_eq v w.
Definition v_div (v w : vec) : res vec := v_div_eq v w.
Definition v_adds (v : vec) (f : N) : res vec := v_scalar nadd v f.
Definition v_subs (v : vec) (f : N) : res vec := v_scalar nsub v f.
Definition v_scale (v : vec) (f : N) : res vec := v_scalar nmul v f.
Definition v_divs (v : vec) (f : N) : res vec := v_scalar_div v f.
(** unary minus: tmp *= -1, Vector.inl:275-280 *)
Definition v_neg (v : vec) : res vec := v_scalar nmul v (- n1)%num.
(** f - v, Vector.inl:268-273 *)
Definition v_rsub (f : N) (v : vec) : res vec := let* t := v_neg v in v_scalar nadd t f.
(** f / v, Vector.inl:316-322 *)
Definition v_rdiv (f : N) (v : vec) : res vec := let* t := v_recip v in v_scalar nmul t f.

(** Vector::normalized, Vector.inl:88-92 *)
Definition v_normalized (v : vec) : res vec := let* m := v_mag v in v_divs v m.

(** Vector::left, Vector.inl:96-105; [tmp] is default constructed: size 0 for a DynamicVector,
    size n (zeros) for a FixedVector<T,n>. The parameter [n] is that size. *)
Definition v_left (n : nat) (v : vec) (i : nat) : res vec :=
  let* _ := assert_ (i <? v_size v) in
  for_ 0 (i + 1) (fun j t => let* x := v_at v j in v_set t j x) (v_new n).

(** Vector::right, Vector.inl:108-119 *)
Definition v_right (n : nat) (v : vec) (i : nat) : res vec :=
  let* _ := assert_ (i <? v_size v) in
  for_ i (v_size v) (fun j t => let* x := v_at v j in v_set t (j - i) x) (v_new n).

(** Vector::mid, Vector.inl:122-132; the loop condition i < end && i < size() is the bound
    min(end,size). *)
Definition v_mid (n : nat) (v : vec) (start stop : nat) : res vec :=
  let* _ := assert_ (start <? stop) in
  for_ start (Nat.min stop (v_size v)) (fun j t => let* x := v_at v j in v_set t (j - start) x)
       (v_new n).

(** Vector::has, Vector.inl:134-144 *)
Fixpoint v_has_loop (n i : nat) (v : vec) (x : N) : res bool :=
  match n with
  | O => Ok false
  | S n' => let* y := v_at v i in
            if neqb y x then Ok true else v_has_loop n' (S i) v x
  end.
Definition v_has (v : vec) (start stop : nat) (x : N) : res bool :=
  v_has_loop (Nat.min stop (v_size v) - start) start v x.

(** operator==, Vector.inl:325-338 *)
Fixpoint v_eq_loop (n i : nat) (v w : vec) : res bool :=
  match n with
  | O => Ok true
  | S n' => let* x := v_at v i in
            let* y := v_at w i in
            if negb (neqb x y) then Ok false else v_eq_loop n' (S i) v w
  end.
Definition v_eq (v w : vec) : res bool :=
  if negb (v_size v =? v_size w) then Throw VectorSizeMismatch
  else v_eq_loop (v_size v) 0 v w.
(** operator!=, Vector.inl:340-344 *)
Definition v_ne (v w : vec) : res bool := let* b := v_eq v w in Ok (negb b).
End VectorModel.

