(** Model of src/lib/matrix/MatrixOrder.inl. *)
From Coq Require Import List Arith Bool.
From Verif Require Import Base Num VectorModel SparseModel.
Import ListNotations.
Open Scope res_scope.

(** DynamicVector<Index>: construction, operator[], at and set, CountableSet.inl:30-55, Vector.inl:15-18,
    52-61 (all accesses assert the range) *)
Definition ivec : Type := list nat.
Definition i_new (n : nat) : ivec := repeat 0 n.
Definition i_at (v : ivec) (i : nat) : res nat := let* _ := assert_ (i <? length v) in vget v i.
Definition i_set (v : ivec) (i x : nat) : res ivec := let* _ := assert_ (i <? length v) in vset v i x.

(** std::multimap<Dimension,Index>: key-sorted list; insert goes after the entries with an equal key *)
Definition mmap : Type := list (nat * nat).
Fixpoint mm_insert (k v : nat) (l : mmap) : mmap :=
  match l with
  | [] => [(k, v)]
  | (k', v') :: t => if k <? k' then (k, v) :: l else (k', v') :: mm_insert k v t
  end.
(** find_pair, MatrixOrder.inl:7-16, followed by erase of the entry found (MatrixOrder.inl:65-69): the
    first entry equal to (k,v).  (Entries with key k are contiguous, so searching the equal_range and
    searching the whole list agree.) *)
Fixpoint mm_remove (k v : nat) (l : mmap) : option mmap :=
  match l with
  | [] => None
  | (k', v') :: t =>
      if (k' =? k) && (v' =? v) then Some t
      else match mm_remove k v t with Some t' => Some ((k', v') :: t') | None => None end
  end.

Section Order.
Context {N : Num}.

(** The adjacency list of row p ordered by degree, MatrixOrder.inl:46-55 and 71-80.  The loop body does
    not dereference the iterator; the model does, at a valid position. *)
Definition o_adj (m : smat N) (p : nat) : res mmap :=
  s_for_row m p (fun it adj =>
    let* _ := it_get m it in
    if negb (it2 it =? it1 it) then
      let* mc := s_row_filled m (it2 it) in
      Ok (if 0 <? mc then mm_insert mc (it2 it) adj else adj)
    else Ok adj) [].

(** State of the loops: R, currentIndex, Q, Rows. *)
Definition ost : Type := (ivec * nat * list nat * mmap)%type.

(** One pass of the inner loop, MatrixOrder.inl:61-84 *)
Definition o_step (m : smat N) (s : ost) : res ost :=
  let '(R, cur, Q, Rows) := s in
  match Q with
  | [] => Ok s
  | c :: Q' =>
      let* mc := s_row_filled m c in
      match mm_remove mc c Rows with
      | None => Ok (R, cur, Q', Rows)
      | Some Rows' =>
          let* R' := i_set R cur c in
          let* adj := o_adj m c in
          Ok (R', cur + 1, Q' ++ map snd adj, Rows')
      end
  end.
Definition q_nonempty (s : ost) : bool := let '(_, _, Q, _) := s in match Q with [] => false | _ => true end.
Definition rows_nonempty (s : ost) : bool := let '(_, _, _, Rows) := s in match Rows with [] => false | _ => true end.

(** One pass of the outer loop, MatrixOrder.inl:38-85; fuel of the inner while: rows^2+1 *)
Definition o_outer (m : smat N) (s : ost) : res ost :=
  let '(R, cur, Q, Rows) := s in
  match Rows with
  | [] => Ok s
  | (_, p) :: Rows' =>
      let* R' := i_set R cur p in
      let* adj := o_adj m p in
      while_ (S (s_rows m * s_rows m)) (fun s => Ok (q_nonempty s)) (o_step m)
        (R', cur + 1, Q ++ map snd adj, Rows')
  end.

(** cuthill_mckee, MatrixOrder.inl:18-90; fuel of the outer while: rows+1 *)
Definition cuthill (m : smat N) : res ivec :=
  if negb (s_rows m =? s_cols m) then Throw NotSquare
  else
    let* rows := for_ 0 (s_rows m) (fun i Rows =>
      let* mc := s_row_filled m i in
      Ok (if 0 <? mc then mm_insert mc i Rows else Rows)) [] in
    let* s := while_ (S (s_rows m)) (fun s => Ok (rows_nonempty s)) (o_outer m)
      (i_new (s_rows m), 0, [], rows) in
    let '(R, _, _, _) := s in Ok R.

(** r_cuthill_mckee, MatrixOrder.inl:92-106 *)
Definition i_reverse (v : ivec) : res ivec :=
  for_ 0 (Nat.div (length v) 2) (fun i v =>
    let* tmp := i_at v i in
    let* x := i_at v (length v - i - 1) in
    let* v1 := i_set v i x in
    i_set v1 (length v1 - i - 1) tmp) v.
Definition r_cuthill (m : smat N) : res ivec := let* v := cuthill m in i_reverse v.

(** permutation_matrix, MatrixOrder.inl:108-115 *)
Definition perm_matrix (p : ivec) : res (smat N) :=
  let* nm := s_new (length p) (length p) in
  for_ 0 (length p) (fun i nm => let* x := i_at p i in s_set nm i x n1) nm.

(** inverse_permutation, MatrixOrder.inl:117-124 *)
Definition inv_perm (p : ivec) : res ivec :=
  for_ 0 (length p) (fun i np => let* x := i_at p i in i_set np x i) (i_new (length p)).

(** permutate(matrix), MatrixOrder.inl:126-137 *)
Definition permutate (m : smat N) (p : ivec) : res (smat N) :=
  if negb (s_rows m =? s_cols m) then Throw NotSquare
  else if negb (s_rows m =? length p) then Throw MatrixMulMismatch
  else
    let* P := perm_matrix p in
    let* Pt := s_transpose P in
    let* X := s_mul m Pt in
    s_mul P X.

(** permutate(vector), MatrixOrder.inl:139-150 *)
Definition permutate_v (v : list N) (p : ivec) : res (list N) :=
  if negb (v_size v =? length p) then Throw VectorSizeMismatch
  else for_ 0 (v_size v) (fun i nm => let* k := i_at p i in let* x := v_at v i in v_set nm k x) (v_new (v_size v)).
End Order.
