(** Properties C01-C17 of SparseMatrix.  Vocabulary: Spec.v and SparseSpec.v.
    [N] ranges over number types; [ZeroLaws] holds of IEEE doubles and of every exact field. *)
From Coq Require Import List Arith Bool ZArith QArith Qcanon.
From Coq.Floats Require Import SpecFloat.
From Verif Require Import Base Num NumInst Spec SpecProofs VectorModel SparseModel SparseSpec
  SparseFacts SparseFacts2 SparsePropProofs ExampleBase.
Import ListNotations.
Local Open Scope nat_scope.
Open Scope res_scope.

(** ** Example data *)
Lemma of_list_built {N : Num} (l : list (list N)) :
  is_ok (s_of_list l) = true -> built (get s_default (s_of_list l)).
Proof. intros H. apply (b_list l). destruct (s_of_list l); try discriminate. reflexivity. Qed.
(** [[0,2,0],[0,0,0],[-3,0,5]] as doubles *)
Definition exA : smat NumF64 :=
  get s_default (s_of_list [[fz 0; fz 2; fz 0]; []; [fz (-3); fz 0; fz 5]]).
Example exA_built : built exA.
Proof. apply of_list_built. vm_compute. reflexivity. Qed.

(** ** C01: reads return the last write *)
Theorem C01_sparse_history (N : Num) (HZ : ZeroLaws N) :
  forall d1 d2 (m0 : smat N) ops, s_new d1 d2 = Ok m0 -> Forall (in_range d1 d2) ops ->
  exists m, run m0 ops = Ok m /\ s_rows m = d1 /\ s_cols m = d2 /\
  forall i j, i < d1 -> j < d2 ->
    s_at m i j = Ok (norm0 (last_write d2 ops i j n0)) /\
    s_has m i j = Ok (negb (is0 (last_write d2 ops i j n0))).
Proof. exact (history_new N HZ). Qed.

Theorem C01_sparse_history_any_start (N : Num) (HZ : ZeroLaws N) :
  forall d1 d2 a (m0 : smat N) ops, built m0 -> reads m0 d1 d2 a -> Forall (in_range d1 d2) ops ->
  exists m, run m0 ops = Ok m /\ built m /\
    reads m d1 d2 (fun i j => norm0 (last_write d2 ops i j (a i j))) /\
    forall i j, i < d1 -> j < d2 -> s_has m i j = Ok (negb (is0 (last_write d2 ops i j (a i j)))).
Proof. exact (history_any N HZ). Qed.

Theorem C01_sparse_every_built_matrix_reads (N : Num) (HZ : ZeroLaws N) :
  forall m : smat N, built m -> exists a, reads m (s_rows m) (s_cols m) a.
Proof. exact (built_reads N HZ). Qed.

Theorem C01_sparse_out_of_range (N : Num) :
  forall (m : smat N) i j k v,
  (s_rows m <= i \/ s_cols m <= j -> s_at m i j = Abort /\ s_has m i j = Abort /\ s_set m i j v = Abort) /\
  (s_rows m * s_cols m <= k -> s_linear_at m k = Abort /\ s_linear_set m k v = Abort).
Proof. exact (out_of_range N). Qed.

(** has(i,j,val) answers like has(i,j) and hands out the value at(i,j) returns. *)
Theorem C01_sparse_has_val (N : Num) (HZ : ZeroLaws N) :
  forall d1 d2 a (m : smat N) i j, built m -> reads m d1 d2 a ->
  (i < d1 -> j < d2 -> s_has_val m i j = Ok (negb (is0 (a i j)), a i j)) /\
  (d1 <= i \/ d2 <= j -> s_has_val m i j = Abort).
Proof. exact (has_val_ok N HZ). Qed.

Example C01_example :
  let ops := [WSet 1 2 (fz 7); WLin 5 (fz 4); WSet 0 0 (fz 1); WSet 0 0 (fz 0)] in
  Forall (in_range 2 3) ops /\
  exists m0, @s_new NumF64 2 3 = Ok m0 /\
  (let* m := run m0 ops in s_at m 1 2) = Ok (fz 4) /\ (let* m := run m0 ops in s_has m 0 0) = Ok false /\
  (let* m := run m0 ops in s_has_val m 1 2) = Ok (true, fz 4).
Proof. split; [repeat constructor|]. eexists. split; [reflexivity|]. split; [|split]; vm_compute; reflexivity. Qed.

(** ** C02: counts *)
Theorem C02_sparse_counts (N : Num) (HZ : ZeroLaws N) :
  forall d1 d2 a (m : smat N), built m -> reads m d1 d2 a ->
  s_filled m = length (nonzeros d1 d2 a) /\
  (s_has_zero m = true <-> exists i j, i < d1 /\ j < d2 /\ is0 (a i j) = true) /\
  (s_empty m = true <-> forall i j, i < d1 -> j < d2 -> is0 (a i j) = true) /\
  (forall i, i < d1 -> s_row_filled m i = Ok (length (filter (fun j => negb (is0 (a i j))) (seq 0 d2)))) /\
  (forall i, d1 <= i -> s_row_filled m i = Ok 0) /\
  s_size m = d1 * d2.
Proof. exact (counts N HZ). Qed.

(** NaN and infinity tests look at exactly the entries. *)
Theorem C02_sparse_nan_inf (N : Num) (HZ : ZeroLaws N) :
  @nisnan N n0 = false -> @nisinf N n0 = false ->
  forall d1 d2 a (m : smat N), built m -> reads m d1 d2 a ->
  (s_has_nan m = true <-> exists i j, i < d1 /\ j < d2 /\ nisnan (a i j) = true) /\
  (s_has_inf m = true <-> exists i j, i < d1 /\ j < d2 /\ nisinf (a i j) = true).
Proof. exact (nan_inf N HZ). Qed.

(** The count is not exact any more once a product underflows: scaling keeps the entry, now 0. *)
Theorem C02_counts_after_underflow_refuted :
  exists (A : smat NumF64) f m x, built A /\ s_scale A f = Ok m /\
    s_at m 0 0 = Ok x /\ is0 x = true /\ s_rows m = 1 /\ s_cols m = 1 /\ s_filled m = 1 /\ s_has_zero m = false.
Proof.
  exists (get s_default (s_of_list [[@nminpos NumF64]])), (@nminpos NumF64).
  eexists. exists (S754_zero false : NumF64). split; [apply of_list_built; vm_compute; reflexivity|].
  split; [apply (ok_get s_default); vm_compute; reflexivity|]. repeat split; vm_compute; reflexivity.
Qed.

Example C02_example : s_filled exA = 3 /\ s_row_filled exA 1 = Ok 0 /\ s_row_filled exA 2 = Ok 2.
Proof. repeat split; vm_compute; reflexivity. Qed.

(** ** C03: whole-matrix iteration *)
Theorem C03_sparse_iteration (N : Num) (HZ : ZeroLaws N) :
  forall d1 d2 a (m : smat N), built m -> reads m d1 d2 a ->
  s_entries m = Ok (map (with_value a) (nonzeros d1 d2 a)) /\ s_begin m = s_cbegin m.
Proof. exact (iteration N HZ). Qed.

(** Whatever the loop body does with row(), column() and value, it is run on exactly these. *)
Theorem C03_sparse_for_loop (N : Num) (HZ : ZeroLaws N) :
  forall d1 d2 a (m : smat N), built m -> reads m d1 d2 a ->
  forall St (body : nat -> nat -> N -> St -> res St) s,
  s_for m (fun it s => let* v := it_get m it in body (it1 it) (it2 it) v s) s
  = foreach (nonzeros d1 d2 a) (fun p s => body (fst p) (snd p) (a (fst p) (snd p)) s) s.
Proof. exact (for_loop N HZ). Qed.

Example C03_example : s_entries exA = Ok [(0, 1, fz 2); (2, 0, fz (-3)); (2, 2, fz 5)].
Proof. vm_compute. reflexivity. Qed.

(** ** C04: rows and columns *)
Theorem C04_sparse_row_iteration (N : Num) (HZ : ZeroLaws N) :
  forall d1 d2 a (m : smat N) i, built m -> reads m d1 d2 a -> i < d1 ->
  s_row_entries m i = Ok (map (fun j => (i, j, a i j)) (filter (fun j => negb (is0 (a i j))) (seq 0 d2))).
Proof. exact (row_iteration N HZ). Qed.

(** Columns that hold an entry (or any column of an all-zero matrix). *)
Theorem C04_sparse_column_iteration_partial (N : Num) (HZ : ZeroLaws N) :
  forall d1 d2 a (m : smat N) j, built m -> reads m d1 d2 a -> j < d2 ->
  (exists i, i < d1 /\ is0 (a i j) = false) \/ (forall i k, i < d1 -> k < d2 -> is0 (a i k) = true) ->
  s_col_entries m j = Ok (map (fun i => (i, j, a i j)) (filter (fun i => negb (is0 (a i j))) (seq 0 d1))) /\
  s_col_filled m j = Ok (length (filter (fun i => negb (is0 (a i j))) (seq 0 d1))).
Proof. exact (col_iteration N HZ). Qed.

(** In the remaining case, an all-zero column of a matrix with entries, column_begin aborts. *)
Theorem C04_sparse_empty_column_aborts (N : Num) (HZ : ZeroLaws N) :
  forall d1 d2 a (m : smat N) j, built m -> reads m d1 d2 a -> j < d2 ->
  (forall i, i < d1 -> is0 (a i j) = true) -> (exists i k, i < d1 /\ k < d2 /\ is0 (a i k) = false) ->
  s_col_entries m j = Abort.
Proof. exact (col_abort N HZ). Qed.

Theorem C04_sparse_column_iteration_refuted :
  exists (m : smat NumF64) j, built m /\ j < s_cols m /\ s_col_entries m j = Abort /\ s_col_filled m j = Abort.
Proof.
  exists (get s_default (s_of_list [[fz 0; fz 1]; [fz 0; fz 2]])), 0%nat.
  split; [apply of_list_built; vm_compute; reflexivity|]. repeat split; vm_compute; auto.
Qed.

Example C04_example : s_row_entries exA 2 = Ok [(2, 0, fz (-3)); (2, 2, fz 5)] /\ s_row_entries exA 1 = Ok [] /\
  s_col_entries exA 0 = Ok [(2, 0, fz (-3))].
Proof. repeat split; vm_compute; reflexivity. Qed.

(** ** C05: addition and subtraction *)
Theorem C05_sparse_add (N : Num) (HZ : ZeroLaws N) :
  forall d1 d2 a b (A B : smat N), built A -> built B -> reads A d1 d2 a -> reads B d1 d2 b ->
  exists C, s_add A B = Ok C /\ s_add_eq A B = Ok C /\ built C /\ reads C d1 d2 (fun i j => norm0 (a i j + b i j)%num).
Proof. exact (add_entrywise N HZ). Qed.

Theorem C05_sparse_sub (N : Num) (HZ : ZeroLaws N) :
  forall d1 d2 a b (A B : smat N), built A -> built B -> reads A d1 d2 a -> reads B d1 d2 b ->
  exists C, s_sub A B = Ok C /\ s_sub_eq A B = Ok C /\ built C /\ reads C d1 d2 (fun i j => norm0 (a i j - b i j)%num).
Proof. exact (sub_entrywise N HZ). Qed.

(** A += A, the argument being the object itself; x+x must not be 0 for x != 0 (true of doubles). *)
Theorem C05_sparse_add_self (N : Num) (HZ : ZeroLaws N) :
  nadd (@n0 N) n0 = n0 -> (forall x : N, is0 x = false -> is0 (x + x)%num = false) ->
  forall d1 d2 a (A : smat N), built A -> reads A d1 d2 a ->
  exists C, s_add_self A = Ok C /\ reads C d1 d2 (fun i j => (a i j + a i j)%num) /\
            s_filled C = length (nonzeros d1 d2 a).
Proof. exact (add_self N HZ). Qed.

(** A -= A does not yield 0. *)
Theorem C05_sparse_sub_self_refuted :
  exists (A C : smat NumF64), built A /\ s_sub_self A = Ok C /\ s_at C 0 1 = Ok (fz 2).
Proof.
  exists (get s_default (s_of_list [[fz 1; fz 2]])). eexists.
  split; [apply of_list_built; vm_compute; reflexivity|].
  split; [apply (ok_get s_default); vm_compute; reflexivity|]. vm_compute; reflexivity.
Qed.

Example C05_example :
  exists C, s_add exA exA = Ok C /\ s_at C 2 0 = Ok (fz (-6)) /\ s_at C 1 1 = Ok (fz 0).
Proof. eexists. split; [apply (ok_get s_default); vm_compute; reflexivity|]. split; vm_compute; reflexivity. Qed.

(** ** C06: elementwise product.  Correct when every entry (i,j) of A that B does not have is followed
    by another entry of A in its row, or is in the last row with entries, or is preceded by an entry
    of its row that stays and row i+1 has entries (otherwise erase() returns a wrong row, see C08). *)
Theorem C06_sparse_hadamard_partial (N : Num) (HF : FieldLaws N) :
  forall d1 d2 a b (A B : smat N), built A -> built B -> reads A d1 d2 a -> reads B d1 d2 b ->
  (forall i j, i < d1 -> j < d2 -> a i j <> n0 -> b i j = n0 ->
     (exists j', j < j' /\ j' < d2 /\ a i j' <> n0) \/
     (forall i' j', i < i' -> i' < d1 -> j' < d2 -> a i' j' = n0) \/
     ((exists j', S i < d1 /\ j' < d2 /\ a (S i) j' <> n0) /\
      exists j', j' < j /\ a i j' <> n0 /\ b i j' <> n0)) ->
  exists C, s_hadamard_eq A B = Ok C /\ s_hadamard A B = Ok C /\ reads C d1 d2 (fun i j => (a i j * b i j)%num).
Proof. exact (hadamard_field N HF). Qed.

(** The same for any number type; the guard on B excludes values (infinities, NaN, negative
    doubles) whose product with 0 is not 0. *)
Theorem C06_sparse_hadamard_general_partial (N : Num) (HZ : ZeroLaws N) :
  forall d1 d2 a b (A B : smat N), built A -> built B -> reads A d1 d2 a -> reads B d1 d2 b ->
  (forall i j, i < d1 -> j < d2 -> (n0 * b i j)%num = n0) ->
  (forall i j, i < d1 -> j < d2 -> is0 (a i j) = false -> is0 (b i j) = true ->
     (exists j', j < j' /\ j' < d2 /\ is0 (a i j') = false) \/
     (forall i' j', i < i' -> i' < d1 -> j' < d2 -> is0 (a i' j') = true) \/
     ((exists j', S i < d1 /\ j' < d2 /\ is0 (a (S i) j') = false) /\
      exists j', j' < j /\ is0 (a i j') = false /\ is0 (b i j') = false)) ->
  exists C, s_hadamard_eq A B = Ok C /\
    reads C d1 d2 (fun i j => if is0 (a i j) || is0 (b i j) then n0 else (a i j * b i j)%num).
Proof. exact (hadamard_general N HZ). Qed.

Theorem C06_sparse_hadamard_wrong_value_refuted :
  exists (A B C : smat NumF64), built A /\ built B /\ s_rows A = s_rows B /\ s_cols A = s_cols B /\
    s_hadamard_eq A B = Ok C /\ s_at B 1 1 = Ok n0 /\ s_at C 1 1 = Ok (fz 1).
Proof.
  exists (get s_default (s_of_list [[fz 1; fz 0]; [fz 0; fz 1]])), (get s_default (s_of_list [[fz 0; fz 1]; [fz 0; fz 0]])).
  eexists. split; [apply of_list_built; vm_compute; reflexivity|]. split; [apply of_list_built; vm_compute; reflexivity|].
  split; [vm_compute; reflexivity|]. split; [vm_compute; reflexivity|].
  split; [apply (ok_get s_default); vm_compute; reflexivity|]. split; vm_compute; reflexivity.
Qed.
Theorem C06_sparse_hadamard_corrupts_refuted :
  exists (A B : smat NumF64), built A /\ built B /\ s_rows A = s_rows B /\ s_cols A = s_cols B /\
    match s_hadamard_eq A B with Wrap => true | _ => false end = true.
Proof.
  exists (get s_default (s_of_list [[fz 1; fz 0]; [fz 0; fz 1]])), (get s_default (s_of_list [[fz 0; fz 0]; [fz 0; fz 1]])).
  split; [apply of_list_built; vm_compute; reflexivity|]. split; [apply of_list_built; vm_compute; reflexivity|].
  repeat split; vm_compute; reflexivity.
Qed.
(** A non-finite entry of B where A has none makes every unstored entry unreadable. *)
Theorem C06_sparse_hadamard_nonfinite_refuted :
  exists (A B : smat NumF64) C, built A /\ built B /\ s_rows A = s_rows B /\ s_cols A = s_cols B /\
    s_hadamard_eq A B = Ok C /\ s_at C 0 1 = Abort.
Proof.
  exists (get s_default (s_of_list [[fz 1; fz 0]])), (get s_default (s_of_list [[fz 1; S754_infinity false : NumF64]])).
  eexists. split; [apply of_list_built; vm_compute; reflexivity|]. split; [apply of_list_built; vm_compute; reflexivity|].
  split; [vm_compute; reflexivity|]. split; [vm_compute; reflexivity|].
  split; [apply (ok_get s_default); vm_compute; reflexivity|]. vm_compute. reflexivity.
Qed.

(** The guard covers erasing the last entry of a row and of the matrix. *)
Example C06_example_erases_last :
  let A := get s_default (s_of_list [[qz 1; qz 2]; [qz 3; qz 4]]) in
  let B := get s_default (s_of_list [[qz 5; qz 0]; [qz 6; qz 0]]) in
  built A /\ built B /\
  (let* C := s_hadamard_eq A B in let* e := s_entries C in Ok (map (fun t => (fst t, Qcanon.this (snd t))) e))
  = Ok [(0, 0, inject_Z 5); (1, 0, inject_Z 18)].
Proof.
  cbv zeta. split; [apply of_list_built; vm_compute; reflexivity|]. split; [apply of_list_built; vm_compute; reflexivity|].
  vm_compute; reflexivity.
Qed.

Example C06_example :
  let A := get s_default (s_of_list [[qz 1; qz 2]; [qz 3; qz 4]]) in
  let B := get s_default (s_of_list [[qz 0; qz 5]; [qz 6; qz 7]]) in
  built A /\ built B /\ (let* C := s_hadamard_eq A B in s_at C 0 0) = Ok (qz 0) /\ (let* C := s_hadamard_eq A B in s_at C 1 1) = Ok (qz 28).
Proof.
  cbv zeta. split; [apply of_list_built; vm_compute; reflexivity|]. split; [apply of_list_built; vm_compute; reflexivity|].
  split; vm_compute; reflexivity.
Qed.

(** ** C07: scaling *)
Theorem C07_sparse_scale (N : Num) (HZ : ZeroLaws N) :
  forall d1 d2 a (A : smat N) f, built A -> reads A d1 d2 a ->
  exists C, s_scale A f = Ok C /\ s_scale_eq A f = Ok C /\
    reads C d1 d2 (fun i j => if is0 f || is0 (a i j) then n0 else (a i j * f)%num) /\
    (is0 f = true -> s_filled C = 0).
Proof. exact (scale_entrywise N HZ). Qed.

Theorem C07_sparse_scale_exact (N : Num) (HF : FieldLaws N) :
  forall d1 d2 a (A : smat N) f, built A -> reads A d1 d2 a ->
  (exists C, s_scale A f = Ok C /\ built C /\ reads C d1 d2 (fun i j => (a i j * f)%num)) /\
  (exists C, s_neg A = Ok C /\ built C /\ reads C d1 d2 (fun i j => (- a i j)%num)).
Proof. exact (scale_field N HF). Qed.

Example C07_example : (let* C := s_scale exA (fz 2) in s_at C 2 2) = Ok (fz 10) /\
  (let* C := s_neg exA in s_at C 2 0) = Ok (fz 3).
Proof. split; vm_compute; reflexivity. Qed.

(** ** C08: erasing and writing through an iterator *)
Theorem C08_sparse_erase (N : Num) (HZ : ZeroLaws N) :
  forall d1 d2 a (m : smat N) it, built m -> reads m d1 d2 a -> walks m it -> ~ at_end m it ->
  exists m' it', s_erase m it = Ok (m', it') /\ built m' /\
    reads m' d1 d2 (fun i j => if (i =? it1 it) && (j =? it2 it) then n0 else a i j).
Proof. exact (erase_entry N HZ). Qed.

Theorem C08_sparse_erase_next_partial (N : Num) (HZ : ZeroLaws N) :
  forall d1 d2 a (m : smat N) it, built m -> reads m d1 d2 a -> walks m it -> ~ at_end m it ->
  exists m' it', s_erase m it = Ok (m', it') /\
  match after (it1 it, it2 it) (nonzeros d1 d2 a) with
  | None => at_end m' it'
  | Some (x, y) => it2 it' = y /\ it_get m' it' = Ok (a x y) /\ it1 it' <= x /\
      (x = it1 it -> it1 it' = x) /\
      (x = it1 it + 1 -> (exists y', y' < it2 it /\ is0 (a (it1 it) y') = false) -> it1 it' = x)
  end.
Proof. exact (erase_next N HZ). Qed.

(** row() of the returned iterator is wrong when the erased entry was alone in its row. *)
Theorem C08_sparse_erase_next_refuted :
  exists (m m' : smat NumF64) it it', built m /\ walks m it /\ it1 it = 0 /\ it2 it = 0 /\
    s_erase m it = Ok (m', it') /\ s_entries m' = Ok [(1, 1, fz 1)] /\ it1 it' = 0 /\ it2 it' = 1.
Proof.
  exists (get s_default (s_of_list [[fz 1; fz 0]; [fz 0; fz 1]])). eexists. exists (mkI 0 0 0). eexists.
  split; [apply of_list_built; vm_compute; reflexivity|]. split; [apply w_begin; vm_compute; reflexivity|].
  split; [reflexivity|]. split; [reflexivity|].
  split; [apply (ok_get2 (s_default, mkI 0 0 0)); vm_compute; reflexivity|]. repeat split; vm_compute; reflexivity.
Qed.

Theorem C08_sparse_set_through_iterator (N : Num) (HZ : ZeroLaws N) :
  forall d1 d2 a (m : smat N) it v, built m -> reads m d1 d2 a -> walks m it -> ~ at_end m it ->
  exists m' it', s_set_it m it v = Ok (m', it') /\ built m' /\
    reads m' d1 d2 (fun i j => if (i =? it1 it) && (j =? it2 it) then norm0 v else a i j) /\
    (is0 v = false -> it' = it).
Proof. exact (set_iter N HZ). Qed.

Example C08_example : exists it, walks exA it /\ ~ at_end exA it /\
  (let* (m, i) := s_erase exA it in s_entries m) = Ok [(2, 0, fz (-3)); (2, 2, fz 5)].
Proof.
  exists (mkI 0 1 0). split; [apply w_begin; vm_compute; reflexivity|].
  split; [unfold at_end; vm_compute; discriminate|vm_compute; reflexivity].
Qed.

(** ** C09: swap *)
Theorem C09_sparse_swap_partial (N : Num) (HZ : ZeroLaws N) :
  forall A B : smat N, built A -> built B -> s_cols A = s_cols B -> s_swap A B = (B, A).
Proof. exact (swap_same_cols N HZ). Qed.

(** With different column counts both matrices are left inconsistent. *)
Theorem C09_sparse_swap_refuted :
  exists A B : smat NumF64, built A /\ built B /\
    s_at B 0 2 = Ok (fz 7) /\ s_at (fst (s_swap A B)) 0 2 = Abort /\
    s_cols (fst (s_swap A B)) <> s_cols B /\ s_row_entries (fst (s_swap A B)) 0 = Ok [].
Proof.
  exists (get s_default (s_of_list [[fz 1]])), (get s_default (s_of_list [[fz 0; fz 0; fz 7]])).
  split; [apply of_list_built; vm_compute; reflexivity|]. split; [apply of_list_built; vm_compute; reflexivity|].
  repeat split; try (vm_compute; reflexivity). vm_compute. discriminate.
Qed.

Example C09_example :
  let A := get s_default (s_of_list [[fz 1; fz 2]]) in
  let B := get s_default (s_of_list [[fz 0; fz 3]; [fz 4; fz 0]; [fz 5; fz 6]]) in
  built A /\ built B /\ s_cols A = s_cols B /\
  s_rows (fst (s_swap A B)) = 3 /\ s_entries (snd (s_swap A B)) = Ok [(0, 0, fz 1); (0, 1, fz 2)].
Proof.
  cbv zeta. split; [apply of_list_built; vm_compute; reflexivity|]. split; [apply of_list_built; vm_compute; reflexivity|].
  repeat split; vm_compute; reflexivity.
Qed.

(** ** C10: transpose, conjugate, adjugate *)
Theorem C10_sparse_transpose (N : Num) (HZ : ZeroLaws N) :
  forall d1 d2 a (m : smat N), built m -> reads m d1 d2 a ->
  exists t, s_transpose m = Ok t /\ built t /\ reads t d2 d1 (fun i j => a j i) /\
    exists u, s_transpose t = Ok u /\ u = m.
Proof. exact (transpose_entries N HZ). Qed.

Theorem C10_sparse_conjugate (N : Num) (HF : FieldLaws N) (HC : ConjLaws N) :
  forall d1 d2 a (m : smat N), built m -> reads m d1 d2 a ->
  (exists c, s_conjugate m = Ok c /\ built c /\ reads c d1 d2 (fun i j => nconj (a i j))) /\
  (exists c, s_adjugate m = Ok c /\ built c /\ reads c d2 d1 (fun i j => nconj (a j i)) /\
     exists u, s_adjugate c = Ok u /\ u = m).
Proof. exact (conjugate_entries N HF HC). Qed.

Example C10_example : (let* t := s_transpose exA in s_entries t) = Ok [(0, 2, fz (-3)); (1, 0, fz 2); (2, 2, fz 5)].
Proof. vm_compute. reflexivity. Qed.

(** ** C11: product *)
Theorem C11_sparse_mul (N : Num) (HF : FieldLaws N) :
  forall d1 d2 d3 a b (A B : smat N), built A -> built B -> reads A d1 d2 a -> reads B d2 d3 b ->
  exists C, s_mul A B = Ok C /\ built C /\ reads C d1 d3 (fun i k => bigsum d2 (fun j => (a i j * b j k)%num)).
Proof. exact (mul_field N HF). Qed.

(** Any number type: the sum runs over the non-zero entries of the row, in column order. *)
Theorem C11_sparse_mul_general (N : Num) (HZ : ZeroLaws N) :
  forall d1 d2 d3 a b (A B : smat N), built A -> built B -> reads A d1 d2 a -> reads B d2 d3 b ->
  exists C, s_mul A B = Ok C /\ built C /\
    reads C d1 d3 (fun i k => norm0 (sparse_dot d2 (a i) (fun j => b j k))).
Proof. exact (mul_general N HZ). Qed.

Theorem C11_sparse_mul_mismatch (N : Num) :
  forall A B : smat N, s_cols A <> s_rows B -> s_mul A B = Throw MatrixMulMismatch.
Proof. exact (mul_mismatch N). Qed.

Theorem C11_sparse_mul_assoc (N : Num) (HF : FieldLaws N) :
  forall A B C : smat N, built A -> built B -> built C -> s_cols A = s_rows B -> s_cols B = s_rows C ->
  exists AB BC L, s_mul A B = Ok AB /\ s_mul B C = Ok BC /\ s_mul AB C = Ok L /\ s_mul A BC = Ok L.
Proof. exact (mul_assoc N HF). Qed.

Theorem C11_sparse_mul_unit (N : Num) (HF : FieldLaws N) :
  forall d1 d2 (A I1 I2 : smat N), built A -> built I1 -> built I2 -> s_rows A = d1 -> s_cols A = d2 ->
  reads I1 d1 d1 (fun i j => if i =? j then n1 else n0) -> reads I2 d2 d2 (fun i j => if i =? j then n1 else n0) ->
  s_mul I1 A = Ok A /\ s_mul A I2 = Ok A.
Proof. exact (mul_unit N HF). Qed.

Example C11_example : (let* C := s_mul exA exA in s_entries C) = Ok [(2, 0, fz (-15)); (2, 1, fz (-6)); (2, 2, fz 25)].
Proof. vm_compute. reflexivity. Qed.

(** ** C12: matrix-vector products *)
Theorem C12_sparse_mul_vector (N : Num) (HF : FieldLaws N) :
  forall d1 d2 a (m : smat N) v, built m -> reads m d1 d2 a -> length v = d2 ->
  s_mulv m v = Ok (map (fun i => bigsum d2 (fun j => (a i j * nth j v n0)%num)) (seq 0 d1)).
Proof. exact (mulv_field N HF). Qed.
Theorem C12_sparse_mul_left_vector (N : Num) (HF : FieldLaws N) :
  forall d1 d2 a (m : smat N) v, built m -> reads m d1 d2 a -> length v = d1 ->
  s_mulv_left m v = Ok (map (fun j => bigsum d1 (fun i => (nth i v n0 * a i j)%num)) (seq 0 d2)).
Proof. exact (mulv_left_field N HF). Qed.
Theorem C12_sparse_vector_general (N : Num) (HZ : ZeroLaws N) :
  forall d1 d2 a (m : smat N) v, built m -> reads m d1 d2 a ->
  (length v = d2 -> s_mulv m v = Ok (map (fun i => sparse_dot d2 (a i) (fun j => nth j v n0)) (seq 0 d1))) /\
  (length v = d1 -> s_mulv_left m v = Ok (map (fun j => sparse_dot d1 (fun i => a i j) (fun i => nth i v n0)) (seq 0 d2))).
Proof. exact (mulv_general N HZ). Qed.
Theorem C12_sparse_vector_mismatch (N : Num) :
  forall (m : smat N) v, (s_cols m <> length v -> s_mulv m v = Throw MatrixMulMismatch) /\
                         (s_rows m <> length v -> s_mulv_left m v = Throw MatrixMulMismatch).
Proof. exact (mulv_mismatches N). Qed.
Example C12_example : s_mulv exA [fz 1; fz 2; fz 3] = Ok [fz 4; fz 0; fz 12] /\
  s_mulv_left exA [fz 1; fz 2; fz 3] = Ok [fz (-9); fz 2; fz 15].
Proof. split; vm_compute; reflexivity. Qed.

(** ** C13: equality *)
Theorem C13_sparse_equality (N : Num) (HZ : ZeroLaws N) :
  forall d1 d2 e1 e2 a b (A B : smat N), built A -> built B -> reads A d1 d2 a -> reads B e1 e2 b ->
  exists r, s_eq A B = Ok r /\ s_ne A B = Ok (negb r) /\
  (r = true <-> d1 = e1 /\ d2 = e2 /\ forall i j, i < d1 -> j < d2 -> neqb (a i j) (b i j) = true).
Proof. exact (eq_entries N HZ). Qed.
Example C13_example : s_eq exA exA = Ok true /\ (let* t := s_transpose exA in s_eq exA t) = Ok false.
Proof. split; vm_compute; reflexivity. Qed.

(** ** C14: initializer lists *)
Theorem C14_sparse_from_list (N : Num) (HZ : ZeroLaws N) :
  forall l : list (list N), l <> [] -> (exists r, In r l /\ r <> []) ->
  exists m, s_of_list l = Ok m /\
    reads m (length l) (list_max (map (@length N) l)) (fun i j => norm0 (nth j (nth i l []) n0)).
Proof. exact (from_list N HZ). Qed.

Example C14_example :
  (let* m := @s_of_list NumF64 [[fz 1]; []; [fz 0; fz 2; fz 3]] in
   let* e := s_entries m in let* x := s_at m 1 2 in Ok (s_rows m, s_cols m, e, x))
  = Ok (3, 3, [(0, 0, fz 1); (2, 1, fz 2); (2, 2, fz 3)], fz 0).
Proof. vm_compute. reflexivity. Qed.

(** ** C15: aggregates *)
Theorem C15_sparse_sum_trace_avg (N : Num) (HF : FieldLaws N) :
  forall d1 d2 a (m : smat N), built m -> reads m d1 d2 a ->
  s_sum m = bigsum d1 (fun i => bigsum d2 (fun j => a i j)) /\
  s_avg m = (bigsum d1 (fun i => bigsum d2 (fun j => a i j)) / nofnat (d1 * d2))%num /\
  s_trace m = Ok (bigsum (Nat.min d1 d2) (fun i => a i i)).
Proof. exact (sum_trace_avg N HF). Qed.
(** Any number type. *)
Theorem C15_sparse_sum_trace_general (N : Num) (HZ : ZeroLaws N) :
  forall d1 d2 a (m : smat N), built m -> reads m d1 d2 a ->
  s_sum m = fold_left nadd (map (fun p => a (fst p) (snd p)) (nonzeros d1 d2 a)) n0 /\
  s_trace m = Ok (bigsum (Nat.min d1 d2) (fun i => a i i)).
Proof. exact (sum_trace_general N HZ). Qed.
(** max() is right only if some entry reaches numeric_limits::min() (the smallest positive number). *)
Theorem C15_sparse_max_partial (N : Num) (HO : OrdFieldLaws N) : nltb (@n0 N) nminpos = true ->
  forall d1 d2 a (m : smat N), built m -> reads m d1 d2 a ->
  (exists i j, i < d1 /\ j < d2 /\ nleb nminpos (a i j) = true) -> greatest d1 d2 a (s_max m).
Proof. exact (max_entry N HO). Qed.
Theorem C15_sparse_min (N : Num) (HO : OrdFieldLaws N) : nltb (@n0 N) nmax = true ->
  forall d1 d2 a (m : smat N), built m -> reads m d1 d2 a ->
  (exists i j, i < d1 /\ j < d2 /\ nleb (a i j) nmax = true) -> least d1 d2 a (s_min m).
Proof. exact (min_entry N HO). Qed.
Theorem C15_sparse_max_refuted :
  exists m : smat NumF64, built m /\ s_rows m = 1 /\ s_cols m = 2 /\ s_at m 0 0 = Ok (fz (-1)) /\ s_at m 0 1 = Ok (fz (-2)) /\
    nltb n0 (s_max m) = true.
Proof.
  exists (get s_default (s_of_list [[fz (-1); fz (-2)]])).
  split; [apply of_list_built; vm_compute; reflexivity|]. repeat split; vm_compute; reflexivity.
Qed.
Example C15_example : s_sum exA = fz 4 /\ s_trace exA = Ok (fz 5) /\ s_max exA = fz 5 /\ s_min exA = fz (-3).
Proof. repeat split; vm_compute; reflexivity. Qed.

(** ** C16: linear access *)
Theorem C16_sparse_linear_access (N : Num) :
  forall d1 d2 a (m : smat N), reads m d1 d2 a ->
  (forall i j, i < d1 -> j < d2 -> i * d2 + j < s_size m /\
     s_linear_at m (i * d2 + j) = s_at m i j /\ forall v, s_linear_set m (i * d2 + j) v = s_set m i j v) /\
  (forall k, k < s_size m -> exists i j, i < d1 /\ j < d2 /\ k = i * d2 + j /\
     s_linear_at m k = s_at m i j /\ forall v, s_linear_set m k v = s_set m i j v).
Proof. exact (linear_access N). Qed.
Example C16_example : s_linear_at exA 6 = Ok (fz (-3)).
Proof. vm_compute. reflexivity. Qed.

(** ** C17: resize *)
(** resize only checks its arguments; the shape stays (also SparseMatrix's only resize). *)
Theorem C17_sparse_resize_is_noop (N : Num) :
  forall (m : smat N) d1 d2, 0 < d1 -> 0 < d2 -> s_resize m d1 d2 = Ok m.
Proof. exact (resize_noop N). Qed.
Theorem C17_sparse_resize_refuted :
  exists (m m' : smat NumF64), built m /\ s_resize m 2 2 = Ok m' /\ s_rows m' <> 2.
Proof.
  exists exA. eexists. split; [exact exA_built|]. split; [reflexivity|]. vm_compute. discriminate.
Qed.
