(** Properties C16-C21 and C63-C65 of DenseMatrix and FixedMatrix.  Vocabulary: Spec.v, DenseSpec.v
    (dbuilt: obtained through the public interface; dreads: rows(), columns() and at() answer like a
    table) and the history vocabulary of SparseSpec.v.  Unless a law record is assumed, N is any number
    type, IEEE doubles included. *)
From Coq Require Import List Arith Bool ZArith QArith Qcanon.
From Verif Require Import Base Num NumInst Spec VectorModel SparseSpec DenseModel DenseSpec DensePropProofs
  ExampleBase.
Import ListNotations.
Local Open Scope nat_scope.
Open Scope res_scope.

(** Concrete matrices used below: exA = [[1,2,3],[4,5,6]], exB its 3x2 reshape. *)
Definition exA : dmat NumF64 := get d_default (d_of_list [[fz 1; fz 2; fz 3]; [fz 4; fz 5; fz 6]]).
Definition exB : dmat NumF64 := get d_default (d_of_list [[fz 1; fz 2]; [fz 3; fz 4]; [fz 5; fz 6]]).
Lemma exA_built : dbuilt exA.
Proof. eapply db_list. apply ok_get. vm_compute. reflexivity. Qed.
Lemma exB_built : dbuilt exB.
Proof. eapply db_list. apply ok_get. vm_compute. reflexivity. Qed.

(** ** C16: linear access *)
Theorem C16_dense_linear_access (N : Num) :
  forall (m : dmat N) d1 d2 a, dbuilt m -> dreads m d1 d2 a ->
  (forall i j, i < d1 -> j < d2 -> i * d2 + j < d_size m /\
     d_linear_at m (i * d2 + j) = d_at m i j /\ forall v, d_linear_set m (i * d2 + j) v = d_set m i j v) /\
  (forall k, k < d_size m -> exists i j, i < d1 /\ j < d2 /\ k = i * d2 + j /\
     d_linear_at m k = d_at m i j /\ forall v, d_linear_set m k v = d_set m i j v).
Proof. exact (pd_linear N). Qed.
Example C16_dense_example : d_linear_at exA 5 = d_at exA 1 2 /\ d_at exA 1 2 = Ok (fz 6).
Proof. split; vm_compute; reflexivity. Qed.

(** ** C17: resize *)
Theorem C17_dense_resize_is_noop (N : Num) :
  forall (m : dmat N) d1 d2, 0 < d1 -> 0 < d2 -> d_resize m d1 d2 = Ok m.
Proof. exact (pd_resize N). Qed.
Theorem C17_dense_resize_refuted :
  exists (m m' : dmat NumF64), dbuilt m /\ d_resize m 5 5 = Ok m' /\ d_rows m' <> 5.
Proof.
  exists exA. eexists. split; [exact exA_built|]. split; [reflexivity|]. vm_compute. discriminate.
Qed.

(** ** C18: reads return the last write *)
Theorem C18_dense_new (N : Num) :
  forall d1 d2,
  (0 < d1 -> 0 < d2 -> exists m : dmat N, d_new d1 d2 = Ok m /\ dbuilt m /\ dreads m d1 d2 (fun _ _ => n0)) /\
  (d1 = 0 \/ d2 = 0 -> @d_new N d1 d2 = Abort) /\
  dreads (@d_fixed_new N d1 d2) d1 d2 (fun _ _ => n0).
Proof. exact (pd_new N). Qed.
Theorem C18_dense_every_built_matrix_reads (N : Num) :
  forall m : dmat N, dbuilt m -> exists a, dreads m (d_rows m) (d_cols m) a.
Proof. exact (pd_reads N). Qed.
(** Any history of set(i,j,v)/linear_set(k,v), from any matrix. *)
Theorem C18_dense_history (N : Num) :
  forall (ops : list (wop N)) m d1 d2 a, dbuilt m -> dreads m d1 d2 a -> Forall (in_range d1 d2) ops ->
  exists m', d_run m ops = Ok m' /\ dbuilt m' /\ dreads m' d1 d2 (fun i j => last_write d2 ops i j (a i j)).
Proof. exact (pd_history N). Qed.
Theorem C18_dense_has (N : Num) :
  forall (m : dmat N) d1 d2 a, dreads m d1 d2 a -> forall i j, i < d1 -> j < d2 ->
  d_has m i j = Ok (negb (is0 (a i j))) /\ d_has_val m i j = Ok (negb (is0 (a i j)), a i j).
Proof. exact (pd_has N). Qed.
Theorem C18_dense_out_of_range (N : Num) :
  forall (m : dmat N) d1 d2 a, dreads m d1 d2 a ->
  (forall i j v, d1 <= i \/ d2 <= j -> d_at m i j = Abort /\ d_set m i j v = Abort /\ d_has m i j = Abort) /\
  (forall k v, d1 * d2 <= k -> d_linear_at m k = Abort /\ d_linear_set m k v = Abort).
Proof. exact (pd_out N). Qed.
Example C18_example :
  (let* m := d_run exA [WSet 0 1 (fz 9); WLin 1 (fz 8); WSet 1 0 (fz 7)] in d_entries m)
  = Ok [(0,0,fz 1); (0,1,fz 8); (0,2,fz 3); (1,0,fz 7); (1,1,fz 5); (1,2,fz 6)].
Proof. vm_compute. reflexivity. Qed.

(** ** C19: elementwise operators *)
Theorem C19_dense_elementwise_partial (N : Num) :
  forall (A B : dmat N) d1 d2 a b, dbuilt A -> dbuilt B -> dreads A d1 d2 a -> dreads B d1 d2 b ->
  (exists C, d_add A B = Ok C /\ d_add_eq A B = Ok C /\ dbuilt C /\ dreads C d1 d2 (fun i j => (a i j + b i j)%num)) /\
  (exists C, d_sub A B = Ok C /\ d_sub_eq A B = Ok C /\ dbuilt C /\ dreads C d1 d2 (fun i j => (a i j - b i j)%num)) /\
  (exists C, d_hadamard A B = Ok C /\ d_hadamard_eq A B = Ok C /\ dbuilt C /\ dreads C d1 d2 (fun i j => (a i j * b i j)%num)).
Proof. exact (pd_ops N). Qed.
(** The throwing case: different numbers of entries.  (The full claim, different shapes, is refuted
    below: equal sizes pass the check and the operands are combined in storage order.) *)
Theorem C19_dense_mismatch_partial (N : Num) :
  forall A B : dmat N, d_rows A * d_cols A <> d_rows B * d_cols B ->
  d_add A B = Throw MatrixSizeMismatch /\ d_sub A B = Throw MatrixSizeMismatch /\ d_hadamard A B = Throw MatrixSizeMismatch /\
  d_add_eq A B = Throw MatrixSizeMismatch /\ d_sub_eq A B = Throw MatrixSizeMismatch /\ d_hadamard_eq A B = Throw MatrixSizeMismatch.
Proof. exact (pd_size_mismatch N). Qed.
Theorem C19_dense_equal_size (N : Num) :
  forall (op : N -> N -> N) A B d1 d2 e1 e2 a b,
  dbuilt A -> dbuilt B -> dreads A d1 d2 a -> dreads B e1 e2 b -> d1 * d2 = e1 * e2 ->
  exists C, d_combine_eq op A B = Ok C /\
    dreads C d1 d2 (fun i j => op (a i j) (b ((i * d2 + j) / e2) ((i * d2 + j) mod e2))).
Proof. exact (pd_reshape N). Qed.
Theorem C19_dense_shape_check_refuted :
  exists (A B C : dmat NumF64), dbuilt A /\ dbuilt B /\ d_rows A = 2 /\ d_cols A = 3 /\ d_rows B = 3 /\ d_cols B = 2 /\
    d_add A B = Ok C.
Proof.
  exists exA, exB, (get d_default (d_add exA exB)). repeat split; try exact exA_built; try exact exB_built.
Qed.
(** A += A, A -= A, A *= A with the same object on both sides *)
Theorem C19_dense_self (N : Num) :
  forall (op : N -> N -> N) A d1 d2 a, dbuilt A -> dreads A d1 d2 a ->
  exists C, d_combine_self op A = Ok C /\ dbuilt C /\ dreads C d1 d2 (fun i j => op (a i j) (a i j)).
Proof. exact (pd_self N). Qed.
Theorem C19_dense_scale (N : Num) :
  forall (A : dmat N) d1 d2 a f, dbuilt A -> dreads A d1 d2 a ->
  exists C, d_scale A f = Ok C /\ d_scale_eq A f = Ok C /\ dbuilt C /\ dreads C d1 d2 (fun i j => (a i j * f)%num).
Proof. exact (pd_scale N). Qed.
Theorem C19_dense_negate (N : Num) (HF : FieldLaws N) :
  forall (A : dmat N) d1 d2 a, dbuilt A -> dreads A d1 d2 a ->
  exists C, d_neg A = Ok C /\ dbuilt C /\ dreads C d1 d2 (fun i j => (- a i j)%num).
Proof. exact (pd_neg N HF). Qed.
(** A *= *it where it designates entry (p,q) of A itself: the factor is squared for all later entries. *)
Theorem C19_dense_scale_by_own_entry (N : Num) :
  forall (A : dmat N) d1 d2 a p q, dbuilt A -> dreads A d1 d2 a -> p < d1 -> q < d2 ->
  exists C, d_scale_alias A (p * d2 + q) = Ok C /\
    dreads C d1 d2 (fun i j => (a i j * (if i * d2 + j <=? p * d2 + q then a p q else a p q * a p q))%num).
Proof. exact (pd_alias N). Qed.
Theorem C19_dense_scale_by_own_entry_refuted :
  exists (A C : dmat NumF64), dbuilt A /\ d_at A 0 1 = Ok (fz 2) /\ d_at A 1 0 = Ok (fz 4) /\
    d_scale_alias A 1 = Ok C /\ d_at C 1 0 = Ok (fz 16).
Proof.
  exists exA, (get d_default (d_scale_alias exA 1)). split; [exact exA_built|].
  split; [vm_compute; reflexivity|]. split; [vm_compute; reflexivity|].
  split; [apply ok_get; vm_compute; reflexivity|vm_compute; reflexivity].
Qed.
Example C19_example : (let* C := d_add exA exA in d_at C 1 2) = Ok (fz 12) /\
  (let* C := d_add exA (get d_default (d_new 1 1)) in Ok (d_rows C)) = Throw MatrixSizeMismatch.
Proof. split; vm_compute; reflexivity. Qed.

(** ** C20: products and transposition *)
Theorem C20_dense_mul (N : Num) :
  forall (A B : dmat N) d1 d2 d3 a b, dbuilt A -> dbuilt B -> dreads A d1 d2 a -> dreads B d2 d3 b ->
  exists C, d_fixed_mul A B = Ok C /\ dbuilt C /\ dreads C d1 d3 (prod2 d2 a b) /\
    (0 < d1 -> 0 < d3 -> d_mul A B = Ok C).
Proof. exact (pd_mul N). Qed.
Theorem C20_dense_mul_mismatch (N : Num) :
  forall A B : dmat N, d_cols A <> d_rows B -> d_mul A B = Throw MatrixMulMismatch /\ d_fixed_mul A B = Throw MatrixMulMismatch.
Proof. exact (@DenseProofs.mul_mismatch N). Qed.
Theorem C20_dense_mul_vector (N : Num) :
  forall (A : dmat N) d1 d2 a, dreads A d1 d2 a -> forall v,
  (length v = d2 -> d_mulv A v = Ok (map (fun i => bigsum d2 (fun j => (a i j * nth j v n0)%num)) (seq 0 d1))) /\
  (length v = d1 -> d_mulv_left A v = Ok (map (fun j => bigsum d1 (fun i => (a i j * nth i v n0)%num)) (seq 0 d2))) /\
  (length v <> d2 -> d_mulv A v = Throw MatrixMulMismatch) /\
  (length v <> d1 -> d_mulv_left A v = Throw MatrixMulMismatch).
Proof. exact (pd_mulv N). Qed.
Theorem C20_dense_transpose (N : Num) :
  forall (A : dmat N) d1 d2 a, dbuilt A -> dreads A d1 d2 a ->
  exists C, d_fixed_transpose A = Ok C /\ dbuilt C /\ dreads C d2 d1 (fun i j => a j i) /\
    (0 < d1 -> 0 < d2 -> d_transpose A = Ok C).
Proof. exact (pd_transpose N). Qed.
Theorem C20_dense_transpose_twice (N : Num) :
  forall (A : dmat N) d1 d2 a, dbuilt A -> dreads A d1 d2 a -> 0 < d1 -> 0 < d2 ->
  (let* B := d_transpose A in d_transpose B) = Ok A.
Proof. exact (pd_transpose_invol N). Qed.
Theorem C20_dense_conjugate (N : Num) :
  forall (A : dmat N) d1 d2 a, dbuilt A -> dreads A d1 d2 a -> 0 < d1 -> 0 < d2 ->
  (exists C, d_conjugate A = Ok C /\ dbuilt C /\ dreads C d1 d2 (fun i j => nconj (a i j))) /\
  (exists C, d_adjugate A = Ok C /\ dbuilt C /\ dreads C d2 d1 (fun i j => nconj (a j i))).
Proof. exact (pd_conj N). Qed.
Theorem C20_dense_product_transpose (N : Num) (HF : FieldLaws N) :
  forall (A B : dmat N) d1 d2 d3 a b, dbuilt A -> dbuilt B -> dreads A d1 d2 a -> dreads B d2 d3 b ->
  0 < d1 -> 0 < d2 -> 0 < d3 ->
  exists T, (let* C := d_mul A B in d_transpose C) = Ok T /\
            (let* A' := d_transpose A in let* B' := d_transpose B in d_mul B' A') = Ok T.
Proof. exact (pd_mul_transpose N HF). Qed.
Theorem C20_dense_mul_assoc (N : Num) (HF : FieldLaws N) :
  forall (A B C : dmat N) d1 d2 d3 d4 a b c, dbuilt A -> dbuilt B -> dbuilt C ->
  dreads A d1 d2 a -> dreads B d2 d3 b -> dreads C d3 d4 c -> 0 < d1 -> 0 < d2 -> 0 < d3 -> 0 < d4 ->
  exists R, (let* X := d_mul A B in d_mul X C) = Ok R /\ (let* X := d_mul B C in d_mul A X) = Ok R.
Proof. exact (pd_mul_assoc N HF). Qed.
Example C20_example : (let* C := d_mul exA exB in d_entries C) = Ok [(0,0,fz 22); (0,1,fz 28); (1,0,fz 49); (1,1,fz 64)]
  /\ d_mul exA exA = Throw MatrixMulMismatch /\ d_mulv exA [fz 1; fz 1; fz 1] = Ok [fz 6; fz 15]
  /\ d_mulv_left exA [fz 1; fz 10] = Ok [fz 41; fz 52; fz 63].
Proof. repeat split; vm_compute; reflexivity. Qed.

(** ** C21: iteration *)
Theorem C21_dense_iteration (N : Num) :
  forall (m : dmat N) d1 d2 a, dreads m d1 d2 a -> d_entries m = Ok (map (with_value a) (positions d1 d2)).
Proof. exact (pd_entries N). Qed.
(** The same for an arbitrary loop body. *)
Theorem C21_dense_for_loop (N : Num) :
  forall (St : Type) (m : dmat N) d1 d2 a (f : nat -> nat -> N -> St -> res St) s, dreads m d1 d2 a ->
  d_for m (fun it s => let* v := di_get m it in f (di1 it) (di2 it) v s) s
  = foreach (positions d1 d2) (fun p s => f (fst p) (snd p) (a (fst p) (snd p)) s) s.
Proof. exact (@pd_for N). Qed.
Theorem C21_dense_row_iteration (N : Num) :
  forall (m : dmat N) d1 d2 a i, dreads m d1 d2 a ->
  (i < d1 -> d_row_entries m i = Ok (map (fun j => (i, j, a i j)) (seq 0 d2))) /\
  (d1 <= i -> d_row_entries m i = Abort).
Proof. exact (pd_row N). Qed.
Theorem C21_dense_column_iteration (N : Num) :
  forall (m : dmat N) d1 d2 a j, dreads m d1 d2 a ->
  (j < d2 -> d_col_entries m j = Ok (map (fun i => (i, j, a i j)) (seq 0 d1))) /\
  (d2 <= j -> d_col_entries m j = Abort).
Proof. exact (pd_col N). Qed.
(** Writing (or erasing = writing 0) through an iterator changes that entry only; the returned
    iterator is the given one; at end nothing happens. *)
Theorem C21_dense_set_through_iterator (N : Num) :
  forall (m : dmat N) d1 d2 a it v, dbuilt m -> dreads m d1 d2 a ->
  (di1 it < d1 -> di2 it < d2 ->
    exists m', d_set_it m it v = Ok (m', it) /\ dbuilt m' /\
      dreads m' d1 d2 (fun i j => if (i =? di1 it) && (j =? di2 it) then v else a i j)) /\
  (d1 <= di1 it \/ d2 <= di2 it -> d_set_it m it v = Ok (m, it)).
Proof. exact (pd_set_it N). Qed.
Example C21_example : d_col_entries exA 1 = Ok [(0, 1, fz 2); (1, 1, fz 5)] /\ d_row_entries exA 1 = Ok [(1,0,fz 4); (1,1,fz 5); (1,2,fz 6)]
  /\ d_row_entries exA 2 = Abort /\ d_entries (@d_default NumF64) = Ok [].
Proof. repeat split; vm_compute; reflexivity. Qed.

(** ** C63: construction from lists *)
Theorem C63_dense_from_list (N : Num) :
  forall l : list (list N),
  (l <> [] -> (exists r, In r l /\ r <> []) ->
    exists m, d_of_list l = Ok m /\ dbuilt m /\ dreads m (length l) (list_max (map (@length N) l)) (ragged l)) /\
  (forall k1 k2, l <> [] -> length l <= k1 -> (forall r, In r l -> length r <= k2) ->
    exists m, d_fixed_of_list k1 k2 l = Ok m /\ dbuilt m /\ dreads m k1 k2 (ragged l)) /\
  (forall k1 k2, k1 < length l -> d_fixed_of_list k1 k2 l = Abort) /\
  (forall k1 k2, l <> [] -> length l <= k1 -> (exists r, In r l /\ k2 < length r) -> d_fixed_of_list k1 k2 l = Abort).
Proof. exact (pd_of_list N). Qed.
(** An empty list is not a 0x0 matrix but undefined behaviour (the maximum of an empty range is dereferenced). *)
Theorem C63_dense_from_empty_list_refuted : @d_of_list NumF64 [] = UB /\ @d_fixed_of_list NumF64 2 2 [] = UB.
Proof. split; reflexivity. Qed.
Example C63_example : (let* m := d_of_list [[fz 1]; [fz 2; fz 3]] in d_entries m) = Ok [(0,0,fz 1); (0,1,fz 0); (1,0,fz 2); (1,1,fz 3)].
Proof. vm_compute. reflexivity. Qed.

(** ** C64: equality and swap *)
Theorem C64_dense_equality (N : Num) :
  forall (A B : dmat N) d1 d2 e1 e2 a b, dbuilt A -> dbuilt B -> dreads A d1 d2 a -> dreads B e1 e2 b ->
  (d1 = e1 -> d2 = e2 -> exists r, d_eq A B = Ok r /\ d_ne A B = Ok (negb r) /\
     (r = true <-> forall i j, i < d1 -> j < d2 -> neqb (a i j) (b i j) = true)) /\
  (d1 <> e1 \/ d2 <> e2 -> d_eq A B = Throw MatrixSizeMismatch /\ d_ne A B = Throw MatrixSizeMismatch).
Proof. exact (pd_eq N). Qed.
Theorem C64_dense_swap (N : Num) : forall A B : dmat N, d_swap A B = (B, A).
Proof. exact (pd_swap N). Qed.
Example C64_example : d_eq exA exA = Ok true /\ d_eq exA exB = Throw MatrixSizeMismatch.
Proof. split; vm_compute; reflexivity. Qed.

(** ** C65: aggregates *)
Theorem C65_dense_counts (N : Num) :
  forall (m : dmat N) d1 d2 a, dbuilt m -> dreads m d1 d2 a ->
  d_size m = d1 * d2 /\
  (d_has_nan m = true <-> exists i j, i < d1 /\ j < d2 /\ nisnan (a i j) = true) /\
  (d_has_inf m = true <-> exists i j, i < d1 /\ j < d2 /\ nisinf (a i j) = true) /\
  (d_has_zero m = true <-> exists i j, i < d1 /\ j < d2 /\ is0 (a i j) = true) /\
  (d_empty m = true <-> forall i j, i < d1 -> j < d2 -> is0 (a i j) = true).
Proof. exact (pd_counts N). Qed.
Theorem C65_dense_sum_trace_avg (N : Num) (HF : FieldLaws N) :
  forall (m : dmat N) d1 d2 a, dbuilt m -> dreads m d1 d2 a ->
  d_sum m = bigsum d1 (fun i => bigsum d2 (fun j => a i j)) /\
  d_avg m = (bigsum d1 (fun i => bigsum d2 (fun j => a i j)) / nofnat (d1 * d2))%num /\
  d_trace m = Ok (bigsum (Nat.min d1 d2) (fun i => a i i)).
Proof. exact (pd_sum_exact N HF). Qed.
(** Any number type: the summation order is row-major. *)
Theorem C65_dense_sum_general (N : Num) :
  forall (m : dmat N) d1 d2 a, dbuilt m -> dreads m d1 d2 a ->
  d_sum m = fold_left nadd (values d1 d2 a) n0 /\ d_avg m = (fold_left nadd (values d1 d2 a) n0 / nofnat (d1 * d2))%num.
Proof. exact (pd_sum N). Qed.
(** max() is right only if some entry reaches numeric_limits::min(). *)
Theorem C65_dense_max_partial (N : Num) (HO : OrdFieldLaws N) :
  forall (m : dmat N) d1 d2 a, dbuilt m -> dreads m d1 d2 a ->
  (exists i j, i < d1 /\ j < d2 /\ nleb nminpos (a i j) = true) -> greatest d1 d2 a (d_max m).
Proof. exact (pd_max N HO). Qed.
Theorem C65_dense_min (N : Num) (HO : OrdFieldLaws N) :
  forall (m : dmat N) d1 d2 a, dbuilt m -> dreads m d1 d2 a ->
  (exists i j, i < d1 /\ j < d2 /\ nleb (a i j) nmax = true) -> least d1 d2 a (d_min m).
Proof. exact (pd_min N HO). Qed.
Theorem C65_dense_max_refuted :
  exists m : dmat NumF64, dbuilt m /\ d_rows m = 1 /\ d_cols m = 2 /\ d_at m 0 0 = Ok (fz (-1)) /\ d_at m 0 1 = Ok (fz (-2)) /\
    nltb n0 (d_max m) = true.
Proof.
  exists (get d_default (d_of_list [[fz (-1); fz (-2)]])).
  split; [eapply db_list; apply ok_get; vm_compute; reflexivity|]. repeat split; vm_compute; reflexivity.
Qed.
Example C65_example : d_sum exA = fz 21 /\ d_max exA = fz 6 /\ d_min exA = fz 1 /\ d_trace exA = Ok (fz 6).
Proof. repeat split; vm_compute; reflexivity. Qed.
