(** Properties C22-C27 and C62 of Vector and CountableSet.  A vector is the list of its elements.
    Vocabulary: Spec.v, VectorSpec.v. *)
From Coq Require Import List Arith Bool ZArith QArith Qcanon Reals.
From Coq.Floats Require Import SpecFloat.
From Verif Require Import Base Num NumInst Spec SpecProofs VectorModel VectorSpec VectorPropProofs
  ExampleBase.
Import ListNotations.
Local Open Scope nat_scope.
Open Scope res_scope.

(** ** C22: elementwise operators *)
Theorem C22_vector_elementwise (N : Num) :
  forall v w : list N, length v = length w ->
  v_add v w = Ok (zip nadd v w) /\ v_sub v w = Ok (zip nsub v w) /\
  v_mul v w = Ok (zip nmul v w) /\ v_div v w = Ok (zip ndiv v w) /\
  v_add_eq v w = Ok (zip nadd v w) /\ v_sub_eq v w = Ok (zip nsub v w) /\
  v_mul_eq v w = Ok (zip nmul v w) /\ v_div_eq v w = Ok (zip ndiv v w).
Proof. exact (p_elementwise N). Qed.
(** v op= v, operand and target being the same object *)
Theorem C22_vector_elementwise_self (N : Num) :
  forall (op : N -> N -> N) v, v_inplace_self op v = Ok (zip op v v).
Proof. exact (p_self N). Qed.
Theorem C22_vector_mismatch (N : Num) :
  forall v w : list N, length v <> length w ->
  v_add v w = Throw VectorSizeMismatch /\ v_sub v w = Throw VectorSizeMismatch /\
  v_mul v w = Throw VectorSizeMismatch /\ v_div v w = Throw VectorSizeMismatch /\
  v_add_eq v w = Throw VectorSizeMismatch /\ v_sub_eq v w = Throw VectorSizeMismatch /\
  v_mul_eq v w = Throw VectorSizeMismatch /\ v_div_eq v w = Throw VectorSizeMismatch /\
  v_dot v w = Throw VectorSizeMismatch /\ v_eq v w = Throw VectorSizeMismatch.
Proof. exact (p_mismatch N). Qed.
(** Scalar forms, any number type (division multiplies by the reciprocal). *)
Theorem C22_vector_scalar (N : Num) :
  forall (v : list N) (f : N),
  v_adds v f = Ok (map (fun x => (x + f)%num) v) /\
  v_subs v f = Ok (map (fun x => (x - f)%num) v) /\
  v_scale v f = Ok (map (fun x => (x * f)%num) v) /\
  v_divs v f = Ok (map (fun x => (x * (n1 / f))%num) v) /\
  v_neg v = Ok (map (fun x => (x * - n1)%num) v) /\
  v_rsub f v = Ok (map (fun x => (x * - n1 + f)%num) v) /\
  v_rdiv f v = Ok (map (fun x => (n1 / x * f)%num) v).
Proof. exact (p_scalar N). Qed.
(** ... and over a field. *)
Theorem C22_vector_scalar_exact (N : Num) (HF : FieldLaws N) :
  forall (v : list N) (f : N),
  (f <> n0 -> v_divs v f = Ok (map (fun x => x / f)%num v)) /\
  v_neg v = Ok (map (fun x => - x)%num v) /\
  v_rsub f v = Ok (map (fun x => f - x)%num v) /\
  ((forall x, In x v -> x <> n0) -> v_rdiv f v = Ok (map (fun x => f / x)%num v)).
Proof. exact (p_scalar_field N HF). Qed.
Example C22_example : v_add [fz 1; fz 2] [fz 3; fz 5] = Ok [fz 4; fz 7] /\ v_rsub (fz 9) [fz 1; fz 2] = Ok [fz 8; fz 7]
  /\ v_sub [fz 1] [] = Throw VectorSizeMismatch.
Proof. repeat split; vm_compute; reflexivity. Qed.

(** ** C23: dot product, magnitude, normalisation *)
Theorem C23_vector_dot (N : Num) :
  forall v w : list N, length v = length w ->
  v_dot v w = Ok (bigsum (length v) (fun i => (nth i v n0 * nth i w n0)%num)) /\
  v_magSqr v = Ok (bigsum (length v) (fun i => (nth i v n0 * nth i v n0)%num)) /\
  v_mag v = Ok (nsqrt (bigsum (length v) (fun i => (nth i v n0 * nth i v n0)%num))).
Proof. exact (p_dot N). Qed.
Theorem C23_vector_dot_symmetric (N : Num) (HF : FieldLaws N) : forall v w : list N, v_dot v w = v_dot w v.
Proof. exact (p_dot_sym N HF). Qed.
Theorem C23_vector_dot_linear (N : Num) (HF : FieldLaws N) :
  forall (u v w : list N) c x y, length u = length v -> length v = length w ->
  v_dot u w = Ok x -> v_dot v w = Ok y ->
  (let* s := v_add u v in v_dot s w) = Ok (x + y)%num /\ (let* s := v_scale u c in v_dot s w) = Ok (c * x)%num.
Proof. exact (p_dot_linear N HF). Qed.
Theorem C23_vector_normalized (N : Num) (HO : OrdFieldLaws N) (HS : SqrtLaws N) :
  forall v : list N, (exists i, i < length v /\ nth i v n0 <> n0) ->
  exists m w, v_mag v = Ok m /\ nltb n0 m = true /\
    (m * m)%num = bigsum (length v) (fun i => (nth i v n0 * nth i v n0)%num) /\
    v_normalized v = Ok w /\ w = map (fun x => (x / m)%num) v /\ v_mag w = Ok n1.
Proof. exact (p_normalized N HO HS). Qed.
(** The hypotheses on N hold of the real numbers; e.g. for the vector (3,4). *)
Example C23_example : exists m w, @v_mag NumR [3%R; 4%R] = Ok m /\ @v_normalized NumR [3%R; 4%R] = Ok w /\ @v_mag NumR w = Ok 1%R.
Proof.
  destruct (C23_vector_normalized NumR NumR_ord NumR_sqrt [3%R; 4%R]) as (m & w & H1 & _ & _ & H2 & _ & H3).
  - exists 0. split; [repeat constructor|]. simpl. apply Rgt_not_eq. apply IZR_lt. reflexivity.
  - exists m, w. auto.
Qed.

(** ** C24: max and min of a vector (and of a dense matrix, which is the same CountableSet code) *)
Theorem C24_vector_max_partial (N : Num) (HO : OrdFieldLaws N) :
  forall v : list N, (exists x, In x v /\ nleb nminpos x = true) -> exists m, v_max v = Ok m /\ largest v m.
Proof. exact (p_max N HO). Qed.
Theorem C24_vector_min (N : Num) (HO : OrdFieldLaws N) :
  forall v : list N, (exists x, In x v /\ nleb x nmax = true) -> exists m, v_min v = Ok m /\ smallest v m.
Proof. exact (p_min N HO). Qed.
(** For every vector: max() is the largest among the entries and the smallest positive number, min() the smallest among the
    entries and the largest number. *)
Theorem C24_vector_exact (N : Num) (HO : OrdFieldLaws N) : forall v : list N,
  (exists m, v_max v = Ok m /\ largest (nminpos :: v) m) /\ (exists m, v_min v = Ok m /\ smallest (nmax :: v) m).
Proof. intros v. split; [exact (p_max_exact N HO v)|exact (p_min_exact N HO v)]. Qed.
(** With no entry reaching the smallest positive number, max() is not an entry at all. *)
Theorem C24_vector_max_refuted :
  exists (v : list NumF64) m, v = [fz (-1); fz (-2)] /\ v_max v = Ok m /\ ~ largest v m.
Proof.
  exists [fz (-1); fz (-2)], nminpos. split; [reflexivity|]. split; [vm_compute; reflexivity|].
  intros [[H|[H|[]]] _]; vm_compute in H; discriminate.
Qed.
Example C24_example : v_max [fz 1; fz 5; fz 3] = Ok (fz 5) /\ v_min [fz 1; fz (-5); fz 3] = Ok (fz (-5)).
Proof. split; vm_compute; reflexivity. Qed.

(** ** C25: sub-vectors.  For a FixedVector of size n the result has size n, the slice first. *)
Theorem C25_vector_slices_fixed_partial (N : Num) :
  forall (v : list N) i j, i < length v -> j < length v -> i <= j ->
  v_left (length v) v i = Ok (firstn (i + 1) v ++ repeat n0 (length v - (i + 1))) /\
  v_right (length v) v i = Ok (skipn i v ++ repeat n0 i) /\
  (forall e, i < e -> e <= length v ->
     v_mid (length v) v i e = Ok (firstn (e - i) (skipn i v) ++ repeat n0 (length v - (e - i)))).
Proof. exact (p_slices N). Qed.
(** For a DynamicVector every in-range call aborts. *)
Theorem C25_vector_slices_dynamic_refuted (N : Num) :
  forall (v : list N) i, i < length v ->
  v_left 0 v i = Abort /\ v_right 0 v i = Abort /\ (forall e, i < e -> v_mid 0 v i e = Abort).
Proof. exact (p_slices_dynamic N). Qed.
Theorem C25_vector_has (N : Num) :
  forall (v : list N) i e x, v_has v i e x = Ok (existsb (fun y => neqb y x) (firstn (e - i) (skipn i v))).
Proof. exact (p_has N). Qed.
Example C25_example : v_mid 4 [fz 1; fz 2; fz 3; fz 4] 1 3 = Ok [fz 2; fz 3; fz 0; fz 0] /\
  v_mid 0 [fz 1; fz 2; fz 3; fz 4] 1 3 = Abort.
Proof. split; vm_compute; reflexivity. Qed.

(** ** C26: a scalar argument that is an element of the vector itself.
    What happens for element k: elements up to k use the value passed, later ones the updated one. *)
Theorem C26_vector_alias_exact (N : Num) :
  forall (op : N -> N -> N) v k, k < length v ->
  v_scalar_alias op v k = Ok (map (fun j => op (nth j v n0)
     (if j <=? k then nth k v n0 else op (nth k v n0) (nth k v n0))) (seq 0 (length v))).
Proof. exact (p_alias N). Qed.
Theorem C26_vector_alias_last_partial (N : Num) :
  forall (op : N -> N -> N) v, v <> [] ->
  v_scalar_alias op v (length v - 1) = Ok (map (fun x => op x (nth (length v - 1) v n0)) v).
Proof. exact (p_alias_last N). Qed.
Theorem C26_vector_div_alias (N : Num) :
  forall (v : list N) k, k < length v ->
  v_scalar_div_alias v k = Ok (map (fun x => (x * (n1 / nth k v n0))%num) v).
Proof. exact (p_div_alias N). Qed.
Theorem C26_vector_alias_refuted :
  exists v : list NumF64, v_scalar_alias nmul v 0 <> Ok (map (fun x => (x * nth 0 v n0)%num) v) /\
    v = [fz 2; fz 3] /\ v_scalar_alias nmul v 0 = Ok [fz 4; fz 12].
Proof.
  exists [fz 2; fz 3]. split; [|split]; [|reflexivity|vm_compute; reflexivity].
  intros H. vm_compute in H. discriminate.
Qed.

Example C26_example :
  v_scalar_alias nsub [fz 2; fz 3; fz 5] 2 = Ok [fz (-3); fz (-2); fz 0] /\
  v_scalar_div_alias [fz 2; fz 4; fz 6] 0 = Ok [fz 1; fz 2; fz 3].
Proof. split; vm_compute; reflexivity. Qed.

(** ** C27: resize, swap, == *)
Theorem C27_vector_resize (N : Num) :
  forall (v : list N) n,
  length (v_resize v n) = n /\
  (forall i, i < n -> nth i (v_resize v n) n0 = nth i v n0) /\
  (forall i, i < n -> length v <= i -> nth i (v_resize v n) n0 = n0).
Proof. exact (p_resize N). Qed.
Theorem C27_vector_equality (N : Num) :
  forall v w : list N, length v = length w ->
  exists r, v_eq v w = Ok r /\ v_ne v w = Ok (negb r) /\
  (r = true <-> forall i, i < length v -> neqb (nth i v n0) (nth i w n0) = true).
Proof. exact (p_eq N). Qed.
(** swap exchanges the two vectors: sizes and every element *)
Theorem C27_vector_swap (N : Num) :
  forall v w : list N, exists v' w', v_swap v w = (v', w') /\
  v_size v' = length w /\ v_size w' = length v /\
  (forall i, i < length w -> v_at v' i = Ok (nth i w n0)) /\
  (forall i, i < length v -> v_at w' i = Ok (nth i v n0)).
Proof. exact (p_swap N). Qed.
Example C27_swap_example : v_swap [fz 1; fz 2] [fz 3] = ([fz 3], [fz 1; fz 2]).
Proof. vm_compute; reflexivity. Qed.
Example C27_example : v_resize [fz 1; fz 2] 4 = [fz 1; fz 2; fz 0; fz 0] /\ v_eq [fz 1; fz 2] [fz 1; fz 3] = Ok false.
Proof. split; vm_compute; reflexivity. Qed.

(** ** C62: construction, access, iteration, aggregates *)
Theorem C62_vector_from_list (N : Num) :
  forall (l : list N) n,
  v_of_list_dyn l = Ok l /\
  (length l <= n -> v_of_list_fixed n l = Ok (l ++ repeat n0 (n - length l))) /\
  (n < length l -> v_of_list_fixed n l = Abort).
Proof. exact (p_of_list N). Qed.
Theorem C62_vector_access (N : Num) :
  forall (v : list N) i x,
  (i < length v -> v_at v i = Ok (nth i v n0) /\
     exists w, v_set v i x = Ok w /\ length w = length v /\ nth i w n0 = x /\ forall j, j <> i -> nth j w n0 = nth j v n0) /\
  (length v <= i -> v_at v i = Abort /\ v_set v i x = Abort).
Proof. exact (p_access N). Qed.
(** A loop from begin() to end() runs the body on the elements in order, each once. *)
Theorem C62_vector_iteration (N : Num) :
  forall St (v : list N) (f : N -> St -> res St) s, v_iterate v f s = foreach v f s.
Proof. exact (p_iterate N). Qed.
Theorem C62_vector_aggregates (N : Num) :
  forall v : list N,
  v_sum v = Ok (bigsum (length v) (fun i => nth i v n0)) /\
  v_avg v = Ok (bigsum (length v) (fun i => nth i v n0) / nofnat (length v))%num /\
  (forall f, v_fill v f = Ok (repeat f (length v))) /\
  v_recip v = Ok (map (fun x => (n1 / x)%num) v) /\
  v_hasNaN v = existsb nisnan v /\ v_hasInf v = existsb nisinf v /\ v_hasZero v = existsb (@is0 N) v.
Proof. exact (p_agg N). Qed.
Example C62_example : v_of_list_fixed 3 [fz 1; fz 2] = Ok [fz 1; fz 2; fz 0] /\ v_sum [fz 1; fz 2; fz 5] = Ok (fz 8).
Proof. split; vm_compute; reflexivity. Qed.
